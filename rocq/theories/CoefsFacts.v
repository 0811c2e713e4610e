(** Facts about the storage layout and about reading and writing ScalarCoefs. *)
From Coq Require Import ZArith List String Bool Lia ZifyBool ZifyNat FinFun Permutation.
From Verif Require Import Py PyFacts Num MCoefs SpecCoefs.
Import ListNotations.
Open Scope list_scope.
Open Scope Z_scope.

(** ** Layout *)

Definition cstart (nmax m : Z) : Z :=
  if m =? 0 then 0
  else nmax + 1 + (Z.abs m - 1) * (2 * (nmax + 1) - Z.abs m)
       + (if m >? 0 then nmax + 1 - Z.abs m else 0).

Definition pos (nmax n m : Z) : Z := cstart nmax m + n - Z.abs m.

Lemma mindx_loop NN a : 1 <= a ->
  pfor (zrange 1 a) (fun i s => let '(ind, ii) := s in (ind + 2 * (NN - i), i + 1)) (NN, 1)
  = (NN + (a - 1) * (2 * NN - a), a).
Proof.
  intros Ha.
  refine (pfor_inv (fun k s => s = (NN + (k - 1) * (2 * NN - k), k)) 1 a _ (NN, 1) Ha _ _).
  - f_equal; ring.
  - intros i s Hi ->. f_equal; ring.
Qed.

Lemma mindx_closed m nmax mmax : Z.abs m <= mmax -> mindx m nmax mmax = Ok (cstart nmax m).
Proof.
  intros H; unfold mindx, cstart.
  destruct (Z.gtb_spec (Z.abs m) mmax); [lia|].
  destruct (Z.eqb_spec m 0) as [->|Hm]; auto.
  rewrite mindx_loop by lia.
  destruct (Z.gtb_spec m 0); f_equal; lia.
Qed.

Lemma mindx_raise m nmax mmax : mmax < Z.abs m ->
  mindx m nmax mmax = Raise (PlainException "|m| cannot be larger than mmax").
Proof. intros H; unfold mindx. destruct (Z.gtb_spec (Z.abs m) mmax); [auto|lia]. Qed.

(** Total size of the columns 0, -1, 1, ..., -a, a. *)
Lemma ncoef_step nmax a : ncoef nmax (a + 1) = ncoef nmax a + 2 * (nmax - a).
Proof. unfold ncoef; ring. Qed.

Lemma cstart_neg nmax a : 1 <= a -> cstart nmax (- a) = ncoef nmax (a - 1).
Proof.
  intros; unfold cstart, ncoef. destruct (Z.eqb_spec (- a) 0); [lia|].
  destruct (Z.gtb_spec (- a) 0); [lia|]. rewrite Z.abs_opp, Z.abs_eq by lia. ring.
Qed.

Lemma cstart_pos nmax a : 1 <= a -> cstart nmax a = ncoef nmax (a - 1) + (nmax + 1 - a).
Proof.
  intros; unfold cstart, ncoef. destruct (Z.eqb_spec a 0); [lia|].
  destruct (Z.gtb_spec a 0); [|lia]. rewrite Z.abs_eq by lia. ring.
Qed.

Lemma cstart_0 nmax : cstart nmax 0 = 0.
Proof. reflexivity. Qed.

Lemma ncoef_0 nmax : ncoef nmax 0 = nmax + 1.
Proof. unfold ncoef; ring. Qed.

Lemma ncoef_mono nmax a b : 0 <= a <= b -> b <= nmax -> ncoef nmax a <= ncoef nmax b.
Proof. unfold ncoef; nia. Qed.

Lemma ncoef_lt nmax a b : 0 <= a < b -> b <= nmax ->
  ncoef nmax a + 2 * (nmax - a) <= ncoef nmax b.
Proof.
  intros. rewrite <- ncoef_step. apply ncoef_mono; lia.
Qed.

(** Each column occupies a block; blocks for |m| = a tile
    [ncoef (a-1), ncoef a). *)
Lemma cstart_block nmax m : 1 <= Z.abs m <= nmax ->
  ncoef nmax (Z.abs m - 1) <= cstart nmax m /\
  cstart nmax m + (nmax + 1 - Z.abs m) <= ncoef nmax (Z.abs m).
Proof.
  intros H. pose proof (ncoef_step nmax (Z.abs m - 1)) as Hs.
  replace (Z.abs m - 1 + 1) with (Z.abs m) in Hs by lia.
  destruct (Z.le_gt_cases 0 m).
  - rewrite (Z.abs_eq m) in * by lia. rewrite cstart_pos by lia. lia.
  - pose proof (cstart_neg nmax (Z.abs m) ltac:(lia)) as Hc.
    replace (- Z.abs m) with m in Hc by lia. lia.
Qed.

Lemma cstart_range nmax mmax m : good_size nmax mmax -> Z.abs m <= mmax ->
  0 <= cstart nmax m /\ cstart nmax m + (nmax + 1 - Z.abs m) <= ncoef nmax mmax.
Proof.
  unfold good_size; intros Hg Hm.
  destruct (Z.eq_dec m 0) as [->|Hne].
  - rewrite cstart_0. pose proof (ncoef_mono nmax 0 mmax). rewrite ncoef_0 in *. lia.
  - pose proof (cstart_block nmax m). pose proof (ncoef_mono nmax (Z.abs m) mmax).
    pose proof (ncoef_mono nmax 0 (Z.abs m - 1)). rewrite ncoef_0 in *. lia.
Qed.

Lemma pos_range nmax mmax n m : good_size nmax mmax -> is_mode nmax mmax n m ->
  0 <= pos nmax n m < ncoef nmax mmax.
Proof.
  unfold is_mode, pos; intros Hg (H1 & H2 & H3).
  pose proof (cstart_range nmax mmax m Hg H3). lia.
Qed.

(** Distinct columns do not overlap. *)
Lemma cstart_disjoint nmax mmax m m' : good_size nmax mmax ->
  Z.abs m <= mmax -> Z.abs m' <= mmax -> m <> m' ->
  cstart nmax m + (nmax + 1 - Z.abs m) <= cstart nmax m' \/
  cstart nmax m' + (nmax + 1 - Z.abs m') <= cstart nmax m.
Proof.
  unfold good_size; intros Hg.
  assert (W : forall m m', Z.abs m <= mmax -> Z.abs m' <= mmax -> Z.abs m < Z.abs m' ->
      cstart nmax m + (nmax + 1 - Z.abs m) <= cstart nmax m').
  { clear m m'; intros m m' H1 H2 H3. pose proof (cstart_block nmax m') as Hb.
    destruct (Z.eq_dec m 0) as [->|Hne].
    - rewrite cstart_0. pose proof (ncoef_mono nmax 0 (Z.abs m' - 1)). rewrite ncoef_0 in *. lia.
    - pose proof (cstart_block nmax m). pose proof (ncoef_mono nmax (Z.abs m) (Z.abs m' - 1)). lia. }
  intros H1 H2 H3.
  destruct (Z.lt_trichotomy (Z.abs m) (Z.abs m')) as [H|[H|H]].
  - left; auto.
  - assert (m' = - m) by lia. subst m'.
    destruct (Z.le_gt_cases 0 m).
    + right. rewrite (cstart_neg nmax m), (cstart_pos nmax m) by lia. lia.
    + left. rewrite (cstart_pos nmax (-m)) by lia. replace m with (- (- m)) at 1 by lia.
      rewrite cstart_neg by lia. lia.
  - right; auto.
Qed.

Lemma pos_inj nmax mmax n m n' m' : good_size nmax mmax ->
  is_mode nmax mmax n m -> is_mode nmax mmax n' m' ->
  pos nmax n m = pos nmax n' m' -> n = n' /\ m = m'.
Proof.
  unfold is_mode, pos; intros Hg (A1 & A2 & A3) (B1 & B2 & B3) E.
  destruct (Z.eq_dec m m') as [->|Hne]; [lia|].
  pose proof (cstart_disjoint nmax mmax m m' Hg A3 B3 Hne). lia.
Qed.

Lemma pos_surj nmax mmax k : good_size nmax mmax -> 0 <= k < ncoef nmax mmax ->
  exists n m, is_mode nmax mmax n m /\ pos nmax n m = k.
Proof.
  unfold good_size. intros [H0 H1]. revert H1. pattern mmax. apply natlike_ind; [| |exact H0].
  - intros H1 Hk. rewrite ncoef_0 in Hk. exists k, 0. unfold is_mode, pos. rewrite cstart_0. lia.
  - clear mmax H0. intros a Ha IH H1 Hk.
    destruct (Z.lt_ge_cases k (ncoef nmax a)).
    + destruct IH as (n & m & Hm & Hp); try lia. exists n, m. unfold is_mode in *. split; [lia|auto].
    + rewrite <- Z.add_1_r, ncoef_step in Hk.
      destruct (Z.lt_ge_cases k (ncoef nmax a + (nmax - a))).
      * exists (k - ncoef nmax a + (a + 1)), (- (a + 1)). unfold is_mode, pos.
        rewrite cstart_neg by lia. replace (a + 1 - 1) with a by lia. lia.
      * exists (k - ncoef nmax a - (nmax - a) + (a + 1)), (a + 1). unfold is_mode, pos.
        rewrite cstart_pos by lia. replace (a + 1 - 1) with a by lia. lia.
Qed.

(** ** all_modes *)

Lemma is_modeb_spec nmax mmax n m : is_modeb nmax mmax n m = true <-> is_mode nmax mmax n m.
Proof. unfold is_modeb, is_mode; lia. Qed.

Lemma In_row_modes mmax n p : In p (row_modes mmax n) <->
  fst p = n /\ Z.abs (snd p) <= Z.min n mmax.
Proof.
  unfold row_modes; rewrite in_map_iff; split.
  - intros (m & <- & H). apply In_zrange in H. cbn. lia.
  - destruct p as [a b]; cbn; intros [-> H]. exists b. split; auto. apply In_zrange; lia.
Qed.

Lemma In_all_modes nmax mmax n m : In (n, m) (all_modes nmax mmax) <-> is_mode nmax mmax n m.
Proof.
  unfold all_modes, is_mode. rewrite in_flat_map. split.
  - intros (x & Hx & H). apply In_zrange in Hx. apply In_row_modes in H. cbn in H. lia.
  - intros H. exists n. split; [apply In_zrange; lia|]. apply In_row_modes; cbn; lia.
Qed.

Lemma NoDup_app_disj {A} (l l' : list A) : NoDup l -> NoDup l' ->
  (forall x, In x l -> In x l' -> False) -> NoDup (l ++ l').
Proof.
  induction l as [|a l IH]; intros H1 H2 H3; cbn; auto.
  inversion H1; subst. constructor.
  - rewrite in_app_iff. intros [H|H]; auto. apply (H3 a); auto. left; auto.
  - apply IH; auto. intros x Hx; apply H3; right; auto.
Qed.

Lemma NoDup_flat_map_disj {A B} (f : A -> list B) l :
  NoDup l -> (forall a, In a l -> NoDup (f a)) ->
  (forall a b x, In a l -> In b l -> In x (f a) -> In x (f b) -> a = b) ->
  NoDup (flat_map f l).
Proof.
  induction l as [|a l IH]; intros Hl Hf Hd; cbn; [constructor|].
  inversion Hl; subst. apply NoDup_app_disj; auto.
  - apply Hf; left; auto.
  - apply IH; auto. intros; apply Hf; right; auto. intros; eapply Hd; eauto; right; auto.
  - intros x Hx Hx'. apply in_flat_map in Hx' as (b & Hb & Hxb).
    assert (a = b) by (eapply Hd; eauto; [left; auto|right; auto]). subst; auto.
Qed.

Lemma NoDup_all_modes nmax mmax : NoDup (all_modes nmax mmax).
Proof.
  unfold all_modes. apply NoDup_flat_map_disj.
  - apply NoDup_zrange.
  - intros n _. unfold row_modes. apply Injective_map_NoDup; [|apply NoDup_zrange].
    intros x y E; congruence.
  - intros a b x _ _ H1 H2. apply In_row_modes in H1, H2. lia.
Qed.

Lemma modes_perm nmax mmax : good_size nmax mmax ->
  Permutation (map (fun p => pos nmax (fst p) (snd p)) (all_modes nmax mmax))
              (zrange 0 (ncoef nmax mmax)).
Proof.
  intros Hg. apply NoDup_Permutation.
  - assert (H : forall l, NoDup l -> (forall p, In p l -> is_mode nmax mmax (fst p) (snd p)) ->
                NoDup (map (fun p => pos nmax (fst p) (snd p)) l)).
    { induction l as [|p l IH]; intros Hn Hm; cbn; [constructor|].
      inversion Hn; subst. constructor.
      - intros Hin. apply in_map_iff in Hin as (q & Hq & Hin).
        apply pos_inj with (mmax := mmax) in Hq; auto.
        + destruct p, q; cbn in *. destruct Hq; subst; auto.
        + apply Hm; right; auto.
        + apply Hm; left; auto.
      - apply IH; auto. intros; apply Hm; right; auto. }
    apply H; [apply NoDup_all_modes|]. intros [n m] Hp; cbn. now apply In_all_modes.
  - apply NoDup_zrange.
  - intros k. rewrite In_zrange, in_map_iff. split.
    + intros ([n m] & <- & Hp). apply pos_range; auto. now apply In_all_modes.
    + intros Hk. destruct (pos_surj nmax mmax k Hg Hk) as (n & m & Hm & Hp).
      exists (n, m); split; auto. now apply In_all_modes.
Qed.

Lemma length_all_modes nmax mmax : good_size nmax mmax ->
  zlen (all_modes nmax mmax) = ncoef nmax mmax.
Proof.
  intros Hg. pose proof (Permutation_length (modes_perm nmax mmax Hg)) as H.
  rewrite map_length in H. unfold zlen. rewrite H.
  pose proof (zlen_zrange 0 (ncoef nmax mmax)) as Hz. unfold zlen in Hz. rewrite Hz.
  pose proof (ncoef_mono nmax 0 mmax). unfold good_size in Hg. rewrite ncoef_0 in *. lia.
Qed.

(** ** Reading and writing *)

Section SC.
Variable K : num.
Notation C := (cplx K).

Definition sc_wf (c : scoefs K) : Prop :=
  good_size (sc_nmax K c) (sc_mmax K c) /\
  zlen (sc_vec K c) = ncoef (sc_nmax K c) (sc_mmax K c).

(** The coefficient at a mode (abstract value). *)
Definition cval (c : scoefs K) (n m : Z) : C := vget (c0 K) (sc_vec K c) (pos (sc_nmax K c) n m).

Lemma sc_new_ok vec nmax mmax : good_size nmax mmax -> zlen vec = ncoef nmax mmax ->
  sc_new K vec nmax mmax = Ok (mkSC K vec nmax mmax).
Proof.
  unfold sc_new, good_size; intros Hg Hl.
  destruct (Z.gtb_spec mmax nmax); [lia|].
  destruct (Z.eqb_spec (ncoef nmax mmax) (zlen vec)); [auto|lia].
Qed.

Lemma sc_new_inv vec nmax mmax c : sc_new K vec nmax mmax = Ok c ->
  c = mkSC K vec nmax mmax /\ mmax <= nmax /\ zlen vec = ncoef nmax mmax.
Proof.
  unfold sc_new. destruct (Z.gtb_spec mmax nmax); [discriminate|].
  destruct (Z.eqb_spec (ncoef nmax mmax) (zlen vec)); [|discriminate].
  cbn; intros E; inversion E; auto.
Qed.

Lemma sc_elem_index_ok c n m : is_mode (sc_nmax K c) (sc_mmax K c) n m ->
  sc_elem_index K c n m = Ok (pos (sc_nmax K c) n m).
Proof.
  unfold is_mode, sc_elem_index; intros (H1 & H2 & H3).
  replace ((n <? 0) || (n >? sc_nmax K c)) with false by lia.
  replace ((Z.abs m >? n) || (Z.abs m >? sc_mmax K c)) with false by lia.
  rewrite mindx_closed by lia. reflexivity.
Qed.

Lemma sc_elem_index_raise c n m : ~ is_mode (sc_nmax K c) (sc_mmax K c) n m ->
  sc_elem_index K c n m =
    Raise (AttributeError (if (n <? 0) || (n >? sc_nmax K c) then "n_out_bound" else "m_out_bound")).
Proof.
  unfold is_mode, sc_elem_index; intros H.
  destruct ((n <? 0) || (n >? sc_nmax K c)) eqn:E1; auto.
  replace ((Z.abs m >? n) || (Z.abs m >? sc_mmax K c)) with true by lia. auto.
Qed.

Lemma py_get_ok {A} (d : A) v i : 0 <= i < zlen v -> py_get d v i = Ok (vget d v i).
Proof.
  intros H; unfold py_get, py_index. replace ((0 <=? i) && (i <? zlen v)) with true by lia. auto.
Qed.

Lemma py_set_ok {A} (v : list A) i x : 0 <= i < zlen v -> py_set v i x = Ok (vset v i x).
Proof.
  intros H; unfold py_set, py_index. replace ((0 <=? i) && (i <? zlen v)) with true by lia. auto.
Qed.

Lemma sc_get_elem_ok c n m : sc_wf c -> is_mode (sc_nmax K c) (sc_mmax K c) n m ->
  sc_get_elem K c n m = Ok (cval c n m).
Proof.
  intros [Hg Hl] Hm; unfold sc_get_elem. rewrite sc_elem_index_ok by auto. cbn.
  apply py_get_ok. rewrite Hl. now apply pos_range.
Qed.

Lemma sc_get_elem_raise c n m : ~ is_mode (sc_nmax K c) (sc_mmax K c) n m ->
  exists msg, sc_get_elem K c n m = Raise (AttributeError msg).
Proof. intros H; unfold sc_get_elem. rewrite sc_elem_index_raise by auto. cbn; eauto. Qed.

Lemma sc_set_elem_ok c n m x : sc_wf c -> is_mode (sc_nmax K c) (sc_mmax K c) n m ->
  exists c', sc_set_elem K c n m x = Ok c' /\ sc_wf c' /\
    sc_nmax K c' = sc_nmax K c /\ sc_mmax K c' = sc_mmax K c /\
    forall n' m', is_mode (sc_nmax K c) (sc_mmax K c) n' m' ->
      cval c' n' m' = if (n' =? n) && (m' =? m) then x else cval c n' m'.
Proof.
  intros [Hg Hl] Hm; unfold sc_set_elem. rewrite sc_elem_index_ok by auto. cbn [bind].
  pose proof (pos_range _ _ _ _ Hg Hm) as Hp.
  rewrite py_set_ok by lia. cbn [bind]. eexists; split; [reflexivity|].
  split; [split; cbn [sc_vec sc_nmax sc_mmax]; auto; now rewrite zlen_vset|].
  split; [reflexivity|]. split; [reflexivity|].
  intros n' m' Hm'. unfold cval; cbn [sc_vec sc_nmax].
  rewrite vget_vset by lia.
  destruct (Z.eqb_spec (pos (sc_nmax K c) n' m') (pos (sc_nmax K c) n m)) as [E|E].
  - apply pos_inj with (mmax := sc_mmax K c) in E; auto. destruct E; subst. rewrite !Z.eqb_refl; auto.
  - destruct (Z.eqb_spec n' n), (Z.eqb_spec m' m); cbn; auto. subst; congruence.
Qed.

Lemma sc_set_elem_raise c n m x : ~ is_mode (sc_nmax K c) (sc_mmax K c) n m ->
  exists msg, sc_set_elem K c n m x = Raise (AttributeError msg).
Proof. intros H; unfold sc_set_elem. rewrite sc_elem_index_raise by auto. cbn; eauto. Qed.

(** Two well-formed sets of equal shape with equal modes are equal. *)
Lemma sc_ext c c' : sc_wf c -> sc_wf c' ->
  sc_nmax K c = sc_nmax K c' -> sc_mmax K c = sc_mmax K c' ->
  (forall n m, is_mode (sc_nmax K c) (sc_mmax K c) n m -> cval c n m = cval c' n m) ->
  c = c'.
Proof.
  destruct c as [v a b], c' as [v' a' b']; unfold sc_wf, cval; cbn.
  intros [Hg Hl] [Hg' Hl'] -> -> H. f_equal.
  apply vget_ext with (c0 K); [lia|]. intros i Hi.
  destruct (pos_surj a' b' i) as (n & m & Hm & <-); [auto|lia|]. now apply H.
Qed.

(** ** Columns *)

Lemma sc_get_col_ok c m : sc_wf c -> Z.abs m <= sc_mmax K c ->
  sc_get_col K c m =
    Ok (map (fun n => cval c n m) (zrange (Z.abs m) (sc_nmax K c + 1))).
Proof.
  intros [Hg Hl] Hm; unfold sc_get_col.
  destruct (Z.gtb_spec (Z.abs m) (sc_mmax K c)); [lia|].
  rewrite mindx_closed by lia. cbn [bind]. f_equal.
  pose proof (cstart_range _ _ _ Hg Hm) as Hr. unfold good_size in Hg.
  apply vget_ext with (c0 K).
  - rewrite zlen_py_slice, zlen_map, zlen_zrange by lia. lia.
  - intros i Hi. rewrite zlen_py_slice in Hi by lia.
    rewrite vget_py_slice by lia.
    rewrite (vget_map (fun n => cval c n m) 0) by (rewrite zlen_zrange; lia).
    rewrite vget_zrange by lia. unfold cval, pos. f_equal; lia.
Qed.

Lemma sc_get_col_raise c m : sc_mmax K c < Z.abs m ->
  sc_get_col K c m = Raise (AttributeError "m_out_bound").
Proof. intros H; unfold sc_get_col. destruct (Z.gtb_spec (Z.abs m) (sc_mmax K c)); [auto|lia]. Qed.

Lemma sc_set_col_ok c m val l : sc_wf c -> Z.abs m <= sc_mmax K c ->
  (val = VList l \/ val = VArr l) -> zlen l = sc_nmax K c - Z.abs m + 1 ->
  exists c', sc_set_col K c m val = (c', Ok tt) /\ sc_wf c' /\
    sc_nmax K c' = sc_nmax K c /\ sc_mmax K c' = sc_mmax K c /\
    forall n' m', is_mode (sc_nmax K c) (sc_mmax K c) n' m' ->
      cval c' n' m' = if m' =? m then vget (c0 K) l (n' - Z.abs m) else cval c n' m'.
Proof.
  intros [Hg Hl] Hm Hv Hlen; unfold sc_set_col.
  destruct (Z.gtb_spec (Z.abs m) (sc_mmax K c)); [lia|].
  rewrite mindx_closed by lia. cbn [bind].
  pose proof (cstart_range _ _ _ Hg Hm) as Hr. pose proof Hg as Hg'. unfold good_size in Hg'.
  rewrite zlen_py_slice by lia.
  assert (Ev : val_len val = Ok (zlen l)) by (destruct Hv; subst; auto).
  assert (Ev' : val_list val = l) by (destruct Hv; subst; auto).
  rewrite Ev, Ev'. cbn [bind].
  destruct (Z.eqb_spec (zlen l) (cstart (sc_nmax K c) m + sc_nmax K c - Z.abs m + 1 - cstart (sc_nmax K c) m)); [|lia].
  cbn [negb].
  destruct (py_slice_set_ok (sc_vec K c) (cstart (sc_nmax K c) m)
              (cstart (sc_nmax K c) m + sc_nmax K c - Z.abs m + 1) l) as (v' & E & Hl' & Hget); try lia.
  rewrite E; cbn [bind lift_res].
  eexists; split; [reflexivity|]. split; [split; cbn; auto; lia|].
  split; [reflexivity|]. split; [reflexivity|].
  intros n' m' Hm'. unfold cval; cbn [sc_vec sc_nmax].
  pose proof (pos_range _ _ _ _ Hg Hm') as Hp.
  rewrite Hget by lia. unfold pos in *.
  destruct (Z.eqb_spec m' m) as [->|Hne].
  - replace (_ && _) with true by (unfold is_mode in Hm'; lia). f_equal; lia.
  - unfold is_mode in Hm'. pose proof (cstart_disjoint _ _ m m' Hg Hm ltac:(lia) ltac:(auto)).
    replace (_ && _) with false by lia. auto.
Qed.

Lemma sc_set_col_raise c m val : sc_wf c ->
  (sc_mmax K c < Z.abs m \/ val_len val <> Ok (sc_nmax K c - Z.abs m + 1)) ->
  exists e, sc_set_col K c m val = (c, Raise e) /\
     (e = AttributeError "m_out_bound" \/ e = AttributeError "dim_no_mtch" \/
      e = TypeError "object has no len()").
Proof.
  intros [Hg Hl] H; unfold sc_set_col.
  destruct (Z.gtb_spec (Z.abs m) (sc_mmax K c)); [eauto|].
  rewrite mindx_closed by lia. cbn [bind].
  pose proof (cstart_range _ _ m Hg ltac:(lia)) as Hr. unfold good_size in Hg.
  rewrite zlen_py_slice by lia.
  destruct (val_len val) as [lv|e] eqn:Ev; cbn [bind].
  - destruct (Z.eqb_spec lv (cstart (sc_nmax K c) m + sc_nmax K c - Z.abs m + 1 - cstart (sc_nmax K c) m)).
    + exfalso. destruct H as [H|H]; [lia|]. apply H; f_equal; lia.
    + cbn. eauto.
  - cbn. eexists; split; [reflexivity|].
    right; right. destruct val; cbn in Ev; congruence.
Qed.

(** ** Rows *)

Lemma sc_nn_min c n : sc_nn K c n = Z.min n (sc_mmax K c).
Proof. unfold sc_nn; destruct (Z.leb_spec n (sc_mmax K c)); lia. Qed.

Lemma sc_get_row_ok c n : sc_wf c -> 0 <= n <= sc_nmax K c ->
  sc_get_row K c n =
    Ok (map (fun m => cval c n m)
            (zrange (- Z.min n (sc_mmax K c)) (Z.min n (sc_mmax K c) + 1))).
Proof.
  intros Hw Hn; unfold sc_get_row.
  replace ((n >? sc_nmax K c) || (n <? 0)) with false by lia.
  rewrite sc_nn_min. apply mmap_ok. intros m Hm; apply In_zrange in Hm.
  apply sc_get_elem_ok; auto. unfold is_mode; lia.
Qed.

Lemma sc_get_row_raise c n : ~ (0 <= n <= sc_nmax K c) ->
  sc_get_row K c n = Raise (AttributeError "m_out_bound").
Proof.
  intros H; unfold sc_get_row. replace ((n >? sc_nmax K c) || (n <? 0)) with true by lia. auto.
Qed.

Lemma sfor_inv {S} (P : Z -> S -> Prop) lo hi f (s : S) :
  lo <= hi -> P lo s ->
  (forall i s, lo <= i < hi -> P i s -> exists s', f i s = (s', Ok tt) /\ P (i + 1) s') ->
  exists s', sfor (zrange lo hi) f s = (s', Ok tt) /\ P hi s'.
Proof.
  intros Hle. remember (Z.to_nat (hi - lo)) as n eqn:Hn. revert lo s Hle Hn.
  induction n as [|n IH]; intros lo s Hle Hn H0 Hs.
  - assert (lo = hi) by lia; subst. rewrite zrange_nil by lia. cbn; eauto.
  - rewrite zrange_cons by lia; cbn. destruct (Hs lo s) as (s' & -> & Hp); [lia|auto|].
    apply IH; auto; try lia. intros; apply Hs; auto; lia.
Qed.

Lemma sc_set_row_ok c n val l : sc_wf c -> 0 <= n <= sc_nmax K c ->
  (val = VList l \/ val = VArr l) -> zlen l = 2 * n + 1 ->
  exists c', sc_set_row K c n val = (c', Ok tt) /\ sc_wf c' /\
    sc_nmax K c' = sc_nmax K c /\ sc_mmax K c' = sc_mmax K c /\
    forall n' m', is_mode (sc_nmax K c) (sc_mmax K c) n' m' ->
      cval c' n' m' = if n' =? n then vget (c0 K) l (m' + Z.min n (sc_mmax K c)) else cval c n' m'.
Proof.
  intros Hw Hn Hv Hlen; unfold sc_set_row.
  replace ((n >? sc_nmax K c) || (n <? 0)) with false by lia.
  assert (Ev : val_len val = Ok (zlen l)) by (destruct Hv; subst; auto).
  assert (Ev' : val_list val = l) by (destruct Hv; subst; auto).
  rewrite Ev, Ev', Hlen, Z.eqb_refl. cbn [negb]. rewrite sc_nn_min.
  set (nn := Z.min n (sc_mmax K c)).
  assert (Hnn : 0 <= nn) by (destruct Hw as [Hg _]; unfold good_size in Hg; lia).
  destruct (sfor_inv
    (fun k c' => sc_wf c' /\ sc_nmax K c' = sc_nmax K c /\ sc_mmax K c' = sc_mmax K c /\
       forall n' m', is_mode (sc_nmax K c) (sc_mmax K c) n' m' ->
         cval c' n' m' = if (n' =? n) && (m' <? k) then vget (c0 K) l (m' + nn) else cval c n' m')
    (- nn) (nn + 1)
    (fun m c => lift_res c (x <- py_get (c0 K) l (m + nn) ;; sc_set_elem K c n m x)) c)
    as (c' & E & Hw' & H1 & H2 & H3).
  - lia.
  - repeat split; auto; try apply Hw. intros n' m' Hm'. unfold is_mode in Hm'.
    replace (_ && _) with false; auto. lia.
  - intros k c1 Hk (Hw1 & E1 & E2 & E3).
    rewrite py_get_ok by lia. cbn [bind].
    destruct (sc_set_elem_ok c1 n k (vget (c0 K) l (k + nn))) as (c2 & E & Hw2 & F1 & F2 & F3); auto.
    { unfold is_mode. rewrite E1, E2. lia. }
    rewrite E; cbn [lift_res]. exists c2; split; auto. split; auto. split; [congruence|]. split; [congruence|].
    intros n' m' Hm'. rewrite F3 by (rewrite E1, E2; auto). rewrite E3 by auto.
    destruct (Z.eqb_spec n' n); cbn; auto.
    destruct (Z.eqb_spec m' k) as [->|].
    + replace (k <? k + 1) with true by lia. auto.
    + replace (m' <? k + 1) with (m' <? k) by lia. auto.
  - rewrite E. exists c'; split; auto. split; auto. split; auto. split; auto.
    intros n' m' Hm'. rewrite H3 by auto. destruct (Z.eqb_spec n' n); cbn; auto.
    unfold is_mode in Hm'. replace (m' <? nn + 1) with true by lia. auto.
Qed.

Lemma sc_set_row_raise c n val :
  (~ (0 <= n <= sc_nmax K c) \/ val_len val <> Ok (2 * n + 1)) ->
  exists e, sc_set_row K c n val = (c, Raise e) /\
     (e = AttributeError "n_out_bound" \/ e = AttributeError "dim_no_mtch" \/
      e = TypeError "object has no len()").
Proof.
  intros H; unfold sc_set_row.
  destruct ((n >? sc_nmax K c) || (n <? 0)) eqn:E1; [eauto|].
  destruct (val_len val) as [lv|e] eqn:Ev.
  - destruct (Z.eqb_spec lv (2 * n + 1)); cbn; [|eauto].
    exfalso. destruct H as [H|H]; [lia|]. apply H; congruence.
  - eexists; split; [reflexivity|]. right; right. destruct val; cbn in Ev; congruence.
Qed.

End SC.
