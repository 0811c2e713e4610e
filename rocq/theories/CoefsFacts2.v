(** Truncation, windows, arithmetic, power, 2-D view, factories and
    VectorCoefs. *)
From Coq Require Import ZArith List String Bool Lia ZifyBool ZifyNat FinFun Permutation.
From Verif Require Import Py PyFacts Num MCoefs SpecCoefs CoefsFacts.
Import ListNotations.
Open Scope list_scope.
Open Scope Z_scope.

Lemma Ok_inj {A} (a b : A) : Ok a = Ok b -> a = b.
Proof. congruence. Qed.

Section SC2.
Variable K : num.
Notation C := (cplx K).
Notation scoefs := (scoefs K).
Notation sc_nmax := (sc_nmax K).
Notation sc_mmax := (sc_mmax K).
Notation sc_vec := (sc_vec K).
Notation sc_wf := (sc_wf K).
Notation cval := (cval K).

(** ** Histories of item assignments *)

Lemma sc_setitem_spec c arg val : sc_wf c ->
  exists c' r, sc_setitem K c arg val = (c', r) /\ sc_wf c' /\
    sc_nmax c' = sc_nmax c /\ sc_mmax c' = sc_mmax c /\
    is_ok r = spec_accepts (sc_nmax c) (sc_mmax c) arg val /\
    (is_ok r = false -> c' = c) /\
    forall n m, is_mode (sc_nmax c) (sc_mmax c) n m ->
      cval c' n m = spec_set (c0 K) (sc_nmax c) (sc_mmax c) arg val (cval c) n m.
Proof.
  intros Hw.
  assert (Hrej : forall e, exists c' r, (c, Raise e : res unit) = (c', r) /\ sc_wf c' /\
    sc_nmax c' = sc_nmax c /\ sc_mmax c' = sc_mmax c /\
    is_ok r = false /\ (is_ok r = false -> c' = c) /\
    forall n m, is_mode (sc_nmax c) (sc_mmax c) n m -> cval c' n m = cval c n m).
  { intros e. exists c, (Raise e). repeat split; auto; apply Hw. }
  destruct arg as [l|]; [|exact (Hrej _)].
  assert (Hstuck : (forall i0 i1, l <> [i0; i1]) ->
     spec_accepts (sc_nmax c) (sc_mmax c) (STuple l) val = false /\
     exists e, sc_setitem K c (STuple l) val = (c, Raise e)).
  { intros Hne. destruct l as [|i0 [|i1 [|i2 l]]].
    - split; [reflexivity|]; eexists; reflexivity.
    - split; [|eexists; reflexivity]. destruct i0 as [|[] [] []|]; destruct val; reflexivity.
    - exfalso; eapply Hne; reflexivity.
    - split; [|eexists; reflexivity].
      destruct i0 as [|[] [] []|]; destruct i1 as [|[] [] []|]; destruct val; reflexivity. }
  assert (Hfin : spec_accepts (sc_nmax c) (sc_mmax c) (STuple l) val = false ->
     (exists e, sc_setitem K c (STuple l) val = (c, Raise e)) ->
     exists c' r, sc_setitem K c (STuple l) val = (c', r) /\ sc_wf c' /\
    sc_nmax c' = sc_nmax c /\ sc_mmax c' = sc_mmax c /\
    is_ok r = spec_accepts (sc_nmax c) (sc_mmax c) (STuple l) val /\
    (is_ok r = false -> c' = c) /\
    forall n m, is_mode (sc_nmax c) (sc_mmax c) n m ->
      cval c' n m = spec_set (c0 K) (sc_nmax c) (sc_mmax c) (STuple l) val (cval c) n m).
  { intros H1 (e & H2). unfold spec_set. rewrite H1, H2. cbn [negb]. exact (Hrej e). }
  destruct l as [|i0 [|i1 [|i2 l]]];
    try (apply Hfin; apply Hstuck; intros; discriminate).
  clear Hstuck.
  destruct i0 as [n|[] [] []|]; destruct i1 as [m|[] [] []|];
    try (apply Hfin; [destruct val; reflexivity | destruct val; cbn [sc_setitem]; eexists; reflexivity]);
    clear Hfin; unfold spec_set, spec_accepts; cbn [sc_setitem].
  - (* int, int *)
    destruct val as [x|l|l|].
    + destruct (is_modeb (sc_nmax c) (sc_mmax c) n m) eqn:Eb; cbn [negb].
      * apply is_modeb_spec in Eb.
        destruct (sc_set_elem_ok K c n m x Hw Eb) as (c' & E & W & F1 & F2 & F3).
        rewrite E; cbn [lift_res]. exists c', (Ok tt). repeat split; auto; try apply W. discriminate.
      * destruct (sc_set_elem_raise K c n m x) as (e & E).
        { intros H. apply is_modeb_spec in H. congruence. }
        rewrite E; cbn [lift_res]. exact (Hrej _).
    + destruct (sc_elem_index K c n m); cbn [bind]; exact (Hrej _).
    + destruct (sc_elem_index K c n m); cbn [bind]; exact (Hrej _).
    + destruct (sc_elem_index K c n m); cbn [bind]; exact (Hrej _).
  - (* row *)
    assert (Hseq : forall l, val = VList l \/ val = VArr l ->
      exists c' r, sc_set_row K c n val = (c', r) /\ sc_wf c' /\
        sc_nmax c' = sc_nmax c /\ sc_mmax c' = sc_mmax c /\
        is_ok r = (0 <=? n) && (n <=? sc_nmax c) && (zlen l =? 2 * n + 1) /\
        (is_ok r = false -> c' = c) /\
        forall n0 m, is_mode (sc_nmax c) (sc_mmax c) n0 m -> cval c' n0 m =
          (if negb ((0 <=? n) && (n <=? sc_nmax c) && (zlen l =? 2 * n + 1)) then cval c
           else fun n' m' => if n' =? n then vget (c0 K) l (m' + Z.min n (sc_mmax c)) else cval c n' m') n0 m).
    { intros l Hv. destruct ((0 <=? n) && (n <=? sc_nmax c) && (zlen l =? 2 * n + 1)) eqn:Eb; cbn [negb].
      - destruct (sc_set_row_ok K c n val l) as (c' & E & W & F1 & F2 & F3); auto; try lia.
        exists c', (Ok tt). repeat split; auto; try apply W. discriminate.
      - destruct (sc_set_row_raise K c n val) as (e & E & _).
        { destruct Hv; subst; cbn [val_len].
          - destruct (Z.eq_dec (zlen l) (2 * n + 1)) as [Heq|]; [left; lia|right; let Q := fresh in intros Q; apply Ok_inj in Q; lia].
          - destruct (Z.eq_dec (zlen l) (2 * n + 1)) as [Heq|]; [left; lia|right; let Q := fresh in intros Q; apply Ok_inj in Q; lia]. }
        rewrite E. exact (Hrej _). }
    destruct val as [x|l|l|].
    + destruct (sc_set_row_raise K c n (VNum x)) as (e & E & _); [right; discriminate|]. rewrite E. exact (Hrej _).
    + exact (Hseq l (or_introl eq_refl)).
    + exact (Hseq l (or_intror eq_refl)).
    + destruct (sc_set_row_raise K c n VNone) as (e & E & _); [right; discriminate|]. rewrite E. exact (Hrej _).
  - (* column *)
    assert (Hseq : forall l, val = VList l \/ val = VArr l ->
      exists c' r, sc_set_col K c m val = (c', r) /\ sc_wf c' /\
        sc_nmax c' = sc_nmax c /\ sc_mmax c' = sc_mmax c /\
        is_ok r = (Z.abs m <=? sc_mmax c) && (zlen l =? sc_nmax c - Z.abs m + 1) /\
        (is_ok r = false -> c' = c) /\
        forall n0 m0, is_mode (sc_nmax c) (sc_mmax c) n0 m0 -> cval c' n0 m0 =
          (if negb ((Z.abs m <=? sc_mmax c) && (zlen l =? sc_nmax c - Z.abs m + 1)) then cval c
           else fun n' m' => if m' =? m then vget (c0 K) l (n' - Z.abs m) else cval c n' m') n0 m0).
    { intros l Hv. destruct ((Z.abs m <=? sc_mmax c) && (zlen l =? sc_nmax c - Z.abs m + 1)) eqn:Eb; cbn [negb].
      - destruct (sc_set_col_ok K c m val l) as (c' & E & W & F1 & F2 & F3); auto; try lia.
        exists c', (Ok tt). repeat split; auto; try apply W. discriminate.
      - destruct (sc_set_col_raise K c m val) as (e & E & _); auto.
        { destruct Hv; subst; cbn [val_len].
          - destruct (Z.eq_dec (zlen l) (sc_nmax c - Z.abs m + 1)) as [Heq|]; [left; lia|right; let Q := fresh in intros Q; apply Ok_inj in Q; lia].
          - destruct (Z.eq_dec (zlen l) (sc_nmax c - Z.abs m + 1)) as [Heq|]; [left; lia|right; let Q := fresh in intros Q; apply Ok_inj in Q; lia]. }
        rewrite E. exact (Hrej _). }
    destruct val as [x|l|l|].
    + destruct (sc_set_col_raise K c m (VNum x)) as (e & E & _); [auto|right; discriminate|]. rewrite E. exact (Hrej _).
    + exact (Hseq l (or_introl eq_refl)).
    + exact (Hseq l (or_intror eq_refl)).
    + destruct (sc_set_col_raise K c m VNone) as (e & E & _); [auto|right; discriminate|]. rewrite E. exact (Hrej _).
Qed.

(** The state after a history of item assignments, exceptions being caught by
    the caller. *)
Definition sc_run (c : scoefs) (hist : list (subscript * pyval C)) : scoefs :=
  fold_left (fun c p => fst (sc_setitem K c (fst p) (snd p))) hist c.

Lemma spec_set_ext nmax mmax arg val (f g : Z -> Z -> C) :
  (forall n m, is_mode nmax mmax n m -> f n m = g n m) ->
  forall n m, is_mode nmax mmax n m ->
    spec_set (c0 K) nmax mmax arg val f n m = spec_set (c0 K) nmax mmax arg val g n m.
Proof.
  intros H n m Hm. unfold spec_set.
  destruct (negb _); [auto|].
  repeat match goal with
  | |- context [match ?x with _ => _ end] => destruct x; auto
  end.
Qed.

Lemma sc_run_spec hist : forall c, sc_wf c ->
  sc_wf (sc_run c hist) /\ sc_nmax (sc_run c hist) = sc_nmax c /\
  sc_mmax (sc_run c hist) = sc_mmax c /\
  forall n m, is_mode (sc_nmax c) (sc_mmax c) n m ->
    cval (sc_run c hist) n m = spec_run (c0 K) (sc_nmax c) (sc_mmax c) hist (cval c) n m.
Proof.
  induction hist as [|[arg val] hist IH]; intros c Hw; [cbn; auto|].
  unfold sc_run, spec_run. cbn [fold_left fst snd].
  destruct (sc_setitem_spec c arg val Hw) as (c' & r & E & W & F1 & F2 & _ & _ & F3).
  rewrite E; cbn [fst].
  destruct (IH c' W) as (W2 & G1 & G2 & G3). unfold sc_run, spec_run in *.
  split; [exact W2|]. split; [congruence|]. split; [congruence|].
  intros n m Hm. rewrite G3 by (rewrite F1, F2; auto). rewrite F1, F2.
  clear -F3 Hm F1 F2. revert F3.
  generalize (cval c'), (spec_set (c0 K) (sc_nmax c) (sc_mmax c) arg val (cval c)).
  intros f g H. revert f g H. induction hist as [|p hist IH]; intros f g H; cbn; auto.
  apply IH. apply spec_set_ext. exact H.
Qed.

(** ** Truncation *)

Lemma sc_trunc_ok c k : sc_wf c -> 0 <= k <= sc_nmax c ->
  exists t, sc_trunc K c k = Ok t /\ sc_wf t /\ sc_nmax t = k /\
    sc_mmax t = Z.min k (sc_mmax c) /\
    forall n m, is_mode k (Z.min k (sc_mmax c)) n m -> cval t n m = cval c n m.
Proof.
  intros [Hg Hl] Hk; unfold sc_trunc.
  destruct (Z.gtb_spec k (sc_nmax c)); [lia|].
  replace (if k >? sc_mmax c then sc_mmax c else k) with (Z.min k (sc_mmax c))
    by (destruct (Z.gtb_spec k (sc_mmax c)); lia).
  set (mm := Z.min k (sc_mmax c)).
  assert (Hg' : good_size k mm) by (unfold good_size in *; lia).
  assert (Hnc : k + 1 <= ncoef k mm).
  { pose proof (ncoef_mono k 0 mm). rewrite ncoef_0 in *. unfold good_size in Hg'. lia. }
  destruct (Z.ltb_spec (ncoef k mm) 0); [lia|]. cbn [bind].
  assert (Hlc : sc_nmax c + 1 <= zlen (sc_vec c)).
  { rewrite Hl. pose proof (ncoef_mono (sc_nmax c) 0 (sc_mmax c)). rewrite ncoef_0 in *. unfold good_size in Hg. lia. }
  set (v0 := vmake (ncoef k mm) (fun _ => c0 K)).
  assert (Hl0 : zlen v0 = ncoef k mm) by (unfold v0; rewrite zlen_vmake; lia).
  destruct (py_slice_set_ok v0 0 (k + 1) (py_slice (sc_vec c) 0 (k + 1)))
    as (v1 & E1 & Hl1 & Hg1); try lia.
  { rewrite zlen_py_slice by lia. lia. }
  rewrite E1; cbn [bind].
  match goal with |- context [mfor ?l ?f ?s] =>
    destruct (mfor_inv (fun a v => zlen v = ncoef k mm /\
      forall n m, is_mode k mm n m -> Z.abs m < a -> vget (c0 K) v (pos k n m) = cval c n m)
      1 (mm + 1) f s) as (v2 & E2 & Hl2 & Hg2) end.
  - unfold good_size in Hg'; lia.
  - split; [lia|]. intros n m Hm Ha. assert (m = 0) by lia; subst m.
    unfold is_mode in Hm. unfold pos. rewrite cstart_0.
    rewrite Hg1 by lia. replace (_ && _) with true by lia.
    rewrite vget_py_slice by lia. unfold CoefsFacts.cval, pos. rewrite cstart_0. f_equal; lia.
  - intros a v Ha [Hlv Hv].
    (* one column copy *)
    assert (Hcopy : forall v m, zlen v = ncoef k mm -> Z.abs m = a -> exists v',
       py_slice_set v (cstart k m) (cstart k m + (k - Z.abs m + 1))
          (py_slice (sc_vec c) (cstart (sc_nmax c) m) (cstart (sc_nmax c) m + (k - Z.abs m + 1))) = Ok v' /\
       zlen v' = ncoef k mm /\
       forall n' m', is_mode k mm n' m' ->
         vget (c0 K) v' (pos k n' m') = if m' =? m then cval c n' m' else vget (c0 K) v (pos k n' m')).
    { clear Hlv Hv v. intros v m Hlv Hm.
      pose proof (cstart_range k mm m Hg' ltac:(lia)) as R1.
      pose proof (cstart_range (sc_nmax c) (sc_mmax c) m Hg ltac:(lia)) as R2.
      destruct (py_slice_set_ok v (cstart k m) (cstart k m + (k - Z.abs m + 1))
          (py_slice (sc_vec c) (cstart (sc_nmax c) m) (cstart (sc_nmax c) m + (k - Z.abs m + 1))))
        as (v' & E & Hl' & Hget); try lia.
      { rewrite zlen_py_slice by lia. lia. }
      exists v'. split; auto. split; [lia|]. intros n' m' Hm'.
      pose proof (pos_range _ _ _ _ Hg' Hm') as Hp. rewrite Hget by lia.
      unfold is_mode in Hm'. unfold pos in *.
      destruct (Z.eqb_spec m' m) as [->|Hne].
      - replace (_ && _) with true by lia. rewrite vget_py_slice by lia.
        unfold CoefsFacts.cval, pos. f_equal; lia.
      - pose proof (cstart_disjoint k mm m m' Hg' ltac:(lia) ltac:(lia) ltac:(auto)).
        replace (_ && _) with false by lia. auto. }
    rewrite !(mindx_closed (- a)), !(mindx_closed a) by lia. cbn [bind].
    replace (k - Z.abs a + 1) with (k - Z.abs (- a) + 1) by lia.
    destruct (Hcopy v (- a) Hlv ltac:(lia)) as (v' & E' & Hl' & Hv').
    rewrite E'; cbn [bind].
    replace (k - Z.abs (- a) + 1) with (k - Z.abs a + 1) by lia.
    destruct (Hcopy v' a Hl' ltac:(lia)) as (v'' & E'' & Hl'' & Hv'').
    rewrite E''. exists v''. split; auto. split; auto.
    intros n m Hm Hlt. rewrite Hv'' by auto.
    destruct (Z.eqb_spec m a); auto. rewrite Hv' by auto.
    destruct (Z.eqb_spec m (- a)); auto. apply Hv; auto; lia.
  - rewrite E2; cbn [bind]. rewrite sc_new_ok by auto.
    eexists; split; [reflexivity|]. split; [split; auto|].
    split; [reflexivity|]. split; [reflexivity|].
    intros n m Hm. unfold CoefsFacts.cval at 1. cbn. apply Hg2; auto. unfold is_mode in Hm; lia.
Qed.

Lemma sc_trunc_raise c k : sc_nmax c < k -> sc_trunc K c k = Raise (AttributeError "n_out_bound").
Proof. intros H; unfold sc_trunc. destruct (Z.gtb_spec k (sc_nmax c)); [auto|lia]. Qed.

(** ** window *)

Lemma np_broadcast_eq {A B D} (f : A -> B -> D) u v : zlen u = zlen v ->
  np_broadcast f u v = Ok (zip_with f u v).
Proof. intros H; unfold np_broadcast. rewrite H, Z.eqb_refl. auto. Qed.

Lemma np_broadcast_raise {A B D} (f : A -> B -> D) u v : zlen u <> zlen v ->
  zlen u <> 1 -> zlen v <> 1 -> np_broadcast f u v = Raise NumpyError.
Proof.
  intros H H1 H2; unfold np_broadcast.
  destruct (Z.eqb_spec (zlen u) (zlen v)); [lia|].
  destruct u as [|a [|]]; destruct v as [|b [|]]; auto;
    exfalso; first [apply H1; reflexivity | apply H2; reflexivity].
Qed.

Lemma window_col_ok c m w : sc_wf c -> Z.abs m <= sc_mmax c ->
  zlen w = sc_nmax c - Z.abs m + 1 ->
  exists c', sc_window_col K m w c = (c', Ok tt) /\ sc_wf c' /\
    sc_nmax c' = sc_nmax c /\ sc_mmax c' = sc_mmax c /\
    forall n' m', is_mode (sc_nmax c) (sc_mmax c) n' m' ->
      cval c' n' m' = if m' =? m then cmul K (cval c n' m') (vget (c0 K) w (n' - Z.abs m)) else cval c n' m'.
Proof.
  intros Hw Hm Hl; unfold sc_window_col. rewrite sc_get_col_ok by auto. cbn [bind].
  pose proof Hw as [Hg _]; unfold good_size in Hg.
  set (col := map _ _).
  assert (Hcol : zlen col = zlen w) by (unfold col; rewrite zlen_map, zlen_zrange; lia).
  rewrite np_broadcast_eq by auto.
  destruct (sc_set_col_ok K c m (VArr (zip_with (cmul K) col w)) (zip_with (cmul K) col w))
    as (c' & E & W & F1 & F2 & F3); auto.
  { rewrite zlen_zip_with by auto. lia. }
  exists c'. repeat split; auto; try apply W.
  intros n' m' Hm'. rewrite F3 by auto. destruct (Z.eqb_spec m' m) as [->|]; auto.
  unfold is_mode in Hm'.
  rewrite (vget_zip_with _ _ _ _ (c0 K) (c0 K)) by lia. f_equal.
  unfold col. rewrite (vget_map (fun n => cval c n m) 0) by (rewrite zlen_zrange; lia).
  rewrite vget_zrange by lia. f_equal; lia.
Qed.

Lemma sc_window_ok c vec : sc_wf c -> zlen vec = sc_nmax c + 1 ->
  exists c', sc_window K c vec = (c', Ok tt) /\ sc_wf c' /\
    sc_nmax c' = sc_nmax c /\ sc_mmax c' = sc_mmax c /\
    forall n m, is_mode (sc_nmax c) (sc_mmax c) n m ->
      cval c' n m = cmul K (cval c n m) (vget (c0 K) vec n).
Proof.
  intros Hw Hl; unfold sc_window. pose proof Hw as [Hg _]; unfold good_size in Hg.
  destruct (window_col_ok c 0 vec) as (c1 & E1 & W1 & F1 & F2 & F3); auto; try lia.
  rewrite E1; cbn [seq_unit]. rewrite F2.
  match goal with |- context [sfor ?l ?f ?s] =>
    destruct (sfor_inv (fun a c' => sc_wf c' /\ sc_nmax c' = sc_nmax c /\ sc_mmax c' = sc_mmax c /\
      forall n m, is_mode (sc_nmax c) (sc_mmax c) n m ->
        cval c' n m = if Z.abs m <? a then cmul K (cval c n m) (vget (c0 K) vec n) else cval c n m)
      1 (sc_mmax c + 1) f s) as (c' & E & W & G1 & G2 & G3) end.
  - lia.
  - repeat split; auto; try apply W1. intros n m Hm. rewrite F3 by auto.
    destruct (Z.eqb_spec m 0) as [->|].
    + replace (Z.abs 0 <? 1) with true by lia. do 2 f_equal; lia.
    + replace (Z.abs m <? 1) with false by lia. auto.
  - intros a c2 Ha (W2 & G1 & G2 & G3).
    assert (Hsl : zlen (py_slice vec a (zlen vec)) = sc_nmax c - a + 1) by (rewrite zlen_py_slice; lia).
    destruct (window_col_ok c2 (- a) (py_slice vec a (zlen vec))) as (c3 & E3 & W3 & H1 & H2 & H3); auto; try lia.
    rewrite E3; cbn [seq_unit].
    destruct (window_col_ok c3 a (py_slice vec a (zlen vec))) as (c4 & E4 & W4 & I1 & I2 & I3); auto; try lia.
    rewrite E4. exists c4. split; auto. split; auto. split; [lia|]. split; [lia|].
    intros n m Hm. rewrite I3 by (rewrite H1, H2, G1, G2; auto). rewrite H3 by (rewrite G1, G2; auto).
    rewrite G3 by auto.
    assert (Hs : Z.abs m = a -> vget (c0 K) (py_slice vec a (zlen vec)) (n - Z.abs a) = vget (c0 K) vec n).
    { intros Hma. unfold is_mode in Hm. rewrite vget_py_slice by lia. f_equal; lia. }
    destruct (Z.eqb_spec m a) as [->|].
    + replace (a =? - a) with false by lia. replace (Z.abs a <? a) with false by lia.
      replace (Z.abs a <? a + 1) with true by lia. rewrite Hs by lia. auto.
    + destruct (Z.eqb_spec m (- a)) as [->|].
      * replace (Z.abs (- a) <? a) with false by lia.
        replace (Z.abs (- a) <? a + 1) with true by lia.
        replace (n - Z.abs (-a)) with (n - Z.abs a) by lia. rewrite Hs by lia. auto.
      * replace (Z.abs m <? a + 1) with (Z.abs m <? a) by lia. auto.
  - rewrite E. exists c'. split; auto. split; auto. split; auto. split; auto.
    intros n m Hm. rewrite G3 by auto. unfold is_mode in Hm.
    replace (Z.abs m <? sc_mmax c + 1) with true by lia. auto.
Qed.

Lemma sc_window_raise c vec : sc_wf c -> zlen vec <> sc_nmax c + 1 -> zlen vec <> 1 ->
  exists e, sc_window K c vec = (c, Raise e).
Proof.
  intros Hw Hl H1; unfold sc_window, sc_window_col. pose proof Hw as [Hg _]; unfold good_size in Hg.
  rewrite sc_get_col_ok by (auto; lia). cbn [bind].
  set (col := map _ _).
  assert (Hcol : zlen col = sc_nmax c + 1) by (unfold col; rewrite zlen_map, zlen_zrange; lia).
  destruct (Z.eq_dec (sc_nmax c) 0) as [H0|H0].
  - (* column of length one: the product has the window's length *)
    unfold np_broadcast. destruct (Z.eqb_spec (zlen col) (zlen vec)); [lia|].
    destruct col as [|a [|]]; [cbn in Hcol; lia | | unfold zlen in Hcol; cbn in Hcol; lia].
    destruct (sc_set_col_raise K c 0 (VArr (map (fun b => cmul K a b) vec))) as (e & E & _); auto.
    { right. cbn [val_len]. rewrite zlen_map. intros E; apply Ok_inj in E; lia. }
    rewrite E. cbn. eauto.
  - rewrite np_broadcast_raise by lia. cbn. eauto.
Qed.

(** A window of length one (numpy broadcasting): column m=0 is scaled, then the
    call fails if there is any other column. *)
Lemma sc_window_len1 c x : sc_wf c -> 1 <= sc_nmax c ->
  exists c' r, sc_window K c [x] = (c', r) /\ sc_wf c' /\
    is_ok r = (sc_mmax c =? 0) /\
    forall n m, is_mode (sc_nmax c) (sc_mmax c) n m ->
      cval c' n m = if m =? 0 then cmul K (cval c n m) x else cval c n m.
Proof.
  intros Hw Hn; unfold sc_window. pose proof Hw as [Hg _]; unfold good_size in Hg.
  unfold sc_window_col at 1.
  rewrite sc_get_col_ok by (auto; lia). cbn [bind].
  set (col := map _ _).
  assert (Hcol : zlen col = sc_nmax c + 1) by (unfold col; rewrite zlen_map, zlen_zrange; lia).
  assert (Eb : np_broadcast (cmul K) col [x] = Ok (map (fun a => cmul K a x) col)).
  { unfold np_broadcast. destruct (Z.eqb_spec (zlen col) (zlen [x])).
    - change (zlen [x]) with 1 in *. lia.
    - destruct col as [|a [|b l]]; auto; unfold zlen in Hcol; cbn in Hcol; lia. }
  rewrite Eb.
  destruct (sc_set_col_ok K c 0 (VArr (map (fun a => cmul K a x) col)) (map (fun a => cmul K a x) col))
    as (c1 & E1 & W1 & F1 & F2 & F3); auto; try lia.
  { rewrite zlen_map. lia. }
  rewrite E1; cbn [seq_unit]. rewrite F2.
  assert (Hval : forall n m, is_mode (sc_nmax c) (sc_mmax c) n m ->
      cval c1 n m = if m =? 0 then cmul K (cval c n m) x else cval c n m).
  { intros n m Hm. rewrite F3 by auto. destruct (Z.eqb_spec m 0) as [->|]; auto.
    unfold is_mode in Hm. rewrite (vget_map (fun a => cmul K a x) (c0 K)) by lia. f_equal.
    unfold col. rewrite (vget_map (fun n => cval c n 0) 0) by (rewrite zlen_zrange; lia).
    rewrite vget_zrange by lia. f_equal; lia. }
  destruct (Z.eqb_spec (sc_mmax c) 0) as [H0|H0].
  - rewrite (zrange_nil 1 (sc_mmax c + 1)) by lia. cbn [sfor]. exists c1, (Ok tt). split; [auto|]. split; [auto|]. split; [auto|]. exact Hval.
  - rewrite zrange_cons by lia. cbn [sfor].
    assert (Es : py_slice [x] 1 (zlen [x]) = []) by reflexivity.
    rewrite Es. unfold sc_window_col at 1.
    rewrite sc_get_col_ok by (auto; lia). cbn [bind].
    set (col2 := map _ _).
    assert (Hcol2 : zlen col2 = sc_nmax c) by (unfold col2; rewrite zlen_map, zlen_zrange; lia).
    assert (Er : exists e, match np_broadcast (cmul K) col2 [] with
             | Ok p => sc_set_col K c1 (- (1)) (VArr p) | Raise e => (c1, Raise e) end = (c1, Raise e)).
    { unfold np_broadcast. change (zlen []) with 0. destruct (Z.eqb_spec (zlen col2) 0); [lia|].
      destruct col2 as [|a [|b l]].
      - eauto.
      - cbn [map]. destruct (sc_set_col_raise K c1 (- (1)) (VArr [])) as (e & E & _); auto.
        { right. change (val_len (VArr [])) with (Ok 0). intros E; apply Ok_inj in E; lia. }
        eauto.
      - eauto. }
    destruct Er as (e & Er). rewrite Er. cbn [seq_unit]. exists c1, (Raise e).
    split; [auto|]. split; [auto|]. split; [auto|]. exact Hval.
Qed.

(** ** Operators *)

Lemma cval_map c (f : C -> C) : sc_wf c -> forall n m,
  is_mode (sc_nmax c) (sc_mmax c) n m ->
  cval (mkSC K (map f (sc_vec c)) (sc_nmax c) (sc_mmax c)) n m = f (cval c n m).
Proof.
  intros [Hg Hl] n m Hm. unfold CoefsFacts.cval; cbn. apply vget_map.
  rewrite Hl. apply pos_range; auto.
Qed.

Lemma cval_zip c c' (f : C -> C -> C) : sc_wf c -> sc_wf c' ->
  sc_nmax c = sc_nmax c' -> sc_mmax c = sc_mmax c' -> forall n m,
  is_mode (sc_nmax c) (sc_mmax c) n m ->
  cval (mkSC K (zip_with f (sc_vec c) (sc_vec c')) (sc_nmax c) (sc_mmax c)) n m
  = f (cval c n m) (cval c' n m).
Proof.
  intros [Hg Hl] [Hg' Hl'] E1 E2 n m Hm. unfold CoefsFacts.cval; cbn. rewrite <- E1.
  pose proof (pos_range _ _ _ _ Hg Hm).
  apply vget_zip_with; rewrite ?Hl, ?Hl', <- ?E1, <- ?E2; lia.
Qed.

Lemma sc_op_left_SC o c c' : sc_wf c -> sc_wf c' ->
  sc_nmax c = sc_nmax c' -> sc_mmax c = sc_mmax c' ->
  exists r, sc_op_left K o c (OpndSC K c') = Ok r /\ sc_wf r /\
    sc_nmax r = sc_nmax c /\ sc_mmax r = sc_mmax c /\
    forall n m, is_mode (sc_nmax c) (sc_mmax c) n m ->
      cval r n m = binop_fun K o (cval c n m) (cval c' n m).
Proof.
  intros Hw Hw' E1 E2; unfold sc_op_left. pose proof Hw as [Hg Hl]; pose proof Hw' as [Hg' Hl'].
  assert (El : zlen (sc_vec c) = zlen (sc_vec c')) by (rewrite Hl, Hl'; congruence).
  rewrite El, Z.eqb_refl. rewrite np_broadcast_eq by auto. cbn [bind].
  rewrite sc_new_ok; [|auto|rewrite zlen_zip_with; auto; lia].
  eexists; split; [reflexivity|]. split; [split; cbn; auto; rewrite zlen_zip_with; auto; lia|].
  split; [reflexivity|]. split; [reflexivity|]. apply cval_zip; auto.
Qed.

Lemma sc_op_left_mismatch o c c' : zlen (sc_vec c) <> zlen (sc_vec c') ->
  sc_op_left K o c (OpndSC K c') = Raise (ValueError "SC_sz_msmtch").
Proof. intros H; unfold sc_op_left. destruct (Z.eqb_spec (zlen (sc_vec c)) (zlen (sc_vec c'))); [lia|auto]. Qed.

(** Equal sizes are enough for the operators to accept the operands. *)
Lemma sc_op_left_samesize o c c' : sc_wf c -> zlen (sc_vec c) = zlen (sc_vec c') ->
  exists r, sc_op_left K o c (OpndSC K c') = Ok r /\ sc_nmax r = sc_nmax c /\ sc_mmax r = sc_mmax c.
Proof.
  intros [Hg Hl] H; unfold sc_op_left. rewrite H, Z.eqb_refl, np_broadcast_eq by auto. cbn [bind].
  rewrite sc_new_ok; [|auto|rewrite zlen_zip_with; auto]. eauto.
Qed.

Lemma sc_op_map_ok c (f : C -> C) : sc_wf c ->
  exists r, sc_new K (map f (sc_vec c)) (sc_nmax c) (sc_mmax c) = Ok r /\ sc_wf r /\
    sc_nmax r = sc_nmax c /\ sc_mmax r = sc_mmax c /\
    forall n m, is_mode (sc_nmax c) (sc_mmax c) n m -> cval r n m = f (cval c n m).
Proof.
  intros Hw. pose proof Hw as [Hg Hl].
  rewrite sc_new_ok by (rewrite ?zlen_map; auto).
  eexists; split; [reflexivity|]. split; [split; cbn; auto; now rewrite zlen_map|].
  split; [reflexivity|]. split; [reflexivity|]. apply cval_map; auto.
Qed.

Lemma sc_op_left_num o c x : sc_wf c -> (o = OpDiv -> ceqb K x (c0 K) = false) ->
  exists r, sc_op_left K o c (OpndNum K x) = Ok r /\ sc_wf r /\
    sc_nmax r = sc_nmax c /\ sc_mmax r = sc_mmax c /\
    forall n m, is_mode (sc_nmax c) (sc_mmax c) n m -> cval r n m = binop_fun K o (cval c n m) x.
Proof.
  intros Hw Hx. destruct o; cbn [sc_op_left];
    try exact (sc_op_map_ok c (fun a => binop_fun K _ a x) Hw).
  rewrite Hx by auto. exact (sc_op_map_ok c (fun a => cdiv K a x) Hw).
Qed.

Lemma sc_op_right_num o c x : sc_wf c ->
  exists r, sc_op_right K o c (OpndNum K x) = Ok r /\ sc_wf r /\
    sc_nmax r = sc_nmax c /\ sc_mmax r = sc_mmax c /\
    forall n m, is_mode (sc_nmax c) (sc_mmax c) n m -> cval r n m = binop_fun K o x (cval c n m).
Proof. intros Hw. exact (sc_op_map_ok c (fun a => binop_fun K o x a) Hw). Qed.

Lemma sc_div_zero c x : sc_wf c -> ceqb K x (c0 K) = true ->
  sc_op_left K OpDiv c (OpndNum K x) = Raise (TypeError "object has no len()").
Proof.
  intros [Hg _] Hx; cbn. rewrite Hx. unfold good_size in Hg.
  destruct (Z.gtb_spec (sc_mmax c) (sc_nmax c)); [lia|auto].
Qed.

Lemma sc_copy_ok c : sc_wf c -> sc_copy K c = Ok c.
Proof. intros [Hg Hl]; unfold sc_copy. rewrite sc_new_ok by auto. destruct c; auto. Qed.

(** ** _reshape_m_vecs, power *)

Lemma sc_m_vecs_ok c : sc_wf c ->
  sc_m_vecs K c = Ok (map (fun n => map (cval c n) (zrange (- Z.min n (sc_mmax c)) (Z.min n (sc_mmax c) + 1)))
                          (zrange 0 (sc_nmax c + 1))).
Proof.
  intros Hw; unfold sc_m_vecs. apply mmap_ok. intros n Hn; apply In_zrange in Hn.
  rewrite sc_nn_min. apply mmap_ok. intros m Hm; apply In_zrange in Hm.
  apply sc_get_elem_ok; auto. unfold is_mode; lia.
Qed.

Lemma sc_vec_perm c : sc_wf c ->
  Permutation (map (fun p => cval c (fst p) (snd p)) (all_modes (sc_nmax c) (sc_mmax c))) (sc_vec c).
Proof.
  intros [Hg Hl].
  replace (sc_vec c) with (map (vget (c0 K) (sc_vec c)) (zrange 0 (ncoef (sc_nmax c) (sc_mmax c)))).
  2:{ rewrite <- Hl. apply (vmake_vget (c0 K)). }
  rewrite <- (Permutation_map (vget (c0 K) (sc_vec c)) (modes_perm _ _ Hg)).
  rewrite map_map. apply Permutation_refl.
Qed.

(** ** _array_2d_repr *)

Lemma mmake_wf nr nc f : 0 <= nr -> 0 <= nc -> mat_wf K (mmake K nr nc f).
Proof. intros; repeat split; cbn; auto. rewrite zlen_vmake. nia. Qed.

Lemma divmod_flat i j nc : 0 <= j < nc -> (i * nc + j) / nc = i /\ (i * nc + j) mod nc = j.
Proof.
  intros H. split.
  - rewrite Z.div_add_l by lia. rewrite Z.div_small by lia. lia.
  - rewrite Z.add_comm, Z_mod_plus_full. apply Z.mod_small; lia.
Qed.

Lemma mget_mmake nr nc f i j : 0 <= i < nr -> 0 <= j < nc -> mget K (mmake K nr nc f) i j = f i j.
Proof.
  intros Hi Hj; unfold mget, mmake; cbn. rewrite vget_vmake by nia.
  destruct (divmod_flat i j nc Hj) as [-> ->]. auto.
Qed.

Lemma mset_wf a i j x : mat_wf K a -> mat_wf K (mset K a i j x).
Proof. unfold mat_wf, mset; cbn. rewrite zlen_vset. auto. Qed.

Lemma mget_mset a i j x i' j' : mat_wf K a ->
  0 <= i < mt_nr K a -> 0 <= j < mt_nc K a -> 0 <= i' < mt_nr K a -> 0 <= j' < mt_nc K a ->
  mget K (mset K a i j x) i' j' = if (i' =? i) && (j' =? j) then x else mget K a i' j'.
Proof.
  intros (H1 & H2 & H3) Hi Hj Hi' Hj'; unfold mget, mset; cbn.
  rewrite vget_vset by nia.
  destruct (Z.eqb_spec (i' * mt_nc K a + j') (i * mt_nc K a + j)) as [E|E].
  - assert (i' = i) by nia. assert (j' = j) by nia. subst. rewrite !Z.eqb_refl. auto.
  - destruct (Z.eqb_spec i' i), (Z.eqb_spec j' j); cbn; auto. subst; lia.
Qed.

Lemma mat_ext (a b : mat K) : mat_wf K a -> mat_wf K b -> mt_nr K a = mt_nr K b -> mt_nc K a = mt_nc K b ->
  (forall i j, 0 <= i < mt_nr K a -> 0 <= j < mt_nc K a -> mget K a i j = mget K b i j) -> a = b.
Proof.
  destruct a as [nr nc d], b as [nr' nc' d']; unfold mat_wf, mget; cbn.
  intros (A1 & A2 & A3) (B1 & B2 & B3) -> -> H. f_equal.
  apply vget_ext with (c0 K); [lia|]. intros k Hk.
  destruct (Z.eq_dec nc' 0) as [->|Hn]; [lia|].
  specialize (H (k / nc') (k mod nc')).
  replace (k / nc' * nc' + k mod nc') with k in H by (rewrite Z.mul_comm; apply Z.div_mod; lia).
  apply H.
  - split; [apply Z.div_pos; lia|]. apply Z.div_lt_upper_bound; nia.
  - apply Z.mod_pos_bound; lia.
Qed.

Lemma mset_col_ok a i0 i1 j col : mat_wf K a -> 0 <= i0 <= i1 -> i1 <= mt_nr K a -> 0 <= j < mt_nc K a ->
  zlen col = i1 - i0 ->
  exists a', mset_col K a i0 i1 j col = Ok a' /\ mat_wf K a' /\ mt_nr K a' = mt_nr K a /\ mt_nc K a' = mt_nc K a /\
    forall i' j', 0 <= i' < mt_nr K a -> 0 <= j' < mt_nc K a ->
      mget K a' i' j' = if (j' =? j) && (i0 <=? i') && (i' <? i1) then vget (c0 K) col (i' - i0) else mget K a i' j'.
Proof.
  intros Hw H1 H2 H3 Hl; unfold mset_col. rewrite Hl, Z.eqb_refl. eexists; split; [reflexivity|].
  refine (_ (pfor_inv (fun k a' => mat_wf K a' /\ mt_nr K a' = mt_nr K a /\ mt_nc K a' = mt_nc K a /\
    forall i' j', 0 <= i' < mt_nr K a -> 0 <= j' < mt_nc K a ->
      mget K a' i' j' = if (j' =? j) && (i0 <=? i') && (i' <? k) then vget (c0 K) col (i' - i0) else mget K a i' j')
    i0 i1 (fun i a => mset K a i j (vget (c0 K) col (i - i0))) a ltac:(lia) _ _)).
  - auto.
  - repeat split; auto; try apply Hw. intros; replace (_ && (i' <? i0)) with false by lia. auto.
  - intros k a' Hk (W & E1 & E2 & E3). split; [apply mset_wf; auto|].
    split; [auto|]. split; [auto|]. intros i' j' Hi' Hj'.
    rewrite mget_mset by (auto; lia). rewrite E3 by auto.
    destruct (Z.eqb_spec j' j); cbn.
    + subst. destruct (Z.eqb_spec i' k); cbn.
      * subst. replace ((i0 <=? k) && (k <? k + 1)) with true by lia. auto.
      * replace ((i0 <=? i') && (i' <? k + 1)) with ((i0 <=? i') && (i' <? k)) by lia. auto.
    + rewrite Bool.andb_false_r. auto.
Qed.

Lemma sc_n_vecs_ok c : sc_wf c -> exists lst, sc_n_vecs K c = Ok lst /\
  zlen lst = 2 * sc_mmax c + 1 /\
  vget [] lst 0 = map (fun n => cval c n 0) (zrange 0 (sc_nmax c + 1)) /\
  forall m, 1 <= m <= sc_mmax c ->
    vget [] lst (2 * m - 1) = map (fun n => cval c n (- m)) (zrange m (sc_nmax c + 1)) /\
    vget [] lst (2 * m) = map (fun n => cval c n m) (zrange m (sc_nmax c + 1)).
Proof.
  intros Hw; unfold sc_n_vecs. pose proof Hw as [Hg _]. unfold good_size in Hg.
  rewrite sc_get_col_ok by (auto; lia). cbn [bind].
  rewrite (mmap_ok _ (fun m => [map (fun n => cval c n (- m)) (zrange m (sc_nmax c + 1));
                                map (fun n => cval c n m) (zrange m (sc_nmax c + 1))])).
  2:{ intros m Hm; apply In_zrange in Hm. rewrite !sc_get_col_ok by (auto; lia). cbn [bind].
      replace (Z.abs (- m)) with m by lia. replace (Z.abs m) with m by lia. auto. }
  cbn [bind]. eexists; split; [reflexivity|].
  set (g := fun m => [map (fun n => cval c n (- m)) (zrange m (sc_nmax c + 1));
                      map (fun n => cval c n m) (zrange m (sc_nmax c + 1))]).
  assert (Hlen : forall a b, a <= b -> zlen (List.concat (map g (zrange a b))) = 2 * (b - a)).
  { intros a b Hab. remember (Z.to_nat (b - a)) as k eqn:Hk. revert a Hab Hk.
    induction k; intros a Hab Hk.
    - rewrite zrange_nil by lia. change (0 = 2 * (b - a)). lia.
    - rewrite zrange_cons by lia. cbn [map List.concat]. rewrite zlen_app, IHk by lia.
      unfold g, zlen; cbn [List.length]. lia. }
  split.
  { change (zlen (?x :: ?l)) with (zlen ([x] ++ l)). rewrite zlen_app, Hlen by lia. unfold zlen; cbn [List.length]; lia. }
  split; [reflexivity|].
  assert (Hget : forall a b m, a <= m < b -> 
     vget [] (List.concat (map g (zrange a b))) (2 * (m - a)) = map (fun n => cval c n (- m)) (zrange m (sc_nmax c + 1)) /\
     vget [] (List.concat (map g (zrange a b))) (2 * (m - a) + 1) = map (fun n => cval c n m) (zrange m (sc_nmax c + 1))).
  { intros a b m Hm. rewrite (zrange_app a m b) by lia. rewrite (zrange_cons m b) by lia.
    rewrite map_app, concat_app. cbn [map List.concat].
    split.
    - rewrite vget_app by lia. rewrite Hlen by lia. destruct (Z.ltb_spec (2 * (m - a)) (2 * (m - a))); [lia|].
      rewrite Z.sub_diag. reflexivity.
    - rewrite vget_app by lia. rewrite Hlen by lia. destruct (Z.ltb_spec (2 * (m - a) + 1) (2 * (m - a))); [lia|].
      replace (2 * (m - a) + 1 - 2 * (m - a)) with 1 by lia. reflexivity. }
  intros m Hm. change (?x :: ?l) with ([x] ++ l).
  destruct (Hget 1 (sc_mmax c + 1) m ltac:(lia)) as [G1 G2].
  split; rewrite vget_app by lia.
  - change (zlen [_]) with 1. destruct (Z.ltb_spec (2 * m - 1) 1); [lia|].
    replace (2 * m - 1 - 1) with (2 * (m - 1)) by lia. auto.
  - change (zlen [_]) with 1. destruct (Z.ltb_spec (2 * m) 1); [lia|].
    replace (2 * m - 1) with (2 * (m - 1) + 1) by lia. auto.
Qed.

Lemma sc_array_2d_ok c : sc_wf c -> exists a, sc_array_2d K c = Ok a /\
  mt_nr K a = sc_nmax c + 1 /\ mt_nc K a = 2 * sc_mmax c + 1 /\
  forall n m, 0 <= n <= sc_nmax c -> Z.abs m <= sc_mmax c ->
    mget K a n (m + sc_mmax c) = if Z.abs m <=? n then cval c n m else c0 K.
Proof.
  intros Hw; unfold sc_array_2d. pose proof Hw as [Hg _]. unfold good_size in Hg.
  destruct (sc_n_vecs_ok c Hw) as (lst & -> & Hll & H0 & Hm). cbn [bind].
  rewrite py_get_ok by lia. cbn [bind]. rewrite H0.
  set (a0 := mmake K _ _ _).
  assert (W0 : mat_wf K a0) by (apply mmake_wf; lia).
  assert (N0 : mt_nr K a0 = sc_nmax c + 1) by reflexivity.
  assert (N1 : mt_nc K a0 = 2 * sc_mmax c + 1) by reflexivity.
  destruct (mset_col_ok a0 0 (sc_nmax c + 1) (sc_mmax c) (map (fun n => cval c n 0) (zrange 0 (sc_nmax c + 1))))
    as (a1 & E1 & W1 & F1 & F2 & F3); auto; try lia.
  { rewrite zlen_map, zlen_zrange; lia. }
  rewrite E1; cbn [bind].
  match goal with |- context [mfor ?l ?f ?s] =>
    destruct (mfor_inv (fun k a => mat_wf K a /\ mt_nr K a = sc_nmax c + 1 /\ mt_nc K a = 2 * sc_mmax c + 1 /\
      forall n m, 0 <= n <= sc_nmax c -> Z.abs m <= sc_mmax c ->
       mget K a n (m + sc_mmax c) = if (Z.abs m <=? n) && (Z.abs m <? k) then cval c n m else c0 K)
      1 (sc_mmax c + 1) f s) as (a & E & W & G1 & G2 & G3) end.
  - lia.
  - split; [auto|]. split; [lia|]. split; [lia|]. intros n m Hn Hmm. rewrite F3 by lia.
    destruct (Z.eqb_spec (m + sc_mmax c) (sc_mmax c)).
    + assert (m = 0) by lia; subst.
      replace (true && _ && _) with true by lia.
      replace (_ && _) with true by lia.
      rewrite (vget_map (fun n => cval c n 0) 0) by (rewrite zlen_zrange; lia).
      rewrite vget_zrange by lia. f_equal; lia.
    + replace ((Z.abs m <=? n) && (Z.abs m <? 1)) with false by lia. cbn [andb].
      unfold a0. rewrite mget_mmake by lia. auto.
  - intros k a Hk (W & G1 & G2 & G3). destruct (Hm k ltac:(lia)) as [Hm1 Hm2].
    rewrite py_get_ok by lia. cbn [bind]. rewrite Hm1.
    destruct (mset_col_ok a k (sc_nmax c + 1) (sc_mmax c - k) (map (fun n => cval c n (- k)) (zrange k (sc_nmax c + 1))))
      as (a2 & E2 & W2 & I1 & I2 & I3); auto; try lia.
    { rewrite zlen_map, zlen_zrange; lia. }
    rewrite E2; cbn [bind]. rewrite py_get_ok by lia. cbn [bind]. rewrite Hm2.
    destruct (mset_col_ok a2 k (sc_nmax c + 1) (sc_mmax c + k) (map (fun n => cval c n k) (zrange k (sc_nmax c + 1))))
      as (a3 & E3 & W3 & J1 & J2 & J3); auto; try lia.
    { rewrite zlen_map, zlen_zrange; lia. }
    rewrite E3. exists a3. split; auto. split; auto. split; [lia|]. split; [lia|].
    intros n m Hn Hmm. rewrite J3 by lia. rewrite I3 by lia. rewrite G3 by auto.
    destruct (Z.eqb_spec (m + sc_mmax c) (sc_mmax c + k)).
    + assert (m = k) by lia; subst. cbn [andb].
      destruct (Z.leb_spec k n).
      * replace (_ && _) with true by lia. replace (_ && _) with true by lia.
        rewrite (vget_map (fun n => cval c n k) 0) by (rewrite zlen_zrange; lia).
        rewrite vget_zrange by lia. f_equal; lia.
      * cbn [andb]. replace (Z.abs k <=? n) with false by lia.
        rewrite Bool.andb_false_r. auto.
    + cbn [andb]. destruct (Z.eqb_spec (m + sc_mmax c) (sc_mmax c - k)).
      * assert (m = - k) by lia; subst. cbn [andb].
        destruct (Z.leb_spec k n).
        -- replace (_ && _) with true by lia. replace (_ && _) with true by lia.
           rewrite (vget_map (fun n => cval c n (-k)) 0) by (rewrite zlen_zrange; lia).
           rewrite vget_zrange by lia. f_equal; lia.
        -- cbn [andb]. replace (Z.abs (-k) <=? n) with false by lia. auto.
      * cbn [andb]. replace (Z.abs m <? k + 1) with (Z.abs m <? k) by lia. auto.
  - rewrite E. exists a. split; auto. split; auto. split; auto.
    intros n m Hn Hmm. rewrite G3 by auto.
    replace (Z.abs m <? sc_mmax c + 1) with true by lia. rewrite Bool.andb_true_r. auto.
Qed.

End SC2.
