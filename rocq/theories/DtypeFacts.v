(** * DtypeFacts: lemmas about MDtype.v *)
From Coq Require Import ZArith List String Bool Lia Reals Lra.
From Coquelicot Require Import Complex.
From Verif Require Import Py PyFacts Num Exact MCoefs SpecCoefs Obs CoefsFacts CoefsFacts2 CoefsFacts3 MPatt Sums Harm MPysphi MOps
  Smooth SpecDft Dft PysphiFacts TransFacts MTrans TransFacts2 TransFacts3 MKiss KissFacts KissFacts2 P_Kiss MCsphi CsphiFacts P_Coefs P_Ops P_Csphi
  MCint CintFacts CintFacts2 CintFacts3 CintFacts4 CintFacts5 P_Cint MDtype.
Import ListNotations.
Open Scope string_scope.
Open Scope list_scope.
Open Scope Z_scope.

(** ** Values that fit a type *)
Lemma Int_part_spec z x : (IZR z <= x < IZR z + 1)%R -> z = Int_part x.
Proof.
  intros H. destruct (base_Int_part x) as [A B].
  assert (IZR z < IZR (Int_part x + 1))%R by (rewrite plus_IZR; lra). apply lt_IZR in H0.
  assert (IZR (Int_part x) < IZR (z + 1))%R by (rewrite plus_IZR; lra). apply lt_IZR in H1. lia.
Qed.
Lemma rtrunc_IZR k : rtrunc (IZR k) = k.
Proof.
  unfold rtrunc. destruct (Rle_dec 0 (IZR k)).
  - symmetry. apply Int_part_spec. lra.
  - rewrite <- opp_IZR. replace (Int_part (IZR (- k))) with (- k); [lia|]. apply Int_part_spec. lra.
Qed.
Lemma rtrunc_small x : (-1 < x < 1)%R -> rtrunc x = 0.
Proof.
  intros H. unfold rtrunc. destruct (Rle_dec 0 x).
  - symmetry. apply Int_part_spec. cbn. lra.
  - replace (Int_part (- x)) with 0; [reflexivity|]. apply Int_part_spec. cbn. lra.
Qed.
Lemma cast_fits d z : fits d (cast d z).
Proof. destruct d; cbn; eauto. Qed.
Lemma fits_cast d z : fits d z -> cast d z = z.
Proof.
  destruct d; cbn; auto.
  - intros (k & ->). cbn. now rewrite rtrunc_IZR.
  - intros H. destruct z. cbn in *. now subst.
Qed.
Lemma cast_id_iff d z : cast d z = z <-> fits d z.
Proof. split; [|apply fits_cast]. intros <-. apply cast_fits. Qed.
Lemma fits_weaken d z : fits DInt z -> fits d z.
Proof. destruct d; cbn; auto. intros (k & ->). reflexivity. Qed.
Lemma fits_int_float z : fits DInt z -> fits DFloat z.
Proof. apply fits_weaken. Qed.
Lemma fits_djoin_l a b z : fits a z -> fits (djoin a b) z.
Proof. destruct a, b; cbn [djoin]; auto; try (intros; exact I); apply fits_weaken. Qed.
Lemma fits_djoin_r a b z : fits b z -> fits (djoin a b) z.
Proof. destruct a, b; cbn [djoin]; auto; try (intros; exact I); apply fits_weaken. Qed.

Lemma cdiv_real (x y : C) : snd x = 0%R -> snd y = 0%R -> snd (Cdiv x y) = 0%R.
Proof.
  destruct x as [a b], y as [c d]. cbn. intros -> ->.
  replace (c * (c * 1) + 0 * (0 * 1))%R with (c * c)%R by ring. unfold Rdiv. rewrite Ropp_0. ring.
Qed.
Lemma fits_binop o a b x y : fits a x -> fits b y -> fits (op_dtype o a b) (binop_fun RN o x y).
Proof.
  intros Ha Hb. apply (fits_djoin_l a b) in Ha. apply (fits_djoin_r a b) in Hb. unfold op_dtype.
  destruct (djoin a b).
  - destruct Ha as (k & ->), Hb as (l & ->). destruct o; cbn [binop_fun].
    + rewrite cadd_RN. exists (k + l). rewrite plus_IZR. apply injective_projections; cbn; ring.
    + rewrite csub_RN. exists (k - l). rewrite minus_IZR. apply injective_projections; cbn; ring.
    + rewrite cmul_RN. exists (k * l). rewrite mult_IZR. apply injective_projections; cbn; ring.
    + rewrite cdiv_RN. apply cdiv_real; reflexivity.
  - cbn [fits] in Ha, Hb. destruct o; cbn [binop_fun fits].
    + rewrite cadd_RN. cbn. rewrite Ha, Hb. ring.
    + rewrite csub_RN. cbn. rewrite Ha, Hb. ring.
    + rewrite cmul_RN. cbn. rewrite Ha, Hb. ring.
    + rewrite cdiv_RN. now apply cdiv_real.
  - destruct o; exact I.
Qed.
Lemma fits_abs d x : fits d x -> fits (abs_dtype d) (habs RN x).
Proof.
  destruct d; cbn [abs_dtype]; try reflexivity. intros (k & ->). exists (Z.abs k).
  unfold habs. rewrite cofR_RN, cabs_RN, Cmod_R, abs_IZR. reflexivity.
Qed.

(** ** Lists *)
Section Lists.
Context {A : Type} (P : A -> Prop).
Lemma Forall_upd v i x : Forall P v -> P x -> Forall P (upd v i x).
Proof. intros H. revert i. induction H; intros i Hx; destruct i; cbn; auto. Qed.
Lemma Forall_py_set v i x w : Forall P v -> P x -> py_set v i x = Ok w -> Forall P w.
Proof.
  intros Hv Hx. unfold py_set. destruct (py_index _ _) as [k|]; cbn [bind]; [|discriminate]. intros E. apply Ok_inj in E. subst w.
  unfold vset. destruct (k <? 0); auto. now apply Forall_upd.
Qed.
Lemma Forall_firstn_ n v : Forall P v -> Forall P (firstn n v).
Proof. intros H. revert n. induction H; intros [|n]; cbn; auto. Qed.
Lemma Forall_skipn_ n v : Forall P v -> Forall P (skipn n v).
Proof. intros H. revert n. induction H; intros [|n]; cbn; auto. Qed.
Lemma Forall_slice_set v a b w u : Forall P v -> Forall P w -> py_slice_set v a b w = Ok u -> Forall P u.
Proof.
  intros Hv Hw. unfold py_slice_set. destruct (_ =? _).
  - intros E. apply Ok_inj in E. subst u. apply Forall_app. split; [now apply Forall_firstn_|]. apply Forall_app. split; auto. now apply Forall_skipn_.
  - destruct w as [|x [|]]; try discriminate. intros E. apply Ok_inj in E. subst u.
    apply Forall_app. split; [now apply Forall_firstn_|]. apply Forall_app. split; [|now apply Forall_skipn_].
    inversion Hw; subst. apply Forall_forall. intros y Hy. apply repeat_spec in Hy. now subst.
Qed.
End Lists.
Lemma Forall_broadcast {A B D} (P : A -> Prop) (Q : B -> Prop) (S : D -> Prop) f u v w :
  (forall a b, P a -> Q b -> S (f a b)) -> Forall P u -> Forall Q v -> np_broadcast f u v = Ok w -> Forall S w.
Proof.
  intros Hf Hu Hv. unfold np_broadcast. destruct (_ =? _).
  - intros E. apply Ok_inj in E. subst w. clear - Hf Hu Hv. revert v Hv. induction Hu; intros v Hv; destruct v; cbn; auto. inversion Hv; subst. auto.
  - assert (L : forall a, P a -> Forall S (map (fun b => f a b) v)).
    { intros a Ha. apply Forall_map. eapply Forall_impl; [|exact Hv]. auto. }
    assert (R : forall b, Q b -> Forall S (map (fun a => f a b) u)).
    { intros b Hb. apply Forall_map. eapply Forall_impl; [|exact Hu]. auto. }
    destruct u as [|a [|a' u]]; destruct v as [|b [|b' v]]; intros E; try discriminate; apply Ok_inj in E; subst w; auto;
      try (apply L; inversion Hu; auto); try (apply R; inversion Hv; auto).
Qed.

Lemma sc_new_vec (v : list C) n m c : sc_new RN v n m = Ok c -> sc_vec RN c = v.
Proof. unfold sc_new. destruct (m >? n); [discriminate|]. destruct (negb _); [discriminate|]. intros E. apply Ok_inj in E. now subst. Qed.

(** ** Every operation keeps the values within the type *)
Definition well_typed (t : tcoefs) : Prop := Forall (fits (tc_dt t)) (sc_vec RN (tc_c t)).

Lemma wt_op o a b t : well_typed a -> well_typed b -> t_op o a b = Ok t -> well_typed t.
Proof.
  intros Ha Hb E. unfold t_op, sc_op_left in E. destruct (_ =? _); [|discriminate].
  destruct (np_broadcast _ _ _) as [v|] eqn:Ev; cbn [bind] in E; [|discriminate].
  destruct (sc_new RN v _ _) as [c|] eqn:Ec; cbn [bind] in E; [|discriminate]. apply Ok_inj in E. subst t.
  unfold well_typed. cbn [tc_c tc_dt tc_lay fresh l_dt]. rewrite (sc_new_vec _ _ _ _ Ec).
  eapply Forall_broadcast; [|exact Ha|exact Hb|exact Ev]. intros x y. apply fits_binop.
Qed.
Lemma num_fits x : fits (num_dtype x) (num_val x).
Proof. destruct x; cbn; eauto. Qed.
Lemma wt_op_num o a x t : well_typed a -> t_op_num o a x = Ok t -> well_typed t.
Proof.
  intros Ha E. unfold t_op_num in E. destruct (sc_op_left _ _ _ _) as [c|] eqn:Ec; cbn [bind] in E; [|discriminate]. apply Ok_inj in E. subst t.
  assert (Ev : sc_vec RN c = map (fun a => binop_fun RN o a (num_val x)) (sc_vec RN (tc_c a))).
  { unfold sc_op_left in Ec. destruct o; try (apply sc_new_vec in Ec; exact Ec).
    destruct (ceqb _ _ _). { destruct (_ >? _); discriminate. } apply sc_new_vec in Ec. exact Ec. }
  unfold well_typed. cbn [tc_c tc_dt tc_lay fresh l_dt]. rewrite Ev. apply Forall_map.
  eapply Forall_impl; [|exact Ha]. intros z Hz. apply fits_binop; auto. apply num_fits.
Qed.
Lemma wt_op_num_r o a x t : well_typed a -> t_op_num_r o x a = Ok t -> well_typed t.
Proof.
  intros Ha E. unfold t_op_num_r in E. destruct (sc_op_right _ _ _ _) as [c|] eqn:Ec; cbn [bind] in E; [|discriminate]. apply Ok_inj in E. subst t.
  unfold sc_op_right in Ec. apply sc_new_vec in Ec.
  unfold well_typed. cbn [tc_c tc_dt tc_lay fresh l_dt]. rewrite Ec. apply Forall_map.
  eapply Forall_impl; [|exact Ha]. intros z Hz. apply fits_binop; auto. apply num_fits.
Qed.
Lemma t_abs_inv a t : t_abs a = Ok t ->
  t = mkTC (fresh (abs_dtype (tc_dt a)) 1) (tc_kn a) (tc_km a) (tc_c t) /\
  sc_new RN (map (habs RN) (sc_vec RN (tc_c a))) (sc_nmax RN (tc_c a)) (sc_mmax RN (tc_c a)) = Ok (tc_c t).
Proof.
  unfold t_abs. cbn [sp_abs]. destruct (sc_new _ _ _ _) as [c|] eqn:Ec; cbn [bind]; [|discriminate]. intros E. apply Ok_inj in E. subst t. split; reflexivity.
Qed.
Lemma wt_abs a t : well_typed a -> t_abs a = Ok t -> well_typed t.
Proof.
  intros Ha E. apply t_abs_inv in E. destruct E as [Et Ec]. rewrite Et. unfold well_typed. cbn [tc_c tc_dt tc_lay fresh l_dt].
  rewrite (sc_new_vec _ _ _ _ Ec). apply Forall_map. eapply Forall_impl; [|exact Ha]. intros z. apply fits_abs.
Qed.
Lemma wt_copy a t : well_typed a -> t_copy a = Ok t -> well_typed t.
Proof.
  intros Ha E. unfold t_copy, sc_copy in E. destruct (sc_new _ _ _ _) as [c|] eqn:Ec; cbn [bind] in E; [|discriminate]. apply Ok_inj in E. subst t.
  unfold well_typed. cbn [tc_c tc_dt tc_lay l_dt]. rewrite (sc_new_vec _ _ _ _ Ec). exact Ha.
Qed.
Lemma wt_complex t : tc_dt t = DComplex -> well_typed t.
Proof. intros E. unfold well_typed. rewrite E. apply Forall_forall. intros; exact I. Qed.
Lemma t_trunc_dt a k t : t_trunc a k = Ok t -> tc_lay t = fresh DComplex 1.
Proof. unfold t_trunc. destruct (sc_trunc _ _ _); cbn [bind]; [|discriminate]. intros E. apply Ok_inj in E. now subst. Qed.
Lemma wt_set_elem a n m x t : well_typed a -> t_set_elem a n m x = Ok t -> well_typed t.
Proof.
  intros Ha E. unfold t_set_elem in E. destruct (sc_elem_index _ _ _ _) as [i|] eqn:Ei; cbn [bind] in E; [|discriminate].
  assert (G : forall v, (c <- sc_set_elem RN (tc_c a) n m (cast (tc_dt a) v) ;; Ok (mkTC (tc_lay a) (tc_kn a) (tc_km a) c)) = Ok t -> well_typed t).
  { intros v. unfold sc_set_elem. rewrite Ei. cbn [bind]. match goal with |- context [py_set ?u ?j ?z] => destruct (py_set u j z) as [w|] eqn:Ew end; cbn [bind]; [|intros E0; discriminate E0].
    intros E'. apply Ok_inj in E'. subst t. unfold well_typed, tc_dt. cbn [tc_c tc_lay sc_vec]. eapply Forall_py_set; [exact Ha| |exact Ew]. apply cast_fits. }
  destruct (num_dtype x); [exact (G _ E)|exact (G _ E)|]. destruct (tc_dt a) eqn:Ed; [| |rewrite <- Ed in E; exact (G _ E)];
    destruct (py_set _ _ _); discriminate.
Qed.
Lemma wt_set_col a m v : well_typed a -> well_typed (fst (t_set_col a m v)) /\ tc_lay (fst (t_set_col a m v)) = tc_lay a /\
  tc_kn (fst (t_set_col a m v)) = tc_kn a /\ tc_km (fst (t_set_col a m v)) = tc_km a.
Proof.
  intros Ha. unfold t_set_col. destruct (sc_set_col _ _ _ _) as [c r] eqn:Ec. cbn [fst tc_lay tc_kn tc_km]. split; [|auto].
  unfold well_typed, tc_dt. cbn [tc_c tc_lay]. unfold sc_set_col in Ec.
  destruct (_ >? _). { injection Ec as <- _. exact Ha. }
  destruct (mindx _ _ _) as [i|]; cbn [bind lift_res] in Ec; [|injection Ec as <- _; exact Ha].
  cbn [val_len val_list] in Ec. cbn [bind] in Ec.
  destruct (negb _); cbn [lift_res] in Ec; [injection Ec as <- _; exact Ha|].
  destruct (py_slice_set _ _ _ _) as [w|] eqn:Ew; cbn [bind lift_res] in Ec; injection Ec as <- _; [|exact Ha].
  cbn [sc_vec]. eapply Forall_slice_set; [exact Ha| |exact Ew]. apply Forall_map. apply Forall_forall. intros. apply cast_fits.
Qed.
Lemma wt_window_col a m w : well_typed a -> well_typed (fst (t_window_col m w a)) /\ tc_lay (fst (t_window_col m w a)) = tc_lay a /\
  tc_kn (fst (t_window_col m w a)) = tc_kn a /\ tc_km (fst (t_window_col m w a)) = tc_km a.
Proof. intros Ha. unfold t_window_col. destruct (_ <- _ ;; _); [now apply wt_set_col|cbn [fst]; auto]. Qed.
Definition same_kind (a b : tcoefs) : Prop := well_typed a /\ tc_lay a = tc_lay b /\ tc_kn a = tc_kn b /\ tc_km a = tc_km b.
Lemma wt_seq a x f : same_kind (fst x) a -> (forall b, same_kind b a -> same_kind (fst (f b)) a) -> same_kind (fst (seq_unit x f)) a.
Proof. intros H Hf. destruct x as [b [u|e]]; cbn [seq_unit fst] in *; auto. Qed.
Lemma same_step a b m w : same_kind b a -> same_kind (fst (t_window_col m w b)) a.
Proof.
  intros (H1 & H2 & H3 & H4). destruct (wt_window_col b m w H1) as (G1 & G2 & G3 & G4).
  unfold same_kind. split; [exact G1|]. split; [congruence|]. split; congruence.
Qed.
Lemma wt_window a w : well_typed a -> same_kind (fst (t_window a w)) a.
Proof.
  intros Ha. unfold t_window. assert (R : same_kind a a) by (unfold same_kind; auto).
  apply wt_seq. { now apply same_step. }
  intros b Hb. generalize (zrange 1 (sc_mmax RN (tc_c b) + 1)). intros l. revert b Hb.
  induction l as [|m l IH]; intros b Hb; cbn [sfor]; [exact Hb|].
  match goal with |- context [seq_unit ?x ?f] => pose proof (wt_seq a x f) as K; destruct (seq_unit x f) as [b' [u|e]] end; cbn [fst] in *.
  - apply IH. apply K; [now apply same_step|]. intros; now apply same_step.
  - apply K; [now apply same_step|]. intros; now apply same_step.
Qed.

(** ** window *)
Lemma t_window_col_ok a m w : sc_wf RN (tc_c a) -> Z.abs m <= sc_mmax RN (tc_c a) ->
  zlen w = sc_nmax RN (tc_c a) - Z.abs m + 1 ->
  exists c', t_window_col m w a = (mkTC (tc_lay a) (tc_kn a) (tc_km a) c', Ok tt) /\ sc_wf RN c' /\
    sc_nmax RN c' = sc_nmax RN (tc_c a) /\ sc_mmax RN c' = sc_mmax RN (tc_c a) /\
    forall n' m', is_mode (sc_nmax RN (tc_c a)) (sc_mmax RN (tc_c a)) n' m' ->
      cval RN c' n' m' = if m' =? m then cast (tc_dt a) (cval RN (tc_c a) n' m' * vget (RtoC 0) w (n' - Z.abs m))%C else cval RN (tc_c a) n' m'.
Proof.
  intros Hw Hm Hl; unfold t_window_col. rewrite sc_get_col_ok by auto. cbn [bind].
  pose proof Hw as [Hg _]; unfold good_size in Hg.
  set (col := map _ _).
  assert (Hcol : zlen col = zlen w) by (unfold col; rewrite zlen_map, zlen_zrange; lia).
  rewrite np_broadcast_eq by auto. unfold t_set_col.
  set (l := zip_with (cmul RN) col w). assert (Ll : zlen l = zlen w) by (unfold l; rewrite zlen_zip_with; auto).
  destruct (sc_set_col_ok RN (tc_c a) m (VArr (map (cast (tc_dt a)) l)) (map (cast (tc_dt a)) l))
    as (c' & E & W & F1 & F2 & F3); auto.
  { transitivity (zlen l); [apply zlen_map|]. exact (eq_trans Ll Hl). }
  rewrite E. exists c'. split; [reflexivity|]. split; [exact W|]. split; [exact F1|]. split; [exact F2|].
  intros n' m' Hm'. rewrite F3 by auto. destruct (Z.eqb_spec m' m) as [->|]; auto.
  unfold is_mode in Hm'.
  assert (Hi : 0 <= n' - Z.abs m < zlen l) by (rewrite Ll; lia).
  etransitivity; [exact (vget_map (cast (tc_dt a)) (c0 RN) (c0 RN) l (n' - Z.abs m) Hi)|]. f_equal. unfold l.
  assert (Hj : 0 <= n' - Z.abs m < zlen col) by (rewrite Hcol; lia).
  etransitivity; [refine (vget_zip_with _ _ _ _ (c0 RN) (c0 RN) _ _ _); [exact Hj|exact (eq_ind _ (fun z => n' - Z.abs m < z) (proj2 Hj) _ Hcol)]|]. change (cmul RN) with Cmult. f_equal.
  unfold col. rewrite (vget_map (fun n => cval RN (tc_c a) n m) 0) by (rewrite zlen_zrange; lia).
  rewrite vget_zrange by lia. f_equal; lia.
Qed.

Lemma t_window_ok a vec : sc_wf RN (tc_c a) -> zlen vec = sc_nmax RN (tc_c a) + 1 ->
  exists c', t_window a vec = (mkTC (tc_lay a) (tc_kn a) (tc_km a) c', Ok tt) /\ sc_wf RN c' /\
    sc_nmax RN c' = sc_nmax RN (tc_c a) /\ sc_mmax RN c' = sc_mmax RN (tc_c a) /\
    forall n m, is_mode (sc_nmax RN (tc_c a)) (sc_mmax RN (tc_c a)) n m ->
      cval RN c' n m = cast (tc_dt a) (cval RN (tc_c a) n m * vget (RtoC 0) vec n)%C.
Proof.
  intros Hw Hl; unfold t_window. pose proof Hw as [Hg _]; unfold good_size in Hg.
  set (c := tc_c a) in *.
  destruct (t_window_col_ok a 0 vec) as (c1 & E1 & W1 & F1 & F2 & F3); auto; try (fold c; lia). fold c in F1, F2, F3.
  rewrite E1; cbn [seq_unit tc_c]. rewrite F2.
  match goal with |- context [sfor ?l ?f ?s] =>
    destruct (sfor_inv (fun a' (t : tcoefs) => exists c', t = mkTC (tc_lay a) (tc_kn a) (tc_km a) c' /\
      sc_wf RN c' /\ sc_nmax RN c' = sc_nmax RN c /\ sc_mmax RN c' = sc_mmax RN c /\
      forall n m, is_mode (sc_nmax RN c) (sc_mmax RN c) n m ->
        cval RN c' n m = if Z.abs m <? a' then cast (tc_dt a) (cval RN c n m * vget (RtoC 0) vec n)%C else cval RN c n m)
      1 (sc_mmax RN c + 1) f s) as (t' & E & c' & -> & W & G1 & G2 & G3) end.
  - lia.
  - exists c1. split; [reflexivity|]. split; [exact W1|]. split; [exact F1|]. split; [exact F2|]. intros n m Hm. rewrite F3 by auto.
    destruct (Z.eqb_spec m 0) as [->|].
    + replace (Z.abs 0 <? 1) with true by lia. do 3 f_equal; lia.
    + replace (Z.abs m <? 1) with false by lia. auto.
  - intros k t2 Ha (c2 & -> & W2 & G1 & G2 & G3).
    assert (Hsl : zlen (py_slice vec k (zlen vec)) = sc_nmax RN c - k + 1) by (rewrite zlen_py_slice; lia).
    destruct (t_window_col_ok (mkTC (tc_lay a) (tc_kn a) (tc_km a) c2) (- k) (py_slice vec k (zlen vec))) as (c3 & E3 & W3 & H1 & H2 & H3); auto; try (cbn [tc_c]; lia).
    rewrite E3; cbn [seq_unit tc_lay tc_kn tc_km]. cbn [tc_c] in H1, H2, H3.
    destruct (t_window_col_ok (mkTC (tc_lay a) (tc_kn a) (tc_km a) c3) k (py_slice vec k (zlen vec))) as (c4 & E4 & W4 & I1 & I2 & I3); auto; try (cbn [tc_c]; lia).
    cbn [tc_c tc_lay tc_kn tc_km] in I1, I2, I3, E4. rewrite E4. exists (mkTC (tc_lay a) (tc_kn a) (tc_km a) c4). split; auto.
    exists c4. split; auto. split; auto. split; [lia|]. split; [lia|].
    intros n m Hm. rewrite I3 by (rewrite H1, H2, G1, G2; auto). rewrite H3 by (rewrite G1, G2; auto).
    rewrite G3 by auto. change (tc_dt (mkTC (tc_lay a) (tc_kn a) (tc_km a) c2)) with (tc_dt a). change (tc_dt (mkTC (tc_lay a) (tc_kn a) (tc_km a) c3)) with (tc_dt a).
    assert (Hs : Z.abs m = k -> vget (RtoC 0) (py_slice vec k (zlen vec)) (n - Z.abs k) = vget (RtoC 0) vec n).
    { intros Hma. unfold is_mode in Hm. rewrite vget_py_slice by lia. f_equal; lia. }
    destruct (Z.eqb_spec m k) as [->|].
    + replace (k =? - k) with false by lia. replace (Z.abs k <? k) with false by lia.
      replace (Z.abs k <? k + 1) with true by lia. rewrite Hs by lia. auto.
    + destruct (Z.eqb_spec m (- k)) as [->|].
      * replace (Z.abs (- k) <? k) with false by lia.
        replace (Z.abs (- k) <? k + 1) with true by lia.
        replace (n - Z.abs (-k)) with (n - Z.abs k) by lia. rewrite Hs by lia. auto.
      * replace (Z.abs m <? k + 1) with (Z.abs m <? k) by lia. auto.
  - rewrite E. exists c'. split; auto. split; auto. split; auto. split; auto.
    intros n m Hm. rewrite G3 by auto. unfold is_mode in Hm.
    replace (Z.abs m <? sc_mmax RN c + 1) with true by lia. auto.
Qed.

Lemma wt_cval t n m : well_typed t -> sc_wf RN (tc_c t) -> is_mode (sc_nmax RN (tc_c t)) (sc_mmax RN (tc_c t)) n m ->
  fits (tc_dt t) (cval RN (tc_c t) n m).
Proof.
  intros Ht [Hg Hl] Hm. pose proof (pos_range _ _ _ _ Hg Hm) as Hp. unfold cval, vget.
  unfold well_typed in Ht. rewrite Forall_forall in Ht. apply Ht.
  destruct (Z.ltb_spec (pos (sc_nmax RN (tc_c t)) n m) 0); [lia|]. apply nth_In. unfold zlen in *. lia.
Qed.
Lemma nv_real n : snd (nv n) = 0%R.
Proof. unfold nv. destruct (_ =? _); reflexivity. Qed.
