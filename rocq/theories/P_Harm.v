(** * P_Harm: property C49, sph_harmonic_tp. *)
From Coq Require Import ZArith List String Bool Lia Reals Lra.
From Coquelicot Require Import Coquelicot.
From Verif Require Import Py PyFacts Num Exact MCoefs SpecCoefs Obs CoefsFacts CoefsFacts2 CoefsFacts3
  MPatt SpecPatt PattFacts Sums Harm SpecHarm MPysphi MOps Dft PysphiFacts TransFacts MTrans TransFacts2 TransFacts3
  TransFacts4 HarmFacts VHarm P_Coefs P_Patt P_Trans.
Import ListNotations.
Open Scope string_scope.
Open Scope list_scope.
Open Scope Z_scope.

Lemma rev_vmake {A} n (f : Z -> A) : rev (vmake n f) = vmake n (fun i => f (n - 1 - i)).
Proof.
  destruct (Z_lt_le_dec n 0) as [H|H].
  { unfold vmake. rewrite zrange_nil by lia. reflexivity. }
  unfold vmake. rewrite <- map_rev.
  pose proof (zrange_down_rev (n - 1) (-1)) as E. replace (-1 + 1) with 0 in E by lia. replace (n - 1 + 1) with n in E by lia.
  rewrite <- E. unfold zrange_down, zrange. rewrite !map_map. replace (n - 1 - -1) with (n - 0) by lia.
  apply map_ext. intros k. reflexivity.
Qed.

(** The loop over one row and over all rows. *)
Lemma set_cells (nr nc : Z) (V : Z -> Z -> C) (body : Z -> Z -> MR -> res MR) :
  0 <= nr -> 0 <= nc ->
  (forall i j out, 0 <= i < nr -> 0 <= j < nc ->
     body i j out = Ok (mmake RN nr nc (fun a b => if (a =? i) && (b =? j) then V i j else cget out a b))) ->
  mfor (zrange 0 nr) (fun i out => mfor (zrange 0 nc) (fun j out => body i j out) out) (mmake RN nr nc (fun _ _ => RtoC 0))
  = Ok (mmake RN nr nc V).
Proof.
  intros Hr Hc Hb.
  destruct (mfor_inv (fun i out => out = mmake RN nr nc (fun a b => if a <? i then V a b else RtoC 0)) 0 nr
    (fun i out => mfor (zrange 0 nc) (fun j out => body i j out) out) (mmake RN nr nc (fun _ _ => RtoC 0))) as (o & E & Ho); [lia| | |].
  - apply mmake_ext; auto. intros i j Hi Hj. destruct (Z.ltb_spec i 0); [lia|auto].
  - intros i s Hi ->.
    destruct (mfor_inv (fun j out => out = mmake RN nr nc (fun a b => if (a <? i) || ((a =? i) && (b <? j)) then V a b else RtoC 0)) 0 nc
      (fun j out => body i j out) (mmake RN nr nc (fun a b => if a <? i then V a b else RtoC 0))) as (o & E & Ho); [lia| | |].
    + apply mmake_ext; auto. intros a b Ha Hb'. destruct (Z.ltb_spec b 0); [lia|]. now rewrite andb_false_r, orb_false_r.
    + intros j s Hj ->. eexists. split; [apply Hb; auto|]. apply mmake_ext; auto. intros a b Ha Hb'.
      rewrite cget_mmake by auto.
      destruct (Z.eqb_spec a i), (Z.eqb_spec b j), (Z.ltb_spec a i), (Z.ltb_spec b j), (Z.ltb_spec b (j + 1)); subst; cbn [andb orb]; auto; lia.
    + exists o. split; auto. subst o. apply mmake_ext; auto. intros a b Ha Hb'.
      destruct (Z.eqb_spec a i), (Z.ltb_spec a i), (Z.ltb_spec b nc), (Z.ltb_spec a (i + 1)); cbn [andb orb]; auto; lia.
  - rewrite E. subst o. f_equal. apply mmake_ext; auto. intros a b Ha Hb'. destruct (Z.ltb_spec a nr); [auto|lia].
Qed.

Lemma yvec_eq n m : 0 <= n -> Z.abs m <= n ->
  rev (map (fun y => y * IZR (sgnpow m))%R (py_slice (vmake (n + 1) (Yt n m)) 1 (n + 1))) ++ vmake (n + 1) (Yt n m)
  = vmake (2 * n + 1) (fun i => Yt n m (i - n)).
Proof.
  intros Hn Hm. rewrite py_slice_vm by lia. rewrite map_vmake, rev_vmake. replace (n + 1 - 1) with n by lia.
  apply (vget_ext 0%R).
  - rewrite zlen_app, !zlen_vmake. lia.
  - rewrite zlen_app, !zlen_vmake. intros i Hi. rewrite vget_app by lia. rewrite zlen_vmake' by lia.
    rewrite (vget_vmake _ (2 * n + 1)) by lia.
    destruct (Z.ltb_spec i n).
    + rewrite vget_vmake by lia. replace (i - n) with (- (1 + (n - 1 - i))) by lia. rewrite Yt_neg. ring.
    + rewrite vget_vmake by lia. reflexivity.
Qed.

Lemma zrange_vmake lo hi : zrange lo hi = vmake (hi - lo) (fun i => lo + i).
Proof.
  unfold vmake. pose proof (zrange_shift 0 (hi - lo) lo) as E. replace (0 + lo) with lo in E by lia. replace (hi - lo + lo) with hi in E by lia.
  rewrite E. apply map_ext. intros; lia.
Qed.

(** The angles sampled by the code. *)
Definition theta_pt (nrows i : Z) : R := if nrows =? 1 then 0%R else (IZR i * (PI / (IZR nrows - 1)))%R.
Definition phi_pt (ncols j : Z) : R := (IZR j * ((2 * PI - 2 * PI / IZR ncols) / 49))%R.

Lemma vl_eq n m theta phi : Z.abs m <= n ->
  (ipow m * cisR (IZR m * phi) * np_sumC (vmake (2 * n + 1) (fun i => RtoC (Yt n m (i - n)) * cisR (IZR (- n + i) * theta))%C))%C
  = sph_harm n m theta phi.
Proof.
  intros H. rewrite <- Yc_sph_harm by auto. unfold Yc. f_equal. rewrite np_sumC_vmake.
  transitivity (sumC (0 + - n) (2 * n + 1 + - n) (fun k => RtoC (Yt n m k) * cisR (IZR k * theta))%C).
  - rewrite sumC_shift. apply sumC_ext. intros k Hk. replace (- n + k) with (k + - n) by lia. reflexivity.
  - f_equal; lia.
Qed.

(** Exactly what sph_harmonic_tp returns: Y_n^m on the grid theta_i = i pi /
    (nrows - 1), phi_j = j (2 pi - 2 pi / ncols) / 49. *)
Theorem C49_values : forall nrows ncols n m, 0 <= nrows -> 1 <= ncols <= 50 -> Z.abs m <= n ->
  exists out, sph_harmonic_tp nrows ncols n m = Ok out /\ mt_nr RN out = nrows /\ mt_nc RN out = ncols /\
    forall i j, 0 <= i < nrows -> 0 <= j < ncols -> mget RN out i j = sph_harm n m (theta_pt nrows i) (phi_pt ncols j).
Proof.
  intros nrows ncols n m Hr Hc Hm.
  exists (mmake RN nrows ncols (fun i j => sph_harm n m (theta_pt nrows i) (phi_pt ncols j))).
  split; [|split; [reflexivity|split; [reflexivity|]]].
  2:{ intros i j Hi Hj. apply mget_mmake; auto. }
  unfold sph_harmonic_tp. rewrite ynunm_eq by lia. cbn [bind]. rewrite zlen_vmake' by lia. rewrite yvec_eq by lia.
  destruct (Z.ltb_spec nrows 0); [lia|]. destruct (Z.eqb_spec ncols 0); [lia|].
  unfold np_zeros2. destruct (Z.ltb_spec nrows 0); [lia|]. destruct (Z.ltb_spec ncols 0); [lia|]. cbn [orb bind].
  rewrite (zrange_vmake (- n)). replace (n + 1 - - n) with (2 * n + 1) by lia. unfold linspace0.
  rewrite (mfor_ext _ _ (fun i out => mfor (zrange 0 ncols) (fun j out =>
    Ok (mmake RN nrows ncols (fun a b => if (a =? i) && (b =? j) then sph_harm n m (theta_pt nrows i) (phi_pt ncols j) else cget out a b))) out)).
  - apply (set_cells nrows ncols (fun i j => sph_harm n m (theta_pt nrows i) (phi_pt ncols j))); try lia. reflexivity.
  - intros i s Hi. apply In_zrange in Hi. rewrite py_get_vmake by lia. cbn [bind].
    apply mfor_ext. intros j s' Hj. apply In_zrange in Hj. rewrite map_vmake, np_broadcast_vmake. cbn [bind].
    rewrite py_get_vmake by lia. cbn [bind]. change (50 =? 1) with false. cbn iota.
    replace (IZR 50 - 1)%R with 49%R by lra.
    f_equal. apply mmake_ext; try lia. intros a b Ha Hb.
    change (IZR j * ((2 * PI - 2 * PI / IZR ncols) / 49))%R with (phi_pt ncols j).
    change (if nrows =? 1 then 0%R else (IZR i * (PI / (IZR nrows - 1)))%R) with (theta_pt nrows i).
    destruct (_ && _); auto. apply vl_eq; auto.
Qed.
Print Assumptions C49_values.

(** For ncols = 50 that is the documented grid. *)
Theorem C49_correct_for_50 : forall nrows n m, 2 <= nrows -> Z.abs m <= n ->
  exists out, sph_harmonic_tp nrows 50 n m = Ok out /\ mt_nr RN out = nrows /\ mt_nc RN out = 50 /\
    forall i j, 0 <= i < nrows -> 0 <= j < 50 ->
      mget RN out i j = sph_harm n m (PI * IZR i / IZR (nrows - 1)) (2 * PI * IZR j / 50).
Proof.
  intros nrows n m Hr Hm. destruct (C49_values nrows 50 n m) as (out & E & H1 & H2 & V); try lia.
  exists out. split; auto. split; auto. split; auto. intros i j Hi Hj. rewrite V by auto. f_equal.
  - unfold theta_pt. destruct (Z.eqb_spec nrows 1); [lia|]. rewrite minus_IZR. field. rewrite <- minus_IZR. apply not_0_IZR. lia.
  - unfold phi_pt. field.
Qed.
Print Assumptions C49_correct_for_50.

(** ... and then it agrees with ispht of the unit coefficient. *)
Theorem C49_agrees_with_ispht : forall c nrows n m, valid RN c -> is_mode (sc_nmax RN c) (sc_mmax RN c) n m ->
  holds c (fun n' m' => if (n' =? n) && (m' =? m) then RtoC 1 else RtoC 0) ->
  sc_nmax RN c + 2 <= nrows -> sc_mmax RN c <= 24 ->
  exists out p, sph_harmonic_tp nrows 50 n m = Ok out /\ ispht py_backend c (Some nrows) (Some 50) = Ok p /\
    forall i j, 0 <= i < nrows -> 0 <= j < 50 -> mget RN out i j = mget RN (p_array RN p) i j.
Proof.
  intros c nrows n m Hv Hm Hh Hr Hc. pose proof (proj1 (valid_wf RN c) Hv) as [[Hg1 Hg2] _]. unfold is_mode in Hm.
  destruct (C49_correct_for_50 nrows n m) as (out & E & _ & _ & V); try lia.
  destruct (C24_ispht_evaluates_series c _ nrows 50 Hv Hh) as (p & Ep & _ & _ & _ & _ & Vp); [lia|lia|reflexivity|].
  exists out, p. split; auto. split; auto. intros i j Hi Hj. rewrite V, Vp by auto.
  unfold harm_series. rewrite (sumC_single _ _ m); [|lia|].
  - rewrite (sumC_single _ _ n); [|lia|].
    + rewrite !Z.eqb_refl. cbn [andb]. match goal with |- ?a = ?b => change (@eq C a b) end. ring.
    + intros k Hk Hne. destruct (Z.eqb_spec k n); [lia|]. cbn [andb]. ring.
  - intros k Hk Hne. apply sumC_zero. intros k' _. destruct (Z.eqb_spec k m); [lia|]. rewrite andb_false_r. ring.
Qed.
Print Assumptions C49_agrees_with_ispht.

(** Finding: more than 50 columns raise IndexError. *)
Theorem C49_wide_raises : forall nrows ncols n m, 1 <= nrows -> 50 < ncols -> Z.abs m <= n ->
  sph_harmonic_tp nrows ncols n m = Raise IndexError.
Proof.
  intros nrows ncols n m Hr Hc Hm.
  unfold sph_harmonic_tp. rewrite ynunm_eq by lia. cbn [bind]. rewrite zlen_vmake' by lia. rewrite yvec_eq by lia.
  destruct (Z.ltb_spec nrows 0); [lia|]. destruct (Z.eqb_spec ncols 0); [lia|].
  unfold np_zeros2. destruct (Z.ltb_spec nrows 0); [lia|]. destruct (Z.ltb_spec ncols 0); [lia|]. cbn [orb bind].
  rewrite (zrange_vmake (- n)). replace (n + 1 - - n) with (2 * n + 1) by lia. unfold linspace0.
  rewrite (zrange_cons 0 nrows) by lia. cbn [mfor]. rewrite py_get_vmake by lia. cbn [bind]. rewrite map_vmake, np_broadcast_vmake. cbn [bind].
  rewrite (zrange_app 0 50 ncols) by lia. rewrite mfor_app.
  match goal with |- context [mfor (zrange 0 50) ?f ?s] =>
    destruct (mfor_inv (fun _ _ => True) 0 50 f s) as (o & -> & _); [lia|auto| |] end.
  - intros j s Hj _. eexists. split; [rewrite py_get_vmake by lia; cbn [bind]; reflexivity|auto].
  - cbn [bind]. rewrite (zrange_cons 50 ncols) by lia. cbn [mfor].
    match goal with |- context [py_get ?d ?v ?i] => replace (py_get d v i) with (@Raise R IndexError) end.
    + reflexivity.
    + unfold py_get. rewrite zlen_vmake' by lia. reflexivity.
Qed.
Print Assumptions C49_wide_raises.

(** Finding: for another number of columns the values are not those of the
    documented grid phi_j = 2 pi j / ncols. *)
Lemma sph_harm_11 phi : fst (sph_harm 1 1 (PI / 2) phi) = (- norm_factor 1 1 * cos phi)%R.
Proof.
  unfold sph_harm, sph_harm_pos, assoc_legendre_cos. change (Z.to_nat 1) with 1%nat. change (0 <=? 1) with true. cbn iota.
  rewrite sin_PI2. replace (Derive_n (legendre 1) 1 (cos (PI / 2))) with 1%R.
  - cbn [INR]. rewrite Rmult_1_l. cbn. ring.
  - cbn [Derive_n]. rewrite (Derive_ext _ (fun x => x)) by reflexivity. now rewrite Derive_id.
Qed.
Theorem C49_other_columns_refuted :
  ~ (forall nrows ncols n m out, 2 <= nrows -> 1 <= ncols <= 50 -> ncols mod 2 = 0 -> Z.abs m <= n ->
       sph_harmonic_tp nrows ncols n m = Ok out ->
       forall i j, 0 <= i < nrows -> 0 <= j < ncols ->
         mget RN out i j = sph_harm n m (PI * IZR i / IZR (nrows - 1)) (2 * PI * IZR j / IZR ncols)).
Proof.
  intros H. destruct (C49_values 3 4 1 1) as (out & E & _ & _ & V); try lia.
  specialize (H 3 4 1 1 out ltac:(lia) ltac:(lia) eq_refl ltac:(lia) E 1 1 ltac:(lia) ltac:(lia)).
  rewrite V in H by lia. unfold theta_pt, phi_pt in H. change (3 =? 1) with false in H. cbn iota in H.
  replace (1 * (PI / (3 - 1)))%R with (PI / 2)%R in H by field. change (3 - 1) with 2 in H.
  replace (PI * 1 / 2)%R with (PI / 2)%R in H by field.
  replace (2 * PI * 1 / 4)%R with (PI / 2)%R in H by field.
  assert (F : fst (sph_harm 1 1 (PI / 2) (1 * ((2 * PI - 2 * PI / 4) / 49))) = fst (sph_harm 1 1 (PI / 2) (PI / 2))) by exact (f_equal fst H).
  rewrite !sph_harm_11, cos_PI2 in F.
  assert (N : (0 < norm_factor 1 1)%R).
  { apply sqrt_lt_R0. pose proof PI_RGT_0. apply Rmult_lt_0_compat; [apply Rdiv_lt_0_compat; cbn; lra|]. apply Rdiv_lt_0_compat; apply INR_fact_lt_0. }
  assert (P : (0 < cos (1 * ((2 * PI - 2 * PI / 4) / 49)))%R) by (pose proof PI_RGT_0; apply cos_gt_0; lra).
  nra.
Qed.
Print Assumptions C49_other_columns_refuted.

Example C49_nonvacuous : exists out, sph_harmonic_tp 3 50 1 1 = Ok out /\ mget RN out 1 0 <> RtoC 0.
Proof.
  destruct (C49_correct_for_50 3 1 1) as (out & E & _ & _ & V); try lia. exists out. split; auto.
  rewrite V by lia. change (3 - 1) with 2. replace (PI * 1 / 2)%R with (PI / 2)%R by field. intros H.
  assert (F : fst (sph_harm 1 1 (PI / 2) (2 * PI * 0 / 50)) = 0%R) by exact (f_equal fst H).
  rewrite sph_harm_11 in F. replace (2 * PI * 0 / 50)%R with 0%R in F by field. rewrite cos_0 in F.
  assert (N : (0 < norm_factor 1 1)%R).
  { apply sqrt_lt_R0. pose proof PI_RGT_0. apply Rmult_lt_0_compat; [apply Rdiv_lt_0_compat; cbn; lra|]. apply Rdiv_lt_0_compat; apply INR_fact_lt_0. }
  lra.
Qed.
