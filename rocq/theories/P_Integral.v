(** * P_Integral: properties C54 and C55: the coefficients spht computes are
    inner products with the spherical harmonics, and power() is the energy. *)
From Coq Require Import ZArith List String Bool Lia Reals Lra Permutation.
From Coquelicot Require Import Coquelicot.
From Verif Require Import Py PyFacts Num Exact MCoefs SpecCoefs Obs CoefsFacts CoefsFacts2 CoefsFacts3 MPatt SpecPatt PattFacts Sums Harm
  MPysphi MOps Smooth Dft PysphiFacts TransFacts MTrans TransFacts2 TransFacts3 TransFacts4 SpecHarm HarmFacts
  P_Coefs P_Patt P_Trans P_Trans2 MCsphi P_Csphi SpecInt Integ Integ2.
Import ListNotations.
Open Scope Z_scope.

(** ** The statements' vocabulary *)

(** The array of the values of F on the grid theta_i = pi i / (nrows - 1),
    phi_j = 2 pi j / ncols. *)
Definition samples (F : R -> R -> C) (data : mat RN) : Prop :=
  forall i j, 0 <= i < mt_nr RN data -> 0 <= j < mt_nc RN data ->
    mget RN data i j = F (PI * IZR i / IZR (mt_nr RN data - 1))%R (2 * PI * IZR j / IZR (mt_nc RN data))%R.

(** F is a function on the sphere that is a trigonometric polynomial of degree
    P in theta and M in phi. *)
Definition band_limited (F : R -> R -> C) (P M : Z) : Prop :=
  on_sphere F /\ exists a, forall theta phi, F theta phi = trig_poly P M a theta phi.

(** The two settings of the switch use_cext; the C extension for any contents
    of the memory it allocates, within the range of C ints. *)
Definition either_backend (be : backend) (nrows : Z) : Prop :=
  be = py_backend \/ exists junk junkr junki, be = c_backend junk junkr junki /\ 3 * nrows <= 2 ^ 31.

Lemma spht_either be d R nmax mmax : either_backend be R -> mt_nr RN d = 2 * R - 2 -> 2 <= R -> 1 <= mt_nc RN d -> 0 <= mmax ->
  spht be d (Some nmax) (Some mmax) = spht py_backend d (Some nmax) (Some mmax).
Proof.
  intros [->|(junk & junkr & junki & -> & HB)] Hr HR Hc Hm; [reflexivity|].
  apply (C31_spht_equal junk junkr junki d R (Some nmax) (Some mmax) nmax mmax); auto.
Qed.

Lemma pat_of_samples F P M data : band_limited F P M -> 0 <= P -> 0 <= M -> mat_wf RN data -> samples F data ->
  2 <= mt_nr RN data -> 1 <= mt_nc RN data -> mt_nc RN data mod 2 = 0 ->
  exists a, (forall t p, F t p = trig_poly P M a t p) /\ on_sphere (trig_poly P M a) /\
    sp_new RN data false = Ok (mmake RN (2 * mt_nr RN data - 2) (2 * (mt_nc RN data / 2))
       (gridv (trig_poly P M a) (2 * mt_nr RN data - 2) (2 * (mt_nc RN data / 2)))).
Proof.
  intros (HS & a & Ha) HP HM Hw Hs HR Hc He. exists a. split; [exact Ha|].
  assert (HS' : on_sphere (trig_poly P M a)) by (intros t p; rewrite <- !Ha; apply HS).
  split; [exact HS'|]. pose proof (half_even _ He) as Eb.
  apply (sampled_pattern P M a data (mt_nr RN data) (mt_nc RN data / 2)); auto; try lia.
  intros i j Hi Hj. rewrite Hs by lia. rewrite Ha. unfold gridv. f_equal.
  - replace (2 * mt_nr RN data - 2) with (2 * (mt_nr RN data - 1)) by lia. rewrite (mult_IZR 2). field. apply not_0_IZR; lia.
  - now rewrite <- Eb.
Qed.

(** ** C54 *)
Theorem C54_spht_inner_products : forall be F P M (data : mat RN) nmax mmax,
  band_limited F P M -> mat_wf RN data -> samples F data ->
  0 <= P <= mt_nr RN data - 2 -> 0 <= M -> 2 * M < mt_nc RN data -> mt_nc RN data mod 2 = 0 ->
  0 <= mmax <= nmax -> nmax < mt_nr RN data - 1 -> 2 * mmax < mt_nc RN data ->
  either_backend be (mt_nr RN data) ->
  exists p c, sp_new RN data false = Ok p /\ spht be p (Some nmax) (Some mmax) = Ok c /\ valid RN c /\
    sc_nmax RN c = nmax /\ sc_mmax RN c = mmax /\
    forall n m, is_mode nmax mmax n m -> exists v, reads RN c n m v /\
      is_sphere_int (fun theta phi => F theta phi * Cconj (sph_harm n m theta phi))%C v.
Proof.
  intros be F P M data nmax mmax HF Hw Hs HP HM HM2 He Hm Hn Hm2 Hb.
  destruct (pat_of_samples F P M data) as (a & Ha & HS & E); auto; try lia.
  pose proof (half_even _ He) as Eb. set (B := mt_nc RN data / 2) in *. set (R := mt_nr RN data) in *.
  set (d := mmake RN (2 * R - 2) (2 * B) _) in *.
  destruct (spht_eq d R nmax mmax) as (c & E2 & W & N1 & N2 & V); auto; try lia.
  { unfold d; cbn [mt_nc mmake]. now rewrite <- Eb. }
  { unfold d; cbn [mt_nc mmake]. lia. }
  exists d, c. split; [exact E|]. split.
  { rewrite (spht_either be d R); auto; try lia. unfold d; cbn [mt_nc mmake]. lia. }
  apply valid_wf in W. split; [exact W|]. split; [exact N1|]. split; [exact N2|].
  intros n m Hnm. exists (spht_val d R n m). split.
  - apply reads_iff; auto. rewrite N1, N2. split; auto. symmetry. now apply V.
  - unfold is_mode in Hnm. eapply is_sphere_int_ext; [|apply (spht_val_integral P M a); auto; lia].
    intros t p. cbv beta. now rewrite Ha.
Qed.
Print Assumptions C54_spht_inner_products.

(** The harmonics the code expands in are orthonormal on the sphere. *)
Theorem C54_harmonics_orthonormal : forall n m n' m', Z.abs m <= n -> Z.abs m' <= n' ->
  is_sphere_int (fun theta phi => sph_harm n' m' theta phi * Cconj (sph_harm n m theta phi))%C
    (if (n =? n') && (m =? m') then RtoC 1 else RtoC 0).
Proof.
  intros n m n' m' H H'.
  pose proof (series_inner n' (Z.abs m') (fun a b => if (a =? n') && (b =? m') then RtoC 1 else RtoC 0) n m ltac:(lia) H) as Q.
  replace (if (n =? n') && (m =? m') then RtoC 1 else RtoC 0) with
    (if (Z.abs m <=? Z.abs m') && (n <=? n') then (if (n =? n') && (m =? m') then RtoC 1 else RtoC 0) else RtoC 0).
  - eapply is_sphere_int_ext; [|exact Q]. intros t p. cbv beta. f_equal. unfold harm_series.
    rewrite (sumC_single _ _ m'); [|lia|].
    + rewrite (sumC_single _ _ n'); [|lia|].
      * rewrite !Z.eqb_refl. cbn [andb]. ring.
      * intros k _ Hk. destruct (Z.eqb_spec k n'); [lia|]. cbn [andb]. ring.
    + intros k _ Hk. apply sumC_zero. intros j _. destruct (Z.eqb_spec k m'); [lia|]. rewrite andb_false_r. ring.
  - destruct (Z.eqb_spec n n'); [|now destruct (_ && _)]. destruct (Z.eqb_spec m m'); [|now destruct (_ && _)].
    subst. now rewrite !Z.leb_refl.
Qed.
Print Assumptions C54_harmonics_orthonormal.

(** ** C55 *)

(** power() of a coefficient set is the energy of the function it represents. *)
Theorem C55_power_is_energy : forall c f, valid RN c -> holds c f ->
  is_sphere_int (fun theta phi => RtoC (Cmod (harm_series (sc_nmax RN c) (sc_mmax RN c) f theta phi) ^ 2))
    (RtoC (sc_power RN c)).
Proof.
  intros c f Hv Hh. pose proof (proj1 (valid_wf RN c) Hv) as [[Hg1 Hg2] _].
  rewrite (C07_power_modes c Hv f Hh).
  pose proof (series_norm (sc_nmax RN c) (sc_mmax RN c) f ltac:(lia)) as H.
  eapply is_sphere_int_ext; [intros t p; apply conj_norm|].
  rewrite sum_modes in H by lia.
  rewrite (map_ext _ (fun p => RtoC (fst (f (fst p) (snd p)) ^ 2 + snd (f (fst p) (snd p)) ^ 2))) in H.
  - rewrite csum_RtoC in H. exact H.
  - intros [n m]. cbn [fst snd]. destruct (f n m) as [x y]. apply injective_projections; cbn; ring.
Qed.
Print Assumptions C55_power_is_energy.

(** The coefficients spht computes are the least squares ones: for the
    coefficients f of any other series of the same size, the energy e' of the
    error F - (series of f) exceeds the energy e of F - (series of spht's
    coefficients) by the sum of the |difference of coefficients|^2. *)
Theorem C55_least_squares : forall be F P M (data : mat RN) nmax mmax,
  band_limited F P M -> mat_wf RN data -> samples F data ->
  0 <= P <= mt_nr RN data - 2 -> 0 <= M -> 2 * M < mt_nc RN data -> mt_nc RN data mod 2 = 0 ->
  0 <= mmax <= nmax -> nmax < mt_nr RN data - 1 -> 2 * mmax < mt_nc RN data ->
  either_backend be (mt_nr RN data) ->
  exists p c (v : Z -> Z -> C) e, sp_new RN data false = Ok p /\ spht be p (Some nmax) (Some mmax) = Ok c /\
    (forall n m, is_mode nmax mmax n m -> reads RN c n m (v n m)) /\
    (0 <= e)%R /\
    is_sphere_int (fun theta phi => RtoC (Cmod (F theta phi - harm_series nmax mmax v theta phi)%C ^ 2)) (RtoC e) /\
    forall f : Z -> Z -> C,
      is_sphere_int (fun theta phi => RtoC (Cmod (F theta phi - harm_series nmax mmax f theta phi)%C ^ 2))
       (RtoC (e + rsum RN (map (fun q => (Cmod (f (fst q) (snd q) - v (fst q) (snd q))%C ^ 2)%R) (all_modes nmax mmax)))).
Proof.
  intros be F P M data nmax mmax HF Hw Hs HP HM HM2 He Hm Hn Hm2 Hb.
  destruct (C54_spht_inner_products be F P M data nmax mmax) as (p & c & E1 & E2 & V & N1 & N2 & H); auto.
  set (v := cval RN c).
  assert (Hv : forall n m, is_mode nmax mmax n m -> reads RN c n m (v n m) /\
     is_sphere_int (fun theta phi => F theta phi * Cconj (sph_harm n m theta phi))%C (v n m)).
  { intros n m Hnm. destruct (H n m Hnm) as (x & R1 & R2). pose proof R1 as R3. apply reads_iff in R3; [|exact V].
    destruct R3 as [_ R3]. unfold v. rewrite <- R3. auto. }
  destruct HF as (HS & a & Ha).
  (* energy of F *)
  destruct (ex_trig_prod P M a P M a) as (lF & HFF).
  assert (HFF' : is_sphere_int (fun t q => F t q * Cconj (F t q))%C lF).
  { eapply is_sphere_int_ext; [|exact HFF]. intros t q. now rewrite Ha. }
  (* integral of |F - S_f|^2 *)
  set (D := fun f : Z -> Z -> C => sumC (- mmax) (mmax + 1) (fun m => sumC (Z.abs m) (nmax + 1) (fun n => Cconj (f n m) * v n m)%C)).
  assert (I : forall f, is_sphere_int (fun t q => (F t q - harm_series nmax mmax f t q) * Cconj (F t q - harm_series nmax mmax f t q))%C
     (lF + (- RtoC 1) * D f + (- RtoC 1) * Cconj (D f) + sumC (- mmax) (mmax + 1) (fun m => sumC (Z.abs m) (nmax + 1) (fun n => Cconj (f n m) * f n m)))%C).
  { intros f. pose proof (inner_series F nmax mmax v f (fun n m Hnm => proj2 (Hv n m Hnm))) as J. fold (D f) in J.
    eapply (is_sphere_int_ext (fun t q => F t q * Cconj (F t q) + (- RtoC 1) * (F t q * Cconj (harm_series nmax mmax f t q))
      + (- RtoC 1) * Cconj (F t q * Cconj (harm_series nmax mmax f t q)) + harm_series nmax mmax f t q * Cconj (harm_series nmax mmax f t q))%C).
    { intros t q. rewrite Cconj_mult, Cconj_conj. unfold Cminus. rewrite Cconj_plus, Cconj_opp. ring. }
    apply is_sphere_int_plus; [apply is_sphere_int_plus; [apply is_sphere_int_plus|]|].
    - exact HFF'.
    - now apply is_sphere_int_scal.
    - apply is_sphere_int_scal. now apply is_sphere_int_conj.
    - apply series_norm. lia. }
  set (l := (lF + (- RtoC 1) * D v + (- RtoC 1) * Cconj (D v) + sumC (- mmax) (mmax + 1) (fun m => sumC (Z.abs m) (nmax + 1) (fun n => Cconj (v n m) * v n m)))%C).
  assert (Ir : forall f l', is_sphere_int (fun t q => f t q * Cconj (f t q))%C l' -> l' = RtoC (fst l') /\ (0 <= fst l')%R).
  { intros f l' Q. split.
    - apply injective_projections; [reflexivity|]. cbn [snd RtoC].
      pose proof (is_sphere_int_conj _ _ Q) as Q'.
      assert (Q2 : is_sphere_int (fun t q => f t q * Cconj (f t q))%C (Cconj l')).
      { eapply is_sphere_int_ext; [|exact Q']. intros t q. cbv beta. rewrite Cconj_mult, Cconj_conj. ring. }
      pose proof (is_sphere_int_unique _ _ _ Q Q2) as U. destruct l' as [x y]. injection U as U. cbn. lra.
    - refine (is_sphere_int_ge0 _ _ _ Q). intros t q. cbv beta. rewrite conj_norm. cbn [fst RtoC]. apply pow2_ge_0. }
  destruct (Ir _ _ (I v)) as [L1 L2]. fold l in L1, L2.
  exists p, c, v, (fst l). split; [exact E1|]. split; [exact E2|]. split; [intros n m Hnm; now apply Hv|].
  split; [exact L2|].
  assert (G : forall f, is_sphere_int (fun theta phi => RtoC (Cmod (F theta phi - harm_series nmax mmax f theta phi)%C ^ 2))
     (l + sumC (- mmax) (mmax + 1) (fun m => sumC (Z.abs m) (nmax + 1) (fun n => (f n m - v n m) * Cconj (f n m - v n m))))%C).
  { intros f. eapply is_sphere_int_ext; [intros t q; apply conj_norm|]. 
    match goal with |- is_sphere_int _ ?w => match type of (I f) with is_sphere_int _ ?u => replace w with u; [exact (I f)|] end end.
    unfold l, D. rewrite !Cconj_sum.
    rewrite (sumC_ext _ _ (fun m => Cconj (sumC (Z.abs m) (nmax + 1) (fun n => Cconj (f n m) * v n m)%C))
       (fun m => sumC (Z.abs m) (nmax + 1) (fun n => f n m * Cconj (v n m))%C)).
    2:{ intros m _. rewrite Cconj_sum. apply sumC_ext. intros n _. rewrite Cconj_mult, Cconj_conj. reflexivity. }
    rewrite (sumC_ext _ _ (fun m => Cconj (sumC (Z.abs m) (nmax + 1) (fun n => Cconj (v n m) * v n m)%C))
       (fun m => sumC (Z.abs m) (nmax + 1) (fun n => v n m * Cconj (v n m))%C)).
    2:{ intros m _. rewrite Cconj_sum. apply sumC_ext. intros n _. rewrite Cconj_mult, Cconj_conj. reflexivity. }
    rewrite (sumC_ext _ _ (fun m => sumC (Z.abs m) (nmax + 1) (fun n => (f n m - v n m) * Cconj (f n m - v n m))%C)
      (fun m => sumC (Z.abs m) (nmax + 1) (fun n => Cconj (f n m) * f n m)%C - sumC (Z.abs m) (nmax + 1) (fun n => f n m * Cconj (v n m))%C
          - sumC (Z.abs m) (nmax + 1) (fun n => Cconj (f n m) * v n m)%C + sumC (Z.abs m) (nmax + 1) (fun n => v n m * Cconj (v n m))%C)%C).
    2:{ intros m _. rewrite <- !sumC_sub, <- sumC_add. apply sumC_ext. intros n _. unfold Cminus. rewrite Cconj_plus, Cconj_opp. ring. }
    rewrite sumC_add, !sumC_sub.
    rewrite (sumC_ext _ _ (fun m => sumC (Z.abs m) (nmax + 1) (fun n => Cconj (v n m) * v n m)%C)
       (fun m => sumC (Z.abs m) (nmax + 1) (fun n => v n m * Cconj (v n m))%C)).
    2:{ intros m _. apply sumC_ext. intros n _. apply Cmult_comm. }
    ring. }
  split.
  - rewrite <- L1. specialize (G v).
    rewrite (sumC_zero (- mmax)) in G; [now rewrite Cplus_0_r in G|].
    intros m _. apply sumC_zero. intros n _. replace (v n m - v n m)%C with (RtoC 0) by ring. ring.
  - intros f. rewrite RtoC_plus, <- L1. specialize (G f). rewrite sum_modes in G by lia.
    rewrite (map_ext _ (fun q => RtoC (Cmod (f (fst q) (snd q) - v (fst q) (snd q))%C ^ 2))) in G by (intros; apply conj_norm).
    rewrite csum_RtoC in G. exact G.
Qed.
Print Assumptions C55_least_squares.

(** A concrete case: F = cos theta on a 3 x 2 grid, both backends. *)
Definition exF (theta phi : R) : C := RtoC (cos theta).
Definition ex_data : mat RN := mmake RN 3 2 (fun i j => exF (PI * IZR i / IZR 2) (2 * PI * IZR j / IZR 2)).
Lemma exF_band : band_limited exF 1 0.
Proof.
  split.
  - intros t p. unfold exF. now rewrite cos_neg.
  - exists (fun m k => if Z.abs k =? 1 then RtoC (1 / 2) else RtoC 0). intros t p. unfold trig_poly, exF.
    rewrite (sumC_single _ _ 0) by lia. rewrite (sumC_cons (- (1))) by lia. rewrite (sumC_cons (- (1) + 1)) by lia. rewrite (sumC_cons (- (1) + 1 + 1)) by lia.
    rewrite sumC_nil by lia. cbn [Z.abs Z.eqb Z.opp Z.add Pos.eqb Z.pos_sub].
    unfold e_i. replace (0 * p)%R with 0%R by ring. rewrite cos_0, sin_0.
    replace (-1 * t)%R with (- t)%R by ring. rewrite cos_neg, sin_neg. replace (1 * t)%R with t by ring.
    apply injective_projections; cbn; field.
Qed.
Lemma ex_data_samples : mat_wf RN ex_data /\ samples exF ex_data.
Proof.
  split; [apply mmake_wf; lia|]. intros i j Hi Hj. cbn [ex_data mt_nr mt_nc mmake] in *. unfold ex_data. now rewrite mget_mmake by auto.
Qed.
Example C54_nonvacuous : exists p c, sp_new RN ex_data false = Ok p /\ spht py_backend p (Some 1) (Some 0) = Ok c /\
  exists v, reads RN c 1 0 v /\ is_sphere_int (fun theta phi => exF theta phi * Cconj (sph_harm 1 0 theta phi))%C v.
Proof.
  destruct ex_data_samples as [W S].
  destruct (C54_spht_inner_products py_backend exF 1 0 ex_data 1 0) as (p & c & E1 & E2 & _ & _ & _ & H); auto; try (cbn; lia).
  - apply exF_band.
  - now left.
  - exists p, c. split; [exact E1|]. split; [exact E2|]. apply H. unfold is_mode; lia.
Qed.
Example C55_nonvacuous : exists p c (v : Z -> Z -> C) e, sp_new RN ex_data false = Ok p /\ spht (c_backend (fun _ => RtoC 7) (fun _ => 3%R) (fun _ => 5)) p (Some 1) (Some 0) = Ok c /\
  is_sphere_int (fun theta phi => RtoC (Cmod (exF theta phi - harm_series 1 0 v theta phi)%C ^ 2)) (RtoC e).
Proof.
  destruct ex_data_samples as [W S].
  destruct (C55_least_squares (c_backend (fun _ => RtoC 7) (fun _ => 3%R) (fun _ => 5)) exF 1 0 ex_data 1 0) as (p & c & v & e & E1 & E2 & _ & _ & H & _); auto; try (cbn; lia).
  - apply exF_band.
  - right. do 3 eexists. split; [reflexivity|]. cbn; lia.
  - exists p, c, v, e. auto.
Qed.
Example C55_power_nonvacuous : valid RN (mkSC RN [(1,0);(2,1);(3,0);(4,5)]%R 1 1).
Proof. split; [cbn; lia|reflexivity]. Qed.
