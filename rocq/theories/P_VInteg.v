(** * P_VInteg: properties C59 and C60: the coefficients vspht computes are inner
    products with the vector spherical harmonics, and the vector coefficients
    carry the energy of the field. *)
From Coq Require Import ZArith List String Bool Lia Reals Lra Permutation.
From Coquelicot Require Import Coquelicot.
From Verif Require Import Py PyFacts Num Exact MCoefs SpecCoefs Obs CoefsFacts CoefsFacts2 CoefsFacts3 MPatt SpecPatt PattFacts Sums Harm
  MPysphi MOps Smooth Dft PysphiFacts TransFacts MTrans TransFacts2 TransFacts3 TransFacts4 SpecHarm HarmFacts VHarm
  P_Coefs P_Patt P_Trans P_Trans2 MCsphi P_Csphi SpecInt Integ Integ2 P_Integral P_Both Symm P_Sym VInteg.
Import ListNotations.
Open Scope Z_scope.

(** ** The statements' vocabulary *)

(** F is a component of a tangent vector field on the sphere that is a
    trigonometric polynomial of degree P in theta and M in phi. *)
Definition tangent_band_limited (F : R -> R -> C) (P M : Z) : Prop :=
  tangent_on_sphere F /\ exists a, forall theta phi, F theta phi = trig_poly P M a theta phi.

(** v1 and v2 are the inner products of the field (Ft, Fp) with the two vector
    harmonics of degree n and order m. *)
Definition vector_products (Ft Fp : R -> R -> C) (n m : Z) (v1 v2 : C) : Prop :=
  vinner Ft Fp (vsh_theta n m (RtoC 1) (RtoC 0)) (vsh_phi n m (RtoC 1) (RtoC 0)) v1 /\
  vinner Ft Fp (vsh_theta n m (RtoC 0) (RtoC 1)) (vsh_phi n m (RtoC 0) (RtoC 1)) v2.

(** vspht(p, nmax, mmax) is a coefficient set of that size whose (n,m) entries are c1 n m, c2 n m. *)
Definition vspht_gives (be : backend) (p : tpatt RN) (nmax mmax : Z) (c1 c2 : Z -> Z -> C) : Prop :=
  exists vc, vspht be p (Some nmax) (Some mmax) = Ok vc /\ vvalid RN vc /\ vc_nmax RN vc = nmax /\ vc_mmax RN vc = mmax /\
    forall n m, is_mode nmax mmax n m -> 1 <= n -> vreads RN vc n m (c1 n m) (c2 n m).

Lemma vgives_body be p R B nmax mmax :
  mt_nr RN (tp_t RN p) = 2 * R - 2 -> mt_nr RN (tp_p RN p) = 2 * R - 2 ->
  mt_nc RN (tp_t RN p) = 2 * B -> mt_nc RN (tp_p RN p) = 2 * B ->
  2 <= R -> 1 <= B -> 0 <= mmax <= nmax -> nmax < R - 1 -> mmax < B -> either_backend be R ->
  vspht_gives be p nmax mmax (fun n m => An R (Lf1 R B p m) m n * nv n)%C (fun n m => An R (Lf2 R B p m) m n * nv n)%C.
Proof.
  intros Hr1 Hr2 Hc1 Hc2 HR HB Hm Hn Hm2 Hb.
  destruct (vspht_body p R B nmax mmax) as (vc & E & W & N1 & N2 & V); auto.
  apply vvalid_wf in W. exists vc. split; [rewrite (vspht_either be p R); auto; lia|]. split; [exact W|]. split; [exact N1|]. split; [exact N2|].
  intros n m Hnm Hn1. destruct (V n m Hnm) as [<- <-]. apply vreads_cval; auto. now rewrite N1, N2.
Qed.

Lemma tpat_of_samples Ft Fp P M tdata pdata : tangent_band_limited Ft P M -> tangent_band_limited Fp P M -> 0 <= P -> 0 <= M ->
  mat_wf RN tdata -> mat_wf RN pdata -> samples Ft tdata -> samples Fp pdata ->
  mt_nr RN pdata = mt_nr RN tdata -> mt_nc RN pdata = mt_nc RN tdata ->
  2 <= mt_nr RN tdata -> 1 <= mt_nc RN tdata -> mt_nc RN tdata mod 2 = 0 ->
  exists aT aP, (forall t p, Ft t p = trig_poly P M aT t p) /\ (forall t p, Fp t p = trig_poly P M aP t p) /\
    tangent_on_sphere (trig_poly P M aT) /\ tangent_on_sphere (trig_poly P M aP) /\
    tp_new RN tdata pdata false = Ok (mkTP RN (gpat P M aT (mt_nr RN tdata) (mt_nc RN tdata / 2)) (gpat P M aP (mt_nr RN tdata) (mt_nc RN tdata / 2))).
Proof.
  intros (HS & aT & Ha) (HS2 & aP & Ha2) HP HM Hw Hw2 Hs Hs2 Er Ec HR Hc He. exists aT, aP. split; [exact Ha|]. split; [exact Ha2|].
  assert (T1 : tangent_on_sphere (trig_poly P M aT)) by (intros t p; rewrite <- !Ha; apply HS).
  assert (T2 : tangent_on_sphere (trig_poly P M aP)) by (intros t p; rewrite <- !Ha2; apply HS2).
  split; [exact T1|]. split; [exact T2|]. pose proof (half_even _ He) as Eb.
  unfold tp_new, same_shape. rewrite Er, Ec, !Z.eqb_refl. cbn [andb negb].
  rewrite (sampled_pattern_neg P M aT tdata (mt_nr RN tdata) (mt_nc RN tdata / 2)); auto; try lia.
  2:{ intros i j Hi Hj. rewrite Hs by lia. rewrite Ha. unfold gridv. f_equal.
      - replace (2 * mt_nr RN tdata - 2) with (2 * (mt_nr RN tdata - 1)) by lia. rewrite (mult_IZR 2). field. apply not_0_IZR; lia.
      - now rewrite <- Eb. }
  cbn [bind].
  rewrite (sampled_pattern_neg P M aP pdata (mt_nr RN tdata) (mt_nc RN tdata / 2)); auto; try lia.
  intros i j Hi Hj. rewrite Hs2 by lia. rewrite Ha2. unfold gridv. f_equal.
  - rewrite Er. replace (2 * mt_nr RN tdata - 2) with (2 * (mt_nr RN tdata - 1)) by lia. rewrite (mult_IZR 2). field. apply not_0_IZR; lia.
  - now rewrite Ec, <- Eb.
Qed.

(** ** C59 *)
Theorem C59_vspht_inner_products : forall be Ft Fp P M (tdata pdata : mat RN) nmax mmax,
  tangent_band_limited Ft P M -> tangent_band_limited Fp P M ->
  mat_wf RN tdata -> mat_wf RN pdata -> samples Ft tdata -> samples Fp pdata ->
  mt_nr RN pdata = mt_nr RN tdata -> mt_nc RN pdata = mt_nc RN tdata ->
  0 <= P <= mt_nr RN tdata - 2 -> 0 <= M -> 2 * M < mt_nc RN tdata -> mt_nc RN tdata mod 2 = 0 ->
  0 <= mmax <= nmax -> nmax < mt_nr RN tdata - 1 -> 2 * mmax < mt_nc RN tdata ->
  either_backend be (mt_nr RN tdata) ->
  exists p c1 c2, tp_new RN tdata pdata false = Ok p /\ vspht_gives be p nmax mmax c1 c2 /\
    forall n m, is_mode nmax mmax n m -> 1 <= n -> vector_products Ft Fp n m (c1 n m) (c2 n m).
Proof.
  intros be Ft Fp P M tdata pdata nmax mmax HT HPp W1 W2 S1 S2 Er Ec HP HM HM2 He Hm Hn Hm2 Hb.
  destruct (tpat_of_samples Ft Fp P M tdata pdata) as (aT & aP & A1 & A2 & T1 & T2 & E); auto; try lia.
  pose proof (half_even _ He) as Eb. set (B := mt_nc RN tdata / 2) in *. set (R := mt_nr RN tdata) in *.
  set (p := mkTP RN _ _) in *.
  exists p, (fun n m => An R (Lf1 R B p m) m n * nv n)%C, (fun n m => An R (Lf2 R B p m) m n * nv n)%C.
  split; [exact E|]. split.
  - apply vgives_body; auto; try lia; try reflexivity.
  - intros n m Hnm Hn1. unfold is_mode in Hnm.
    destruct (vspht_val_integral P M aT aP R B n m) as [I1 I2]; auto; try lia.
    split; [eapply is_sphere_int_ext; [|exact I1]|eapply is_sphere_int_ext; [|exact I2]]; intros t q; cbv beta; now rewrite A1, A2.
Qed.
Print Assumptions C59_vspht_inner_products.

(** A transverse pattern object as the constructor and vispht make it (C18,
    C28): both doubled components change sign across the pole. *)
Definition tpatt_ok (p : tpatt RN) (nrows ncols : Z) : Prop :=
  mt_nr RN (tp_t RN p) = 2 * nrows - 2 /\ mt_nr RN (tp_p RN p) = 2 * nrows - 2 /\
  mt_nc RN (tp_t RN p) = ncols /\ mt_nc RN (tp_p RN p) = ncols /\ 2 <= nrows /\ 2 <= ncols /\ ncols mod 2 = 0 /\
  sphere_antisym RN (tp_t RN p) /\ sphere_antisym RN (tp_p RN p).

Lemma pget_antisym d B : mt_nc RN d = 2 * B -> 0 < B -> 0 < mt_nr RN d -> sphere_antisym RN d -> forall i j, pget d (- i) (j + B) = (- pget d i j)%C.
Proof.
  intros Hc HB HR HS i j. unfold pget.
  pose proof (Z.mod_pos_bound i (mt_nr RN d) HR). pose proof (Z.mod_pos_bound j (mt_nc RN d) ltac:(lia)).
  specialize (HS (i mod mt_nr RN d) (j mod mt_nc RN d) ltac:(lia) ltac:(lia)). unfold cget. etransitivity; [|exact HS].
  unfold across_row, across_col. f_equal.
  - replace (mt_nr RN d - i mod mt_nr RN d) with (- (i mod mt_nr RN d) + 1 * mt_nr RN d) by lia. rewrite Z.mod_add by lia.
    rewrite (Z.div_mod i (mt_nr RN d)) at 1 by lia.
    replace (- (mt_nr RN d * (i / mt_nr RN d) + i mod mt_nr RN d)) with (- (i mod mt_nr RN d) + (- (i / mt_nr RN d)) * mt_nr RN d) by ring.
    now rewrite Z.mod_add by lia.
  - rewrite Hc. replace (2 * B / 2) with B by (rewrite Z.mul_comm, Z.div_mul by lia; lia). rewrite Z.add_mod_idemp_r by lia. f_equal. lia.
Qed.
Lemma Xhat_antisym d B : mt_nc RN d = 2 * B -> 0 < B -> 0 < mt_nr RN d -> sphere_antisym RN d ->
  forall m k, Xhat d m (- k) = (- sg m * Xhat d m k)%C.
Proof.
  intros Hc HB HR HS m k. rewrite !Xhat_T by lia.
  rewrite (Tsum_rows d m (- k) (fun i => - i)) by (auto; lia).
  rewrite (Tsum_cols d m k (fun j => j + - B)) by (try lia; right; eauto).
  assert (E : sumC 0 (mt_nr RN d) (fun i => sumC 0 (mt_nc RN d) (fun j => term d m (- k) (- i) j)) =
     (- sg m * sumC 0 (mt_nr RN d) (fun i => sumC 0 (mt_nc RN d) (fun j => term d m k i (j + - B))))%C).
  { rewrite sumC_mul. apply sumC_ext. intros i _. rewrite sumC_mul. apply sumC_ext. intros j _. unfold term.
    replace (pget d (- i) j) with (- pget d i (j + - B))%C by (rewrite <- (pget_antisym d B Hc HB HR HS i (j + - B)); f_equal; lia).
    replace (- (- i * - k)) with (- (i * k)) by ring. replace (- ((j + - B) * m)) with (- (j * m) + m * B) by ring.
    rewrite root_add by lia. rewrite Hc at 3. rewrite sgnpow_root by lia.
    transitivity (- (sg m * sg m) * (pget d i (j + - B) * root (mt_nr RN d) (- (i * k)) * root (mt_nc RN d) (- (j * m))))%C; [rewrite sg_sq; ring|ring]. }
  rewrite E. ring.
Qed.

(** Whatever the transverse pattern, vspht's coefficients are inner products
    with the field of trigonometric polynomials that carries the data's Fourier
    coefficients of degree at most nrows - 2 in theta and less than ncols / 2 in
    phi. *)
Theorem C59_any_pattern : forall be p nrows ncols nmax mmax,
  either_backend be nrows -> tpatt_ok p nrows ncols -> accepted nrows ncols nmax mmax ->
  exists c1 c2, vspht_gives be p nmax mmax c1 c2 /\
    forall n m, is_mode nmax mmax n m -> 1 <= n ->
      vector_products (trig_poly (nrows - 2) (ncols / 2 - 1) (dft_coef (tp_t RN p))) (trig_poly (nrows - 2) (ncols / 2 - 1) (dft_coef (tp_p RN p)))
        n m (c1 n m) (c2 n m).
Proof.
  intros be p R ncols nmax mmax Hb (H1 & H2 & H3 & H4 & H5 & H6 & H7 & S1 & S2) (A1 & A2 & A3).
  pose proof (half_even ncols H7) as Eb. set (B := ncols / 2) in *.
  exists (fun n m => An R (Lf1 R B p m) m n * nv n)%C, (fun n m => An R (Lf2 R B p m) m n * nv n)%C.
  split; [apply vgives_body; auto; lia|]. intros n m Hnm Hn1. unfold is_mode in Hnm.
  assert (Xc : forall d k, mt_nr RN d = 2 * R - 2 -> mt_nc RN d = ncols -> cut (R - 2) (B - 1) (dft_coef d) m k = Xt R d m k).
  { intros d k D1 D2. unfold cut, Xt, trunc. destruct (Z.leb_spec (Z.abs m) (B - 1)); [|lia]. cbn [andb].
    destruct (Z.abs k <=? R - 2); auto. apply dft_coef_Xhat; lia. }
  assert (Xs : forall d k, mt_nr RN d = 2 * R - 2 -> mt_nc RN d = ncols -> sphere_antisym RN d ->
     cut (R - 2) (B - 1) (dft_coef d) m (- k) = (- sg m * cut (R - 2) (B - 1) (dft_coef d) m k)%C).
  { intros d k D1 D2 Sd. rewrite !Xc by auto. unfold Xt, trunc. rewrite Z.abs_opp. destruct (Z.abs k <=? R - 2); [|ring].
    apply (Xhat_antisym d B); auto; lia. }
  split.
  - rewrite (An_ext R (Lf1 R B p m) (sLd B (cut (R - 2) (B - 1) (dft_coef (tp_t RN p))) (cut (R - 2) (B - 1) (dft_coef (tp_p RN p))) m)).
    + apply vanal; auto; lia.
    + intros nu _. unfold Lf1. apply sLd_ext; intros k; symmetry; apply Xc; auto.
  - rewrite (An_ext R (Lf2 R B p m) (sLd B (fun m k => - Ci * cut (R - 2) (B - 1) (dft_coef (tp_p RN p)) m k)%C (fun m k => Ci * cut (R - 2) (B - 1) (dft_coef (tp_t RN p)) m k)%C m)).
    + apply vanal2; auto; lia.
    + intros nu _. unfold Lf2. apply sLd_ext; intros k; now rewrite Xc.
Qed.
Print Assumptions C59_any_pattern.

(** The vector harmonics the code expands in are orthonormal on the sphere. *)
Theorem C59_vector_harmonics_orthonormal : forall n m n' m' (a1 a2 b1 b2 : C),
  1 <= n -> Z.abs m <= n -> 1 <= n' -> Z.abs m' <= n' ->
  vinner (vsh_theta n' m' a1 a2) (vsh_phi n' m' a1 a2) (vsh_theta n m b1 b2) (vsh_phi n m b1 b2)
    (if (n =? n') && (m =? m') then (a1 * Cconj b1 + a2 * Cconj b2)%C else RtoC 0).
Proof.
  intros n m n' m' a1 a2 b1 b2 Hn Hm Hn' Hm'.
  set (dl := fun (a : C) (x y : Z) => if (x =? n') && (y =? m') then a else RtoC 0).
  destruct (vseries_inner n' (Z.abs m') (dl a1) (dl a2) n m ltac:(lia) Hm Hn) as [I1 I2].
  assert (S : forall (g : Z -> Z -> C -> C -> R -> R -> C) t p,
    (forall x y, g x y (RtoC 0) (RtoC 0) t p = RtoC 0) ->
    vharm_series g n' (Z.abs m') (dl a1) (dl a2) t p = g n' m' a1 a2 t p).
  { intros g t p Z0. unfold vharm_series, dl. rewrite (sumC_single _ _ m'); [|lia|].
    - rewrite (sumC_single _ _ n'); [|lia|].
      + now rewrite !Z.eqb_refl.
      + intros k _ Hk. destruct (Z.eqb_spec k n'); [lia|]. apply Z0.
    - intros k _ Hk. apply sumC_zero. intros j _. destruct (Z.eqb_spec k m'); [lia|]. rewrite andb_false_r. apply Z0. }
  assert (Vt : forall x y t p, vsh_theta x y (RtoC 0) (RtoC 0) t p = RtoC 0) by (intros; unfold vsh_theta; ring).
  assert (Vp : forall x y t p, vsh_phi x y (RtoC 0) (RtoC 0) t p = RtoC 0) by (intros; unfold vsh_phi; ring).
  assert (D : forall a, (if (Z.abs m <=? Z.abs m') && (n <=? n') then dl a n m else RtoC 0) = if (n =? n') && (m =? m') then a else RtoC 0).
  { intros a. unfold dl. destruct (Z.eqb_spec n n'); [|now destruct (_ && _)]. destruct (Z.eqb_spec m m'); [|now destruct (_ && _)].
    subst. now rewrite !Z.leb_refl. }
  rewrite D in I1, I2.
  replace (if (n =? n') && (m =? m') then (a1 * Cconj b1 + a2 * Cconj b2)%C else RtoC 0) with
    (Cconj b1 * (if (n =? n') && (m =? m') then a1 else RtoC 0) + Cconj b2 * (if (n =? n') && (m =? m') then a2 else RtoC 0))%C
    by (destruct (_ && _); ring).
  eapply is_sphere_int_ext; [|apply is_sphere_int_plus; [apply (is_sphere_int_scal (Cconj b1)), I1|apply (is_sphere_int_scal (Cconj b2)), I2]].
  intros t p. cbv beta. rewrite (S vsh_theta), (S vsh_phi) by auto.
  destruct (vsh_lin n m b1 b2 t p) as [-> ->]. rewrite !Cconj_plus, !Cconj_mult. ring.
Qed.
Print Assumptions C59_vector_harmonics_orthonormal.

(** ** C60 *)

(** |V|^2 of a vector with components x, y. *)
Definition norm2 (x y : C) : R := (Cmod x ^ 2 + Cmod y ^ 2)%R.

Lemma norm2_conj x y : (x * Cconj x + y * Cconj y)%C = RtoC (norm2 x y).
Proof. unfold norm2. rewrite !conj_norm, RtoC_plus. reflexivity. Qed.

(** The powers of the two scalar sets of a vector coefficient set add up to the
    energy of the field it represents. *)
Theorem C60_power_is_energy : forall vc f1 f2, vvalid RN vc -> vholds vc f1 f2 ->
  is_sphere_int (fun theta phi => RtoC (norm2 (vharm_series vsh_theta (vc_nmax RN vc) (vc_mmax RN vc) f1 f2 theta phi)
                                              (vharm_series vsh_phi (vc_nmax RN vc) (vc_mmax RN vc) f1 f2 theta phi)))
    (RtoC (sc_power RN (vc_1 RN vc) + sc_power RN (vc_2 RN vc))).
Proof.
  intros vc f1 f2 Hv Hh. pose proof (proj1 (vvalid_wf RN vc) Hv) as (W1 & W2 & A1 & A2 & A3 & A4 & Z1 & Z2).
  pose proof W1 as [[Hg1 Hg2] _]. rewrite A1, A2 in *.
  set (N := vc_nmax RN vc) in *. set (M := vc_mmax RN vc) in *.
  pose proof (vseries_norm N M f1 f2 ltac:(lia)) as H.
  eapply is_sphere_int_ext; [intros t p; apply norm2_conj|].
  pose proof (vholds_cval vc f1 f2 Hv Hh) as Hc.
  assert (P : forall c f, sc_wf RN c -> sc_nmax RN c = N -> sc_mmax RN c = M -> cval RN c 0 0 = RtoC 0 ->
    (forall n m, is_mode N M n m -> 1 <= n -> cval RN c n m = f n m) ->
    RtoC (sc_power RN c) = sumC (- M) (M + 1) (fun m => sumC (Z.abs m) (N + 1) (fun n => if n =? 0 then RtoC 0 else (Cconj (f n m) * f n m)%C))).
  { intros c f W E1 E2 Z0 Hf.
    rewrite (C07_power_modes c (proj2 (valid_wf RN c) W) (fun n m => if n =? 0 then RtoC 0 else f n m)).
    - rewrite E1, E2. rewrite <- csum_RtoC. rewrite sum_modes by lia. f_equal. apply map_ext_in. intros [n m] Hi. cbn [fst snd].
      destruct (n =? 0); [apply injective_projections; cbn; ring|]. destruct (f n m) as [x y]. apply injective_projections; cbn; ring.
    - rewrite E1, E2. intros n m Hm. apply reads_iff; [now apply valid_wf|]. rewrite E1, E2. split; auto.
      destruct (Z.eqb_spec n 0) as [->|]; [|symmetry; apply Hf; auto; unfold is_mode in Hm; lia].
      replace m with 0 by (unfold is_mode in Hm; lia). now symmetry. }
  rewrite RtoC_plus, (P _ f1 W1 A1 A2 Z1), (P _ f2 W2 A3 A4 Z2); [|intros n m Hm Hn; now apply Hc|intros n m Hm Hn; now apply Hc].
  rewrite <- sumC_add.
  match goal with |- is_sphere_int _ ?w => match type of H with vinner _ _ _ _ ?u => replace w with u; [exact H|] end end.
  apply sumC_ext. intros m _. rewrite <- sumC_add. apply sumC_ext. intros n _. destruct (n =? 0); ring.
Qed.
Print Assumptions C60_power_is_energy.

(** The coefficients vspht computes are the least squares ones. *)
Theorem C60_least_squares : forall be Ft Fp P M (tdata pdata : mat RN) nmax mmax,
  tangent_band_limited Ft P M -> tangent_band_limited Fp P M ->
  mat_wf RN tdata -> mat_wf RN pdata -> samples Ft tdata -> samples Fp pdata ->
  mt_nr RN pdata = mt_nr RN tdata -> mt_nc RN pdata = mt_nc RN tdata ->
  0 <= P <= mt_nr RN tdata - 2 -> 0 <= M -> 2 * M < mt_nc RN tdata -> mt_nc RN tdata mod 2 = 0 ->
  0 <= mmax <= nmax -> nmax < mt_nr RN tdata - 1 -> 2 * mmax < mt_nc RN tdata ->
  either_backend be (mt_nr RN tdata) ->
  exists p c1 c2 e, tp_new RN tdata pdata false = Ok p /\ vspht_gives be p nmax mmax c1 c2 /\ (0 <= e)%R /\
    forall f1 f2 : Z -> Z -> C,
      is_sphere_int (fun theta phi => RtoC (norm2 (Ft theta phi - vharm_series vsh_theta nmax mmax f1 f2 theta phi)%C
                                                  (Fp theta phi - vharm_series vsh_phi nmax mmax f1 f2 theta phi)%C))
       (RtoC (e + rsum RN (map (fun q => if fst q =? 0 then 0%R else norm2 (f1 (fst q) (snd q) - c1 (fst q) (snd q))%C (f2 (fst q) (snd q) - c2 (fst q) (snd q))%C)
                               (all_modes nmax mmax)))).
Proof.
  intros be Ft Fp P M tdata pdata nmax mmax HT HPp W1 W2 S1 S2 Er Ec HP HM HM2 He Hm Hn Hm2 Hb.
  destruct (C59_vspht_inner_products be Ft Fp P M tdata pdata nmax mmax) as (p & c1 & c2 & E1 & E2 & H); auto.
  destruct HT as (HS1 & aT & HaT). destruct HPp as (HS2 & aP & HaP).
  destruct (ex_trig_prod P M aT P M aT) as (lT & HTT). destruct (ex_trig_prod P M aP P M aP) as (lP & HPP).
  assert (HFF : vinner Ft Fp Ft Fp (lT + lP)%C).
  { eapply is_sphere_int_ext; [|apply (is_sphere_int_plus _ _ _ _ HTT HPP)]. intros t q. cbv beta. now rewrite HaT, HaP. }
  set (SS := fun g : Z -> Z -> C => sumC (- mmax) (mmax + 1) (fun m => sumC (Z.abs m) (nmax + 1) (fun n => if n =? 0 then RtoC 0 else g n m))).
  assert (SSadd : forall g h, SS (fun n m => g n m + h n m)%C = (SS g + SS h)%C).
  { intros g h. unfold SS. rewrite <- sumC_add. apply sumC_ext. intros m _. rewrite <- sumC_add. apply sumC_ext. intros n _. destruct (n =? 0); ring. }
  assert (SSopp : forall g, SS (fun n m => - g n m)%C = (- SS g)%C).
  { intros g. unfold SS. rewrite sumC_opp. apply sumC_ext. intros m _. rewrite sumC_opp. apply sumC_ext. intros n _. destruct (n =? 0); ring. }
  assert (SSconj : forall g, Cconj (SS g) = SS (fun n m => Cconj (g n m))).
  { intros g. unfold SS. rewrite Cconj_sum. apply sumC_ext. intros m _. rewrite Cconj_sum. apply sumC_ext. intros n _. destruct (n =? 0); [apply Cconj_0|auto]. }
  assert (SSext : forall g h, (forall n m, g n m = h n m) -> SS g = SS h).
  { intros g h E. unfold SS. apply sumC_ext. intros m _. apply sumC_ext. intros n _. now rewrite E. }
  set (D := fun f1 f2 : Z -> Z -> C => SS (fun n m => Cconj (f1 n m) * c1 n m + Cconj (f2 n m) * c2 n m)%C).
  set (Q := fun f1 f2 : Z -> Z -> C => SS (fun n m => Cconj (f1 n m) * f1 n m + Cconj (f2 n m) * f2 n m)%C).
  assert (I : forall f1 f2, is_sphere_int (fun t q => RtoC (norm2 (Ft t q - vharm_series vsh_theta nmax mmax f1 f2 t q)%C
                                                  (Fp t q - vharm_series vsh_phi nmax mmax f1 f2 t q)%C))
     (lT + lP + (- RtoC 1) * D f1 f2 + (- RtoC 1) * Cconj (D f1 f2) + Q f1 f2)%C).
  { intros f1 f2. pose proof (vinner_series Ft Fp nmax mmax c1 c2 f1 f2 ltac:(lia) H) as J.
    pose proof (vseries_norm nmax mmax f1 f2 ltac:(lia)) as K. unfold vinner in J, K, HFF.
    eapply is_sphere_int_ext; [intros t q; apply norm2_conj|].
    eapply is_sphere_int_ext; [|apply is_sphere_int_plus; [apply is_sphere_int_plus; [apply is_sphere_int_plus; [exact HFF|
       apply (is_sphere_int_scal (- RtoC 1)%C), J]|apply (is_sphere_int_scal (- RtoC 1)%C), is_sphere_int_conj, J]|exact K]].
    intros t q. cbv beta. rewrite Cconj_plus, !Cconj_mult, !Cconj_conj. unfold Cminus. rewrite !Cconj_plus, !Cconj_opp. ring. }
  set (l := (lT + lP + (- RtoC 1) * D c1 c2 + (- RtoC 1) * Cconj (D c1 c2) + Q c1 c2)%C).
  assert (L : l = RtoC (fst l) /\ (0 <= fst l)%R).
  { pose proof (I c1 c2) as J. fold l in J. split.
    - apply injective_projections; [reflexivity|]. cbn [snd RtoC]. pose proof (is_sphere_int_conj _ _ J) as J'.
      eapply is_sphere_int_ext in J'; [|intros t q; apply Cconj_R]. pose proof (is_sphere_int_unique _ _ _ J J') as U.
      destruct l as [x y]. injection U as U. cbn. lra.
    - refine (is_sphere_int_ge0 _ _ _ J). intros t q. cbn [fst RtoC]. unfold norm2.
      pose proof (pow2_ge_0 (Cmod (Ft t q - vharm_series vsh_theta nmax mmax c1 c2 t q)%C)).
      pose proof (pow2_ge_0 (Cmod (Fp t q - vharm_series vsh_phi nmax mmax c1 c2 t q)%C)). lra. }
  destruct L as [L1 L2]. exists p, c1, c2, (fst l). split; [exact E1|]. split; [exact E2|]. split; [exact L2|].
  intros f1 f2. rewrite RtoC_plus, <- L1.
  match goal with |- is_sphere_int _ ?w => match type of (I f1 f2) with is_sphere_int _ ?u => replace w with u; [exact (I f1 f2)|] end end.
  rewrite <- csum_RtoC.
  rewrite (map_ext _ (fun q => (fun n m => if n =? 0 then RtoC 0 else ((f1 n m - c1 n m) * Cconj (f1 n m - c1 n m) + (f2 n m - c2 n m) * Cconj (f2 n m - c2 n m))%C) (fst q) (snd q))).
  2:{ intros [n m]. cbn [fst snd]. destruct (n =? 0); [reflexivity|]. now rewrite norm2_conj. }
  rewrite <- (sum_modes nmax mmax (fun n m => if n =? 0 then RtoC 0 else ((f1 n m - c1 n m) * Cconj (f1 n m - c1 n m) + (f2 n m - c2 n m) * Cconj (f2 n m - c2 n m))%C)) by lia.
  fold (SS (fun n m => (f1 n m - c1 n m) * Cconj (f1 n m - c1 n m) + (f2 n m - c2 n m) * Cconj (f2 n m - c2 n m))%C).
  assert (X : SS (fun n m => (f1 n m - c1 n m) * Cconj (f1 n m - c1 n m) + (f2 n m - c2 n m) * Cconj (f2 n m - c2 n m))%C =
     (Q f1 f2 + - D f1 f2 + - Cconj (D f1 f2) + Q c1 c2)%C).
  { unfold Q, D. rewrite SSconj, <- !SSopp, <- !SSadd. apply SSext. intros n m. unfold Cminus. rewrite !Cconj_plus, !Cconj_opp, !Cconj_mult, !Cconj_conj. ring. }
  rewrite X. unfold l.
  assert (Y : D c1 c2 = Q c1 c2) by reflexivity.
  assert (Y2 : Cconj (D c1 c2) = Q c1 c2).
  { unfold D. rewrite SSconj. apply SSext. intros n m. rewrite Cconj_plus, !Cconj_mult, !Cconj_conj. ring. }
  rewrite Y, <- Y at 1. rewrite Y2, Y. ring.
Qed.
Print Assumptions C60_least_squares.

(** A concrete case: the field (0, sin theta) on a 3 x 2 grid, both backends. *)
Definition exT (theta phi : R) : C := RtoC 0.
Definition exP (theta phi : R) : C := RtoC (sin theta).
Definition ex_t : mat RN := mmake RN 3 2 (fun i j => exT (PI * IZR i / IZR 2) (2 * PI * IZR j / IZR 2)).
Definition ex_p : mat RN := mmake RN 3 2 (fun i j => exP (PI * IZR i / IZR 2) (2 * PI * IZR j / IZR 2)).
Lemma ex_band : tangent_band_limited exT 1 0 /\ tangent_band_limited exP 1 0.
Proof.
  split; split.
  - intros t p. unfold exT. apply injective_projections; cbn; ring.
  - exists (fun m k => RtoC 0). intros t p. unfold trig_poly, exT. symmetry. apply sumC_zero. intros m _. apply sumC_zero. intros k _. ring.
  - intros t p. unfold exP. rewrite sin_neg. apply injective_projections; cbn; ring.
  - exists (fun m k => if Z.abs k =? 1 then (0, - (1 / 2) * IZR k)%R else RtoC 0). intros t p. unfold trig_poly, exP.
    rewrite (sumC_single _ _ 0) by lia. rewrite (sumC_cons (- (1))) by lia. rewrite (sumC_cons (- (1) + 1)) by lia. rewrite (sumC_cons (- (1) + 1 + 1)) by lia.
    rewrite sumC_nil by lia. cbn [Z.abs Z.eqb Z.opp Z.add Pos.eqb Z.pos_sub].
    unfold e_i. replace (0 * p)%R with 0%R by ring. rewrite cos_0, sin_0.
    replace (-1 * t)%R with (- t)%R by ring. rewrite cos_neg, sin_neg. replace (1 * t)%R with t by ring.
    apply injective_projections; cbn; field.
Qed.
Lemma ex_samples : mat_wf RN ex_t /\ mat_wf RN ex_p /\ samples exT ex_t /\ samples exP ex_p.
Proof.
  split; [apply mmake_wf; lia|]. split; [apply mmake_wf; lia|]. split; intros i j Hi Hj; cbn [ex_t ex_p mt_nr mt_nc mmake] in *;
  [unfold ex_t|unfold ex_p]; now rewrite mget_mmake by auto.
Qed.
Example C59_nonvacuous : exists p c1 c2, tp_new RN ex_t ex_p false = Ok p /\
  vspht_gives (c_backend (fun _ => RtoC 7) (fun _ => 3%R) (fun _ => 5)) p 1 0 c1 c2 /\
  vector_products exT exP 1 0 (c1 1 0) (c2 1 0).
Proof.
  destruct ex_band as [B1 B2]. destruct ex_samples as (W1 & W2 & S1 & S2).
  destruct (C59_vspht_inner_products (c_backend (fun _ => RtoC 7) (fun _ => 3%R) (fun _ => 5)) exT exP 1 0 ex_t ex_p 1 0) as (p & c1 & c2 & E1 & E2 & H);
    auto; try (cbn; lia).
  - right. do 3 eexists. split; [reflexivity|]. cbn; lia.
  - exists p, c1, c2. split; [exact E1|]. split; [exact E2|]. apply H; [unfold is_mode; lia|lia].
Qed.
Example C60_nonvacuous : exists p c1 c2 e, tp_new RN ex_t ex_p false = Ok p /\ vspht_gives py_backend p 1 0 c1 c2 /\ (0 <= e)%R.
Proof.
  destruct ex_band as [B1 B2]. destruct ex_samples as (W1 & W2 & S1 & S2).
  destruct (C60_least_squares py_backend exT exP 1 0 ex_t ex_p 1 0) as (p & c1 & c2 & e & E1 & E2 & L & _); auto; try (cbn; lia).
  - now left.
  - exists p, c1, c2, e. auto.
Qed.
