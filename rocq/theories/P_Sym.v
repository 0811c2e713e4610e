(** * P_Sym: C54 for arbitrary patterns, and C56: how spht's coefficients
    follow the symmetries of the pattern. *)
From Coq Require Import ZArith List String Bool Lia Reals Lra Permutation.
From Coquelicot Require Import Coquelicot.
From Verif Require Import Py PyFacts Num Exact MCoefs SpecCoefs Obs CoefsFacts CoefsFacts2 CoefsFacts3 MPatt SpecPatt PattFacts Sums Harm
  MPysphi MOps Smooth Dft PysphiFacts TransFacts MTrans TransFacts2 TransFacts3 TransFacts4 SpecHarm HarmFacts
  P_Coefs P_Patt P_Trans P_Trans2 MCsphi P_Csphi SpecInt Integ Integ2 P_Integral P_Both Symm.
Import ListNotations.
Open Scope Z_scope.

(** ** The statements' vocabulary *)

(** A scalar pattern object as the constructors and ispht make it (C17, C28):
    nrows rows on the sphere, an even number ncols of columns, the doubled
    data symmetric. *)
Definition patt_ok (p : mat RN) (nrows ncols : Z) : Prop :=
  mt_nr RN p = 2 * nrows - 2 /\ mt_nc RN p = ncols /\ 2 <= nrows /\ 2 <= ncols /\ ncols mod 2 = 0 /\ sphere_sym RN p.

(** Sizes that spht accepts. *)
Definition accepted (nrows ncols nmax mmax : Z) : Prop := 0 <= mmax <= nmax /\ nmax < nrows - 1 /\ 2 * mmax < ncols.

(** p.array[i,j] *)
Definition arr (p : mat RN) (i j : Z) : C := mget RN (p_array RN p) i j.

(** spht(p, nmax, mmax) is a coefficient set whose (n,m) entry is c n m. *)
Definition spht_gives (be : backend) (p : mat RN) (nmax mmax : Z) (c : Z -> Z -> C) : Prop :=
  exists sc, spht be p (Some nmax) (Some mmax) = Ok sc /\ valid RN sc /\ sc_nmax RN sc = nmax /\ sc_mmax RN sc = mmax /\
    forall n m, is_mode nmax mmax n m -> reads RN sc n m (c n m).

(** (-1)^m *)
Definition msign (m : Z) : C := RtoC ((-1) ^ Z.abs_nat m).
Lemma msign_sg m : msign m = sg m.
Proof. unfold msign. f_equal. rewrite sgnpow_pow. f_equal. lia. Qed.

(** ** Lemmas *)
Lemma gives_val be p nrows ncols nmax mmax : either_backend be nrows -> patt_ok p nrows ncols -> accepted nrows ncols nmax mmax ->
  spht_gives be p nmax mmax (spht_val p nrows).
Proof.
  intros Hb (H1 & H2 & H3 & H4 & H5 & H6) (A1 & A2 & A3).
  destruct (spht_eq p nrows nmax mmax) as (c & E & W & N1 & N2 & V); auto; try lia.
  exists c. rewrite (spht_either be p nrows) by (auto; lia). apply valid_wf in W. repeat (split; auto).
  intros n m Hm. apply reads_iff; auto. rewrite N1, N2. split; auto. symmetry. now apply V.
Qed.
Lemma gives_ext be p nmax mmax c c' : (forall n m, is_mode nmax mmax n m -> c n m = c' n m) ->
  spht_gives be p nmax mmax c -> spht_gives be p nmax mmax c'.
Proof.
  intros E (sc & A & B & C1 & D & F). exists sc. repeat (split; auto). intros n m Hm. rewrite <- E by auto. now apply F.
Qed.
Lemma gives_inj be p nmax mmax c c' : spht_gives be p nmax mmax c -> spht_gives be p nmax mmax c' ->
  forall n m, is_mode nmax mmax n m -> c n m = c' n m.
Proof.
  intros (sc & A & B & C1 & D & F) (sc' & A' & B' & C1' & D' & F') n m Hm. assert (sc' = sc) by congruence. subst sc'.
  pose proof (F n m Hm) as Q. pose proof (F' n m Hm) as Q'. apply reads_iff in Q; auto. apply reads_iff in Q'; auto.
  destruct Q as [_ Q], Q' as [_ Q']. congruence.
Qed.
Lemma arr_pget p nrows ncols i j : patt_ok p nrows ncols -> 0 <= i < nrows -> 0 <= j < ncols -> arr p i j = pget p i j.
Proof.
  intros (H1 & H2 & H3 & H4 & H5 & H6) Hi Hj. unfold arr, pget, p_array, mrows, cget. 
  assert (p_nrows RN p = nrows) by now apply nrows_of. 
  rewrite mget_mmake by lia. rewrite !Z.mod_small by lia. reflexivity.
Qed.
Lemma patt_fun p nrows ncols B (g : Z -> Z -> C) : patt_ok p nrows ncols -> ncols = 2 * B ->
  (forall i j, g (i mod (2 * nrows - 2)) (j mod ncols) = g i j) -> (forall i j, g (- i) (j + B) = g i j) ->
  (forall i j, 0 <= i < nrows -> 0 <= j < ncols -> arr p i j = g i j) -> forall i j, pget p i j = g i j.
Proof.
  intros Hp HB Hm Hs Ha i j. pose proof Hp as (H1 & H2 & H3 & H4 & H5 & H6).
  assert (P : forall i j, 0 <= i mod (2 * nrows - 2) < nrows -> pget p i j = g i j).
  { intros i0 j0 Hi. pose proof (Z.mod_pos_bound j0 ncols ltac:(lia)).
    rewrite <- (Hm i0 j0), <- Ha by lia. rewrite (arr_pget p nrows ncols) by (auto; lia). rewrite <- H1, <- H2.
    now rewrite pget_mod_l, pget_mod_r by lia. }
  pose proof (Z.mod_pos_bound i (2 * nrows - 2) ltac:(lia)).
  destruct (Z_lt_le_dec (i mod (2 * nrows - 2)) nrows); [apply P; lia|].
  rewrite <- (pget_sym p B) by (auto; lia). rewrite <- Hs. apply P.
  pose proof (Z.mod_pos_bound (- i) (2 * nrows - 2) ltac:(lia)). split; [lia|].
  rewrite Z.mod_opp_l_nz by lia. lia.
Qed.
Lemma pget_per p nrows ncols : patt_ok p nrows ncols -> forall i j, pget p (i mod (2 * nrows - 2)) (j mod ncols) = pget p i j.
Proof. intros (H1 & H2 & H3 & H4 & H5 & H6) i j. rewrite <- H1, <- H2. now rewrite pget_mod_l, pget_mod_r by lia. Qed.
Lemma pget_eqm p nrows ncols i j i' j' : patt_ok p nrows ncols -> i mod (2 * nrows - 2) = i' mod (2 * nrows - 2) -> j mod ncols = j' mod ncols ->
  pget p i j = pget p i' j'.
Proof. intros Hp E1 E2. rewrite <- (pget_per p nrows ncols Hp i j), <- (pget_per p nrows ncols Hp i' j'), E1, E2. reflexivity. Qed.

(** ** C54: no assumption on the data *)

(** The Fourier coefficients of the doubled data p.cdata. *)
Definition dft_coef (p : mat RN) (m k : Z) : C :=
  (RtoC (/ IZR (mt_nr RN p * mt_nc RN p)) *
   sumC 0 (mt_nr RN p) (fun i => sumC 0 (mt_nc RN p) (fun j => mget RN p i j *
     e_i (- (IZR k * (2 * PI * IZR i / IZR (mt_nr RN p)))) * e_i (- (IZR m * (2 * PI * IZR j / IZR (mt_nc RN p)))))))%C.
Lemma dft_coef_Xhat p m k : 0 < mt_nr RN p -> 0 < mt_nc RN p -> dft_coef p m k = Xhat p m k.
Proof.
  intros H1 H2. unfold dft_coef, Xhat. f_equal. apply sumC_ext. intros i _. apply sumC_ext. intros j _. unfold cget, root.
  assert (IZR (mt_nr RN p) <> 0)%R by (apply not_0_IZR; lia). assert (IZR (mt_nc RN p) <> 0)%R by (apply not_0_IZR; lia).
  change e_i with cisR. f_equal; [f_equal|]; f_equal; rewrite opp_IZR, mult_IZR; field; auto.
Qed.

(** Whatever the pattern, spht's coefficients are inner products with the
    trigonometric polynomial that carries the data's Fourier coefficients of
    degree at most nrows - 2 in theta and less than ncols / 2 in phi. *)
Theorem C54_any_pattern : forall be p nrows ncols nmax mmax,
  either_backend be nrows -> patt_ok p nrows ncols -> accepted nrows ncols nmax mmax ->
  exists c, spht_gives be p nmax mmax c /\
    forall n m, is_mode nmax mmax n m ->
      is_sphere_int (fun theta phi => trig_poly (nrows - 2) (ncols / 2 - 1) (dft_coef p) theta phi * Cconj (sph_harm n m theta phi))%C (c n m).
Proof.
  intros be p nrows ncols nmax mmax Hb Hp Ha. exists (spht_val p nrows).
  split; [now apply (gives_val be p nrows ncols)|]. pose proof Hp as (H1 & H2 & H3 & H4 & H5 & H6). destruct Ha as (A1 & A2 & A3).
  intros n m Hm. unfold is_mode in Hm. pose proof (half_even ncols H5) as Eb.
  eapply is_sphere_int_ext; [|apply (spht_val_interp p nrows (ncols / 2)); auto; lia].
  intros t q. cbv beta. f_equal. unfold trig_poly. apply sumC_ext. intros a _. apply sumC_ext. intros b _. now rewrite dft_coef_Xhat by lia.
Qed.
Print Assumptions C54_any_pattern.

(** ** C56 *)

(** Conjugating the samples: c'[n,-m] = (-1)^m conj(c[n,m]). *)
Theorem C56_conjugate : forall be p p' nrows ncols nmax mmax,
  either_backend be nrows -> patt_ok p nrows ncols -> patt_ok p' nrows ncols -> accepted nrows ncols nmax mmax ->
  (forall i j, 0 <= i < nrows -> 0 <= j < ncols -> arr p' i j = Cconj (arr p i j)) ->
  exists c, spht_gives be p nmax mmax c /\ spht_gives be p' nmax mmax (fun n m => msign m * Cconj (c n (- m)%Z))%C.
Proof.
  intros be p p' nrows ncols nmax mmax Hb Hp Hp' Ha H. exists (spht_val p nrows).
  split; [now apply (gives_val be p nrows ncols)|]. pose proof (gives_val be p' nrows ncols nmax mmax Hb Hp' Ha) as G.
  eapply gives_ext; [|exact G]. intros n m Hm. rewrite msign_sg. 
  pose proof Hp as (H1 & H2 & H3 & H4 & H5 & H6). pose proof Hp' as (H1' & H2' & _). pose proof (half_even ncols H5) as Eb.
  rewrite <- (Z.opp_involutive m) at 1. rewrite (spht_val_conj p p' nrows (ncols / 2)); try lia; auto; [now rewrite sgn_opp|].
  apply (patt_fun p' nrows ncols (ncols / 2)); auto; try lia.
  - intros i j. now rewrite (pget_per p nrows ncols).
  - intros i j. f_equal. apply pget_sym; auto; lia.
  - intros i j Hi Hj. rewrite H by auto. now rewrite (arr_pget p nrows ncols).
Qed.
Print Assumptions C56_conjugate.

(** Real samples: c[n,-m] = (-1)^m conj(c[n,m]). *)
Theorem C56_real_data : forall be p nrows ncols nmax mmax,
  either_backend be nrows -> patt_ok p nrows ncols -> accepted nrows ncols nmax mmax ->
  (forall i j, 0 <= i < nrows -> 0 <= j < ncols -> snd (arr p i j) = 0%R) ->
  exists c, spht_gives be p nmax mmax c /\
    forall n m, is_mode nmax mmax n m -> c n (- m) = (msign m * Cconj (c n m))%C.
Proof.
  intros be p nrows ncols nmax mmax Hb Hp Ha H.
  destruct (C56_conjugate be p p nrows ncols nmax mmax Hb Hp Hp Ha) as (c & G1 & G2).
  { intros i j Hi Hj. specialize (H i j Hi Hj). destruct (arr p i j) as [x y]. cbn in H. subst y. apply injective_projections; cbn; ring. }
  exists c. split; auto. intros n m Hm.
  rewrite (gives_inj be p nmax mmax _ _ G1 G2 n (- m)) by (unfold is_mode in *; lia).
  rewrite Z.opp_involutive, !msign_sg, sgn_opp. reflexivity.
Qed.
Print Assumptions C56_real_data.

(** ... and conversely the pattern ispht makes from such coefficients is real. *)
Theorem C56_real_synthesis : forall be c f nrows ncols, either_backend be nrows -> valid RN c -> holds c f ->
  sc_nmax RN c + 2 <= nrows -> 2 * sc_mmax RN c + 2 <= ncols -> ncols mod 2 = 0 ->
  (forall n m, is_mode (sc_nmax RN c) (sc_mmax RN c) n m -> f n (- m) = (msign m * Cconj (f n m))%C) ->
  exists p, ispht be c (Some nrows) (Some ncols) = Ok p /\
    forall i j, 0 <= i < nrows -> 0 <= j < ncols -> snd (arr p i j) = 0%R.
Proof.
  intros be c f nrows ncols Hb Hv Hh H1 H2 H3 H.
  destruct (C24_either_backend be c f nrows ncols Hb Hv Hh H1 H2 H3) as (p & E & _ & _ & _ & _ & V).
  exists p. split; auto. intros i j Hi Hj. unfold arr. rewrite V by auto.
  set (t := (PI * IZR i / IZR (nrows - 1))%R). set (q := (2 * PI * IZR j / IZR ncols)%R).
  assert (X : Cconj (harm_series (sc_nmax RN c) (sc_mmax RN c) f t q) = harm_series (sc_nmax RN c) (sc_mmax RN c) f t q).
  { rewrite Cconj_series. unfold harm_series. rewrite sum_revC. apply sumC_ext. intros m Hm. rewrite Z.abs_opp. apply sumC_ext. intros n Hn.
    rewrite (H n m) by (unfold is_mode; lia). 
    assert (Y : sph_harm n (- m) t q = (msign m * Cconj (sph_harm n m t q))%C).
    { rewrite <- !Yc_sph_harm by lia. unfold Yc. rewrite !Cconj_mult, Cconj_sum, Cconj_ipow, Cconj_cis, msign_sg.
      rewrite (sum_revC n (fun k => Cconj _)).
      rewrite (sumC_ext (- n) (n + 1) (fun k => Cconj (RtoC (Yt n m (- k)) * cisR (IZR (- k) * t)))%C (fun k => sg m * (RtoC (Yt n (- m) k) * cisR (IZR k * t)))%C).
      2:{ intros k _. rewrite Cconj_mult, Cconj_R, Cconj_cis, Yt_neg, RtoC_mult, Yt_mneg, opp_IZR.
          replace (- (- IZR k * t))%R with (IZR k * t)%R by ring. ring. }
      rewrite <- sumC_mul, opp_IZR. replace (- IZR m * q)%R with (- (IZR m * q))%R by ring. 
      set (S := sumC _ _ _). transitivity ((sg m * sg m) * (ipow (- m) * cisR (- (IZR m * q)) * S))%C; [rewrite sg_sq; ring|ring]. }
    rewrite Y. rewrite !Cconj_mult, !Cconj_conj, !msign_sg, !Cconj_R.
    transitivity ((sg m * sg m) * (f n m * sph_harm n m t q))%C; [ring|rewrite sg_sq; ring]. }
  apply (f_equal snd) in X. unfold Cconj in X. cbn [snd] in X. lra.
Qed.
Print Assumptions C56_real_synthesis.

(** Turning the pattern by s columns multiplies c[n,m] by e^(-2 pi i m s / ncols). *)
Theorem C56_rotation : forall be p p' nrows ncols s nmax mmax,
  either_backend be nrows -> patt_ok p nrows ncols -> patt_ok p' nrows ncols -> accepted nrows ncols nmax mmax ->
  (forall i j, 0 <= i < nrows -> 0 <= j < ncols -> arr p' i j = arr p i ((j - s) mod ncols)) ->
  exists c, spht_gives be p nmax mmax c /\
    spht_gives be p' nmax mmax (fun n m => e_i (- (2 * PI * IZR m * IZR s / IZR ncols)) * c n m)%C.
Proof.
  intros be p p' nrows ncols s nmax mmax Hb Hp Hp' Ha H. exists (spht_val p nrows).
  split; [now apply (gives_val be p nrows ncols)|]. pose proof (gives_val be p' nrows ncols nmax mmax Hb Hp' Ha) as G.
  eapply gives_ext; [|exact G]. intros n m Hm.
  pose proof Hp as (H1 & H2 & H3 & H4 & H5 & H6). pose proof Hp' as (H1' & H2' & _). pose proof (half_even ncols H5) as Eb.
  rewrite (spht_val_roll p p' nrows s); try lia.
  - f_equal. unfold root. rewrite H2. change (e_i (- (2 * PI * IZR m * IZR s / IZR ncols))) with (cisR (- (2 * PI * IZR m * IZR s / IZR ncols))).
    f_equal. rewrite opp_IZR, mult_IZR. field. apply not_0_IZR; lia.
  - apply (patt_fun p' nrows ncols (ncols / 2)); auto; try lia.
    + intros i j. apply (pget_eqm p nrows ncols); auto; [now rewrite Z.mod_mod by lia|]. now rewrite Zminus_mod_idemp_l.
    + intros i j. replace (j + ncols / 2 - s) with (j - s + ncols / 2) by lia. apply pget_sym; auto; lia.
    + intros i j Hi Hj. rewrite H by auto. pose proof (Z.mod_pos_bound (j - s) ncols ltac:(lia)).
      rewrite (arr_pget p nrows ncols) by auto. apply (pget_eqm p nrows ncols); auto. now rewrite Z.mod_mod by lia.
Qed.
Print Assumptions C56_rotation.

(** Reflecting phi -> -phi: c'[n,m] = (-1)^m c[n,-m]. *)
Theorem C56_phi_reflection : forall be p p' nrows ncols nmax mmax,
  either_backend be nrows -> patt_ok p nrows ncols -> patt_ok p' nrows ncols -> accepted nrows ncols nmax mmax ->
  (forall i j, 0 <= i < nrows -> 0 <= j < ncols -> arr p' i j = arr p i ((- j) mod ncols)) ->
  exists c, spht_gives be p nmax mmax c /\ spht_gives be p' nmax mmax (fun n m => msign m * c n (- m)%Z)%C.
Proof.
  intros be p p' nrows ncols nmax mmax Hb Hp Hp' Ha H. exists (spht_val p nrows).
  split; [now apply (gives_val be p nrows ncols)|]. pose proof (gives_val be p' nrows ncols nmax mmax Hb Hp' Ha) as G.
  eapply gives_ext; [|exact G]. intros n m Hm. rewrite msign_sg.
  pose proof Hp as (H1 & H2 & H3 & H4 & H5 & H6). pose proof Hp' as (H1' & H2' & _). pose proof (half_even ncols H5) as Eb.
  rewrite (spht_val_phineg p p' nrows); try lia; [reflexivity|].
  apply (patt_fun p' nrows ncols (ncols / 2)); auto; try lia.
  - intros i j. apply (pget_eqm p nrows ncols); auto; [now rewrite Z.mod_mod by lia|].
    rewrite <- !(Z.sub_0_l). now rewrite Zminus_mod_idemp_r.
  - intros i j. rewrite <- (pget_sym p (ncols / 2)) with (i := i) (j := - j) by (auto; lia).
    apply (pget_eqm p nrows ncols); auto. replace (- j + ncols / 2) with (- (j + ncols / 2) + 1 * ncols) by lia. now rewrite Z.mod_add by lia.
  - intros i j Hi Hj. rewrite H by auto. pose proof (Z.mod_pos_bound (- j) ncols ltac:(lia)).
    rewrite (arr_pget p nrows ncols) by auto. apply (pget_eqm p nrows ncols); auto. now rewrite Z.mod_mod by lia.
Qed.
Print Assumptions C56_phi_reflection.

(** Turning the pattern upside down, theta -> pi - theta: c'[n,m] = (-1)^(n+m) c[n,m]. *)
Theorem C56_theta_reflection : forall be p p' nrows ncols nmax mmax,
  either_backend be nrows -> patt_ok p nrows ncols -> patt_ok p' nrows ncols -> accepted nrows ncols nmax mmax ->
  (forall i j, 0 <= i < nrows -> 0 <= j < ncols -> arr p' i j = arr p (nrows - 1 - i) j) ->
  exists c, spht_gives be p nmax mmax c /\ spht_gives be p' nmax mmax (fun n m => msign (n + m) * c n m)%C.
Proof.
  intros be p p' nrows ncols nmax mmax Hb Hp Hp' Ha H. exists (spht_val p nrows).
  split; [now apply (gives_val be p nrows ncols)|]. pose proof (gives_val be p' nrows ncols nmax mmax Hb Hp' Ha) as G.
  eapply gives_ext; [|exact G]. intros n m Hm. rewrite msign_sg.
  pose proof Hp as (H1 & H2 & H3 & H4 & H5 & H6). pose proof Hp' as (H1' & H2' & _). pose proof (half_even ncols H5) as Eb.
  unfold is_mode in Hm.
  rewrite (spht_val_flip p p' nrows (ncols / 2)); try lia; auto.
  apply (patt_fun p' nrows ncols (ncols / 2)); auto; try lia.
  - intros i j. apply (pget_eqm p nrows ncols); auto; [|now rewrite Z.mod_mod by lia]. now rewrite Zminus_mod_idemp_r.
  - intros i j. rewrite <- (pget_sym p (ncols / 2)) with (i := nrows - 1 - i) (j := j) by (auto; lia).
    apply (pget_eqm p nrows ncols); auto. replace (nrows - 1 - - i) with (- (nrows - 1 - i) + 1 * (2 * nrows - 2)) by lia. now rewrite Z.mod_add by lia.
  - intros i j Hi Hj. rewrite H by auto. rewrite (arr_pget p nrows ncols) by (auto; lia). reflexivity.
Qed.
Print Assumptions C56_theta_reflection.

Lemma opp_mod_zero a N : Z.abs a < N -> (- a mod N =? 0) = (a =? 0).
Proof.
  intros H. destruct (Z.eqb_spec a 0) as [->|Ha]; [reflexivity|]. apply Z.eqb_neq. intros E.
  destruct (Z_lt_le_dec a 0); [rewrite Z.mod_small in E by lia; lia|]. rewrite Z.mod_opp_l_nz in E by (rewrite ?Z.mod_small by lia; lia); rewrite Z.mod_small in E by lia; lia.
Qed.

(** A constant pattern has the single coefficient c[0,0] = x sqrt(4 pi). *)
Theorem C56_constant : forall be p nrows ncols x nmax mmax,
  either_backend be nrows -> patt_ok p nrows ncols -> accepted nrows ncols nmax mmax ->
  (forall i j, 0 <= i < nrows -> 0 <= j < ncols -> arr p i j = x) ->
  spht_gives be p nmax mmax (fun n m => if (n =? 0) && (m =? 0) then x * RtoC (sqrt (4 * PI)) else RtoC 0)%C.
Proof.
  intros be p nrows ncols x nmax mmax Hb Hp Ha H.
  pose proof Hp as (H1 & H2 & H3 & H4 & H5 & H6). pose proof Ha as (A1 & A2 & A3). pose proof (half_even ncols H5) as Eb.
  pose proof (gives_val be p nrows ncols nmax mmax Hb Hp Ha) as G. eapply gives_ext; [|exact G]. intros n m Hm. unfold is_mode in Hm.
  assert (Q : forall i j, pget p i j = x) by (apply (patt_fun p nrows ncols (ncols / 2)); auto; lia).
  set (f := fun a b : Z => if (a =? 0) && (b =? 0) then (x * RtoC (sqrt (4 * PI)))%C else RtoC 0).
  assert (S : forall t q, harm_series 0 0 f t q = x).
  { intros t q. unfold harm_series. change (- 0) with 0. rewrite (sumC_single _ _ 0) by lia. rewrite (sumC_single _ _ 0) by (cbn; lia).
    unfold f. cbn [Z.eqb andb]. unfold sph_harm, sph_harm_pos, norm_factor, assoc_legendre_cos. cbn.
    rewrite Rmult_0_l, cos_0, sin_0.
    replace ((2 * 0 + 1) / (4 * PI) * (1 / 1))%R with (/ (4 * PI))%R by (field; apply PI_neq0).
    rewrite sqrt_inv by (pose proof PI_RGT_0; lra). pose proof PI_RGT_0.
    assert (sqrt (4 * PI) <> 0)%R by (apply Rgt_not_eq, sqrt_lt_R0; lra).
    destruct x as [a b]. apply injective_projections; cbn; field; auto. }
  eapply is_sphere_int_unique.
  - apply (spht_val_interp p nrows (ncols / 2)); auto; lia.
  - pose proof (series_inner 0 0 f n m ltac:(lia) ltac:(lia)) as I.
    replace (if (Z.abs m <=? 0) && (n <=? 0) then f n m else RtoC 0) with (f n m) in I.
    2:{ unfold f. destruct (Z.eqb_spec n 0); destruct (Z.eqb_spec m 0); cbn [andb]; try (now destruct (_ && _)).
        subst. reflexivity. }
    eapply is_sphere_int_ext; [|exact I]. intros t q. cbv beta. f_equal. rewrite S.
    (* the interpolant of a constant pattern *)
    assert (X : forall a b, Z.abs a <= ncols / 2 - 1 -> Z.abs b <= nrows - 2 -> Xhat p a b = if (a =? 0) && (b =? 0) then x else RtoC 0).
    { intros a b Ha' Hb'. rewrite Xhat_pget by lia.
      rewrite (sumC_ext _ _ _ (fun i => x * root (mt_nr RN p) (- b * i) * sumC 0 (mt_nc RN p) (fun j => root (mt_nc RN p) (- a * j)))%C).
      2:{ intros i _. rewrite sumC_mul. apply sumC_ext. intros j _. rewrite Q. do 2 f_equal; [f_equal|]; lia. }
      rewrite root_pow_sum by lia. rewrite <- sumC_mulr, <- sumC_mul, root_pow_sum by lia. rewrite H1, H2.
      rewrite !opp_mod_zero by lia.
      destruct (a =? 0); cbn [andb]; [|ring]. destruct (b =? 0); [|ring].
      rewrite RtoC_inv by (apply not_0_IZR; nia). rewrite mult_IZR, RtoC_mult. field.
      split; intros E; apply RtoC_inj in E; apply not_0_IZR in E; auto; lia. }
    unfold trig_poly. rewrite (sumC_single _ _ 0); [|lia|].
    + rewrite (sumC_single _ _ 0); [|lia|].
      * rewrite X by lia. cbn [Z.eqb andb]. change (e_i (0 * t)) with (cisR (0 * t)). change (e_i (0 * q)) with (cisR (0 * q)).
        rewrite !Rmult_0_l, cisR_0. symmetry. rewrite !Cmult_1_r. reflexivity.
      * intros k Hk Hk0. rewrite X by lia. destruct (Z.eqb_spec k 0); [lia|]. cbn [Z.eqb andb]. ring.
    + intros k Hk Hk0. apply sumC_zero. intros l Hl. rewrite X by lia. destruct (Z.eqb_spec k 0); [lia|]. cbn [andb]. ring.
Qed.
Print Assumptions C56_constant.

(** Analysing any pattern, synthesising it again on the same grid and
    analysing once more gives the first coefficients back: synthesis after
    analysis is a projection, whichever backends do the work. *)
Theorem C25_projection : forall be1 be2 be3 p nrows ncols nmax mmax,
  either_backend be1 nrows -> either_backend be2 nrows -> either_backend be3 nrows ->
  patt_ok p nrows ncols -> accepted nrows ncols nmax mmax ->
  exists c q, spht be1 p (Some nmax) (Some mmax) = Ok c /\
    ispht be2 c (Some nrows) (Some ncols) = Ok q /\ patt_ok q nrows ncols /\
    spht be3 q (Some nmax) (Some mmax) = Ok c.
Proof.
  intros be1 be2 be3 p nrows ncols nmax mmax B1 B2 B3 Hp Ha.
  destruct (gives_val be1 p nrows ncols nmax mmax B1 Hp Ha) as (c & E & Hv & N1 & N2 & _).
  pose proof Hp as (H1 & H2 & H3 & H4 & H5 & H6). pose proof Ha as (A1 & A2 & A3). pose proof (half_even ncols H5) as Eb.
  destruct (C25_round_trip_identity c nrows ncols Hv) as (q & E1 & E2); try lia.
  destruct (C28_ispht_symmetric c nrows ncols Hv) as (p' & E' & S1 & S2 & S3 & _); try lia.
  assert (p' = q) by congruence. subst p'. exists c, q. split; [exact E|].
  rewrite (ispht_either be2 c nrows ncols nrows) by (auto; lia). split; [exact E1|].
  split; [repeat (split; [auto; try lia|]); auto|]. rewrite (spht_either be3 q nrows) by (auto; lia). congruence.
Qed.
Print Assumptions C25_projection.

(** ** The hypotheses are met *)

(** Every pattern object built by the constructor from an array with an even
    number of columns is a pattern in the above sense. *)
Theorem C56_constructed_patterns : forall a : mat RN, mat_wf RN a -> 2 <= mt_nr RN a -> 2 <= mt_nc RN a -> mt_nc RN a mod 2 = 0 ->
  exists p, sp_new RN a false = Ok p /\ patt_ok p (mt_nr RN a) (mt_nc RN a).
Proof.
  intros a Hw Hr Hc He. destruct (C17_scalar_constructor_symmetric a Hw Hr He) as (d & E & S & _).
  destruct (continue_sphere_ok a 1 Hr) as (d' & E' & N1 & N2 & _).
  assert (d' = d) by (unfold sp_new in E; cbn in E; congruence). subst d'.
  exists d. split; [exact E|]. repeat (split; [auto; try lia|]); auto.
Qed.
Print Assumptions C56_constructed_patterns.

Definition one_patt : mat RN := mmake RN 4 2 (fun _ _ => RtoC 1).
Lemma one_patt_ok : patt_ok one_patt 3 2.
Proof.
  unfold patt_ok. cbn [one_patt mt_nr mt_nc mmake]. do 5 (split; [first [reflexivity|lia]|]).
  intros i j Hi Hj. cbn [one_patt mt_nr mt_nc mmake] in *. unfold one_patt, across_row, across_col.
  rewrite !mget_mmake; auto; apply Z.mod_pos_bound; lia.
Qed.
Example C56_constant_nonvacuous : spht_gives py_backend one_patt 1 0 (fun n m => if (n =? 0) && (m =? 0) then RtoC 1 * RtoC (sqrt (4 * PI)) else RtoC 0)%C.
Proof.
  apply (C56_constant py_backend one_patt 3 2); [now left|apply one_patt_ok|unfold accepted; lia|].
  intros i j Hi Hj. unfold arr, p_array, mrows. rewrite mget_mmake by (cbn; lia). unfold one_patt. now rewrite mget_mmake by lia.
Qed.

(** A pattern that is not constant, with its turned and reflected copies. *)
Definition wavy (s : Z) : mat RN := mmake RN 6 4 (fun i j => (cos (2 * PI * IZR i / 6) + (-1) ^ Z.to_nat ((i + j + s) mod 2), 0)%R).
Lemma wavy_wf s : mat_wf RN (wavy s).
Proof. apply mmake_wf; lia. Qed.
Lemma wavy_ok s : patt_ok (wavy s) 4 4.
Proof.
  unfold patt_ok. cbn [wavy mt_nr mt_nc mmake]. do 5 (split; [first [reflexivity|lia]|]).
  intros i j Hi Hj. cbn [wavy mt_nr mt_nc mmake] in *. unfold wavy, across_row, across_col.
  pose proof (Z.mod_pos_bound (6 - i) 6 ltac:(lia)). pose proof (Z.mod_pos_bound (4 / 2 + j) 4 ltac:(lia)).
  rewrite !mget_mmake by lia. f_equal. f_equal.
  - destruct (Z.eq_dec i 0) as [->|Hn]; [reflexivity|]. rewrite Z.mod_small by lia. rewrite minus_IZR.
    replace (2 * PI * (6 - IZR i) / 6)%R with (- (2 * PI * IZR i / 6) + 2 * PI)%R by field. rewrite cos_plus, cos_2PI, sin_2PI, cos_neg. ring.
  - do 2 f_equal. Z.to_euclidean_division_equations. lia.
Qed.
Example C56_nonvacuous : exists c, spht_gives py_backend (wavy 0) 2 1 c /\
  spht_gives py_backend (wavy 1) 2 1 (fun n m => e_i (- (2 * PI * IZR m * 1 / 4)) * c n m)%C.
Proof.
  apply (C56_rotation py_backend (wavy 0) (wavy 1) 4 4 1); [now left|apply wavy_ok|apply wavy_ok|unfold accepted; lia|].
  intros i j Hi Hj. unfold arr, p_array, mrows. pose proof (Z.mod_pos_bound (j - 1) 4 ltac:(lia)).
  rewrite !mget_mmake by (cbn; lia). unfold wavy. rewrite !mget_mmake by lia. f_equal. do 2 f_equal. f_equal.
  Z.to_euclidean_division_equations. lia.
Qed.
