(** * P_VTransF: C84, vispht in double precision with either backend. *)
From Coq Require Import ZArith List Bool SpecFloat Reals Lia Lra Psatz.
From Coquelicot Require Import Coquelicot.
From Flocq Require Import Core.Core IEEE754.BinarySingleNaN.
From Verif Require Import Exact Py PyFacts Num FloatN FloatText MCoefs SpecCoefs Obs CoefsFacts CoefsFacts2 CoefsFacts3 Sums Harm Smooth Dft MOps MPysphi PysphiFacts MTrans TransFacts TransFacts2 TransFacts3 SpecHarm HarmFacts VHarm MKiss KissFacts KissFacts2 SpecDft MCsphi CsphiFacts P_Coefs
  MDouble FlFacts SeedReal SeedFl SeedFl2 DoubleFacts P_Double FlSigned SbesselFTerm SbesselFRel TabPert Unsold TabFl P_Table SumFl SumFl2 SumFl3 SumFl4 P_Sums
  MKissF KissFl KissFl2 KissFl5 P_KissF MTransF TransF P_TransF MTransP TransP P_TransP MOpsF OpsF P_OpsF MVecF P_VecF MVTransF VTransF.
Import ListNotations.
Open Scope list_scope.
Open Scope Z_scope.

(** ** Specification ([harm_norm] as in P_VecF, [ifft2_accurate] as in P_TransF, [within] and [i_pow] as in P_Sums) *)

(** the coefficients denoted by an object *)
Definition denotes (v : scoefs FN) (f : Z -> Z -> C) : Prop := forall n m x, reads FN v n m x -> cvalue x = f n m.
(** all of them are finite and of size at most B *)
Definition bounded_coefs (B : R) (v : scoefs FN) : Prop := forall n m x, reads FN v n m x -> bounded B x.
(** without the monopole, which the vector transforms discard *)
Definition no_monopole (f : Z -> Z -> C) (n m : Z) : C := if n =? 0 then RtoC 0 else f n m.

(** Error bound of one entry of the double sphere of shape (2 nrows - 2, ncols): the
    entries of the Fourier arrays have parts of size at most F and errors at most d
    (C70, C83); P and E are the size and the error after f_L_fc; two of them are
    combined, and the inverse transform adds up all entries. *)
Definition vispht_tol (eps ew : R) (nmax nrows ncols : Z) (B : R) : R :=
  (let Y := 2 * (IZR nmax + 1) * sqrt ((2 * IZR nmax + 1) / (4 * PI)) in
   let F := Y * B + B in
   let d := sum_tol nmax B ew + Y * (6 / 2 ^ 53 * B) in
   let h := IZR (nrows - 1) in let b := IZR (ncols / 2) in
   let P := 4 * h * (b + 1) * F in
   let E := 8 / 2 ^ 53 * h ^ 2 * (b + 1) * F + 2 * h * (b * d + (b + 1) * F / 2 ^ 53) in
   4 * h * b * (2 * (2 * E + 2 * P / 2 ^ 53) + 5 * P * (eps + 40 / 2 ^ 53)))%R.

(** ** Connections *)
Lemma vispht_tol_eq eps ew N LH BH B : vvis_err eps ew N LH BH B = vispht_tol eps ew N (LH + 1) (2 * BH) B.
Proof.
  unfold vvis_err, vispht_tol, entry_bound, ymax, verr, vbound. cbv zeta. rewrite sum_tol_eq, !mult_IZR.
  replace (LH + 1 - 1) with LH by lia. replace (2 * BH / 2) with BH by (rewrite Z.mul_comm, Z.div_mul; lia).
  set (t := sum_tol N B ew). set (s := sqrt _). unfold Rdiv. set (k := (/ 2 ^ 53)%R). assert (U : uu = k) by (unfold k; rewrite uu_val; lra). rewrite U. ring.
Qed.
(** what both backends do *)
Definition vis_result (r : res (Z * Z * (list cf * list cf))) (eps ew : R) (v1 v2 : scoefs FN) (N M nrows ncols : Z) (B : R) : Prop :=
  exists ft fp, r = Ok (2 * nrows - 2, ncols, (ft, fp)) /\ zlen ft = (2 * nrows - 2) * ncols /\ zlen fp = (2 * nrows - 2) * ncols /\
    forall i j, 0 <= i < 2 * nrows - 2 -> 0 <= j < ncols ->
      cnear (vispht_tol eps ew N nrows ncols B) (fget ncols ft i j) (synth (2 * nrows - 2) ncols (Tm N M (wf_of v1) (wf_of v2)) i j) /\
      cnear (vispht_tol eps ew N nrows ncols B) (fget ncols fp i j) (synth (2 * nrows - 2) ncols (Pm N M (wf_of v1) (wf_of v2)) i j).
Lemma vis_core eps ifft2 s2f ew v1 v2 N M nrows ncols B : ifft2_accurate eps ifft2 -> (0 <= eps <= 1 / 2)%R -> s2f_acc s2f ew M -> (0 <= ew <= / 2 ^ 40)%R ->
  valid FN v1 -> sc_nmax FN v1 = N -> sc_mmax FN v1 = M -> valid FN v2 -> sc_nmax FN v2 = N -> sc_mmax FN v2 = M ->
  N <= 1022 -> N + 2 <= nrows -> 3 <= nrows <= 2 ^ 20 -> 2 * M + 2 <= ncols <= 2 ^ 20 -> ncols mod 2 = 0 -> (/ 2 ^ 700 <= B <= 2 ^ 700)%R ->
  bounded_coefs B v1 -> bounded_coefs B v2 ->
  vis_result (f_vispht s2f ifft2 v1 v2 N M (Some nrows) (Some ncols)) eps ew v1 v2 N M nrows ncols B.
Proof.
  intros HT He HS Hew Hv1 HN1 HM1 Hv2 HN2 HM2 HN Hr Hr2 Hc Hc2 HB Hx1 Hx2.
  pose proof Hv1 as Hw. apply valid_wf in Hw. destruct Hw as [[Hg1 Hg2] _]. rewrite HM1 in Hg1, Hg2. rewrite HN1 in Hg2.
  assert (EH : exists BH, ncols = 2 * BH) by (exists (ncols / 2); pose proof (Z.div_mod ncols 2 ltac:(lia)); lia). destruct EH as [BH ->].
  destruct (f_vispht_core eps ifft2 s2f ew v1 v2 N M (nrows - 1) BH B) as (ft & fp & E & L1 & L2 & A); auto; try lia.
  { apply ifft_acc_of, HT. }
  { lra. }
  { change 700 with (Z.of_nat 700). change (-700) with (- Z.of_nat 700). now rewrite bpow_neg, bpow2_pow. }
  rewrite <- (Z.sub_add 1 nrows) at 2. replace (2 * (nrows - 1)) with (2 * nrows - 2) in * by lia. replace (nrows - 1 + 1) with nrows in * by lia.
  exists ft, fp. split; [exact E|]. split; [exact L1|]. split; [exact L2|]. intros i j Hi Hj. destruct (A i j Hi Hj) as [A1 A2].
  assert (T : vvis_err eps ew N (nrows - 1) BH B = vispht_tol eps ew N nrows (2 * BH) B) by (rewrite vispht_tol_eq; f_equal; lia).
  split; [apply (near_cnear _ _ _ _ _ A1 T eq_refl)|apply (near_cnear _ _ _ _ _ A2 T eq_refl)].
Qed.
(** the combination of the Fourier arrays is the vector harmonic series off the poles *)
Lemma synth_series v1 v2 f1 f2 N M nrows ncols i j : valid FN v1 -> sc_nmax FN v1 = N -> sc_mmax FN v1 = M -> valid FN v2 -> sc_nmax FN v2 = N -> sc_mmax FN v2 = M ->
  denotes v1 f1 -> denotes v2 f2 -> N + 2 <= nrows -> 3 <= nrows -> 2 * M + 2 <= ncols -> 0 < i < nrows - 1 -> 0 <= j < ncols ->
  let theta := (PI * IZR i / IZR (nrows - 1))%R in let phi := (2 * PI * IZR j / IZR ncols)%R in
  synth (2 * nrows - 2) ncols (Tm N M (wf_of v1) (wf_of v2)) i j = vharm_series vsh_theta N M (no_monopole f1) (no_monopole f2) theta phi /\
  synth (2 * nrows - 2) ncols (Pm N M (wf_of v1) (wf_of v2)) i j = vharm_series vsh_phi N M (no_monopole f1) (no_monopole f2) theta phi.
Proof.
  intros Hv1 HN1 HM1 Hv2 HN2 HM2 D1 D2 Hr Hr3 Hc Hi Hj theta phi.
  pose proof Hv1 as Hw. apply valid_wf in Hw. destruct Hw as [[Hg1 Hg2] _]. rewrite HM1 in Hg1, Hg2. rewrite HN1 in Hg2.
  assert (Et : (2 * PI * IZR i / IZR (2 * nrows - 2))%R = theta).
  { unfold theta. replace (2 * nrows - 2) with (2 * (nrows - 1)) by lia. rewrite mult_IZR. field. apply not_0_IZR; lia. }
  assert (Hs : sin theta <> 0%R).
  { apply Rgt_not_eq. unfold theta. pose proof PI_RGT_0.
    assert (0 < IZR i < IZR (nrows - 1))%R by (split; apply IZR_lt; lia).
    apply sin_gt_0.
    - apply Rdiv_lt_0_compat; [apply Rmult_lt_0_compat; lra|lra].
    - apply (Rmult_lt_reg_r (IZR (nrows - 1))); [lra|]. unfold Rdiv. rewrite Rmult_assoc, Rinv_l, Rmult_1_r by lra.
      apply Rmult_lt_compat_l; lra. }
  destruct (synth_Tm (2 * nrows - 2) ncols N M (wf_of v1) (wf_of v2) i j) as [ET EP]; try lia.
  { rewrite Et. exact Hs. }
  rewrite Et in ET, EP. fold phi in ET, EP.
  assert (Wz : forall v f n m, valid FN v -> sc_nmax FN v = N -> sc_mmax FN v = M -> denotes v f -> is_mode N M n m ->
     wf_of v n m = (no_monopole f n m * RtoC (1 / sqrt (IZR n * (IZR n + 1))))%C).
  { intros v f n m Hv HN HM D Hm. unfold wf_of, nv, no_monopole. destruct (Z.eqb_spec n 0) as [->|Hn].
    - ring.
    - rewrite <- (D n m (cval FN v n m)); [reflexivity|]. apply reads_iff; auto. rewrite HN, HM. auto. }
  split; [rewrite ET|rewrite EP]; unfold vharm_series; apply sumC_ext; intros m Hm; apply sumC_ext; intros n Hn;
    (rewrite (Wz v1 f1 n m), (Wz v2 f2 n m) by (auto; unfold is_mode; lia)); [unfold vsh_theta|unfold vsh_phi]; ring.
Qed.

(** ** Theorems *)

(** what the theorems say of a run: it returns two arrays of shape (2 nrows - 2, ncols),
    and off the poles every entry of the visible rows is a pair of finite doubles within
    [vispht_tol] of the vector harmonic series that the coefficients denote *)
Definition evaluates (r : res (Z * Z * (list cf * list cf))) (eps ew : R) (f1 f2 : Z -> Z -> C) (nmax mmax nrows ncols : Z) (B : R) : Prop :=
  exists ft fp, r = Ok (2 * nrows - 2, ncols, (ft, fp)) /\ zlen ft = (2 * nrows - 2) * ncols /\ zlen fp = (2 * nrows - 2) * ncols /\
    forall i j, 0 < i < nrows - 1 -> 0 <= j < ncols ->
      let theta := (PI * IZR i / IZR (nrows - 1))%R in let phi := (2 * PI * IZR j / IZR ncols)%R in
      cnear (vispht_tol eps ew nmax nrows ncols B) (fget ncols ft i j) (vharm_series vsh_theta nmax mmax (no_monopole f1) (no_monopole f2) theta phi) /\
      cnear (vispht_tol eps ew nmax nrows ncols B) (fget ncols fp i j) (vharm_series vsh_phi nmax mmax (no_monopole f1) (no_monopole f2) theta phi).
Lemma vis_evaluates r eps ew v1 v2 f1 f2 N M nrows ncols B : valid FN v1 -> sc_nmax FN v1 = N -> sc_mmax FN v1 = M -> valid FN v2 -> sc_nmax FN v2 = N -> sc_mmax FN v2 = M ->
  denotes v1 f1 -> denotes v2 f2 -> N + 2 <= nrows -> 3 <= nrows -> 2 * M + 2 <= ncols ->
  vis_result r eps ew v1 v2 N M nrows ncols B -> evaluates r eps ew f1 f2 N M nrows ncols B.
Proof.
  intros Hv1 HN1 HM1 Hv2 HN2 HM2 D1 D2 Hr Hr3 Hc (ft & fp & E & L1 & L2 & A). exists ft, fp. split; [exact E|]. split; [exact L1|]. split; [exact L2|].
  intros i j Hi Hj theta phi. destruct (A i j ltac:(lia) Hj) as [A1 A2].
  destruct (synth_series v1 v2 f1 f2 N M nrows ncols i j) as [E1 E2]; auto. fold theta phi in E1, E2. rewrite E1 in A1. rewrite E2 in A2. split; assumption.
Qed.

(** the C backend *)
Theorem C84_vispht_accurate_c : forall eps ifft2 junkr junki v1 v2 f1 f2 nmax mmax nrows ncols B, ifft2_accurate eps ifft2 -> (0 <= eps <= 1 / 2)%R ->
  valid FN v1 -> sc_nmax FN v1 = nmax -> sc_mmax FN v1 = mmax -> valid FN v2 -> sc_nmax FN v2 = nmax -> sc_mmax FN v2 = mmax ->
  denotes v1 f1 -> denotes v2 f2 -> (/ 2 ^ 700 <= B <= 2 ^ 700)%R -> bounded_coefs B v1 -> bounded_coefs B v2 ->
  nmax <= 1022 -> nmax + 2 <= nrows -> 3 <= nrows <= 2 ^ 20 -> 2 * mmax + 2 <= ncols <= 2 ^ 20 -> ncols mod 2 = 0 ->
  evaluates (f_vispht (c_s2f junkr junki) ifft2 v1 v2 nmax mmax (Some nrows) (Some ncols)) eps 0 f1 f2 nmax mmax nrows ncols B.
Proof.
  intros eps ifft2 junkr junki v1 v2 f1 f2 N M nrows ncols B HT He Hv1 HN1 HM1 Hv2 HN2 HM2 D1 D2 HB Hx1 Hx2 HN Hr Hr3 Hc Hc2.
  apply (vis_evaluates _ eps 0 v1 v2); auto; try lia. apply vis_core; auto; [apply c_s2f_acc|]. split; [lra|]. left. apply Rinv_0_lt_compat, pow_lt. lra.
Qed.
Print Assumptions C84_vispht_accurate_c.

(** the Python backend, whose powers 1j ** m are within ew of i^m *)
Theorem C84_vispht_accurate_python : forall eps ifft2 ew ipw v1 v2 f1 f2 nmax mmax nrows ncols B, ifft2_accurate eps ifft2 -> (0 <= eps <= 1 / 2)%R ->
  (0 <= ew <= / 2 ^ 40)%R -> (forall m, Z.abs m <= mmax -> within ew (ipw m) (i_pow m)) ->
  valid FN v1 -> sc_nmax FN v1 = nmax -> sc_mmax FN v1 = mmax -> valid FN v2 -> sc_nmax FN v2 = nmax -> sc_mmax FN v2 = mmax ->
  denotes v1 f1 -> denotes v2 f2 -> (/ 2 ^ 700 <= B <= 2 ^ 700)%R -> bounded_coefs B v1 -> bounded_coefs B v2 ->
  nmax <= 1022 -> nmax + 2 <= nrows -> 3 <= nrows <= 2 ^ 20 -> 2 * mmax + 2 <= ncols <= 2 ^ 20 -> ncols mod 2 = 0 ->
  evaluates (f_vispht (p_s2f ipw) ifft2 v1 v2 nmax mmax (Some nrows) (Some ncols)) eps ew f1 f2 nmax mmax nrows ncols B.
Proof.
  intros eps ifft2 ew ipw v1 v2 f1 f2 N M nrows ncols B HT He Hew Hip Hv1 HN1 HM1 Hv2 HN2 HM2 D1 D2 HB Hx1 Hx2 HN Hr Hr3 Hc Hc2.
  apply (vis_evaluates _ eps ew v1 v2); auto; try lia. apply vis_core; auto. apply p_s2f_acc.
  - split; [lra|]. apply Rle_trans with (/ 2 ^ 40)%R; [lra|]. apply Rinv_le_contravar; lra.
  - intros m Hm. apply within_wap, Hip, Hm.
Qed.
Print Assumptions C84_vispht_accurate_python.

(** On the same object the two backends return arrays of the same shape whose entries,
    poles and hidden rows included, differ by at most the sum of the two bounds. *)
Theorem C84_backends_agree : forall eps i1 i2 junkr junki ew ipw v1 v2 nmax mmax nrows ncols B, ifft2_accurate eps i1 -> ifft2_accurate eps i2 -> (0 <= eps <= 1 / 2)%R ->
  (0 <= ew <= / 2 ^ 40)%R -> (forall m, Z.abs m <= mmax -> within ew (ipw m) (i_pow m)) ->
  valid FN v1 -> sc_nmax FN v1 = nmax -> sc_mmax FN v1 = mmax -> valid FN v2 -> sc_nmax FN v2 = nmax -> sc_mmax FN v2 = mmax ->
  (/ 2 ^ 700 <= B <= 2 ^ 700)%R -> bounded_coefs B v1 -> bounded_coefs B v2 ->
  nmax <= 1022 -> nmax + 2 <= nrows -> 3 <= nrows <= 2 ^ 20 -> 2 * mmax + 2 <= ncols <= 2 ^ 20 -> ncols mod 2 = 0 ->
  exists ct cp pt pp, f_vispht (c_s2f junkr junki) i1 v1 v2 nmax mmax (Some nrows) (Some ncols) = Ok (2 * nrows - 2, ncols, (ct, cp)) /\
    f_vispht (p_s2f ipw) i2 v1 v2 nmax mmax (Some nrows) (Some ncols) = Ok (2 * nrows - 2, ncols, (pt, pp)) /\
    forall i j, 0 <= i < 2 * nrows - 2 -> 0 <= j < ncols ->
      (Cmod (cvalue (fget ncols ct i j) - cvalue (fget ncols pt i j))%C <= vispht_tol eps 0 nmax nrows ncols B + vispht_tol eps ew nmax nrows ncols B)%R /\
      (Cmod (cvalue (fget ncols cp i j) - cvalue (fget ncols pp i j))%C <= vispht_tol eps 0 nmax nrows ncols B + vispht_tol eps ew nmax nrows ncols B)%R.
Proof.
  intros eps i1 i2 junkr junki ew ipw v1 v2 N M nrows ncols B HT1 HT2 He Hew Hip Hv1 HN1 HM1 Hv2 HN2 HM2 HB Hx1 Hx2 HN Hr Hr3 Hc Hc2.
  assert (Z0 : (0 <= 0 <= / 2 ^ 40)%R) by (split; [lra|left; apply Rinv_0_lt_compat, pow_lt; lra]).
  assert (P : s2f_acc (p_s2f ipw) ew M).
  { apply p_s2f_acc; [split; [lra|]; apply Rle_trans with (/ 2 ^ 40)%R; [lra|apply Rinv_le_contravar; lra]|intros m Hm; apply within_wap, Hip, Hm]. }
  destruct (vis_core eps i1 (c_s2f junkr junki) 0 v1 v2 N M nrows ncols B HT1 He (c_s2f_acc _ _ _) Z0) as (ct & cp & E1 & _ & _ & A); auto.
  destruct (vis_core eps i2 (p_s2f ipw) ew v1 v2 N M nrows ncols B HT2 He P Hew) as (pt & pp & E2 & _ & _ & A'); auto.
  exists ct, cp, pt, pp. split; [exact E1|]. split; [exact E2|]. intros i j Hi Hj. destruct (A i j Hi Hj) as [A1 A2]. destruct (A' i j Hi Hj) as [A3 A4].
  assert (Tr : forall e1 e2 x y h, cnear e1 x h -> cnear e2 y h -> (Cmod (cvalue x - cvalue y)%C <= e1 + e2)%R).
  { intros e1 e2 x y h Q1 Q2. destruct (cnear_near _ _ _ Q1) as [_ R1]. destruct (cnear_near _ _ _ Q2) as [_ R2]. change VC with cvalue in R1, R2.
    replace (cvalue x - cvalue y)%C with ((cvalue x - h) + - (cvalue y - h))%C by ring. eapply Rle_trans; [apply Cmod_triangle|]. rewrite Cmod_opp. lra. }
  split; eapply Tr; eassumption.
Qed.
Print Assumptions C84_backends_agree.

(** The default grid is nmax + 2 rows and 2 mmax + 2 columns, with either backend. *)
Theorem C84_default_grid : forall s2f ifft2 v1 v2 nmax mmax o,
  f_vispht s2f ifft2 v1 v2 nmax mmax None o = f_vispht s2f ifft2 v1 v2 nmax mmax (Some (nmax + 2)) o /\
  f_vispht s2f ifft2 v1 v2 nmax mmax o None = f_vispht s2f ifft2 v1 v2 nmax mmax o (Some (2 * mmax + 2)).
Proof. intros. split; reflexivity. Qed.
Print Assumptions C84_default_grid.

(** A grid too small for the object, or with an odd number of columns, is refused with a
    ValueError before anything is computed. *)
Theorem C84_refused_grids : forall s2f ifft2 v1 v2 nmax mmax nrows ncols, nrows < nmax + 2 \/ ncols < 2 * mmax + 2 \/ ncols mod 2 = 1 ->
  exists msg, f_vispht s2f ifft2 v1 v2 nmax mmax (Some nrows) (Some ncols) = Raise (ValueError msg).
Proof.
  intros s2f ifft2 v1 v2 N M nrows ncols H. unfold f_vispht.
  destruct (Z.ltb_spec nrows (N + 2)); [eauto|]. destruct (Z.ltb_spec ncols (2 * M + 2)); [eauto|]. cbv zeta.
  assert (Ho : ncols mod 2 = 1) by lia. rewrite Ho. cbn [Z.eqb Pos.eqb]. eauto.
Qed.
Print Assumptions C84_refused_grids.

(** ** The hypotheses are met: degree 2, order 1 *)
Definition ex_f (n m : Z) : C := cvalue (cval FN ex_obj n m).
Lemma ex_denotes : denotes ex_obj ex_f.
Proof. intros n m x Hx. assert (Hv : valid FN ex_obj) by (split; [cbn; lia|reflexivity]). apply reads_inv in Hx; auto. destruct Hx as [_ ->]. reflexivity. Qed.
Lemma ex_bounded : bounded_coefs 8 ex_obj.
Proof.
  intros n m x Hx. assert (Hv : valid FN ex_obj) by (split; [cbn; lia|reflexivity]). apply reads_inv in Hx; auto. destruct Hx as [Hm ->].
  change (is_mode 2 1 n m) in Hm. change (cval FN ex_obj n m) with (vget cf0 ex_vec (cstart 2 m + n - Z.abs m)).
  assert (Hi : 0 <= cstart 2 m + n - Z.abs m < 7).
  { destruct (cstart_range 2 1 m) as [R1 R2]; [unfold good_size; lia|destruct Hm as (? & ? & ?); lia|]. destruct Hm as (? & ? & ?). change (ncoef 2 1) with 7 in R2. lia. }
  set (k := cstart 2 m + n - Z.abs m) in *. clearbody k. unfold ex_vec. rewrite vget_vmake by lia. unfold bounded. cbn [fst snd].
  destruct (fofZ_small (k + 1)) as (D1 & F1 & E1); [lia|]. destruct (fofZ_small (- k)) as (D2 & F2 & E2); [lia|].
  change (value (fofZ (k + 1))) with (V (fofZ (k + 1))). change (value (fofZ (- k))) with (V (fofZ (- k))). rewrite E1, E2.
  assert (1 <= IZR (k + 1) <= 7)%R by (split; apply IZR_le; lia). assert (-6 <= IZR (- k) <= 0)%R by (split; apply IZR_le; lia).
  rewrite Rabs_pos_eq, Rabs_left1 by lra. split; [exact D1|]. split; [apply fin_finite, F1|]. split; [lra|]. split; [exact D2|]. split; [apply fin_finite, F2|lra].
Qed.
Example C84_nonvacuous :
  evaluates (f_vispht (c_s2f (fun _ => S754_nan) (fun _ => 0)) ex_ifft2 ex_obj ex_obj 2 1 (Some 5) (Some 6)) (/ 2 ^ 51) 0 ex_f ex_f 2 1 5 6 8.
Proof.
  apply C84_vispht_accurate_c; try lia; try reflexivity.
  - exact ex_ifft2_ok.
  - split; [left; apply Rinv_0_lt_compat, pow_lt; lra|]. lra.
  - split; [cbn; lia|reflexivity].
  - split; [cbn; lia|reflexivity].
  - exact ex_denotes.
  - exact ex_denotes.
  - split; [apply Rle_trans with 1%R; [|lra]; rewrite <- Rinv_1; apply Rinv_le_contravar; [lra|apply pow_R1_Rle; lra]|].
    apply Rle_trans with (2 ^ 4)%R; [lra|apply Rle_pow; [lra|lia]].
  - exact ex_bounded.
  - exact ex_bounded.
Qed.
Example C84_refused_nonvacuous : exists msg, f_vispht (c_s2f (fun _ => S754_nan) (fun _ => 0)) ex_ifft2 ex_obj ex_obj 2 1 (Some 5) (Some 7) = Raise (ValueError msg).
Proof. apply C84_refused_grids. right. right. reflexivity. Qed.
