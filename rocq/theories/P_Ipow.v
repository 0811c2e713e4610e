(** * P_Ipow: C81, the powers of i that pysphi.py takes from the interpreter. *)
From Coq Require Import ZArith List Bool SpecFloat Reals Lia Lra Psatz.
From Coquelicot Require Import Coquelicot.
From Flocq Require Import Core.Core IEEE754.BinarySingleNaN.
From Verif Require Import Exact Py PyFacts Num FloatN FloatText MCoefs SpecCoefs CoefsFacts CoefsFacts2 Obs CoefsFacts3 Sums Harm Smooth Dft MOps MPysphi PysphiFacts MTrans TransFacts TransFacts2 SpecHarm HarmFacts SpecInt MKiss KissFacts KissFacts2 SpecDft MCsphi CsphiFacts MPatt P_Coefs P_Trans
  MDouble FlFacts SeedReal SeedFl SeedFl2 DoubleFacts P_Double FlSigned SbesselFTerm SbesselFRel SbesselFFun TabPert Unsold TabFl P_Table SumFl SumFl2 SumFl3 SumFl4 P_Sums
  MKissF KissFl KissFl2 KissFl3 KissFl4 KissFl5 P_KissF MCsphiF HkmF P_CsphiF MTransF TransF P_TransF TransF2 P_TransF2 MTransP TransP P_TransP MHkmP HkmP P_HkmP P_HkmP2 MIpow.
Import ListNotations.
Open Scope list_scope.
Open Scope Z_scope.

(** ** Specification *)

(** the C library's cos and sin are accurate to delta on [-X, X] *)
Definition trig_accurate_to (X delta : R) (cosf sinf : f64 -> f64) : Prop := forall x, double x -> finite x -> (Rabs (value x) <= X)%R ->
  double (cosf x) /\ finite (cosf x) /\ (Rabs (value (cosf x) - cos (value x)) <= delta)%R /\
  double (sinf x) /\ finite (sinf x) /\ (Rabs (value (sinf x) - sin (value x)) <= delta)%R.
(** the value of atan2(1, 0) is a double next to pi/2 *)
Definition half_pi_ok (at2 : f64) : Prop := double at2 /\ finite at2 /\ (Rabs (value at2 - PI / 2) <= 2 / 2 ^ 53)%R.
(** the values of 1j ** m as a function (what the interpreter returns; no error is raised, by the theorems below) *)
Definition ipow_values (at2 : f64) (cosf sinf : f64 -> f64) (m : Z) : cf :=
  match py_ipow at2 cosf sinf m with Some z => z | None => (S754_nan, S754_nan) end.

(** ** The products of c_powu and the quotient of c_powi are exact: all values are +-1 +- 0j and +-0 +- 1j *)
Definition sone (b : bool) : f64 := if b then fofZ (-1) else fofZ 1.
Definition unit_form (h a b : bool) : cf := if h then (S754_zero a, sone b) else (sone b, S754_zero a).
Definition isform (z : cf) (k : Z) : Prop := exists h a b q, z = unit_form h a b /\ k = Z.b2z h + 2 * Z.b2z b + 4 * q.

Lemma form_mul h a b h' a' b' : exists c, cfmul (unit_form h a b) (unit_form h' a' b') = unit_form (xorb h h') c (xorb (xorb b b') (h && h')).
Proof. destruct h, a, b, h', a', b'; first [exists true; vm_compute; reflexivity | exists false; vm_compute; reflexivity]. Qed.
Lemma form_quot h a b : exists c, c_quot c_one (unit_form h a b) = Some (unit_form h c (xorb b h)).
Proof. destruct h, a, b; first [exists true; vm_compute; reflexivity | exists false; vm_compute; reflexivity]. Qed.

Lemma isform_mul z k z' k' : isform z k -> isform z' k' -> isform (cfmul z z') (k + k').
Proof.
  intros (h & a & b & q & -> & ->) (h' & a' & b' & q' & -> & ->). destruct (form_mul h a b h' a' b') as [c ->].
  eexists _, c, _, _. split; [reflexivity|].
  instantiate (1 := q + q' + (if b && b' then 1 else 0) + (if (xorb b b') && (h && h') then 1 else 0)).
  destruct h, b, h', b'; cbn [xorb andb Z.b2z]; ring.
Qed.
Lemma isform_quot z k : isform z k -> exists z', c_quot c_one z = Some z' /\ isform z' (- k).
Proof.
  intros (h & a & b & q & -> & ->). destruct (form_quot h a b) as [c ->]. eexists; split; [reflexivity|].
  eexists _, c, _, _. split; [reflexivity|].
  instantiate (1 := - q - (if b then 1 else if h then 1 else 0)). destruct h, b; cbn [xorb Z.b2z]; ring.
Qed.
Lemma isform_powu n : forall r p k l, isform r k -> isform p l -> isform (c_powu_loop r p n) (k + l * Zpos n).
Proof.
  induction n as [n IH|n IH|]; intros r p k l Hr Hp; cbn [c_powu_loop].
  - replace (k + l * Z.pos n~1) with (k + l + (l + l) * Z.pos n) by lia. apply IH; apply isform_mul; auto.
  - replace (k + l * Z.pos n~0) with (k + (l + l) * Z.pos n) by lia. apply IH; [auto|apply isform_mul; auto].
  - replace (k + l * 1) with (k + l) by lia. apply isform_mul; auto.
Qed.
Lemma isform_j : isform c_j 1. Proof. exists true, false, false, 0. auto. Qed.
Lemma isform_one : isform c_one 0. Proof. exists false, false, false, 0. auto. Qed.

Lemma isform_within z k : isform z k -> within 0 z (i_pow k).
Proof.
  intros (h & a & b & q & -> & ->). rewrite i_pow_eq, ipow_val.
  replace ((Z.b2z h + 2 * Z.b2z b + 4 * q) mod 4) with (Z.b2z h + 2 * Z.b2z b) by (rewrite (Z.mul_comm 4 q), Z_mod_plus_full; destruct h, b; reflexivity).
  destruct (fofZ_small 1 ltac:(lia)) as (D1 & F1 & E1). destruct (fofZ_small (-1) ltac:(lia)) as (D2 & F2 & E2).
  assert (Z0 : forall s, dbl (S754_zero s) /\ fin (S754_zero s) /\ V (S754_zero s) = 0%R) by (intros s; repeat split).
  destruct (Z0 a) as (D3 & F3 & E3).
  unfold within, unit_form, sone. destruct h, b; cbn [Z.b2z Z.add Z.mul Pos.add Pos.mul fst snd RtoC Ci]; rewrite ?E1, ?E2, ?E3;
    (repeat split); auto using fin_finite; try (replace (_ - _)%R with 0%R by ring; rewrite Rabs_R0; lra).
Qed.

(** ** C81 *)
(** up to |m| = 100 the interpreter multiplies: no error is raised and the value is exactly i^m, whatever the library *)
Theorem C81_powers_exact : forall at2 cosf sinf m, Z.abs m <= 100 ->
  exists z, py_ipow at2 cosf sinf m = Some z /\ within 0 z (i_pow m).
Proof.
  intros at2 cosf sinf m Hm. unfold py_ipow.
  replace ((100 <? m) || (m <? -100))%bool with false by (symmetry; apply orb_false_iff; split; [apply Z.ltb_ge|apply Z.ltb_ge]; lia).
  destruct (Z.ltb_spec 0 m) as [Hp|Hp].
  - eexists; split; [reflexivity|]. apply isform_within. destruct m as [|p|p]; try lia. cbn [c_powu].
    exact (isform_powu p c_one c_j 0 1 isform_one isform_j).
  - assert (F : isform (c_powu c_j (- m)) (- m)).
    { destruct (- m) as [|p|p] eqn:E; try lia; cbn [c_powu]; [exact isform_one|]. exact (isform_powu p c_one c_j 0 1 isform_one isform_j). }
    destruct (isform_quot _ _ F) as (z & -> & Fz). exists z. split; [reflexivity|]. apply isform_within. now rewrite Z.opp_involutive in Fz.
Qed.
Print Assumptions C81_powers_exact.

(** the phase at * m *)
Lemma phase_ok at2 m : half_pi_ok at2 -> Z.abs m <= 1022 ->
  let x := fmul at2 (fofZ m) in dbl x /\ fin x /\ (Rabs (V x - IZR m * (PI / 2)) <= / 2 ^ 41)%R /\ (Rabs (V x) <= 1700)%R.
Proof.
  intros (Da & Fa & Ea) Hm. cbv zeta. apply finite_fin in Fa. destruct (fofZ_small m) as (D2 & F2 & E2); [lia|].
  pose proof (fmul_rnd at2 (fofZ m) Da D2 Fa F2) as R. rewrite E2 in R.
  pose proof PI_bounds as P. pose proof uu_val as U. assert (T : (0 < dmin <= / 10 ^ 30)%R) by exact dmin_small.
  assert (HM : (Rabs (IZR m) <= 1022)%R) by (rewrite <- abs_IZR; apply IZR_le; lia).
  assert (BB : (16777216 <= BIG)%R) by (change 16777216%R with (bpow radix2 24); apply bpow_le; lia).
  change (value at2) with (V at2) in Ea.
  assert (A : (Rabs (V at2) <= 158 / 100)%R) by (apply Rabs_le_inv in Ea; apply Rabs_le; lra).
  assert (B : (Rabs (V at2 * IZR m) <= 1615)%R).
  { rewrite Rabs_mult. pose proof (Rabs_pos (V at2)). pose proof (Rabs_pos (IZR m)). apply Rle_trans with (158 / 100 * 1022)%R; [apply Rmult_le_compat; auto|lra]. }
  destruct (big_rnd _ _ R) as (D3 & F3 & E3); [lra|]. split; [auto|]. split; [auto|].
  pose proof (rnd_ok (V at2 * IZR m)) as Q. rewrite <- E3 in Q. set (x := fmul at2 (fofZ m)) in *. clearbody x.
  assert (Q2 : (Rabs (V x - V at2 * IZR m) <= 1616 * uu)%R).
  { eapply Rle_trans; [exact Q|]. assert (uu * Rabs (V at2 * IZR m) <= uu * 1615)%R by (apply Rmult_le_compat_l; [rewrite U; lra|auto]). rewrite U in *. lra. }
  assert (Q3 : (Rabs (V at2 * IZR m - IZR m * (PI / 2)) <= 2 / 2 ^ 53 * 1022)%R).
  { replace (V at2 * IZR m - IZR m * (PI / 2))%R with ((V at2 - PI / 2) * IZR m)%R by ring. rewrite Rabs_mult. apply Rmult_le_compat; auto using Rabs_pos. }
  split.
  - replace (V x - IZR m * (PI / 2))%R with ((V x - V at2 * IZR m) + (V at2 * IZR m - IZR m * (PI / 2)))%R by ring.
    eapply Rle_trans; [apply Rabs_triang|]. rewrite U in *. lra.
  - replace (V x) with ((V x - V at2 * IZR m) + V at2 * IZR m)%R by ring. eapply Rle_trans; [apply Rabs_triang|]. rewrite U in *. lra.
Qed.

(** at all degrees the transforms of C77 - C80 ask for, the error of the power is that of the library's cos and sin, plus the rounded phase *)
Theorem C81_powers_library : forall delta at2 cosf sinf m,
  half_pi_ok at2 -> trig_accurate_to 1700 delta cosf sinf -> (0 <= delta)%R -> Z.abs m <= 1022 ->
  exists z, py_ipow at2 cosf sinf m = Some z /\ within (delta + / 2 ^ 41) z (i_pow m).
Proof.
  intros delta at2 cosf sinf m HA HT Hd Hm. destruct (Z_le_gt_dec (Z.abs m) 100) as [H|H].
  - destruct (C81_powers_exact at2 cosf sinf m H) as (z & E & D1 & F1 & E1 & D2 & F2 & E2). exists z. split; [exact E|].
    assert (0 <= / 2 ^ 41)%R by lra. unfold within. repeat split; auto; lra.
  - unfold py_ipow. replace ((100 <? m) || (m <? -100))%bool with true by (symmetry; apply orb_true_iff; rewrite !Z.ltb_lt; lia).
    eexists; split; [reflexivity|]. unfold c_pow_j. destruct (phase_ok at2 m HA Hm) as (D & F & E & B). set (x := fmul at2 (fofZ m)) in *. clearbody x.
    destruct (HT x D (fin_finite _ F) B) as (Dc & Fc & Ec & Ds & Fs & Es). apply finite_fin in Fc, Fs.
    destruct (fmul_1 _ Dc Fc) as (Dc1 & Fc1 & Ec1). destruct (fmul_1 _ Ds Fs) as (Ds1 & Fs1 & Es1).
    change (fofZ 1) with one. unfold within. cbn [fst snd]. unfold i_pow, e_i. cbn [fst snd]. rewrite Ec1, Es1.
    pose proof (cos_lip (V x) (IZR m * (PI / 2))) as Lc. pose proof (sin_lip (V x) (IZR m * (PI / 2))) as Ls.
    repeat split; auto using fin_finite.
    + replace (V (cosf x) - cos (IZR m * (PI / 2)))%R with ((V (cosf x) - cos (V x)) + (cos (V x) - cos (IZR m * (PI / 2))))%R by ring.
      eapply Rle_trans; [apply Rabs_triang|]. lra.
    + replace (V (sinf x) - sin (IZR m * (PI / 2)))%R with ((V (sinf x) - sin (V x)) + (sin (V x) - sin (IZR m * (PI / 2))))%R by ring.
      eapply Rle_trans; [apply Rabs_triang|]. lra.
Qed.
Print Assumptions C81_powers_library.

(** the hypothesis of C77 - C80 on the powers is met by the interpreter *)
Theorem C81_powers_of_interpreter : forall delta at2 cosf sinf mmax,
  (mmax <= 100 -> powers_accurate 0 (ipow_values at2 cosf sinf) mmax) /\
  (half_pi_ok at2 -> trig_accurate_to 1700 delta cosf sinf -> (0 <= delta)%R -> mmax <= 1022 ->
    powers_accurate (delta + / 2 ^ 41) (ipow_values at2 cosf sinf) mmax).
Proof.
  intros delta at2 cosf sinf M. split.
  - intros HM m Hm. destruct (C81_powers_exact at2 cosf sinf m) as (z & E & W); [lia|]. unfold ipow_values. now rewrite E.
  - intros HA HT Hd HM m Hm. destruct (C81_powers_library delta at2 cosf sinf m HA HT Hd) as (z & E & W); [lia|]. unfold ipow_values. now rewrite E.
Qed.
Print Assumptions C81_powers_of_interpreter.

(** and so the Python backend's round trip (C80) with the interpreter's own powers, up to mmax = 100 with no hypothesis on the library,
    up to 1022 with a library accurate to 2^-41 *)
Theorem C81_round_trip : forall delta at2 cosf sinf eps fft2 ifft2 fft ifft sum sc nmax mmax nrows ncols B,
  np_fft_accurate eps fft2 ifft2 fft ifft -> (0 <= eps <= / 2 ^ 30)%R -> some_order sum ->
  (mmax <= 100 \/ half_pi_ok at2 /\ trig_accurate_to 1700 delta cosf sinf /\ (0 <= delta <= / 2 ^ 41)%R) ->
  0 <= mmax <= nmax -> nmax <= 1022 -> zlen sc = ncoef nmax mmax -> nmax + 2 <= nrows -> 2 * nrows + nmax <= 2 ^ 19 -> 2 * mmax + 2 <= ncols <= 2 ^ 30 -> ncols mod 2 = 0 ->
  (/ 2 ^ 690 <= B <= 2 ^ 700)%R -> (forall i, 0 <= i < zlen sc -> bounded B (vget cf0 sc i)) ->
  let ipw := ipow_values at2 cosf sinf in
  exists ew ds sc', (ew = 0%R /\ mmax <= 100 \/ ew = (delta + / 2 ^ 41)%R) /\
    fp_ispht ifft2 ipw sc nmax mmax (Some nrows) (Some ncols) = Ok (2 * nrows - 2, ncols, ds) /\
    fp_spht fft2 sum ipw fft ifft (2 * nrows - 2) ncols ds (Some nmax) (Some mmax) = Ok (nmax, mmax, sc') /\ zlen sc' = zlen sc /\
    forall n m, is_mode nmax mmax n m ->
      within (coef_tol_py eps ew nrows nmax n (samples_size_w eps ew nmax mmax B) (sample_tol_w eps ew nmax mmax B)) (vget cf0 sc' (pos nmax n m)) (cvalue (vget cf0 sc (pos nmax n m))).
Proof.
  intros delta at2 cosf sinf eps fft2 ifft2 fft ifft sum sc N M nrows ncols B HF He HS Hl HM HN Ls Hr HRN Hc Hc2 HB Hx ipw.
  destruct (C81_powers_of_interpreter delta at2 cosf sinf M) as [P0 P1]. fold ipw in P0, P1.
  destruct (Z_le_gt_dec M 100) as [H|H].
  - destruct (C80_round_trip_sizes eps 0 fft2 ifft2 fft ifft sum ipw sc N M nrows ncols B) as (ds & sc' & Q); auto; try lra.
    exists 0%R, ds, sc'. split; [left; split; [reflexivity|lia]|exact Q].
  - destruct Hl as [Hl|(HA & HT & Hd)]; [lia|].
    destruct (C80_round_trip_sizes eps (delta + / 2 ^ 41) fft2 ifft2 fft ifft sum ipw sc N M nrows ncols B) as (ds & sc' & Q); auto; try lra.
    + apply P1; auto; [lra|lia].
    + exists (delta + / 2 ^ 41)%R, ds, sc'. split; [right; reflexivity|exact Q].
Qed.
Print Assumptions C81_round_trip.

(** ** The hypotheses are met: the double nearest to pi/2, and cos and sin rounded to multiples of 2^-52 *)
Definition ex_at2 : f64 := S754_finite false 7074237752028440 (-52).
Lemma ex_at2_ok : half_pi_ok ex_at2.
Proof.
  assert (EV : value ex_at2 = (7074237752028440 / 4503599627370496)%R).
  { unfold ex_at2. cbn [SF2R cond_Zopp]. unfold F2R, Fnum, Fexp. change (bpow radix2 (-52)) with (/ IZR (2 ^ 52))%R. change (2 ^ 52) with 4503599627370496. field. }
  split; [vm_compute; reflexivity|]. split; [vm_compute; auto|]. rewrite EV. pose proof PI_bounds. apply Rabs_le. lra.
Qed.
Lemma trig_grid_to X : trig_accurate_to X (/ 2 ^ 51) cos_grid sin_grid.
Proof.
  intros x _ _ _. destruct (grid_ok (cos (value x)) (COS_bound _)) as (A & B & C). destruct (grid_ok (sin (value x)) (SIN_bound _)) as (D & E & F).
  unfold cos_grid, sin_grid. auto 10.
Qed.

(** i^-7 = i and i^-10 = -1 by multiplication, down to the signs of the zeros (Python prints -0+1j and -1-0j); i^514 = -1 by the library *)
Example C81_nonvacuous :
  py_ipow ex_at2 cos_grid sin_grid (-7) = Some (S754_zero true, fofZ 1) /\
  py_ipow ex_at2 cos_grid sin_grid (-10) = Some (fofZ (-1), S754_zero true) /\
  (exists z, py_ipow ex_at2 cos_grid sin_grid 514 = Some z /\ within (/ 2 ^ 51 + / 2 ^ 41) z (RtoC (-1))).
Proof.
  split; [vm_compute; reflexivity|]. split; [vm_compute; reflexivity|].
  destruct (C81_powers_library (/ 2 ^ 51) ex_at2 cos_grid sin_grid 514 ex_at2_ok (trig_grid_to 1700)) as (z & E & W); try lia; try lra.
  exists z. split; [exact E|]. now rewrite i_pow_eq, ipow_val in W.
Qed.
Example C81_round_trip_nonvacuous : exists ew ds sc', (ew = 0%R /\ 1 <= 100 \/ ew = (/ 2 ^ 51 + / 2 ^ 41)%R) /\
  fp_ispht ex_ifft2 (ipow_values ex_at2 cos_grid sin_grid) (vmake 7 (fun i => (fofZ i, fofZ 1))) 2 1 (Some 5) (Some 6) = Ok (8, 6, ds) /\
  fp_spht ex_fft2 (lsum cf0) (ipow_values ex_at2 cos_grid sin_grid) ex_fft ex_ifft 8 6 ds (Some 2) (Some 1) = Ok (2, 1, sc').
Proof.
  assert (S : forall k, 0 <= k < 7 -> value (fofZ k) = IZR k /\ value (fofZ 1) = 1%R /\ double (fofZ k) /\ finite (fofZ k) /\ double (fofZ 1) /\ finite (fofZ 1)).
  { intros k Hk. destruct (fofZ_small k) as (D1 & F1 & E1); [lia|]. destruct (fofZ_small 1) as (D2 & F2 & E2); [lia|]. auto 10 using fin_finite. }
  destruct (C81_round_trip (/ 2 ^ 51) ex_at2 cos_grid sin_grid (/ 2 ^ 51) ex_fft2 ex_ifft2 ex_fft ex_ifft (lsum cf0) (vmake 7 (fun i => (fofZ i, fofZ 1))) 2 1 5 6 8) as (ew & ds & sc' & Q & E & E' & _); try lia; try lra.
  - exact (conj ex_fft2_ok (conj ex_ifft2_ok (conj ex_fft_ok ex_ifft_ok))).
  - exact lsum_order.
  - reflexivity.
  - change (zlen (vmake 7 (fun i => (fofZ i, fofZ 1)))) with 7. intros i Hi. rewrite vget_vmake by auto. destruct (S i Hi) as (E1 & E2 & D1 & F1 & D2 & F2).
    unfold bounded. cbn [fst snd]. rewrite E1, E2, Rabs_R1. assert (0 <= IZR i <= 6)%R by (split; apply IZR_le; lia). rewrite Rabs_pos_eq by lra.
    split; [exact D1|]. split; [exact F1|]. split; [lra|]. split; [exact D2|]. split; [exact F2|lra].
  - exists ew, ds, sc'. split; [exact Q|]. split; [exact E|exact E'].
Qed.
