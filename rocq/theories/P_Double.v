(** * P_Double: C65, the range of degrees in double precision. *)
From Coq Require Import ZArith List Bool SpecFloat Reals Lia Lra Psatz Permutation.
From Coquelicot Require Import Coquelicot.
From Flocq Require Import Core.Core IEEE754.BinarySingleNaN.
From Verif Require Import Py PyFacts Num FloatN MCoefs CoefsFacts Sums Harm Dft MPysphi PysphiFacts TransFacts2 SpecHarm HarmFacts
  SpecInt Integ Integ2 MKiss KissFacts MCsphi CsphiFacts MDouble FlFacts SeedReal SeedFl SeedFl2 DoubleFacts TableEq.
Import ListNotations.
Open Scope Z_scope.

(** ** Specification *)

(** y_k, -n <= k <= n, are the Fourier coefficients in theta of the textbook
    harmonic Y_n^m, up to the factor i^m e^(i m phi). *)
Definition harm_fourier (n m : Z) (y : Z -> R) : Prop :=
  forall theta phi, sph_harm n m theta phi =
    (e_i (IZR m * (phi + PI / 2)) * sumC (- n) (n + 1) (fun k => RtoC (y k) * e_i (IZR k * theta)))%C.

(** The real number a finite double denotes. *)
Notation value := (SF2R radix2).
Definition finite (x : f64) : Prop := match x with S754_finite _ _ _ | S754_zero _ => True | _ => False end.
(** A complex double both parts of which are NaN. *)
Definition both_nan (x : cf) : Prop := x = (S754_nan, S754_nan).

(** ** The exact leading coefficient *)
Lemma ipow_cis m : ipow m = cisR (IZR m * (PI / 2)).
Proof.
  assert (S : forall z, cisR (IZR (z + 1) * (PI / 2)) = (cisR (IZR z * (PI / 2)) * Ci)%C).
  { intros z. rewrite plus_IZR. replace ((IZR z + 1) * (PI / 2))%R with (IZR z * (PI / 2) + PI / 2)%R by ring.
    rewrite cisR_add. f_equal. unfold cisR. rewrite cos_PI2, sin_PI2. reflexivity. }
  revert m. apply Z.bi_induction.
  - intros x y ->. reflexivity.
  - rewrite Rmult_0_l. unfold cisR. rewrite cos_0, sin_0. reflexivity.
  - intros m. unfold Z.succ. rewrite ipow_S, S. split; [intros E; rewrite E; reflexivity|].
    intros E. assert (Q : (Ci * - Ci)%C = RtoC 1) by (apply injective_projections; cbn; ring).
    transitivity (ipow m * Ci * - Ci)%C; [rewrite <- Cmult_assoc, Q; ring|]. rewrite E, <- Cmult_assoc, Q. ring.
Qed.
Lemma harm_fourier_Yt n m : Z.abs m <= n -> harm_fourier n m (Yt n m).
Proof.
  intros H theta phi. rewrite <- Yc_sph_harm by auto. unfold Yc. rewrite ipow_cis, <- cisR_add.
  change e_i with cisR. f_equal. f_equal. ring.
Qed.
Lemma harm_fourier_unique n m y y' : Z.abs m <= n -> harm_fourier n m y -> harm_fourier n m y' -> forall k, Z.abs k <= n -> y k = y' k.
Proof.
  intros Hm H H' k Hk.
  pose (a := fun (y : Z -> R) (q : Z) (k : Z) => if q =? 0 then RtoC (y k) else RtoC 0).
  assert (T : forall y t p, trig_poly n 0 (a y) t p = sumC (- n) (n + 1) (fun k => RtoC (y k) * e_i (IZR k * t))%C).
  { intros z t p. unfold trig_poly. rewrite (sumC_single _ _ 0) by (intros; lia). apply sumC_ext. intros j _. unfold a. rewrite Z.eqb_refl.
    rewrite Rmult_0_l. unfold e_i at 2. rewrite cos_0, sin_0. apply injective_projections; cbn; ring. }
  assert (E : a y 0 k = a y' 0 k).
  { apply (trig_poly_inj n 0 (a y) (a y')); try lia. intros t p. rewrite !T.
    assert (Q : (e_i (IZR m * (p + PI / 2)) * sumC (- n) (n + 1) (fun k => RtoC (y k) * e_i (IZR k * t)) =
                 e_i (IZR m * (p + PI / 2)) * sumC (- n) (n + 1) (fun k => RtoC (y' k) * e_i (IZR k * t)))%C) by (rewrite <- H, <- H'; reflexivity).
    set (w := e_i (IZR m * (p + PI / 2))) in *.
    assert (W : (cisR (- (IZR m * (p + PI / 2))) * w)%C = RtoC 1).
    { unfold w. change e_i with cisR. rewrite <- cisR_add. replace (_ + _)%R with 0%R by ring. unfold cisR. rewrite cos_0, sin_0. reflexivity. }
    transitivity (cisR (- (IZR m * (p + PI / 2))) * (w * sumC (- n) (n + 1) (fun k => RtoC (y k) * e_i (IZR k * t))))%C.
    - rewrite Cmult_assoc, W. now rewrite Cmult_1_l.
    - rewrite Q, Cmult_assoc, W. now rewrite Cmult_1_l. }
  unfold a in E. rewrite Z.eqb_refl in E. exact (f_equal fst E).
Qed.
Lemma lead n m y : Z.abs m <= n -> harm_fourier n m y -> y n = ynnm n m.
Proof.
  intros H Hy. rewrite ynnm_eq by auto. apply (harm_fourier_unique n m); auto; [apply harm_fourier_Yt; auto|lia].
Qed.

Lemma fpos_finite x : fpos x -> finite x.
Proof. intros (q & e & -> & _). exact I. Qed.

(** ** Theorems *)

(** Both implementations compute the same doubles (degrees below 2^25), whatever
    the C work array contained. *)
Theorem C65_same_table : forall n m L work, 0 <= n < L -> n < 2 ^ 25 -> zlen work = L ->
  exists t, f_ynunm n m L = Ok t /\ fc_ynunm n m work L = Ok t /\ zlen t = L.
Proof.
  intros n m L work H Hn Lw. destruct (f_ynunm_spec n m L H) as (t & E & Lt & _). exists t.
  rewrite table_eq by (auto; lia). auto.
Qed.
Print Assumptions C65_same_table.

(** Up to degree 1022 the entry the recurrence starts from is accurate. *)
Theorem C65_accurate : forall n m L y, Z.abs m <= n -> n <= 1022 -> n < L -> harm_fourier n m y ->
  exists t, f_ynunm n m L = Ok t /\ finite (vget (fofZ 0) t n) /\
    (Rabs (value (vget (fofZ 0) t n) - y n) <= IZR (6 * n - 3 * Z.abs m + 4) / 2 ^ 53 * y n)%R.
Proof.
  intros n m L y Hm Hn HL Hy. rewrite (lead n m y) by auto.
  destruct (f_ynunm_spec n m L ltac:(lia)) as (t & E & Lt & Vn & _). exists t. split; auto. rewrite Vn by auto.
  destruct (seed_accurate n m Hm Hn) as (P & B). split; [now apply fpos_finite|].
  replace (IZR (6 * n - 3 * Z.abs m + 4) / 2 ^ 53)%R with (IZR (6 * n - 3 * Z.abs m + 4) * uu)%R; [exact B|].
  rewrite uu_val. field_simplify; [|lra..]. lra.
Qed.
Print Assumptions C65_accurate.

(** From degree 1076 on it is not: too large by a factor of at least
    2 * 1.99^(n - 1076), or infinite. *)
Theorem C65_wrong_from_1076 : forall n m L y, 1076 <= n <= 2 ^ 30 -> Z.abs m <= n -> n < L -> harm_fourier n m y ->
  exists t, f_ynunm n m L = Ok t /\
    (vget (fofZ 0) t n = S754_infinity false \/
     (2 * (199 / 100) ^ Z.to_nat (n - 1076) * y n <= value (vget (fofZ 0) t n))%R) /\ (0 < y n)%R.
Proof.
  intros n m L y Hn Hm HL Hy. rewrite (lead n m y) by auto.
  destruct (f_ynunm_spec n m L ltac:(lia)) as (t & E & Lt & Vn & _). exists t. split; auto. rewrite Vn by auto.
  split; [|apply ynnm_pos; auto]. destruct (seed_wrong n m Hn Hm) as [I|[_ B]]; auto.
Qed.
Print Assumptions C65_wrong_from_1076.

(** Order 0, from degree 2110 on: the table starts from infinity and is NaN from
    index n - 4 down. *)
Theorem C65_table_nan : forall n L, 2110 <= n < 2 ^ 25 -> n < L ->
  exists t, f_ynunm n 0 L = Ok t /\ vget (fofZ 0) t n = S754_infinity false /\
    forall k, 0 <= k <= n - 4 -> (n - k) mod 2 = 0 -> vget (fofZ 0) t k = S754_nan.
Proof.
  intros n L Hn HL. destruct (f_ynunm_spec n 0 L ltac:(lia)) as (t & E & Lt & Vn & Tn). exists t. split; auto.
  rewrite Vn by (cbn; lia). rewrite seed_inf by lia. split; [reflexivity|]. exact (Tn eq_refl Hn).
Qed.
Print Assumptions C65_table_nan.

(** spht: the coefficients (n, 0), n >= 2110 (position n of the coefficient
    vector), are NaN for every pattern: [hk m] is whatever the FFTs gave for
    column m, [sum] any summation routine, [ipw] any values of 1j**m. *)
Theorem C65_spht_nan : forall sum ipw hk nmax mmax, (forall l, sums l (sum l)) -> 0 <= mmax <= nmax -> nmax < 2 ^ 25 ->
  (forall m, Z.abs m <= mmax -> zlen (hk m) = nmax + 1) ->
  exists c, f_fc_to_sc sum ipw hk nmax mmax = Ok c /\ forall n, 2110 <= n <= nmax -> both_nan (vget cf0 c n).
Proof.
  intros sum ipw hk nmax mmax HS HM HN Hh. destruct (f_fc_to_sc_spec sum ipw hk nmax mmax HS HM HN Hh) as (c & E & _ & V).
  exists c. split; [exact E|]. exact V.
Qed.
Print Assumptions C65_spht_nan.
Theorem C65_spht_nan_c : forall hk junkr junki sc nmax mmax, 0 <= mmax <= nmax -> nmax < 2 ^ 25 ->
  (forall m, Z.abs m <= mmax -> zlen (hk m) = nmax + 1) -> zlen sc = ncoef nmax mmax ->
  exists c, fc_fc_to_sc hk junkr junki sc nmax mmax = Ok c /\ zlen c = zlen sc /\ forall n, 2110 <= n <= nmax -> both_nan (vget cf0 c n).
Proof.
  intros hk junkr junki sc nmax mmax HM HN Hh Ls. exact (fc_fc_to_sc_spec hk junkr junki sc nmax mmax HM HN Hh Ls).
Qed.
Print Assumptions C65_spht_nan_c.

(** ispht: the column of order 0 handed to the inverse FFT is NaN in the rows
    k <= nmax - 5, for every coefficient set (even all zeros) with nmax >= 2111. *)
Theorem C65_ispht_nan : forall w vec nmax nrows, 2111 <= nmax < 2 ^ 25 -> 2 * nmax + 2 <= nrows -> nmax + 1 <= zlen vec ->
  exists F, f_fcvec_m_sc w vec 0 nmax nrows = Ok F /\ zlen F = nrows /\
    forall k, 0 <= k <= nmax - 5 -> both_nan (vget cf0 F k).
Proof. exact f_fcvec_spec. Qed.
Print Assumptions C65_ispht_nan.
Theorem C65_ispht_nan_c : forall sc off nmax nrow ncol col len fdata y, 2111 <= nmax < 2 ^ 25 -> 2 * nmax + 2 <= nrow -> nmax < len ->
  0 <= col < ncol -> zlen fdata = nrow * ncol -> zlen y = len -> 0 <= off -> off + nmax + 1 <= zlen sc ->
  exists fd y', fc_fcvec_m_sc sc off 0 nmax nrow ncol col len (fdata, y) = Ok (fd, y') /\ zlen fd = nrow * ncol /\
    forall k, 0 <= k <= nmax - 5 -> both_nan (vget cf0 fd (k * ncol + col)).
Proof.
  intros sc off nmax nrow ncol col len fdata y H1 H2 H3 H4 H5 H6 H7 H8.
  destruct (fc_fcvec_spec sc off nmax nrow ncol col len fdata y) as (fd & y' & E & L1 & _ & V); auto.
  exists fd, y'. split; auto. split; [lia|exact V].
Qed.
Print Assumptions C65_ispht_nan_c.

(** ** The hypotheses are met *)
Example C65_fourier_nonvacuous : harm_fourier 1022 5 (Yt 1022 5) /\ (Yt 1022 5 1022 > 0)%R.
Proof.
  split; [apply harm_fourier_Yt; lia|]. rewrite <- ynnm_eq by lia. apply ynnm_pos. lia.
Qed.
(** a summation routine in the sense of [sums]: left to right *)
Fixpoint lsum (acc : cf) (l : list cf) : cf := match l with [] => acc | x :: l => lsum (cfadd acc x) l end.
Example C65_sums_nonvacuous : exists sum, forall l, sums l (sum l).
Proof.
  exists (lsum cf0).
  assert (H : forall l pre acc, sums pre acc -> sums (pre ++ l) (lsum acc l)).
  { induction l as [|x l IH]; intros pre acc Hp; cbn [lsum]; [now rewrite app_nil_r|].
    replace (pre ++ x :: l) with ((pre ++ [x]) ++ l) by (rewrite <- app_assoc; reflexivity).
    apply IH. apply (sums_add pre [x] (pre ++ [x]) acc x); auto. apply sums_one. }
  intros l. exact (H l [] cf0 sums_nil).
Qed.
(** degree 3, order 1: the table in doubles, computed *)
Example C65_table_3_1 : exists t, f_ynunm 3 1 4 = Ok t /\ fc_ynunm 3 1 (repeat S754_nan 4) 4 = Ok t /\
  map (fun x => SFltb (fofZ 0) x) t = [false; true; false; true].
Proof. eexists. split; [vm_compute; reflexivity|]. split; vm_compute; reflexivity. Qed.
