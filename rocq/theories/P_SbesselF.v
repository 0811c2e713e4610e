(** * P_SbesselF: C66, spherical Bessel functions in double precision. *)
From Coq Require Import ZArith List Bool SpecFloat Reals Lia Lra Psatz String.
From Flocq Require Import Core.Core IEEE754.BinarySingleNaN.
From Verif Require Import Py PyFacts Num FloatN FloatText FileFacts2 MPysphi MDouble FlFacts SeedFl SeedFl2 FlSigned MSbesselF SbesselFTerm SbesselFNan SbesselFRel SbesselFLoop SbesselFAcc SbesselFMain SbesselFY SbesselFFun.
From Verif Require Import CoefsFacts PysphiFacts SpecBessel Bessel.
Import ListNotations.
Open Scope R_scope.
#[local] Existing Instance FloatText.prec53.
#[local] Existing Instance FloatText.pe53.

(** ** Specification *)

(** A binary64 datum; the real number a finite one denotes. *)
Definition double (x : f64) : Prop := SpecFloat.valid_binary 53 1024 x = true.
Definition finite (x : f64) : Prop := match x with S754_finite _ _ _ | S754_zero _ => True | _ => False end.
Notation value := (SF2R radix2).
Notation "2^ k" := (bpow radix2 k) (at level 9, k at level 9).
(** A double within k units 2^-53 (relative) of a real number. *)
Definition within (k : R) (f : f64) (r : R) : Prop :=
  double f /\ finite f /\ Rabs (value f - r) <= k * 2^(-53) * Rabs r.
(** The double nearest to a real number (ties to even). *)
Definition nearest (f : f64) (r : R) : Prop :=
  double f /\ finite f /\ value f = round radix2 (FLT_exp (-1074) 53) ZnearestE r.
(** sbessel.py relies on sin, cos and x ** 2: each of them is within one unit in
    the last place (two units 2^-53). *)
Definition library_ok (sn cs sq : f64 -> f64) (x : f64) : Prop :=
  within 2 (sn x) (sin (value x)) /\ within 2 (cs x) (cos (value x)) /\ within 2 (sq x) (value x ^ 2).
(** each of them is the nearest double *)
Definition library_best (sn cs sq : f64 -> f64) (x : f64) : Prop :=
  nearest (sn x) (sin (value x)) /\ nearest (cs x) (cos (value x)) /\ nearest (sq x) (value x ^ 2).

(** ** Bridges *)
Lemma fin_iff x : finite x <-> fin x.
Proof. unfold fin. destruct x; cbn; split; try easy; intros; discriminate. Qed.
Lemma within_relf f r : 0 < r -> within 2 f r -> relf 2 f r.
Proof. intros P (D & F & E). apply fin_iff in F. split; [exact D|]. split; [exact F|]. split; [exact P|]. rewrite (Rabs_pos_eq r) in E by lra. exact E. Qed.
Lemma nth_vget_f (l : list f64) n : nth n l z0 = vget z0 l (Z.of_nat n).
Proof. unfold vget. destruct (Z.ltb_spec (Z.of_nat n) 0); [lia|]. now rewrite Nat2Z.id. Qed.
Lemma pos_of x : double x -> finite x -> 0 < value x -> fpos x.
Proof. intros D F P. apply fin_iff in F. apply pos_fpos; auto. Qed.
Lemma lib_rel sn cs sq x : 0 < value x <= 1 -> library_ok sn cs sq x ->
  relf 2 (sn x) (sin (value x)) /\ relf 2 (cs x) (cos (value x)) /\ relf 2 (sq x) (value x ^ 2).
Proof.
  intros H (A & B & C). split; [apply within_relf; auto|]. 
  - apply sin_gt_0; [lra|]. pose proof PI2_3_2. pose proof PI2_1. unfold PI2 in *. lra.
  - split; apply within_relf; auto; [|apply pow_lt; lra]. pose proof (cosX (value x) ltac:(lra) ltac:(lra)). lra.
Qed.
Lemma p400 : 0 < 2^(-400). Proof. apply bpow_gt_0. Qed.
Lemma pinv_read x N out n : pinv x (Z.of_nat N) (Z.of_nat N - 1) out -> (n < N)%nat -> 0 < sph_j n (value x) ->
  finite (nth n out z0) /\ Rabs (value (nth n out z0) - sph_j n (value x)) <= (11 * INR n + 60) * 2^(-53) * sph_j n (value x) + 2^(-1074).
Proof.
  intros (_ & H & _) Hn J. specialize (H (Z.of_nat n) ltac:(lia)). rewrite Nat2Z.id, <- nth_vget_f in H. rewrite <- INR_IZR_INZ in H. split; [apply fin_iff; apply H|].
  apply (jerr_weaken _ (11 * INR n + 60)) in H; [apply H|exact J|]. destruct (_ =? _)%Z; lra.
Qed.

(** ** sbesselj *)

(** For 2^-46 <= x <= 1 and all N up to 2^23, sbesselj returns N finite numbers,
    and entry n is j_n(x) to a relative error of (11n + 60) 2^-53, or to the
    smallest positive double where j_n(x) underflows.  20 passes of the while
    loop are enough. *)
Theorem C66_sbesselj_accurate : forall sn cs sq py x N fuel, double x -> finite x -> 2^(-46) <= value x <= 1 -> library_ok sn cs sq x ->
  (2 <= N)%nat -> (Z.of_nat N <= 2 ^ 23)%Z -> (20 <= fuel)%nat ->
  exists out, f_sbesselj sn cs sq py fuel x (Z.of_nat N) = Ok out /\ List.length out = N /\
    forall n, (n < N)%nat -> finite (nth n out z0) /\
      Rabs (value (nth n out z0) - sph_j n (value x)) <= (11 * INR n + 60) * 2^(-53) * sph_j n (value x) + 2^(-1074).
Proof.
  intros sn cs sq py x N fuel D F [H0 H1] L N2 NB Hf. pose proof (bpow_gt_0 radix2 (-46)) as B46. assert (B : 2^(-400) <= 2^(-46)) by (apply bpow_le; lia).
  pose proof (pos_of x D F ltac:(lra)) as Px. destruct (lib_rel _ _ _ _ (conj (Rlt_le_trans _ _ _ B46 H0) H1) L) as (Ls & Lc & Lz).
  destruct (sbesselj_main sn cs sq py x Px ltac:(lra) H1 Ls Lz (Z.of_nat N) ltac:(lia) fuel Hf) as (out & E & Hl & _ & [[_ P]|[T _]]).
  - exists out. split; [exact E|]. split; [unfold zlen in Hl; lia|]. intros n Hn. apply (pinv_read x N); auto. apply j_pos; lra.
  - rewrite (j1_test sn cs sq x Px ltac:(lra) H1 Ls Lc Lz H0) in T. discriminate.
Qed.
Print Assumptions C66_sbesselj_accurate.

(** Below 2^-46 the test |out[0]| >= |j1| compares with the difference of two
    large rounded numbers.  Either it comes out true, and the result is as
    accurate as above, or out[1] is that difference and wrong by more than
    twice the value of j_1(x). *)
Theorem C66_sbesselj_small : forall sn cs sq py x N fuel, double x -> finite x -> 2^(-400) <= value x <= 1 -> library_ok sn cs sq x ->
  (2 <= N)%nat -> (Z.of_nat N <= 2 ^ 23)%Z -> (20 <= fuel)%nat ->
  exists out, f_sbesselj sn cs sq py fuel x (Z.of_nat N) = Ok out /\ List.length out = N /\
    ((forall n, (n < N)%nat -> finite (nth n out z0) /\
        Rabs (value (nth n out z0) - sph_j n (value x)) <= (11 * INR n + 60) * 2^(-53) * sph_j n (value x) + 2^(-1074)) \/
     (value x < 2^(-46) /\ 83 / 100 <= Rabs (value (nth 1 out z0)) /\ 0 < sph_j 1 (value x) <= 2 / 5 * value x)).
Proof.
  intros sn cs sq py x N fuel D F [H0 H1] L N2 NB Hf. pose proof p400 as B4.
  pose proof (pos_of x D F ltac:(lra)) as Px. destruct (lib_rel _ _ _ _ (conj (Rlt_le_trans _ _ _ B4 H0) H1) L) as (Ls & Lc & Lz).
  destruct (sbesselj_main sn cs sq py x Px H0 H1 Ls Lz (Z.of_nat N) ltac:(lia) fuel Hf) as (out & E & Hl & _ & [[_ P]|[T G]]).
  - exists out. split; [exact E|]. split; [unfold zlen in Hl; lia|]. left. intros n Hn. apply (pinv_read x N); auto. apply j_pos; lra.
  - exists out. split; [exact E|]. split; [unfold zlen in Hl; lia|]. right. split; [|split].
    + destruct (Rlt_or_le (value x) (2^(-46))) as [A|A]; [exact A|]. rewrite (j1_test sn cs sq x Px H0 H1 Ls Lc Lz A) in T. discriminate.
    + rewrite nth_vget_f. change (Z.of_nat 1) with 1%Z. rewrite G. 
      destruct (j1_fin sn cs sq x Px H0 H1 Ls Lc Lz) as (Dj & Fj & _). destruct (SFabs_V _ Dj Fj) as (Da & Fa & Ea). destruct (o0_abs sn x Px H1 Ls) as (Do & Fo & Bo).
      rewrite (SFleb_V _ _ Da Do Fa Fo) in T. apply Rle_bool_false_inv in T || (destruct (Rle_bool_spec (value (SFabs (j1f sn cs sq x))) (value (SFabs (o0 sn x)))) as [Q|Q]; [discriminate|]). lra.
    + rewrite (j_S (value x)) by lra. pose proof (j0_bounds (value x) ltac:(lra) H1). pose proof (rh_pos (value x) ltac:(lra) H1 1 ltac:(lia)). pose proof (rh_bounds (value x) ltac:(lra) H1 1 ltac:(lia)) as [_ Rb]. cbn [INR] in Rb.
      replace (value x / (2 * 1 + 1 / 2)) with (2 / 5 * value x) in Rb by field. split; nra.
Qed.
Print Assumptions C66_sbesselj_small.

(** Correctly rounded library functions meet the hypothesis above. *)
Lemma best_within f r : 2^(-1000) <= Rabs r -> nearest f r -> within 2 f r.
Proof.
  intros H (D & F & E). split; [exact D|]. split; [exact F|]. rewrite E. pose proof (bpow_gt_0 radix2 (-53)). pose proof (Rabs_pos r).
  eapply Rle_trans; [apply rnd_rel_err; eapply Rle_trans; [|exact H]; apply bpow_le; lia|]. change uu with (2^(-53)). nra.
Qed.
Lemma best_ok sn cs sq x : 2^(-400) <= value x <= 1 -> library_best sn cs sq x -> library_ok sn cs sq x.
Proof.
  intros H (A & B & C). pose proof p400 as P4. pose proof (cosX (value x) ltac:(lra) ltac:(lra)) as Cb. pose proof (j0_bounds (value x) ltac:(lra) ltac:(lra)) as J. rewrite sph_j_0 in J by lra.
  assert (h : 2^(-401) = / 2 * 2^(-400)) by (change (/ 2) with (bpow radix2 (-1)); rewrite <- bpow_plus; reflexivity).
  assert (S : 2^(-401) <= sin (value x)).
  { assert (5 / 6 * value x <= sin (value x)); [|lra]. replace (sin (value x)) with (sin (value x) / value x * value x) by (field; lra). apply Rmult_le_compat_r; lra. }
  assert (b1 : 2^(-1000) <= 2^(-401)) by (apply bpow_le; lia). assert (b2 : 2^(-1000) <= / 2) by (change (/ 2) with (bpow radix2 (-1)); apply bpow_le; lia).
  assert (Q : 2^(-1000) <= value x ^ 2). { apply Rle_trans with (2^(-400) * 2^(-400)); [rewrite <- bpow_plus; apply bpow_le; lia|]. cbn [pow]. rewrite Rmult_1_r. apply Rmult_le_compat; lra. }
  pose proof (bpow_gt_0 radix2 (-401)). assert (0 <= value x ^ 2) by (apply pow_le; lra).
  split; [|split]; (apply best_within; [rewrite Rabs_pos_eq; lra|assumption]).
Qed.
Lemma rnd_at m e y : (2 ^ 52 < m < 2 ^ 53)%Z -> (-1000 <= e <= 900)%Z -> Rabs (y * bpow radix2 (- e) - IZR m) < / 2 -> rnd y = IZR m * bpow radix2 e.
Proof.
  intros Hm He H. apply Rabs_lt_inv in H. assert (M1 : IZR (2 ^ 52) + 1 <= IZR m <= IZR (2 ^ 53) - 1) by (split; [rewrite <- plus_IZR|rewrite <- minus_IZR]; apply IZR_le; lia).
  pose proof (bpow_gt_0 radix2 e) as Pe. assert (I : bpow radix2 (- e) * bpow radix2 e = 1) by (rewrite <- bpow_plus; replace (- e + e)%Z with 0%Z by lia; reflexivity).
  assert (Ey : y = y * bpow radix2 (- e) * bpow radix2 e) by (rewrite Rmult_assoc, I; ring).
  assert (Mg : (mag radix2 y : Z) = (e + 53)%Z).
  { apply mag_unique. replace (e + 53 - 1)%Z with (52 + e)%Z by lia. rewrite (Z.add_comm e), !bpow_plus. change (bpow radix2 52) with (IZR (2 ^ 52)). change (bpow radix2 53) with (IZR (2 ^ 53)).
    assert (0 < IZR (2 ^ 52)) by (apply IZR_lt; reflexivity). rewrite Ey, Rabs_mult, (Rabs_pos_eq (bpow radix2 e)) by lra. rewrite (Rabs_pos_eq (y * bpow radix2 (- e))) by lra.
    split; [apply Rmult_le_compat_r; lra|apply Rmult_lt_compat_r; lra]. }
  assert (Ec : cexp radix2 fx y = e) by (unfold cexp; rewrite Mg; unfold fx, FLT_exp; lia).
  unfold round, scaled_mantissa. rewrite Ec. unfold F2R. cbn [Fnum Fexp]. rewrite (Znearest_imp _ _ m); [reflexivity|]. apply Rabs_lt. lra.
Qed.

Lemma sin_low t : 0 < t <= 1 -> t - t * (t * t) / 6 <= sin t.
Proof.
  intros H. pose proof (sin_bound t 0) as S. pose proof PI2_3_2 as P2. specialize (S ltac:(lra) ltac:(lra)). unfold sin_approx, sin_term in S. cbn in S. lra.
Qed.
Lemma cos_low t : 0 < t <= 1 -> 1 - t * t / 2 <= cos t.
Proof.
  intros H. pose proof PI2_3_2 as P2. pose proof (cos_bound t 0 ltac:(lra) ltac:(lra)) as C. unfold cos_approx, cos_term in C. cbn in C. lra.
Qed.

(** the double 1e-18 *)
Definition x1e18 : f64 := S754_finite false 5192296858534828 (-112).
Lemma x1e18_V : value x1e18 = IZR 5192296858534828 * 2^(-112). Proof. reflexivity. Qed.
Lemma x1e18_num : value x1e18 = 5192296858534828 / 5192296858534827628530496329220096.
Proof. rewrite x1e18_V. cbn. lra. Qed.
(** With the best possible sin, cos and square, sbesselj(1e-18, N)[1] is 128;
    the true value is below 1e-18. *)
Theorem C66_sbesselj_garbage : nearest x1e18 (/ 10 ^ 18) /\
  forall sn cs sq py N fuel, library_best sn cs sq x1e18 -> (2 <= N)%nat -> (Z.of_nat N <= 2 ^ 23)%Z -> (20 <= fuel)%nat ->
  exists out, f_sbesselj sn cs sq py fuel x1e18 (Z.of_nat N) = Ok out /\
    value (nth 1 out z0) = 128 /\ 0 < sph_j 1 (value x1e18) < / 10 ^ 18.
Proof.
  pose proof x1e18_num as X. assert (I112 : bpow radix2 (- (-112)) = 5192296858534827628530496329220096) by (cbn; lra).
  split.
  { split; [reflexivity|]. split; [exact I|]. symmetry. rewrite x1e18_V. apply rnd_at; [lia|lia|]. rewrite I112. apply Rabs_lt. lra. }
  intros sn cs sq py N fuel L N2 NB Hf.
  assert (R1 : 2^(-400) <= value x1e18 <= 1). { split; [|rewrite X; lra]. apply Rle_trans with (2^(-60)); [apply bpow_le; lia|]. rewrite X. cbn. lra. }
  assert (Dx : double x1e18) by reflexivity. pose proof p400 as P4. pose proof (pos_of x1e18 Dx I ltac:(lra)) as Px.
  pose proof (best_ok _ _ _ _ R1 L) as L2. destruct (lib_rel _ _ _ _ (conj (Rlt_le_trans _ _ _ P4 (proj1 R1)) (proj2 R1)) L2) as (Ls & Lc & Lz).
  destruct L as ((Ds & Fs & Es) & (Dc & Fc & Ec) & (Dq & Fq & Eq)).
  assert (S3 : value x1e18 - value x1e18 * (value x1e18 * value x1e18) / 6 <= sin (value x1e18) <= value x1e18).
  { split; [|left; apply sin_lt_x; lra]. apply sin_low; lra. }
  assert (EQs : sn x1e18 = x1e18).
  { apply fpos_inj; [|exact Px|].
    - apply pos_of; auto. pose proof (rel_bounds 2 _ _ ltac:(lra) (proj2 (proj2 Ls))). destruct Ls as (_ & _ & (Sp & _)). lra.
    - rewrite Es. clear - S3 X I112. set (s := sin (value x1e18)) in *. clearbody s. rewrite X in S3. rewrite x1e18_V. apply rnd_at; [lia|lia|]. rewrite I112. apply Rabs_lt. lra. }
  assert (EQc : cs x1e18 = fofZ 1).
  { destruct one_spec as (D1 & F1 & E1). apply fpos_inj; [apply pos_of; auto|apply pos_fpos; auto; lra|].
    - pose proof (rel_bounds 2 _ _ ltac:(lra) (proj2 (proj2 Lc))). destruct Lc as (_ & _ & (Sp & _)). lra.
    - rewrite Ec, E1. apply rnd_near_1. pose proof (COS_bound (value x1e18)) as [_ C1]. pose proof (cos_low (value x1e18) ltac:(lra)) as C. rewrite X in C at 1 2.
      assert (bpow radix2 (-55) = / 36028797018963968) by (cbn; lra). apply Rabs_le. lra. }
  assert (EQq : sq x1e18 = fmul x1e18 x1e18).
  { pose proof (fmul_rnd x1e18 x1e18 Dx Dx eq_refl eq_refl) as R. destruct (is_rnd_fin _ _ R) as [F' E'].
    - apply rnd_lt. rewrite Rabs_pos_eq by nra. apply Rle_trans with 1; [nra|]. change 1 with (bpow radix2 0). apply bpow_le; lia.
    - apply fpos_inj; [apply pos_of; auto| |].
      + pose proof (rel_bounds 2 _ _ ltac:(lra) (proj2 (proj2 Lz))). destruct Lz as (_ & _ & (Sp & _)). lra.
      + eexists _, _. split; [vm_compute; reflexivity|]. reflexivity.
      + rewrite Eq, E'. f_equal. ring. }
  assert (J : j1f sn cs sq x1e18 = S754_finite false 4503599627370496 (-45)) by (unfold j1f; rewrite EQs, EQc, EQq; vm_compute; reflexivity).
  assert (O : o0 sn x1e18 = fofZ 1) by (unfold o0; rewrite EQs; vm_compute; reflexivity).
  destruct (sbesselj_main sn cs sq py x1e18 Px (proj1 R1) (proj2 R1) Ls Lz (Z.of_nat N) ltac:(lia) fuel Hf) as (out & E & _ & _ & [[T _]|[_ G]]).
  - rewrite J, O in T. vm_compute in T. discriminate.
  - exists out. split; [exact E|]. split.
    + rewrite nth_vget_f. change (Z.of_nat 1) with 1%Z. rewrite G, J. unfold SF2R, F2R. cbn [cond_Zopp Fnum Fexp]. replace (bpow radix2 (-45)) with (/ 35184372088832) by (cbn; lra). lra.
    + rewrite (j_S (value x1e18)) by lra. pose proof (j0_bounds (value x1e18) ltac:(lra) (proj2 R1)) as J0. pose proof (rh_pos (value x1e18) ltac:(lra) (proj2 R1) 1 ltac:(lia)). pose proof (rh_bounds (value x1e18) ltac:(lra) (proj2 R1) 1 ltac:(lia)) as [_ Rb]. cbn [INR] in Rb.
      replace (value x1e18 / (2 * 1 + 1 / 2)) with (2 / 5 * value x1e18) in Rb by field. set (r := rh (value x1e18) 1) in *. set (j := sph_j 0 (value x1e18)) in *. clearbody r j. rewrite X in Rb.
      split; [apply Rmult_lt_0_compat; lra|]. apply Rle_lt_trans with (r * 1); [apply Rmult_le_compat_l; lra|lra].
Qed.
Print Assumptions C66_sbesselj_garbage.

(** For every double x (zero, infinite or NaN too) whose square is less than
    2^938, and every N >= 2, sbesselj comes to an end, after at most
    K - N + 4 passes of the while loop, K = 2^30 sqrt(x^2 + 1).  The only
    errors are ZeroDivisionError and OverflowError (in x ** 2), both for Python
    floats only. *)
Theorem C66_sbesselj_terminates : forall sn cs sq py x N K fuel, double (sq x) -> (2 <= N)%nat -> (Z.of_nat N <= 2 ^ 500)%Z -> (1 <= K <= 2 ^ 500)%Z ->
  (finite (sq x) -> 2^60 * (Rabs (value (sq x)) + 1) <= IZR (K ^ 2)) -> (K - Z.of_nat N + 4 <= Z.of_nat fuel)%Z -> (3 <= fuel)%nat ->
  (exists out, f_sbesselj sn cs sq py fuel x (Z.of_nat N) = Ok out /\ List.length out = N) \/
  (py = true /\ f_sbesselj sn cs sq py fuel x (Z.of_nat N) = Raise ZeroDivisionError) \/
  (py = true /\ f_sbesselj sn cs sq py fuel x (Z.of_nat N) = Raise (PlainException "OverflowError") /\ is_inf (sq x) = true /\ is_inf x = false).
Proof.
  intros sn cs sq py x N K fuel D N2 NB HK HZ HF HF3. destruct (xsq sq py x) as [z|e] eqn:EX.
  - assert (z = sq x) as -> by (unfold xsq in EX; destruct (py && _); congruence).
    destruct (sbesselj_tres sn cs sq py fuel x (Z.of_nat N) K D ltac:(lia) HK) as [(o & E & L)|[H1 H2]]; [intros F; apply HZ; now apply fin_iff|lia|exact EX| |].
    + left. exists o. split; [exact E|]. unfold zlen in L. lia.
    + right. left. auto.
  - right. right. unfold xsq in EX. destruct py; cbn [andb] in EX; [|discriminate]. destruct (is_inf (sq x)) eqn:I1; cbn [andb] in EX; [|discriminate].
    destruct (is_inf x) eqn:I2; cbn [negb] in EX; [discriminate|]. split; [reflexivity|]. split; [|auto]. unfold f_sbesselj. rewrite np_zeros_ok by lia. cbn [bind]. unfold xsq. rewrite I1, I2. reflexivity.
Qed.
Print Assumptions C66_sbesselj_terminates.

(** ** sbessely *)

(** For 2^-400 <= x <= 1, entry n of sbessely is y_n(x) to a relative error of
    (7n + 4) 2^-53 as long as y_n(x) does not exceed 2^1000. *)
Theorem C66_sbessely_accurate : forall sn cs sq py x N, double x -> finite x -> 2^(-400) <= value x <= 1 -> library_ok sn cs sq x -> (2 <= N)%nat ->
  exists out, f_sbessely sn cs sq py x (Z.of_nat N) = Ok out /\ List.length out = N /\
    forall n, (n < N)%nat -> Rabs (sph_y n (value x)) <= 2^1000 -> finite (nth n out z0) /\
      Rabs (value (nth n out z0) - sph_y n (value x)) <= (7 * INR n + 4) * 2^(-53) * Rabs (sph_y n (value x)).
Proof.
  intros sn cs sq py x N D F [H0 H1] L N2. pose proof p400 as B4.
  pose proof (pos_of x D F ltac:(lra)) as Px. destruct (lib_rel _ _ _ _ (conj (Rlt_le_trans _ _ _ B4 H0) H1) L) as (Ls & Lc & Lz).
  destruct (sbessely_acc sn cs sq py x Px H0 H1 Ls Lc Lz (Z.of_nat N) ltac:(lia)) as (out & E & Hl & H).
  exists out. split; [exact E|]. split; [unfold zlen in Hl; lia|]. intros n Hn B. specialize (H (Z.of_nat n) ltac:(lia)). rewrite Nat2Z.id, <- nth_vget_f in H.
  pose proof (ty_grow (value x) ltac:(lra) H1 n) as (G & _). unfold ty in *. assert (A : Rabs (sph_y n (value x)) = - sph_y n (value x)) by (rewrite Rabs_left1; lra).
  rewrite A in *. destruct (H B) as (Dn & Fn & (_ & R)). split; [apply fin_iff; exact Fn|]. set (y := sph_y n (value x)) in *.
  replace (value (nth n out z0) - y) with (- (- value (nth n out z0) - - y)) by ring. rewrite Rabs_Ropp. eapply Rle_trans; [exact R|]. change uu with (2^(-53)).
  apply Rmult_le_compat_r; [lra|]. apply Rmult_le_compat_r; [apply bpow_ge_0|]. pose proof (pos_INR n). destruct n as [|[|n]]; cbn [KY]; try lra. cbn [INR]. lra.
Qed.
Print Assumptions C66_sbessely_accurate.

(** What the next theorems need of the library: cos(x) in [1/2, 1], sin(x) in
    [0, x], x**2 in [0, x], and +0 if it underflows. *)
Definition library_fair (sn cs sq : f64 -> f64) (x : f64) : Prop :=
  (double (cs x) /\ finite (cs x) /\ / 2 <= value (cs x) <= 1) /\ (double (sn x) /\ finite (sn x) /\ 0 <= value (sn x) <= value x) /\
  (double (sq x) /\ finite (sq x) /\ 0 <= value (sq x) <= value x) /\ sq x <> S754_zero true.

(** For every double 0 < x <= 1 (however small): from n = 152 on the entries of
    sbessely are minus infinity or NaN, and from n = 154 on all are NaN. *)
Theorem C66_sbessely_nan : forall sn cs sq py x N, double x -> finite x -> 0 < value x <= 1 -> library_fair sn cs sq x -> (2 <= N)%nat -> (Z.of_nat N <= 2 ^ 50)%Z ->
  exists out, f_sbessely sn cs sq py x (Z.of_nat N) = Ok out /\ List.length out = N /\
    (forall n, (152 <= n < N)%nat -> nth n out z0 = S754_infinity true \/ nth n out z0 = S754_nan) /\
    (forall n, (154 <= n < N)%nat -> nth n out z0 = S754_nan).
Proof.
  intros sn cs sq py x N D F H ((Dc & Fc & Bc) & (Ds & Fs & Bs) & (Dz & Fz & Bz) & Z) N2 NB. apply fin_iff in Fc, Fs, Fz.
  destruct (sbessely_inv sn cs sq py x (pos_of x D F ltac:(lra)) (proj2 H) (conj Dc (conj Fc Bc)) (conj Ds (conj Fs Bs))) with (N := Z.of_nat N) as (out & E & (L & _ & B & _ & C)); [|lia|].
  - split; [exact Dz|]. split; [exact Fz|]. split; [exact Bz|]. intros Iz. destruct (sq x) as [[|]| | |]; try discriminate Iz; [now contradiction Z|reflexivity].
  - exists out. split; [exact E|]. split; [unfold zlen in L; lia|]. split; intros n Hn; rewrite nth_vget_f; [apply B|apply C]; lia.
Qed.
Print Assumptions C66_sbessely_nan.

(** ** Hankel functions *)

(** For every double x: where y_n came out finite, sbesselh1[n] = j_n + i y_n and
    sbesselh2[n] = j_n - i y_n exactly, part by part; where it came out infinite
    the real part is lost (NaN); where it came out NaN both parts are. *)
Theorem C66_hankel : forall sn cs sq py x N fuel js ys, double x -> double (sn x) -> double (cs x) -> double (sq x) ->
  f_sbesselj sn cs sq py fuel x N = Ok js -> f_sbessely sn cs sq py x N = Ok ys ->
  exists h1 h2, f_sbesselh1 sn cs sq py fuel x N = Ok h1 /\ f_sbesselh2 sn cs sq py fuel x N = Ok h2 /\ List.length h1 = Z.to_nat N /\ List.length h2 = Z.to_nat N /\
    forall n, (Z.of_nat n < N)%Z -> let j := nth n js z0 in let y := nth n ys z0 in let a := nth n h1 cf0 in let b := nth n h2 cf0 in
      (finite y -> (finite j -> finite (fst a) /\ value (fst a) = value j /\ finite (fst b) /\ value (fst b) = value j) /\
                   finite (snd a) /\ value (snd a) = value y /\ finite (snd b) /\ value (snd b) = - value y) /\
      (forall s, y = S754_infinity s -> a = (S754_nan, S754_infinity s) /\ b = (S754_nan, S754_infinity (negb s))) /\
      (y = S754_nan -> a = (S754_nan, S754_nan) /\ b = (S754_nan, S754_nan)).
Proof.
  intros sn cs sq py x N fuel js ys Dx Ds Dc Dq Ej Ey. destruct (sbesselj_dbl sn cs sq py x Dx Ds Dc Dq _ _ _ Ej) as [Aj Lj]. destruct (sbessely_dbl sn cs sq py x Dx Ds Dc Dq _ _ Ey) as [Ay Ly].
  exists (zip_with hk1 js ys), (zip_with hk2 js ys). unfold f_sbesselh1, f_sbesselh2. rewrite Ej, Ey. cbn [bind]. unfold np_broadcast. rewrite Lj, Ly, Z.eqb_refl.
  unfold zlen in Lj, Ly. split; [reflexivity|]. split; [reflexivity|]. split; [rewrite zip_len; lia|]. split; [rewrite zip_len; lia|].
  intros n Hn. cbv zeta. rewrite !(zip_nth _ z0 z0) by lia. set (j := nth n js z0). set (y := nth n ys z0).
  assert (Dj : double j) by (apply (proj1 (Forall_forall _ _) Aj); apply nth_In; lia).
  assert (Dy : double y) by (apply (proj1 (Forall_forall _ _) Ay); apply nth_In; lia). clearbody j y.
  split; [|split].
  - intros Fy. apply fin_iff in Fy. destruct (hk_fin j y Dy Fy) as (A & (B1 & B2) & (C1 & C2)). apply fin_iff in B1, C1. split; [|auto]. intros Fj. apply fin_iff in Fj. destruct (A Dj Fj) as [[A1 A2] [A3 A4]]. apply fin_iff in A1, A3. auto.
  - intros s ->. apply hk_inf.
  - intros ->. apply hk_nan.
Qed.
Print Assumptions C66_hankel.

(** For every double 0 < x <= 1: from n = 152 on the real parts of both Hankel
    functions are NaN (although j_n(x) is an ordinary number), from n = 154 on
    both parts are. *)
Theorem C66_hankel_nan : forall sn cs sq py x N fuel h1 h2, double x -> finite x -> 0 < value x <= 1 -> library_fair sn cs sq x -> (2 <= N)%nat -> (Z.of_nat N <= 2 ^ 50)%Z ->
  f_sbesselh1 sn cs sq py fuel x (Z.of_nat N) = Ok h1 -> f_sbesselh2 sn cs sq py fuel x (Z.of_nat N) = Ok h2 ->
  (forall n, (152 <= n < N)%nat -> fst (nth n h1 cf0) = S754_nan /\ fst (nth n h2 cf0) = S754_nan) /\
  (forall n, (154 <= n < N)%nat -> nth n h1 cf0 = (S754_nan, S754_nan) /\ nth n h2 cf0 = (S754_nan, S754_nan)).
Proof.
  intros sn cs sq py x N fuel h1 h2 D F H L N2 NB E1 E2. destruct (C66_sbessely_nan sn cs sq py x N D F H L N2 NB) as (ys & Ey & _ & B & C).
  assert (exists js, f_sbesselj sn cs sq py fuel x (Z.of_nat N) = Ok js) as [js Ej] by (unfold f_sbesselh1 in E1; apply bind_Ok in E1 as (js & Ej & _); eauto).
  destruct L as ((Dc & _) & (Ds & _) & (Dz & _) & _). destruct (C66_hankel _ _ _ _ _ _ _ _ _ D Ds Dc Dz Ej Ey) as (h1' & h2' & E1' & E2' & _ & _ & P).
  assert (h1' = h1) by congruence. assert (h2' = h2) by congruence. subst h1' h2'. split; intros n Hn; destruct (P n ltac:(lia)) as (_ & P2 & P3).
  - destruct (B n Hn) as [Y|Y]; [destruct (P2 _ Y) as [-> ->]|destruct (P3 Y) as [-> ->]]; auto.
  - apply P3. apply C. exact Hn.
Qed.
Print Assumptions C66_hankel_nan.

(** ** The hypotheses can be met *)
Definition best_sin (x : f64) : f64 := fround (sin (value x)).
Definition best_cos (x : f64) : f64 := fround (cos (value x)).
Definition best_sq (x : f64) : f64 := fround (value x ^ 2).
Lemma fround_spec y : Rabs y <= 1 -> nearest (fround y) y.
Proof.
  intros H. pose proof (fround_rnd y) as R. destruct (is_rnd_fin _ _ R) as [F E].
  - apply rnd_lt. eapply Rle_trans; [exact H|]. change 1 with (2^0). apply bpow_le; lia.
  - split; [exact (is_rnd_dbl _ _ R)|]. split; [now apply fin_iff|exact E].
Qed.
Lemma fround_pos y : Rabs y <= 1 -> fround y <> S754_zero true.
Proof.
  intros H E. destruct (fround_spec y H) as (_ & _ & V0). rewrite E in V0. cbn [SF2R] in V0. unfold fround in E. rewrite <- V0 in E.
  unfold scaled_mantissa in E. rewrite Rmult_0_l, Ztrunc_IZR in E. cbn in E. discriminate.
Qed.
(** The best possible library functions meet all the hypotheses, for every x. *)
Example C66_library_exists : forall x, double x -> finite x -> 0 < value x <= 1 ->
  library_best best_sin best_cos best_sq x /\ library_fair best_sin best_cos best_sq x /\
  (2^(-400) <= value x -> library_ok best_sin best_cos best_sq x).
Proof.
  intros x D F H. pose proof (cosX (value x) ltac:(lra) ltac:(lra)) as C. pose proof (sin_lt_x (value x) ltac:(lra)) as S1.
  assert (S0 : 0 < sin (value x)) by (apply sin_gt_0; [lra|]; pose proof PI2_3_2; unfold PI2 in *; lra).
  assert (Q : 0 <= value x ^ 2 <= value x) by (cbn [pow]; nra).
  assert (L : library_best best_sin best_cos best_sq x) by (split; [|split]; apply fround_spec; rewrite Rabs_pos_eq; lra).
  apply fin_iff in F as F'. pose proof (fin_fmt x D F') as Gx.
  assert (Rx : rnd (value x) = value x) by (apply round_generic; auto with typeclass_instances).
  split; [exact L|]. split; [|intros B; apply best_ok; auto; lra]. destruct L as ((D1 & F1 & E1) & (D2 & F2 & E2) & (D3 & F3 & E3)).
  assert (M : forall a b, a <= b -> rnd a <= rnd b) by (intros; apply round_le; auto with typeclass_instances).
  assert (h : rnd (/ 2) = / 2) by (apply round_generic; auto with typeclass_instances; change (/ 2) with (bpow radix2 (-1)); apply fmt_bpow; lia).
  assert (o : rnd 1 = 1) by (apply round_generic; auto with typeclass_instances; change 1 with (bpow radix2 0); apply fmt_bpow; lia).
  split; [|split; [|split]].
  - split; [exact D2|]. split; [exact F2|]. rewrite E2. split; [rewrite <- h|rewrite <- o]; apply M; lra.
  - split; [exact D1|]. split; [exact F1|]. rewrite E1. split; [apply rnd_ge_0; lra|rewrite <- Rx at 2; apply M; lra].
  - split; [exact D3|]. split; [exact F3|]. rewrite E3. split; [apply rnd_ge_0; lra|rewrite <- Rx at 2; apply M; lra].
  - apply fround_pos. rewrite Rabs_pos_eq; lra.
Qed.
(** x = 1/2, N = 200: j is accurate, y is accurate at n = 1, both Hankel arrays exist and their last real parts are NaN. *)
Definition half : f64 := S754_finite false 4503599627370496 (-53).
Example C66_nonvacuous : exists js ys h1 h2,
  f_sbesselj best_sin best_cos best_sq true 20 half 200 = Ok js /\ f_sbessely best_sin best_cos best_sq true half 200 = Ok ys /\
  f_sbesselh1 best_sin best_cos best_sq true 20 half 200 = Ok h1 /\ f_sbesselh2 best_sin best_cos best_sq true 20 half 200 = Ok h2 /\
  Rabs (value (nth 1 js z0) - sph_j 1 (/ 2)) <= / 10 ^ 14 /\ fst (nth 199 h1 cf0) = S754_nan /\ snd (nth 199 h2 cf0) = S754_nan.
Proof.
  assert (Vh : value half = / 2) by (unfold half, SF2R, F2R; cbn [cond_Zopp Fnum Fexp]; replace (bpow radix2 (-53)) with (/ 9007199254740992) by (cbn; lra); lra).
  assert (D : double half) by reflexivity. assert (R : 2^(-46) <= value half <= 1). { rewrite Vh. split; [|lra]. change (/ 2) with (2^(-1)). apply bpow_le; lia. }
  pose proof (bpow_gt_0 radix2 (-46)). assert (R4 : 2^(-400) <= 2^(-46)) by (apply bpow_le; lia). destruct (C66_library_exists half D I ltac:(lra)) as (L1 & L2 & L3). specialize (L3 ltac:(lra)).
  destruct (C66_sbesselj_accurate _ _ _ true half 200 20 D I R L3 ltac:(lia) ltac:(cbn; lia) ltac:(lia)) as (js & Ej & _ & Aj). change (Z.of_nat 200) with 200%Z in Ej.
  destruct (C66_sbessely_nan _ _ _ true half 200 D I ltac:(lra) L2 ltac:(lia) ltac:(cbn; lia)) as (ys & Ey & _). change (Z.of_nat 200) with 200%Z in Ey.
  destruct L2 as ((Dc & G2) & (Ds & G3) & (Dz & G4) & G5). destruct (C66_hankel _ _ _ _ _ _ _ _ _ D Ds Dc Dz Ej Ey) as (h1 & h2 & E1 & E2 & _).
  assert (L2 : library_fair best_sin best_cos best_sq half) by (split; [|split; [|split]]; auto).
  destruct (C66_hankel_nan _ _ _ _ half 200 20 h1 h2 D I ltac:(lra) L2 ltac:(lia) ltac:(cbn; lia) E1 E2) as (N1 & N2).
  exists js, ys, h1, h2. split; [exact Ej|]. split; [exact Ey|]. split; [exact E1|]. split; [exact E2|]. split; [|split; [apply N1; lia|destruct (N2 199%nat ltac:(lia)) as [_ ->]; reflexivity]].
  destruct (Aj 1%nat ltac:(lia)) as [_ B]. rewrite Vh in B. eapply Rle_trans; [exact B|]. pose proof (j_pos (/ 2) ltac:(lra) ltac:(lra) 1) as J.
  change (2^(-53)) with uu. rewrite uu_val. pose proof dmin_small as [_ d]. cbn [INR]. lra.
Qed.
