(** * SeedFl2: accuracy of the computed leading coefficient up to degree 1022,
    and its failure from degree 1076 on. *)
From Coq Require Import ZArith List Bool SpecFloat Reals Lia Lra Psatz.
From Flocq Require Import Core.Core IEEE754.BinarySingleNaN.
From Flocq Require Import Relative.
From Verif Require Import Py PyFacts Num FloatN FloatText FileFacts2 MCint CintFacts2 Harm MPysphi PysphiFacts MDouble FlFacts SeedReal SeedFl.
Import ListNotations.
Open Scope Z_scope.
#[local] Existing Instance FloatText.prec53.
#[local] Existing Instance FloatText.pe53.

Lemma wpow_bernoulli K : (1 - INR K * uu <= ww ^ K)%R.
Proof.
  induction K as [|K IH]; [cbn; lra|]. rewrite S_INR. cbn [pow]. pose proof ww_bounds as W. pose proof (pos_INR K) as P.
  assert (U : (0 < uu)%R) by (rewrite uu_val; lra). unfold ww in *. nra.
Qed.

Lemma aR_lt1 : (aR < 1 / 3)%R.
Proof.
  unfold aR. pose proof PI_bounds as [B1 B2].
  assert (S3 : (3 < sqrt (4 * PI))%R) by (rewrite <- (sqrt_square 3) by lra; apply sqrt_lt_1_alt; lra).
  unfold Rdiv. apply Rmult_lt_compat_l; [lra|]. apply Rinv_lt_contravar; lra.
Qed.

Lemma seed_approx n k : 0 <= k <= n -> n <= 1022 ->
  approx (3 + 3 * Z.to_nat n + 3 * Z.to_nat (n - k)) (f_ynnm n k) (ynnm n k) /\ (tiny <= V (f_ynnm n k))%R.
Proof.
  intros [H1 H2] Hn. assert (E : exists j, 0 <= j <= n /\ k = n - j) by (exists (n - k); lia). destruct E as (j & [Hj1 Hj2] & ->). clear H1 H2.
  replace (n - (n - j)) with j by lia.
  revert j Hj1 Hj2. apply (natlike_ind (fun j => j <= n -> approx (3 + 3 * Z.to_nat n + 3 * Z.to_nat j) (f_ynnm n (n - j)) (ynnm n (n - j)) /\ (tiny <= V (f_ynnm n (n - j)))%R)).
  - intros Hj. rewrite Z.sub_0_r. split.
    + replace (3 + 3 * Z.to_nat n + 3 * Z.to_nat 0)%nat with (3 + 3 * Z.to_nat n)%nat by lia. apply top_approx. lia.
    + pose proof (top_anti n 1022 ltac:(lia) ltac:(lia) ltac:(lia)). pose proof top_1022_tiny. lra.
  - intros j Hj IH H. unfold Z.succ in *. destruct (IH ltac:(lia)) as [A T].
    set (k := n - (j + 1)). replace (n - j) with (k + 1) in * by (unfold k; lia).
    destruct (f_t_spec n k ltac:(unfold k; lia) ltac:(lia)) as (B & [T1 T2] & _).
    rewrite f_ynnm_step, ynnm_step by (unfold k; lia).
    assert (U : (V (f_ynnm n (k + 1)) <= 1)%R).
    { destruct A as (_ & _ & _ & U). pose proof (ynnm_le_a n (k + 1) ltac:(unfold k; lia)) as Y. pose proof aR_lt1 as A1.
      set (K := (3 + 3 * Z.to_nat n + 3 * Z.to_nat j)%nat) in *. pose proof (wpow_bernoulli K) as W.
      assert (KB : (INR K <= 10000)%R). { rewrite INR_IZR_INZ. apply IZR_le. unfold K. lia. }
      pose proof (fpos_gt (f_ynnm n (k + 1))) as G. rewrite uu_val in W. 
      assert (W2 : (1 / 2 <= ww ^ K)%R) by lra.
      destruct (Rle_or_lt (V (f_ynnm n (k + 1))) 1) as [L|L]; auto. exfalso. nra. }
    assert (LO : (tiny <= V (f_ynnm n (k + 1)) * V (f_t n k))%R).
    { pose proof (fpos_gt _ (proj1 A)). nra. }
    destruct (approx_mul _ _ _ _ _ _ A B) as [Z E].
    + split; auto. pose proof big_big as T3. change (IZR (2 ^ 100)) with 1267650600228229401496703205376%R in T3.
      change (IZR (2 ^ 31)) with 2147483648%R in T2. pose proof (fpos_gt _ (proj1 A)). nra.
    + split.
      * replace (3 + 3 * Z.to_nat n + 3 * Z.to_nat (j + 1))%nat with (S (3 + 3 * Z.to_nat n + 3 * Z.to_nat j + 2)) by lia. exact Z.
      * rewrite E. apply rnd_ge; auto. apply fmt_bpow. lia.
Qed.

Lemma seed_accurate n m : Z.abs m <= n -> n <= 1022 ->
  fpos (f_ynnm n m) /\ (Rabs (V (f_ynnm n m) - ynnm n m) <= IZR (6 * n - 3 * Z.abs m + 4) * uu * ynnm n m)%R.
Proof.
  intros H Hn. rewrite <- f_ynnm_abs, <- ynnm_abs.
  destruct (seed_approx n (Z.abs m) ltac:(lia) Hn) as [(P & R0 & R1 & R2) _]. split; auto.
  set (K := (3 + 3 * Z.to_nat n + 3 * Z.to_nat (n - Z.abs m))%nat) in *.
  replace (6 * n - 3 * Z.abs m + 4) with (Z.of_nat K + 1) by (unfold K; lia). rewrite plus_IZR, <- INR_IZR_INZ.
  pose proof (wpow_bernoulli K) as W.
  assert (KB : (INR K <= 10000)%R). { rewrite INR_IZR_INZ. apply IZR_le. unfold K. lia. }
  pose proof (pos_INR K) as K0. pose proof (fpos_gt _ P) as G. set (x := V (f_ynnm n (Z.abs m))) in *. set (r := ynnm n (Z.abs m)) in *.
  assert (U : (0 < uu /\ uu * 100010000 <= 1)%R) by (rewrite uu_val; lra). destruct U as [U0 U1].
  set (q := INR K) in *. set (u := uu) in *.
  apply Rabs_le. split.
  - assert (r * (1 - q * u) <= x)%R by (eapply Rle_trans; [apply Rmult_le_compat_l; [lra|exact W]|exact R1]). nra.
  - assert (B : (x * (1 - q * u) <= r)%R) by (eapply Rle_trans; [apply Rmult_le_compat_l; [lra|exact W]|exact R2]).
    assert (C : (1 <= (1 - q * u) * (1 + (q + 1) * u))%R).
    { replace ((1 - q * u) * (1 + (q + 1) * u))%R with (1 + u * (1 - q * (q + 1) * u))%R by ring.
      assert (q * (q + 1) <= 100010000)%R by nra. assert (q * (q + 1) * u <= 1)%R by nra. nra. }
    assert (D : (x <= x * ((1 - q * u) * (1 + (q + 1) * u)))%R) by nra.
    assert (E : (x * (1 - q * u) * (1 + (q + 1) * u) <= r * (1 + (q + 1) * u))%R) by (apply Rmult_le_compat_r; nra).
    lra.
Qed.

(** ** From degree 1075 on the first loop has lost the value *)
Lemma top_stuck n : 1075 <= n <= 2 ^ 30 -> f_ynnm n n = fmin.
Proof.
  intros [H1 H2]. replace n with (1075 + (n - 1075)) in * by lia. assert (H : 0 <= n - 1075) by lia. revert H H2. generalize (n - 1075). clear n H1.
  apply (natlike_ind (fun j => 1075 + j <= 2 ^ 30 -> f_ynnm (1075 + j) (1075 + j) = fmin)).
  - intros _. exact top_1075.
  - intros j Hj IH H. replace (1075 + Z.succ j) with (1075 + j + 1) in * by lia. rewrite f_top_step by lia. rewrite IH by lia.
    destruct fmin_pos as [P E]. destruct (shrink_step fmin (1075 + j + 1) P ltac:(lia)) as (P1 & E1 & _).
    apply fpos_inj; auto. rewrite E1, E. destruct (f_s_spec (1075 + j + 1) ltac:(lia)) as (_ & [S1 S2] & _).
    apply rnd_min. split; [apply half_eps_gt; auto|]. pose proof (bpow_gt_0 radix2 (-1074)). nra.
Qed.

Lemma ymm4 j : (ymm j ^ 4 * 16 ^ j <= aR ^ 4 * ((4 * INR j + 3) / 3))%R.
Proof.
  pose proof aR_pos as Pa. induction j as [|j IH].
  - cbn [INR]. change (ymm 0) with aR. right. field.
  - assert (E : (ymm (S j) ^ 4 * 16 ^ S j = ymm j ^ 4 * 16 ^ j * ((2 * INR j + 3) / (2 * (INR j + 1))) ^ 2)%R).
    { replace (ymm (S j) ^ 4)%R with ((ymm (S j) ^ 2) ^ 2)%R by ring. rewrite ymm_sq_S. pose proof (pos_INR j).
      cbn [pow]. field. lra. }
    rewrite E, S_INR. pose proof (pos_INR j) as Pj. set (J := INR j) in *.
    eapply Rle_trans; [apply Rmult_le_compat_r; [apply pow2_ge_0|exact IH]|].
    rewrite Rmult_assoc. apply Rmult_le_compat_l; [apply pow_le; lra|].
    apply Rmult_le_reg_r with (3 * (2 * (J + 1)) ^ 2)%R; [nra|].
    replace ((4 * J + 3) / 3 * ((2 * J + 3) / (2 * (J + 1))) ^ 2 * (3 * (2 * (J + 1)) ^ 2))%R with ((4 * J + 3) * (2 * J + 3) ^ 2)%R by (field; lra).
    replace ((4 * (J + 1) + 3) / 3 * (3 * (2 * (J + 1)) ^ 2))%R with ((4 * (J + 1) + 3) * (2 * (J + 1)) ^ 2)%R by field. nra.
Qed.

Lemma aR4 : (aR ^ 4 <= / 157)%R.
Proof.
  unfold aR. pose proof PI_bounds as [B1 B2]. assert (P : (0 < 4 * PI)%R) by lra. pose proof (sqrt_lt_R0 _ P) as S.
  assert (E : ((1 / sqrt (4 * PI)) ^ 4 = / (4 * PI * (4 * PI)))%R).
  { pose proof (sqrt_sqrt (4 * PI) ltac:(lra)) as Q. set (z := sqrt (4 * PI)) in *. rewrite <- Q. field. lra. }
  rewrite E. apply Rinv_le; [lra|]. nra.
Qed.

Lemma top_small n : 1076 <= n -> (ynnm n n * (199 / 100) ^ Z.to_nat (n - 1076) <= 48 / 100 * dmin)%R.
Proof.
  intros H. rewrite ynnm_top by lia. replace (Z.to_nat n) with (1076 + Z.to_nat (n - 1076))%nat by lia.
  generalize (Z.to_nat (n - 1076)). clear n H. intros j. induction j as [|j IH].
  - rewrite Nat.add_0_r. cbn [pow]. rewrite Rmult_1_r.
    pose proof (ymm4 1076) as Y. pose proof aR4 as A. pose proof (ymm_pos 1076) as P.
    replace (INR 1076) with 1076%R in Y by (rewrite INR_IZR_INZ; reflexivity).
    set (y := ymm 1076) in *. clearbody y.
    assert (B : (dmin * 2 ^ 1076 = 4)%R).
    { replace (2 ^ 1076)%R with (bpow radix2 1076).
      - rewrite <- bpow_plus. reflexivity.
      - change 1076%nat with (Z.to_nat 1076) || replace 1076%nat with (Z.to_nat 1076) by reflexivity. rewrite <- (pow_IZR 2) || idtac.
        rewrite pow_powerRZ || idtac. symmetry. change 2%R with (IZR radix2). rewrite <- (bpow_powerRZ radix2). reflexivity. }
    destruct (Rle_or_lt y (48 / 100 * dmin)) as [L|L]; auto. exfalso.
    assert (L4 : ((48 / 100 * dmin) ^ 4 <= y ^ 4)%R). { apply pow_incr. split; [pose proof (bpow_gt_0 radix2 (-1074)); lra|lra]. }
    assert (P16 : (0 < 16 ^ 1076)%R) by (apply pow_lt; lra).
    assert (E16 : (16 ^ 1076 = (2 ^ 1076) ^ 4)%R). { rewrite <- pow_mult, Nat.mul_comm, pow_mult. f_equal. ring. }
    assert (M : ((48 / 100 * dmin) ^ 4 * 16 ^ 1076 <= aR ^ 4 * ((4 * 1076 + 3) / 3))%R).
    { eapply Rle_trans; [apply Rmult_le_compat_r; [lra|exact L4]|exact Y]. }
    rewrite E16 in M. replace ((48 / 100 * dmin) ^ 4 * (2 ^ 1076) ^ 4)%R with ((48 / 100 * (dmin * 2 ^ 1076)) ^ 4)%R in M by ring.
    rewrite B in M. lra.
  - replace (1076 + S j)%nat with (S (1076 + j)) by lia. cbn [ymm]. set (N := (1076 + j)%nat) in *. 
    set (s := sqrt ((2 * INR (S N) + 1) / 8 / INR (S N))).
    assert (NB : (1000 <= INR (S N))%R). { rewrite INR_IZR_INZ. apply IZR_le. unfold N. lia. }
    assert (S1 : (s * (199 / 100) <= 1)%R).
    { assert (s <= 100 / 199)%R; [|lra]. unfold s. rewrite <- (sqrt_square (100 / 199)) by lra. apply sqrt_le_1_alt.
      replace ((2 * INR (S N) + 1) / 8 / INR (S N))%R with (1 / 4 + / (8 * INR (S N)))%R by (field; lra).
      assert (/ (8 * INR (S N)) <= / 8000)%R by (apply Rinv_le; lra). lra. }
    eapply Rle_trans; [|exact IH]. cbn [pow].
    replace (ymm N * s * (199 / 100 * (199 / 100) ^ j))%R with (ymm N * (199 / 100) ^ j * (s * (199 / 100)))%R by ring.
    rewrite <- Rmult_1_r. apply Rmult_le_compat_l; auto. apply Rmult_le_pos; [apply Rlt_le, ymm_pos|apply pow_le; lra].
Qed.

(** Rounding loses at most half of the least double plus a relative 2^-53. *)
Lemma rnd_low y : (0 <= y)%R -> (y * ww - dmin / 2 <= rnd y)%R.
Proof.
  intros H. destruct (error_N_FLT radix2 (-1074) 53 ltac:(lia) (fun n => negb (Z.even n)) y) as (eps & eta & E1 & E2 & _ & E).
  change (Znearest (fun n => negb (Z.even n))) with ZnearestE in E. rewrite E.
  change (bpow radix2 (Z.opp 53 + 1)) with (/ 4503599627370496)%R in E1.
  apply Rabs_le_inv in E1. apply Rabs_le_inv in E2. unfold ww. rewrite uu_val. nra.
Qed.

Lemma ww3 : (1 - 3 * uu <= ww * ww * ww)%R.
Proof. unfold ww. rewrite uu_val. lra. Qed.

(** The products of the second loop, relative to its start *)
Lemma loop2_growth n : 1076 <= n -> forall j, 0 <= j < n ->
  let D := (ynnm n (n - (j + 1)) / ynnm n n)%R in
  (j = 0 -> (40 <= D)%R) /\ (j = 1 -> (1000 <= D)%R) /\ (2 <= j -> (30 * IZR n <= D)%R).
Proof.
  intros Hn j Hj D.
  assert (NB : (1076 <= IZR n)%R) by (apply IZR_le; lia).
  pose proof (ynnm_pos n n ltac:(lia)) as P0. set (y0 := ynnm n n) in *.
  assert (G1 : (ynnm n (n - 1) = y0 * sqrt (2 * IZR n))%R).
  { rewrite (ynnm_step n (n - 1)) by lia. replace (n - 1 + 1) with n by lia. fold y0. f_equal. f_equal. rewrite minus_IZR. field. lra. }
  assert (G2 : (ynnm n (n - 2) = y0 * (sqrt (2 * IZR n) * sqrt ((2 * IZR n - 1) / 2)))%R).
  { rewrite (ynnm_step n (n - 2)) by lia. replace (n - 2 + 1) with (n - 1) by lia. rewrite G1, Rmult_assoc. f_equal. f_equal. f_equal. rewrite minus_IZR. field. lra. }
  assert (G3 : (ynnm n (n - 3) = y0 * (sqrt (2 * IZR n) * sqrt ((2 * IZR n - 1) / 2) * sqrt ((2 * IZR n - 2) / 3)))%R).
  { rewrite (ynnm_step n (n - 3)) by lia. replace (n - 3 + 1) with (n - 2) by lia. rewrite G2, Rmult_assoc. f_equal. f_equal. f_equal. rewrite minus_IZR. field. lra. }
  assert (S1 : (40 <= sqrt (2 * IZR n))%R) by (rewrite <- (sqrt_square 40) by lra; apply sqrt_le_1_alt; lra).
  assert (S2 : (30 <= sqrt ((2 * IZR n - 1) / 2))%R) by (rewrite <- (sqrt_square 30) by lra; apply sqrt_le_1_alt; lra).
  assert (M : forall i, 3 <= i <= n -> (ynnm n (n - 3) <= ynnm n (n - i))%R).
  { intros i [Hi1 Hi2]. replace i with (3 + (i - 3)) in * by lia. assert (H : 0 <= i - 3) by lia. revert H Hi2. generalize (i - 3). clear i Hi1.
    apply (natlike_ind (fun i => 3 + i <= n -> (ynnm n (n - 3) <= ynnm n (n - (3 + i)))%R)).
    - intros _. rewrite Z.add_0_r. lra.
    - intros i Hi IH H. eapply Rle_trans; [apply IH; lia|]. 
      replace (n - (3 + i)) with (n - (3 + Z.succ i) + 1) by lia. apply ynnm_mono. lia. }
  split; [|split]; intros Ej.
  - subst j. unfold D. replace (n - (0 + 1)) with (n - 1) by lia. rewrite G1. replace (y0 * sqrt (2 * IZR n) / y0)%R with (sqrt (2 * IZR n)) by (field; lra). lra.
  - subst j. unfold D. replace (n - (1 + 1)) with (n - 2) by lia. rewrite G2.
    replace (y0 * (sqrt (2 * IZR n) * sqrt ((2 * IZR n - 1) / 2)) / y0)%R with (sqrt (2 * IZR n) * sqrt ((2 * IZR n - 1) / 2))%R by (field; lra). nra.
  - specialize (M (j + 1) ltac:(lia)). unfold D. apply Rle_trans with (ynnm n (n - 3) / y0)%R.
    + rewrite G3. replace (y0 * (sqrt (2 * IZR n) * sqrt ((2 * IZR n - 1) / 2) * sqrt ((2 * IZR n - 2) / 3)) / y0)%R
        with (sqrt (2 * IZR n) * sqrt ((2 * IZR n - 1) / 2) * sqrt ((2 * IZR n - 2) / 3))%R by (field; lra).
      rewrite <- !sqrt_mult_alt by (try lra; nra). rewrite <- (sqrt_square (30 * IZR n)) by lra. apply sqrt_le_1_alt. 
      replace (2 * IZR n * ((2 * IZR n - 1) / 2) * ((2 * IZR n - 2) / 3))%R with (IZR n * ((2 * IZR n - 1) * (2 * IZR n - 2) / 3))%R by field.
      replace (30 * IZR n * (30 * IZR n))%R with (IZR n * (900 * IZR n))%R by ring.
      apply Rmult_le_compat_l; [lra|]. nra.
    + unfold Rdiv. apply Rmult_le_compat_r; [apply Rlt_le, Rinv_0_lt_compat; auto|exact M].
Qed.

Definition sg (n j : Z) : R :=
  (IZR j / (30 * IZR n) + (if 1 <=? j then 1 / 40 else 0) + (if 2 <=? j then 1 / 1000 else 0))%R.

Lemma loop2_low n j : 1076 <= n <= 2 ^ 30 -> 0 <= j <= n ->
  f_ynnm n (n - j) = S754_infinity false \/
  fpos (f_ynnm n (n - j)) /\
  (dmin * (1 - 3 * IZR j * uu - sg n j / 2) * (ynnm n (n - j) / ynnm n n) <= V (f_ynnm n (n - j)))%R.
Proof.
  intros Hn [Hj1 Hj2]. revert j Hj1 Hj2.
  assert (NB : (1076 <= IZR n)%R) by (apply IZR_le; lia).
  pose proof (ynnm_pos n n ltac:(lia)) as P0.
  apply (natlike_ind (fun j => j <= n -> f_ynnm n (n - j) = S754_infinity false \/ fpos (f_ynnm n (n - j)) /\
    (dmin * (1 - 3 * IZR j * uu - sg n j / 2) * (ynnm n (n - j) / ynnm n n) <= V (f_ynnm n (n - j)))%R)).
  - intros _. right. rewrite Z.sub_0_r, top_stuck by lia. destruct fmin_pos as [P E]. split; auto. rewrite E.
    unfold sg. cbn [Z.leb Z.compare]. replace (dmin * (1 - 3 * 0 * uu - (0 / (30 * IZR n) + 0 + 0) / 2) * (ynnm n n / ynnm n n))%R with dmin by (field; lra). lra.
  - intros j Hj IH H. unfold Z.succ in *. 
    set (k := n - (j + 1)). assert (Ek : n - j = k + 1) by (unfold k; lia). rewrite Ek in IH. specialize (IH ltac:(lia)).
    rewrite f_ynnm_step by (unfold k; lia).
    destruct (f_t_spec n k ltac:(unfold k; lia) ltac:(lia)) as ((PT & T0 & T3 & _) & [T1 T2] & _).
    destruct IH as [IH|[PX IH]].
    + left. rewrite IH. destruct PT as (mt & et & -> & _). reflexivity.
    + pose proof (fpos_gt _ PX) as GX.
      set (x := V (f_ynnm n (k + 1))) in *. set (t := V (f_t n k)) in *.
      assert (LX : (dmin <= x)%R) by (apply fpos_ge_min; auto).
      pose proof (bpow_gt_0 radix2 (-1074)) as D0.
      destruct (Rle_or_lt maxb (rnd (x * t))) as [OV|OK].
      { left. apply fmul_ovf; auto. }
      right. destruct (fmul_pos _ _ PX PT) as [PZ EZ].
      { split; auto. fold x t. apply Rlt_le_trans with dmin; [lra|]. apply rnd_ge; [apply fmt_bpow; lia|nra]. }
      split; auto. rewrite EZ. fold x t.
      eapply Rle_trans; [|apply rnd_low; nra].
      pose proof (ynnm_step n k ltac:(unfold k; lia)) as YS. rewrite YS. set (s := sqrt ((IZR n + IZR k + 1) / (IZR n - IZR k))) in *.
      pose proof (loop2_growth n ltac:(lia) j ltac:(lia)) as LG. cbv zeta in LG. fold k in LG. rewrite YS in LG.
      pose proof (ynnm_pos n (k + 1) ltac:(unfold k; lia)) as PK.
      set (y0 := ynnm n n) in *. set (y1 := ynnm n (k + 1)) in *. set (D1 := (y1 / y0)%R) in *.
      replace (y1 * s / y0)%R with (D1 * s)%R in * by (unfold D1; field; lra).
      assert (DP : (0 < D1)%R) by (apply Rdiv_lt_0_compat; auto).
      set (D2 := (D1 * s)%R) in *. assert (DP2 : (0 < D2)%R) by (unfold D2; nra).
      assert (SG : (sg n (j + 1) - sg n j >= / D2)%R).
      { unfold sg. rewrite plus_IZR. destruct LG as (L1 & L2 & L3).
        assert (I30 : (0 < / (30 * IZR n))%R) by (apply Rinv_0_lt_compat; lra).
        replace ((IZR j + 1) / (30 * IZR n))%R with (IZR j / (30 * IZR n) + / (30 * IZR n))%R by (field; lra).
        destruct (Z.eq_dec j 0) as [->|J0]; [|destruct (Z.eq_dec j 1) as [->|J1]].
        - specialize (L1 eq_refl). cbn [Z.add Z.leb Z.compare Pos.compare Pos.compare_cont]. assert (/ D2 <= / 40)%R by (apply Rinv_le; lra). lra.
        - specialize (L2 eq_refl). change (1 + 1) with 2. cbn [Z.add Z.leb Z.compare Pos.compare Pos.compare_cont]. assert (/ D2 <= / 1000)%R by (apply Rinv_le; lra). lra.
        - specialize (L3 ltac:(lia)). destruct (Z.leb_spec 1 j); [|lia]. destruct (Z.leb_spec 2 j); [|lia].
          destruct (Z.leb_spec 1 (j + 1)); [|lia]. destruct (Z.leb_spec 2 (j + 1)); [|lia].
          assert (/ D2 <= / (30 * IZR n))%R by (apply Rinv_le; lra). lra. }
      rewrite plus_IZR.
      assert (XT : (x * s * (1 - 3 * uu) <= x * t * ww)%R).
      { cbn [pow] in T3. rewrite Rmult_1_r in T3. pose proof ww3 as W3. pose proof ww_bounds as W.
        apply Rle_trans with (x * (s * (ww * ww)) * ww)%R.
        - replace (x * (s * (ww * ww)) * ww)%R with (x * s * (ww * ww * ww))%R by ring. apply Rmult_le_compat_l; [nra|lra].
        - apply Rmult_le_compat_r; [lra|]. apply Rmult_le_compat_l; lra. }
      set (b := (1 - 3 * IZR j * uu - sg n j / 2)%R) in *.
      assert (U : (0 < uu /\ 3 * uu < 1)%R) by (rewrite uu_val; lra).
      assert (B1 : (b <= 1)%R).
      { unfold b. assert (0 <= IZR j)%R by (apply IZR_le; lia). assert (0 <= sg n j)%R.
        { unfold sg. assert (0 <= IZR j / (30 * IZR n))%R by (apply Rmult_le_pos; [lra|apply Rlt_le, Rinv_0_lt_compat; lra]).
          destruct (1 <=? j), (2 <=? j); lra. }
        nra. }
      replace (1 - 3 * (IZR j + 1) * uu - sg n (j + 1) / 2)%R with (b - 3 * uu - (sg n (j + 1) - sg n j) / 2)%R by (unfold b; field).
      assert (H1 : (dmin * b * D2 <= x * s)%R).
      { unfold D2. replace (dmin * b * (D1 * s))%R with (dmin * b * D1 * s)%R by ring. apply Rmult_le_compat_r; lra. }
      assert (H2 : (/ D2 * D2 = 1)%R) by (apply Rinv_l; lra).
      set (g := (sg n (j + 1) - sg n j)%R) in *.
      assert (H3 : (dmin * D2 * (g / 2) >= dmin / 2)%R).
      { assert (1 <= D2 * g)%R by nra. nra. }
      assert (H4 : (dmin * D2 * (3 * uu) >= dmin * b * D2 * (3 * uu))%R).
      { assert (PD : (0 < dmin * D2)%R) by (apply Rmult_lt_0_compat; lra). clear - PD B1 U. set (c := (dmin * D2)%R) in *.
        replace (dmin * b * D2)%R with (c * b)%R by (unfold c; ring). apply Rle_ge. apply Rmult_le_compat_r; [lra|]. nra. }
      assert (H5 : (dmin * b * D2 * (1 - 3 * uu) <= x * s * (1 - 3 * uu))%R) by (apply Rmult_le_compat_r; lra).
      clear - XT H3 H4 H5. lra.
Qed.

Lemma seed_wrong n m : 1076 <= n <= 2 ^ 30 -> Z.abs m <= n ->
  f_ynnm n m = S754_infinity false \/
  fpos (f_ynnm n m) /\ (2 * (199 / 100) ^ Z.to_nat (n - 1076) * ynnm n m <= V (f_ynnm n m))%R.
Proof.
  intros Hn Hm. rewrite <- f_ynnm_abs, <- ynnm_abs. set (k := Z.abs m) in *. assert (0 <= k) by (unfold k; lia).
  pose proof (loop2_low n (n - k) Hn ltac:(lia)) as L. replace (n - (n - k)) with k in L by lia.
  destruct L as [L|[P L]]; auto. right. split; auto. eapply Rle_trans; [|exact L].
  assert (NB : (1076 <= IZR n)%R) by (apply IZR_le; lia).
  pose proof (bpow_gt_0 radix2 (-1074)) as D0.
  assert (B : (96 / 100 <= 1 - 3 * IZR (n - k) * uu - sg n (n - k) / 2)%R).
  { assert (N2 : (IZR (n - k) <= 1073741824)%R) by (apply IZR_le; lia). assert (N3 : (0 <= IZR (n - k))%R) by (apply IZR_le; lia).
    assert (N4 : (IZR (n - k) <= IZR n)%R) by (apply IZR_le; lia).
    assert (S : (sg n (n - k) <= 7 / 100)%R).
    { unfold sg. assert (IZR (n - k) / (30 * IZR n) <= 1 / 30)%R.
      { apply Rmult_le_reg_r with (30 * IZR n)%R; [lra|]. unfold Rdiv. rewrite Rmult_assoc, Rinv_l by lra. lra. }
      destruct (1 <=? n - k), (2 <=? n - k); lra. }
    rewrite uu_val. lra. }
  pose proof (top_small n ltac:(lia)) as TS. pose proof (ynnm_pos n n ltac:(lia)) as P0. pose proof (ynnm_pos n k ltac:(lia)) as P1.
  set (g := ((199 / 100) ^ Z.to_nat (n - 1076))%R) in *. set (y0 := ynnm n n) in *. set (y := ynnm n k) in *.
  apply Rle_trans with (dmin * (96 / 100) * (y / y0))%R.
  - apply Rmult_le_reg_r with y0; auto. replace (dmin * (96 / 100) * (y / y0) * y0)%R with (2 * (48 / 100 * dmin) * y)%R by (field; lra).
    replace (2 * g * y * y0)%R with (2 * (y0 * g) * y)%R by ring. apply Rmult_le_compat_r; lra.
  - apply Rmult_le_compat_r; [apply Rlt_le, Rdiv_lt_0_compat; auto|]. apply Rmult_le_compat_l; lra.
Qed.

(** From degree 2110 on the coefficient of order 0 is infinite. *)
Lemma seed_inf n : 2110 <= n <= 2 ^ 30 -> f_ynnm n 0 = S754_infinity false.
Proof.
  intros Hn. destruct (seed_wrong n 0 ltac:(lia) ltac:(cbn; lia)) as [L|[P L]]; auto. exfalso.
  pose proof (fpos_max _ P) as M.
  assert (Y : (19 / 100 <= ynnm n 0)%R).
  { destruct (y0_bounds n ltac:(lia)) as [H _]. pose proof (ynnm_pos n 0 ltac:(cbn; lia)) as PY.
    assert (A : (/ 13 <= aR ^ 2)%R).
    { unfold aR. pose proof PI_bounds as [B1 B2]. assert (Q : (0 < 4 * PI)%R) by lra. pose proof (sqrt_lt_R0 _ Q) as S.
      pose proof (sqrt_sqrt (4 * PI) ltac:(lra)) as E. set (z := sqrt (4 * PI)) in *.
      replace ((1 / z) ^ 2)%R with (/ (z * z))%R by (field; lra). rewrite E. apply Rinv_le; lra. }
    nra. }
  assert (G : (bpow radix2 1026 <= (199 / 100) ^ Z.to_nat (n - 1076))%R).
  { apply Rle_trans with ((199 / 100) ^ 1034)%R; [|apply Rle_pow; [lra|lia]].
    assert (Z1 : 2 ^ 1026 * 100 ^ 1034 <= 199 ^ 1034) by (apply Z.leb_le; vm_compute; reflexivity).
    apply IZR_le in Z1. rewrite mult_IZR in Z1. change (2 ^ 1026) with (radix2 ^ 1026) in Z1. rewrite IZR_Zpower in Z1 by lia.
    change 1034 with (Z.of_nat 1034) in Z1. rewrite <- !pow_IZR in Z1.
    assert (PP : (0 < 100 ^ 1034)%R) by (apply pow_lt; lra).
    apply Rmult_le_reg_r with (100 ^ 1034)%R; auto. rewrite <- Rpow_mult_distr. replace (199 / 100 * 100)%R with 199%R by field. exact Z1. }
  assert (B : bpow radix2 1026 = (4 * maxb)%R). { change 1026 with (2 + 1024). rewrite bpow_plus. reflexivity. }
  rewrite B in G. pose proof (bpow_gt_0 radix2 1024) as MB. nra.
Qed.
