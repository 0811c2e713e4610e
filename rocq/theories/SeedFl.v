(** * SeedFl: relative error of the computed leading coefficient while nothing
    underflows. *)
From Coq Require Import ZArith List Bool SpecFloat Reals Lia Lra Psatz Machin Ratan.
From Flocq Require Import Core.Core IEEE754.BinarySingleNaN.
From Flocq Require Import Relative.
From Verif Require Import Py PyFacts Num FloatN FloatText FileFacts2 MCint CintFacts2 Harm MPysphi PysphiFacts MDouble FlFacts SeedReal.
Import ListNotations.
Open Scope Z_scope.
#[local] Existing Instance FloatText.prec53.
#[local] Existing Instance FloatText.pe53.

(** The double nearest to pi is within 2^-53 pi of pi. *)
Lemma PI_bounds : (314159265358979311600 <= PI * 10 ^ 20 <= 314159265358979346400)%R.
Proof.
  pose proof (PI_2_3_7_ineq 8) as [H1 H2]. 
  unfold sum_f_R0, tg_alt, PI_2_3_7_tg, Ratan_seq in H1, H2. cbn [Nat.mul Nat.add INR] in H1, H2.
  split; lra.
Qed.

Definition uu : R := bpow radix2 (-53).
Definition ww : R := (1 - uu)%R.
Lemma uu_val : uu = (/ 9007199254740992)%R.
Proof. unfold uu. cbn. reflexivity. Qed.
Lemma ww_bounds : (0 < ww < 1)%R.
Proof. unfold ww. rewrite uu_val. lra. Qed.
Lemma wpow_pos K : (0 < ww ^ K)%R.
Proof. apply pow_lt. apply ww_bounds. Qed.
Lemma wpow_le1 K : (ww ^ K <= 1)%R.
Proof. pose proof ww_bounds. rewrite <- (pow1 K). apply pow_incr. lra. Qed.
Lemma wpow_mono K L : (K <= L)%nat -> (ww ^ L <= ww ^ K)%R.
Proof.
  intros H. replace L with (K + (L - K))%nat by lia. rewrite pow_add. pose proof (wpow_pos K). pose proof (wpow_le1 (L - K)). nra.
Qed.

Notation tiny := (bpow radix2 (-1022)).

Lemma rnd_rel x : (tiny <= x -> x * ww <= rnd x /\ rnd x * ww <= x)%R.
Proof.
  intros H. assert (P : (0 < x)%R) by (eapply Rlt_le_trans; [apply bpow_gt_0|exact H]).
  pose proof (relative_error_N_FLT radix2 (-1074) 53 ltac:(lia) (fun n => negb (Z.even n)) x) as E.
  change (-1074 + 53 - 1) with (-1022) in E. rewrite (Rabs_pos_eq x) in E by lra. specialize (E H).
  change (Znearest (fun n => negb (Z.even n))) with ZnearestE in E.
  change (bpow radix2 (Z.opp 53 + 1)) with (/ 4503599627370496)%R in E.
  apply Rabs_le_inv in E. unfold ww. rewrite uu_val. split; [lra|].
  nra.
Qed.

(** [approx K x r]: the positive double x is r up to K roundings. *)
Definition approx (K : nat) (x : f64) (r : R) : Prop :=
  fpos x /\ (0 < r)%R /\ (r * ww ^ K <= V x)%R /\ (V x * ww ^ K <= r)%R.

Lemma approx_weaken K L x r : (K <= L)%nat -> approx K x r -> approx L x r.
Proof.
  intros H (P & Hr & H1 & H2). pose proof (wpow_mono K L H). pose proof (fpos_gt _ P). repeat split; auto; nra.
Qed.

Lemma approx_exact x r : fpos x -> V x = r -> approx 0 x r.
Proof. intros P E. pose proof (fpos_gt _ P). repeat split; auto; cbn [pow]; lra. Qed.

Lemma approx_rnd K z y r : fpos z -> V z = rnd y -> (tiny <= y)%R -> (0 < r)%R -> (r * ww ^ K <= y)%R -> (y * ww ^ K <= r)%R ->
  approx (S K) z r.
Proof.
  intros P E T Hr H1 H2. destruct (rnd_rel y T) as [R1 R2]. pose proof (wpow_pos K). pose proof ww_bounds.
  repeat split; auto; rewrite E; cbn [pow].
  - apply Rle_trans with (y * ww)%R; [|exact R1]. replace (r * (ww * ww ^ K))%R with (r * ww ^ K * ww)%R by ring.
    apply Rmult_le_compat_r; lra.
  - replace (rnd y * (ww * ww ^ K))%R with (rnd y * ww * ww ^ K)%R by ring. eapply Rle_trans; [|exact H2].
    apply Rmult_le_compat_r; lra.
Qed.

Lemma rnd_pos y : (tiny <= y)%R -> (0 < rnd y)%R.
Proof.
  intros T. apply Rlt_le_trans with tiny; [apply bpow_gt_0|]. apply rnd_ge; auto. apply fmt_bpow. lia.
Qed.
Lemma rnd_max y : (y <= bpow radix2 1023)%R -> (rnd y < maxb)%R.
Proof.
  intros T. apply Rle_lt_trans with (bpow radix2 1023); [|apply bpow_lt; lia]. apply rnd_le_g; auto. apply fmt_bpow. lia.
Qed.

Lemma approx_mul K L x y r q : approx K x r -> approx L y q ->
  (tiny <= V x * V y <= bpow radix2 1023)%R -> approx (S (K + L)) (fmul x y) (r * q) /\ V (fmul x y) = rnd (V x * V y).
Proof.
  intros (P & Hr & H1 & H2) (Q & Hq & H3 & H4) [T1 T2].
  destruct (fmul_pos x y P Q) as [PZ EZ]; [split; [apply rnd_pos; auto|apply rnd_max; auto]|].
  split; [|exact EZ]. pose proof (fpos_gt _ P). pose proof (fpos_gt _ Q). pose proof (wpow_pos K). pose proof (wpow_pos L).
  apply approx_rnd with (V x * V y)%R; auto; [nra| |]; rewrite pow_add.
  - replace (r * q * (ww ^ K * ww ^ L))%R with ((r * ww ^ K) * (q * ww ^ L))%R by ring.
    apply Rmult_le_compat; auto; nra.
  - replace (V x * V y * (ww ^ K * ww ^ L))%R with ((V x * ww ^ K) * (V y * ww ^ L))%R by ring.
    apply Rmult_le_compat; auto; nra.
Qed.

Lemma approx_div K L x y r q : approx K x r -> approx L y q ->
  (tiny <= V x / V y <= bpow radix2 1023)%R -> approx (S (K + L)) (fdiv x y) (r / q) /\ V (fdiv x y) = rnd (V x / V y).
Proof.
  intros (P & Hr & H1 & H2) (Q & Hq & H3 & H4) [T1 T2].
  destruct (fdiv_pos x y P Q) as [PZ EZ]; [split; [apply rnd_pos; auto|apply rnd_max; auto]|].
  split; [|exact EZ]. pose proof (fpos_gt _ P). pose proof (fpos_gt _ Q). pose proof (wpow_pos K). pose proof (wpow_pos L).
  apply approx_rnd with (V x / V y)%R; auto; [apply Rdiv_lt_0_compat; auto| |]; rewrite pow_add.
  - apply Rmult_le_reg_r with (V y * q)%R; [nra|].
    replace (r / q * (ww ^ K * ww ^ L) * (V y * q))%R with ((r * ww ^ K) * (V y * ww ^ L))%R by (field; lra).
    replace (V x / V y * (V y * q))%R with (V x * q)%R by (field; lra).
    apply Rmult_le_compat; auto; nra.
  - apply Rmult_le_reg_r with (V y * q)%R; [nra|].
    replace (V x / V y * (ww ^ K * ww ^ L) * (V y * q))%R with ((V x * ww ^ K) * (q * ww ^ L))%R by (field; lra).
    replace (r / q * (V y * q))%R with (r * V y)%R by (field; lra).
    apply Rmult_le_compat; auto; nra.
Qed.

Lemma approx_sqrt K x r : approx K x r -> (tiny <= sqrt (V x))%R ->
  approx (S K) (fsqrt x) (sqrt r) /\ V (fsqrt x) = rnd (sqrt (V x)).
Proof.
  intros (P & Hr & H1 & H2) T1.
  destruct (fsqrt_pos x P) as [PZ EZ]; [apply rnd_pos; auto|].
  split; [|exact EZ]. pose proof (fpos_gt _ P). pose proof (wpow_pos K). pose proof (wpow_le1 K).
  assert (S1 : (ww ^ K <= sqrt (ww ^ K))%R).
  { apply Rsqr_incr_0; [|lra|apply sqrt_pos]. rewrite Rsqr_sqrt by lra. unfold Rsqr. nra. }
  apply approx_rnd with (sqrt (V x))%R; auto; [apply sqrt_lt_R0; auto| |].
  - apply Rle_trans with (sqrt r * sqrt (ww ^ K))%R; [apply Rmult_le_compat_l; auto; apply sqrt_pos|].
    rewrite <- sqrt_mult_alt by lra. apply sqrt_le_1_alt. auto.
  - apply Rle_trans with (sqrt (V x) * sqrt (ww ^ K))%R; [apply Rmult_le_compat_l; auto; apply sqrt_pos|].
    rewrite <- sqrt_mult_alt by lra. apply sqrt_le_1_alt. auto.
Qed.

(** [tiny] and [2^1023] in practice *)
Lemma tiny_small : (tiny <= / 1000)%R.
Proof. apply Rle_trans with (bpow radix2 (-10)); [apply bpow_le; lia|]. cbn. lra. Qed.
Lemma big_big : (IZR (2 ^ 100) <= bpow radix2 1023)%R.
Proof. change (IZR (2 ^ 100)) with (bpow radix2 100). apply bpow_le. lia. Qed.

Lemma f_a_approx : approx 3 f_a aR.
Proof.
  assert (A1 : approx 1 (fmul (fofZ 4) f_pi) (4 * PI)).
  { assert (E : fmul (fofZ 4) f_pi = S754_finite false 7074237752028440 (-49)) by (vm_compute; reflexivity).
    rewrite E. pose proof PI_bounds as [B1 B2].
    assert (EV : V (S754_finite false 7074237752028440 (-49)) = (7074237752028440 / 562949953421312)%R).
    { cbn [SF2R]. unfold F2R. cbn. reflexivity. }
    repeat split.
    - exists 7074237752028440%positive, (-49). split; [reflexivity|vm_compute; reflexivity].
    - pose proof PI_RGT_0. lra.
    - rewrite EV. cbn [pow]. unfold ww. rewrite uu_val. lra.
    - rewrite EV. cbn [pow]. unfold ww. rewrite uu_val. lra. }
  set (x := fmul (fofZ 4) f_pi) in *. assert (E : V x = (7074237752028440 / 562949953421312)%R).
  { assert (E : x = S754_finite false 7074237752028440 (-49)) by (vm_compute; reflexivity). rewrite E. cbn [SF2R]. unfold F2R. cbn. reflexivity. }
  assert (L1 : (3 <= sqrt (V x))%R). { rewrite <- (sqrt_square 3) by lra. apply sqrt_le_1_alt. rewrite E. lra. }
  assert (L2 : (sqrt (V x) <= 4)%R). { rewrite <- (sqrt_square 4) by lra. apply sqrt_le_1_alt. rewrite E. lra. }
  pose proof tiny_small as T. pose proof big_big as T2.
  destruct (approx_sqrt _ _ _ A1) as [A2 E2]; [lra|].
  assert (A3 : approx 0 (fofZ 1) 1) by (destruct (fofZ_pos 1 ltac:(lia)); apply approx_exact; auto).
  assert (E3 : V (fofZ 1) = 1%R) by (apply (fofZ_pos 1); lia).
  assert (G3 : (3 <= V (fsqrt x))%R) by (rewrite E2; apply rnd_ge; [apply (fmt_int 3); reflexivity|exact L1]).
  assert (G4 : (V (fsqrt x) <= 4)%R) by (rewrite E2; apply rnd_le_g; [apply (fmt_int 4); reflexivity|exact L2]).
  destruct (approx_div _ _ _ _ _ _ A3 A2) as [A4 _].
  { rewrite E3. split.
    - apply Rle_trans with (1 / 4)%R; [lra|]. unfold Rdiv. apply Rmult_le_compat_l; [lra|]. apply Rinv_le; lra.
    - apply Rle_trans with (1 / 1)%R; [unfold Rdiv; apply Rmult_le_compat_l; [lra|]; apply Rinv_le; lra|]. lra. }
  exact A4.
Qed.

(** ** The factors of the two loops *)
Lemma fdiv8 a : 0 < a < 2 ^ 53 -> fpos (fdiv (fofZ a) (fofZ 8)) /\ V (fdiv (fofZ a) (fofZ 8)) = (IZR a / 8)%R.
Proof.
  intros H. destruct (fofZ_pos a ltac:(lia)) as [P1 E1]. destruct (fofZ_pos 8 ltac:(lia)) as [P2 E2].
  assert (E : rnd (V (fofZ a) / V (fofZ 8)) = (IZR a / 8)%R).
  { rewrite E1, E2. replace (IZR a / 8)%R with (IZR a * bpow radix2 (-3))%R by (cbn; field). apply rnd_fmt, fmt_Z; lia. }
  assert (1 <= IZR a)%R by (apply IZR_le; lia). pose proof (maxb_int a ltac:(lia)).
  destruct (fdiv_pos _ _ P1 P2) as [P3 E3]; [rewrite E; lra|]. split; auto. rewrite E3. exact E.
Qed.

Lemma f_s_spec k : 1 <= k <= 2 ^ 30 ->
  approx 2 (f_s k) (sqrt ((2 * IZR k + 1) / 8 / IZR k)) /\ (1 / 2 + bpow radix2 (-34) <= V (f_s k) <= 1)%R /\ fc_s k = f_s k.
Proof.
  intros H. unfold f_s, fc_s. rewrite !fmul_int by lia. rewrite fadd_int by lia.
  destruct (fdiv8 (2 * k + 1) ltac:(lia)) as [P1 E1]. destruct (fofZ_pos k ltac:(lia)) as [P2 E2].
  destruct (fofZ_pos (8 * k) ltac:(lia)) as [P3 E3]. destruct (fofZ_pos (2 * k + 1) ltac:(lia)) as [P4 E4].
  assert (K1 : (1 <= IZR k)%R) by (apply IZR_le; lia).
  assert (K2 : (IZR k <= 1073741824)%R) by (apply IZR_le; lia).
  rewrite plus_IZR, mult_IZR in E1, E4. rewrite mult_IZR in E3. cbn [IZR] in E1, E3, E4.
  assert (Q : ((2 * IZR k + 1) / 8 / IZR k = 1 / 4 + / (8 * IZR k))%R) by (field; lra).
  assert (Q1 : (1 / 4 + bpow radix2 (-33) <= (2 * IZR k + 1) / 8 / IZR k)%R).
  { rewrite Q. apply Rplus_le_compat_l. cbn [bpow]. change (IZR (Z.pow_pos radix2 33)) with 8589934592%R. apply Rinv_le; lra. }
  assert (Q2 : ((2 * IZR k + 1) / 8 / IZR k <= 1)%R).
  { rewrite Q. assert (/ (8 * IZR k) <= / 8)%R by (apply Rinv_le; lra). lra. }
  assert (B33 : bpow radix2 (-33) = (/ 8589934592)%R) by reflexivity.
  assert (B34 : bpow radix2 (-34) = (/ 17179869184)%R) by reflexivity.
  pose proof tiny_small as T. pose proof big_big as T2.
  pose proof (approx_exact _ _ P1 E1) as A1. pose proof (approx_exact _ _ P2 E2) as A2.
  destruct (approx_div _ _ _ _ _ _ A1 A2) as [A3 E5]; [rewrite E1, E2; lra|].
  rewrite E1, E2 in E5.
  assert (F1 : generic_format radix2 fx (1 / 4 + bpow radix2 (-33))).
  { replace (1 / 4 + bpow radix2 (-33))%R with (IZR (2 ^ 31 + 1) * bpow radix2 (-33))%R by (rewrite B33, plus_IZR; cbn; lra). apply fmt_Z; lia. }
  assert (F2 : generic_format radix2 fx (1 / 2 + bpow radix2 (-34))).
  { replace (1 / 2 + bpow radix2 (-34))%R with (IZR (2 ^ 33 + 1) * bpow radix2 (-34))%R by (rewrite B34, plus_IZR; cbn; lra). apply fmt_Z; lia. }
  assert (F3 : generic_format radix2 fx 1) by (apply (fmt_int 1); lia).
  assert (D1 : (1 / 4 + bpow radix2 (-33) <= V (fdiv (fdiv (fofZ (2 * k + 1)) (fofZ 8)) (fofZ k)))%R) by (rewrite E5; apply rnd_ge; auto).
  assert (D2 : (V (fdiv (fdiv (fofZ (2 * k + 1)) (fofZ 8)) (fofZ k)) <= 1)%R) by (rewrite E5; apply rnd_le_g; auto).
  assert (EC : fdiv (fofZ (2 * k + 1)) (fofZ (8 * k)) = fdiv (fdiv (fofZ (2 * k + 1)) (fofZ 8)) (fofZ k)).
  { assert (ER : rnd (V (fofZ (2 * k + 1)) / V (fofZ (8 * k))) = V (fdiv (fdiv (fofZ (2 * k + 1)) (fofZ 8)) (fofZ k))).
    { rewrite E5, E3, E4. f_equal. field. lra. }
    destruct (fdiv_pos _ _ P4 P3) as [P6 E6]; [rewrite ER; split; [lra|apply fpos_max, A3]|].
    apply fpos_inj; auto; [apply A3|]. rewrite E6. exact ER. }
  rewrite EC. split; [|split; [|reflexivity]].
  - apply approx_sqrt; auto. apply Rle_trans with (1 / 2)%R; [lra|].
    rewrite <- (sqrt_square (1 / 2)) by lra. apply sqrt_le_1_alt. rewrite B33 in D1. lra.
  - set (q := fdiv (fdiv (fofZ (2 * k + 1)) (fofZ 8)) (fofZ k)) in *.
    assert (S1 : (1 / 2 + bpow radix2 (-34) <= sqrt (V q))%R).
    { rewrite <- (sqrt_square (1 / 2 + bpow radix2 (-34))) by (rewrite B34; lra). apply sqrt_le_1_alt. rewrite B33 in D1. rewrite B34. lra. }
    assert (S2 : (sqrt (V q) <= 1)%R) by (rewrite <- sqrt_1; apply sqrt_le_1_alt; auto).
    destruct (approx_sqrt _ _ _ A3) as [_ ->]; [rewrite B34 in S1; fold q; lra|]. fold q.
    split; [apply rnd_ge; auto|apply rnd_le_g; auto].
Qed.

Lemma f_t_spec n k : 0 <= k < n -> n <= 2 ^ 30 ->
  approx 2 (f_t n k) (sqrt ((IZR n + IZR k + 1) / (IZR n - IZR k))) /\ (1 <= V (f_t n k) <= IZR (2 ^ 31))%R /\ fc_t n k = f_t n k.
Proof.
  intros H Hn. unfold f_t, fc_t.
  assert (EA : fadd (fofZ (n + k)) (fofZ 1) = fofZ (n + k + 1)) by (apply fadd_int; lia). rewrite EA.
  destruct (fofZ_pos (n + k + 1) ltac:(lia)) as [P1 E1]. destruct (fofZ_pos (n - k) ltac:(lia)) as [P2 E2].
  rewrite fmul_one by auto. split; [|split; [|reflexivity]].
  all: pose proof (ratio_ge1 n k H) as Q1.
  all: assert (K1 : (1 <= IZR (n - k))%R) by (apply IZR_le; lia).
  all: assert (K2 : (IZR (n + k + 1) <= 2147483648)%R) by (apply IZR_le; lia).
  all: assert (K3 : (0 <= IZR (n + k + 1))%R) by (apply IZR_le; lia).
  all: assert (Q : ((IZR n + IZR k + 1) / (IZR n - IZR k) = IZR (n + k + 1) / IZR (n - k))%R) by (rewrite minus_IZR, !plus_IZR; reflexivity).
  all: assert (Q2 : (IZR (n + k + 1) / IZR (n - k) <= 2147483648)%R).
  all: try (apply Rle_trans with (IZR (n + k + 1) / 1)%R; [unfold Rdiv; apply Rmult_le_compat_l; auto; apply Rinv_le; lra|lra]).
  all: rewrite Q in *.
  all: pose proof tiny_small as T; pose proof big_big as T2; change (IZR (2 ^ 100)) with 1267650600228229401496703205376%R in T2.
  all: pose proof (approx_exact _ _ P1 E1) as A1; pose proof (approx_exact _ _ P2 E2) as A2.
  all: destruct (approx_div _ _ _ _ _ _ A1 A2) as [A3 E5]; [rewrite E1, E2; lra|].
  all: rewrite E1, E2 in E5.
  all: assert (D1 : (1 <= V (fdiv (fofZ (n + k + 1)) (fofZ (n - k))))%R) by (rewrite E5; apply rnd_ge; auto; apply (fmt_int 1); lia).
  all: assert (D2 : (V (fdiv (fofZ (n + k + 1)) (fofZ (n - k))) <= 2147483648)%R) by (rewrite E5; apply rnd_le_g; auto; apply (fmt_int 2147483648); lia).
  all: set (q := fdiv (fofZ (n + k + 1)) (fofZ (n - k))) in *.
  all: assert (S1 : (1 <= sqrt (V q))%R) by (rewrite <- sqrt_1; apply sqrt_le_1_alt; auto).
  all: assert (S2 : (sqrt (V q) <= 2147483648)%R).
  all: try (rewrite <- (sqrt_square 2147483648) by lra; apply sqrt_le_1_alt; lra).
  all: destruct (approx_sqrt _ _ _ A3) as [A4 E6]; [lra|]; auto.
  change (IZR (2 ^ 31)) with 2147483648%R. rewrite E6. split; [apply rnd_ge; auto; apply (fmt_int 1); lia|apply rnd_le_g; auto; apply (fmt_int 2147483648); lia].
Qed.

(** ** The two loops *)
Lemma f_top_0 : f_ynnm 0 0 = f_a.
Proof. reflexivity. Qed.
Lemma f_top_loop n : 0 <= n -> f_ynnm n n = pfor (zrange 1 (n + 1)) (fun k out => fmul out (f_s k)) f_a.
Proof.
  intros H. unfold f_ynnm. rewrite Z.abs_eq by lia. rewrite Z.ltb_irrefl, Z.eqb_refl.
  destruct (Z.eqb_spec n 0) as [->|]; reflexivity.
Qed.
Lemma f_top_step n : 0 <= n -> f_ynnm (n + 1) (n + 1) = fmul (f_ynnm n n) (f_s (n + 1)).
Proof.
  intros H. rewrite !f_top_loop by lia. rewrite (zrange_snoc 1 (n + 1)) by lia. rewrite pfor_app. reflexivity.
Qed.
Lemma f_ynnm_step n k : 0 <= k < n -> f_ynnm n k = fmul (f_ynnm n (k + 1)) (f_t n k).
Proof.
  intros H. unfold f_ynnm. rewrite !Z.abs_eq by lia.
  destruct (Z.ltb_spec n k); [lia|]. destruct (Z.ltb_spec n (k + 1)); [lia|].
  destruct (Z.eqb_spec n 0); [lia|]. destruct (Z.eqb_spec n k); [lia|].
  rewrite zrange_down_snoc by lia. rewrite pfor_app. cbn [pfor fold_left]. f_equal.
  destruct (Z.eqb_spec n (k + 1)).
  - rewrite zrange_down_nil by lia. reflexivity.
  - replace (k + 1 - 1) with k by lia. reflexivity.
Qed.
Lemma f_ynnm_abs n m : f_ynnm n (Z.abs m) = f_ynnm n m.
Proof. unfold f_ynnm. now rewrite Z.abs_involutive. Qed.
Lemma f_ynnm_out n m : n < Z.abs m -> f_ynnm n m = fofZ 0.
Proof. intros. unfold f_ynnm. destruct (Z.ltb_spec n (Z.abs m)); [auto|lia]. Qed.

(** The C version is the same float. *)
Lemma pfor_ext' {S} l (f g : Z -> S -> S) s : (forall i s, In i l -> f i s = g i s) -> pfor l f s = pfor l g s.
Proof.
  revert s. induction l as [|i l IH]; intros s H; [reflexivity|]. cbn. rewrite H by (left; auto). apply IH. intros; apply H; right; auto.
Qed.

Lemma fc_ynnm_eq n m : n <= 2 ^ 30 -> fc_ynnm n m = f_ynnm n m.
Proof.
  intros Hn. unfold fc_ynnm, f_ynnm. destruct (Z.ltb_spec n (Z.abs m)); [auto|]. destruct (Z.eqb_spec n 0); [auto|].
  assert (E : pfor (zrange 1 (n + 1)) (fun k y => fmul (fc_s k) y) f_a = pfor (zrange 1 (n + 1)) (fun k out => fmul out (f_s k)) f_a).
  { apply pfor_ext'. intros i s Hi. apply In_zrange in Hi. rewrite fmul_comm. f_equal. apply f_s_spec. lia. }
  rewrite E. destruct (Z.eqb_spec n (Z.abs m)); cbn [negb]; [auto|].
  apply pfor_ext'. intros i s Hi. rewrite zrange_down_rev, <- in_rev in Hi. apply In_zrange in Hi. rewrite fmul_comm. f_equal.
  apply f_t_spec; lia.
Qed.

Notation dmin := (bpow radix2 (-1074)).
Definition fmin : f64 := S754_finite false 1 (-1074).
Lemma fmin_pos : fpos fmin /\ V fmin = dmin.
Proof.
  split; [exists 1%positive, (-1074); split; reflexivity|]. unfold fmin. cbn [SF2R]. unfold F2R. cbn [Fnum Fexp]. change (cond_Zopp false 1) with 1. lra.
Qed.

Lemma fpos_ge_min x : fpos x -> (dmin <= V x)%R.
Proof.
  intros P. apply (generic_format_ge_bpow radix2 fx); [intros e; unfold FLT_exp; lia|apply fpos_gt; auto|apply fpos_fmt; auto].
Qed.

(** Anything between half the least double and the least double rounds up. *)
Lemma rnd_min y : (bpow radix2 (-1075) < y <= dmin)%R -> rnd y = dmin.
Proof.
  intros [H1 H2]. assert (Fm : generic_format radix2 fx dmin) by (apply fmt_bpow; lia).
  assert (B : dmin = (2 * bpow radix2 (-1075))%R).
  { change (-1074) with (1 + -1075). rewrite bpow_plus. reflexivity. }
  pose proof (bpow_gt_0 radix2 (-1075)) as P0.
  assert (G : (0 < rnd y)%R).
  { destruct (round_N_pt radix2 fx (fun n => negb (Z.even n)) y) as [_ N]. specialize (N dmin Fm).
    change (Znearest (fun x => negb (Z.even x))) with ZnearestE in N.
    destruct (Rle_or_lt (rnd y) 0) as [L|L]; auto. exfalso.
    rewrite (Rabs_pos_eq (dmin - y)) in N by lra. rewrite Rabs_left1 in N by lra. lra. }
  apply Rle_antisym; [apply rnd_le_g; auto|].
  apply (generic_format_ge_bpow radix2 fx); [intros e; unfold FLT_exp; lia|exact G|]. apply generic_format_round; auto with typeclass_instances.
Qed.

Lemma half_eps_gt y : (1 / 2 + bpow radix2 (-34) <= y)%R -> (bpow radix2 (-1075) < dmin * y)%R.
Proof.
  intros H. change (-1074) with (1 + -1075). rewrite bpow_plus. pose proof (bpow_gt_0 radix2 (-1075)) as P0.
  pose proof (bpow_gt_0 radix2 (-34)). change (bpow radix2 1) with 2%R. nra.
Qed.

(** One step of the first loop never reaches zero and never grows. *)
Lemma shrink_step x k : fpos x -> 1 <= k <= 2 ^ 30 ->
  fpos (fmul x (f_s k)) /\ V (fmul x (f_s k)) = rnd (V x * V (f_s k)) /\ (V (fmul x (f_s k)) <= V x)%R.
Proof.
  intros P Hk. destruct (f_s_spec k Hk) as ((PS & _) & [S1 S2] & _).
  pose proof (fpos_gt _ P) as G. pose proof (fpos_ge_min _ P) as Gm. pose proof (fpos_gt _ PS) as GS.
  assert (U : (rnd (V x * V (f_s k)) <= V x)%R) by (apply rnd_le_g; [apply fpos_fmt; auto|nra]).
  assert (L : (dmin <= rnd (V x * V (f_s k)))%R).
  { rewrite <- (rnd_min (dmin * V (f_s k))).
    - apply rnd_le. apply Rmult_le_compat_r; lra.
    - split; [apply half_eps_gt; auto|]. pose proof (bpow_gt_0 radix2 (-1074)). nra. }
  destruct (fmul_pos _ _ P PS) as [P1 E1].
  { split; [eapply Rlt_le_trans; [apply bpow_gt_0|exact L]|]. eapply Rle_lt_trans; [exact U|apply fpos_max; auto]. }
  rewrite E1. auto.
Qed.

Lemma f_a_pos : fpos f_a. Proof. apply f_a_approx. Qed.

Lemma top_pos n : 0 <= n <= 2 ^ 30 -> fpos (f_ynnm n n).
Proof.
  intros [H1 H2]. revert n H1 H2. apply (natlike_ind (fun n => n <= 2 ^ 30 -> fpos (f_ynnm n n))); [intros; apply f_a_pos|].
  intros n Hn IH H. unfold Z.succ in *. rewrite f_top_step by lia. apply shrink_step; [apply IH|]; lia.
Qed.

Lemma top_anti n p : 0 <= n -> n <= p -> p <= 2 ^ 30 -> (V (f_ynnm p p) <= V (f_ynnm n n))%R.
Proof.
  intros Hn Hp. replace p with (n + (p - n)) by lia. assert (H : 0 <= p - n) by lia. revert H. generalize (p - n). clear p Hp.
  apply (natlike_ind (fun j => n + j <= 2 ^ 30 -> (V (f_ynnm (n + j) (n + j)) <= V (f_ynnm n n))%R)).
  - intros _. rewrite Z.add_0_r. lra.
  - intros j Hj IH H. replace (n + Z.succ j) with (n + j + 1) in * by lia. rewrite f_top_step by lia.
    eapply Rle_trans; [apply shrink_step|apply IH; lia]; [apply top_pos; lia|lia].
Qed.

(** The two values of the first loop that decide everything. *)
Lemma top_1022 : exists m, f_ynnm 1022 1022 = S754_finite false m (-1074) /\ 2 ^ 52 < Zpos m.
Proof. eexists. split; [vm_compute; reflexivity|reflexivity]. Qed.
Lemma top_1075 : f_ynnm 1075 1075 = fmin.
Proof. vm_compute. reflexivity. Qed.

Lemma top_1022_tiny : (tiny < V (f_ynnm 1022 1022))%R.
Proof.
  destruct top_1022 as (m & -> & H). cbn [SF2R]. change (cond_Zopp false (Z.pos m)) with (Z.pos m).
  change (-1022) with (52 + -1074). rewrite bpow_plus. unfold F2R. cbn [Fnum Fexp]. apply Rmult_lt_compat_r; [apply bpow_gt_0|].
  change (bpow radix2 52) with (IZR (2 ^ 52)). apply IZR_lt. exact H.
Qed.

Lemma ymm_S_Z n : 0 <= n -> ynnm (n + 1) (n + 1) = (ynnm n n * sqrt ((2 * IZR (n + 1) + 1) / 8 / IZR (n + 1)))%R.
Proof.
  intros H. rewrite !ynnm_top by lia. replace (Z.to_nat (n + 1)) with (S (Z.to_nat n)) by lia. cbn [ymm].
  rewrite INR_IZR_INZ. replace (Z.of_nat (S (Z.to_nat n))) with (n + 1) by lia. reflexivity.
Qed.

Lemma top_approx n : 0 <= n <= 1022 -> approx (3 + 3 * Z.to_nat n) (f_ynnm n n) (ynnm n n).
Proof.
  intros [H1 H2]. revert n H1 H2. apply (natlike_ind (fun n => n <= 1022 -> approx (3 + 3 * Z.to_nat n) (f_ynnm n n) (ynnm n n))).
  - intros _. exact f_a_approx.
  - intros n Hn IH H. unfold Z.succ in *. specialize (IH ltac:(lia)).
    destruct (f_s_spec (n + 1) ltac:(lia)) as (A & [S1 S2] & _).
    destruct (shrink_step (f_ynnm n n) (n + 1) ltac:(apply IH) ltac:(lia)) as (P & E & _).
    rewrite f_top_step, ymm_S_Z by lia.
    destruct (approx_mul _ _ _ _ _ _ IH A) as [B _].
    + split.
      * destruct (Rle_or_lt tiny (V (f_ynnm n n) * V (f_s (n + 1)))) as [L|L]; auto. exfalso.
        assert (U : (V (f_ynnm (n + 1) (n + 1)) <= tiny)%R).
        { rewrite f_top_step, E by lia. apply rnd_le_g; [apply fmt_bpow; lia|lra]. }
        pose proof (top_anti (n + 1) 1022 ltac:(lia) ltac:(lia) ltac:(lia)). pose proof top_1022_tiny. lra.
      * pose proof (fpos_gt _ (proj1 IH)). pose proof (top_anti 0 n ltac:(lia) ltac:(lia) ltac:(lia)) as T0. rewrite f_top_0 in T0.
        assert (F1 : (V f_a <= 1)%R).
        { assert (E0 : exists m, f_a = S754_finite false m (-54) /\ Zpos m < 2 ^ 53) by (eexists; split; [vm_compute; reflexivity|reflexivity]).
          destruct E0 as (m & -> & Hm). cbn [SF2R]. change (cond_Zopp false (Z.pos m)) with (Z.pos m). unfold F2R. cbn [Fnum Fexp].
          apply Rle_trans with (IZR (2 ^ 53) * bpow radix2 (-54))%R; [apply Rmult_le_compat_r; [apply bpow_ge_0|apply IZR_le; lia]|].
          change (IZR (2 ^ 53)) with (bpow radix2 53). rewrite <- bpow_plus. cbn. lra. }
        pose proof big_big as T2. change (IZR (2 ^ 100)) with 1267650600228229401496703205376%R in T2. pose proof (fpos_gt _ (proj1 A)). nra.
    + replace (3 + 3 * Z.to_nat (n + 1))%nat with (S (3 + 3 * Z.to_nat n + 2)) by lia. exact B.
Qed.
