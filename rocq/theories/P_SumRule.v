(** * C71: the sum-rule self test of the spherical Bessel functions. *)
From Coq Require Import ZArith List Reals Lra Lia Factorial.
From Coquelicot Require Import Coquelicot.
From Verif Require Import Py PyFacts MPysphi SpecBessel Bessel MSbessel SbesselFacts SbesselFacts2 BesselSum P_Sbessel.
Import ListNotations.
Open Scope R_scope.

(** The sum of (2 n + 1) b_n^2 over the entries b_0, b_1, ... of a list. *)
Definition weighted (b : list R) : R :=
  fold_right Rplus 0 (map (fun n => (2 * INR n + 1) * nth n b 0 ^ 2) (seq 0 (List.length b))).
(** The remainder 2 N z^(2N) e^(z^2) / ((2N-1)!! (2N+1)!!). *)
Definition remainder (N : nat) (z : R) : R :=
  2 * INR N * z ^ (2 * N) * exp (z ^ 2) / (odd_fact N * odd_fact (S N)).

Lemma fold_app a b : fold_right Rplus 0 (a ++ b) = fold_right Rplus 0 a + fold_right Rplus 0 b.
Proof. induction a as [|x a IH]; cbn; [ring|]. rewrite IH. ring. Qed.

Lemma weighted_pos b : 0 <= weighted b.
Proof.
  unfold weighted. induction (seq 0 (length b)) as [|n l IH]; cbn [map fold_right]; [lra|].
  pose proof (pos_INR n). pose proof (pow2_ge_0 (nth n b 0)). nra.
Qed.
Lemma weighted_ge b n : (n < length b)%nat -> (2 * INR n + 1) * nth n b 0 ^ 2 <= weighted b.
Proof.
  intros H. unfold weighted. assert (I : In n (seq 0 (length b))) by (apply in_seq; lia).
  assert (G : forall l, 0 <= fold_right Rplus 0 (map (fun n => (2 * INR n + 1) * nth n b 0 ^ 2) l)).
  { induction l as [|k l IH]; cbn [map fold_right]; [lra|]. pose proof (pos_INR k). pose proof (pow2_ge_0 (nth k b 0)). nra. }
  induction (seq 0 (length b)) as [|k l IH]; [destruct I|]. cbn [map fold_right]. destruct I as [->|I].
  - specialize (G l). lra.
  - specialize (IH I). pose proof (pos_INR k). pose proof (pow2_ge_0 (nth k b 0)). nra.
Qed.
(** comparison with the exact sum *)
Lemma weighted_cmp b z lo hi : (forall n, (n < length b)%nat -> lo * sph_j n z ^ 2 <= nth n b 0 ^ 2 <= hi * sph_j n z ^ 2) ->
  lo * jsum (length b) z <= weighted b <= hi * jsum (length b) z.
Proof.
  unfold weighted. induction (length b) as [|k IH]; intros H.
  - cbn. lra.
  - rewrite seq_S, map_app, fold_app. cbn [map fold_right jsum Nat.add]. specialize (IH ltac:(intros; apply H; lia)).
    specialize (H k ltac:(lia)). pose proof (pos_INR k). nra.
Qed.
Lemma jsum_sum_n z N : sum_n (fun n => (2 * INR n + 1) * sph_j n z ^ 2) N = jsum (S N) z.
Proof.
  induction N as [|N IH].
  - rewrite sum_O. cbn [jsum]. symmetry. apply Rplus_0_l.
  - rewrite sum_Sn, IH. cbn [jsum]. reflexivity.
Qed.

(** The identity the test is built on: sum_n (2n+1) j_n(z)^2 = 1 for every
    z <> 0, and the partial sum over n < N is within the remainder of 1. *)
Theorem C71_sum_rule : forall z : R, z <> 0 ->
  is_series (fun n => (2 * INR n + 1) * sph_j n z ^ 2) 1 /\
  forall N : nat, (1 <= N)%nat ->
    1 - remainder N z <= sum_n (fun n => (2 * INR n + 1) * sph_j n z ^ 2) (N - 1) <= 1.
Proof.
  intros z Hz. split.
  - unfold is_series. apply (filterlim_ext (fun N => jsum (S N) z)); [intros N; symmetry; apply jsum_sum_n|].
    change (is_lim_seq (fun N => jsum (S N) z) 1). apply (is_lim_seq_incr_1 (fun N => jsum N z)). apply jsum_lim; auto.
  - intros N HN. rewrite jsum_sum_n. replace (S (N - 1)) with N by lia. split; [|apply jsum_le1; auto].
    pose proof (jsum_rem N z HN Hz) as B. change (jrem N z) with (remainder N z) in B.
    apply Rabs_le_between in B. lra.
Qed.
Print Assumptions C71_sum_rule.

Lemma sum_vmake b N : (length b = N)%nat ->
  fold_right Rplus 0 (vmake (Z.of_nat N) (fun n => (2 * IZR n + 1) * (vget 0 b n) ^ 2)) = weighted b.
Proof.
  intros <-. unfold weighted, vmake. f_equal.
  unfold zrange. rewrite Z.sub_0_r, Nat2Z.id, !map_map. apply map_ext. intros n.
  rewrite ?Z.add_0_l, <- INR_IZR_INZ. rewrite nth_vget. reflexivity.
Qed.

(** The test fails exactly when sbesselj fails; otherwise the sum is positive
    and the result is |sum - 1| / sum + eps, at least eps. *)
Theorem C71_value : forall (eps : R) (fuel : nat) (z : R) (N : Z),
  (forall e, sbesselj fuel z N = Raise e -> sbesselj_sum eps fuel z N = Raise e) /\
  (forall b, sbesselj fuel z N = Ok b ->
     0 < weighted b /\
     sbesselj_sum eps fuel z N = Ok (Rabs (weighted b - 1) / weighted b + eps)).
Proof.
  intros eps fuel z N. unfold sbesselj_sum. split.
  - intros e ->. reflexivity.
  - intros b H. destruct (C43_errors fuel z N b H) as [Hz HN]. rewrite H. cbn [bind].
    replace N with (Z.of_nat (Z.to_nat N)) in H by lia. set (M := Z.to_nat N) in *.
    assert (HM : (2 <= M)%nat) by lia. replace N with (Z.of_nat M) by lia.
    destruct (C43_recurrence fuel z M b Hz HM H) as (L & O0 & O1 & _).
    assert (P : 0 < weighted b).
    { destruct (Req_dec (sph_j 0 z) 0) as [E|E].
      - destruct (Bessel2.j_not_both 0 z Hz) as [J|J]; [lra|].
        assert (B : Rabs (sph_j 0 z) < Rabs (sph_j 1 z)) by (rewrite E, Rabs_R0; apply Rabs_pos_lt; auto).
        specialize (O1 B). rewrite <- sph_j_1 in O1 by auto.
        pose proof (weighted_ge b 1 ltac:(lia)) as G. rewrite O1 in G. cbn [INR] in G.
        assert (0 < sph_j 1 z ^ 2) by (rewrite <- Rsqr_pow2; apply Rsqr_pos_lt; auto). lra.
      - pose proof (weighted_ge b 0 ltac:(lia)) as G. rewrite O0, <- sph_j_0 in G by auto. cbn [INR] in G.
        assert (0 < sph_j 0 z ^ 2) by (rewrite <- Rsqr_pow2; apply Rsqr_pos_lt; auto). lra. }
    split; [auto|]. rewrite (sum_vmake b M L). rewrite divR_ok by lra. cbn [bind].
    do 2 f_equal. unfold Rdiv. rewrite Rabs_mult. f_equal. apply Rabs_right. left. apply Rinv_0_lt_compat. auto.
Qed.
Print Assumptions C71_value.

(** Whenever the values of sbesselj are right to a relative d, the test
    reports at most eps + 8 d + 4 remainder: it has no false alarms for N
    large compared with z. *)
Theorem C71_no_false_alarm : forall (eps d : R) (fuel : nat) (z : R) (N : nat) (b : list R),
  sbesselj fuel z (Z.of_nat N) = Ok b -> 0 <= d <= 1 / 4 -> remainder N z <= 1 / 2 ->
  (forall n, (n < N)%nat -> Rabs (nth n b 0 - sph_j n z) <= d * Rabs (sph_j n z)) ->
  exists r, sbesselj_sum eps fuel z (Z.of_nat N) = Ok r /\ eps <= r <= eps + 8 * d + 4 * remainder N z.
Proof.
  intros eps d fuel z N b H Hd HR HA. destruct (C43_errors _ _ _ _ H) as [Hz HN].
  destruct (C71_value eps fuel z (Z.of_nat N)) as [_ V]. destruct (V b H) as [P E]. eexists; split; [exact E|].
  destruct (C43_recurrence fuel z N b Hz ltac:(lia) H) as (L & _).
  assert (K : (1 - d) ^ 2 * jsum (length b) z <= weighted b <= (1 + d) ^ 2 * jsum (length b) z).
  { apply weighted_cmp. intros n Hn. specialize (HA n ltac:(lia)). set (x := nth n b 0) in *. set (y := sph_j n z) in *. clearbody x y.
    assert (A : Rabs x <= (1 + d) * Rabs y).
    { replace x with ((x - y) + y) by ring. eapply Rle_trans; [apply Rabs_triang|]. lra. }
    assert (B : (1 - d) * Rabs y <= Rabs x).
    { assert (Rabs y <= Rabs x + Rabs (x - y)); [|lra]. rewrite (Rabs_minus_sym x y). replace y with (x + (y - x)) at 1 by ring. apply Rabs_triang. }
    rewrite <- (pow2_abs x), <- (pow2_abs y), <- !Rpow_mult_distr. pose proof (Rabs_pos y).
    split; apply pow_incr; split; auto; try apply Rabs_pos. nra. }
  rewrite L in K. pose proof (jsum_le1 N z Hz) as J1. pose proof (jsum_rem N z ltac:(lia) Hz) as J2.
  change (jrem N z) with (remainder N z) in J2. apply Rabs_le_between in J2.
  set (w := weighted b) in *. set (s := jsum N z) in *. set (q := remainder N z) in *. clearbody w s q.
  assert (W : 9 / 32 <= w) by nra.
  assert (D : Rabs (w - 1) <= 9 / 4 * d + q) by (apply Rabs_le; split; nra).
  pose proof (Rabs_pos (w - 1)) as D0.
  assert (I : 0 < / w <= 32 / 9).
  { split; [apply Rinv_0_lt_compat; lra|]. replace (32 / 9) with (/ (9 / 32)) by field. apply Rinv_le_contravar; lra. }
  unfold Rdiv at 1 2. split; [nra|]. 
  assert (Rabs (w - 1) * / w <= (9 / 4 * d + q) * (32 / 9)) by (apply Rmult_le_compat; lra). lra.
Qed.
Print Assumptions C71_no_false_alarm.

(** For 0 < |z| <= 1 the test always runs, and reports at most eps + 2e-19 up
    to the remainder. *)
Theorem C71_small_arguments : forall (eps : R) (fuel : nat) (z : R) (N : nat), 0 < Rabs z <= 1 -> (2 <= N)%nat ->
  (34 * (N - 1) <= fuel)%nat ->
  exists r, sbesselj_sum eps fuel z (Z.of_nat N) = Ok r /\
    eps <= r <= eps + 2 / 10 ^ 19 + 4 * remainder N z.
Proof.
  intros eps fuel z N Hz HN Hf.
  destruct (C43_accuracy_small_arguments fuel z N Hz HN Hf) as (b & H & L & A).
  assert (Hq : remainder N z <= 1 / 2).
  { unfold remainder. rewrite pow_mult.
    assert (Z2 : z ^ 2 <= 1) by (rewrite <- pow2_abs; pose proof (Rabs_pos z); nra). pose proof (pow2_ge_0 z) as Z0.
    assert (P1 : (z ^ 2) ^ N <= 1) by (rewrite <- (pow1 N); apply pow_incr; lra).
    assert (P0 : 0 <= (z ^ 2) ^ N) by (apply pow_le; lra).
    assert (E1 : exp (z ^ 2) <= 3).
    { apply Rle_trans with (exp 1); [|apply exp_le_3]. destruct (Req_dec (z ^ 2) 1) as [->|]; [lra|]. left; apply exp_increasing; lra. }
    pose proof (exp_pos (z ^ 2)) as E0.
    destruct N as [|[|n]]; try lia.
    assert (O : 3 <= odd_fact (S (S n))).
    { pose proof (odd_fact_mono 2 n) as O. cbn in O. replace (S (S n)) with (2 + n)%nat by lia. cbn in *. lra. }
    set (N := S (S n)) in *. assert (IN : 0 <= INR N) by apply pos_INR.
    cbn [odd_fact]. set (o := odd_fact N) in *. set (k := INR N) in *. set (x := exp (z ^ 2)) in *. set (p := (z ^ 2) ^ N) in *.
    clearbody o k x p.
    apply (Rmult_le_reg_r (o * ((2 * k + 1) * o))); [apply Rmult_lt_0_compat; [lra|apply Rmult_lt_0_compat; lra]|].
    unfold Rdiv at 1. rewrite Rmult_assoc, Rinv_l, Rmult_1_r; [|apply Rmult_integral_contrapositive_currified; [lra|apply Rmult_integral_contrapositive_currified; lra]].
    assert (px : p * x <= 3) by nra. assert (px0 : 0 <= p * x) by nra. assert (9 <= o * o) by nra.
    assert (k * (p * x) <= k * 3) by (apply Rmult_le_compat_l; lra).
    assert ((2 * k + 1) * 9 <= (2 * k + 1) * (o * o)) by (apply Rmult_le_compat_l; lra). nra. }
  destruct (C71_no_false_alarm eps (2 / 10 ^ 20) fuel z N b H) as (r & E & B); auto.
  - split; lra.
  - exists r. split; auto. lra.
Qed.
Print Assumptions C71_small_arguments.

(** ** The hypotheses are met: z = 1/2, N = 40 (as in C43). *)
Example C71_nonvacuous : exists r, sbesselj_sum (1 / 2 ^ 52) 2000 (1 / 2) (Z.of_nat 40) = Ok r /\ 1 / 2 ^ 52 <= r.
Proof.
  destruct half_regime as (A & _ & C). destruct (C71_small_arguments (1 / 2 ^ 52) 2000 (1 / 2) 40 A ltac:(lia) C) as (r & E & B).
  exists r. split; [exact E|]. apply B.
Qed.
