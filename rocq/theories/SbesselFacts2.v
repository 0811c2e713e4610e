(** * SbesselFacts2: accuracy of the result of sbesselj. *)
From Coq Require Import ZArith List String Bool Reals Lra Lia.
From Coquelicot Require Import Coquelicot.
From Verif Require Import Py PyFacts MPysphi PysphiFacts SpecBessel Bessel Bessel2 MSbessel SbesselFacts.
Import ListNotations.
Open Scope R_scope.

Lemma nth_vget (l : list R) n : nth n l 0 = vget 0 l (Z.of_nat n).
Proof. unfold vget. destruct (Z.ltb_spec (Z.of_nat n) 0); [lia|]. now rewrite Nat2Z.id. Qed.

(** What a successful call returns, with natural-number indices: N = M + 1. *)
Lemma sbesselj_nat fuel x M out : x <> 0 -> (1 <= M)%nat -> sbesselj fuel x (Z.of_nat (S M)) = Ok out ->
  exists w r,
    sbesselj_loop fuel (x ^ 2) (Z.of_nat M) 1 (x / (2 * IZR (Z.of_nat M) + 1)) (x / (2 * IZR (Z.of_nat M) + 1)) = Ok w /\
    List.length out = S M /\
    r M = w /\
    (forall m, (1 <= m < M)%nat -> (2 * INR m + 1) / x - r (S m) <> 0 /\ r m = 1 / ((2 * INR m + 1) / x - r (S m))) /\
    nth 0 out 0 = sph_j 0 x /\
    nth 1 out 0 = (if Rle_dec (Rabs (sph_j 1 x)) (Rabs (sph_j 0 x)) then r 1%nat * nth 0 out 0 else sph_j 1 x) /\
    forall m, (1 <= m < M)%nat -> nth (S m) out 0 = r (S m) * nth m out 0.
Proof.
  intros Hx HM H. destruct (sbesselj_inv fuel x (Z.of_nat (S M)) out Hx ltac:(lia) H) as (w & r & W & (L & R0 & Rw & Rr) & Lo & O0 & O1 & On).
  exists w, (fun m => vget 0 r (Z.of_nat m)).
  replace (Z.of_nat (S M) - 1)%Z with (Z.of_nat M) in * by lia.
  split; [exact W|]. split; [unfold zlen in Lo; lia|]. split; [exact Rw|].
  split.
  { intros m Hm. destruct (Rr (Z.of_nat m) ltac:(lia)) as [A B].
    rewrite INR_IZR_INZ. replace (Z.of_nat (S m)) with (Z.of_nat m + 1)%Z by lia. auto. }
  split; [rewrite nth_vget; rewrite sph_j_0 by auto; exact O0|].
  split.
  { rewrite sph_j_1, sph_j_0 by auto. rewrite !nth_vget. change (Z.of_nat 1) with 1%Z. change (Z.of_nat 0) with 0%Z. rewrite O1. reflexivity. }
  intros m Hm. rewrite !nth_vget. replace (Z.of_nat (S m)) with (Z.of_nat m + 1)%Z by lia. apply On. lia.
Qed.

(** the recurrence, from index p + 1 on *)
Lemma out_rec x M (r o : nat -> R) (p : nat) :
  (forall m, (1 <= m < M)%nat -> (2 * INR m + 1) / x - r (S m) <> 0 /\ r m = 1 / ((2 * INR m + 1) / x - r (S m))) ->
  (forall m, (p <= m < M)%nat -> o (S m) = r (S m) * o m) ->
  forall m, (p <= m)%nat -> (S m < M)%nat -> o (S (S m)) = (2 * INR m + 3) / x * o (S m) - o m.
Proof.
  intros Hr Ho m Hm HM.
  destruct (Hr (S m) ltac:(lia)) as [D E]. rewrite S_INR in *.
  replace (2 * INR m + 3) with (2 * (INR m + 1) + 1) by ring.
  set (q := (2 * (INR m + 1) + 1) / x) in *. rewrite (Ho (S m)) by lia. rewrite (Ho m) by lia. rewrite E.
  set (d := q - r (S (S m))) in *. replace (r (S (S m))) with (q - d) by (unfold d; ring). field. auto.
Qed.

Lemma q_le1 d : (1 / 4) ^ d <= 1.
Proof. pose proof (pow_incr (1 / 4) 1 d ltac:(lra)) as H. rewrite pow1 in H. exact H. Qed.

Section Err.
Variables (x : R) (M p : nat) (o : nat -> R).
Hypothesis Hx : x <> 0.
Hypothesis Hp : (p < M)%nat.
Hypothesis Hrec : forall m, (p <= m)%nat -> (S m < M)%nat -> o (S (S m)) = (2 * INR m + 3) / x * o (S m) - o m.
Hypothesis Hop : o p = sph_j p x.
Let K := o p * sph_j (S p) x - o (S p) * sph_j p x.

Lemma K_const d : (p + d < M)%nat -> o (p + d)%nat * sph_j (S (p + d)) x - o (S (p + d)) * sph_j (p + d) x = K.
Proof.
  induction d as [|d IH]; intros H; [now rewrite Nat.add_0_r|].
  rewrite Nat.add_succ_r in *. rewrite Hrec, sph_j_rec by (auto; lia). rewrite <- IH by lia. ring.
Qed.
Lemma err_formula d : (p + d <= M)%nat ->
  sph_j p x * (o (p + d)%nat - sph_j (p + d) x) = x ^ 2 * K * (sph_j p x * sph_y (p + d) x - sph_y p x * sph_j (p + d) x).
Proof.
  enough (G : forall d, ((p + d <= M)%nat -> sph_j p x * (o (p + d)%nat - sph_j (p + d) x) = x ^ 2 * K * (sph_j p x * sph_y (p + d) x - sph_y p x * sph_j (p + d) x))
     /\ ((p + S d <= M)%nat -> sph_j p x * (o (p + S d)%nat - sph_j (p + S d) x) = x ^ 2 * K * (sph_j p x * sph_y (p + S d) x - sph_y p x * sph_j (p + S d) x)))
    by (apply G).
  clear d. induction d as [|d [I1 I2]].
  - rewrite Nat.add_0_r, Nat.add_1_r. split; intros _; [rewrite Hop; ring|].
    pose proof (cross_product p x Hx) as CP.
    replace (sph_j p x * sph_y (S p) x - sph_y p x * sph_j (S p) x) with (- (1 / x ^ 2)) by (rewrite <- CP; ring).
    unfold K. rewrite Hop. field. auto.
  - split; auto. intros H. specialize (I1 ltac:(lia)). specialize (I2 ltac:(lia)).
    rewrite !Nat.add_succ_r in *. rewrite Hrec, sph_j_rec, sph_y_rec by (auto; lia).
    set (q := (2 * INR (p + d) + 3) / x).
    transitivity (q * (sph_j p x * (o (S (p + d)) - sph_j (S (p + d)) x)) - sph_j p x * (o (p + d)%nat - sph_j (p + d) x)); [ring|].
    rewrite I1, I2. ring.
Qed.
End Err.

(** ** |x| <= 1: two units in the 20th digit *)
Section Small.
Variables (x : R) (M : nat) (r o : nat -> R).
Hypothesis Hx : x <> 0.
Hypothesis X1 : Rabs x <= 1.
Let rho m := sph_j m x / sph_j (pred m) x.

Lemma j_nz m : sph_j m x <> 0.
Proof. apply j_decreasing; auto. rewrite S_INR. pose proof (pos_INR m). lra. Qed.
Lemma rho_half m : (1 <= m)%nat -> Rabs (rho m) <= 1 / 2.
Proof.
  intros Hm. destruct m as [|m]; [lia|]. unfold rho. cbn [pred].
  destruct (j_decreasing x m Hx) as (_ & J & D). { rewrite S_INR. pose proof (pos_INR m). lra. }
  rewrite Rabs_div by auto. pose proof (Rabs_pos_lt _ J). pose proof (Rabs_pos (sph_j (S m) x)).
  apply (Rmult_le_reg_r (Rabs (sph_j m x))); auto. unfold Rdiv at 1. rewrite Rmult_assoc, Rinv_l by lra.
  rewrite S_INR in D. pose proof (pos_INR m). nra.
Qed.
Lemma rho_rec m : (1 <= m)%nat -> (2 * INR m + 1) / x - rho (S m) <> 0 /\ rho m = 1 / ((2 * INR m + 1) / x - rho (S m)).
Proof.
  intros Hm. destruct m as [|m]; [lia|]. unfold rho. cbn [pred]. pose proof (j_nz m). pose proof (j_nz (S m)).
  assert (E : (2 * INR (S m) + 1) / x - sph_j (S (S m)) x / sph_j (S m) x = sph_j m x / sph_j (S m) x).
  { rewrite sph_j_rec, S_INR by auto. field; auto. }
  rewrite E. split.
  - unfold Rdiv. apply Rmult_integral_contrapositive. split; auto. apply Rinv_neq_0_compat; auto.
  - field; auto.
Qed.
Lemma rho_nz m : rho m <> 0.
Proof. unfold rho, Rdiv. apply Rmult_integral_contrapositive. split; [apply j_nz|apply Rinv_neq_0_compat, j_nz]. Qed.

Variable e : R.
Hypothesis He : 0 <= e <= 1 / 100.
Hypothesis Hr : forall m, (1 <= m < M)%nat -> (2 * INR m + 1) / x - r (S m) <> 0 /\ r m = 1 / ((2 * INR m + 1) / x - r (S m)).
Hypothesis HM : Rabs (r M - rho M) <= e * Rabs (rho M).

Lemma r_close d : (d < M)%nat -> Rabs (r (M - d)%nat - rho (M - d)%nat) <= e * (1 / 4) ^ d * Rabs (rho (M - d)%nat).
Proof.
  induction d as [|d IH]; intros Hd.
  - rewrite Nat.sub_0_r. cbn [pow]. lra.
  - specialize (IH ltac:(lia)). set (m := (M - S d)%nat) in *. replace (M - d)%nat with (S m) in IH by lia.
    destruct (Hr m ltac:(lia)) as [D1 E1]. destruct (rho_rec m ltac:(lia)) as [D2 E2].
    pose proof (rho_half (S m) ltac:(lia)) as H1. pose proof (rho_half m ltac:(lia)) as H0.
    assert (Q : 0 <= (1 / 4) ^ d <= 1).
    { split; [apply pow_le; lra|]. apply q_le1. }
    set (q := (1 / 4) ^ d) in *. pose proof (Rabs_pos (rho (S m))).
    assert (EQ : 0 <= e * q <= 1 / 100) by nra.
    assert (RB : Rabs (r (S m)) <= 1).
    { replace (r (S m)) with (rho (S m) + (r (S m) - rho (S m))) by ring. eapply Rle_trans; [apply Rabs_triang|]. nra. }
    assert (B3 : 3 <= Rabs ((2 * INR m + 1) / x)).
    { assert (1 <= INR m) by (change 1 with (INR 1); apply le_INR; lia).
      pose proof (Rabs_pos_lt x Hx). rewrite Rabs_div by auto. rewrite (Rabs_right (2 * INR m + 1)) by lra.
      apply (Rmult_le_reg_r (Rabs x)); auto. unfold Rdiv. rewrite Rmult_assoc, Rinv_l by lra. nra. }
    assert (RM : Rabs (r m) <= 1 / 2).
    { rewrite E1, Rabs_div, Rabs_R1 by auto. pose proof (Rabs_triang_inv ((2 * INR m + 1) / x) (r (S m))).
      apply Rle_trans with (/ 2); [|lra]. unfold Rdiv. rewrite Rmult_1_l. apply Rinv_le_contravar; unfold Rdiv in *; lra. }
    assert (EX : r m - rho m = (r (S m) - rho (S m)) * (r m * rho m)).
    { rewrite E1, E2. clear - D1 D2. set (a := (2 * INR m + 1) / x) in *. set (d1 := a - r (S m)) in *. set (d2 := a - rho (S m)) in *.
      replace (r (S m) - rho (S m)) with (d2 - d1) by (unfold d1, d2; ring). field. auto. }
    rewrite EX, !Rabs_mult. cbn [pow]. fold q.
    set (a := Rabs (r (S m) - rho (S m))) in *. set (b := Rabs (r m)) in *. set (c := Rabs (rho m)) in *.
    assert (0 <= a) by apply Rabs_pos. assert (0 <= b) by apply Rabs_pos. assert (0 <= c) by apply Rabs_pos.
    assert (a <= e * q * (1 / 2)) by nra.
    assert (a * b <= e * q * (1 / 2) * (1 / 2)) by (apply Rmult_le_compat; lra).
    replace (a * (b * c)) with (a * b * c) by ring. replace (e * (1 / 4 * q) * c) with (e * q * (1 / 2) * (1 / 2) * c) by (field).
    apply Rmult_le_compat_r; auto.
Qed.
Hypothesis Ho0 : o 0%nat = sph_j 0 x.
Hypothesis Ho : forall m, (m < M)%nat -> o (S m) = r (S m) * o m.
Lemma o_close m : (m <= M)%nat -> Rabs (o m - sph_j m x) <= 8 / 5 * e * (1 / 4) ^ (M - m) * Rabs (sph_j m x).
Proof.
  induction m as [|m IH]; intros Hm.
  - rewrite Ho0, Rminus_eq_0, Rabs_R0. pose proof (Rabs_pos (sph_j 0 x)). pose proof (pow_le (1/4) (M - 0) ltac:(lra)). 
    apply Rmult_le_pos; auto. apply Rmult_le_pos; auto. lra.
  - specialize (IH ltac:(lia)). pose proof (r_close (M - S m) ltac:(lia)) as RC.
    replace (M - (M - S m))%nat with (S m) in RC by lia.
    replace (M - m)%nat with (S (M - S m)) in IH by lia. cbn [pow] in IH.
    assert (Q : 0 <= (1 / 4) ^ (M - S m) <= 1).
    { split; [apply pow_le; lra|]. apply q_le1. }
    set (q := (1 / 4) ^ (M - S m)) in *.
    assert (JJ : sph_j (S m) x = rho (S m) * sph_j m x) by (unfold rho; cbn [pred]; field; apply j_nz).
    rewrite Ho by lia. rewrite JJ.
    replace (r (S m) * o m - rho (S m) * sph_j m x) with (r (S m) * (o m - sph_j m x) + (r (S m) - rho (S m)) * sph_j m x) by ring.
    eapply Rle_trans; [apply Rabs_triang|]. rewrite !Rabs_mult.
    assert (RB : Rabs (r (S m)) <= (1 + e * q) * Rabs (rho (S m))).
    { replace (r (S m)) with (rho (S m) + (r (S m) - rho (S m))) by ring. eapply Rle_trans; [apply Rabs_triang|]. lra. }
    set (j := Rabs (sph_j m x)) in *. set (h := Rabs (rho (S m))) in *.
    assert (0 <= j) by apply Rabs_pos. assert (0 <= h) by apply Rabs_pos.
    assert (EQ : 0 <= e * q <= 1 / 100) by nra.
    pose proof (Rabs_pos (r (S m))). pose proof (Rabs_pos (o m - sph_j m x)). pose proof (Rabs_pos (r (S m) - rho (S m))).
    apply Rle_trans with (((1 + e * q) * h) * (8 / 5 * e * (1 / 4 * q) * j) + e * q * h * j).
    + apply Rplus_le_compat; [apply Rmult_le_compat; auto|apply Rmult_le_compat_r; auto].
    + assert (0 <= h * j) by nra. set (t := e * q) in *.
      replace ((1 + t) * h * (8 / 5 * e * (1 / 4 * q) * j) + t * h * j) with ((1 + t) * (2 / 5) * t * (h * j) + t * (h * j)) by (unfold t; field).
      replace (8 / 5 * e * q * (h * j)) with (8 / 5 * t * (h * j)) by (unfold t; ring).
      assert (0 <= t * (h * j)) by nra. nra.
Qed.
End Small.
