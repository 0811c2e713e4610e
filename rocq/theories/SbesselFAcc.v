(** * SbesselFAcc: accuracy of sbesselj in double precision, 0 < x <= 1. *)
From Coq Require Import ZArith List Bool SpecFloat Reals Lia Lra Psatz.
From Flocq Require Import Core.Core IEEE754.BinarySingleNaN.
From Flocq Require Import Relative.
From Verif Require Import Py PyFacts Num FloatN FloatText FileFacts2 MPysphi MDouble FlFacts SeedFl SeedFl2 FlSigned MSbesselF SbesselFTerm SbesselFRel SbesselFLoop.
From Verif Require Import CoefsFacts PysphiFacts SpecBessel Bessel Bessel2 SbesselFacts SbesselFacts2.
Open Scope R_scope.
#[local] Existing Instance FloatText.prec53.
#[local] Existing Instance FloatText.pe53.

(** ** Exact ratios *)
Definition rh (X : R) (m : nat) : R := sph_j m X / sph_j (Nat.pred m) X.
Section Ratios.
Variable X : R.
Hypothesis X0 : 0 < X.
Hypothesis X1 : X <= 1.
Lemma Xnz : X <> 0. Proof. lra. Qed.
Lemma Xabs : Rabs X <= 1. Proof. rewrite Rabs_pos_eq; lra. Qed.
Lemma rh_rec m : (1 <= m)%nat -> rh X m = 1 / ((2 * INR m + 1) / X - rh X (S m)).
Proof. intros H. exact (proj2 (rho_rec X O (fun _ => 0) (fun _ => 0) Xnz Xabs m H)). Qed.
Lemma qX m : (1 <= m)%nat -> 2 * INR m + 1 <= (2 * INR m + 1) / X.
Proof.
  intros H. apply le_INR in H. cbn [INR] in H. apply Rmult_le_reg_r with X; [exact X0|]. unfold Rdiv. rewrite Rmult_assoc, Rinv_l by lra. nra.
Qed.
Lemma rh_pos m : (1 <= m)%nat -> 0 < rh X m.
Proof.
  intros H. rewrite rh_rec by exact H. pose proof (rho_half X O (fun _ => 0) (fun _ => 0) Xnz Xabs (S m) ltac:(lia)) as B. change (Rabs (rh X (S m)) <= 1 / 2) in B.
  apply Rabs_le_inv in B. pose proof (qX m H). pose proof (pos_INR m). apply le_INR in H. cbn [INR] in H. apply Rdiv_lt_0_compat; lra.
Qed.
Lemma rh_bounds m : (1 <= m)%nat -> X / (2 * INR m + 1) <= rh X m <= X / (2 * INR m + 1 / 2).
Proof.
  intros H. pose proof (rho_half X O (fun _ => 0) (fun _ => 0) Xnz Xabs (S m) ltac:(lia)) as B. change (Rabs (rh X (S m)) <= 1 / 2) in B. apply Rabs_le_inv in B.
  pose proof (rh_pos (S m) ltac:(lia)) as P. pose proof (qX m H) as Q. pose proof (pos_INR m) as I. rewrite (rh_rec m H). set (r := rh X (S m)) in *. clearbody r. split.
  - replace (X / (2 * INR m + 1)) with (1 / ((2 * INR m + 1) / X)) by (field; split; lra).
    unfold Rdiv at 1 3. apply Rmult_le_compat_l; [lra|]. apply Rinv_le; lra.
  - replace (X / (2 * INR m + 1 / 2)) with (1 / ((2 * INR m + 1 / 2) / X)) by (field; split; lra).
    unfold Rdiv at 1 3. apply Rmult_le_compat_l; [lra|].
    assert (E : (2 * INR m + 1) / X = (2 * INR m + 1 / 2) / X + (1 / 2) / X) by (field; lra).
    assert (1 / 2 <= (1 / 2) / X). { apply Rmult_le_reg_r with X; [exact X0|]. unfold Rdiv at 2. rewrite Rmult_assoc, Rinv_l by lra. lra. }
    assert (0 < (2 * INR m + 1 / 2) / X) by (apply Rdiv_lt_0_compat; lra).
    apply Rinv_le; lra.
Qed.
Lemma rh_le m : (1 <= m)%nat -> rh X m <= 2 / 5.
Proof.
  intros H. destruct (rh_bounds m H) as [_ B]. apply le_INR in H. cbn [INR] in H. eapply Rle_trans; [exact B|].
  apply Rmult_le_reg_r with (2 * INR m + 1 / 2); [lra|]. unfold Rdiv at 1. rewrite Rmult_assoc, Rinv_l by lra. lra.
Qed.
Lemma j0_bounds : 5 / 6 <= sph_j 0 X <= 1.
Proof.
  rewrite sph_j_0 by lra. pose proof (sin_bound X 0) as S. pose proof PI2_3_2 as P2. specialize (S ltac:(lra) ltac:(lra)).
  unfold sin_approx, sin_term in S. cbn in S. split.
  - apply Rmult_le_reg_r with X; [exact X0|]. unfold Rdiv at 2. rewrite Rmult_assoc, Rinv_l, Rmult_1_r by lra.
    assert (X * (X * X) <= X * 1) by (apply Rmult_le_compat_l; nra). lra.
  - apply Rmult_le_reg_r with X; [exact X0|]. unfold Rdiv at 1. rewrite Rmult_assoc, Rinv_l, Rmult_1_r by lra. 
    pose proof (sin_lt_x X X0). lra.
Qed.
Lemma j_S m : sph_j (S m) X = rh X (S m) * sph_j m X.
Proof. unfold rh. cbn [Nat.pred]. field. apply (j_nz X Xnz Xabs). Qed.
Lemma j_pos m : 0 < sph_j m X <= 1.
Proof.
  induction m as [|m IH]; [pose proof j0_bounds; lra|]. rewrite j_S. pose proof (rh_pos (S m) ltac:(lia)). pose proof (rh_le (S m) ltac:(lia)).
  split; [apply Rmult_lt_0_compat; lra|]. nra.
Qed.
End Ratios.

(** ** One backward step: r_n = 1 / ((2n+1)/x - r_(n+1)) *)
Section Acc.
Variable x : f64.
Let X := V x.
Hypothesis Px : fpos x.
Hypothesis X0 : bpow radix2 (-400) <= X.
Hypothesis X1 : X <= 1.
Lemma Xp : 0 < X. Proof. exact (fpos_gt _ Px). Qed.
Lemma Rx : relf 0 x X.
Proof. pose proof Xp as P. clear X0 X1. destruct Px as (m & e & E & B). split; [|split]; [rewrite E; exact B|rewrite E; reflexivity|]. apply rel_refl. exact P. Qed.

Lemma q_rel k : (1 <= k < 2 ^ 25)%Z -> relf (104 / 100) (fdiv (fofZ k) x) (IZR k / X).
Proof.
  intros Hk. eapply relf_weaken; [|apply (relf_div 0 0)]; [lra|lra|lra|apply relf_int; lia|exact Rx|]. pose proof Xp as P.
  assert (1 <= IZR k <= bpow radix2 25) by (split; [apply IZR_le; lia|change (bpow radix2 25) with (IZR (2 ^ 25)); apply IZR_le; lia]).
  split.
  - apply Rle_trans with (bpow radix2 0); [apply bpow_le; lia|]. cbn [bpow]. apply Rmult_le_reg_r with X; [exact P|]. unfold Rdiv. rewrite Rmult_assoc, Rinv_l by lra. nra.
  - apply Rle_trans with (bpow radix2 25 * bpow radix2 400); [|rewrite <- bpow_plus; apply bpow_le; lia].
    apply Rmult_le_compat; [lra|left; apply Rinv_0_lt_compat; exact P|lra|]. change 400%Z with (- (-400))%Z. rewrite bpow_opp. apply Rinv_le; [apply bpow_gt_0|exact X0].
Qed.

Lemma back_step n r K : (1 <= n < 2 ^ 23)%Z -> 0 <= K <= 62 -> relf K r (rh X (S (Z.to_nat n))) ->
  relf 9 (fdiv (fofZ 1) (fsub (fdiv (fadd (fmul (fofZ 2) (fofZ n)) (fofZ 1)) x) r)) (rh X (Z.to_nat n)).
Proof.
  intros Hn HK Hr. rewrite (fmul_int 2 n), (fadd_int (2 * n) 1) by lia. pose proof Xp as P.
  pose proof (q_rel (2 * n + 1) ltac:(lia)) as Q. set (m := Z.to_nat n) in *. assert (Hm : (1 <= m)%nat) by lia.
  assert (Em : IZR (2 * n + 1) = 2 * INR m + 1) by (unfold m; rewrite INR_IZR_INZ, Z2Nat.id, plus_IZR, mult_IZR by lia; reflexivity). rewrite Em in Q.
  pose proof (rh_bounds X P X1 (S m) ltac:(lia)) as [_ B]. pose proof (rh_pos X P X1 (S m) ltac:(lia)) as B0. pose proof (qX X P X1 m Hm) as QX. rewrite S_INR in B.
  apply le_INR in Hm as Hm'. cbn [INR] in Hm'.
  assert (HB : rh X (S m) <= 1 / 12 * ((2 * INR m + 1) / X)).
  { eapply Rle_trans; [exact B|]. apply Rle_trans with (1 / (9 / 2)).
    - unfold Rdiv. apply Rmult_le_compat; [lra|left; apply Rinv_0_lt_compat; lra|lra|apply Rinv_le; lra].
    - lra. }
  rewrite (rh_rec X P X1 m) by lia. set (PP := (2 * INR m + 1) / X) in *.
  assert (Bt : IZR (2 * n + 1) <= bpow radix2 25) by (change (bpow radix2 25) with (IZR (2 ^ 25)); apply IZR_le; lia). rewrite Em in Bt.
  assert (UP : PP <= bpow radix2 425).
  { unfold PP. change 425%Z with (25 + 400)%Z. rewrite bpow_plus. apply Rmult_le_compat; [lra|left; apply Rinv_0_lt_compat; exact P|exact Bt|].
    change 400%Z with (- (-400))%Z. rewrite bpow_opp. apply Rinv_le; [apply bpow_gt_0|exact X0]. }
  assert (R3 : relf (69 / 10 + 101 / 100) (fsub (fdiv (fofZ (2 * n + 1)) x) r) (PP - rh X (S m))).
  { apply (relf_sub (104 / 100) K (69 / 10) (1 / 12)); auto; try lra. split.
    - apply Rle_trans with (bpow radix2 0); [apply bpow_le; lia|cbn [bpow]; lra].
    - apply Rle_trans with (bpow radix2 425); [lra|apply bpow_le; lia]. }
  eapply relf_weaken; [|apply (relf_div 0 (69 / 10 + 101 / 100)); [| |exact (relf_int 1 ltac:(lia))|exact R3|]]; [lra|lra|lra|].
  split.
  - apply Rle_trans with (bpow radix2 (-425)); [apply bpow_le; lia|]. unfold Rdiv. rewrite Rmult_1_l. change (-425)%Z with (- (425))%Z. rewrite bpow_opp. apply Rinv_le; lra.
  - apply Rle_trans with (bpow radix2 0); [|apply bpow_le; lia]. cbn [bpow]. unfold Rdiv. rewrite Rmult_1_l, <- Rinv_1. apply Rinv_le; lra.
Qed.

(** ** One forward step: j_(n+1) = r_(n+1) j_n, with underflow *)
Definition jerr (K : R) (o : f64) (j : R) : Prop := dbl o /\ fin o /\ 0 <= V o /\ Rabs (V o - j) <= K * uu * j + dmin.
Lemma fwd_step K L o r j rho : 0 <= K <= 10 ^ 9 -> 0 <= L <= 62 -> 0 < j <= 1 -> 0 < rho <= 2 / 5 -> jerr K o j -> relf L r rho ->
  jerr (K + L + 11 / 10) (fmul r o) (rho * j).
Proof.
  intros HK HL Hj Hr (Do & Fo & Po & Eo) (Dr & Fr & Rr). pose proof (rel_bounds L _ _ ltac:(lra) Rr) as Br. destruct Rr as [_ Er].
  pose proof uu_pos as U0. assert (U1 : uu <= / 10 ^ 15) by (rewrite uu_val; lra). pose proof dmin_small as [d0 d1].
  assert (KU : K * uu <= / 10 ^ 6) by (rewrite uu_val; lra). assert (LU : 0 <= L * uu <= / 10 ^ 13) by (split; [apply Rmult_le_pos; lra|rewrite uu_val; lra]).
  assert (KUj : 0 <= K * uu * j <= / 10 ^ 6 * j) by (split; [apply Rmult_le_pos; [apply Rmult_le_pos|]; lra|apply Rmult_le_compat_r; lra]).
  apply Rabs_le_inv in Eo as Eo2. assert (Oo : V o <= 1001 / 1000 * j + dmin) by lra.
  assert (Y0 : 0 <= V r * V o <= 1). { split; [apply Rmult_le_pos; lra|]. apply Rle_trans with (/ 2 * 2); [apply Rmult_le_compat; lra|lra]. }
  pose proof (fmul_rnd _ _ Dr Do Fr Fo) as R. assert (big : 2 <= bpow radix2 1023) by (change 2 with (bpow radix2 1); apply bpow_le; lia).
  destruct (is_rnd_fin _ _ R) as [F E]; [apply rnd_lt; rewrite Rabs_pos_eq; lra|]. split; [exact (is_rnd_dbl _ _ R)|]. split; [exact F|].
  split; [rewrite E; apply rnd_ge_0; lra|]. pose proof (rnd_abs_err (V r * V o)) as A. rewrite (Rabs_pos_eq (V r * V o)) in A by lra. rewrite <- E in A.
  replace (V (fmul r o) - rho * j) with ((V (fmul r o) - V r * V o) + (V r * (V o - j) + (V r - rho) * j)) by ring.
  eapply Rle_trans; [apply Rabs_triang|]. pose proof (Rabs_triang (V r * (V o - j)) ((V r - rho) * j)) as T. rewrite !Rabs_mult in T.
  rewrite (Rabs_pos_eq (V r)) in T by lra. rewrite (Rabs_pos_eq j) in T by lra.
  assert (rj : 0 < rho * j) by (apply Rmult_lt_0_compat; lra).
  assert (T2 : Rabs (V r - rho) * j <= L * uu * rho * j) by (apply Rmult_le_compat_r; lra).
  assert (Vr : V r <= rho + L * uu * rho) by (apply Rabs_le_inv in Er; lra).
  assert (T1 : V r * Rabs (V o - j) <= (rho + L * uu * rho) * (K * uu * j) + 401 / 1000 * dmin).
  { apply Rle_trans with (V r * (K * uu * j + dmin)); [apply Rmult_le_compat_l; lra|]. rewrite Rmult_plus_distr_l.
    apply Rplus_le_compat; [apply Rmult_le_compat_r; lra|apply Rmult_le_compat_r; lra]. }
  assert (LK : L * uu * rho * (K * uu * j) <= / 100 * uu * (rho * j)).
  { replace (L * uu * rho * (K * uu * j)) with ((L * uu) * K * (uu * (rho * j))) by ring. 
    replace (/ 100 * uu * (rho * j)) with (/ 100 * (uu * (rho * j))) by ring. apply Rmult_le_compat_r; [left; apply Rmult_lt_0_compat; lra|].
    apply Rle_trans with (/ 10 ^ 13 * 10 ^ 9); [apply Rmult_le_compat; lra|lra]. }
  assert (T0 : V r * V o <= 105 / 100 * (rho * j) + dmin).
  { apply Rle_trans with (1001 / 1000 * rho * (1001 / 1000 * j + dmin)); [apply Rmult_le_compat; lra|]. nra. }
  assert (T0' : uu * (V r * V o) <= uu * (105 / 100 * (rho * j) + dmin)) by (apply Rmult_le_compat_l; lra).
  assert (ud : uu * dmin <= / 100 * dmin) by (apply Rmult_le_compat_r; lra).
  assert (0 < uu * (rho * j)) by (apply Rmult_lt_0_compat; lra). nra.
Qed.
End Acc.
