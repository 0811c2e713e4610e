(** * Bessel2: ratios of spherical Bessel functions and the continued
    fraction computed by sbesselj. *)
From Coq Require Import Reals Lra Lia Factorial Classical.
From Coquelicot Require Import Coquelicot.
From Verif Require Import SpecBessel Bessel.
Open Scope R_scope.

Lemma j_not_both n x : x <> 0 -> sph_j n x <> 0 \/ sph_j (S n) x <> 0.
Proof.
  intros H. destruct (Req_dec (sph_j n x) 0) as [A|]; auto.
  destruct (Req_dec (sph_j (S n) x) 0) as [B|]; auto.
  pose proof (cross_product n x H) as E. rewrite A, B in E.
  assert (0 < 1 / x ^ 2) by (apply Rdiv_lt_0_compat; [lra|]; nra). lra.
Qed.

Lemma j_descends x M : x <> 0 -> exists m, (M <= m)%nat /\ Rabs (sph_j (S m) x) <= Rabs (sph_j m x).
Proof.
  intros H. apply NNPP. intros N.
  assert (G : forall m, (M <= m)%nat -> Rabs (sph_j m x) < Rabs (sph_j (S m) x)).
  { intros m Hm. apply Rnot_le_lt. intros L. apply N. exists m; auto. }
  set (e := Rabs (sph_j (S M) x)).
  assert (He : 0 < e) by (pose proof (G M (le_n _)); pose proof (Rabs_pos (sph_j M x)); unfold e; lra).
  assert (LB : forall d, e <= Rabs (sph_j (S M + d) x)).
  { induction d as [|d IH]; [rewrite Nat.add_0_r; unfold e; lra|].
    rewrite Nat.add_succ_r. pose proof (G (S M + d)%nat ltac:(lia)). lra. }
  pose proof (sph_j_lim x) as Lm. apply is_lim_seq_Reals in Lm.
  destruct (Lm e He) as (K & HK). specialize (HK (S M + K)%nat ltac:(lia)).
  unfold R_dist in HK. rewrite Rminus_0_r in HK. specialize (LB K). lra.
Qed.

Lemma j_step x m : x <> 0 -> Rabs x <= INR (S m) -> Rabs (sph_j (S (S m)) x) <= Rabs (sph_j (S m) x) ->
  (2 * INR (S m) + 1 - Rabs x) * Rabs (sph_j (S m) x) <= Rabs x * Rabs (sph_j m x).
Proof.
  intros H Hx D. rewrite sph_j_rec in D by auto. pose proof (Rabs_pos_lt x H) as P.
  set (a := sph_j (S m) x) in *. set (b := sph_j m x) in *.
  assert (E : (2 * INR m + 3) * a = x * ((2 * INR m + 3) / x * a - b) + x * b) by (field; auto).
  assert (F : Rabs ((2 * INR m + 3) * a) <= Rabs x * Rabs a + Rabs x * Rabs b).
  { rewrite E. eapply Rle_trans; [apply Rabs_triang|]. rewrite !Rabs_mult.
    apply Rplus_le_compat_r, Rmult_le_compat_l; lra. }
  rewrite Rabs_mult, (Rabs_right (2 * INR m + 3)) in F by (pose proof (pos_INR m); lra).
  rewrite S_INR. lra.
Qed.
Lemma j_step_le x m : x <> 0 -> Rabs x <= INR (S m) ->
  (2 * INR (S m) + 1 - Rabs x) * Rabs (sph_j (S m) x) <= Rabs x * Rabs (sph_j m x) ->
  Rabs (sph_j (S m) x) <= Rabs (sph_j m x).
Proof.
  intros H Hx D. pose proof (Rabs_pos (sph_j m x)). pose proof (Rabs_pos (sph_j (S m) x)).
  pose proof (Rabs_pos_lt x H). apply (Rmult_le_reg_l (Rabs x)); auto.
  eapply Rle_trans; [|exact D]. apply Rmult_le_compat_r; lra.
Qed.
(** |j_(m+1)| <= |j_m| as soon as |x| <= m + 1. *)
Lemma j_decreasing x m : x <> 0 -> Rabs x <= INR (S m) ->
  Rabs (sph_j (S m) x) <= Rabs (sph_j m x) /\ sph_j m x <> 0 /\
  (2 * INR (S m) + 1 - Rabs x) * Rabs (sph_j (S m) x) <= Rabs x * Rabs (sph_j m x).
Proof.
  intros H Hx.
  assert (D : forall d m, Rabs x <= INR (S m) -> Rabs (sph_j (S (m + d)) x) <= Rabs (sph_j (m + d) x) ->
                Rabs (sph_j (S m) x) <= Rabs (sph_j m x)).
  { induction d as [|d IH]; intros k Hk L; [rewrite Nat.add_0_r in L; auto|].
    assert (Rabs (sph_j (S (S k)) x) <= Rabs (sph_j (S k) x)).
    { apply IH; [rewrite S_INR; lra|]. replace (S k + d)%nat with (k + S d)%nat by lia. auto. }
    apply j_step_le; auto. apply j_step; auto. }
  assert (A : forall k, (m <= k)%nat -> Rabs (sph_j (S k) x) <= Rabs (sph_j k x)).
  { intros k Hk. destruct (j_descends x k H) as (q & Hq & L).
    apply (D (q - k)%nat); [apply le_INR in Hk; rewrite S_INR in *; lra|].
    replace (k + (q - k))%nat with q by lia. auto. }
  split; [apply A; lia|]. split.
  - intros E. pose proof (A m (le_n _)) as L. rewrite E, Rabs_R0 in L.
    pose proof (Rabs_pos (sph_j (S m) x)). assert (Z : Rabs (sph_j (S m) x) = 0) by lra.
    destruct (j_not_both m x H) as [Q|Q]; auto. apply Rabs_no_R0 in Q. lra.
  - apply j_step; auto.
Qed.

(** ** Convergents *)

Definition cA x n k := snd (cf_num x n k).
Definition cB x n k := snd (cf_den x n k).
Definition cA' x n k := fst (cf_num x n k).
Definition cB' x n k := fst (cf_den x n k).
Definition bb (n k : nat) : R := 2 * INR (n + k) + 1.

Lemma cA_S x n k : cA x n (S k) = bb n (S k) * cA x n k - x ^ 2 * cA' x n k.
Proof. unfold cA, cA', bb. cbn [cf_num]. destruct (cf_num x n k). reflexivity. Qed.
Lemma cA'_S x n k : cA' x n (S k) = cA x n k.
Proof. unfold cA, cA'. cbn [cf_num]. destruct (cf_num x n k). reflexivity. Qed.
Lemma cB_S x n k : cB x n (S k) = bb n (S k) * cB x n k - x ^ 2 * cB' x n k.
Proof. unfold cB, cB', bb. cbn [cf_den]. destruct (cf_den x n k). reflexivity. Qed.
Lemma cB'_S x n k : cB' x n (S k) = cB x n k.
Proof. unfold cB, cB'. cbn [cf_den]. destruct (cf_den x n k). reflexivity. Qed.
Lemma bb_pos n k : 1 <= bb n k.
Proof. unfold bb. pose proof (pos_INR (n + k)). lra. Qed.
Lemma bb_S n k : bb n (S k) = bb n k + 2.
Proof. unfold bb. rewrite Nat.add_succ_r, S_INR. ring. Qed.

Lemma cf_det x n k : cA x n k * cB' x n k - cA' x n k * cB x n k = x * x ^ (2 * k).
Proof.
  induction k as [|k IH]; [unfold cA, cB, cA', cB'; cbn; ring|].
  rewrite cA_S, cA'_S, cB_S, cB'_S. replace (2 * S k)%nat with (S (S (2 * k))) by lia. cbn [pow].
  transitivity (x * x * (cA x n k * cB' x n k - cA' x n k * cB x n k)); [ring|]. rewrite IH. ring.
Qed.

(** Exact error of the convergents of j_(n+1) / j_n (n0 = n + 1). *)
Lemma cf_tail x n k : x <> 0 ->
  cB x (S n) k * sph_j (S n) x - cA x (S n) k * sph_j n x = x ^ (S k) * sph_j (S (S n) + k) x /\
  cB' x (S n) k * sph_j (S n) x - cA' x (S n) k * sph_j n x = x ^ k * sph_j (S n + k) x.
Proof.
  intros H. induction k as [|k [I1 I2]].
  - rewrite !Nat.add_0_r. split; [|unfold cA', cB'; cbn; ring].
    rewrite sph_j_rec by auto. unfold cA, cB. cbn [cf_num cf_den snd]. rewrite S_INR. cbn [pow]. field; auto.
  - rewrite cA_S, cB_S, cA'_S, cB'_S. split.
    2:{ replace (S n + S k)%nat with (S (S n) + k)%nat by lia. exact I1. }
    transitivity (bb (S n) (S k) * (cB x (S n) k * sph_j (S n) x - cA x (S n) k * sph_j n x)
                  - x ^ 2 * (cB' x (S n) k * sph_j (S n) x - cA' x (S n) k * sph_j n x)); [ring|].
    rewrite I1, I2. 
    replace (S (S n) + S k)%nat with (S (S (S n + k))) by lia. replace (S (S n) + k)%nat with (S (S n + k)) by lia.
    rewrite (sph_j_rec (S n + k)) by auto. unfold bb. rewrite Nat.add_succ_r, S_INR. cbn [pow]. field; auto.
Qed.

Section Regime.
Variables (x : R) (n : nat).
Hypothesis Hx : x <> 0.
Hypothesis Hn : Rabs x <= INR (S n).

Let P : 0 < Rabs x. Proof. apply Rabs_pos_lt; auto. Qed.

Lemma bb_ge k : 2 * Rabs x + 1 <= bb (S n) k.
Proof. unfold bb. rewrite plus_INR. pose proof (pos_INR k). lra. Qed.
Lemma cB_pos k : 0 < cB' x (S n) k /\ (bb (S n) k - Rabs x) * cB' x (S n) k <= cB x (S n) k.
Proof.
  induction k as [|k [I1 I2]].
  - unfold cB', cB, bb. cbn [cf_den fst snd]. rewrite Nat.add_0_r. pose proof (Rabs_pos x). split; lra.
  - pose proof (bb_ge k) as G. pose proof (bb_ge (S k)) as G1. rewrite cB_S, cB'_S.
    assert (Q : Rabs x * cB' x (S n) k <= cB x (S n) k) by nra.
    split; [nra|]. rewrite <- (pow2_abs x). nra.
Qed.
Lemma cB_pos' k : 0 < cB x (S n) k.
Proof. destruct (cB_pos k) as [A B]. pose proof (bb_ge k). pose proof P. nra. Qed.
Lemma cB_ratio k : (INR (S n) + 1) * (Rabs x * cB' x (S n) k) <= INR (S n) * cB x (S n) k.
Proof.
  destruct (cB_pos k) as [A B]. pose proof P. pose proof (bb_ge k).
  assert (H1 : INR (S n) + 1 <= bb (S n) k - Rabs x) by (unfold bb; rewrite plus_INR; pose proof (pos_INR k); lra).
  assert (H2 : (INR (S n) + 1) * cB' x (S n) k <= cB x (S n) k) by nra.
  apply Rle_trans with (Rabs x * cB x (S n) k); [nra|]. apply Rmult_le_compat_r; [|exact Hn].
  left; apply cB_pos'.
Qed.

Definition wk (k : nat) : R := cA x (S n) k / cB x (S n) k.
Definition vk (k : nat) : R := x * x ^ (2 * k) / (cB x (S n) k * cB' x (S n) k).

Lemma wk_S k : wk (S k) = wk k + vk (S k).
Proof.
  unfold wk, vk. pose proof (cf_det x (S n) (S k)) as D. rewrite <- D, cA'_S, cB'_S.
  pose proof (cB_pos' k). pose proof (cB_pos' (S k)). field. split; lra.
Qed.
Lemma wk_0 : wk 0 = vk 0.
Proof.
  change (x / (2 * INR (S n) + 1) = x * 1 / ((2 * INR (S n) + 1) * 1)).
  pose proof (pos_INR (S n)). field. lra.
Qed.
Lemma xpow2 k : 0 < x ^ (2 * k).
Proof.
  rewrite pow_mult. apply pow_lt. rewrite <- pow2_abs. pose proof P. nra.
Qed.
Lemma vk_sign k : 0 < x * vk k.
Proof.
  unfold vk. pose proof (cB_pos' k). destruct (cB_pos k) as [A _]. pose proof (xpow2 k).
  replace (x * (x * x ^ (2 * k) / (cB x (S n) k * cB' x (S n) k))) with (x ^ 2 * (x ^ (2 * k) / (cB x (S n) k * cB' x (S n) k))).
  - apply Rmult_lt_0_compat; [rewrite <- pow2_abs; pose proof P; nra|]. apply Rdiv_lt_0_compat; auto. nra.
  - field. split; lra.
Qed.
Lemma vk_step k : x * vk (S k) = x * vk k * ((Rabs x * cB' x (S n) k / cB x (S n) k) * (Rabs x * cB' x (S n) (S k) / cB x (S n) (S k))).
Proof.
  unfold vk. rewrite cB'_S. replace (2 * S k)%nat with (S (S (2 * k))) by lia. cbn [pow].
  pose proof (cB_pos' k). pose proof (cB_pos' (S k)). destruct (cB_pos k) as [A _].
  transitivity (x * (x * (Rabs x * Rabs x * x ^ (2 * k)) / (cB x (S n) (S k) * cB x (S n) k))).
  - replace (Rabs x * Rabs x) with (x * x); [field; split; lra|]. rewrite <- Rabs_mult. symmetry. apply Rabs_right. nra.
  - field. repeat split; lra.
Qed.
Let rho := INR (S n) / (INR (S n) + 1).
Lemma rho_bd : 0 <= rho < 1.
Proof.
  unfold rho. pose proof (pos_INR (S n)). split; [apply Rdiv_le_0_compat; lra|].
  apply (Rmult_lt_reg_r (INR (S n) + 1)); [lra|]. unfold Rdiv. rewrite Rmult_assoc, Rinv_l by lra. lra.
Qed.
Lemma q_bd k : 0 <= Rabs x * cB' x (S n) k / cB x (S n) k <= rho.
Proof.
  pose proof (cB_pos' k). destruct (cB_pos k) as [A _]. pose proof P. pose proof (cB_ratio k). pose proof (pos_INR (S n)). split.
  - apply Rdiv_le_0_compat; auto. nra.
  - unfold rho. apply (Rmult_le_reg_r (cB x (S n) k)); auto. unfold Rdiv at 1. rewrite Rmult_assoc, Rinv_l by lra.
    apply (Rmult_le_reg_l (INR (S n) + 1)); [lra|].
    replace ((INR (S n) + 1) * (INR (S n) / (INR (S n) + 1) * cB x (S n) k)) with (INR (S n) * cB x (S n) k) by (field; lra).
    lra.
Qed.
Lemma vk_small k : x * vk k <= rho ^ (2 * k) * (x * vk 0).
Proof.
  induction k as [|k IH]; [cbn; lra|].
  rewrite vk_step. pose proof (q_bd k) as [Q1 Q2]. pose proof (q_bd (S k)) as [Q3 Q4]. pose proof rho_bd as [R1 R2].
  pose proof (vk_sign k). pose proof (vk_sign 0). replace (2 * S k)%nat with (S (S (2 * k))) by lia. cbn [pow].
  set (a := Rabs x * cB' x (S n) k / cB x (S n) k) in *. set (b := Rabs x * cB' x (S n) (S k) / cB x (S n) (S k)) in *.
  assert (a * b <= rho * rho) by (apply Rmult_le_compat; lra).
  assert (0 <= a * b) by nra.
  apply Rle_trans with ((rho ^ (2 * k) * (x * vk 0)) * (rho * rho)); [|right; ring].
  apply Rmult_le_compat; lra.
Qed.
Lemma wk_sign k : x * vk 0 <= x * wk k.
Proof.
  induction k as [|k IH]; [rewrite wk_0; lra|]. rewrite wk_S. pose proof (vk_sign (S k)). lra.
Qed.
Lemma wk_nz k : wk k <> 0.
Proof. intros E. pose proof (wk_sign k) as S. rewrite E in S. pose proof (vk_sign 0). lra. Qed.
Lemma ratio_abs k : Rabs (vk k / wk k) = x * vk k / (x * wk k).
Proof.
  pose proof (wk_sign k). pose proof (vk_sign 0). pose proof (vk_sign k). pose proof (wk_nz k).
  replace (vk k / wk k) with (x * vk k / (x * wk k)) by (field; split; auto).
  apply Rabs_right. left. apply Rdiv_lt_0_compat; lra.
Qed.
Lemma ratio_small k : Rabs (vk k / wk k) <= rho ^ (2 * k).
Proof.
  rewrite ratio_abs. pose proof (wk_sign k). pose proof (vk_sign 0). pose proof (vk_small k). pose proof rho_bd.
  pose proof (pow_le rho (2 * k) ltac:(lra)).
  apply (Rmult_le_reg_r (x * wk k)); [lra|]. unfold Rdiv. rewrite Rmult_assoc, Rinv_l by lra. nra.
Qed.
(** 34 (n+1) steps are enough for 1e-20. *)
Lemma rho_pow : rho ^ (2 * (34 * S n)) <= 1 / 10 ^ 20.
Proof.
  replace (2 * (34 * S n))%nat with (S n * 68)%nat by lia. rewrite pow_mult.
  assert (A : rho ^ S n <= 1 / 2).
  { unfold rho. pose proof (pos_INR n). assert (0 < INR (S n)) by (rewrite S_INR; lra).
    assert (B : 2 <= (1 + / INR (S n)) ^ S n).
    { eapply Rle_trans; [|apply poly; apply Rinv_0_lt_compat; auto]. rewrite Rinv_r by lra. lra. }
    assert (C : (INR (S n) / (INR (S n) + 1)) * (1 + / INR (S n)) = 1) by (field; lra).
    pose proof (pow_lt (INR (S n) / (INR (S n) + 1)) (S n) ltac:(apply Rdiv_lt_0_compat; lra)) as D.
    assert (E : (INR (S n) / (INR (S n) + 1)) ^ S n * (1 + / INR (S n)) ^ S n = 1) by (rewrite <- Rpow_mult_distr, C; apply pow1).
    nra. }
  apply Rle_trans with ((1 / 2) ^ 68).
  - apply pow_incr. split; auto. apply pow_le, rho_bd.
  - replace ((1 / 2) ^ 68) with (/ 2 ^ 68) by (rewrite <- pow_inv; f_equal; lra).
    unfold Rdiv. rewrite Rmult_1_l. apply Rinv_le_contravar; [apply pow_lt; lra|]. lra.
Qed.

(** The error of a convergent is at most |x| times its last correction. *)
Lemma cf_error k : Rabs (wk k - sph_j (S n) x / sph_j n x) <= Rabs x * Rabs (vk k).
Proof.
  destruct (j_decreasing x n Hx Hn) as (_ & J0 & _).
  destruct (cf_tail x n k Hx) as [T1 T2].
  destruct (j_decreasing x (S n + k)%nat Hx) as (D & _ & _).
  { rewrite S_INR, plus_INR. pose proof (pos_INR k). rewrite S_INR in *. lra. }
  pose proof (cB_pos' k) as PB. destruct (cB_pos k) as [PB' GB]. pose proof (bb_ge k) as Gb.
  pose proof (cf_det x (S n) k) as DET.
  set (A := cA x (S n) k) in *. set (A1 := cA' x (S n) k) in *. set (B := cB x (S n) k) in *. set (B1 := cB' x (S n) k) in *.
  set (j0 := sph_j n x) in *. set (j1 := sph_j (S n) x) in *.
  replace (S (S n) + k)%nat with (S (S n + k)) in T1 by lia.
  set (jk := sph_j (S n + k) x) in *. set (jk1 := sph_j (S (S n + k)) x) in *.
  assert (XK : x ^ k <> 0) by (apply pow_nonzero; auto).
  (* x^(k+1) j0 = B jk - x B1 jk1 *)
  assert (W : x * x ^ k * j0 = B * jk - x * B1 * jk1).
  { apply (Rmult_eq_reg_l (x ^ k)); auto.
    transitivity (j0 * (A * B1 - A1 * B)).
    - rewrite DET. replace (2 * k)%nat with (k + k)%nat by lia. rewrite pow_add. ring.
    - transitivity (B * (x ^ k * jk) - B1 * (x ^ S k * jk1)); [rewrite <- T1, <- T2; ring|cbn [pow]; ring]. }
  assert (LOW : B1 * Rabs jk1 <= Rabs (x * x ^ k * j0)).
  { rewrite W. pose proof (Rabs_triang_inv (B * jk) (x * B1 * jk1)) as TI.
    rewrite !Rabs_mult, (Rabs_right B), (Rabs_right B1) in TI by lra. pose proof (Rabs_pos jk1). pose proof P.
    assert (B * Rabs jk1 <= B * Rabs jk) by (apply Rmult_le_compat_l; lra).
    assert ((bb (S n) k - Rabs x) * B1 * Rabs jk1 <= B * Rabs jk1) by (apply Rmult_le_compat_r; lra).
    assert (0 <= B1 * Rabs jk1) by nra. nra. }
  unfold wk, vk. fold A B B1.
  assert (E : A / B - j1 / j0 = - (x ^ S k * jk1) / (B * j0)) by (rewrite <- T1; field; split; lra).
  rewrite E. replace (- (x ^ S k * jk1) / (B * j0)) with (- (x * x ^ k * jk1 / (B * j0))) by (cbn [pow]; field; split; lra).
  rewrite Rabs_Ropp. 
  assert (j0p : 0 < Rabs j0) by (apply Rabs_pos_lt; auto).
  assert (xkp : 0 < Rabs (x ^ k)) by (apply Rabs_pos_lt; auto). pose proof P.
  rewrite !Rabs_div, !Rabs_mult by nra. rewrite (Rabs_right B), (Rabs_right B1) by lra.
  replace (2 * k)%nat with (k + k)%nat by lia. rewrite pow_add, Rabs_mult.
  rewrite !Rabs_mult in LOW.
  apply (Rmult_le_reg_r (B * Rabs j0)); [nra|].
  replace (Rabs x * Rabs (x ^ k) * Rabs jk1 / (B * Rabs j0) * (B * Rabs j0)) with (Rabs x * Rabs (x ^ k) * Rabs jk1) by (field; split; lra).
  replace (Rabs x * (Rabs x * (Rabs (x ^ k) * Rabs (x ^ k)) / (B * B1)) * (B * Rabs j0))
    with (Rabs x * Rabs (x ^ k) * ((Rabs x * Rabs (x ^ k) * Rabs j0) / B1)) by (field; split; lra).
  apply Rmult_le_compat_l; [nra|].
  apply (Rmult_le_reg_r B1); auto. unfold Rdiv. rewrite Rmult_assoc, Rinv_l by lra. nra.
Qed.
End Regime.
