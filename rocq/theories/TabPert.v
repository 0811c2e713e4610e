(** * TabPert: how a rounding error made in one step of the recurrence of
    pysphi.py:86-97 (csphi.c:96-108) spreads over the rest of the table.

    [a] is the exact sequence, [b] the computed one, in the order the loop
    visits them: a 0 = 0 (index n+2), a 1 (index n), a 2 (index n-2), ...  Three
    regimes: order 0 (a quantity that is constant but for rounding), the steps in
    which the sequence alternates in sign and grows (relative errors add up), and
    the others (a positive definite quadratic form, divided by a known function of
    the index, does not increase). *)
From Coq Require Import ZArith Reals Lia Lra Psatz.
Open Scope R_scope.

Definition F (n x : R) : R := n * (n + 1) - x * (x + 1).
Definition HF (M f c d : R) : R := d * d - 4 * M * d * c + 4 * M * f * (c * c).

Lemma HF_sq M f c d : HF M f c d = (d - 2 * M * c) ^ 2 + 4 * M * (f - M) * (c * c).
Proof. unfold HF. ring. Qed.

Lemma quad_nonneg A B C p q : 0 < C -> 0 <= 4 * A * C - B * B -> 0 <= A * p ^ 2 + B * p * q + C * q ^ 2.
Proof.
  intros HC HD. assert (E : 4 * C * (A * p ^ 2 + B * p * q + C * q ^ 2) = (2 * C * q + B * p) ^ 2 + (4 * A * C - B * B) * p ^ 2) by ring.
  assert (0 <= 4 * C * (A * p ^ 2 + B * p * q + C * q ^ 2)). { rewrite E. pose proof (pow2_ge_0 (2 * C * q + B * p)). pose proof (pow2_ge_0 p). nra. }
  nra.
Qed.

(** The core inequality; e = 2 (x + 1), a = F(x+1), g = a - M. *)
Lemma core a g e p q : 0 < g -> g <= a -> 2 <= e ->
  let M := a - g in let h := 2 * e - 2 in
  g * ((q * (a + e) - 2 * M * (a * p + q)) ^ 2 + 4 * M * (g + h) * (a * p + q) ^ 2) <=
  (g + h) * ((q + 2 * M * p) ^ 2 + 4 * M * g * p ^ 2) * (a + e) ^ 2.
Proof.
  intros Hg Ha He M h. assert (HM : 0 <= M) by (unfold M; lra). assert (Hh : 2 <= h) by (unfold h; lra).
  set (w := h * (a + e) ^ 2).
  set (C := w - 4 * g * M * (e - 2)).
  set (A := 4 * M * a * (g * (e ^ 2 + 2 * a) + w)).
  set (B := 4 * M * (w + g * (e ^ 2 - a * e + 4 * a))).
  assert (E : (g + h) * ((q + 2 * M * p) ^ 2 + 4 * M * g * p ^ 2) * (a + e) ^ 2 -
    g * ((q * (a + e) - 2 * M * (a * p + q)) ^ 2 + 4 * M * (g + h) * (a * p + q) ^ 2) = A * p ^ 2 + B * p * q + C * q ^ 2).
  { unfold A, B, C, w, h, M. ring. }
  assert (HC : 0 < C).
  { unfold C, w. assert (4 * g * M <= a ^ 2). { unfold M. pose proof (pow2_ge_0 (a - 2 * g)). nra. }
    assert (4 * g * M * (e - 2) <= a ^ 2 * (e - 2)) by (apply Rmult_le_compat_r; lra).
    assert (a ^ 2 * (e - 2) < (a + e) ^ 2 * h). { unfold h. assert (0 < a) by lra. assert (a ^ 2 <= (a + e) ^ 2) by nra.
      apply Rlt_le_trans with ((a + e) ^ 2 * (e - 1)); [|apply Rmult_le_compat_l; [apply pow2_ge_0|lra]]. assert (0 < (a + e) ^ 2) by nra. nra. }
    lra. }
  assert (HD : 0 <= 4 * A * C - B * B).
  { assert (T : 4 * A * C - B * B = 16 * M * g * (a + e) ^ 2 *
       (h ^ 2 * (2 * a * e + e ^ 2) + 2 * a * e * g * h + h * (2 * g - a) * e ^ 2 - M * g * e ^ 2)).
    { unfold A, B, C, w, h, M. ring. }
    rewrite T. apply Rmult_le_pos. { apply Rmult_le_pos; [nra|apply pow2_ge_0]. }
    replace (h ^ 2 * (2 * a * e + e ^ 2) + 2 * a * e * g * h + h * (2 * g - a) * e ^ 2 - M * g * e ^ 2) with
      (h * a * e * (3 * e - 4) + h ^ 2 * e ^ 2 + a * e * g * (3 * e - 4) + g ^ 2 * e ^ 2 + 2 * g * h * e ^ 2) by (unfold M, h; ring).
    assert (0 <= 3 * e - 4) by lra. assert (0 <= e) by lra. assert (0 <= a) by lra. assert (0 <= h) by lra. assert (0 <= g) by lra.
    pose proof (pow2_ge_0 e). pose proof (pow2_ge_0 h). pose proof (pow2_ge_0 g).
    repeat apply Rplus_le_le_0_compat; repeat apply Rmult_le_pos; auto; lra. }
  pose proof (quad_nonneg A B C p q HC HD). lra.
Qed.

(** One exact step does not increase the form divided by F(x+1) - M. *)
Lemma energy_step n M x c2 D c d : 0 <= x -> 0 <= M -> 0 < F n (x + 1) - M ->
  d = D - 4 * M * c2 -> F n x * c = F n (x + 1) * c2 + d ->
  (F n (x + 1) - M) * HF M (F n (x - 1)) c d <= (F n (x - 1) - M) * HF M (F n (x + 1)) c2 D.
Proof.
  intros Hx HM Hg Hd Hc. set (a := F n (x + 1)) in *. set (g := a - M) in *. set (e := 2 * (x + 1)).
  assert (Ha : 0 < a) by (unfold g in Hg; lra).
  assert (E0 : F n x = a + e) by (unfold a, e, F; ring). assert (E1 : F n (x - 1) = a + (2 * e - 2)) by (unfold a, e, F; ring).
  rewrite E0 in Hc. rewrite E1, !HF_sq.
  pose proof (core a g e c2 d Hg ltac:(unfold g; lra) ltac:(unfold e; lra)) as K. cbv zeta in K.
  replace (a - g) with M in K by (unfold g; ring).
  rewrite <- Hc in K. assert (Hae : 0 < a + e) by (unfold e; lra).
  assert (Hae2 : 0 < (a + e) ^ 2) by (apply pow_lt; lra).
  apply (Rmult_le_reg_r ((a + e) ^ 2)); auto.
  replace (D - 2 * M * c2) with (d + 2 * M * c2) by (rewrite Hd; ring).
  replace (a + (2 * e - 2) - M) with (g + (2 * e - 2)) by (unfold g; ring).
  replace (a - M) with g by (unfold g; ring).
  match type of K with ?l <= ?r => match goal with |- ?l' <= ?r' => replace l' with l by ring; replace r' with r by ring end end.
  exact K.
Qed.

(** Adding r to d moves the square root of the form by at most |r|. *)
Lemma kick M f c d r s E q : 0 <= M -> 0 <= E -> 0 <= q -> 0 < s -> s * s = f - M ->
  HF M f c d <= (f - M) * E ^ 2 -> Rabs r <= s * q -> HF M f c (d + r) <= (f - M) * (E + q) ^ 2.
Proof.
  intros HM HE Hq Hs Hg H Hr. rewrite HF_sq in H |- *. rewrite <- Hg in *.
  set (v := d - 2 * M * c) in *. set (w := 4 * M * (s * s) * (c * c)) in *.
  assert (Hw : 0 <= w) by (unfold w; apply Rmult_le_pos; [apply Rmult_le_pos; nra|nra]).
  assert (Hv : Rabs v <= s * E). { apply Rabs_le. assert (v ^ 2 <= (s * E) ^ 2) by nra. assert (0 <= s * E) by nra. split; nra. }
  replace (d + r - 2 * M * c) with (v + r) by (unfold v; ring).
  assert (v * r <= (s * E) * (s * q)). { eapply Rle_trans; [apply Rle_abs|]. rewrite Rabs_mult. apply Rmult_le_compat; auto using Rabs_pos. }
  assert (r ^ 2 <= (s * q) ^ 2). { rewrite <- (pow2_abs r). apply pow_incr. split; auto using Rabs_pos. }
  nra.
Qed.

Lemma HF_c M f c d E m : 0 < f - M -> M = m * m -> 0 < m -> 0 <= E -> HF M f c d <= (f - M) * E ^ 2 -> 2 * m * Rabs c <= E.
Proof.
  intros Hf EM Hm HE H. rewrite HF_sq in H. pose proof (pow2_ge_0 (d - 2 * M * c)).
  assert (4 * M * (c * c) <= E ^ 2). { apply (Rmult_le_reg_l (f - M)); auto. lra. }
  assert (0 <= Rabs c) by apply Rabs_pos. assert (Rabs c ^ 2 = c ^ 2) by apply pow2_abs.
  assert ((2 * m * Rabs c) ^ 2 <= E ^ 2). { replace ((2 * m * Rabs c) ^ 2) with (4 * (m * m) * Rabs c ^ 2) by ring. nra. }
  assert (0 <= 2 * m * Rabs c) by nra. nra.
Qed.

Section Seq.
Variables (n M m al be A : R) (a b : nat -> R) (I : nat).
Definition xi (i : nat) : R := n - 2 - 2 * INR i.
Definition Si (i : nat) : R := F n (xi i + 1) + F n (xi i + 2) - 4 * M.
Definition rho (i : nat) : R := F n (xi i) * b (i + 2) - (Si i * b (i + 1) - F n (xi i + 3) * b i).
Definition ep (i : nat) : R := b i - a i.
Hypothesis Hn : 1 <= n.
Hypothesis HI : 2 * INR I <= n.
Hypothesis Hal : 0 <= al.
Hypothesis Hbe : 0 <= be.
Hypothesis Hrec : forall i, (i < I)%nat -> F n (xi i) * a (i + 2)%nat = Si i * a (i + 1)%nat - F n (xi i + 3) * a i.
Hypothesis Ha0 : a 0%nat = 0.
Hypothesis Hb0 : b 0%nat = 0.
Hypothesis HA : forall i, (i <= I + 1)%nat -> Rabs (a i) <= A.
Hypothesis Ha1 : 0 < a 1%nat.
Hypothesis Hba : be <= al * a 1%nat.
Hypothesis Hb1 : Rabs (ep 1) <= (3 / 2 * n + 1) * al * a 1%nat.
Hypothesis Hrho : forall i, (i < I)%nat -> Rabs (rho i) <= al * (Rabs (Si i * b (i + 1)%nat) + Rabs (F n (xi i + 3) * b i)) + be * F n (xi i).
Hypothesis Hsmall : 4 * (n + 1) ^ 3 * (A + 1) * al <= 1.

Lemma xi_bounds i : (i < I)%nat -> 0 <= xi i <= n - 2 /\ INR i + 1 <= n / 2.
Proof.
  intros H. assert (INR i + 1 <= INR I). { rewrite <- S_INR. apply le_INR. lia. }
  pose proof (pos_INR i). unfold xi. lra.
Qed.
Lemma xi_S i : xi (S i) = xi i - 2.
Proof. unfold xi. rewrite S_INR. ring. Qed.
Lemma A_pos : 0 < A.
Proof. pose proof (HA 1 ltac:(lia)). rewrite Rabs_pos_eq in H by lra. lra. Qed.
Lemma F_pos x : 0 <= x <= n - 2 -> 0 < F n x.
Proof. intros H. unfold F. nra. Qed.
Lemma F_dec x y : 0 <= x <= y -> F n y <= F n x.
Proof. intros H. unfold F. nra. Qed.
Lemma F_nonneg x : 0 <= x <= n -> 0 <= F n x.
Proof. intros H. unfold F. nra. Qed.
(** [F n (x + 3) * v i], the third term of the recurrence: zero in the first step. *)
Lemma third i : (i < I)%nat -> exists f3, 0 <= f3 <= F n (xi i + 1) /\ (i <> O -> f3 = F n (xi i + 3)) /\ (i = O -> f3 = 0) /\
  F n (xi i + 3) * a i = f3 * a i /\ F n (xi i + 3) * b i = f3 * b i.
Proof.
  intros H. destruct (xi_bounds i H) as [[X1 X2] X3]. destruct i as [|i].
  - exists 0. rewrite Ha0, Hb0. assert (0 <= F n (xi 0 + 1)) by (apply F_nonneg; lra). repeat split; try lra. intros E; now elim E.
  - exists (F n (xi (S i) + 3)). assert (xi (S i) + 3 <= n - 1). { unfold xi. rewrite S_INR. pose proof (pos_INR i). lra. }
    split; [split; [apply F_nonneg; lra|apply F_dec; lra]|]. repeat split; auto; intros E; discriminate E.
Qed.
Lemma ep_0 : ep 0 = 0. Proof. unfold ep. rewrite Ha0, Hb0. ring. Qed.
Lemma ep_rec i : (i < I)%nat -> F n (xi i) * ep (i + 2) = Si i * ep (i + 1) - F n (xi i + 3) * ep i + rho i.
Proof. intros H. pose proof (Hrec i H). unfold ep, rho. lra. Qed.

Lemma b_le k : (k <= I + 1)%nat -> Rabs (ep k) <= 1 -> Rabs (b k) <= A + 1.
Proof.
  intros H E. replace (b k) with (a k + ep k) by (unfold ep; ring). eapply Rle_trans; [apply Rabs_triang|]. pose proof (HA k H). lra.
Qed.
Lemma be_le : be <= al * A.
Proof. eapply Rle_trans; [exact Hba|]. apply Rmult_le_compat_l; auto. pose proof (HA 1 ltac:(lia)). rewrite Rabs_pos_eq in H by lra. exact H. Qed.
Lemma rho_le i T f3 : (i < I)%nat -> Rabs (ep i) <= 1 -> Rabs (ep (i + 1)) <= 1 ->
  F n (xi i + 3) * b i = f3 * b i -> 0 <= f3 -> Rabs (Si i) + f3 <= T -> F n (xi i) <= T ->
  Rabs (rho i) <= 2 * al * (A + 1) * T.
Proof.
  intros H E0 E1 Q H3 HT HFT. pose proof (Hrho i H) as R. rewrite Q, !Rabs_mult, (Rabs_pos_eq f3) in R by auto.
  pose proof (b_le i ltac:(lia) E0). pose proof (b_le (i + 1) ltac:(lia) E1). pose proof A_pos.
  assert (Rabs (Si i) * Rabs (b (i + 1)%nat) <= Rabs (Si i) * (A + 1)) by (apply Rmult_le_compat_l; auto using Rabs_pos).
  assert (f3 * Rabs (b i) <= f3 * (A + 1)) by (apply Rmult_le_compat_l; auto).
  assert (al * (Rabs (Si i) * Rabs (b (i + 1)%nat) + f3 * Rabs (b i)) <= al * ((A + 1) * T)).
  { apply Rmult_le_compat_l; auto. apply Rle_trans with ((A + 1) * (Rabs (Si i) + f3)); [lra|]. apply Rmult_le_compat_l; lra. }
  assert (be * F n (xi i) <= al * A * T).
  { destruct (xi_bounds i H) as [X _]. pose proof (F_pos _ X). apply Rmult_le_compat; auto; [lra|apply be_le]. }
  assert (al * A * T <= al * (A + 1) * T). { apply Rmult_le_compat_r; [|nra]. destruct (xi_bounds i H) as [X _]. pose proof (F_pos _ X). lra. }
  lra.
Qed.

(** ** Order 0 *)
Lemma order0 i : M = 0 -> (i <= I)%nat -> (forall k, (k <= i)%nat -> Rabs (ep k) <= 1) ->
  let r := 6 * al * (A + 1) in
  Rabs (ep (i + 1)) <= Rabs (ep 1) + r * (INR i * (INR i + 1) / 2) /\
  Rabs (F n (xi i + 2) * ep (i + 1) - F n (xi i + 3) * ep i) <= INR i * r * F n (xi i + 2).
Proof.
  intros HM. induction i as [|i IH]; intros Hi He r.
  - cbn [Nat.add INR]. rewrite ep_0. split; [unfold r; lra|]. replace (F n (xi 0 + 2)) with 0 by (unfold F, xi; cbn [INR]; ring).
    rewrite Rmult_0_l, Rmult_0_r, Rmult_0_r, Rminus_0_r, Rabs_R0. lra.
  - destruct (IH ltac:(lia) ltac:(intros k Hk; apply He; lia)) as [E1 E2]. fold r in E1, E2.
    assert (Hi' : (i < I)%nat) by lia. destruct (xi_bounds i Hi') as [X _]. pose proof (F_pos _ X) as FP.
    destruct (third i Hi') as (f3 & H3 & _ & _ & _ & Q3).
    assert (L1 : F n (xi i + 1) <= F n (xi i)) by (apply F_dec; lra). assert (L2 : F n (xi i + 2) <= F n (xi i)) by (apply F_dec; lra).
    assert (P1 : 0 <= F n (xi i + 1)) by (apply F_nonneg; lra). assert (P2 : 0 <= F n (xi i + 2)) by (apply F_nonneg; lra).
    assert (R : Rabs (rho i) <= r * F n (xi i)).
    { unfold r. replace (6 * al * (A + 1) * F n (xi i)) with (2 * al * (A + 1) * (3 * F n (xi i))) by ring.
      assert (Y0 : Rabs (ep i) <= 1) by (apply He; lia). assert (Y1 : Rabs (ep (i + 1)) <= 1) by (apply He; lia).
      assert (Y2 : Rabs (Si i) + f3 <= 3 * F n (xi i)) by (unfold Si; rewrite HM, Rabs_pos_eq by lra; lra).
      apply (rho_le i _ f3); auto; lra. }
    set (D0 := F n (xi i + 2) * ep (i + 1) - F n (xi i + 3) * ep i) in *.
    assert (E3 : F n (xi i) * ep (i + 2) = F n (xi i + 1) * ep (i + 1) + (D0 + rho i)).
    { rewrite ep_rec by auto. unfold D0, Si. rewrite HM. ring. }
    assert (B : Rabs (D0 + rho i) <= (INR i + 1) * r * F n (xi i)).
    { eapply Rle_trans; [apply Rabs_triang|]. assert (0 <= r) by (unfold r; pose proof A_pos; nra).
      assert (INR i * r * F n (xi i + 2) <= INR i * r * F n (xi i)). { apply Rmult_le_compat_l; auto. apply Rmult_le_pos; auto using pos_INR. }
      lra. }
    rewrite S_INR. replace (S i + 1)%nat with (i + 2)%nat by lia.
    replace (xi (S i) + 2) with (xi i) by (rewrite xi_S; ring). replace (xi (S i) + 3) with (xi i + 1) by (rewrite xi_S; ring).
    replace (S i) with (i + 1)%nat by lia. split.
    + assert (Rabs (ep (i + 2)) <= Rabs (ep (i + 1)) + (INR i + 1) * r).
      { apply (Rmult_le_reg_l (F n (xi i))); auto. rewrite <- (Rabs_pos_eq (F n (xi i))) at 1 by lra. rewrite <- Rabs_mult, E3.
        eapply Rle_trans; [apply Rabs_triang|]. rewrite Rabs_mult, (Rabs_pos_eq (F n (xi i + 1))) by auto.
        assert (F n (xi i + 1) * Rabs (ep (i + 1)) <= F n (xi i) * Rabs (ep (i + 1))) by (apply Rmult_le_compat_r; auto using Rabs_pos). lra. }
      lra.
    + replace (F n (xi i) * ep (i + 2) - F n (xi i + 1) * ep (i + 1)) with (D0 + rho i) by lra. exact B.
Qed.

(** ** The steps in which the sequence alternates in sign and grows *)
Definition grow (i : nat) : Prop := n * (n + 1) - M <= xi i ^ 2 + 4 * xi i + 5.
Definition rel (i : nat) : Prop :=
  a i * a (i + 1)%nat <= 0 /\ Rabs (a i) <= Rabs (a (i + 1)%nat) /\ a 1%nat <= Rabs (a (i + 1)%nat) /\
  exists th th', b (i + 1)%nat = a (i + 1)%nat * (1 + th) /\ b i = a i * (1 + th') /\
    Rabs (th - th') <= 7 * al * INR i /\ Rabs th <= (3 / 2 * n + 1) * al + 7 * al * (INR i * (INR i + 1) / 2).
Lemma small3 : 4 * (n + 1) ^ 3 * al <= 1.
Proof.
  eapply Rle_trans; [|exact Hsmall]. pose proof A_pos. assert (0 <= (n + 1) ^ 3) by (apply pow_le; lra).
  replace (4 * (n + 1) ^ 3 * al) with (4 * (n + 1) ^ 3 * 1 * al) by ring. apply Rmult_le_compat_r; auto. apply Rmult_le_compat_l; lra.
Qed.
Lemma th_small i : (i <= I)%nat -> (3 / 2 * n + 1) * al + 7 * al * (INR i * (INR i + 1) / 2) <= 1 / 4.
Proof.
  intros H. assert (X : INR i <= n / 2). { assert (INR i <= INR I) by (apply le_INR; auto). lra. }
  pose proof (pos_INR i) as X0. pose proof small3 as S3.
  assert (K : 3 / 2 * n + 1 + 7 * (INR i * (INR i + 1) / 2) <= (n + 1) ^ 3).
  { clear - X X0 Hn. assert (INR i * (INR i + 1) <= n / 2 * (n / 2 + 1)) by (apply Rmult_le_compat; lra). nra. }
  apply (Rmult_le_compat_r al) in K; auto. lra.
Qed.
Lemma th_small' i : (i < I)%nat -> 7 * al * INR i <= 1 / 8.
Proof.
  intros H. destruct (xi_bounds i H) as [_ X]. pose proof (pos_INR i) as X0. pose proof small3 as S3.
  assert (K : 7 * INR i <= (n + 1) ^ 3 / 2). { clear - X X0 Hn. assert (2 <= n) by lra. assert (3 * 3 <= (n + 1) * (n + 1)) by (apply Rmult_le_compat; lra).
    assert (9 * (n + 1) <= (n + 1) * (n + 1) * (n + 1)) by (apply Rmult_le_compat_r; lra). replace ((n + 1) ^ 3) with ((n + 1) * (n + 1) * (n + 1)) by ring. lra. }
  apply (Rmult_le_compat_r al) in K; auto. lra.
Qed.
Lemma grow_rel i : 3 * n - 1 <= 2 * M -> (i <= I)%nat -> (forall k, (k < i)%nat -> grow k) -> rel i.
Proof.
  intros HM. induction i as [|i IH]; intros Hi Hg.
  - unfold rel. cbn [Nat.add INR]. rewrite Ha0, Hb0, Rabs_R0, (Rabs_pos_eq (a 1%nat)) by lra. repeat split; try lra.
    exists (ep 1 / a 1%nat), (ep 1 / a 1%nat). split; [unfold ep; field; lra|]. split; [ring|]. rewrite Rminus_diag_eq, Rabs_R0 by auto. split; [lra|].
    unfold Rdiv at 1. rewrite Rabs_mult, (Rabs_pos_eq (/ _)) by (apply Rlt_le, Rinv_0_lt_compat; auto).
    apply (Rmult_le_reg_r (a 1%nat)); auto. rewrite Rmult_assoc, Rinv_l, Rmult_1_r by lra. lra.
  - destruct (IH ltac:(lia) ltac:(intros k Hk; apply Hg; lia)) as (R1 & R2 & R3 & th & th' & T1 & T2 & T3 & T4).
    pose proof (Hg i ltac:(lia)) as Gi. unfold grow in Gi.
    assert (Hi' : (i < I)%nat) by lia. destruct (xi_bounds i Hi') as [X X3]. pose proof (F_pos _ X) as FP.
    destruct (third i Hi') as (f3 & H3 & N3 & Z3 & Q3a & Q3b). set (f := F n (xi i)) in *.
    assert (HS : f + f3 <= - Si i).
    { unfold Si. destruct i as [|i]; [rewrite Z3 by auto|rewrite N3 by auto]; unfold f, F in *.
      - unfold xi. cbn [INR]. nra.
      - nra. }
    assert (Hf3 : f3 <= f). { apply Rle_trans with (F n (xi i + 1)); [lra|]. apply F_dec. lra. }
    set (p := a (i + 1)%nat) in *. set (q := a i) in *. set (z := a (i + 2)%nat) in *.
    assert (Ez : f * z = Si i * p - f3 * q). { unfold f, z. rewrite Hrec by auto. fold p q. lra. }
    assert (Pp : 0 < Rabs p) by lra.
    (* signs *)
    assert (Sg : (0 < p /\ q <= 0 /\ z <= - p) \/ (p < 0 /\ 0 <= q /\ - p <= z)).
    { destruct (Rlt_le_dec 0 p) as [P|P].
      - left. assert (q <= 0) by nra. split; auto. split; auto. rewrite (Rabs_pos_eq p), (Rabs_left1 q) in R2 by lra.
        assert (- Si i * p >= (f + f3) * p) by nra. assert (f3 * - q <= f3 * p) by nra. nra.
      - right. assert (p < 0). { destruct P as [P|P]; auto. rewrite P, Rabs_R0 in Pp. lra. }
        assert (0 <= q) by nra. split; auto. split; auto. rewrite (Rabs_left p), (Rabs_pos_eq q) in R2 by lra.
        assert (- Si i * - p >= (f + f3) * - p) by nra. assert (f3 * q <= f3 * - p) by nra. nra. }
    assert (Az : Rabs p <= Rabs z /\ p * z <= 0).
    { destruct Sg as [(S1 & S2 & S3)|(S1 & S2 & S3)].
      - rewrite (Rabs_pos_eq p), (Rabs_left z) by lra. split; [lra|nra].
      - rewrite (Rabs_left p), (Rabs_pos_eq z) by lra. split; [lra|nra]. }
    destruct Az as [Az1 Az2].
    assert (Zp : 0 < Rabs z) by lra.
    assert (Zne : z <> 0). { intros E. rewrite E, Rabs_R0 in Zp. lra. }
    set (d := (f3 * q * (th - th') + rho i) / (f * z)).
    assert (Eb : b (i + 2)%nat = z * (1 + (th + d))).
    { apply (Rmult_eq_reg_l f); [|lra]. unfold rho in d. fold f in d. 
      assert (K : f * z * d = f3 * q * (th - th') + rho i). { unfold d, rho. fold f. field. split; auto. lra. }
      unfold rho in K. fold f in K. rewrite T1, Q3b, T2 in K. fold p q in K.
      replace (f * (z * (1 + (th + d)))) with (f * z * (1 + th) + f * z * d) by ring. rewrite K, Ez. ring. }
    assert (Bd : Rabs d <= 7 * al * (INR i + 1)).
    { assert (Hfz : 0 < f * Rabs z) by (apply Rmult_lt_0_compat; auto).
      apply (Rmult_le_reg_l (f * Rabs z)); auto.
      replace (f * Rabs z * Rabs d) with (Rabs (f * z * d)) by (rewrite !Rabs_mult, (Rabs_pos_eq f) by lra; ring).
      replace (f * z * d) with (f3 * q * (th - th') + rho i) by (unfold d; field; split; auto; lra).
      eapply Rle_trans; [apply Rabs_triang|].
      assert (B1 : Rabs (f3 * q * (th - th')) <= f * Rabs z * (7 * al * INR i)).
      { rewrite !Rabs_mult, (Rabs_pos_eq f3) by lra. apply Rmult_le_compat; auto using Rabs_pos.
        - apply Rmult_le_pos; [lra|apply Rabs_pos].
        - apply Rmult_le_compat; auto using Rabs_pos; lra. }
      assert (Hth : Rabs th <= 1 / 4). { pose proof (th_small i ltac:(lia)). lra. }
      pose proof (th_small' i Hi') as Hsm.
      assert (Hth' : Rabs th' <= 3 / 8). { replace th' with (th - (th - th')) by ring. eapply Rle_trans; [apply Rabs_triang|]. rewrite Rabs_Ropp. lra. }
      assert (B2 : Rabs (rho i) <= f * Rabs z * (7 * al)).
      { eapply Rle_trans; [apply Hrho; auto|]. rewrite Q3b, T1, T2. fold p q f.
        assert (U1 : Rabs (Si i * p) <= f * Rabs z + f3 * Rabs q).
        { replace (Si i * p) with (f * z + f3 * q) by lra. eapply Rle_trans; [apply Rabs_triang|]. rewrite !Rabs_mult, (Rabs_pos_eq f), (Rabs_pos_eq f3) by lra. lra. }
        assert (U2 : f3 * Rabs q <= f * Rabs z). { apply Rmult_le_compat; auto using Rabs_pos; lra. }
        assert (U3 : Rabs (Si i * (p * (1 + th))) <= Rabs (Si i * p) * (5 / 4)).
        { rewrite <- Rmult_assoc, (Rabs_mult (Si i * p)). apply Rmult_le_compat_l; [apply Rabs_pos|].
          eapply Rle_trans; [apply Rabs_triang|]. rewrite Rabs_R1. lra. }
        assert (U4 : Rabs (f3 * (q * (1 + th'))) <= f3 * Rabs q * (11 / 8)).
        { rewrite <- Rmult_assoc, Rabs_mult, Rabs_mult, (Rabs_pos_eq f3) by lra. apply Rmult_le_compat_l.
          - apply Rmult_le_pos; [lra|apply Rabs_pos].
          - eapply Rle_trans; [apply Rabs_triang|]. rewrite Rabs_R1. lra. }
        assert (U5 : be * f <= al * (f * Rabs z)).
        { apply Rle_trans with (al * a 1%nat * f); [apply Rmult_le_compat_r; lra|]. rewrite Rmult_assoc. apply Rmult_le_compat_l; auto.
          rewrite Rmult_comm. apply Rmult_le_compat_l; lra. }
        assert (U6 : Rabs (Si i * (p * (1 + th))) + Rabs (f3 * (q * (1 + th'))) <= 6 * (f * Rabs z)) by lra.
        apply (Rmult_le_compat_l al) in U6; auto. lra. }
      lra. }
    unfold rel. rewrite S_INR. replace (S i + 1)%nat with (i + 2)%nat by lia. replace (S i) with (i + 1)%nat by lia. fold p z.
    split; [exact Az2|]. split; [exact Az1|]. split; [lra|].
    exists (th + d), th. split; [exact Eb|]. split; [exact T1|]. split; [replace (th + d - th) with d by ring; exact Bd|].
    eapply Rle_trans; [apply Rabs_triang|]. lra.
Qed.

(** ** The other steps *)
Definition Di (i : nat) : R := F n (xi i + 2) * ep (i + 1) - F n (xi i + 3) * ep i.
Definition osc (i : nat) (E : R) : Prop := HF M (F n (xi i + 1)) (ep (i + 1)) (Di i) <= (F n (xi i + 1) - M) * E ^ 2.
Definition qq : R := 10 * al * (A + 1) * (n + 1 + M).
Lemma qq_pos : 0 <= M -> 0 <= qq.
Proof. intros H. unfold qq. pose proof A_pos. repeat apply Rmult_le_pos; lra. Qed.
Lemma osc_step i E : 0 <= M -> (i < I)%nat -> 1 <= F n (xi i + 1) - M -> 0 <= E -> Rabs (ep i) <= 1 -> Rabs (ep (i + 1)) <= 1 ->
  osc i E -> osc (S i) (E + qq).
Proof.
  intros HM Hi Hg HE Y0 Y1 HO. destruct (xi_bounds i Hi) as [X _]. pose proof (F_pos _ X) as FP.
  destruct (third i Hi) as (f3 & H3 & _ & _ & _ & Q3).
  set (f1 := F n (xi i + 1)) in *.
  assert (L1 : F n (xi i) <= 2 * f1) by (unfold f1, F; clear - X Hn; nra).
  assert (L2 : F n (xi i + 2) <= f1) by (apply F_dec; lra).
  assert (P2 : 0 <= F n (xi i + 2)) by (apply F_nonneg; lra).
  assert (R : Rabs (rho i) <= 2 * al * (A + 1) * (5 * f1)).
  { apply (rho_le i _ f3); auto; try lra. unfold Si. fold f1. destruct (Rle_lt_dec 0 (f1 + F n (xi i + 2) - 4 * M)).
    - rewrite Rabs_pos_eq by auto. lra.
    - rewrite Rabs_left by auto. lra. }
  set (s := sqrt (f1 - M)). assert (Hs2 : s * s = f1 - M) by (apply sqrt_sqrt; lra).
  assert (Hs1 : 1 <= s). { rewrite <- sqrt_1. apply sqrt_le_1; lra. }
  assert (Hs3 : s <= n + 1). { assert (s * s <= (n + 1) * (n + 1)). { rewrite Hs2. unfold f1, F. clear - X Hn HM. nra. } clear - H Hs1 Hn. nra. }
  assert (K : Rabs (rho i) <= s * qq).
  { eapply Rle_trans; [exact R|]. unfold qq. pose proof A_pos.
    replace (2 * al * (A + 1) * (5 * f1)) with (10 * al * (A + 1) * f1) by ring.
    replace (s * (10 * al * (A + 1) * (n + 1 + M))) with (10 * al * (A + 1) * (s * (n + 1 + M))) by ring.
    apply Rmult_le_compat_l; [repeat apply Rmult_le_pos; lra|]. replace f1 with (s * s + M) by lra. clear - Hs1 Hs3 HM. nra. }
  pose proof (kick M f1 (ep (i + 1)) (Di i) (rho i) s E qq HM HE (qq_pos HM) ltac:(lra) Hs2 HO K) as G.
  unfold osc. replace (xi (S i) + 1) with (xi i - 1) by (rewrite xi_S; ring). replace (S i + 1)%nat with (i + 2)%nat by lia.
  pose proof (energy_step n M (xi i) (ep (i + 1)) (Di i + rho i) (ep (i + 2)) (Di (S i)) ltac:(lra) HM ltac:(unfold f1 in Hg; lra)) as ES.
  assert (ED : Di (S i) = F n (xi i) * ep (i + 2) - F n (xi i + 1) * ep (i + 1)).
  { unfold Di. replace (xi (S i) + 2) with (xi i) by (rewrite xi_S; ring). replace (xi (S i) + 3) with (xi i + 1) by (rewrite xi_S; ring).
    replace (S i + 1)%nat with (i + 2)%nat by lia. replace (S i) with (i + 1)%nat by lia. reflexivity. }
  specialize (ES ltac:(rewrite ED, ep_rec by auto; unfold Di, Si; ring) ltac:(rewrite ED; ring)). fold f1 in ES.
  assert (Hg' : 0 <= F n (xi i - 1) - M). { unfold f1, F in Hg |- *. clear - Hg X. nra. }
  apply (Rmult_le_reg_l (f1 - M)); [lra|]. eapply Rle_trans; [exact ES|].
  apply Rle_trans with ((F n (xi i - 1) - M) * ((f1 - M) * (E + qq) ^ 2)); [apply Rmult_le_compat_l; auto|]. right. ring.
Qed.
Lemma osc_run i0 E j : 0 <= M -> 0 <= E -> osc i0 E -> (i0 <= j <= I)%nat -> (forall k, (k <= j)%nat -> Rabs (ep k) <= 1) ->
  (forall k, (i0 <= k < j)%nat -> 1 <= F n (xi k + 1) - M) -> osc j (E + INR (j - i0) * qq).
Proof.
  intros HM HE HO Hj He Hg. induction j as [|j IH].
  - replace i0 with O in * by lia. cbn [INR Nat.sub]. rewrite Rmult_0_l, Rplus_0_r. exact HO.
  - destruct (Nat.eq_dec i0 (S j)) as [->|Ne].
    + rewrite Nat.sub_diag. cbn [INR]. rewrite Rmult_0_l, Rplus_0_r. exact HO.
    + replace (S j - i0)%nat with (S (j - i0)) by lia. rewrite S_INR.
      replace (E + (INR (j - i0) + 1) * qq) with (E + INR (j - i0) * qq + qq) by ring.
      apply osc_step.
      * exact HM.
      * lia.
      * apply Hg. lia.
      * pose proof (pos_INR (j - i0)). pose proof (qq_pos HM). nra.
      * apply He. lia.
      * apply He. lia.
      * apply IH; [lia| |]; intros k Hk; [apply He; lia|apply Hg; lia].
Qed.

Hypothesis HMm : M = m * m.

Lemma qq_m : 1 <= m <= n -> qq <= 2 * m * (10 * al * (A + 1) * (n / 2 + 1)).
Proof.
  intros Hm. unfold qq. pose proof A_pos.
  replace (2 * m * (10 * al * (A + 1) * (n / 2 + 1))) with (10 * al * (A + 1) * (m * (n + 2))) by field.
  apply Rmult_le_compat_l; [repeat apply Rmult_le_pos; lra|]. rewrite HMm. clear - Hm. nra.
Qed.

(** the value bound that follows from the form *)
Lemma osc_bound i E T : 1 <= m <= n -> 0 <= E -> 0 < F n (xi i + 1) - M -> osc i E -> E <= 2 * m * T -> Rabs (ep (i + 1)) <= T.
Proof.
  intros Hm HE Hg HO HT. pose proof (HF_c M _ _ _ E m Hg HMm ltac:(lra) HE HO) as K.
  apply (Rmult_le_reg_l (2 * m)); lra.
Qed.

Lemma g_small k : 0 <= xi k <= n - 2 -> 2 * M < 3 * n - 1 -> 1 <= F n (xi k + 1) - M.
Proof. intros X H. unfold F. clear - X H Hn. nra. Qed.
Lemma g_small' k : -2 <= xi k <= n - 2 -> 2 * M < 3 * n - 1 -> 0 < F n (xi k + 1) - M.
Proof. intros X H. unfold F. clear - X H Hn. nra. Qed.
Lemma g_osc k : 0 <= xi k -> ~ grow k -> 1 <= F n (xi k + 1) - M.
Proof. intros X H. unfold grow in H. apply Rnot_le_lt in H. unfold F. clear - X H. nra. Qed.

(** Small orders: no growing steps. *)
Lemma small_m j : 1 <= m <= n -> 2 * M < 3 * n - 1 -> (j <= I)%nat -> (forall k, (k <= j)%nat -> Rabs (ep k) <= 1) ->
  Rabs (ep (j + 1)) <= 2 * Rabs (ep 1) + INR j * (10 * al * (A + 1) * (n / 2 + 1)).
Proof.
  intros Hm HS Hj He. assert (HM : 0 <= M) by (rewrite HMm; nra).
  assert (HE : 0 <= 4 * m * Rabs (ep 1)) by (pose proof (Rabs_pos (ep 1)); repeat apply Rmult_le_pos; lra).
  assert (O0 : osc 0 (4 * m * Rabs (ep 1))).
  { unfold osc, Di. rewrite ep_0. cbn [Nat.add].
    replace (F n (xi 0 + 2)) with 0 by (unfold F, xi; cbn [INR]; ring). replace (F n (xi 0 + 1)) with (2 * n) by (unfold F, xi; cbn [INR]; ring).
    unfold HF. replace ((2 * n - M) * (4 * m * Rabs (ep 1)) ^ 2) with ((2 * n - M) * (16 * (m * m) * Rabs (ep 1) ^ 2)) by ring.
    rewrite pow2_abs, <- HMm. assert (0 <= ep 1 ^ 2) by apply pow2_ge_0. assert (0 <= M * ep 1 ^ 2) by (apply Rmult_le_pos; auto).
    clear - H0 HS Hn. nra. }
  pose proof (osc_run 0 _ j HM HE O0 ltac:(lia) He ltac:(intros k Hk; apply g_small; auto; apply xi_bounds; lia)) as O1.
  rewrite Nat.sub_0_r in O1. pose proof (qq_pos HM). pose proof (pos_INR j).
  eapply (osc_bound j _ _ Hm); [| |exact O1|].
  - apply Rplus_le_le_0_compat; auto. apply Rmult_le_pos; auto.
  - apply g_small'; auto. assert (INR j <= INR I) by (apply le_INR; auto). unfold xi. lra.
  - pose proof (qq_m Hm) as Q. apply (Rmult_le_compat_l (INR j)) in Q; auto. lra.
Qed.

Lemma rel_ep i : (i <= I)%nat -> rel i -> Rabs (ep (i + 1)) <= A * ((3 / 2 * n + 1) * al + 7 * al * (INR i * (INR i + 1) / 2)).
Proof.
  intros Hi (_ & _ & _ & th & th' & T1 & _ & _ & T4). unfold ep. rewrite T1. replace (_ - _) with (a (i + 1)%nat * th) by ring.
  rewrite Rabs_mult. apply Rmult_le_compat; auto using Rabs_pos. apply HA. lia.
Qed.
Definition Wn : R := A * al * (7 / 8 * n ^ 2 + 13 / 4 * n + 1).
Lemma th_W i : (i <= I)%nat -> A * ((3 / 2 * n + 1) * al + 7 * al * (INR i * (INR i + 1) / 2)) <= Wn.
Proof.
  intros H. assert (X : INR i <= n / 2). { assert (INR i <= INR I) by (apply le_INR; auto). lra. }
  pose proof (pos_INR i) as X0. pose proof A_pos. unfold Wn.
  replace (A * ((3 / 2 * n + 1) * al + 7 * al * (INR i * (INR i + 1) / 2))) with (A * al * (3 / 2 * n + 1 + 7 / 2 * (INR i * (INR i + 1)))) by field.
  apply Rmult_le_compat_l; [apply Rmult_le_pos; lra|].
  assert (INR i * (INR i + 1) <= n / 2 * (n / 2 + 1)) by (apply Rmult_le_compat; lra). clear - H1. nra.
Qed.

(** Large orders: growing steps first. *)
Lemma large_m i0 j : 1 <= m <= n -> 3 * n - 1 <= 2 * M -> (i0 < j)%nat -> (j <= I)%nat -> (forall k, (k <= j)%nat -> Rabs (ep k) <= 1) ->
  (forall k, (k < i0)%nat -> grow k) -> ~ grow i0 ->
  Rabs (ep (j + 1)) <= Wn * (5 / 2 * n + 2) + INR j * (10 * al * (A + 1) * (n / 2 + 1)).
Proof.
  intros Hm HL Hij Hj He Hg Hng. assert (HM : 0 <= M) by (rewrite HMm; nra).
  assert (Hi : (i0 < I)%nat) by lia. destruct (xi_bounds i0 Hi) as [X _].
  pose proof A_pos as Ap. assert (HW : 0 <= Wn) by (unfold Wn; repeat apply Rmult_le_pos; nra).
  assert (E1 : Rabs (ep (i0 + 1)) <= Wn). { eapply Rle_trans; [apply rel_ep; [lia|apply grow_rel; auto; lia]|]. apply th_W. lia. }
  assert (E0 : Rabs (ep i0) <= Wn).
  { destruct i0 as [|i]; [rewrite ep_0, Rabs_R0; auto|]. replace (S i) with (i + 1)%nat by lia.
    eapply Rle_trans; [apply rel_ep; [lia|apply grow_rel; auto; lia]|]. apply th_W. lia. }
  pose proof (g_osc i0 (proj1 X) Hng) as G1. set (f1 := F n (xi i0 + 1)) in *.
  set (s := sqrt (f1 - M)). assert (Hs2 : s * s = f1 - M) by (apply sqrt_sqrt; lra).
  assert (Hs1 : 1 <= s). { rewrite <- sqrt_1. apply sqrt_le_1; lra. }
  assert (Hs3 : s <= n + 1). { assert (s * s <= (n + 1) * (n + 1)). { rewrite Hs2. unfold f1, F. clear - X Hn HM. nra. } clear - H Hs1 Hn. nra. }
  set (E := Wn * (2 * m + 3 * M + 2 * s)).
  assert (HE : 0 <= E) by (unfold E; apply Rmult_le_pos; lra).
  assert (O0 : osc i0 E).
  { unfold osc. fold f1. rewrite HF_sq, <- Hs2.
    destruct (third i0 Hi) as (f3 & H3 & _ & _ & Q3a & Q3b). fold f1 in H3.
    assert (L2 : F n (xi i0 + 2) <= f1) by (apply F_dec; lra). assert (P2 : 0 <= F n (xi i0 + 2)) by (apply F_nonneg; lra).
    assert (DB : Rabs (Di i0 - 2 * M * ep (i0 + 1)) <= Wn * (3 * M + 2 * (s * s))).
    { unfold Di. replace (F n (xi i0 + 3) * ep i0) with (f3 * ep i0) by (unfold ep; lra).
      replace (F n (xi i0 + 2) * ep (i0 + 1) - f3 * ep i0 - 2 * M * ep (i0 + 1)) with ((F n (xi i0 + 2) - 2 * M) * ep (i0 + 1) + - (f3 * ep i0)) by ring.
      eapply Rle_trans; [apply Rabs_triang|]. rewrite Rabs_Ropp, !Rabs_mult, (Rabs_pos_eq f3) by lra.
      assert (Rabs (F n (xi i0 + 2) - 2 * M) <= 2 * M + s * s) by (apply Rabs_le; lra).
      assert (Rabs (F n (xi i0 + 2) - 2 * M) * Rabs (ep (i0 + 1)) <= (2 * M + s * s) * Wn) by (apply Rmult_le_compat; auto using Rabs_pos).
      assert (f3 * Rabs (ep i0) <= (M + s * s) * Wn) by (apply Rmult_le_compat; auto using Rabs_pos; lra). lra. }
    assert (V1 : (Di i0 - 2 * M * ep (i0 + 1)) ^ 2 <= (Wn * (3 * M + 2 * (s * s))) ^ 2).
    { rewrite <- (pow2_abs (Di i0 - _)). apply pow_incr. split; auto using Rabs_pos. }
    assert (V2 : ep (i0 + 1) * ep (i0 + 1) <= Wn ^ 2).
    { replace (ep (i0 + 1) * ep (i0 + 1)) with (Rabs (ep (i0 + 1)) ^ 2) by (rewrite pow2_abs; ring). apply pow_incr. split; auto using Rabs_pos. }
    assert (V3 : 4 * M * (s * s) * (ep (i0 + 1) * ep (i0 + 1)) <= 4 * M * (s * s) * Wn ^ 2).
    { apply Rmult_le_compat_l; auto. apply Rmult_le_pos; [lra|nra]. }
    apply Rle_trans with (Wn ^ 2 * ((3 * M + 2 * (s * s)) ^ 2 + 4 * (m * m) * (s * s))); [rewrite <- HMm; lra|].
    unfold E. replace (s * s * (Wn * (2 * m + 3 * M + 2 * s)) ^ 2) with (Wn ^ 2 * (s * (2 * m) + s * (3 * M) + 2 * (s * s)) ^ 2) by ring.
    apply Rmult_le_compat_l; [apply pow2_ge_0|].
    assert (W1 : 3 * M <= s * (3 * M)) by (clear - Hs1 HM; nra). assert (W2 : 0 <= s * (2 * m)) by nra. assert (W3 : 0 <= s * s) by nra.
    set (p := s * (2 * m)) in *. set (q := s * (3 * M)) in *. replace (4 * (m * m) * (s * s)) with (p ^ 2) by (unfold p; ring).
    assert ((3 * M + 2 * (s * s)) ^ 2 <= (q + 2 * (s * s)) ^ 2) by (apply pow_incr; lra).
    assert (0 <= p * (q + 2 * (s * s))) by (apply Rmult_le_pos; lra). nra. }
  assert (NG : forall k, (i0 <= k < j)%nat -> 1 <= F n (xi k + 1) - M).
  { intros k Hk. destruct (xi_bounds k ltac:(lia)) as [Xk _]. apply g_osc; [lra|]. unfold grow in *. intros C. apply Hng.
    assert (xi k <= xi i0). { unfold xi. assert (INR i0 <= INR k) by (apply le_INR; lia). lra. }
    eapply Rle_trans; [exact C|]. clear - H Xk X. nra. }
  pose proof (osc_run i0 E j HM HE O0 ltac:(lia) He NG) as O1.
  pose proof (qq_pos HM) as Hq. pose proof (pos_INR (j - i0)) as Hp.
  eapply (osc_bound j _ _ Hm); [| |exact O1|].
  - apply Rplus_le_le_0_compat; auto. apply Rmult_le_pos; auto.
  - destruct j as [|j']; [lia|]. pose proof (NG j' ltac:(lia)) as G. destruct (xi_bounds j' ltac:(lia)) as [Xj _].
    rewrite xi_S. unfold F in G |- *. clear - G Xj. nra.
  - pose proof (qq_m Hm) as Q. assert (INR (j - i0) * qq <= INR j * (2 * m * (10 * al * (A + 1) * (n / 2 + 1)))).
    { apply Rmult_le_compat; auto. apply le_INR. lia. }
    assert (E <= 2 * m * (Wn * (5 / 2 * n + 2))); [|lra].
    unfold E. replace (2 * m * (Wn * (5 / 2 * n + 2))) with (Wn * (2 * m * (5 / 2 * n + 2))) by ring. apply Rmult_le_compat_l; auto.
    rewrite HMm. clear - Hs3 Hm Hn. assert (m * m <= m * n) by nra. assert (n + 1 <= m * (n + 1)) by nra. nra.
Qed.

Lemma first_ng j : (forall k, (k < j)%nat -> grow k) \/ exists i0, (i0 < j)%nat /\ (forall k, (k < i0)%nat -> grow k) /\ ~ grow i0.
Proof.
  induction j as [|j IH]; [left; intros; lia|].
  destruct IH as [G|(i0 & H1 & H2 & H3)]; [|right; exists i0; split; auto].
  unfold grow at 1. destruct (Rle_dec (n * (n + 1) - M) (xi j ^ 2 + 4 * xi j + 5)) as [K|K].
  - left. intros k Hk. destruct (Nat.eq_dec k j) as [->|]; auto. apply G. lia.
  - right. exists j. split; auto.
Qed.

Definition bound : R := 4 * (n + 1) ^ 3 * (A + 1) * al.

Theorem table_err : m = 0 \/ 1 <= m <= n -> forall i, (i <= I + 1)%nat -> Rabs (ep i) <= bound.
Proof.
  intros Hm. pose proof A_pos as Ap.
  assert (E1 : Rabs (ep 1) <= (3 / 2 * n + 1) * al * A).
  { eapply Rle_trans; [exact Hb1|]. apply Rmult_le_compat_l; [apply Rmult_le_pos; lra|]. pose proof (HA 1 ltac:(lia)). rewrite Rabs_pos_eq in H by lra. lra. }
  assert (E1' : Rabs (ep 1) <= (3 / 2 * n + 1) * (al * (A + 1))).
  { eapply Rle_trans; [exact E1|]. rewrite Rmult_assoc. apply Rmult_le_compat_l; [lra|]. apply Rmult_le_compat_l; lra. }
  set (v := al * (A + 1)) in *. assert (Hv : 0 <= v) by (unfold v; apply Rmult_le_pos; lra).
  assert (B0 : bound = 4 * (n + 1) ^ 3 * v) by (unfold bound, v; ring).
  assert (B1 : bound <= 1) by exact Hsmall.
  induction i as [i IH] using lt_wf_ind. intros Hi. destruct i as [|j].
  { rewrite ep_0, Rabs_R0, B0. apply Rmult_le_pos; auto. assert (0 <= (n + 1) ^ 3) by (apply pow_le; lra). lra. }
  assert (Hj : (j <= I)%nat) by lia.
  assert (He : forall k, (k <= j)%nat -> Rabs (ep k) <= 1). { intros k Hk. eapply Rle_trans; [apply IH; lia|auto]. }
  replace (S j) with (j + 1)%nat by lia.
  assert (X : INR j <= n / 2). { assert (INR j <= INR I) by (apply le_INR; auto). lra. } pose proof (pos_INR j) as X0.
  destruct Hm as [Hm|Hm].
  - destruct (order0 j ltac:(rewrite HMm, Hm; ring) Hj He) as [R _]. eapply Rle_trans; [exact R|].
    replace (6 * al * (A + 1)) with (6 * v) by (unfold v; ring). rewrite B0.
    assert (INR j * (INR j + 1) <= n / 2 * (n / 2 + 1)) by (apply Rmult_le_compat; lra).
    assert (3 / 2 * n + 1 + 6 * (INR j * (INR j + 1) / 2) <= 4 * (n + 1) ^ 3) by (clear - H Hn; nra).
    apply (Rmult_le_compat_r v) in H0; auto. lra.
  - assert (J : INR j * (10 * al * (A + 1) * (n / 2 + 1)) <= v * (5 * n * (n / 2 + 1))).
    { replace (10 * al * (A + 1) * (n / 2 + 1)) with (v * (10 * (n / 2 + 1))) by (unfold v; ring).
      apply Rle_trans with (n / 2 * (v * (10 * (n / 2 + 1)))); [|right; field]. apply Rmult_le_compat_r; auto. apply Rmult_le_pos; lra. }
    destruct (Rlt_le_dec (2 * M) (3 * n - 1)) as [HS|HL].
    + eapply Rle_trans; [apply (small_m j); auto|]. rewrite B0.
      assert (2 * (3 / 2 * n + 1) + 5 * n * (n / 2 + 1) <= 4 * (n + 1) ^ 3) by (clear - Hn; nra).
      apply (Rmult_le_compat_r v) in H; auto. lra.
    + assert (WW : Wn <= v * (7 / 8 * n ^ 2 + 13 / 4 * n + 1)).
      { unfold Wn, v. apply Rmult_le_compat_r; [nra|]. nra. }
      assert (PP : (7 / 8 * n ^ 2 + 13 / 4 * n + 1) * (5 / 2 * n + 2) + 5 * n * (n / 2 + 1) <= 4 * (n + 1) ^ 3) by (clear - Hn; nra).
      apply (Rmult_le_compat_r v) in PP; auto.
      destruct (first_ng j) as [G|(i0 & H1 & H2 & H3)].
      * eapply Rle_trans; [apply rel_ep; [auto|apply grow_rel; auto]|]. eapply Rle_trans; [apply th_W; auto|]. eapply Rle_trans; [exact WW|].
        assert (v * (7 / 8 * n ^ 2 + 13 / 4 * n + 1) <= v * (7 / 8 * n ^ 2 + 13 / 4 * n + 1) * (5 / 2 * n + 2)).
        { assert (0 <= v * (7 / 8 * n ^ 2 + 13 / 4 * n + 1)) by (apply Rmult_le_pos; nra). clear - H Hn. nra. }
        assert (0 <= v * (5 * n * (n / 2 + 1))) by (apply Rmult_le_pos; nra). rewrite B0. lra.
      * eapply Rle_trans; [apply (large_m i0 j); auto|]. apply (Rmult_le_compat_r (5 / 2 * n + 2)) in WW; [|lra]. rewrite B0. lra.
Qed.
End Seq.
