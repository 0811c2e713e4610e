(** * SumFl2: complex products and sums in binary64. *)
From Coq Require Import ZArith List Bool SpecFloat Reals Lia Lra Psatz Permutation.
From Coquelicot Require Import Coquelicot.
From Flocq Require Import Core.Core IEEE754.BinarySingleNaN.
From Verif Require Import Py PyFacts Num FloatN FloatText MCoefs CoefsFacts Sums Harm MPysphi PysphiFacts MKiss KissFacts MCsphi CsphiFacts MDouble FlFacts SeedReal SeedFl SeedFl2
  DoubleFacts FlSigned SbesselFTerm SbesselFRel Unsold TabFl SumFl.
Import ListNotations.
Open Scope R_scope.

Definition cap (M e : R) (z : cf) (c : C) : Prop := ap M e (fst z) (fst c) /\ ap M e (snd z) (snd c).
Lemma cap_le M e M' e' z c : cap M e z c -> M <= M' -> e <= e' -> cap M' e' z c.
Proof. intros [A B] H1 H2. split; eapply ap_le; eauto. Qed.
Lemma cap_pos M e z c : cap M e z c -> 0 <= M /\ 0 <= e.
Proof. intros [A _]. exact (ap_pos _ _ _ _ A). Qed.
Lemma cap_add M1 e1 M2 e2 x r y s : cap M1 e1 x r -> cap M2 e2 y s -> M1 + M2 + e1 + e2 <= BIG ->
  cap (M1 + M2) (e1 + e2 + uu * (M1 + M2 + e1 + e2)) (cfadd x y) (r + s)%C.
Proof. intros [A B] [A' B'] HB. split; apply ap_fadd; auto. Qed.

Lemma cap_re M e z c Y ey y r : cap M e z c -> ap Y ey y r -> (M + e) * (Y + ey) + (M + e) <= BIG / 2 ->
  cap (M * Y) (M * ey + e * (Y + ey) + uu * ((M + e) * (Y + ey)) + dmin / 2) (cfmul z (cfre y)) (c * RtoC r)%C.
Proof.
  intros [A B] Hy HB. destruct (ap_pos _ _ _ _ A) as [HM He]. destruct (ap_pos _ _ _ _ Hy) as [HY Hey].
  pose proof uu_small as [U0 U1]. pose proof dmin_small as [D0 D1].
  assert (P1 : 0 <= (M + e) * (Y + ey)) by (apply Rmult_le_pos; lra).
  assert (BB : 1 <= BIG) by (change 1 with (bpow radix2 0); apply bpow_le; lia).
  assert (Q : uu * ((M + e) * (Y + ey)) <= / 4 * ((M + e) * (Y + ey))) by (apply Rmult_le_compat_r; lra).
  assert (Q2 : M * Y + (M * ey + e * (Y + ey) + uu * ((M + e) * (Y + ey)) + dmin / 2) <= BIG).
  { replace (M * Y + (M * ey + e * (Y + ey) + uu * ((M + e) * (Y + ey)) + dmin / 2)) with ((M + e) * (Y + ey) + uu * ((M + e) * (Y + ey)) + dmin / 2) by ring. lra. }
  destruct A as (Da & Fa & A1 & A2). destruct B as (Db & Fb & B1 & B2).
  assert (PA : ap (M * Y) (M * ey + e * (Y + ey) + uu * ((M + e) * (Y + ey)) + dmin / 2) (fmul (fst z) y) (fst c * r)) by (apply ap_fmul; [split|auto|lra]; auto).
  assert (PB : ap (M * Y) (M * ey + e * (Y + ey) + uu * ((M + e) * (Y + ey)) + dmin / 2) (fmul (snd z) y) (snd c * r)) by (apply ap_fmul; [split|auto|lra]; auto).
  split; cbn [cfmul cfre fst snd].
  - replace (fst (c * RtoC r)%C) with (fst c * r) by (cbn; ring). apply ap_fsub_0r; [exact PA|apply ap_fmul_0; auto; apply ap_zero|exact Q2].
  - replace (snd (c * RtoC r)%C) with (snd c * r) by (cbn; ring). apply ap_fadd_0l; [exact PB|apply ap_fmul_0; auto; apply ap_zero|exact Q2].
Qed.

(** multiplication by (nearly) A times a unit 1, i, -1, -i *)
Definition wap (A ew : R) (w : cf) (i : C) : Prop :=
  ap (A * Rabs (fst i)) ew (fst w) (A * fst i) /\ ap (A * Rabs (snd i)) ew (snd w) (A * snd i) /\ Rabs (fst i) + Rabs (snd i) <= 1.

Lemma alg_w A ew M e u d a b : 0 <= A -> 0 <= ew <= A / 4 -> 0 <= M -> 0 <= e -> 0 < u <= / 10 ^ 15 -> 0 < d -> 0 <= a -> 0 <= b -> a + b <= 1 ->
  let p a := A * a * e + ew * (M + e) + u * ((A * a + ew) * (M + e)) + d / 2 in
  p a + p b + u * (A * a * M + A * b * M + p a + p b) <= A * e + 2 * ew * (M + e) + 4 * u * (A * (M + e)) + 2 * d.
Proof.
  intros HA [Hw0 Hw1] HM He [U0 U1] D Ha Hb Hab p.
  set (X := A * (M + e)). assert (HX : 0 <= X) by (apply Rmult_le_pos; lra).
  assert (E1 : A * a * e + A * b * e <= A * e) by (replace (A * a * e + A * b * e) with (A * e * (a + b)) by ring; rewrite <- (Rmult_1_r (A * e)) at 2; apply Rmult_le_compat_l; [apply Rmult_le_pos; lra|lra]).
  assert (E2 : A * a * M + A * b * M <= A * M) by (replace (A * a * M + A * b * M) with (A * M * (a + b)) by ring; rewrite <- (Rmult_1_r (A * M)) at 2; apply Rmult_le_compat_l; [apply Rmult_le_pos; lra|lra]).
  assert (E3 : ew * (M + e) <= / 4 * X) by (unfold X; replace (/ 4 * (A * (M + e))) with (A / 4 * (M + e)) by field; apply Rmult_le_compat_r; lra).
  assert (E4 : (A * a + ew) * (M + e) + (A * b + ew) * (M + e) <= 3 / 2 * X).
  { replace ((A * a + ew) * (M + e) + (A * b + ew) * (M + e)) with (X * (a + b) + 2 * (ew * (M + e))) by (unfold X; ring).
    assert (X * (a + b) <= X * 1) by (apply Rmult_le_compat_l; lra). lra. }
  assert (E5 : p a + p b <= A * e + 2 * ew * (M + e) + u * (3 / 2 * X) + d).
  { unfold p. assert (u * ((A * a + ew) * (M + e) + (A * b + ew) * (M + e)) <= u * (3 / 2 * X)) by (apply Rmult_le_compat_l; lra). lra. }
  assert (UX : 0 <= u * X) by (apply Rmult_le_pos; lra). assert (UX2 : u * X <= / 10 * X) by (apply Rmult_le_compat_r; lra).
  assert (E6 : A * a * M + A * b * M + p a + p b <= 17 / 10 * X + d) by (unfold X in *; lra).
  assert (u * (A * a * M + A * b * M + p a + p b) <= u * (17 / 10 * X + d)) by (apply Rmult_le_compat_l; lra).
  assert (u * d <= / 10 * d) by (apply Rmult_le_compat_r; lra). lra.
Qed.

Lemma cap_w A ew M e w i z c : wap A ew w i -> cap M e z c -> ew <= A / 4 -> 4 * (A + 1) * (M + e + 1) <= BIG ->
  cap (A * M) (A * e + 2 * ew * (M + e) + 4 * uu * (A * (M + e)) + 2 * dmin) (cfmul w z) (RtoC A * (i * c))%C.
Proof.
  intros (W1 & W2 & Wi) [Z1 Z2] Hw HB. destruct (ap_pos _ _ _ _ Z1) as [HM He]. destruct (ap_pos _ _ _ _ W1) as [HA1 Hew].
  pose proof uu_small as [U0 U1]. pose proof dmin_small as [D0 D1].
  assert (HA : 0 <= A) by lra. set (a := Rabs (fst i)) in *. set (b := Rabs (snd i)) in *.
  assert (Ha : 0 <= a) by apply Rabs_pos. assert (Hb : 0 <= b) by apply Rabs_pos.
  assert (Gen : forall x y, 0 <= x <= 1 -> 0 <= y -> y <= 1 -> (A * x + ew) * (M + e) <= 2 * (A * (M + e)) /\ 0 <= (A * x + ew) * (M + e) /\ A * x * e <= A * e /\ A * x * M <= A * M).
  { intros x y Hx Hy Hy1. assert (0 <= A * x <= A * 1) by (split; [apply Rmult_le_pos; lra|apply Rmult_le_compat_l; lra]).
    replace (2 * (A * (M + e))) with ((A + A) * (M + e)) by ring. repeat split; [apply Rmult_le_compat_r; lra|apply Rmult_le_pos; lra| |]; rewrite <- (Rmult_1_r A) at 2; apply Rmult_le_compat_r; lra. }
  destruct (Gen a b) as (Ga1 & Ga2 & Ga3 & Ga4); [lra|lra|lra|]. destruct (Gen b a) as (Gb1 & Gb2 & Gb3 & Gb4); [lra|lra|lra|].
  assert (X0 : 0 <= A * (M + e)) by (apply Rmult_le_pos; lra).
  assert (HB' : 4 * (A * (M + e)) + 4 * A + 4 * (M + e) + 4 <= BIG) by (replace (4 * (A * (M + e)) + 4 * A + 4 * (M + e) + 4) with (4 * (A + 1) * (M + e + 1)) by ring; exact HB).
  pose proof (alg_w A ew M e uu dmin a b HA ltac:(lra) HM He ltac:(lra) D0 Ha Hb Wi) as Lab. cbv zeta in Lab.
  pose proof (alg_w A ew M e uu dmin b a HA ltac:(lra) HM He ltac:(lra) D0 Hb Ha ltac:(lra)) as Lba. cbv zeta in Lba.
  assert (S1 : A * a * M + A * b * M <= A * M) by (replace (A * a * M + A * b * M) with (A * M * (a + b)) by ring; rewrite <- (Rmult_1_r (A * M)) at 2; apply Rmult_le_compat_l; [apply Rmult_le_pos; lra|lra]).
  assert (Ew : ew * (M + e) <= / 4 * (A * (M + e))) by (replace (/ 4 * (A * (M + e))) with (A / 4 * (M + e)) by field; apply Rmult_le_compat_r; lra).
  assert (Uq : uu * ((A * a + ew) * (M + e)) <= / 10 * (A * (M + e)) /\ uu * ((A * b + ew) * (M + e)) <= / 10 * (A * (M + e))).
  { split; (eapply Rle_trans; [apply Rmult_le_compat_r with (r2 := / 20); lra|]; lra). }
  pose proof (ap_fmul _ _ _ _ _ _ _ _ W1 Z1 ltac:(lra)) as P11. pose proof (ap_fmul _ _ _ _ _ _ _ _ W2 Z2 ltac:(lra)) as P22.
  pose proof (ap_fmul _ _ _ _ _ _ _ _ W1 Z2 ltac:(lra)) as P12. pose proof (ap_fmul _ _ _ _ _ _ _ _ W2 Z1 ltac:(lra)) as P21.
  assert (Xm : A * M <= A * (M + e)) by (apply Rmult_le_compat_l; lra). assert (Xe : A * e <= A * (M + e)) by (apply Rmult_le_compat_l; lra).
  split; cbn [cfmul fst snd].
  - replace (fst (RtoC A * (i * c))%C) with (A * fst i * fst c - A * snd i * snd c) by (cbn; ring).
    eapply ap_le; [apply (ap_fsub _ _ _ _ _ _ _ _ P11 P22); lra|lra|]. exact Lab.
  - replace (snd (RtoC A * (i * c))%C) with (A * fst i * snd c + A * snd i * fst c) by (cbn; ring).
    eapply ap_le; [apply (ap_fadd _ _ _ _ _ _ _ _ P12 P21); lra|lra|]. exact Lab.
Qed.

Lemma cfmul_swap x y : cfmul x y = (fsub (fmul (fst y) (fst x)) (fmul (snd y) (snd x)), fadd (fmul (snd y) (fst x)) (fmul (fst y) (snd x))).
Proof.
  assert (C : forall a b, fmul a b = fmul b a).
  { intros a b. unfold fmul. destruct a as [[]|[]| |[] m e], b as [[]|[]| |[] m' e']; cbn [SFmul xorb]; try reflexivity; rewrite (Pos.mul_comm m m'), (Z.add_comm e e'); reflexivity. }
  unfold cfmul. rewrite (C (fst x) (fst y)), (C (snd x) (snd y)), (C (fst x) (snd y)), (C (snd x) (fst y)). reflexivity.
Qed.
Lemma cap_wr A ew M e w i z c : wap A ew w i -> cap M e z c -> ew <= A / 4 -> 4 * (A + 1) * (M + e + 1) <= BIG ->
  cap (A * M) (A * e + 2 * ew * (M + e) + 4 * uu * (A * (M + e)) + 2 * dmin) (cfmul z w) (RtoC A * (i * c))%C.
Proof.
  intros (W1 & W2 & Wi) [Z1 Z2] Hw HB. destruct (ap_pos _ _ _ _ Z1) as [HM He]. destruct (ap_pos _ _ _ _ W1) as [HA1 Hew].
  pose proof uu_small as [U0 U1]. pose proof dmin_small as [D0 D1].
  assert (HA : 0 <= A) by lra. set (a := Rabs (fst i)) in *. set (b := Rabs (snd i)) in *.
  assert (Ha : 0 <= a) by apply Rabs_pos. assert (Hb : 0 <= b) by apply Rabs_pos.
  assert (Gen : forall x y, 0 <= x <= 1 -> 0 <= y -> y <= 1 -> (A * x + ew) * (M + e) <= 2 * (A * (M + e)) /\ 0 <= (A * x + ew) * (M + e) /\ A * x * e <= A * e /\ A * x * M <= A * M).
  { intros x y Hx Hy Hy1. assert (0 <= A * x <= A * 1) by (split; [apply Rmult_le_pos; lra|apply Rmult_le_compat_l; lra]).
    replace (2 * (A * (M + e))) with ((A + A) * (M + e)) by ring. repeat split; [apply Rmult_le_compat_r; lra|apply Rmult_le_pos; lra| |]; rewrite <- (Rmult_1_r A) at 2; apply Rmult_le_compat_r; lra. }
  destruct (Gen a b) as (Ga1 & Ga2 & Ga3 & Ga4); [lra|lra|lra|]. destruct (Gen b a) as (Gb1 & Gb2 & Gb3 & Gb4); [lra|lra|lra|].
  assert (X0 : 0 <= A * (M + e)) by (apply Rmult_le_pos; lra).
  assert (HB' : 4 * (A * (M + e)) + 4 * A + 4 * (M + e) + 4 <= BIG) by (replace (4 * (A * (M + e)) + 4 * A + 4 * (M + e) + 4) with (4 * (A + 1) * (M + e + 1)) by ring; exact HB).
  pose proof (alg_w A ew M e uu dmin a b HA ltac:(lra) HM He ltac:(lra) D0 Ha Hb Wi) as Lab. cbv zeta in Lab.
  pose proof (alg_w A ew M e uu dmin b a HA ltac:(lra) HM He ltac:(lra) D0 Hb Ha ltac:(lra)) as Lba. cbv zeta in Lba.
  assert (S1 : A * a * M + A * b * M <= A * M) by (replace (A * a * M + A * b * M) with (A * M * (a + b)) by ring; rewrite <- (Rmult_1_r (A * M)) at 2; apply Rmult_le_compat_l; [apply Rmult_le_pos; lra|lra]).
  assert (Ew : ew * (M + e) <= / 4 * (A * (M + e))) by (replace (/ 4 * (A * (M + e))) with (A / 4 * (M + e)) by field; apply Rmult_le_compat_r; lra).
  assert (Uq : uu * ((A * a + ew) * (M + e)) <= / 10 * (A * (M + e)) /\ uu * ((A * b + ew) * (M + e)) <= / 10 * (A * (M + e))).
  { split; (eapply Rle_trans; [apply Rmult_le_compat_r with (r2 := / 20); lra|]; lra). }
  pose proof (ap_fmul _ _ _ _ _ _ _ _ W1 Z1 ltac:(lra)) as P11. pose proof (ap_fmul _ _ _ _ _ _ _ _ W2 Z2 ltac:(lra)) as P22.
  pose proof (ap_fmul _ _ _ _ _ _ _ _ W1 Z2 ltac:(lra)) as P12. pose proof (ap_fmul _ _ _ _ _ _ _ _ W2 Z1 ltac:(lra)) as P21.
  assert (Xm : A * M <= A * (M + e)) by (apply Rmult_le_compat_l; lra). assert (Xe : A * e <= A * (M + e)) by (apply Rmult_le_compat_l; lra).
  rewrite cfmul_swap. split; cbn [fst snd].
  - replace (fst (RtoC A * (i * c))%C) with (A * fst i * fst c - A * snd i * snd c) by (cbn; ring).
    eapply ap_le; [apply (ap_fsub _ _ _ _ _ _ _ _ P11 P22); lra|lra|]. exact Lab.
  - replace (snd (RtoC A * (i * c))%C) with (A * snd i * fst c + A * fst i * snd c) by (cbn; ring).
    eapply ap_le; [apply (ap_fadd _ _ _ _ _ _ _ _ P21 P12); lra|lra|]. exact Lba.
Qed.

(** ** The sizes of the errors.  W = Y + 1, s = B W *)
Lemma gW n : (0 <= n <= 1022)%Z -> let g := 16 * (IZR n + 1) ^ 3 * uu in
  tab_err n = g * (ymax n + 1) /\ 0 < g <= / 10 ^ 5 /\ g * (ymax n + 1) <= 1.
Proof.
  intros H g. pose proof (ymax_14 n H) as HY. assert (Hn : 0 <= IZR n <= 1022) by (split; apply IZR_le; lia). pose proof uu_small as [U0 _].
  assert (P : 1 <= (IZR n + 1) ^ 3 <= 1023 ^ 3) by (split; [rewrite <- (pow1 3); apply pow_incr; lra|apply pow_incr; lra]).
  assert (G : 0 < g <= / 10 ^ 5).
  { unfold g. split; [apply Rmult_lt_0_compat; lra|]. apply Rle_trans with (16 * 1023 ^ 3 * uu); [apply Rmult_le_compat_r; lra|]. rewrite uu_val. lra. }
  split; [unfold tab_err, g; ring|]. split; [exact G|]. apply Rle_trans with (/ 10 ^ 5 * 15); [apply Rmult_le_compat; lra|lra].
Qed.
Lemma alg_t B Y g u d : 0 <= B -> 0 <= Y -> 0 < g -> g * (Y + 1) <= 1 -> 0 < u -> 0 < d ->
  B * (g * (Y + 1)) + u * (B * (Y + g * (Y + 1))) + d / 2 <= B * (Y + 1) * (g + u) + d.
Proof.
  intros HB HY Hg Hg1 Hu Hd. assert (0 <= u * B) by (apply Rmult_le_pos; lra).
  assert (u * B * (Y + g * (Y + 1)) <= u * B * (Y + 1)) by (apply Rmult_le_compat_l; lra). lra.
Qed.
Lemma alg_se x T t S al be : 0 <= x <= 1023 -> 0 <= T <= S -> t <= al * S + be -> 0 <= al <= / 10 -> 0 <= be ->
  x * t + 2 * uu * (x * x) * (T + t) <= S * (x * al + 3 * uu * (x * x)) + 2 * x * be.
Proof.
  intros Hx HT Ht Hal Hbe. pose proof uu_small as [U0 U1]. set (u := uu) in *. clearbody u.
  assert (X2 : 0 <= x * x) by (apply Rmult_le_pos; lra). assert (UX : 0 <= 2 * u * (x * x)) by (apply Rmult_le_pos; lra).
  assert (A1 : al * S <= / 10 * S) by (apply Rmult_le_compat_r; lra).
  assert (A2 : x * t <= x * (al * S + be)) by (apply Rmult_le_compat_l; lra).
  assert (A3 : 2 * u * (x * x) * (T + t) <= 2 * u * (x * x) * (11 / 10 * S + be)) by (apply Rmult_le_compat_l; lra).
  assert (A4 : 2 * u * (x * x) * be <= x * be).
  { replace (2 * u * (x * x) * be) with (2 * u * x * (x * be)) by ring. rewrite <- (Rmult_1_l (x * be)) at 2. apply Rmult_le_compat_r; [apply Rmult_le_pos; lra|].
    apply Rle_trans with (2 * / 10 ^ 15 * 1023); [apply Rmult_le_compat; lra|lra]. }
  assert (0 <= u * (x * x) * S) by (repeat apply Rmult_le_pos; lra). lra.
Qed.

(** the error of one coefficient; N = n + 1, W = Y + 1 *)
Definition acc (N W B ew : R) : R := N * W * (B * (48 * N ^ 3 * uu + 12 * ew) + 16 * dmin).

Lemma alg_a B Y g ew ey : 0 <= B -> 0 <= Y -> 0 < g -> ey = g * (Y + 1) -> ey <= 1 -> 0 <= ew ->
  let e1 := 1 * 0 + 2 * ew * (B + 0) + 4 * uu * (1 * (B + 0)) + 2 * dmin in
  B * ey + e1 * (Y + ey) + uu * ((B + e1) * (Y + ey)) + dmin / 2 <= B * (Y + 1) * (g + 3 * ew + 6 * uu) + 4 * (Y + 1) * dmin.
Proof.
  intros HB HY Hg -> Hg1 Hw e1. pose proof uu_small as [U0 U1]. pose proof dmin_small as [D0 _]. set (u := uu) in *. set (d := dmin) in *. clearbody u d.
  assert (P1 : 0 <= ew * B) by (apply Rmult_le_pos; lra). assert (P2 : 0 <= u * B) by (apply Rmult_le_pos; lra).
  assert (E0 : 0 <= e1) by (unfold e1; lra). set (ey := g * (Y + 1)) in *.
  assert (A1 : e1 * (Y + ey) <= e1 * (Y + 1)) by (apply Rmult_le_compat_l; lra).
  assert (A2 : (B + e1) * (Y + ey) <= (B + e1) * (Y + 1)) by (apply Rmult_le_compat_l; lra).
  assert (A3 : u * ((B + e1) * (Y + ey)) <= u * (B * (Y + 1)) + / 10 * (e1 * (Y + 1))).
  { eapply Rle_trans; [apply Rmult_le_compat_l; [lra|exact A2]|]. rewrite Rmult_plus_distr_r, Rmult_plus_distr_l. apply Rplus_le_compat_l.
    apply Rmult_le_compat_r; [apply Rmult_le_pos; lra|lra]. }
  assert (E : e1 * (Y + 1) = B * (Y + 1) * (2 * ew + 4 * u) + 2 * (Y + 1) * d) by (unfold e1; ring).
  assert (S0 : 0 <= B * (Y + 1)) by (apply Rmult_le_pos; lra). assert (0 <= B * (Y + 1) * ew) by (apply Rmult_le_pos; lra). assert (0 <= B * (Y + 1) * u) by (apply Rmult_le_pos; lra).
  assert (0 <= Y * d) by (apply Rmult_le_pos; lra).
  assert (EB : B * ey = B * (Y + 1) * g) by (unfold ey; ring). rewrite E in *. lra.
Qed.

Lemma alg_py n B Y g ew ea es M : 1 <= n <= 1022 -> 0 <= B -> 0 <= Y <= 14 -> g = 16 * (n + 1) ^ 3 * uu -> g <= / 10 ^ 5 -> 0 <= ew <= / 64 ->
  let S := B * (Y + 1) in 0 <= ea -> 0 <= es ->
  ea <= S * (g + 3 * ew + 6 * uu) + 4 * (Y + 1) * dmin -> es <= S * (n * (g + uu) + 3 * uu * (n * n)) + 2 * n * dmin -> 0 <= M <= n * S ->
  let eb := 2 * es + 2 * (2 * ew + 4 * uu) * (M + es) + 4 * uu * (2 * (M + es)) + 2 * dmin in
  ea + eb + uu * (B * Y + 2 * M + ea + eb) <= acc (n + 1) (Y + 1) B ew /\ B * Y + 2 * M + ea + eb <= 10000 * S + 10 /\ M + es <= 2100 * S + 10.
Proof.
  intros Hn HB HY Eg Hg [W0 W1] S Ha0 Hs0 Ha Hs [M0 HM] eb. pose proof uu_small as [U0 U1]. pose proof dmin_small as [D0 D1]. unfold acc. set (u := uu) in *. set (d := dmin) in *. clearbody u d.
  assert (S0 : 0 <= S) by (apply Rmult_le_pos; lra). assert (YS : B * Y <= S) by (unfold S; apply Rmult_le_compat_l; lra).
  assert (N2 : n * n <= 1022 * 1022) by (apply Rmult_le_compat; lra). assert (N1 : 1 <= n * n) by (rewrite <- (Rmult_1_r 1); apply Rmult_le_compat; lra).
  assert (G0 : 0 < g) by (rewrite Eg; apply Rmult_lt_0_compat; [apply Rmult_lt_0_compat; [lra|apply pow_lt; lra]|lra]).
  assert (Hes1 : n * (g + u) + 3 * u * (n * n) <= n * g + 4 * u * (n * n)).
  { assert (n * u <= n * n * u) by (apply Rmult_le_compat_r; [lra|]; rewrite <- (Rmult_1_r n) at 1; apply Rmult_le_compat_l; lra). lra. }
  assert (Hes : es <= S * (n * g + 4 * u * (n * n)) + 2 * n * d).
  { eapply Rle_trans; [exact Hs|]. apply Rplus_le_compat_r. apply Rmult_le_compat_l; lra. }
  assert (Un : u * (n * n) <= / 10 ^ 5) by (apply Rle_trans with (/ 10 ^ 15 * (1022 * 1022)); [apply Rmult_le_compat; lra|lra]).
  assert (Ng : n * g <= / 10 * n) by (rewrite Rmult_comm; apply Rmult_le_compat_r; lra).
  assert (Hes2 : es <= S * n + 2 * n * d).
  { eapply Rle_trans; [exact Hes|]. apply Rplus_le_compat_r. apply Rmult_le_compat_l; lra. }
  set (Z := M + es). assert (HZ : 0 <= Z <= 2 * (n * S) + 2 * n * d) by (unfold Z; lra).
  assert (Nd : 0 <= n * d <= 1022 * d) by (split; [apply Rmult_le_pos; lra|apply Rmult_le_compat_r; lra]).
  assert (NS : 0 <= n * S <= 1022 * S) by (split; [apply Rmult_le_pos; lra|apply Rmult_le_compat_r; lra]).
  assert (E1 : ew * Z <= 2 * (ew * (n * S)) + n * d).
  { apply Rle_trans with (ew * (2 * (n * S) + 2 * n * d)); [apply Rmult_le_compat_l; lra|]. assert (ew * (n * d) <= / 64 * (n * d)) by (apply Rmult_le_compat_r; lra). lra. }
  assert (E2 : u * Z <= 2 * (u * (n * S)) + n * d / 16).
  { apply Rle_trans with (u * (2 * (n * S) + 2 * n * d)); [apply Rmult_le_compat_l; lra|]. assert (u * (n * d) <= / 64 * (n * d)) by (apply Rmult_le_compat_r; lra). lra. }
  assert (Heb : eb <= 2 * (S * (n * g + 4 * u * (n * n))) + 8 * (ew * (n * S)) + 32 * (u * (n * S)) + 10 * n * d + 2 * d) by (unfold eb; fold Z; lra).
  assert (Heb0 : 0 <= eb). { unfold eb. fold Z. assert (0 <= ew * Z) by (apply Rmult_le_pos; lra). assert (0 <= u * Z) by (apply Rmult_le_pos; lra). lra. }
  assert (EW : ew * (n * S) <= / 64 * (n * S)) by (apply Rmult_le_compat_r; lra). assert (EU : u * (n * S) <= / 64 * (n * S)) by (apply Rmult_le_compat_r; lra).
  assert (EG : S * (n * g + 4 * u * (n * n)) <= S * n) by (apply Rmult_le_compat_l; lra).
  assert (Heb2 : eb <= 4 * (n * S) + 10 * n * d + 2 * d) by lra.
  assert (YD : 0 <= Y * d) by (apply Rmult_le_pos; lra).
  assert (Wd : (Y + 1) * d <= 1 * S + 100 * (Y + 1) * d) by lra.
  assert (Hea2 : ea <= S + 4 * (Y + 1) * d) by (eapply Rle_trans; [exact Ha|]; apply Rplus_le_compat_r; rewrite <- (Rmult_1_r S) at 2; apply Rmult_le_compat_l; lra).
  assert (UT : u * (B * Y + 2 * M + ea + eb) <= 8 * (u * (n * S)) + (Y + 1) * d + n * d).
  { apply Rle_trans with (u * (S + 2 * (n * S) + (S + 4 * (Y + 1) * d) + (4 * (n * S) + 10 * n * d + 2 * d))); [apply Rmult_le_compat_l; lra|].
    assert (u * S <= u * (n * S)) by (apply Rmult_le_compat_l; [lra|]; rewrite <- (Rmult_1_l S) at 1; apply Rmult_le_compat_r; lra).
    assert (u * ((Y + 1) * d) <= / 64 * ((Y + 1) * d)) by (apply Rmult_le_compat_r; lra). assert (u * (n * d) <= / 64 * (n * d)) by (apply Rmult_le_compat_r; lra).
    assert (u * d <= / 64 * d) by (apply Rmult_le_compat_r; lra). lra. }
  split; [|split].
  - apply Rle_trans with (S * (g * (2 * n + 1) + 11 * (n + 1) * ew + u * (6 + 8 * (n * n) + 40 * n)) + (Y + 1) * d * (16 * (n + 1))).
    + assert (0 <= S * ew) by (apply Rmult_le_pos; lra). assert (0 <= n * (S * ew)) by (apply Rmult_le_pos; lra). assert (0 <= n * (Y * d)) by (apply Rmult_le_pos; lra). clearbody S. lra.
    + replace ((n + 1) * (Y + 1) * (B * (48 * (n + 1) ^ 3 * u + 12 * ew) + 16 * d)) with (S * (48 * ((n + 1) ^ 4 * u) + 12 * (n + 1) * ew) + (Y + 1) * d * (16 * (n + 1))) by (unfold S; ring).
      apply Rplus_le_compat_r. apply Rmult_le_compat_l; [exact S0|]. rewrite Eg.
      assert (K : 16 * (n + 1) ^ 3 * (2 * n + 1) + (6 + 8 * (n * n) + 40 * n) <= 48 * (n + 1) ^ 4).
      { assert (n * n * n >= n * n) by (assert (n * n * 1 <= n * n * n) by (apply Rmult_le_compat_l; lra); lra). 
        assert (n * n * n * n >= n * n * n) by (assert (n * n * n * 1 <= n * n * n * n) by (apply Rmult_le_compat_l; lra); lra).
        assert (n * n >= n) by (assert (n * 1 <= n * n) by (apply Rmult_le_compat_l; lra); lra). lra. }
      apply Rmult_le_compat_l with (r := u) in K; [|lra]. assert (0 <= (n + 1) * ew) by (apply Rmult_le_pos; lra). lra.
  - assert (Y * d <= 14 * d) by (apply Rmult_le_compat_r; lra). clearbody S. lra.
  - clearbody S. lra.
Qed.

Lemma big_val : BIG = 1048576 * bpow radix2 1000.
Proof. change 1020%Z with (20 + 1000)%Z. rewrite bpow_plus. reflexivity. Qed.
Lemma Q_big : 10 ^ 6 <= bpow radix2 1000.
Proof. apply Rle_trans with (bpow radix2 20); [cbn; lra|apply bpow_le; lia]. Qed.

(** ** One coefficient, pure Python *)
Lemma two_ap : ap 2 0 (fofZ 2) 2.
Proof.
  destruct (fofZ_small 2 ltac:(lia)) as (D & F & E). split; [exact D|]. split; [exact F|]. rewrite E. rewrite Rminus_diag_eq, Rabs_R0 by reflexivity.
  rewrite Rabs_pos_eq; lra.
Qed.
Lemma w_two ew w i : wap 1 ew w i -> ew <= / 64 -> wap 2 (2 * ew + 4 * uu) (cfmul w (cfre (fofZ 2))) i.
Proof.
  intros (A & B & I) Hw. pose proof uu_small as [U0 U1]. pose proof dmin_small as [D0 D1]. pose proof two_ap as T.
  destruct (ap_pos _ _ _ _ A) as [_ W0]. pose proof (Rabs_pos (fst i)) as P1. pose proof (Rabs_pos (snd i)) as P2.
  assert (D8 : dmin <= uu). { unfold uu. apply bpow_le. lia. }
  pose proof Q_big as QB. pose proof big_val as BV.
  assert (G : forall x r, ap (1 * Rabs r) ew x (1 * r) -> Rabs r <= 1 -> ap (2 * Rabs r) (2 * ew + 4 * uu) (fmul x (fofZ 2)) (2 * r)).
  { intros x r H Hr. pose proof (Rabs_pos r). replace (2 * r) with (1 * r * 2) by ring. eapply ap_le; [apply (ap_fmul _ _ _ _ _ _ _ _ H T)|lra|].
    - rewrite Rmult_1_l, Rplus_0_r. lra.
    - rewrite !Rmult_1_l, !Rplus_0_r, Rmult_0_r. assert (uu * ((Rabs r + ew) * 2) <= uu * 3) by (apply Rmult_le_compat_l; lra). lra. }
  pose proof (G _ _ A ltac:(lra)) as GA. pose proof (G _ _ B ltac:(lra)) as GB.
  destruct A as (DA & FA & _). destruct B as (DB & FB & _).
  split; [|split; [|exact I]]; cbn [cfmul cfre fst snd].
  - apply ap_fsub_0r; [exact GA|apply ap_fmul_0; auto; apply ap_zero|lra].
  - apply ap_fadd_0l; [exact GB|apply ap_fmul_0; auto; apply ap_zero|lra].
Qed.

Lemma rsumR_range lo hi r : rsumR (map r (zrange lo hi)) = sumR lo hi r.
Proof. unfold sumR, gsum. induction (zrange lo hi) as [|x l IH]; [reflexivity|]. cbn [map rsumR fold_right]. rewrite IH. reflexivity. Qed.
Lemma fst_sumC lo hi f : fst (sumC lo hi f) = sumR lo hi (fun k => fst (f k)).
Proof. unfold sumR, sumC, gsum. induction (zrange lo hi) as [|x l IH]; [reflexivity|]. cbn [map fold_right]. rewrite <- IH. reflexivity. Qed.
Lemma snd_sumC lo hi f : snd (sumC lo hi f) = sumR lo hi (fun k => snd (f k)).
Proof. unfold sumR, sumC, gsum. induction (zrange lo hi) as [|x l IH]; [reflexivity|]. cbn [map fold_right]. rewrite <- IH. reflexivity. Qed.

Lemma rsums_range lo hi (x : Z -> f64) (r : Z -> R) T t s : rsums (map x (zrange lo hi)) s -> (lo <= hi)%Z -> 0 <= T -> 0 <= t ->
  (forall k, (lo <= k < hi)%Z -> ap T t (x k) (r k)) -> let N := IZR (hi - lo) in
  N <= 10 ^ 9 -> let E := N * t + 2 * uu * (N * N) * (T + t) in N * T + 2 * E <= BIG / 2 ->
  ap (N * T) E s (sumR lo hi r).
Proof.
  intros H Hl HT Ht Ha N HN E HE.
  assert (L : INR (length (map (fun k => (x k, r k)) (zrange lo hi))) = N).
  { rewrite map_length, INR_IZR_INZ. pose proof (zlen_zrange lo hi) as L. unfold zlen in L. rewrite L. unfold N. f_equal. lia. }
  pose proof (rsums_ap T t (map (fun k => (x k, r k)) (zrange lo hi)) s) as Q. unfold se in Q. rewrite L in Q. rewrite !map_map in Q. cbn [fst snd] in Q.
  rewrite rsumR_range in Q. apply Q; auto. intros q Hq. apply in_map_iff in Hq. destruct Hq as (k & <- & Hk). apply In_zrange in Hk. cbn [fst snd]. apply Ha. lia.
Qed.
Lemma csums_range lo hi (x : Z -> cf) (c : Z -> C) T t s : sums (map x (zrange lo hi)) s -> (lo <= hi)%Z -> 0 <= T -> 0 <= t ->
  (forall k, (lo <= k < hi)%Z -> cap T t (x k) (c k)) -> let N := IZR (hi - lo) in
  N <= 10 ^ 9 -> let E := N * t + 2 * uu * (N * N) * (T + t) in N * T + 2 * E <= BIG / 2 ->
  cap (N * T) E s (sumC lo hi c).
Proof.
  intros H Hl HT Ht Ha N HN E HE. split.
  - rewrite fst_sumC. apply (rsums_range lo hi (fun k => fst (x k))); auto; [|intros; apply Ha; auto]. apply sums_fst in H. rewrite map_map in H. exact H.
  - rewrite snd_sumC. apply (rsums_range lo hi (fun k => snd (x k))); auto; [|intros; apply Ha; auto]. apply sums_snd in H. rewrite map_map in H. exact H.
Qed.

Section Coef.
Variables (n : Z) (B ew : R).
Hypothesis Hn : (0 <= n <= 1022)%Z.
Hypothesis HB : 0 <= B <= bpow radix2 1000.
Hypothesis Hw : 0 <= ew <= / 64.
Let Y := ymax n.
Let ey := tab_err n.
Let g := 16 * (IZR n + 1) ^ 3 * uu.

Lemma facts : 0 <= Y <= 14 /\ ey = g * (Y + 1) /\ 0 < g <= / 10 ^ 5 /\ 0 <= g * (Y + 1) <= 1 /\ 0 <= IZR n <= 1022.
Proof.
  destruct (gW n Hn) as (A & B' & C'). pose proof (ymax_14 n Hn) as HY. split; [exact HY|]. split; [exact A|]. split; [exact B'|].
  split; [split; [apply Rmult_le_pos; [apply Rlt_le, B'|unfold Y; lra]|exact C']|]. split; apply IZR_le; lia.
Qed.
Lemma term_t (h : cf) c y r : cap B 0 h c -> ap Y ey y r -> cap (B * Y) (B * (Y + 1) * (g + uu) + dmin) (cfmul h (cfre y)) (c * RtoC r)%C.
Proof.
  intros Hh Hy. destruct facts as (HY & Ey & Hg & Hg1 & HN). pose proof uu_small. pose proof dmin_small. pose proof Q_big as QB. pose proof big_val as BV.
  assert (P : (B + 0) * (Y + ey) <= bpow radix2 1000 * 15) by (apply Rmult_le_compat; rewrite ?Ey; lra).
  eapply cap_le; [apply (cap_re _ _ _ _ _ _ _ _ Hh Hy)|lra|].
  - lra.
  - rewrite Rmult_0_l, !Rplus_0_r, Ey. apply alg_t; lra.
Qed.
Lemma sum_e (x : Z -> cf) (c : Z -> C) lo hi s : (lo <= hi)%Z -> (hi - lo <= n + 1)%Z -> sums (map x (zrange lo hi)) s ->
  (forall k, (lo <= k < hi)%Z -> cap (B * Y) (B * (Y + 1) * (g + uu) + dmin) (x k) (c k)) ->
  let N := IZR (hi - lo) in
  cap (N * (B * Y)) (B * (Y + 1) * (N * (g + uu) + 3 * uu * (N * N)) + 2 * N * dmin) s (sumC lo hi c).
Proof.
  intros Hl Hh Hs Ht N. destruct facts as (HY & Ey & Hg & Hg1 & HN). pose proof uu_small as [U0 U1]. pose proof dmin_small as [D0 D1]. pose proof Q_big as QB. pose proof big_val as BV.
  assert (N0 : 0 <= N <= 1023) by (split; apply IZR_le; lia).
  assert (BY : 0 <= B * Y <= B * (Y + 1)) by (split; [apply Rmult_le_pos; lra|apply Rmult_le_compat_l; lra]).
  assert (S15 : B * (Y + 1) <= bpow radix2 1000 * 15) by (apply Rmult_le_compat; lra).
  pose proof (alg_se N (B * Y) (B * (Y + 1) * (g + uu) + dmin) (B * (Y + 1)) (g + uu) dmin N0 BY ltac:(lra) ltac:(lra) ltac:(lra)) as E.
  assert (T0 : 0 <= B * (Y + 1) * (g + uu) + dmin) by (assert (0 <= B * (Y + 1) * (g + uu)) by (apply Rmult_le_pos; lra); lra).
  assert (NN : N * N <= 1023 * 1023) by (apply Rmult_le_compat; lra). assert (NN0 : 0 <= N * N) by (apply Rmult_le_pos; lra).
  assert (K : B * (Y + 1) * (N * (g + uu) + 3 * uu * (N * N)) + 2 * N * dmin <= B * (Y + 1) + 1).
  { apply Rplus_le_compat.
    - rewrite <- (Rmult_1_r (B * (Y + 1))) at 2. apply Rmult_le_compat_l; [lra|]. assert (N * (g + uu) <= 1023 * (2 * / 10 ^ 5)) by (apply Rmult_le_compat; lra).
      assert (uu * (N * N) <= / 10 ^ 15 * (1023 * 1023)) by (apply Rmult_le_compat; lra). lra.
    - assert (N * dmin <= 1023 * / 10 ^ 30) by (apply Rmult_le_compat; lra). lra. }
  assert (NT : N * (B * Y) <= 1023 * (bpow radix2 1000 * 15)) by (apply Rmult_le_compat; lra).
  eapply cap_le; [apply (csums_range lo hi x c (B * Y) (B * (Y + 1) * (g + uu) + dmin)); auto; fold N; lra|fold N; lra|fold N; exact E].
Qed.

Lemma coef_py (h : Z -> cf) (c : Z -> C) (y : Z -> f64) (r : Z -> R) w i s : wap 1 ew w i ->
  (forall k, (0 <= k <= n)%Z -> cap B 0 (h k) (c k)) -> (forall k, (0 <= k <= n)%Z -> ap Y ey (y k) (r k)) ->
  sums (map (fun k => cfmul (h k) (cfre (y k))) (zrange 1 (n + 1))) s ->
  exists M, cap M (acc (IZR n + 1) (Y + 1) B ew)
    (if negb (n =? 0)%Z then cfadd (cfmul (cfmul w (h 0%Z)) (cfre (y 0%Z))) (cfmul (cfmul w (cfre (fofZ 2))) s) else cfmul (cfmul w (h 0%Z)) (cfre (y 0%Z)))
    (i * c 0%Z * RtoC (r 0%Z) + i * RtoC 2 * sumC 1 (n + 1) (fun k => c k * RtoC (r k)))%C.
Proof.
  intros HW Hh Hy Hs. destruct facts as (HY & Ey & Hg & Hg1 & HN). pose proof uu_small as [U0 U1]. pose proof dmin_small as [D0 D1]. pose proof Q_big as QB. pose proof big_val as BV.
  assert (BY : 0 <= B * Y <= B * (Y + 1)) by (split; [apply Rmult_le_pos; lra|apply Rmult_le_compat_l; lra]).
  assert (S15 : B * (Y + 1) <= bpow radix2 1000 * 15) by (apply Rmult_le_compat; lra).
  pose proof (cap_w _ _ _ _ _ _ _ _ HW (Hh 0%Z ltac:(lia)) ltac:(lra) ltac:(lra)) as A1. set (e1 := 1 * 0 + _ + _ + _) in A1.
  assert (E1 : 0 <= e1 <= B + 1).
  { unfold e1. assert (0 <= ew * B <= / 64 * B) by (split; [apply Rmult_le_pos; lra|apply Rmult_le_compat_r; lra]). assert (0 <= uu * B <= / 64 * B) by (split; [apply Rmult_le_pos; lra|apply Rmult_le_compat_r; lra]). lra. }
  assert (P1 : (1 * B + e1) * (Y + ey) <= (2 * bpow radix2 1000 + 1) * 15) by (apply Rmult_le_compat; rewrite ?Ey; lra).
  pose proof (cap_re _ _ _ _ _ _ _ _ A1 (Hy 0%Z ltac:(lia)) ltac:(lra)) as A2. rewrite !Rmult_1_l in A2. set (ea := B * ey + _ + _ + _) in A2.
  pose proof (alg_a B Y g ew ey ltac:(lra) ltac:(lra) ltac:(lra) Ey ltac:(lra) ltac:(lra)) as La. cbv zeta in La. fold e1 in La. fold ea in La.
  destruct (cap_pos _ _ _ _ A2) as [_ Ea0].
  destruct (Z.eqb_spec n 0) as [E0|N0]; cbn [negb].
  - exists (B * Y). rewrite (sumC_nil 1) by lia. 
    replace (i * c 0%Z * RtoC (r 0%Z) + i * RtoC 2 * RtoC 0)%C with (RtoC 1 * (i * c 0%Z) * RtoC (r 0%Z))%C by ring.
    eapply cap_le; [exact A2|lra|]. eapply Rle_trans; [exact La|]. unfold g. rewrite E0. unfold acc. set (W := Y + 1) in *.
    assert (0 <= B * W * ew) by (apply Rmult_le_pos; lra). assert (0 <= B * W * uu) by (apply Rmult_le_pos; lra). assert (0 <= W * dmin) by (apply Rmult_le_pos; unfold W; lra). lra.
  - pose proof (sum_e _ (fun k => c k * RtoC (r k))%C 1 (n + 1) s ltac:(lia) ltac:(lia) Hs) as A3. cbv beta in A3. specialize (A3 (fun k Hk => term_t (h k) (c k) (y k) (r k) (Hh k ltac:(lia)) (Hy k ltac:(lia)))).
    cbv zeta in A3. replace (n + 1 - 1)%Z with n in A3 by lia. set (es := B * (Y + 1) * _ + _) in A3. destruct (cap_pos _ _ _ _ A3) as [M0 Es0].
    assert (HM : IZR n * (B * Y) <= IZR n * (B * (Y + 1))) by (apply Rmult_le_compat_l; lra).
    assert (N1 : 1 <= IZR n <= 1022) by (split; [apply IZR_le; lia|lra]).
    destruct (alg_py (IZR n) B Y g ew ea es (IZR n * (B * Y)) N1 ltac:(lra) HY eq_refl ltac:(lra) Hw Ea0 Es0 La (Rle_refl _) ltac:(lra)) as (L1 & L2 & L3).
    pose proof (cap_w _ _ _ _ _ _ _ _ (w_two ew w i HW ltac:(lra)) A3 ltac:(lra) ltac:(lra)) as A4.
    set (eb := 2 * es + _ + _ + _) in A4. cbv zeta in L1, L2. fold eb in L1, L2.
    exists (B * Y + 2 * (IZR n * (B * Y))).
    replace (i * c 0%Z * RtoC (r 0%Z) + i * RtoC 2 * sumC 1 (n + 1) (fun k => c k * RtoC (r k)))%C
      with (RtoC 1 * (i * c 0%Z) * RtoC (r 0%Z) + RtoC 2 * (i * sumC 1 (n + 1) (fun k => c k * RtoC (r k))))%C by ring.
    eapply cap_le; [apply (cap_add _ _ _ _ _ _ _ _ A2 A4); lra|lra|exact L1].
Qed.
(** the same coefficient in C, one component: h_0 y_0 + 2 h_1 y_1 + ... *)
Definition cterm (h : Z -> f64) (y : Z -> f64) (k : Z) : f64 := if (k =? 0)%Z then fmul (h 0%Z) (y 0%Z) else fmul (fmul (fofZ 2) (h k)) (y k).
Lemma alg_c2 b Y' g' u d : 0 <= b -> 0 <= Y' -> 0 < g' -> g' * (Y' + 1) <= 1 -> 0 < u <= / 10 ^ 15 -> 0 < d ->
  let e2 := 2 * 0 + 0 * (b + 0) + u * ((2 + 0) * (b + 0)) + d / 2 in let ey' := g' * (Y' + 1) in
  2 * b * ey' + e2 * (Y' + ey') + u * ((2 * b + e2) * (Y' + ey')) + d / 2 <= (g' + 3 * u) * (2 * (b * (Y' + 1))) + 2 * (Y' + 1) * d.
Proof.
  intros Hb HY Hg Hg1 [U0 U1] D e2 ey'. assert (0 <= u * b) by (apply Rmult_le_pos; lra). assert (E2 : 0 <= e2) by (unfold e2; lra).
  assert (Ey0 : 0 <= ey') by (unfold ey'; apply Rmult_le_pos; lra).
  assert (A1 : e2 * (Y' + ey') <= e2 * (Y' + 1)) by (apply Rmult_le_compat_l; unfold ey'; lra).
  assert (A2 : (2 * b + e2) * (Y' + ey') <= (2 * b + e2) * (Y' + 1)) by (apply Rmult_le_compat_l; unfold ey'; lra).
  assert (A3 : u * ((2 * b + e2) * (Y' + ey')) <= 2 * (u * (b * (Y' + 1))) + / 10 * (e2 * (Y' + 1))).
  { eapply Rle_trans; [apply Rmult_le_compat_l; [lra|exact A2]|]. assert (u * (e2 * (Y' + 1)) <= / 10 * (e2 * (Y' + 1))) by (apply Rmult_le_compat_r; [apply Rmult_le_pos; lra|lra]). lra. }
  assert (E : e2 * (Y' + 1) = 2 * (u * (b * (Y' + 1))) + (Y' + 1) * d / 2) by (unfold e2; field).
  assert (0 <= u * (b * (Y' + 1))) by (apply Rmult_le_pos; [lra|apply Rmult_le_pos; lra]). assert (0 <= Y' * d) by (apply Rmult_le_pos; lra).
  assert (EB : 2 * b * ey' = g' * (2 * (b * (Y' + 1)))) by (unfold ey'; ring). rewrite E in *. lra.
Qed.
Lemma cterm_t h y c r k : (0 <= k <= n)%Z -> ap B 0 (h k) c -> ap Y ey (y k) r ->
  ap (2 * (B * Y)) ((g + 3 * uu) * (2 * (B * (Y + 1))) + 2 * (Y + 1) * dmin) (cterm h y k) ((if (k =? 0)%Z then 1 else 2) * (c * r)).
Proof.
  intros Hk Hh Hy. destruct facts as (HY & Ey & Hg & Hg1 & HN). pose proof uu_small as [U0 U1]. pose proof dmin_small as [D0 D1]. pose proof Q_big as QB. pose proof big_val as BV.
  assert (P : (B + 0) * (Y + ey) <= bpow radix2 1000 * 15) by (apply Rmult_le_compat; rewrite ?Ey; lra).
  assert (BY : 0 <= B * Y) by (apply Rmult_le_pos; lra). assert (UB : 0 <= uu * (B * (Y + 1))) by (apply Rmult_le_pos; [lra|apply Rmult_le_pos; lra]).
  assert (GB : 0 <= g * (B * (Y + 1))) by (apply Rmult_le_pos; [lra|apply Rmult_le_pos; lra]). assert (YD : 0 <= Y * dmin) by (apply Rmult_le_pos; lra).
  unfold cterm. destruct (Z.eqb_spec k 0) as [->|K0].
  - rewrite Rmult_1_l. eapply ap_le; [apply (ap_fmul _ _ _ _ _ _ _ _ Hh Hy); lra|lra|]. rewrite Rmult_0_l, !Rplus_0_r, Ey.
    pose proof (alg_t B Y g uu dmin ltac:(lra) ltac:(lra) ltac:(lra) ltac:(lra) ltac:(lra) ltac:(lra)). lra.
  - replace (2 * (c * r)) with (2 * c * r) by ring. assert (UB2 : 0 <= uu * B <= / 64 * B) by (split; [apply Rmult_le_pos; lra|apply Rmult_le_compat_r; lra]).
    pose proof (ap_fmul _ _ _ _ _ _ _ _ two_ap Hh ltac:(lra)) as A1. set (e2 := 2 * 0 + _ + _ + _) in A1.
    assert (E2 : 0 <= e2 <= B + 1) by (unfold e2; lra).
    assert (P1 : (2 * B + e2) * (Y + ey) <= (3 * bpow radix2 1000 + 1) * 15) by (apply Rmult_le_compat; rewrite ?Ey; lra).
    eapply ap_le; [apply (ap_fmul _ _ _ _ _ _ _ _ A1 Hy); lra|lra|]. rewrite Ey. apply alg_c2; lra.
Qed.
Lemma coef_c (h : Z -> f64) (c : Z -> R) (y : Z -> f64) (r : Z -> R) s :
  (forall k, (0 <= k <= n)%Z -> ap B 0 (h k) (c k)) -> (forall k, (0 <= k <= n)%Z -> ap Y ey (y k) (r k)) ->
  rsums (map (cterm h y) (zrange 0 (n + 1))) s ->
  exists M, M + acc (IZR n + 1) (Y + 1) B 0 <= BIG /\ ap M (acc (IZR n + 1) (Y + 1) B 0) s (c 0%Z * r 0%Z + 2 * sumR 1 (n + 1) (fun k => c k * r k)).
Proof.
  intros Hh Hy Hs. destruct facts as (HY & Ey & Hg & Hg1 & HN). pose proof uu_small as [U0 U1]. pose proof dmin_small as [D0 D1]. pose proof Q_big as QB. pose proof big_val as BV.
  set (S := B * (Y + 1)). set (t := (g + 3 * uu) * (2 * S) + 2 * (Y + 1) * dmin).
  assert (S0 : 0 <= S <= bpow radix2 1000 * 15) by (split; [apply Rmult_le_pos; lra|apply Rmult_le_compat; lra]).
  assert (BY : 0 <= 2 * (B * Y) <= 2 * S) by (split; [assert (0 <= B * Y) by (apply Rmult_le_pos; lra); lra|unfold S; apply Rmult_le_compat_l; [lra|]; apply Rmult_le_compat_l; lra]).
  assert (YD : 0 <= (Y + 1) * dmin <= / 10 ^ 20) by (split; [apply Rmult_le_pos; lra|apply Rle_trans with (15 * / 10 ^ 30); [apply Rmult_le_compat; lra|lra]]).
  assert (T0 : 0 <= t) by (unfold t; assert (0 <= (g + 3 * uu) * (2 * S)) by (apply Rmult_le_pos; lra); lra).
  set (N := IZR n + 1) in *. assert (N1 : 1 <= N <= 1023) by (unfold N; lra).
  pose proof (alg_se N (2 * (B * Y)) t (2 * S) (g + 3 * uu) (2 * ((Y + 1) * dmin)) ltac:(lra) BY ltac:(unfold t; lra) ltac:(lra) ltac:(lra)) as E.
  assert (NN : 1 <= N * N <= 1023 * 1023) by (split; [rewrite <- (Rmult_1_r 1); apply Rmult_le_compat; lra|apply Rmult_le_compat; lra]).
  assert (EA : 2 * S * (N * (g + 3 * uu) + 3 * uu * (N * N)) + 2 * N * (2 * ((Y + 1) * dmin)) <= acc N (Y + 1) B 0).
  { unfold acc. rewrite Rmult_0_r, Rplus_0_r. replace (N * (Y + 1) * (B * (48 * N ^ 3 * uu) + 16 * dmin)) with (S * (48 * (N * N * (N * N) * uu)) + 16 * (N * ((Y + 1) * dmin))) by (unfold S; ring).
    assert (0 <= N * ((Y + 1) * dmin)) by (apply Rmult_le_pos; lra).
    assert (K : 2 * (N * (g + 3 * uu) + 3 * uu * (N * N)) <= 48 * (N * N * (N * N) * uu)).
    { unfold g. replace (16 * (IZR n + 1) ^ 3 * uu) with (16 * (N * N * N) * uu) by (unfold N; ring). assert (Q1 : N * 1 <= N * N) by (apply Rmult_le_compat_l; lra).
      assert (Q2 : N * N * 1 <= N * N * (N * N)) by (apply Rmult_le_compat_l; lra). assert (Q3 : 6 * N + 6 * (N * N) <= 16 * (N * N * (N * N))) by lra.
      apply Rmult_le_compat_r with (r := uu) in Q3; [|lra]. lra. }
    apply Rmult_le_compat_l with (r := S) in K; [|lra]. lra. }
  assert (AB : acc N (Y + 1) B 0 <= S + 1).
  { unfold acc. rewrite Rmult_0_r, Rplus_0_r. replace (N * (Y + 1) * (B * (48 * N ^ 3 * uu) + 16 * dmin)) with (S * (3 * (N * (16 * (N ^ 3) * uu))) + 16 * (N * ((Y + 1) * dmin))) by (unfold S; ring).
    change (16 * N ^ 3 * uu) with g. assert (0 <= N * g <= 1023 * / 10 ^ 5) by (split; [apply Rmult_le_pos; lra|apply Rmult_le_compat; lra]).
    assert (N * ((Y + 1) * dmin) <= 1023 * / 10 ^ 20) by (apply Rmult_le_compat; lra).
    assert (S * (3 * (N * g)) <= S * 1) by (apply Rmult_le_compat_l; lra). lra. }
  assert (NT : 0 <= N * (2 * (B * Y)) <= 1023 * (2 * S)) by (split; [apply Rmult_le_pos; lra|apply Rmult_le_compat; lra]).
  exists (N * (2 * (B * Y))). split; [lra|].
  pose proof (rsums_range 0 (n + 1) (cterm h y) (fun k => (if (k =? 0)%Z then 1 else 2) * (c k * r k)) (2 * (B * Y)) t s Hs ltac:(lia) ltac:(lra) T0) as A.
  replace (IZR (n + 1 - 0)) with N in A by (unfold N; rewrite <- plus_IZR; f_equal; lia). cbv zeta in A.
  replace (c 0%Z * r 0%Z + 2 * sumR 1 (n + 1) (fun k => c k * r k)) with (sumR 0 (n + 1) (fun k => (if (k =? 0)%Z then 1 else 2) * (c k * r k))).
  - eapply ap_le; [apply A|lra|lra].
    + intros k Hk. apply cterm_t; [lia|apply Hh; lia|apply Hy; lia].
    + lra.
    + lra.
  - rewrite sumR_cons by lia. cbn [Z.eqb]. rewrite Rmult_1_l, sumR_mul. f_equal. apply sumR_ext. intros k Hk. destruct (Z.eqb_spec k 0); [lia|reflexivity].
Qed.
(** ** Columns of the Fourier table *)
Lemma rterm_t (h : f64) c y r : ap B 0 h c -> ap Y ey y r -> ap (B * Y) (B * (Y + 1) * (g + uu) + dmin) (fmul h y) (c * r).
Proof.
  intros Hh Hy. destruct facts as (HY & Ey & Hg & Hg1 & HN). pose proof uu_small. pose proof dmin_small. pose proof Q_big as QB. pose proof big_val as BV.
  assert (P : (B + 0) * (Y + ey) <= bpow radix2 1000 * 15) by (apply Rmult_le_compat; rewrite ?Ey; lra).
  eapply ap_le; [apply (ap_fmul _ _ _ _ _ _ _ _ Hh Hy); lra|lra|]. rewrite Rmult_0_l, !Rplus_0_r, Ey. apply alg_t; lra.
Qed.
Lemma rsum_e (x : Z -> f64) (c : Z -> R) lo hi s : (lo <= hi)%Z -> (hi - lo <= n + 1)%Z -> rsums (map x (zrange lo hi)) s ->
  (forall k, (lo <= k < hi)%Z -> ap (B * Y) (B * (Y + 1) * (g + uu) + dmin) (x k) (c k)) ->
  let N := IZR (hi - lo) in
  ap (N * (B * Y)) (B * (Y + 1) * (N * (g + uu) + 3 * uu * (N * N)) + 2 * N * dmin) s (sumR lo hi c).
Proof.
  intros Hl Hh Hs Ht N.
  (* the complex version with equal parts *)
  assert (G : forall l z, rsums l z -> rsums l z) by auto.
  destruct facts as (HY & Ey & Hg & Hg1 & HN). pose proof uu_small as [U0 U1]. pose proof dmin_small as [D0 D1]. pose proof Q_big as QB. pose proof big_val as BV.
  assert (N0 : 0 <= N <= 1023) by (split; apply IZR_le; lia).
  assert (BY : 0 <= B * Y <= B * (Y + 1)) by (split; [apply Rmult_le_pos; lra|apply Rmult_le_compat_l; lra]).
  assert (S15 : B * (Y + 1) <= bpow radix2 1000 * 15) by (apply Rmult_le_compat; lra).
  pose proof (alg_se N (B * Y) (B * (Y + 1) * (g + uu) + dmin) (B * (Y + 1)) (g + uu) dmin N0 BY ltac:(lra) ltac:(lra) ltac:(lra)) as E.
  assert (T0 : 0 <= B * (Y + 1) * (g + uu) + dmin) by (assert (0 <= B * (Y + 1) * (g + uu)) by (apply Rmult_le_pos; lra); lra).
  assert (NN : N * N <= 1023 * 1023) by (apply Rmult_le_compat; lra). assert (NN0 : 0 <= N * N) by (apply Rmult_le_pos; lra).
  assert (K : B * (Y + 1) * (N * (g + uu) + 3 * uu * (N * N)) + 2 * N * dmin <= B * (Y + 1) + 1).
  { apply Rplus_le_compat.
    - rewrite <- (Rmult_1_r (B * (Y + 1))) at 2. apply Rmult_le_compat_l; [lra|]. assert (N * (g + uu) <= 1023 * (2 * / 10 ^ 5)) by (apply Rmult_le_compat; lra).
      assert (uu * (N * N) <= / 10 ^ 15 * (1023 * 1023)) by (apply Rmult_le_compat; lra). lra.
    - assert (N * dmin <= 1023 * / 10 ^ 30) by (apply Rmult_le_compat; lra). lra. }
  assert (NT : N * (B * Y) <= 1023 * (bpow radix2 1000 * 15)) by (apply Rmult_le_compat; lra).
  eapply ap_le; [apply (rsums_range lo hi x c (B * Y) (B * (Y + 1) * (g + uu) + dmin)); auto; fold N; lra|fold N; lra|fold N; exact E].
Qed.

Lemma alg_col x M es : 0 <= x <= IZR n + 1 -> 0 <= M <= x * (B * (Y + 1)) -> 0 <= es <= B * (Y + 1) * (x * (g + uu) + 3 * uu * (x * x)) + 2 * x * dmin ->
  1 * es + 2 * ew * (M + es) + 4 * uu * (1 * (M + es)) + 2 * dmin <= acc (IZR n + 1) (Y + 1) B ew /\
  M + es <= 2100 * (bpow radix2 1000 * 15) + 10 /\ M + acc (IZR n + 1) (Y + 1) B ew <= BIG.
Proof.
  intros Hx [M0 HM] [E0 HE]. destruct facts as (HY & Ey & Hg & Hg1 & HN). pose proof uu_small as [U0 U1]. pose proof dmin_small as [D0 D1]. pose proof Q_big as QB. pose proof big_val as BV.
  set (N := IZR n + 1) in *. assert (N1 : 1 <= N <= 1023) by (unfold N; lra). set (S := B * (Y + 1)) in *.
  assert (S0 : 0 <= S <= bpow radix2 1000 * 15) by (split; [apply Rmult_le_pos; lra|apply Rmult_le_compat; lra]).
  assert (NN : 1 <= N * N <= 1023 * 1023) by (split; [rewrite <- (Rmult_1_r 1); apply Rmult_le_compat; lra|apply Rmult_le_compat; lra]).
  assert (xx : x * x <= N * N) by (apply Rmult_le_compat; lra). assert (xS : x * S <= N * S) by (apply Rmult_le_compat_r; lra).
  assert (xd : x * dmin <= N * dmin) by (apply Rmult_le_compat_r; lra). assert (xg : x * (g + uu) <= N * (g + uu)) by (apply Rmult_le_compat_r; lra).
  assert (HE2 : es <= S * (N * (g + uu) + 3 * uu * (N * N)) + 2 * N * dmin).
  { assert (uu * (x * x) <= uu * (N * N)) by (apply Rmult_le_compat_l; lra).
    assert (S * (x * (g + uu) + 3 * uu * (x * x)) <= S * (N * (g + uu) + 3 * uu * (N * N))) by (apply Rmult_le_compat_l; lra). lra. }
  assert (K1 : N * (g + uu) + 3 * uu * (N * N) <= 1).
  { assert (N * (g + uu) <= 1023 * (2 * / 10 ^ 5)) by (apply Rmult_le_compat; lra). assert (uu * (N * N) <= / 10 ^ 15 * (1023 * 1023)) by (apply Rmult_le_compat; lra). lra. }
  assert (Nd : 0 <= N * dmin <= 1023 * / 10 ^ 30) by (split; [apply Rmult_le_pos; lra|apply Rmult_le_compat; lra]).
  assert (NS : 0 <= N * S <= 1023 * (bpow radix2 1000 * 15)) by (split; [apply Rmult_le_pos; lra|apply Rmult_le_compat; lra]).
  assert (SN : S <= N * S) by (rewrite <- (Rmult_1_l S) at 1; apply Rmult_le_compat_r; lra).
  assert (HE3 : es <= S + 2 * N * dmin) by (assert (S * (N * (g + uu) + 3 * uu * (N * N)) <= S * 1) by (apply Rmult_le_compat_l; lra); lra).
  assert (YD : 0 <= Y * dmin) by (apply Rmult_le_pos; lra). assert (NYD : 0 <= N * (Y * dmin)) by (apply Rmult_le_pos; lra).
  assert (YD2 : Y * dmin <= 14 * / 10 ^ 30) by (apply Rmult_le_compat; lra). assert (NYD2 : N * (Y * dmin) <= 1023 * (14 * / 10 ^ 30)) by (apply Rmult_le_compat; lra).
  set (Z := M + es). assert (HZ : 0 <= Z <= 2 * (N * S) + 2 * (N * dmin)) by (unfold Z; lra).
  assert (EZ : ew * Z <= 2 * (ew * (N * S)) + N * dmin).
  { apply Rle_trans with (ew * (2 * (N * S) + 2 * (N * dmin))); [apply Rmult_le_compat_l; lra|]. assert (ew * (N * dmin) <= / 64 * (N * dmin)) by (apply Rmult_le_compat_r; lra). lra. }
  assert (UZ : uu * Z <= 2 * (uu * (N * S)) + N * dmin).
  { apply Rle_trans with (uu * (2 * (N * S) + 2 * (N * dmin))); [apply Rmult_le_compat_l; lra|]. assert (uu * (N * dmin) <= / 64 * (N * dmin)) by (apply Rmult_le_compat_r; lra). lra. }
  assert (EA : acc N (Y + 1) B ew = S * (48 * (N * N * (N * N)) * uu) + 12 * (ew * (N * S)) + 16 * (N * ((Y + 1) * dmin))) by (unfold acc, S; ring).
  assert (K : S * (N * (g + uu) + 3 * uu * (N * N)) + 8 * (uu * (N * S)) <= S * (48 * (N * N * (N * N)) * uu)).
  { unfold g. replace (16 * (IZR n + 1) ^ 3 * uu) with (16 * (N * N * N) * uu) by (unfold N; ring). assert (Q1 : N * 1 <= N * N) by (apply Rmult_le_compat_l; lra).
    assert (Q2 : N * N * 1 <= N * N * (N * N)) by (apply Rmult_le_compat_l; lra). assert (Q3 : 9 * N + 3 * (N * N) <= 32 * (N * N * (N * N))) by lra.
    apply Rmult_le_compat_l with (r := S * uu) in Q3; [|apply Rmult_le_pos; lra]. lra. }
  assert (W0 : 0 <= ew * (N * S) <= / 64 * (N * S)) by (split; [apply Rmult_le_pos; lra|apply Rmult_le_compat_r; lra]).
  split; [|split].
  - assert (1 * dmin <= N * dmin) by (apply Rmult_le_compat_r; lra). rewrite EA. fold Z. clearbody S. lra.
  - clearbody S. lra.
  - rewrite EA. assert (S * (48 * (N * N * (N * N)) * uu) <= S * 1).
    { apply Rmult_le_compat_l; [lra|]. replace (48 * (N * N * (N * N)) * uu) with (3 * (N * (16 * N ^ 3 * uu))) by ring. change (16 * N ^ 3 * uu) with g.
      assert (N * g <= 1023 * / 10 ^ 5) by (apply Rmult_le_compat; lra). lra. }
    clearbody S. lra.
Qed.

(** Python: the sum over the degrees, times i^m *)
Lemma col_py (x : Z -> cf) (c : Z -> C) (y : Z -> f64) (r : Z -> R) lo w i s : wap 1 ew w i -> (0 <= lo <= n + 1)%Z ->
  (forall k, (lo <= k <= n)%Z -> cap B 0 (x k) (c k)) -> (forall k, (lo <= k <= n)%Z -> ap Y ey (y k) (r k)) ->
  sums (map (fun k => cfmul (x k) (cfre (y k))) (zrange lo (n + 1))) s ->
  exists M, M + acc (IZR n + 1) (Y + 1) B ew <= BIG /\
    cap M (acc (IZR n + 1) (Y + 1) B ew) (cfmul s w) (i * sumC lo (n + 1) (fun k => c k * RtoC (r k)))%C.
Proof.
  intros HW Hlo Hx Hy Hs. destruct facts as (HY & Ey & Hg & Hg1 & HN). pose proof big_val as BV. pose proof Q_big as QB.
  pose proof (sum_e _ (fun k => c k * RtoC (r k))%C lo (n + 1) s ltac:(lia) ltac:(lia) Hs) as A. cbv beta in A.
  specialize (A (fun k Hk => term_t (x k) (c k) (y k) (r k) (Hx k ltac:(lia)) (Hy k ltac:(lia)))). cbv zeta in A.
  assert (N0 : 0 <= IZR (n + 1 - lo) <= IZR n + 1) by (rewrite <- plus_IZR; split; apply IZR_le; lia). set (N := IZR (n + 1 - lo)) in *.
  set (es := B * (Y + 1) * _ + _) in A. destruct (cap_pos _ _ _ _ A) as [M0 E0].
  assert (HM : N * (B * Y) <= N * (B * (Y + 1))) by (apply Rmult_le_compat_l; [lra|]; apply Rmult_le_compat_l; lra).
  destruct (alg_col N (N * (B * Y)) es N0 ltac:(lra) ltac:(split; [lra|apply Rle_refl])) as (L1 & L2 & L3).
  exists (N * (B * Y)). split; [exact L3|].
  pose proof (cap_wr _ _ _ _ _ _ _ _ HW A ltac:(lra) ltac:(lra)) as A2.
  replace (i * sumC lo (n + 1) (fun k => c k * RtoC (r k)))%C with (RtoC 1 * (i * sumC lo (n + 1) (fun k => c k * RtoC (r k))))%C by ring.
  eapply cap_le; [exact A2|lra|exact L1].
Qed.
(** C: the same sum, one component *)
Lemma col_c (x : Z -> f64) (c : Z -> R) (y : Z -> f64) (r : Z -> R) lo s : (0 <= lo <= n + 1)%Z ->
  (forall k, (lo <= k <= n)%Z -> ap B 0 (x k) (c k)) -> (forall k, (lo <= k <= n)%Z -> ap Y ey (y k) (r k)) ->
  rsums (map (fun k => fmul (x k) (y k)) (zrange lo (n + 1))) s ->
  exists M, M + acc (IZR n + 1) (Y + 1) B ew <= BIG /\ ap M (acc (IZR n + 1) (Y + 1) B ew) s (sumR lo (n + 1) (fun k => c k * r k)).
Proof.
  intros Hlo Hx Hy Hs. destruct facts as (HY & Ey & Hg & Hg1 & HN). pose proof uu_small as [U0 U1]. pose proof dmin_small as [D0 D1].
  pose proof (rsum_e _ (fun k => c k * r k) lo (n + 1) s ltac:(lia) ltac:(lia) Hs) as A. cbv beta in A.
  specialize (A (fun k Hk => rterm_t (x k) (c k) (y k) (r k) (Hx k ltac:(lia)) (Hy k ltac:(lia)))). cbv zeta in A.
  assert (N0 : 0 <= IZR (n + 1 - lo) <= IZR n + 1) by (rewrite <- plus_IZR; split; apply IZR_le; lia). set (N := IZR (n + 1 - lo)) in *.
  set (es := B * (Y + 1) * _ + _) in A. destruct (ap_pos _ _ _ _ A) as [M0 E0].
  assert (HM : N * (B * Y) <= N * (B * (Y + 1))) by (apply Rmult_le_compat_l; [lra|]; apply Rmult_le_compat_l; lra).
  destruct (alg_col N (N * (B * Y)) es N0 ltac:(lra) ltac:(split; [lra|apply Rle_refl])) as (L1 & L2 & L3).
  exists (N * (B * Y)). split; [exact L3|]. eapply ap_le; [exact A|lra|].
  assert (0 <= ew * (N * (B * Y) + es)) by (apply Rmult_le_pos; lra). assert (0 <= uu * (N * (B * Y) + es)) by (apply Rmult_le_pos; lra). lra.
Qed.
End Coef.
