(** * SbesselFLoop: the while loop of sbesselj in double precision, 0 < x <= 1. *)
From Coq Require Import ZArith List Bool SpecFloat Reals Lia Lra Psatz.
From Flocq Require Import Core.Core IEEE754.BinarySingleNaN.
From Flocq Require Import Relative.
From Verif Require Import Py PyFacts Num FloatN FloatText FileFacts2 MPysphi MDouble FlFacts SeedFl SeedFl2 FlSigned MSbesselF SbesselFTerm SbesselFRel.
From Verif Require Import SpecBessel Bessel Bessel2 SbesselFacts.
Open Scope Z_scope.
#[local] Existing Instance FloatText.prec53.
#[local] Existing Instance FloatText.pe53.

Lemma dn_exact m : 1 <= m < 2 ^ 25 -> dn m = fofZ (4 * m ^ 2 - 1).
Proof. intros H. unfold dn. assert (m ^ 2 < 2 ^ 50) by (change (2 ^ 50) with (2 ^ 25 * 2 ^ 25); nia). rewrite (fmul_int 4 (m ^ 2)), (fsub_int (4 * m ^ 2) 1) by nia. reflexivity. Qed.

Open Scope R_scope.
Lemma bpow_pos_le a b : (a <= b)%Z -> bpow radix2 a <= bpow radix2 b. Proof. apply bpow_le. Qed.

Section ULoop.
Variables (x z : f64) (n0 : nat).
Let X := V x.
Hypothesis Px : fpos x.
Hypothesis X0 : bpow radix2 (-400) <= X.
Hypothesis X1 : X <= 1.
Hypothesis Hz : relf 2 z (X ^ 2).
Let M := Z.of_nat (S n0).
Hypothesis HM : (M < 2 ^ 24)%Z.

Lemma X2 : bpow radix2 (-800) <= X ^ 2 <= 1.
Proof.
  pose proof (bpow_gt_0 radix2 (-400)). change (-800)%Z with (-400 + -400)%Z. rewrite bpow_plus. cbn [pow]. rewrite Rmult_1_r. split; [|nra].
  apply Rmult_le_compat; lra.
Qed.

Lemma u_step u U m : (2 <= m < 2 ^ 25)%Z -> 1 <= u <= 27 / 25 -> dbl U -> fin U -> Rabs (V U - u) <= 3 * uu -> 
  let d := 1 - X ^ 2 * u / (4 * IZR (m ^ 2) - 1) in
  (9 / 10 <= d <= 1 /\ 1 <= 1 / d <= 27 / 25) /\ dbl (nu z m U) /\ fin (nu z m U) /\ 1 <= V (nu z m U) /\ Rabs (V (nu z m U) - 1 / d) <= 3 * uu /\
  is_zero (fsub one (fdiv (fmul z U) (dn m))) = false /\ is_zero (dn m) = false.
Proof.
  intros Hm Hu DU FU EU d. pose proof X2 as HX. pose proof uu_pos as U0. assert (M0 : 0 < bpow radix2 (-800)) by apply bpow_gt_0.
  assert (Bm : IZR (4 * m ^ 2 - 1) = 4 * IZR (m ^ 2) - 1) by (rewrite minus_IZR, mult_IZR; reflexivity).
  assert (m2 : (m ^ 2 < 2 ^ 50)%Z) by (change (2 ^ 50)%Z with (2 ^ 25 * 2 ^ 25)%Z; nia).
  assert (Dm : 15 <= IZR (4 * m ^ 2 - 1) <= bpow radix2 52).
  { change (bpow radix2 52) with (IZR (2 ^ 52)). split; apply IZR_le; [nia|]. change (2 ^ 52)%Z with (4 * 2 ^ 50)%Z. lia. }
  assert (RU : relf 3 U u). { split; [exact DU|]. split; [exact FU|]. split; [lra|]. eapply Rle_trans; [exact EU|]. nra. }
  assert (R1 : relf (2 + 3 + 102 / 100) (fmul z U) (X ^ 2 * u)).
  { apply relf_mul; auto; [lra|lra|]. split.
    - apply Rle_trans with (bpow radix2 (-800)); [apply bpow_le; lia|]. nra.
    - apply Rle_trans with (bpow radix2 1); [cbn; nra|apply bpow_le; lia]. }
  assert (RD : relf 0 (dn m) (4 * IZR (m ^ 2) - 1)). { rewrite <- Bm, dn_exact by lia. apply relf_int. nia. }
  rewrite Bm in Dm. set (D := 4 * IZR (m ^ 2) - 1) in *. assert (ID : 0 < / D) by (apply Rinv_0_lt_compat; lra).
  assert (Ba : X ^ 2 * u / D <= 18 / 250).
  { apply Rmult_le_reg_r with D; [lra|]. unfold Rdiv at 1. rewrite Rmult_assoc, Rinv_l, Rmult_1_r by lra. nra. }
  assert (Ba0 : bpow radix2 (-800) * bpow radix2 (-52) <= X ^ 2 * u / D).
  { apply Rmult_le_compat; try apply bpow_ge_0; [nra|]. change (-52)%Z with (- (52))%Z. rewrite bpow_opp. apply Rinv_le; lra. }
  rewrite <- bpow_plus in Ba0. change (-800 + -52)%Z with (-852)%Z in Ba0. pose proof (bpow_gt_0 radix2 (-852)) as B8.
  assert (R2 : relf (2 + 3 + 102 / 100 + 0 + 104 / 100) (fdiv (fmul z U) (dn m)) (X ^ 2 * u / D)).
  { apply relf_div; auto; [lra|lra|]. split.
    - eapply Rle_trans; [|exact Ba0]. apply bpow_le; lia.
    - apply Rle_trans with (bpow radix2 0); [cbn; lra|apply bpow_le; lia]. }
  set (af := fdiv (fmul z U) (dn m)) in *. set (a := X ^ 2 * u / D) in *. 
  assert (Hd : d = 1 - a) by reflexivity.
  assert (R3 : relf (6 / 10 + 101 / 100) (fsub one af) (1 - a)).
  { assert (R1' := relf_int 1 ltac:(lia)). eapply (relf_sub 0 (2 + 3 + 102 / 100 + 0 + 104 / 100) (6 / 10) (18 / 250)); [lra|lra|lra|exact R1'|exact R2|lra|lra|lra|].
    split; [apply Rle_trans with (bpow radix2 (-1)); [apply bpow_le; lia|cbn; lra]|apply Rle_trans with (bpow radix2 0); [cbn; lra|apply bpow_le; lia]]. }
  assert (Id : 1 <= 1 / d <= 27 / 25).
  { rewrite Hd. split; [apply Rmult_le_reg_r with (1 - a); [lra|]; unfold Rdiv; rewrite Rmult_assoc, Rinv_l by lra; lra|].
    apply Rmult_le_reg_r with (1 - a); [lra|]. unfold Rdiv at 1; rewrite Rmult_assoc, Rinv_l by lra. lra. }
  split; [split; [rewrite Hd; lra|exact Id]|].
  assert (R4 : relf (0 + (6 / 10 + 101 / 100) + 104 / 100) (nu z m U) (1 / d)).
  { unfold nu. fold af. rewrite Hd. apply relf_div; [lra|lra|exact (relf_int 1 ltac:(lia))|exact R3|]. rewrite <- Hd.
    split; [apply Rle_trans with (bpow radix2 0); [apply bpow_le; lia|cbn; lra]|apply Rle_trans with (bpow radix2 1); [cbn; lra|apply bpow_le; lia]]. }
  destruct R4 as (D4 & F4 & [P4 E4]). split; [exact D4|]. split; [exact F4|].
  destruct R3 as (D3 & F3 & R3). pose proof (rel_bounds (6 / 10 + 101 / 100) _ _ ltac:(lra) R3) as B3.
  destruct R2 as (D2 & F2 & R2). pose proof (rel_bounds (2 + 3 + 102 / 100 + 0 + 104 / 100) _ _ ltac:(lra) R2) as B2.
  destruct one_spec as (Do & Fo & Eo).
  assert (F1 : generic_format radix2 fx 1) by (change 1 with (bpow radix2 0); apply fmt_bpow; lia).
  split; [|split; [|split]].
  - assert (L : V (fsub one af) <= 1).
    { destruct (fsub_rnd _ _ Do D2 Fo F2) as [_ [[_ E]|[E _]]]; [|rewrite E in F3; discriminate F3]. rewrite E, Eo. apply rnd_le_g; [exact F1|lra]. }
    destruct (fdiv_rnd _ _ Do D3 Fo F3 ltac:(lra)) as [_ [[_ E]|[E _]]]; [|unfold nu in F4; fold af in F4; rewrite E in F4; discriminate F4].
    unfold nu. fold af. rewrite E, Eo. apply rnd_ge; [exact F1|]. apply Rmult_le_reg_r with (V (fsub one af)); [lra|].
    unfold Rdiv. rewrite Rmult_assoc, Rinv_l by lra. lra.
  - eapply Rle_trans; [exact E4|]. nra.
  - destruct (fsub one af); try reflexivity. cbn [SF2R] in B3. lra.
  - rewrite dn_exact by lia. pose proof (fofZ_small (4 * m ^ 2 - 1) ltac:(nia)) as (_ & _ & E). destruct (fofZ (4 * m ^ 2 - 1)); try reflexivity. cbn [SF2R] in E. apply eq_IZR in E. nia.
Qed.

(** ** v and w *)
Lemma v_step_real A B a v t s r h : 0 <= A <= B -> 0 <= a <= 101 / 100 * A -> Rabs (a - v) <= 20 * uu * B -> 0 <= v <= A ->
  0 <= t <= 801 / 10000 -> 0 <= s <= 2 / 25 -> Rabs (t - s) <= 31 / 10 * uu -> Rabs (r - a * t) <= uu * (a * t) + h -> 0 <= h <= uu * A / 1000 ->
  r <= 101 / 100 * (A / 12) /\ Rabs (r - v * s) <= 20 * uu * (B / 3) /\ 0 <= v * s <= A / 12.
Proof.
  intros HA Ha Hav Hv Ht Hs Hts Hr Hh. pose proof uu_pos as U0. assert (U1 : uu <= / 1000000) by (rewrite uu_val; lra).
  assert (T1 : 0 <= a * t <= 101 / 100 * A * (801 / 10000)) by (split; [apply Rmult_le_pos; lra|apply Rmult_le_compat; lra]).
  assert (T2 : uu * (a * t) <= uu * (101 / 100 * A * (801 / 10000))) by (apply Rmult_le_compat_l; lra).
  assert (UA : 0 <= uu * A <= A / 1000000) by (split; [apply Rmult_le_pos; lra|nra]).
  split; [apply Rabs_le_inv in Hr; lra|]. split.
  - replace (r - v * s) with ((r - a * t) + ((a - v) * t + v * (t - s))) by ring.
    eapply Rle_trans; [apply Rabs_triang|]. pose proof (Rabs_triang ((a - v) * t) (v * (t - s))) as T. rewrite !Rabs_mult in T.
    rewrite (Rabs_pos_eq t) in T by lra. rewrite (Rabs_pos_eq v) in T by lra.
    assert (T3 : Rabs (a - v) * t <= 20 * uu * B * (801 / 10000)) by (apply Rmult_le_compat; try lra; apply Rabs_pos).
    assert (T4 : v * Rabs (t - s) <= A * (31 / 10 * uu)) by (apply Rmult_le_compat; try lra; apply Rabs_pos).
    assert (UB : uu * A <= uu * B) by (apply Rmult_le_compat_l; lra). lra.
  - split; [apply Rmult_le_pos; lra|]. apply Rle_trans with (A * (2 / 25)); [apply Rmult_le_compat; lra|lra].
Qed.

Let v0 := X / (2 * INR (S n0) + 1).
Lemma v0_pos : bpow radix2 (-430) <= v0 <= / 3.
Proof.
  unfold v0. assert (H1 : 3 <= 2 * INR (S n0) + 1) by (rewrite S_INR; pose proof (pos_INR n0); lra).
  assert (H2 : 2 * INR (S n0) + 1 <= bpow radix2 30).
  { rewrite INR_IZR_INZ. fold M. apply Rle_trans with (2 * IZR (2 ^ 24) + 1); [apply IZR_lt in HM; lra|cbn; lra]. }
  pose proof (bpow_gt_0 radix2 (-400)). split.
  - change (-430)%Z with (-400 + -30)%Z. rewrite bpow_plus. apply Rmult_le_compat; try apply bpow_ge_0; auto.
    change (-30)%Z with (- (30))%Z. rewrite bpow_opp. apply Rinv_le; lra.
  - rewrite <- (Rmult_1_l (/ 3)). apply Rmult_le_compat; [lra|left; apply Rinv_0_lt_compat; lra|lra|apply Rinv_le; lra].
Qed.
Lemma q_low k : (k <= 20)%nat -> bpow radix2 (-80) <= (1 / 12) ^ k.
Proof.
  intros H. apply Rle_trans with (bpow radix2 (-4 * Z.of_nat k)); [apply bpow_le; lia|]. clear H. induction k as [|k IH]; [cbn; lra|].
  replace (-4 * Z.of_nat (S k))%Z with (-4 + -4 * Z.of_nat k)%Z by lia. rewrite bpow_plus. cbn [pow]. apply Rmult_le_compat; try apply bpow_ge_0; [cbn; lra|exact IH].
Qed.
Lemma h_small k : (k <= 20)%nat -> dmin / 2 <= uu * ((1 / 12) ^ k * v0) / 1000.
Proof.
  intros H. pose proof (q_low k H) as Q. pose proof v0_pos as [W _]. 
  assert (G : bpow radix2 (-80) * bpow radix2 (-430) <= (1 / 12) ^ k * v0) by (apply Rmult_le_compat; try apply bpow_ge_0; auto).
  rewrite <- bpow_plus in G. change (-80 + -430)%Z with (-510)%Z in G.
  apply Rle_trans with (uu * bpow radix2 (-510) / 1000); [|pose proof uu_pos; assert (uu * bpow radix2 (-510) <= uu * ((1 / 12) ^ k * v0)) by (apply Rmult_le_compat_l; lra); lra].
  unfold uu. assert (E : / 1024 <= / 1000) by (apply Rinv_le; lra). change (/ 1024) with (bpow radix2 (-10)) in E.
  apply Rle_trans with (bpow radix2 (-53) * bpow radix2 (-510) * bpow radix2 (-10)).
  - rewrite <- !bpow_plus. apply Rle_trans with dmin; [pose proof (bpow_gt_0 radix2 (-1074)); lra|apply bpow_le; lia].
  - unfold Rdiv. apply Rmult_le_compat_l; [|exact E]. apply Rmult_le_pos; apply bpow_ge_0.
Qed.

Definition linv (k : nat) (U Vd W : f64) (u v w : R) : Prop :=
  let p := (1 / 3) ^ k in let q := (1 / 12) ^ k in
  loop_state X (S n0) k u v w /\ 1 <= u <= 27 / 25 /\
  (dbl U /\ fin U /\ Rabs (V U - u) <= 3 * uu) /\
  (dbl Vd /\ fin Vd /\ 0 <= V Vd <= 101 / 100 * (q * v0) /\ Rabs (V Vd - v) <= 20 * uu * (p * v0) /\ 0 <= v <= q * v0) /\
  (dbl W /\ fin W /\ Rabs (V W - w) <= (12 - 10 * p + 13 / 10 * INR k) * uu * v0 /\ v0 <= w <= (12 - q) / 11 * v0).

Lemma pq k : 0 < (1 / 12) ^ k <= (1 / 3) ^ k /\ (1 / 3) ^ k <= 1.
Proof. split; [split; [apply pow_lt; lra|apply pow_incr; lra]|]. apply Rle_trans with (1 ^ k); [apply pow_incr; lra|rewrite pow1; lra]. Qed.

Lemma linv_W k U Vd W u v w : (k <= 20)%nat -> linv k U Vd W u v w -> 99 / 100 * v0 <= V W <= 11 / 10 * v0 /\ Rabs (V W - w) <= 40 * uu * v0.
Proof.
  intros Hk (_ & _ & _ & _ & (_ & _ & E & B)). pose proof (pq k) as [PQ P1]. pose proof v0_pos as [V0 _]. assert (0 < v0) by (pose proof (bpow_gt_0 radix2 (-430)); lra).
  assert (INR k <= 20) by (apply le_INR in Hk; cbn in Hk; lra). pose proof uu_pos as U0. pose proof (pos_INR k).
  assert (E' : Rabs (V W - w) <= 40 * uu * v0).
  { eapply Rle_trans; [exact E|]. apply Rmult_le_compat_r; [lra|]. apply Rmult_le_compat_r; lra. }
  assert (40 * uu * v0 <= / 1000 * v0) by (apply Rmult_le_compat_r; [lra|rewrite uu_val; lra]).
  assert ((12 - (1 / 12) ^ k) / 11 * v0 <= 12 / 11 * v0) by (apply Rmult_le_compat_r; lra).
  split; [|exact E']. apply Rabs_le_inv in E'. lra.
Qed.

Lemma linv_step k U Vd W u v w : (k < 20)%nat -> linv k U Vd W u v w ->
  let m := (M + Z.of_nat k + 1)%Z in let U' := nu z m U in let V' := fmul Vd (fsub U' one) in
  exists u' v' w', linv (S k) U' V' (fadd W V') u' v' w' /\
    is_zero (fsub one (fdiv (fmul z U) (dn m))) = false /\ is_zero (dn m) = false /\ is_inf (fofZ (m ^ 2)) = false.
Proof.
  intros Hk L m U' V'. pose proof (linv_W k U Vd W u v w ltac:(lia) L) as [BW _].
  destruct L as (LS & Hu & (DU & FU & EU) & (DV & FV & BV & EV & Bv) & (DW & FW & EW & Bw)).
  assert (Hm : (2 <= m < 2 ^ 25)%Z) by (unfold m, M in *; lia).
  destruct (u_step u U m Hm Hu DU FU EU) as ((Bd & Bi) & DU' & FU' & LU' & EU' & Z1 & Z2). fold U' in DU', FU', LU', EU'.
  destruct (loop_step X (S n0) k u v w LS) as (_ & _ & LN). replace (Z.of_nat (S n0 + k) + 1)%Z with m in LN by (unfold m, M; lia).
  cbv zeta in LN. set (d := 1 - X ^ 2 * u / (4 * IZR (m ^ 2) - 1)) in *. specialize (LN ltac:(lra)).
  exists (1 / d), (v * (1 / d - 1)), (w + v * (1 / d - 1)).
  split; [|split; [exact Z1|split; [exact Z2|apply dn_spec; [lia|apply Z.le_trans with (2 ^ 25)%Z; [lia|vm_compute; discriminate]]]]].
  pose proof uu_pos as U0. assert (U1 : uu <= / 1000000) by (rewrite uu_val; lra). pose proof (pq k) as [PQ P1]. pose proof v0_pos as [V0 V1].
  assert (V0' : 0 < v0) by (pose proof (bpow_gt_0 radix2 (-430)); lra).
  pose proof (h_small k ltac:(lia)) as HS. set (A := (1 / 12) ^ k * v0) in *. set (B := (1 / 3) ^ k * v0) in *.
  assert (HAB : 0 <= A <= B) by (unfold A, B; split; [apply Rmult_le_pos; lra|apply Rmult_le_compat_r; lra]).
  assert (A1 : A <= v0) by (unfold A; nra). assert (h0 : 0 <= dmin / 2) by (pose proof (bpow_gt_0 radix2 (-1074)); lra).
  assert (h1 : dmin / 2 <= uu * v0 / 1000) by (eapply Rle_trans; [exact HS|]; assert (uu * A <= uu * v0) by (apply Rmult_le_compat_l; lra); lra).
  assert (h2 : dmin / 2 <= uu / 1000) by (eapply Rle_trans; [exact h1|]; assert (uu * v0 <= uu * 1) by (apply Rmult_le_compat_l; lra); lra).
  (* t *)
  destruct one_spec as (Do & Fo & Eo). pose proof (fsub_rnd _ _ DU' Do FU' Fo) as Rt. rewrite Eo in Rt. apply Rabs_le_inv in EU' as EU2.
  assert (y2 : 0 <= V U' - 1 <= 81 / 1000) by lra. pose proof (rnd_abs_err (V U' - 1)) as Et. rewrite (Rabs_pos_eq (V U' - 1)) in Et by lra.
  assert (uu * (V U' - 1) <= uu * (81 / 1000)) by (apply Rmult_le_compat_l; lra).
  assert (big : 2 <= bpow radix2 1023) by (change 2 with (bpow radix2 1); apply bpow_le; lia).
  destruct (is_rnd_fin _ _ Rt) as [Ft Vt]; [apply rnd_lt; rewrite Rabs_pos_eq; lra|]. pose proof (is_rnd_dbl _ _ Rt) as Dt.
  assert (t0 : 0 <= V (fsub U' one)) by (rewrite Vt; apply rnd_ge_0; lra). rewrite <- Vt in Et. set (t := fsub U' one) in *. clearbody t.
  apply Rabs_le_inv in Et as Et2. assert (tb : 0 <= V t <= 801 / 10000) by lra.
  assert (ts : Rabs (V t - (1 / d - 1)) <= 31 / 10 * uu).
  { replace (V t - (1 / d - 1)) with ((V t - (V U' - 1)) + (V U' - 1 / d)) by ring. eapply Rle_trans; [apply Rabs_triang|]. lra. }
  (* v *)
  pose proof (fmul_rnd _ _ DV Dt FV Ft) as Rv. fold V' in Rv. 
  assert (vt : 0 <= V Vd * V t <= 1) by (split; [apply Rmult_le_pos; lra|rewrite <- (Rmult_1_l 1); apply Rmult_le_compat; lra]).
  destruct (is_rnd_fin _ _ Rv) as [FV' EV']; [apply rnd_lt; rewrite Rabs_pos_eq; lra|]. pose proof (is_rnd_dbl _ _ Rv) as DV'.
  pose proof (rnd_abs_err (V Vd * V t)) as Er. rewrite (Rabs_pos_eq (V Vd * V t)) in Er by lra. rewrite <- EV' in Er.
  assert (v'0 : 0 <= V V') by (rewrite EV'; apply rnd_ge_0; lra). clearbody V'.
  destruct (v_step_real A B (V Vd) v (V t) (1 / d - 1) (V V') (dmin / 2)) as (S1 & S2 & S3); auto; try lra.
  (* w *)
  pose proof (fadd_rnd _ _ DW DV' FW FV') as Rw. assert (wv : 0 <= V W + V V' <= 12 / 10 * v0) by lra.
  destruct (is_rnd_fin _ _ Rw) as [FW' EW']; [apply rnd_lt; rewrite Rabs_pos_eq; lra|]. pose proof (is_rnd_dbl _ _ Rw) as DW'.
  pose proof (rnd_abs_err (V W + V V')) as Ea. rewrite (Rabs_pos_eq (V W + V V')) in Ea by lra. rewrite <- EW' in Ea. set (W' := fadd W V') in *. clearbody W'.
  assert (uw : uu * (V W + V V') <= uu * (12 / 10 * v0)) by (apply Rmult_le_compat_l; lra).
  assert (PA : (1 / 12) ^ S k * v0 = A / 12) by (unfold A; cbn [pow]; field).
  assert (PB : (1 / 3) ^ S k * v0 = B / 3) by (unfold B; cbn [pow]; field).
  unfold linv. cbv zeta. split; [exact LN|]. split; [exact Bi|]. split; [split; [exact DU'|]; split; [exact FU'|lra]|]. rewrite PA, PB.
  split; [split; [exact DV'|]; split; [exact FV'|]; split; [lra|]; split; [exact S2|exact S3]|].
  split; [exact DW'|]. split; [exact FW'|]. split.
  - replace (V W' - (w + v * (1 / d - 1))) with ((V W' - (V W + V V')) + ((V W - w) + (V V' - v * (1 / d - 1)))) by ring.
    eapply Rle_trans; [apply Rabs_triang|]. pose proof (Rabs_triang (V W - w) (V V' - v * (1 / d - 1))) as T. rewrite S_INR.
    assert (E1 : (12 - 10 * (1 / 3) ^ k + 13 / 10 * INR k) * uu * v0 = uu * (12 * v0 - 10 * B + 13 / 10 * INR k * v0)) by (unfold B; ring).
    assert (E2 : (12 - 10 * (1 / 3) ^ S k + 13 / 10 * (INR k + 1)) * uu * v0 = uu * (12 * v0 - 10 * (B / 3) + 13 / 10 * (INR k + 1) * v0)) by (unfold B; cbn [pow]; field).
    rewrite E1 in EW. rewrite E2. lra.
  - assert (E1 : (12 - (1 / 12) ^ k) / 11 * v0 = 12 / 11 * v0 - A / 11) by (unfold A; field).
    assert (E2 : (12 - (1 / 12) ^ S k) / 11 * v0 = 12 / 11 * v0 - A / 12 / 11) by (unfold A; cbn [pow]; field).
    rewrite E1 in Bw. rewrite E2. assert (v * (1 / d - 1) <= A * (2 / 25)) by (apply Rmult_le_compat; lra). lra.
Qed.

Lemma linv_0 v : dbl v -> fin v -> rel (101 / 100) (V v) v0 -> linv 0 one v v 1 v0 v0.
Proof.
  intros D F R. pose proof (rel_bounds (101 / 100) _ _ ltac:(lra) R) as B. destruct R as [P R]. pose proof uu_pos as U0.
  assert (0 < uu * v0) by (apply Rmult_lt_0_compat; lra). destruct one_spec as (Do & Fo & Eo).
  unfold linv. cbn [pow INR]. split; [apply loop_state_0|]. split; [lra|].
  split; [split; [exact Do|]; split; [exact Fo|rewrite Eo, Rminus_eq_0, Rabs_R0; lra]|].
  split; [split; [exact D|]; split; [exact F|]; split; [lra|]; split; [lra|lra]|]. split; [exact D|]. split; [exact F|]. split; [lra|lra].
Qed.

Lemma quot k U Vd W u v w : (k <= 20)%nat -> linv k U Vd W u v w -> is_zero W = false /\
  SFltb f_eps (SFabs (fdiv Vd W)) = Rlt_bool (V f_eps) (rnd (V Vd / V W)) /\ 0 <= V Vd / V W <= 2 * (1 / 12) ^ k.
Proof.
  intros Hk L. pose proof (linv_W k U Vd W u v w Hk L) as [BW _]. destruct L as (_ & _ & _ & (DV & FV & BV & _) & (DW & FW & _)).
  pose proof v0_pos as [V0 _]. assert (P0 : 0 < v0) by (pose proof (bpow_gt_0 radix2 (-430)); lra). pose proof (pq k) as [PQ P1].
  assert (IW : 0 < / V W) by (apply Rinv_0_lt_compat; lra).
  assert (Bq : 0 <= V Vd / V W <= 2 * (1 / 12) ^ k).
  { split; [apply Rmult_le_pos; lra|]. apply Rmult_le_reg_r with (V W); [lra|]. unfold Rdiv at 1. rewrite Rmult_assoc, Rinv_l, Rmult_1_r by lra.
    apply Rle_trans with (2 * (1 / 12) ^ k * (99 / 100 * v0)); [nra|]. apply Rmult_le_compat_l; lra. }
  split; [destruct W; try reflexivity; cbn [SF2R] in BW; lra|]. split; [|exact Bq].
  pose proof (fdiv_rnd _ _ DV DW FV FW ltac:(lra)) as R. 
  assert (big : 2 <= bpow radix2 1023) by (change 2 with (bpow radix2 1); apply bpow_le; lia).
  destruct (is_rnd_fin _ _ R) as [F E]; [apply rnd_lt; rewrite Rabs_pos_eq; lra|]. pose proof (is_rnd_dbl _ _ R) as D.
  destruct (SFabs_V _ D F) as (Da & Fa & Ea). destruct eps_V as (De & Fe & _). rewrite SFltb_V by assumption. rewrite Ea, E, Rabs_pos_eq; [reflexivity|apply rnd_ge_0; lra].
Qed.

Lemma stop_20 U Vd W u v w : linv 20 U Vd W u v w -> SFltb f_eps (SFabs (fdiv Vd W)) = false.
Proof.
  intros L. destruct (quot 20 U Vd W u v w ltac:(lia) L) as (_ & -> & B). apply Rlt_bool_false.
  destruct eps_V as (_ & _ & [E _]). eapply Rle_trans; [|exact E]. eapply Rle_trans; [apply Rle_abs|]. eapply Rle_trans; [apply rnd_up|]. rewrite Rabs_pos_eq by lra.
  pose proof dmin_small. cbn [pow] in B. lra.
Qed.
Lemma stop_small y : 0 <= y -> rnd y <= V f_eps -> y <= / 10 ^ 20 * (102 / 100).
Proof.
  intros H0 H. pose proof (rnd_abs_err y) as E. rewrite (Rabs_pos_eq y) in E by lra. apply Rabs_le_inv in E. destruct eps_V as (_ & _ & [_ B]).
  pose proof dmin_small. assert (uu * y <= / 1000000 * y) by (apply Rmult_le_compat_r; [lra|rewrite uu_val; lra]). lra.
Qed.

Variable py : bool.
Lemma loop_acc j : forall k U Vd W u v w, (k + j = 20)%nat -> linv k U Vd W u v w ->
  exists k' U' V' W' u' v' w', f_loop py j z (M + Z.of_nat k) U Vd W = Ok W' /\ (k' <= 20)%nat /\ linv k' U' V' W' u' v' w' /\
    SFltb f_eps (SFabs (fdiv V' W')) = false.
Proof.
  induction j as [|j IH]; intros k U Vd W u v w Hk L.
  - replace k with 20%nat in * by lia. pose proof (stop_20 U Vd W u v w L) as S. destruct (quot 20 U Vd W u v w ltac:(lia) L) as (ZW & _).
    exists 20%nat, U, Vd, W, u, v, w. split; [|split; [lia|split; [exact L|exact S]]]. cbn [f_loop]. unfold xdiv. rewrite ZW, andb_false_r. cbn [bind]. now rewrite S.
  - destruct (quot k U Vd W u v w ltac:(lia) L) as (ZW & _). rewrite f_loop_S. unfold xdiv at 1. rewrite ZW, andb_false_r. cbn [bind].
    destruct (SFltb f_eps (SFabs (fdiv Vd W))) eqn:T.
    + destruct (linv_step k U Vd W u v w ltac:(lia) L) as (u' & v' & w' & L' & Z1 & Z2 & NI). 
      unfold i2f. rewrite NI. cbn [bind]. fold (dn (M + Z.of_nat k + 1)). unfold xdiv. rewrite Z2, andb_false_r. cbn [bind]. rewrite Z1, andb_false_r. cbn [bind].
      replace (M + Z.of_nat k + 1)%Z with (M + Z.of_nat (S k))%Z in * by lia. apply (IH (S k) _ _ _ u' v' w' ltac:(lia) L').
    + exists k, U, Vd, W, u, v, w. split; [reflexivity|]. split; [lia|]. split; [exact L|exact T].
Qed.

(** the loop returns j_nmax / j_(nmax-1) to within 62 * 2^-53 *)
Lemma loop_value v : dbl v -> fin v -> rel (101 / 100) (V v) v0 ->
  exists W, f_loop py 20 z M one v v = Ok W /\ relf 62 W (sph_j (S n0) X / sph_j n0 X) /\
    9 / 10 * v0 <= sph_j (S n0) X / sph_j n0 X <= 12 / 10 * v0.
Proof.
  intros D F R. destruct (loop_acc 20 0 one v v 1 v0 v0 ltac:(lia) (linv_0 v D F R)) as (k & U & Vd & W & u & v1 & w & E & Hk & L & S).
  replace (M + Z.of_nat 0)%Z with M in E by lia. exists W. split; [exact E|].
  pose proof (linv_W k U Vd W u v1 w Hk L) as [BW EW]. destruct (quot k U Vd W u v1 w Hk L) as (_ & T & Q). rewrite S in T. symmetry in T.
  assert (T' : rnd (V Vd / V W) <= V f_eps) by (destruct (Rlt_bool_spec (V f_eps) (rnd (V Vd / V W))); [discriminate|lra]).
  pose proof (stop_small _ (proj1 Q) T') as Q2. clear T T' S.
  destruct L as (LS & Hu & _ & (DV & FV & BV & EV & Bv) & (DW & FW & _ & Bw)).
  pose proof v0_pos as [V0 V1]. assert (P0 : 0 < v0) by (pose proof (bpow_gt_0 radix2 (-430)); lra). pose proof (pq k) as [PQ P1]. pose proof uu_pos as U0.
  assert (Hx : X <> 0) by (pose proof (bpow_gt_0 radix2 (-400)); lra). assert (Xp : 0 < X) by (pose proof (bpow_gt_0 radix2 (-400)); lra).
  assert (Hn : Rabs X <= INR (S n0)) by (rewrite Rabs_pos_eq by lra; rewrite S_INR; pose proof (pos_INR n0); lra).
  pose proof (cf_error X n0 Hx Hn k) as CE. destruct LS as (_ & _ & _ & Ev & Ew). unfold wk, vk in CE. rewrite <- Ev, <- Ew in CE. clear Ev Ew.
  set (rho := sph_j (S n0) X / sph_j n0 X) in *. rewrite (Rabs_pos_eq X), (Rabs_pos_eq v1) in CE by lra.
  assert (VB : V Vd <= / 10 ^ 20 * (102 / 100) * V W).
  { apply Rmult_le_compat_r with (r := V W) in Q2; [|lra]. unfold Rdiv at 1 in Q2. rewrite Rmult_assoc, Rinv_l, Rmult_1_r in Q2 by lra. exact Q2. }
  assert (v1B : v1 <= 21 * uu * v0).
  { assert (20 * uu * ((1 / 3) ^ k * v0) <= 20 * uu * (1 * v0)) by (apply Rmult_le_compat_l; [lra|apply Rmult_le_compat_r; lra]).
    apply Rabs_le_inv in EV. assert (/ 10 ^ 20 * (102 / 100) * V W <= / 10 ^ 20 * (102 / 100) * (11 / 10 * v0)) by (apply Rmult_le_compat_l; lra).
    assert (/ 10 ^ 20 * (102 / 100) * (11 / 10) <= / 1000 * uu) by (rewrite uu_val; lra).
    assert (/ 10 ^ 20 * (102 / 100) * (11 / 10) * v0 <= / 1000 * uu * v0) by (apply Rmult_le_compat_r; lra). lra. }
  assert (CE' : Rabs (w - rho) <= 21 * uu * v0) by (eapply Rle_trans; [exact CE|]; nra).
  assert (uv : uu * v0 <= / 1000000 * v0) by (apply Rmult_le_compat_r; [lra|rewrite uu_val; lra]).
  apply Rabs_le_inv in CE' as CE2. assert ((12 - (1 / 12) ^ k) / 11 * v0 <= 12 / 11 * v0) by (apply Rmult_le_compat_r; lra).
  assert (RB : 999 / 1000 * v0 <= rho <= 12 / 10 * v0) by lra. split; [|lra].
  split; [exact DW|]. split; [exact FW|]. split; [lra|]. replace (V W - rho) with ((V W - w) + (w - rho)) by ring.
  eapply Rle_trans; [apply Rabs_triang|]. apply Rle_trans with (61 * uu * v0); [lra|].
  apply Rle_trans with (62 * uu * (999 / 1000 * v0)); [lra|apply Rmult_le_compat_l; lra].
Qed.
End ULoop.
