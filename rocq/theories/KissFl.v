(** * KissFl: complex arithmetic in binary64, errors measured in modulus. *)
From Coq Require Import ZArith List Bool SpecFloat Reals Lia Lra Psatz Permutation.
From Coquelicot Require Import Complex.
From Flocq Require Import Core.Core IEEE754.BinarySingleNaN.
From Verif Require Import Py PyFacts Num FloatN FloatText MDouble FlFacts SeedReal SeedFl SeedFl2 DoubleFacts FlSigned SbesselFTerm SbesselFRel SbesselFFun TabFl SumFl SumFl2 SumFl3 MKissF.
Import ListNotations.
Open Scope R_scope.

Definition finc (x : cf) : Prop := (dbl (fst x) /\ fin (fst x)) /\ (dbl (snd x) /\ fin (snd x)).

Lemma Cmod_sq (z : C) : Cmod z * Cmod z = fst z * fst z + snd z * snd z.
Proof. unfold Cmod. rewrite sqrt_sqrt; [ring|]. assert (0 <= fst z ^ 2) by apply pow2_ge_0. assert (0 <= snd z ^ 2) by apply pow2_ge_0. lra. Qed.
Lemma Cmod_fst (z : C) : Rabs (fst z) <= Cmod z.
Proof. apply Rsqr_incr_0_var; [|apply Cmod_ge_0]. rewrite <- Rsqr_abs. unfold Rsqr. rewrite Cmod_sq. pose proof (Rle_0_sqr (snd z)). unfold Rsqr in *. lra. Qed.
Lemma Cmod_snd (z : C) : Rabs (snd z) <= Cmod z.
Proof. apply Rsqr_incr_0_var; [|apply Cmod_ge_0]. rewrite <- Rsqr_abs. unfold Rsqr. rewrite Cmod_sq. pose proof (Rle_0_sqr (fst z)). unfold Rsqr in *. lra. Qed.
Lemma Cmod_mono (z w : C) : Rabs (fst z) <= Rabs (fst w) -> Rabs (snd z) <= Rabs (snd w) -> Cmod z <= Cmod w.
Proof.
  intros H1 H2. apply Rsqr_incr_0_var; [|apply Cmod_ge_0]. unfold Rsqr. rewrite !Cmod_sq. apply Rsqr_le_abs_1 in H1, H2. unfold Rsqr in *. lra.
Qed.
Lemma Cmod_sum1 (z : C) : Cmod z <= Rabs (fst z) + Rabs (snd z).
Proof.
  apply Rsqr_incr_0_var; [|pose proof (Rabs_pos (fst z)); pose proof (Rabs_pos (snd z)); lra]. unfold Rsqr. rewrite Cmod_sq.
  pose proof (Rsqr_abs (fst z)) as E1. pose proof (Rsqr_abs (snd z)) as E2. unfold Rsqr in *. rewrite E1, E2.
  pose proof (Rabs_pos (fst z)). pose proof (Rabs_pos (snd z)). assert (0 <= Rabs (fst z) * Rabs (snd z)) by (apply Rmult_le_pos; auto). lra.
Qed.
Lemma Cmod_scal (r : R) (z : C) : Cmod (r * fst z, r * snd z) = Rabs r * Cmod z.
Proof.
  replace ((r * fst z, r * snd z) : C) with (RtoC r * z)%C by (destruct z; unfold Cmult, RtoC; cbn; f_equal; ring).
  rewrite Cmod_mult, Cmod_R. reflexivity.
Qed.
Lemma Cmod_minus_triangle (x y : C) : Cmod (x - y)%C <= Cmod x + Cmod y.
Proof. unfold Cminus. eapply Rle_trans; [apply Cmod_triangle|]. rewrite Cmod_opp. lra. Qed.
Lemma Cmod_Ci : Cmod Ci = 1.
Proof. unfold Cmod, Ci; cbn [fst snd]. replace (0 ^ 2 + 1 ^ 2) with 1 by ring. apply sqrt_1. Qed.
(** Cauchy-Schwarz *)
Lemma CS_abs (x w : C) : Rabs (fst x) * Rabs (fst w) + Rabs (snd x) * Rabs (snd w) <= Cmod x * Cmod w.
Proof.
  pose proof (Rabs_pos (fst x)). pose proof (Rabs_pos (fst w)). pose proof (Rabs_pos (snd x)). pose proof (Rabs_pos (snd w)).
  apply Rsqr_incr_0_var; [|apply Rmult_le_pos; apply Cmod_ge_0]. unfold Rsqr.
  replace (Cmod x * Cmod w * (Cmod x * Cmod w)) with ((Cmod x * Cmod x) * (Cmod w * Cmod w)) by ring. rewrite !Cmod_sq.
  assert (SA : forall r, r * r = Rabs r * Rabs r) by (intros r; exact (Rsqr_abs r)). rewrite (SA (fst x)), (SA (snd x)), (SA (fst w)), (SA (snd w)).
  set (a := Rabs (fst x)) in *. set (b := Rabs (snd x)) in *. set (c := Rabs (fst w)) in *. set (d := Rabs (snd w)) in *.
  pose proof (Rle_0_sqr (a * d - b * c)) as Q. unfold Rsqr in Q. nra.
Qed.
Lemma CS_abs2 (x w : C) : Rabs (fst x) * Rabs (snd w) + Rabs (snd x) * Rabs (fst w) <= Cmod x * Cmod w.
Proof.
  pose proof (CS_abs x (snd w, fst w)) as H. cbn [fst snd] in H. replace (Cmod w) with (Cmod (snd w, fst w)); [exact H|].
  unfold Cmod. cbn [fst snd]. f_equal. ring.
Qed.

(** both parts rounded once *)
Lemma rnd2 (z : cf) (a b M : R) : is_rnd (fst z) a -> is_rnd (snd z) b -> Rabs (rnd a - a) <= uu * Rabs a -> Rabs (rnd b - b) <= uu * Rabs b ->
  Cmod (a, b) <= M -> M <= BIG -> finc z /\ Cmod (VC z - (a, b))%C <= uu * M.
Proof.
  intros Ra Rb Ea Eb HM HB. pose proof (Cmod_fst (a, b)) as Ca. pose proof (Cmod_snd (a, b)) as Cb. cbn [fst snd] in *.
  destruct (big_rnd _ _ Ra) as (D1 & F1 & E1); [lra|]. destruct (big_rnd _ _ Rb) as (D2 & F2 & E2); [lra|].
  split; [repeat split; auto|]. unfold VC. rewrite E1, E2. pose proof uu_small as [U0 _].
  apply Rle_trans with (Cmod (uu * fst ((a, b) : C), uu * snd ((a, b) : C))).
  - apply Cmod_mono; cbn [fst snd]; unfold Cminus, Cplus, Copp; cbn [fst snd]; rewrite (Rabs_mult uu), (Rabs_right uu) by lra; assumption.
  - rewrite Cmod_scal, (Rabs_right uu) by lra. apply Rmult_le_compat_l; lra.
Qed.

Section Ops.
Variables x y : cf.
Hypothesis Fx : finc x.
Hypothesis Fy : finc y.
Variables a b : R.
Hypothesis Ha : Cmod (VC x) <= a.
Hypothesis Hb : Cmod (VC y) <= b.
Ltac dest := destruct Fx as [[Dx1 Fx1] [Dx2 Fx2]], Fy as [[Dy1 Fy1] [Dy2 Fy2]].
Lemma rv_add : a + b <= BIG -> finc (cfadd x y) /\ Cmod (VC (cfadd x y) - (VC x + VC y))%C <= uu * (a + b).
Proof.
  intros HB. dest. apply (rnd2 (cfadd x y) (V (fst x) + V (fst y)) (V (snd x) + V (snd y)) (a + b)); cbn [cfadd fst snd];
    [apply fadd_rnd|apply fadd_rnd|apply rnd_add_err|apply rnd_add_err| |]; auto.
  change (Cmod (VC x + VC y)%C <= a + b). eapply Rle_trans; [apply Cmod_triangle|lra].
Qed.
Lemma rv_sub : a + b <= BIG -> finc (cfsubk x y) /\ Cmod (VC (cfsubk x y) - (VC x - VC y))%C <= uu * (a + b).
Proof.
  intros HB. dest. apply (rnd2 (cfsubk x y) (V (fst x) - V (fst y)) (V (snd x) - V (snd y)) (a + b)); cbn [cfsubk fst snd];
    [apply fsub_rnd|apply fsub_rnd|apply rnd_sub_err|apply rnd_sub_err| |]; auto.
  change (Cmod (VC x - VC y)%C <= a + b). eapply Rle_trans; [apply Cmod_minus_triangle|lra].
Qed.
(** x + i y and x - i y *)
Lemma Cmod_i (z : C) : Cmod (- snd z, fst z) = Cmod z.
Proof. unfold Cmod. cbn [fst snd]. f_equal. ring. Qed.
Lemma rv_addi : a + b <= BIG -> let z := (fsub (fst x) (snd y), fadd (snd x) (fst y)) in finc z /\ Cmod (VC z - (VC x + Ci * VC y))%C <= uu * (a + b).
Proof.
  intros HB z. dest.
  assert (E : (VC x + Ci * VC y)%C = ((V (fst x) - V (snd y), V (snd x) + V (fst y)) : C)) by (unfold VC, Ci, Cmult, Cplus; cbn [fst snd]; f_equal; ring).
  rewrite E. apply (rnd2 z); cbn [z fst snd]; [apply fsub_rnd|apply fadd_rnd|apply rnd_sub_err|apply rnd_add_err| |]; auto.
  rewrite <- E. eapply Rle_trans; [apply Cmod_triangle|]. rewrite Cmod_mult. rewrite Cmod_Ci. lra.
Qed.
Lemma rv_subi : a + b <= BIG -> let z := (fadd (fst x) (snd y), fsub (snd x) (fst y)) in finc z /\ Cmod (VC z - (VC x - Ci * VC y))%C <= uu * (a + b).
Proof.
  intros HB z. dest.
  assert (E : (VC x - Ci * VC y)%C = ((V (fst x) + V (snd y), V (snd x) - V (fst y)) : C)) by (unfold VC, Ci, Cmult, Cminus, Copp, Cplus; cbn [fst snd]; f_equal; ring).
  rewrite E. apply (rnd2 z); cbn [z fst snd]; [apply fadd_rnd|apply fsub_rnd|apply rnd_add_err|apply rnd_sub_err| |]; auto.
  rewrite <- E. eapply Rle_trans; [apply Cmod_minus_triangle|]. rewrite Cmod_mult. rewrite Cmod_Ci. lra.
Qed.
(** -i (x + y) and i (x - y) *)
Lemma rv_mi : a + b <= BIG -> let z := (fadd (snd x) (snd y), fsub (SFopp (fst x)) (fst y)) in finc z /\ Cmod (VC z - - (Ci * (VC x + VC y)))%C <= uu * (a + b).
Proof.
  intros HB z. dest. destruct (SFopp_V (fst x) Dx1 Fx1) as (Do & Fo & Eo).
  assert (E : (- (Ci * (VC x + VC y)))%C = ((V (snd x) + V (snd y), V (SFopp (fst x)) - V (fst y)) : C)) by (rewrite Eo; unfold VC, Ci, Cmult, Cminus, Copp, Cplus; cbn [fst snd]; f_equal; ring).
  rewrite E. apply (rnd2 z); cbn [z fst snd]; [apply fadd_rnd|apply fsub_rnd|apply rnd_add_err|apply rnd_sub_err| |]; auto.
  rewrite <- E, Cmod_opp, Cmod_mult. rewrite Cmod_Ci. rewrite Rmult_1_l.
  eapply Rle_trans; [apply Cmod_triangle|lra].
Qed.
Lemma rv_pi : a + b <= BIG -> let z := (fadd (SFopp (snd x)) (snd y), fsub (fst x) (fst y)) in finc z /\ Cmod (VC z - Ci * (VC x - VC y))%C <= uu * (a + b).
Proof.
  intros HB z. dest. destruct (SFopp_V (snd x) Dx2 Fx2) as (Do & Fo & Eo).
  assert (E : (Ci * (VC x - VC y))%C = ((V (SFopp (snd x)) + V (snd y), V (fst x) - V (fst y)) : C)) by (rewrite Eo; unfold VC, Ci, Cmult, Cminus, Copp, Cplus; cbn [fst snd]; f_equal; ring).
  rewrite E. apply (rnd2 z); cbn [z fst snd]; [apply fadd_rnd|apply fsub_rnd|apply rnd_add_err|apply rnd_sub_err| |]; auto.
  rewrite <- E, Cmod_mult. rewrite Cmod_Ci. rewrite Rmult_1_l.
  eapply Rle_trans; [apply Cmod_minus_triangle|lra].
Qed.
(** products: one part is p1 +- p2 *)
Lemma part_err (p1 p2 q1 q2 s M : R) : Rabs (p1 - q1) <= uu * Rabs q1 + dmin / 2 -> Rabs (p2 - q2) <= uu * Rabs q2 + dmin / 2 -> Rabs q1 + Rabs q2 <= M ->
  Rabs s = 1 -> Rabs (p1 + s * p2 - (q1 + s * q2)) <= uu * M + dmin /\ Rabs (p1 + s * p2) <= (1 + uu) * M + dmin.
Proof.
  intros H1 H2 HM Hs. pose proof uu_small as [U0 _].
  assert (T : Rabs (p1 + s * p2 - (q1 + s * q2)) <= uu * M + dmin).
  { replace (p1 + s * p2 - (q1 + s * q2)) with ((p1 - q1) + s * (p2 - q2)) by ring. eapply Rle_trans; [apply Rabs_triang|]. rewrite (Rabs_mult s), Hs.
    assert (uu * (Rabs q1 + Rabs q2) <= uu * M) by (apply Rmult_le_compat_l; lra). lra. }
  split; [exact T|]. replace (p1 + s * p2) with ((p1 + s * p2 - (q1 + s * q2)) + (q1 + s * q2)) by ring. eapply Rle_trans; [apply Rabs_triang|].
  assert (Rabs (q1 + s * q2) <= M) by (eapply Rle_trans; [apply Rabs_triang|]; rewrite Rabs_mult, Hs; lra). lra.
Qed.
Lemma dmin_pos : 0 < dmin. Proof. apply bpow_gt_0. Qed.
Lemma rv_mul : 2 * (a * b) + 1 <= BIG -> finc (cfmul x y) /\ Cmod (VC (cfmul x y) - VC x * VC y)%C <= 5 * uu * (a * b) + 6 * dmin.
Proof.
  intros HB. dest. pose proof uu_small as [U0 U1]. pose proof dmin_pos as D0. assert (D1 : dmin <= 1) by (change 1 with (bpow radix2 0); apply bpow_le; lia).
  assert (P : Cmod (VC x) * Cmod (VC y) <= a * b) by (apply Rmult_le_compat; auto using Cmod_ge_0).
  assert (P0 : 0 <= a * b) by (eapply Rle_trans; [|exact P]; apply Rmult_le_pos; apply Cmod_ge_0).
  pose proof (Rle_trans _ _ _ (CS_abs (VC x) (VC y)) P) as C1. pose proof (Rle_trans _ _ _ (CS_abs2 (VC x) (VC y)) P) as C2. unfold VC in C1, C2. cbn [fst snd] in C1, C2.
  rewrite <- !Rabs_mult in C1, C2. set (M := a * b) in *.
  assert (Q : forall p q, dbl p -> fin p -> dbl q -> fin q -> Rabs (V p * V q) <= M -> dbl (fmul p q) /\ fin (fmul p q) /\ Rabs (V (fmul p q) - V p * V q) <= uu * Rabs (V p * V q) + dmin / 2).
  { intros p q Dp Fp Dq Fq H. destruct (big_rnd _ _ (fmul_rnd p q Dp Dq Fp Fq)) as (D & F & E); [lra|]. repeat split; auto. rewrite E. apply rnd_ok. }
  pose proof (Rabs_pos (V (fst x) * V (fst y))). pose proof (Rabs_pos (V (snd x) * V (snd y))). pose proof (Rabs_pos (V (fst x) * V (snd y))). pose proof (Rabs_pos (V (snd x) * V (fst y))).
  destruct (Q (fst x) (fst y)) as (G1 & G2 & G3); auto; [lra|]. destruct (Q (snd x) (snd y)) as (H1' & H2' & H3'); auto; [lra|].
  destruct (Q (fst x) (snd y)) as (K1 & K2 & K3); auto; [lra|]. destruct (Q (snd x) (fst y)) as (L1 & L2 & L3); auto; [lra|].
  assert (SM1 : Rabs (-1) = 1) by (rewrite Rabs_left; lra).
  destruct (part_err _ _ _ _ (-1) M G3 H3' C1 SM1) as [A1 A2]. destruct (part_err _ _ _ _ 1 M K3 L3 C2 Rabs_R1) as [B1 B2].
  assert (S1 : (1 + uu) * M + dmin <= BIG) by nra.
  set (re := V (fmul (fst x) (fst y)) + -1 * V (fmul (snd x) (snd y))) in *. set (im := V (fmul (fst x) (snd y)) + 1 * V (fmul (snd x) (fst y))) in *.
  assert (Er : re = V (fmul (fst x) (fst y)) - V (fmul (snd x) (snd y))) by (unfold re; ring).
  assert (Ei : im = V (fmul (fst x) (snd y)) + V (fmul (snd x) (fst y))) by (unfold im; ring).
  destruct (big_rnd (fsub (fmul (fst x) (fst y)) (fmul (snd x) (snd y))) re) as (D3 & F3 & E3); [rewrite Er; apply fsub_rnd; auto|lra|].
  destruct (big_rnd (fadd (fmul (fst x) (snd y)) (fmul (snd x) (fst y))) im) as (D4 & F4 & E4); [rewrite Ei; apply fadd_rnd; auto|lra|].
  assert (R1 : Rabs (rnd re - re) <= uu * Rabs re) by (rewrite Er; apply rnd_sub_err; auto).
  assert (R2 : Rabs (rnd im - im) <= uu * Rabs im) by (rewrite Ei; apply rnd_add_err; auto).
  assert (U2 : forall r, Rabs r <= (1 + uu) * M + dmin -> uu * Rabs r <= 11 / 10 * uu * M + dmin).
  { intros r Hr. apply Rle_trans with (uu * ((1 + uu) * M + dmin)); [apply Rmult_le_compat_l; lra|]. assert (uu * M * uu <= uu * M * (/ 10)) by (apply Rmult_le_compat_l; [apply Rmult_le_pos|]; lra). nra. }
  pose proof (U2 _ A2). pose proof (U2 _ B2). assert (UM : 0 <= uu * M) by (apply Rmult_le_pos; lra).
  split; [split; split; assumption|].
  eapply Rle_trans; [apply Cmod_sum1|]. unfold VC, cfmul, Cmult, Cminus, Cplus, Copp. cbn [fst snd]. rewrite E3, E4.
  assert (T1 : Rabs (rnd re + - (V (fst x) * V (fst y) - V (snd x) * V (snd y))) <= 21 / 10 * uu * M + 2 * dmin).
  { replace (rnd re + - (V (fst x) * V (fst y) - V (snd x) * V (snd y))) with ((rnd re - re) + (re - (V (fst x) * V (fst y) + -1 * (V (snd x) * V (snd y))))) by ring.
    eapply Rle_trans; [apply Rabs_triang|]. lra. }
  assert (T2 : Rabs (rnd im + - (V (fst x) * V (snd y) + V (snd x) * V (fst y))) <= 21 / 10 * uu * M + 2 * dmin).
  { replace (rnd im + - (V (fst x) * V (snd y) + V (snd x) * V (fst y))) with ((rnd im - im) + (im - (V (fst x) * V (snd y) + 1 * (V (snd x) * V (fst y))))) by ring.
    eapply Rle_trans; [apply Rabs_triang|]. lra. }
  lra.
Qed.
End Ops.
Lemma rv_scale x s a b : finc x -> dbl s -> fin s -> Cmod (VC x) <= a -> Rabs (V s) <= b -> a * b <= BIG ->
  finc (cfscale x s) /\ Cmod (VC (cfscale x s) - VC x * RtoC (V s))%C <= 2 * uu * (a * b) + dmin.
Proof.
  intros [[Dx1 Fx1] [Dx2 Fx2]] Ds Fs Ha Hb HB. assert (C1 : Rabs (V (fst x)) <= Cmod (VC x)) by exact (Cmod_fst (VC x)). assert (C2 : Rabs (V (snd x)) <= Cmod (VC x)) by exact (Cmod_snd (VC x)).
  assert (Q : forall p, dbl p -> fin p -> Rabs (V p) <= a -> dbl (fmul p s) /\ fin (fmul p s) /\ Rabs (V (fmul p s) - V p * V s) <= uu * (a * b) + dmin / 2).
  { intros p Dp Fp H. assert (PB : Rabs (V p * V s) <= a * b) by (apply prod_bound; auto). destruct (big_rnd _ _ (fmul_rnd p s Dp Ds Fp Fs)) as (D & F & E); [lra|].
    repeat split; auto. rewrite E. eapply Rle_trans; [apply rnd_ok|]. pose proof uu_small. assert (uu * Rabs (V p * V s) <= uu * (a * b)) by (apply Rmult_le_compat_l; lra). lra. }
  destruct (Q (fst x)) as (G1 & G2 & G3); auto; [lra|]. destruct (Q (snd x)) as (H1 & H2 & H3); auto; [lra|].
  split; [split; split; assumption|]. eapply Rle_trans; [apply Cmod_sum1|]. unfold VC, cfscale, Cmult, Cminus, Cplus, Copp, RtoC. cbn [fst snd].
  replace (V (fmul (fst x) s) + - (V (fst x) * V s - V (snd x) * 0)) with (V (fmul (fst x) s) - V (fst x) * V s) by ring.
  replace (V (fmul (snd x) s) + - (V (fst x) * 0 + V (snd x) * V s)) with (V (fmul (snd x) s) - V (snd x) * V s) by ring. lra.
Qed.

(** ** Values of size A with errors in units of eps A *)
Section Scaled.
Variables A eps : R.
Hypothesis HA0 : bpow radix2 (-900) <= A.
Hypothesis Hu : uu <= eps.
Hypothesis He : eps <= / 1000.
Let e0 : 0 < eps. Proof. pose proof uu_small. lra. Qed.
Let A0 : 0 < A. Proof. pose proof (bpow_gt_0 radix2 (-900)). lra. Qed.
Lemma dmin_A : 100 * dmin <= uu * A.
Proof.
  apply Rle_trans with (bpow radix2 7 * dmin). { apply Rmult_le_compat_r; [left; apply dmin_pos|]. change (bpow radix2 7) with 128. lra. }
  rewrite <- bpow_plus. apply Rle_trans with (bpow radix2 (-53 + -900)); [apply bpow_le; lia|]. rewrite bpow_plus. fold uu. apply Rmult_le_compat_l; [pose proof uu_small; lra|exact HA0].
Qed.
Lemma uA : uu * A <= eps * A. Proof. apply Rmult_le_compat_r; lra. Qed.
Let eA0 : 0 < eps * A. Proof. apply Rmult_lt_0_compat; auto. Qed.

Definition kc (k c : R) (x : cf) (g : C) : Prop := finc x /\ Cmod g <= k * A /\ Cmod (VC x - g)%C <= c * (eps * A).
(** what the rules ask of k and c *)
Definition okc (k c : R) : Prop := 0 <= k /\ 0 <= c /\ c * eps <= / 2 /\ 8 * (k + 1) * A <= BIG.
Lemma kc_le k c k' c' x g : kc k c x g -> k <= k' -> c <= c' -> kc k' c' x g.
Proof.
  intros (F & B & E) Hk Hc. split; [exact F|]. split; [eapply Rle_trans; [exact B|apply Rmult_le_compat_r; lra]|].
  eapply Rle_trans; [exact E|apply Rmult_le_compat_r; lra].
Qed.
Lemma kc_size k c x g : kc k c x g -> okc k c -> Cmod (VC x) <= (k + / 2) * A.
Proof.
  intros (F & B & E) (K & Cc & CE & _). replace (VC x) with ((VC x - g) + g)%C by ring. eapply Rle_trans; [apply Cmod_triangle|].
  assert (c * (eps * A) <= / 2 * A) by (rewrite <- Rmult_assoc; apply Rmult_le_compat_r; lra). lra.
Qed.
Lemma kc_self k x : finc x -> Cmod (VC x) <= k * A -> kc k 0 x (VC x).
Proof. intros F H. split; [exact F|]. split; [exact H|]. replace (VC x - VC x)%C with (RtoC 0) by ring. rewrite Cmod_0. lra. Qed.
Lemma okc_le k c k' c' : okc k' c' -> 0 <= k <= k' -> 0 <= c <= c' -> okc k c.
Proof.
  intros (K & C' & E & B) Hk Hc. repeat split; try lra.
  - eapply Rle_trans; [|exact E]. apply Rmult_le_compat_r; lra.
  - eapply Rle_trans; [|exact B]. apply Rmult_le_compat_r; lra.
Qed.
Lemma combine2 k1 c1 k2 c2 k c z (g1 g2 g : C) (x y : cf) : kc k1 c1 x g1 -> kc k2 c2 y g2 -> okc k1 c1 -> okc k2 c2 ->
  (forall a b, Cmod (VC x) <= a -> Cmod (VC y) <= b -> a + b <= BIG -> finc z /\ exists L : C -> C -> C, L g1 g2 = g /\ Cmod (VC z - L (VC x) (VC y))%C <= uu * (a + b) /\
     Cmod (L (VC x) (VC y) - L g1 g2)%C <= Cmod (VC x - g1)%C + Cmod (VC y - g2)%C /\ Cmod (L g1 g2) <= Cmod g1 + Cmod g2) ->
  k1 + k2 <= k -> c1 + c2 + (k1 + k2) + 1 <= c -> kc k c z g.
Proof.
  intros H1 H2 O1 O2 HL Hk Hc. pose proof (kc_size _ _ _ _ H1 O1) as S1. pose proof (kc_size _ _ _ _ H2 O2) as S2.
  destruct O1 as (P1 & Q1 & R1 & T1), O2 as (P2 & Q2 & R2 & T2). destruct H1 as (F1 & B1 & E1), H2 as (F2 & B2 & E2).
  destruct (HL ((k1 + / 2) * A) ((k2 + / 2) * A) S1 S2) as (F & L & EL & EE & Lip & LB); [nra|]. apply (kc_le (k1 + k2) (c1 + c2 + (k1 + k2) + 1)); auto.
  split; [exact F|]. rewrite <- EL. split; [eapply Rle_trans; [exact LB|]; lra|].
  replace (VC z - L g1 g2)%C with ((VC z - L (VC x) (VC y)) + (L (VC x) (VC y) - L g1 g2))%C by ring. eapply Rle_trans; [apply Cmod_triangle|].
  assert (uu * ((k1 + / 2) * A + (k2 + / 2) * A) <= (k1 + k2 + 1) * (eps * A)).
  { replace (uu * ((k1 + / 2) * A + (k2 + / 2) * A)) with ((k1 + k2 + 1) * (uu * A)) by field. apply Rmult_le_compat_l; [lra|apply uA]. }
  lra.
Qed.
Lemma kc_add k1 c1 k2 c2 x y g1 g2 : kc k1 c1 x g1 -> kc k2 c2 y g2 -> okc k1 c1 -> okc k2 c2 -> kc (k1 + k2) (c1 + c2 + (k1 + k2) + 1) (cfadd x y) (g1 + g2)%C.
Proof.
  intros H1 H2 O1 O2. apply (combine2 k1 c1 k2 c2 _ _ _ g1 g2 _ x y); auto; try lra. intros a b Ha Hb HB. destruct (rv_add x y (proj1 H1) (proj1 H2) a b Ha Hb HB) as [F E].
  split; [exact F|]. exists (fun u v => u + v)%C. split; [reflexivity|]. split; [exact E|]. split; [|apply Cmod_triangle].
  replace (VC x + VC y - (g1 + g2))%C with ((VC x - g1) + (VC y - g2))%C by ring. apply Cmod_triangle.
Qed.
Lemma kc_sub k1 c1 k2 c2 x y g1 g2 : kc k1 c1 x g1 -> kc k2 c2 y g2 -> okc k1 c1 -> okc k2 c2 -> kc (k1 + k2) (c1 + c2 + (k1 + k2) + 1) (cfsubk x y) (g1 - g2)%C.
Proof.
  intros H1 H2 O1 O2. apply (combine2 k1 c1 k2 c2 _ _ _ g1 g2 _ x y); auto; try lra. intros a b Ha Hb HB. destruct (rv_sub x y (proj1 H1) (proj1 H2) a b Ha Hb HB) as [F E].
  split; [exact F|]. exists (fun u v => u - v)%C. split; [reflexivity|]. split; [exact E|]. split; [|apply Cmod_minus_triangle].
  replace (VC x - VC y - (g1 - g2))%C with ((VC x - g1) - (VC y - g2))%C by ring. apply Cmod_minus_triangle.
Qed.
Lemma kc_addi k1 c1 k2 c2 x y g1 g2 : kc k1 c1 x g1 -> kc k2 c2 y g2 -> okc k1 c1 -> okc k2 c2 ->
  kc (k1 + k2) (c1 + c2 + (k1 + k2) + 1) (fsub (fst x) (snd y), fadd (snd x) (fst y)) (g1 + Ci * g2)%C.
Proof.
  intros H1 H2 O1 O2. apply (combine2 k1 c1 k2 c2 _ _ _ g1 g2 _ x y); auto; try lra. intros a b Ha Hb HB. destruct (rv_addi x y (proj1 H1) (proj1 H2) a b Ha Hb HB) as [F E].
  split; [exact F|]. exists (fun u v => u + Ci * v)%C. split; [reflexivity|]. split; [exact E|]. split.
  - replace (VC x + Ci * VC y - (g1 + Ci * g2))%C with ((VC x - g1) + Ci * (VC y - g2))%C by ring. eapply Rle_trans; [apply Cmod_triangle|]. rewrite Cmod_mult, Cmod_Ci. lra.
  - eapply Rle_trans; [apply Cmod_triangle|]. rewrite Cmod_mult, Cmod_Ci. lra.
Qed.
Lemma kc_subi k1 c1 k2 c2 x y g1 g2 : kc k1 c1 x g1 -> kc k2 c2 y g2 -> okc k1 c1 -> okc k2 c2 ->
  kc (k1 + k2) (c1 + c2 + (k1 + k2) + 1) (fadd (fst x) (snd y), fsub (snd x) (fst y)) (g1 - Ci * g2)%C.
Proof.
  intros H1 H2 O1 O2. apply (combine2 k1 c1 k2 c2 _ _ _ g1 g2 _ x y); auto; try lra. intros a b Ha Hb HB. destruct (rv_subi x y (proj1 H1) (proj1 H2) a b Ha Hb HB) as [F E].
  split; [exact F|]. exists (fun u v => u - Ci * v)%C. split; [reflexivity|]. split; [exact E|]. split.
  - replace (VC x - Ci * VC y - (g1 - Ci * g2))%C with ((VC x - g1) - Ci * (VC y - g2))%C by ring. eapply Rle_trans; [apply Cmod_minus_triangle|]. rewrite Cmod_mult, Cmod_Ci. lra.
  - eapply Rle_trans; [apply Cmod_minus_triangle|]. rewrite Cmod_mult, Cmod_Ci. lra.
Qed.
Lemma kc_mi k1 c1 k2 c2 x y g1 g2 : kc k1 c1 x g1 -> kc k2 c2 y g2 -> okc k1 c1 -> okc k2 c2 ->
  kc (k1 + k2) (c1 + c2 + (k1 + k2) + 1) (fadd (snd x) (snd y), fsub (SFopp (fst x)) (fst y)) (- (Ci * (g1 + g2)))%C.
Proof.
  intros H1 H2 O1 O2. apply (combine2 k1 c1 k2 c2 _ _ _ g1 g2 _ x y); auto; try lra. intros a b Ha Hb HB. destruct (rv_mi x y (proj1 H1) (proj1 H2) a b Ha Hb HB) as [F E].
  split; [exact F|]. exists (fun u v => - (Ci * (u + v)))%C. split; [reflexivity|]. split; [exact E|]. split.
  - replace (- (Ci * (VC x + VC y)) - - (Ci * (g1 + g2)))%C with (- (Ci * ((VC x - g1) + (VC y - g2))))%C by ring. rewrite Cmod_opp, Cmod_mult, Cmod_Ci, Rmult_1_l. apply Cmod_triangle.
  - rewrite Cmod_opp, Cmod_mult, Cmod_Ci, Rmult_1_l. apply Cmod_triangle.
Qed.
Lemma kc_pi k1 c1 k2 c2 x y g1 g2 : kc k1 c1 x g1 -> kc k2 c2 y g2 -> okc k1 c1 -> okc k2 c2 ->
  kc (k1 + k2) (c1 + c2 + (k1 + k2) + 1) (fadd (SFopp (snd x)) (snd y), fsub (fst x) (fst y)) (Ci * (g1 - g2))%C.
Proof.
  intros H1 H2 O1 O2. apply (combine2 k1 c1 k2 c2 _ _ _ g1 g2 _ x y); auto; try lra. intros a b Ha Hb HB. destruct (rv_pi x y (proj1 H1) (proj1 H2) a b Ha Hb HB) as [F E].
  split; [exact F|]. exists (fun u v => Ci * (u - v))%C. split; [reflexivity|]. split; [exact E|]. split.
  - replace (Ci * (VC x - VC y) - Ci * (g1 - g2))%C with (Ci * ((VC x - g1) - (VC y - g2)))%C by ring. rewrite Cmod_mult, Cmod_Ci, Rmult_1_l. apply Cmod_minus_triangle.
  - rewrite Cmod_mult, Cmod_Ci, Rmult_1_l. apply Cmod_minus_triangle.
Qed.

(** a twiddle factor *)
Definition twid (w : cf) (g : C) : Prop := finc w /\ Cmod g = 1 /\ Cmod (VC w - g)%C <= eps.
Lemma kc_mul k c x w g gw : kc k c x g -> twid w gw -> okc k c -> kc k (c + 7 * k + 4) (cfmul x w) (g * gw)%C.
Proof.
  intros H (Fw & Mw & Ew) O. pose proof (kc_size _ _ _ _ H O) as S. destruct O as (P & Q & R & T). destruct H as (F & B & E).
  assert (W1 : Cmod (VC w) <= 101 / 100). { replace (VC w) with ((VC w - gw) + gw)%C by ring. eapply Rle_trans; [apply Cmod_triangle|]. lra. }
  assert (BG : 2 * ((k + / 2) * A * (101 / 100)) + 1 <= BIG).
  { assert (1 <= BIG / 4). { apply Rle_trans with (bpow radix2 2 / 4); [change (bpow radix2 2) with 4; lra|]. apply Rmult_le_compat_r; [lra|]. apply bpow_le. lia. }
    assert (0 <= k * A) by (apply Rmult_le_pos; lra). nra. }
  destruct (rv_mul x w F Fw _ _ S W1 BG) as [F' E']. split; [exact F'|]. split; [rewrite Cmod_mult, Mw; lra|].
  replace (VC (cfmul x w) - g * gw)%C with ((VC (cfmul x w) - VC x * VC w) + (VC x * (VC w - gw) + (VC x - g) * gw))%C by ring.
  eapply Rle_trans; [apply Cmod_triangle|]. pose proof (Cmod_triangle (VC x * (VC w - gw))%C ((VC x - g) * gw)%C) as T2. rewrite !Cmod_mult, Mw in T2.
  assert (T3 : Cmod (VC x) * Cmod (VC w - gw)%C <= (k + / 2) * A * eps) by (apply Rmult_le_compat; auto using Cmod_ge_0).
  pose proof uA as UA. pose proof dmin_A as DA.
  assert (T4 : 5 * uu * ((k + / 2) * A * (101 / 100)) <= (k + / 2) * (505 / 100) * (eps * A)).
  { replace (5 * uu * ((k + / 2) * A * (101 / 100))) with ((k + / 2) * (505 / 100) * (uu * A)) by field. apply Rmult_le_compat_l; lra. }
  assert (K0 : 0 <= k * (eps * A)) by (apply Rmult_le_pos; lra). lra.
Qed.
Lemma kc_scale k c x s gs g : kc k c x g -> dbl s -> fin s -> Rabs gs <= 1 -> Rabs (V s - gs) <= eps -> okc k c -> kc k (c + 4 * k + 2) (cfscale x s) (g * RtoC gs)%C.
Proof.
  intros H Ds Fs Ms Es O. pose proof (kc_size _ _ _ _ H O) as S. destruct O as (P & Q & R & T). destruct H as (F & B & E).
  assert (W1 : Rabs (V s) <= 101 / 100). { replace (V s) with ((V s - gs) + gs) by ring. eapply Rle_trans; [apply Rabs_triang|]. lra. }
  assert (k0 : 0 <= k * A) by (apply Rmult_le_pos; lra).
  destruct (rv_scale x s _ _ F Ds Fs S W1) as [F' E']; [nra|]. split; [exact F'|]. split.
  { rewrite Cmod_mult, Cmod_R. pose proof (Cmod_ge_0 g). nra. }
  replace (VC (cfscale x s) - g * RtoC gs)%C with ((VC (cfscale x s) - VC x * RtoC (V s)) + (VC x * (RtoC (V s) - RtoC gs) + (VC x - g) * RtoC gs))%C by ring.
  eapply Rle_trans; [apply Cmod_triangle|]. pose proof (Cmod_triangle (VC x * (RtoC (V s) - RtoC gs))%C ((VC x - g) * RtoC gs)%C) as T2.
  rewrite !Cmod_mult in T2. rewrite <- RtoC_minus, !Cmod_R in T2.
  assert (T3 : Cmod (VC x) * Rabs (V s - gs) <= (k + / 2) * A * eps) by (apply Rmult_le_compat; auto using Cmod_ge_0, Rabs_pos).
  assert (T5 : Cmod (VC x - g)%C * Rabs gs <= Cmod (VC x - g)%C * 1) by (apply Rmult_le_compat_l; auto using Cmod_ge_0).
  pose proof uA as UA. pose proof dmin_A as DA.
  assert (T4 : 2 * uu * ((k + / 2) * A * (101 / 100)) <= (k + / 2) * (202 / 100) * (eps * A)).
  { replace (2 * uu * ((k + / 2) * A * (101 / 100))) with ((k + / 2) * (202 / 100) * (uu * A)) by field. apply Rmult_le_compat_l; lra. }
  assert (K0 : 0 <= k * (eps * A)) by (apply Rmult_le_pos; lra). rewrite <- RtoC_minus. lra.
Qed.
End Scaled.
