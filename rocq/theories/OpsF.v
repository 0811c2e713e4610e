(** * OpsF: facts about MOpsF: products by imaginary numbers and the recursion of divsin_fc. *)
From Coq Require Import ZArith List Bool SpecFloat Reals Lia Lra Psatz.
From Coquelicot Require Import Complex.
From Flocq Require Import Core.Core IEEE754.BinarySingleNaN.
From Verif Require Import Py PyFacts Num FloatN FloatText Exact MCoefs CoefsFacts2 Sums MPysphi PysphiFacts Dft MOps TransFacts MKiss KissFacts MDouble FlFacts SeedReal SeedFl SeedFl2 DoubleFacts FlSigned SbesselFTerm SbesselFRel SbesselFFun TabFl SumFl SumFl2 SumFl3 MKissF KissFl KissFl2 KissFl3 CsphiFacts HkmF3 MTransF TransF TransF2 MOpsF.
Import ListNotations.
Open Scope R_scope.

(** a double of absolute value at most B, within e of r *)
Definition gp (B e : R) (x : f64) (r : R) : Prop := dbl x /\ fin x /\ Rabs (V x) <= B /\ Rabs (V x - r) <= e.
Definition gpc (B e : R) (z : cf) (c : C) : Prop := gp B e (fst z) (fst c) /\ gp B e (snd z) (snd c).
(** the imaginary number with value T *)
Definition iunit (T : R) (u : cf) : Prop := (dbl (fst u) /\ fin (fst u) /\ V (fst u) = 0) /\ dbl (snd u) /\ fin (snd u) /\ V (snd u) = T.

Lemma gp_weak B B' e e' x r : gp B e x r -> B <= B' -> e <= e' -> gp B' e' x r.
Proof. intros (D & F & H1 & H2) HB He. repeat split; auto; lra. Qed.
Lemma gpc_weak B B' e e' x r : gpc B e x r -> B <= B' -> e <= e' -> gpc B' e' x r.
Proof. intros [H1 H2] HB He. split; eapply gp_weak; eauto. Qed.

Lemma zmul z a : dbl z -> fin z -> V z = 0 -> dbl a -> fin a -> dbl (fmul z a) /\ fin (fmul z a) /\ V (fmul z a) = 0.
Proof.
  intros Dz Fz Ez Da Fa. pose proof (fmul_rnd z a Dz Da Fz Fa) as R. rewrite Ez, Rmult_0_l in R.
  destruct (big_rnd _ _ R) as (D & F & E); [rewrite Rabs_R0; apply bpow_ge_0|]. rewrite rnd_0 in E. auto.
Qed.

(** a product by an imaginary number: each part is one rounded product *)
Lemma imul T u x M : iunit T u -> dbl (fst x) -> fin (fst x) -> dbl (snd x) -> fin (snd x) ->
  Rabs T * Rabs (V (fst x)) <= M -> Rabs T * Rabs (V (snd x)) <= M -> M <= bpow radix2 1000 ->
  (dbl (fst (cfmul u x)) /\ fin (fst (cfmul u x)) /\ V (fst (cfmul u x)) = - rnd (T * V (snd x))) /\
  (dbl (snd (cfmul u x)) /\ fin (snd (cfmul u x)) /\ V (snd (cfmul u x)) = rnd (T * V (fst x))).
Proof.
  intros ((Dz & Fz & Ez) & Dt & Ft & Et) D1 F1 D2 F2 B1 B2 HM. assert (HB : bpow radix2 1000 <= BIG) by (apply bpow_le; lia).
  rewrite <- Rabs_mult in B1, B2.
  destruct u as [z t], x as [a b]. cbn [fst snd] in *. unfold cfmul. cbn [fst snd].
  destruct (zmul z a Dz Fz Ez D1 F1) as (Da & Fa & Ea). destruct (zmul z b Dz Fz Ez D2 F2) as (Db & Fb & Eb).
  pose proof (fmul_rnd t b Dt D2 Ft F2) as R1. rewrite Et in R1. destruct (big_rnd _ _ R1) as (Dp & Fp & Ep); [lra|].
  pose proof (fmul_rnd t a Dt D1 Ft F1) as R2. rewrite Et in R2. destruct (big_rnd _ _ R2) as (Dq & Fq & Eq); [lra|].
  assert (G : forall w, dbl w -> fin w -> rnd (V w) = V w) by (intros w D F; apply rnd_fmt, fin_fmt; auto).
  assert (Bp : Rabs (V (fmul t b)) < maxb) by (apply fin_max; auto). assert (Bq : Rabs (V (fmul t a)) < maxb) by (apply fin_max; auto).
  split.
  - pose proof (fsub_rnd _ _ Da Dp Fa Fp) as R. rewrite Ea, Rminus_0_l in R. destruct (is_rnd_fin _ _ R) as [F' E']; [rewrite rnd_opp, Rabs_Ropp, G; auto|].
    split; [exact (is_rnd_dbl _ _ R)|]. split; [exact F'|]. rewrite E', rnd_opp, G, Ep; auto.
  - pose proof (fadd_rnd _ _ Db Dq Fb Fq) as R. rewrite Eb, Rplus_0_l in R. destruct (is_rnd_fin _ _ R) as [F' E']; [rewrite G; auto|].
    split; [exact (is_rnd_dbl _ _ R)|]. split; [exact F'|]. rewrite E', G, Eq; auto.
Qed.

Lemma iunit_j : iunit 1 f_1j.
Proof. destruct (fofZ_small 0 ltac:(lia)) as (D0 & F0 & E0). destruct (fofZ_small 1 ltac:(lia)) as (D1 & F1 & E1). repeat split; auto. Qed.
Lemma iunit_mj : iunit (-1) f_m1j.
Proof. destruct (fofZ_small (-1) ltac:(lia)) as (D1 & F1 & E1). unfold iunit, f_m1j. cbn [fst snd]. repeat split; auto. Qed.
Lemma iunit_k k : (Z.abs k < 2 ^ 53)%Z -> iunit (IZR k) (cfmul f_1j (cfre (fofZ k))).
Proof.
  intros Hk. destruct (fofZ_small k Hk) as (D & F & E). destruct (fofZ_small 0 ltac:(lia)) as (D0 & F0 & E0).
  assert (HB : (Rabs (IZR k) <= bpow radix2 1000)). { apply Rle_trans with (bpow radix2 53); [|apply bpow_le; lia]. change (bpow radix2 53) with (IZR (2 ^ 53)). rewrite <- abs_IZR. apply IZR_le. lia. }
  destruct (imul 1 f_1j (cfre (fofZ k)) (Rabs (IZR k)) iunit_j) as [(A1 & A2 & A3) (B1 & B2 & B3)]; cbn [cfre fst snd]; auto.
  - rewrite E, Rabs_R1. lra.
  - rewrite E0, Rabs_R0. pose proof (Rabs_pos (IZR k)). lra.
  - cbn [cfre fst snd] in A3, B3. rewrite E0, Rmult_0_r, rnd_0 in A3. rewrite E, Rmult_1_l in B3. split; [split; [exact A1|]; split; [exact A2|]; rewrite A3; ring|].
    split; [exact B1|]. split; [exact B2|]. rewrite B3. rewrite <- E. apply rnd_fmt, fin_fmt; auto.
Qed.
Lemma iunit_2j : iunit 2 f_2j.
Proof.
  destruct (fofZ_small 2 ltac:(lia)) as (D & F & E). assert (E2 : f_2j = (fofZ 0, fofZ 2)) by (vm_compute; reflexivity). rewrite E2.
  destruct (fofZ_small 0 ltac:(lia)) as (D0 & F0 & E0). repeat split; auto.
Qed.

(** the error of a product by an imaginary number *)
Lemma imul_near T u x c F d : iunit T u -> gpc F d x c -> Rabs T * F <= bpow radix2 900 -> 0 <= F ->
  gpc (Rabs T * F * (1 + uu) + dmin) (Rabs T * d + uu * (Rabs T * F) + dmin) (cfmul u x) (Ci * RtoC T * c)%C.
Proof.
  intros HU ((D1 & F1 & B1 & E1) & (D2 & F2 & B2 & E2)) HM HF. pose proof (Rabs_pos T) as HT. pose proof uu_small as [U0 U1]. pose proof dmin_pos as Dm.
  assert (H9 : bpow radix2 900 <= bpow radix2 1000) by (apply bpow_le; lia).
  assert (M1 : Rabs T * Rabs (V (fst x)) <= Rabs T * F) by (apply Rmult_le_compat_l; auto). assert (M2 : Rabs T * Rabs (V (snd x)) <= Rabs T * F) by (apply Rmult_le_compat_l; auto).
  destruct (imul T u x (Rabs T * F) HU D1 F1 D2 F2 M1 M2 ltac:(lra)) as [(A1 & A2 & A3) (C1 & C2 & C3)].
  assert (P : forall v r, Rabs v <= F -> Rabs (v - r) <= d -> Rabs (rnd (T * v)) <= Rabs T * F * (1 + uu) + dmin /\ Rabs (rnd (T * v) - T * r) <= Rabs T * d + uu * (Rabs T * F) + dmin).
  { intros v r Hv Hr. pose proof (rnd_ok (T * v)) as Q. rewrite Rabs_mult in Q. assert (Hm : Rabs T * Rabs v <= Rabs T * F) by (apply Rmult_le_compat_l; auto).
    assert (Hu : uu * (Rabs T * Rabs v) <= uu * (Rabs T * F)) by (apply Rmult_le_compat_l; lra). split.
    - replace (rnd (T * v)) with ((rnd (T * v) - T * v) + T * v) by ring. eapply Rle_trans; [apply Rabs_triang|]. rewrite Rabs_mult. lra.
    - replace (rnd (T * v) - T * r) with ((rnd (T * v) - T * v) + T * (v - r)) by ring. eapply Rle_trans; [apply Rabs_triang|]. rewrite Rabs_mult.
      assert (Rabs T * Rabs (v - r) <= Rabs T * d) by (apply Rmult_le_compat_l; auto). lra. }
  destruct (P _ _ B1 E1) as [P1 P2]. destruct (P _ _ B2 E2) as [P3 P4].
  assert (Ec : (Ci * RtoC T * c)%C = (- (T * snd c), T * fst c)) by (destruct c; unfold Cmult, Ci, RtoC; cbn [fst snd]; f_equal; ring).
  rewrite Ec. split; cbn [fst snd].
  - split; [exact A1|]. split; [exact A2|]. rewrite A3. split; [rewrite Rabs_Ropp; exact P3|]. replace (- rnd (T * V (snd x)) - - (T * snd c)) with (- (rnd (T * V (snd x)) - T * snd c)) by ring. rewrite Rabs_Ropp. exact P4.
  - split; [exact C1|]. split; [exact C2|]. rewrite C3. split; [exact P1|exact P2].
Qed.
(** times +-1j: exact *)
Lemma imul_unit T u x c F d : iunit T u -> (T = 1 \/ T = -1) -> gpc F d x c -> F <= bpow radix2 1000 -> gpc F d (cfmul u x) (Ci * RtoC T * c)%C.
Proof.
  intros HU HT ((D1 & F1 & B1 & E1) & (D2 & F2 & B2 & E2)) HF. 
  assert (AT : Rabs T = 1) by (destruct HT as [-> | ->]; [apply Rabs_R1|rewrite Rabs_left; lra]).
  destruct (imul T u x F HU D1 F1 D2 F2) as [(A1 & A2 & A3) (C1 & C2 & C3)]; try (rewrite AT; lra); auto.
  assert (G : forall w, dbl w -> fin w -> rnd (T * V w) = T * V w).
  { intros w D Fw. pose proof (rnd_fmt _ (fin_fmt w D Fw)) as Q. destruct HT as [-> | ->]; [now rewrite Rmult_1_l|]. replace (-1 * V w) with (- V w) by ring. now rewrite rnd_opp, Q. }
  rewrite G in A3, C3 by auto.
  assert (Ec : (Ci * RtoC T * c)%C = (- (T * snd c), T * fst c)) by (destruct c; unfold Cmult, Ci, RtoC; cbn [fst snd]; f_equal; ring).
  rewrite Ec. split; cbn [fst snd].
  - split; [exact A1|]. split; [exact A2|]. rewrite A3. split; [rewrite Rabs_Ropp, Rabs_mult, AT; lra|]. replace (- (T * V (snd x)) - - (T * snd c)) with (- (T * (V (snd x) - snd c))) by ring. rewrite Rabs_Ropp, Rabs_mult, AT. lra.
  - split; [exact C1|]. split; [exact C2|]. rewrite C3. split; [rewrite Rabs_mult, AT; lra|]. replace (T * V (fst x) - T * fst c) with (T * (V (fst x) - fst c)) by ring. rewrite Rabs_mult, AT. lra.
Qed.

(** ** divsin_fc *)
Lemma rec_real u m F t d : 0 < u <= / 10 ^ 15 -> 0 < m -> m <= u * F -> 0 < F -> 1 <= t <= 4194304 -> 0 <= d ->
  (2 * F * (1 + u) + m + 2 * F * t) * (1 + u) <= 2 * F * (t + 2) /\
  2 * F * (1 + u) + m + 2 * F * t <= 4 * F * t + F /\
  (2 * d + u * (2 * F) + m) + (2 * u * F * (t * t) + t * d) + u * (2 * F * (1 + u) + m + 2 * F * t) <= 2 * u * F * ((t + 2) * (t + 2)) + (t + 2) * d.
Proof.
  intros [U0 U1] Hm0 Hm HF [T1 T2] Hd. set (w := u * F) in *. assert (W : 0 < w) by (apply Rmult_lt_0_compat; auto).
  assert (W1 : w <= F / 10 ^ 15). { unfold w, Rdiv. rewrite Rmult_comm. apply Rmult_le_compat_l; lra. }
  set (a := F * t). assert (A1 : F <= a) by (unfold a; rewrite <- (Rmult_1_r F) at 1; apply Rmult_le_compat_l; lra).
  set (wt := w * t). assert (A2 : w <= wt) by (unfold wt; rewrite <- (Rmult_1_r w) at 1; apply Rmult_le_compat_l; lra).
  assert (A3 : wt <= F / 1000). { unfold wt. apply Rle_trans with (w * 4194304); [apply Rmult_le_compat_l; lra|]. lra. }
  assert (A4 : u * w <= w / 1000). { unfold Rdiv. rewrite Rmult_comm. apply Rmult_le_compat_l; lra. }
  assert (A5 : u * m <= w / 1000). { apply Rle_trans with (u * w); [apply Rmult_le_compat_l; lra|lra]. }
  set (wt2 := w * (t * t)).
  split; [|split].
  - replace ((2 * F * (1 + u) + m + 2 * F * t) * (1 + u)) with (2 * F + 2 * w + m + 2 * a + 2 * w + 2 * (u * w) + u * m + 2 * wt) by (unfold w, a, wt; ring_simplify; unfold w; ring).
    replace (2 * F * (t + 2)) with (2 * a + 4 * F) by (unfold a; ring). lra.
  - replace (2 * F * (1 + u) + m + 2 * F * t) with (2 * F + 2 * w + m + 2 * a) by (unfold w, a; ring). replace (4 * F * t + F) with (4 * a + F) by (unfold a; ring). lra.
  - replace (2 * d + u * (2 * F) + m + (2 * u * F * (t * t) + t * d) + u * (2 * F * (1 + u) + m + 2 * F * t)) with (2 * d + 2 * w + m + 2 * wt2 + t * d + 2 * w + 2 * (u * w) + u * m + 2 * wt) by (unfold wt2, wt, w; ring).
    replace (2 * u * F * ((t + 2) * (t + 2)) + (t + 2) * d) with (2 * wt2 + 8 * wt + 8 * w + t * d + 2 * d) by (unfold wt2, wt, w; ring). lra.
Qed.

Definition rb (F t : R) : R := 2 * F * t.
Definition re (F d t : R) : R := 2 * uu * F * (t * t) + t * d.

Lemma rec_part F d t x y X Y B0 e0 : dmin <= uu * F -> 0 < F <= bpow radix2 900 -> 1 <= t <= 4194304 -> 0 <= d ->
  B0 = 2 * F * (1 + uu) + dmin -> e0 = 2 * d + uu * (2 * F) + dmin ->
  gp B0 e0 x X -> gp (rb F t) (re F d t) y Y -> gp (rb F (t + 2)) (re F d (t + 2)) (fadd x y) (X + Y).
Proof.
  intros Hm HF Ht Hd -> -> (Dx & Fx & Bx & Ex) (Dy & Fy & By & Ey). pose proof uu_small as U. pose proof dmin_pos as Dm.
  destruct (rec_real uu dmin F t d U Dm Hm (proj1 HF) Ht Hd) as (R1 & R2 & R3). unfold rb, re in *.
  assert (S : Rabs (V x + V y) <= 2 * F * (1 + uu) + dmin + 2 * F * t) by (eapply Rle_trans; [apply Rabs_triang|lra]).
  assert (HB : 4 * F * t + F <= BIG).
  { apply Rle_trans with (bpow radix2 900 * bpow radix2 25); [|rewrite <- bpow_plus; apply bpow_le; lia].
    change (bpow radix2 25) with 33554432. assert (F * t <= bpow radix2 900 * 4194304) by (apply Rmult_le_compat; lra). lra. }
  pose proof (fadd_rnd x y Dx Dy Fx Fy) as R. destruct (big_rnd _ _ R) as (D & F' & E); [lra|].
  pose proof (rnd_add_err x y Dx Fx Dy Fy) as Q. rewrite <- E in Q. set (s := V x + V y) in *.
  assert (Q2 : uu * Rabs s <= uu * (2 * F * (1 + uu) + dmin + 2 * F * t)) by (apply Rmult_le_compat_l; lra).
  split; [exact D|]. split; [exact F'|]. split.
  - replace (V (fadd x y)) with ((V (fadd x y) - s) + s) by ring. eapply Rle_trans; [apply Rabs_triang|]. lra.
  - replace (V (fadd x y) - (X + Y)) with ((V (fadd x y) - s) + ((V x - X) + (V y - Y))) by (unfold s; ring).
    eapply Rle_trans; [apply Rabs_triang|]. eapply Rle_trans; [apply Rplus_le_compat_l, Rabs_triang|]. lra.
Qed.
Lemma rec_entry F d t x y X Y : dmin <= uu * F -> 0 < F <= bpow radix2 890 -> 1 <= t <= 4194304 -> 0 <= d ->
  gpc F d x X -> gpc (rb F t) (re F d t) y Y -> gpc (rb F (t + 2)) (re F d (t + 2)) (cfadd (cfmul f_2j x) y) (RtoC 2 * Ci * X + Y)%C.
Proof.
  intros Hm HF Ht Hd Hx [Hy1 Hy2]. assert (A2 : Rabs 2 = 2) by (apply Rabs_pos_eq; lra).
  assert (B9 : bpow radix2 900 = 1024 * bpow radix2 890). { change 900%Z with (10 + 890)%Z. rewrite bpow_plus. reflexivity. }
  destruct (imul_near 2 f_2j x X F d iunit_2j Hx) as [H1 H2]; rewrite ?A2; try lra. rewrite A2 in H1, H2.
  replace (RtoC 2 * Ci * X + Y)%C with (Ci * RtoC 2 * X + Y)%C by ring.
  unfold cfadd. split; cbn [fst snd Cplus].
  - eapply rec_part; [exact Hm| |exact Ht|exact Hd|reflexivity|reflexivity| |exact Hy1]; [lra|exact H1].
  - eapply rec_part; [exact Hm| |exact Ht|exact Hd|reflexivity|reflexivity| |exact Hy2]; [lra|exact H2].
Qed.
(** the first row that is written *)
Lemma rec_first F d x X : dmin <= uu * F -> 0 < F <= bpow radix2 890 -> 0 <= d ->
  gpc F d x X -> gpc (rb F 2) (re F d 2) (cfmul f_2j x) (RtoC 2 * Ci * X)%C.
Proof.
  intros Hm HF Hd Hx. assert (A2 : Rabs 2 = 2) by (apply Rabs_pos_eq; lra). pose proof uu_small as [U0 U1].
  assert (B9 : bpow radix2 900 = 1024 * bpow radix2 890). { change 900%Z with (10 + 890)%Z. rewrite bpow_plus. reflexivity. }
  pose proof (imul_near 2 f_2j x X F d iunit_2j Hx) as H. rewrite A2 in H. replace (RtoC 2 * Ci * X)%C with (Ci * RtoC 2 * X)%C by ring.
  assert (W1 : uu * F <= F / 10 ^ 15). { unfold Rdiv. rewrite Rmult_comm. apply Rmult_le_compat_l; lra. }
  specialize (H ltac:(lra) ltac:(lra)). eapply gpc_weak; [exact H| |]; unfold rb, re; clear H B9 Hx; set (w := uu * F) in *; [replace (2 * F * (1 + uu) + dmin) with (2 * F + 2 * w + dmin) by (unfold w; ring)|replace (uu * (2 * F)) with (2 * w) by (unfold w; ring); replace (2 * uu * F * (2 * 2)) with (8 * w) by (unfold w; ring)].
  - clearbody w. lra.
  - assert (0 < w) by (apply Rmult_lt_0_compat; lra). clearbody w. lra.
Qed.

(** two loops side by side *)
Lemma mfor_both {A B} (R : A -> B -> Prop) l (f : Z -> A -> res A) (g : Z -> B -> res B) :
  (forall i a b, In i l -> R a b -> exists a' b', f i a = Ok a' /\ g i b = Ok b' /\ R a' b') ->
  forall a b, R a b -> exists a' b', mfor l f a = Ok a' /\ mfor l g b = Ok b' /\ R a' b'.
Proof.
  induction l as [|i l IH]; intros H a b HR.
  - exists a, b. auto.
  - cbn [mfor]. destruct (H i a b (or_introl eq_refl) HR) as (a1 & b1 & E1 & E2 & R1). rewrite E1, E2. cbn [bind].
    apply IH; auto. intros j a0 b0 Hj. apply H. now right.
Qed.

Open Scope Z_scope.
Lemma f_row_get_eq nr nc f i : - nr <= i < nr -> f_row_get nr nc (fmake nr nc f) i = Ok (vmake nc (fun q => f (i mod nr) q)).
Proof.
  intros Hi. unfold f_row_get. rewrite py_index_mod by lia. cbn [bind]. f_equal. apply vmake_ext. intros q Hq. apply fget_fmake; auto. apply Z.mod_pos_bound. lia.
Qed.
Lemma f_row_set_eq nr nc f i h : 0 <= nc -> - nr <= i < nr ->
  f_row_set nr nc (fmake nr nc f) i (vmake nc h) = Ok (fmake nr nc (fun p q => if p =? i mod nr then h q else f p q)).
Proof.
  intros Hc Hi. unfold f_row_set. rewrite py_index_mod by lia. cbn [bind]. f_equal. apply fmake_ext; try lia. intros p q Hp Hq.
  rewrite vget_vmake by auto. now rewrite fget_fmake by auto.
Qed.
Lemma freq_mod L i : - L <= i < L -> freq L (i mod (2 * L)) = i.
Proof.
  intros H. unfold freq. destruct (Z_lt_le_dec i 0).
  - rewrite <- (Z.mod_unique i (2 * L) (-1) (i + 2 * L)) by lia. destruct (Z.ltb_spec (i + 2 * L) L); lia.
  - rewrite Z.mod_small by lia. destruct (Z.ltb_spec i L); lia.
Qed.

Lemma divsin_sim L nc f fx F d : 2 <= L <= 2 ^ 20 -> 0 <= nc -> (dmin <= uu * F)%R -> (0 < F <= bpow radix2 890)%R -> (0 <= d)%R ->
  (forall p q, 0 <= p < 2 * L -> 0 <= q < nc -> gpc F d (f p q) (fx p q)) ->
  exists g G, f_divsin_fc (2 * L) nc (fmake (2 * L) nc f) = Ok (fmake (2 * L) nc g) /\ divsin_fc (mmake RN (2 * L) nc fx) = Ok (mmake RN (2 * L) nc G) /\
    forall p q, 0 <= p < 2 * L -> 0 <= q < nc -> let t := IZR (L - freq L p) in gpc (rb F t) (re F d t) (g p q) (G p q).
Proof.
  intros HL Hc Hm HF Hd H. unfold f_divsin_fc, divsin_fc.
  change (mt_nr RN (mmake RN (2 * L) nc fx)) with (2 * L). change (mt_nc RN (mmake RN (2 * L) nc fx)) with nc.
  replace (2 * L / 2) with L by lia. unfold np_zeros2. destruct (Z.ltb_spec (2 * L) 0); [lia|]. destruct (Z.ltb_spec nc 0); [lia|]. cbn [orb bind].
  rewrite f_row_get_eq, row_get_mmake by lia. cbn [bind]. rewrite !map_vmake. rewrite f_row_set_eq, row_set_mmake by lia. cbn [bind].
  set (R := fun (g : list cf) (G : mat RN) => exists h H, g = fmake (2 * L) nc h /\ G = mmake RN (2 * L) nc H /\
    forall p q, 0 <= p < 2 * L -> 0 <= q < nc -> gpc (rb F (IZR (L - freq L p))) (re F d (IZR (L - freq L p))) (h p q) (H p q)).
  assert (MR : forall i, 0 <= i mod (2 * L) < 2 * L) by (intros i; apply Z.mod_pos_bound; lia).
  assert (FT : forall p, 0 <= p < 2 * L -> 1 <= L - freq L p <= 2 * L) by (intros p Hp; unfold freq; destruct (Z.ltb_spec p L); lia).
  assert (UF : (0 <= uu * F)%R) by (pose proof dmin_pos; lra).
  match goal with |- context [mfor _ _ (fmake ?n1 ?n2 ?h0)] => match goal with |- context [mfor _ _ (mmake RN n1 n2 ?H0)] => assert (R0 : R (fmake n1 n2 h0) (mmake RN n1 n2 H0)) end end.
  { eexists _, _. split; [reflexivity|]. split; [reflexivity|]. intros p q Hp Hq. cbn beta. pose proof (FT p Hp) as Ht.
    destruct (Z.eqb_spec p ((L - 2) mod (2 * L))) as [->|Hn].
    - rewrite freq_mod by lia. replace (L - (L - 2)) with 2 by lia. apply rec_first; auto.
    - assert (T1 : (1 <= IZR (L - freq L p))%R) by (apply IZR_le; lia). set (t := IZR (L - freq L p)) in *. clearbody t.
      destruct (fofZ_small 0) as (D0 & F0 & E0); [lia|].
      assert (P0 : gp (rb F t) (re F d t) (fofZ 0) 0).
      { split; [exact D0|]. split; [exact F0|]. rewrite E0, Rminus_0_r, Rabs_R0. unfold rb, re. split; [apply Rmult_le_pos; lra|].
        assert (0 <= uu * F * (t * t))%R by (apply Rmult_le_pos; [lra|apply Rmult_le_pos; lra]). assert (0 <= t * d)%R by (apply Rmult_le_pos; lra). lra. }
      split; exact P0. }
  match goal with |- context [mfor ?l ?ff (fmake ?n1 ?n2 ?h0)] => match goal with |- context [mfor l ?gg (mmake RN n1 n2 ?H0)] =>
    destruct (fun X => mfor_both R l ff gg X (fmake n1 n2 h0) (mmake RN n1 n2 H0)) as (a' & b' & E1 & E2 & (h & G & -> & -> & HR)); [|exact R0|] end end.
  - intros k a b Hk (h & G & -> & -> & HR). apply In_zrange_down' in Hk.
    rewrite !f_row_get_eq by lia. rewrite !row_get_mmake by lia. cbn [bind]. rewrite !zip_with_vmake. rewrite f_row_set_eq, row_set_mmake by lia.
    eexists _, _. split; [reflexivity|]. split; [reflexivity|]. eexists _, _. split; [reflexivity|]. split; [reflexivity|].
    intros p q Hp Hq. cbn beta. destruct (Z.eqb_spec p ((k - 1) mod (2 * L))) as [->|Hn]; [|apply HR; auto].
    rewrite freq_mod by lia. specialize (HR ((k + 1) mod (2 * L)) q (MR _) Hq). rewrite freq_mod in HR by lia.
    replace (IZR (L - (k - 1))) with (IZR (L - (k + 1)) + 2)%R by (rewrite <- (plus_IZR _ 2); f_equal; lia).
    apply rec_entry; auto. split; apply IZR_le; lia.
  - rewrite E1, E2. exists h, G. split; [reflexivity|]. split; [reflexivity|]. exact HR.
Qed.

(** ** dtheta_fc, dphi_fc and sin_fc *)
Open Scope R_scope.
Lemma freq_near k K x c F d : (Z.abs k <= K)%Z -> (1 <= K <= 2 ^ 20)%Z -> gpc F d x c -> dmin <= uu * F -> 0 < F <= bpow radix2 860 -> 0 <= d ->
  gpc ((IZR K + 1) * F) (IZR K * d + uu * ((IZR K + 1) * F)) (cfmul (cfmul f_1j (cfre (fofZ k))) x) (Ci * RtoC (IZR k) * c)%C.
Proof.
  intros Hk HK Hx Hm HF Hd. pose proof uu_small as [U0 U1]. pose proof dmin_pos as Dm.
  assert (AK : Rabs (IZR k) <= IZR K) by (rewrite <- abs_IZR; apply IZR_le; lia). pose proof (Rabs_pos (IZR k)) as P0.
  assert (K1 : 1 <= IZR K <= 1048576) by (split; apply IZR_le; lia).
  assert (B9 : bpow radix2 900 = 1099511627776 * bpow radix2 860). { change 900%Z with (40 + 860)%Z. rewrite bpow_plus. reflexivity. }
  pose proof (bpow_gt_0 radix2 860) as B8.
  assert (KF : Rabs (IZR k) * F <= IZR K * F) by (apply Rmult_le_compat_r; lra). assert (KF2 : IZR K * F <= 1048576 * F) by (apply Rmult_le_compat_r; lra).
  assert (KF0 : 0 <= Rabs (IZR k) * F) by (apply Rmult_le_pos; lra).
  pose proof (imul_near (IZR k) _ x c F d (iunit_k k ltac:(lia)) Hx ltac:(lra) ltac:(lra)) as H.
  assert (Kd : Rabs (IZR k) * d <= IZR K * d) by (apply Rmult_le_compat_r; lra).
  assert (W1 : uu * (Rabs (IZR k) * F) <= uu * (IZR K * F)) by (apply Rmult_le_compat_l; lra).
  assert (W2 : uu * (IZR K * F) <= / 10 ^ 15 * (1048576 * F)) by (apply Rmult_le_compat; try lra; apply Rmult_le_pos; lra).
  assert (W3 : uu * F <= / 10 ^ 15 * F) by (apply Rmult_le_compat_r; lra).
  set (a := Rabs (IZR k) * F) in *. set (b := IZR K * F) in *. set (w := uu * a) in *. set (w2 := uu * b) in *. set (w3 := uu * F) in *.
  eapply gpc_weak; [exact H| |].
  - replace (a * (1 + uu) + dmin) with (a + w + dmin) by (unfold w; ring). replace ((IZR K + 1) * F) with (b + F) by (unfold b; ring). clear H B9 Hx. clearbody a b w w2 w3. lra.
  - replace (uu * ((IZR K + 1) * F)) with (w2 + w3) by (unfold w2, w3, b; ring). clear H B9 Hx. clearbody a b w w2 w3. lra.
Qed.

Lemma iunit_inv2i : iunit (-1 / 2) f_inv2i.
Proof.
  assert (E : f_inv2i = (S754_zero false, S754_finite true 4503599627370496 (-53))) by (vm_compute; reflexivity). rewrite E. unfold iunit. cbn [fst snd].
  split; [repeat split|]. split; [vm_compute; reflexivity|]. split; [reflexivity|].
  cbn [SF2R cond_Zopp]. unfold F2R, Fnum, Fexp. change (bpow radix2 (-53)) with (/ IZR (2 ^ 53)). change (2 ^ 53)%Z with 9007199254740992%Z. change (Z.neg 4503599627370496) with (- (4503599627370496))%Z. rewrite opp_IZR. field.
Qed.
Lemma gp_sub F1 d1 F2 d2 x y X Y : F1 + F2 <= bpow radix2 1000 -> gp F1 d1 x X -> gp F2 d2 y Y ->
  gp ((F1 + F2) * (1 + uu)) (d1 + d2 + uu * (F1 + F2)) (fsub x y) (X - Y).
Proof.
  intros HF (Dx & Fx & Bx & Ex) (Dy & Fy & By & Ey). pose proof uu_small as [U0 U1]. assert (HB : bpow radix2 1000 <= BIG) by (apply bpow_le; lia).
  assert (S : Rabs (V x - V y) <= F1 + F2) by (unfold Rminus; eapply Rle_trans; [apply Rabs_triang|rewrite Rabs_Ropp; lra]).
  pose proof (fsub_rnd x y Dx Dy Fx Fy) as R. destruct (big_rnd _ _ R) as (D & F' & E); [lra|].
  pose proof (rnd_sub_err x y Dx Fx Dy Fy) as Q. rewrite <- E in Q. set (s := V x - V y) in *.
  assert (Q2 : uu * Rabs s <= uu * (F1 + F2)) by (apply Rmult_le_compat_l; lra).
  split; [exact D|]. split; [exact F'|]. split.
  - replace (V (fsub x y)) with ((V (fsub x y) - s) + s) by ring. eapply Rle_trans; [apply Rabs_triang|]. lra.
  - replace (V (fsub x y) - (X - Y)) with ((V (fsub x y) - s) + ((V x - X) + - (V y - Y))) by (unfold s; ring).
    eapply Rle_trans; [apply Rabs_triang|]. eapply Rle_trans; [apply Rplus_le_compat_l, Rabs_triang|]. rewrite Rabs_Ropp. lra.
Qed.
Lemma gpc_sub F1 d1 F2 d2 x y X Y : F1 + F2 <= bpow radix2 1000 -> gpc F1 d1 x X -> gpc F2 d2 y Y ->
  gpc ((F1 + F2) * (1 + uu)) (d1 + d2 + uu * (F1 + F2)) (cfsubk x y) (X - Y)%C.
Proof. intros HF [X1 X2] [Y1 Y2]. split; cbn [cfsubk fst snd Cminus Cplus Copp]; apply gp_sub; auto. Qed.

Lemma sin_entry F d x y X Y : dmin <= uu * F -> 0 < F <= bpow radix2 860 -> 0 <= d -> gpc F d x X -> gpc F d y Y ->
  gpc (2 * F) (d + 4 * uu * F) (cfmul f_inv2i (cfsubk x y)) (RtoC 1 / (RtoC 2 * Ci) * (X - Y))%C.
Proof.
  intros Hm HF Hd Hx Hy. pose proof uu_small as [U0 U1]. pose proof dmin_pos as Dm.
  assert (B9 : bpow radix2 900 = 1099511627776 * bpow radix2 860). { change 900%Z with (40 + 860)%Z. rewrite bpow_plus. reflexivity. }
  assert (B10 : bpow radix2 900 <= bpow radix2 1000) by (apply bpow_le; lia). pose proof (bpow_gt_0 radix2 860) as B8.
  pose proof (gpc_sub F d F d x y X Y ltac:(lra) Hx Hy) as H. assert (W : uu * F <= / 10 ^ 15 * F) by (apply Rmult_le_compat_r; lra).
  assert (AT : Rabs (-1 / 2) = 1 / 2) by (rewrite Rabs_left; lra).
  set (w := uu * F) in *. assert (W0 : 0 < w) by (apply Rmult_lt_0_compat; lra). assert (WW : uu * w <= w). { replace w with (1 * w) at 2 by ring. apply Rmult_le_compat_r; lra. }
  assert (G : gpc (2 * F + 2 * w) (2 * d + 2 * w) (cfsubk x y) (X - Y)%C) by (eapply gpc_weak; [exact H| |]; unfold w; apply Req_le; ring).
  replace (RtoC 1 / (RtoC 2 * Ci) * (X - Y))%C with (Ci * RtoC (-1 / 2) * (X - Y))%C.
  2:{ assert (E : (RtoC 1 / (RtoC 2 * Ci))%C = (Ci * RtoC (-1 / 2))%C) by (apply injective_projections; cbn; field). now rewrite E. }
  assert (P1 : Rabs (-1 / 2) * (2 * F + 2 * w) <= bpow radix2 900). { rewrite AT. clear H G. clearbody w. lra. }
  assert (P2 : 0 <= 2 * F + 2 * w) by lra.
  pose proof (imul_near (-1 / 2) f_inv2i _ _ _ _ iunit_inv2i G P1 P2) as K. rewrite AT in K.
  eapply gpc_weak; [exact K| |].
  - replace (1 / 2 * (2 * F + 2 * w) * (1 + uu) + dmin) with (F + w + w + uu * w + dmin) by (unfold w; field). clear H G K P1. clearbody w. lra.
  - replace (1 / 2 * (2 * d + 2 * w) + uu * (1 / 2 * (2 * F + 2 * w)) + dmin) with (d + w + (w + uu * w) + dmin) by (unfold w; field). replace (4 * uu * F) with (4 * w) by (unfold w; ring). clear H G K P1. clearbody w. lra.
Qed.

Open Scope Z_scope.
Lemma freq_abs B p : 0 <= p < 2 * B -> Z.abs (freq B p) <= B.
Proof. unfold freq. destruct (Z.ltb_spec p B); lia. Qed.
Lemma dtheta_sim L nc f fx F d : 1 <= L <= 2 ^ 20 -> 0 <= nc -> (dmin <= uu * F)%R -> (0 < F <= bpow radix2 860)%R -> (0 <= d)%R ->
  (forall p q, 0 <= p < 2 * L -> 0 <= q < nc -> gpc F d (f p q) (fx p q)) ->
  exists g G, f_dtheta_fc (2 * L) nc (fmake (2 * L) nc f) = Ok (fmake (2 * L) nc g) /\ dtheta_fc (mmake RN (2 * L) nc fx) = Ok (mmake RN (2 * L) nc G) /\
    forall p q, 0 <= p < 2 * L -> 0 <= q < nc -> gpc ((IZR L + 1) * F) (IZR L * d + uu * ((IZR L + 1) * F)) (g p q) (G p q).
Proof.
  intros HL Hc Hm HF Hd H. unfold f_dtheta_fc, dtheta_fc. change (mt_nr RN (mmake RN (2 * L) nc fx)) with (2 * L). change (mt_nc RN (mmake RN (2 * L) nc fx)) with nc.
  replace (2 * L / 2) with L by lia. rewrite Z.eqb_refl. cbn [negb andb]. eexists _, _. split; [reflexivity|]. split; [reflexivity|].
  intros p q Hp Hq. cbn beta. rewrite fget_fmake, cget_mmake by lia. apply freq_near; auto. now apply freq_abs.
Qed.
Lemma dphi_sim nr B f fx F d : 1 <= B <= 2 ^ 20 -> 0 <= nr -> (dmin <= uu * F)%R -> (0 < F <= bpow radix2 860)%R -> (0 <= d)%R ->
  (forall p q, 0 <= p < nr -> 0 <= q < 2 * B -> gpc F d (f p q) (fx p q)) ->
  exists g G, f_dphi_fc nr (2 * B) (fmake nr (2 * B) f) = Ok (fmake nr (2 * B) g) /\ dphi_fc (mmake RN nr (2 * B) fx) = Ok (mmake RN nr (2 * B) G) /\
    forall p q, 0 <= p < nr -> 0 <= q < 2 * B -> gpc ((IZR B + 1) * F) (IZR B * d + uu * ((IZR B + 1) * F)) (g p q) (G p q).
Proof.
  intros HL Hc Hm HF Hd H. unfold f_dphi_fc, dphi_fc. change (mt_nr RN (mmake RN nr (2 * B) fx)) with nr. change (mt_nc RN (mmake RN nr (2 * B) fx)) with (2 * B).
  replace (2 * B / 2) with B by lia. rewrite Z.eqb_refl. cbn [negb andb]. eexists _, _. split; [reflexivity|]. split; [reflexivity|].
  intros p q Hp Hq. cbn beta. rewrite fget_fmake, cget_mmake by lia. apply freq_near; auto. now apply freq_abs.
Qed.
Lemma sin_sim L nc f fx F d : 2 <= L -> 0 <= nc -> (dmin <= uu * F)%R -> (0 < F <= bpow radix2 860)%R -> (0 <= d)%R ->
  (forall p q, 0 <= p < 2 * L -> 0 <= q < nc -> gpc F d (f p q) (fx p q)) ->
  exists g G, f_sin_fc (2 * L) nc (fmake (2 * L) nc f) = Ok (fmake (2 * L) nc g) /\ sin_fc (mmake RN (2 * L) nc fx) = Ok (mmake RN (2 * L) nc G) /\
    forall p q, 0 <= p < 2 * L -> 0 <= q < nc -> gpc (2 * F) (d + 4 * uu * F) (g p q) (G p q).
Proof.
  intros HL Hc Hm HF Hd H. unfold f_sin_fc, sin_fc, row_zero. change (mt_nr RN (mmake RN (2 * L) nc fx)) with (2 * L). change (mt_nc RN (mmake RN (2 * L) nc fx)) with nc.
  replace (2 * L / 2) with L by lia. rewrite !f_row_zero_eq by lia. cbn [bind]. rewrite !f_row_zero_eq by lia. cbn [bind].
  rewrite !py_index_mod by lia. cbn [bind]. rewrite !Z.mod_small by lia.
  match goal with |- context [bind (py_index (mt_nr RN (mmake RN ?a ?b ?h)) ?i)] => change (mt_nr RN (mmake RN a b h)) with a; change (mt_nc RN (mmake RN a b h)) with b end.
  rewrite !py_index_mod by lia. cbn [bind]. rewrite !Z.mod_small by lia.
  eexists _, _. split; [reflexivity|]. split; [reflexivity|]. intros p q Hp Hq. cbn beta.
  destruct (fofZ_small 0) as (D0 & F0 & E0); [lia|].
  assert (Z0 : gpc F d cf0 (RtoC 0)).
  { assert (P0 : gp F d (fofZ 0) 0) by (split; [exact D0|]; split; [exact F0|]; rewrite E0, Rminus_0_r, Rabs_R0; lra). split; exact P0. }
  assert (HH : forall u v, 0 <= u < 2 * L -> 0 <= v < nc -> gpc F d
     (fget nc (fmake (2 * L) nc (fun p q => if p =? L + 1 then cf0 else fget nc (fmake (2 * L) nc (fun p q => if p =? L - 1 then cf0 else fget nc (fmake (2 * L) nc f) p q)) p q)) u v)
     (cget (mmake RN (2 * L) nc (fun p q => if p =? L + 1 then RtoC 0 else cget (mmake RN (2 * L) nc (fun p q => if p =? L - 1 then RtoC 0 else cget (mmake RN (2 * L) nc fx) p q)) p q)) u v)).
  { intros u v Hu Hv. rewrite !fget_fmake, !cget_mmake by lia. destruct (u =? L + 1); [exact Z0|]. destruct (u =? L - 1); [exact Z0|]. now apply H. }
  apply sin_entry; auto.
  - destruct (Z.eqb_spec p 0); apply HH; lia.
  - destruct (Z.eqb_spec p (2 * L - 1)); apply HH; lia.
Qed.

(** ** L_fc and sinLdot_fc *)
Lemma ew1_mmake g nr nc f : 0 <= nr -> 0 <= nc -> ew1 g (mmake RN nr nc f) = mmake RN nr nc (fun p q => g (f p q)).
Proof.
  intros Hr Hc. unfold ew1. change (mt_nr RN (mmake RN nr nc f)) with nr. change (mt_nc RN (mmake RN nr nc f)) with nc.
  apply mmake_ext; auto. intros p q Hp Hq. now rewrite cget_mmake by auto.
Qed.
Lemma L_bounds B L F t : (1 <= IZR B <= 1048576)%R -> (1 <= IZR L <= 1048576)%R -> (0 < F <= bpow radix2 860)%R -> (0 <= t <= 4194304)%R ->
  (rb ((IZR B + 1) * F) t <= bpow radix2 1000 /\ (IZR L + 1) * F <= bpow radix2 1000 /\ (IZR B + 1) * F <= bpow radix2 890)%R.
Proof.
  intros HB HL HF Ht. pose proof (bpow_gt_0 radix2 860) as B8.
  assert (B9 : (bpow radix2 890 = 1073741824 * bpow radix2 860)%R). { change 890 with (30 + 860). rewrite bpow_plus. reflexivity. }
  assert (B10 : (bpow radix2 1000 = bpow radix2 110 * bpow radix2 890)%R). { change 1000 with (110 + 890). rewrite bpow_plus. reflexivity. }
  assert (B11 : (16777216 <= bpow radix2 110)%R) by (change 16777216%R with (bpow radix2 24); apply bpow_le; lia).
  assert (A : ((IZR B + 1) * F <= 1048577 * bpow radix2 860)%R) by (apply Rmult_le_compat; lra).
  assert (A' : ((IZR L + 1) * F <= 1048577 * bpow radix2 860)%R) by (apply Rmult_le_compat; lra).
  assert (A0 : (0 <= (IZR B + 1) * F)%R) by (apply Rmult_le_pos; lra).
  assert (C : (16777216 * bpow radix2 890 <= bpow radix2 1000)%R) by (rewrite B10; apply Rmult_le_compat_r; lra).
  split; [|lra]. unfold rb. assert (2 * ((IZR B + 1) * F) * t <= 2 * ((IZR B + 1) * F) * 4194304)%R by (apply Rmult_le_compat_l; lra). lra.
Qed.

Lemma L_sim L B f fx F d : 2 <= L <= 2 ^ 20 -> 1 <= B <= 2 ^ 20 -> (dmin <= uu * F)%R -> (0 < F <= bpow radix2 860)%R -> (0 <= d)%R ->
  (forall p q, 0 <= p < 2 * L -> 0 <= q < 2 * B -> gpc F d (f p q) (fx p q)) ->
  let F1 := ((IZR B + 1) * F)%R in
  exists g1 g2 G1 G2, f_L_fc (2 * L) (2 * B) (fmake (2 * L) (2 * B) f) = Ok (fmake (2 * L) (2 * B) g1, fmake (2 * L) (2 * B) g2) /\
    L_fc (mmake RN (2 * L) (2 * B) fx) = Ok (mmake RN (2 * L) (2 * B) G1, mmake RN (2 * L) (2 * B) G2) /\
    forall p q, 0 <= p < 2 * L -> 0 <= q < 2 * B -> let t := IZR (L - freq L p) in
      gpc (rb F1 t) (re F1 (IZR B * d + uu * F1) t) (g1 p q) (G1 p q) /\
      gpc ((IZR L + 1) * F) (IZR L * d + uu * ((IZR L + 1) * F)) (g2 p q) (G2 p q).
Proof.
  intros HL HB Hm HF Hd H F1. assert (LB : (1 <= IZR B <= 1048576)%R) by (split; apply IZR_le; lia). assert (LL : (1 <= IZR L <= 1048576)%R) by (split; apply IZR_le; lia).
  pose proof uu_small as [U0 U1].
  assert (F1b : (F <= F1)%R). { unfold F1. rewrite <- (Rmult_1_l F) at 1. apply Rmult_le_compat_r; lra. }
  assert (Hm1 : (dmin <= uu * F1)%R) by (assert (uu * F <= uu * F1)%R by (apply Rmult_le_compat_l; lra); lra).
  assert (d1 : (0 <= IZR B * d + uu * F1)%R) by (assert (0 <= IZR B * d)%R by (apply Rmult_le_pos; lra); assert (0 <= uu * F1)%R by (apply Rmult_le_pos; lra); lra).
  unfold f_L_fc, L_fc.
  destruct (dphi_sim (2 * L) B f fx F d HB ltac:(lia) Hm HF Hd H) as (h1 & H1 & E1 & E1' & N1). rewrite E1, E1'. cbn [bind].
  destruct (L_bounds B L F 0 LB LL HF ltac:(lra)) as (_ & _ & C3).
  destruct (divsin_sim L (2 * B) h1 H1 F1 (IZR B * d + uu * F1)%R HL ltac:(lia) Hm1 ltac:(split; [lra|exact C3]) d1 N1) as (h2 & H2 & E2 & E2' & N2). rewrite E2, E2'. cbn [bind].
  destruct (dtheta_sim L (2 * B) f fx F d ltac:(lia) ltac:(lia) Hm HF Hd H) as (h3 & H3 & E3 & E3' & N3). rewrite E3, E3'. cbn [bind].
  rewrite !ew1_mmake by lia. eexists _, _, _, _. split; [reflexivity|]. split; [reflexivity|]. intros p q Hp Hq. cbv zeta beta. rewrite !fget_fmake by lia.
  assert (Ht : (0 <= IZR (L - freq L p) <= 4194304)%R) by (split; apply IZR_le; unfold freq; destruct (Z.ltb_spec p L); lia).
  destruct (L_bounds B L F _ LB LL HF Ht) as (C1 & C2 & _). fold F1 in C1. split.
  - replace (Ci * H2 p q)%C with (Ci * RtoC 1 * H2 p q)%C by ring. apply imul_unit; [exact iunit_j|left; reflexivity|apply (N2 p q Hp Hq)|exact C1].
  - replace (- Ci * H3 p q)%C with (Ci * RtoC (-1) * H3 p q)%C by (replace (RtoC (-1)) with (- RtoC 1)%C by (apply injective_projections; cbn; ring); ring).
    apply imul_unit; [exact iunit_mj|right; reflexivity|apply (N3 p q Hp Hq)|exact C2].
Qed.

Lemma sinLdot_sim L B ft ftx fp fpx F d : 2 <= L <= 2 ^ 20 -> 1 <= B <= 2 ^ 20 -> (dmin <= uu * F)%R -> (0 < F <= bpow radix2 850)%R -> (0 <= d)%R ->
  (forall p q, 0 <= p < 2 * L -> 0 <= q < 2 * B -> gpc F d (ft p q) (ftx p q)) ->
  (forall p q, 0 <= p < 2 * L -> 0 <= q < 2 * B -> gpc F d (fp p q) (fpx p q)) ->
  let F1 := ((IZR B + 1) * F)%R in let F3 := ((IZR L + 1) * (2 * F))%R in
  exists g G, f_sinLdot_fc (2 * L) (2 * B) (fmake (2 * L) (2 * B) ft) (fmake (2 * L) (2 * B) fp) = Ok (fmake (2 * L) (2 * B) g) /\
    sinLdot_fc (mmake RN (2 * L) (2 * B) ftx) (mmake RN (2 * L) (2 * B) fpx) = Ok (mmake RN (2 * L) (2 * B) G) /\
    forall p q, 0 <= p < 2 * L -> 0 <= q < 2 * B ->
      gpc ((F1 + F3) * (1 + uu)) ((IZR B * d + uu * F1) + (IZR L * (d + 4 * uu * F) + uu * F3) + uu * (F1 + F3)) (g p q) (G p q).
Proof.
  intros HL HB Hm HF Hd Ht Hp F1 F3. assert (LB : (1 <= IZR B <= 1048576)%R) by (split; apply IZR_le; lia). assert (LL : (1 <= IZR L <= 1048576)%R) by (split; apply IZR_le; lia).
  pose proof uu_small as [U0 U1]. pose proof (bpow_gt_0 radix2 850) as B8.
  assert (B9 : (bpow radix2 860 = 1024 * bpow radix2 850)%R). { change 860 with (10 + 850). rewrite bpow_plus. reflexivity. }
  unfold f_sinLdot_fc, sinLdot_fc.
  destruct (dphi_sim (2 * L) B ft ftx F d HB ltac:(lia) Hm ltac:(lra) Hd Ht) as (h1 & H1 & E1 & E1' & N1). rewrite E1, E1'. cbn [bind].
  destruct (sin_sim L (2 * B) fp fpx F d ltac:(lia) ltac:(lia) Hm ltac:(lra) Hd Hp) as (h2 & H2 & E2 & E2' & N2). rewrite E2, E2'. cbn [bind].
  assert (w : (0 <= uu * F)%R) by (apply Rmult_le_pos; lra).
  destruct (dtheta_sim L (2 * B) h2 H2 (2 * F) (d + 4 * uu * F) ltac:(lia) ltac:(lia) ltac:(lra) ltac:(lra) ltac:(lra) N2) as (h3 & H3 & E3 & E3' & N3). rewrite E3, E3'. cbn [bind].
  unfold ew2. change (mt_nr RN (mmake RN (2 * L) (2 * B) H1)) with (2 * L). change (mt_nc RN (mmake RN (2 * L) (2 * B) H1)) with (2 * B).
  change (mt_nr RN (mmake RN (2 * L) (2 * B) H3)) with (2 * L). change (mt_nc RN (mmake RN (2 * L) (2 * B) H3)) with (2 * B). rewrite !Z.eqb_refl. cbn [andb].
  eexists _, _. split; [reflexivity|]. split; [reflexivity|]. intros p q Hpp Hq. cbv beta. rewrite !fget_fmake, !cget_mmake by lia.
  destruct (L_bounds B L F 0 LB LL ltac:(lra) ltac:(lra)) as (_ & _ & C3). destruct (L_bounds L B F 0 LL LB ltac:(lra) ltac:(lra)) as (_ & _ & C4).
  assert (S : (F1 + F3 <= 3 * bpow radix2 890)%R) by (unfold F1, F3; lra). assert (S0 : (0 <= F1 + F3)%R) by (unfold F1, F3; assert (0 <= IZR B * F)%R by (apply Rmult_le_pos; lra); assert (0 <= IZR L * F)%R by (apply Rmult_le_pos; lra); lra).
  assert (B10 : (1024 * bpow radix2 890 = bpow radix2 900)%R). { change 900 with (10 + 890). rewrite bpow_plus. reflexivity. }
  assert (B11 : (bpow radix2 900 <= bpow radix2 1000)%R) by (apply bpow_le; lia). pose proof (bpow_gt_0 radix2 890).
  replace (Ci * (H1 p q - H3 p q))%C with (Ci * RtoC 1 * (H1 p q - H3 p q))%C by ring.
  apply imul_unit; [exact iunit_j|left; reflexivity| |].
  - eapply gpc_sub; [lra|exact (N1 p q Hpp Hq)|exact (N3 p q Hpp Hq)].
  - assert ((F1 + F3) * (1 + uu) <= (F1 + F3) * 2)%R by (apply Rmult_le_compat_l; lra). lra.
Qed.
