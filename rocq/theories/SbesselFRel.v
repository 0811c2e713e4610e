(** * SbesselFRel: comparisons and relative errors of doubles. *)
From Coq Require Import ZArith List Bool SpecFloat Reals Lia Lra Psatz.
From Flocq Require Import Core.Core IEEE754.BinarySingleNaN.
From Flocq Require Import Relative.
From Verif Require Import Py PyFacts Num FloatN FloatText FileFacts2 MPysphi MDouble FlFacts SeedFl SeedFl2 FlSigned MSbesselF SbesselFTerm.
Open Scope Z_scope.
#[local] Existing Instance FloatText.prec53.
#[local] Existing Instance FloatText.pe53.

Lemma SFcompare_V x y : dbl x -> dbl y -> fin x -> fin y -> SFcompare x y = Some (Rcompare (V x) (V y)).
Proof.
  intros Hx Hy Fx Fy. pose proof (Bcompare_correct 53 1024 (SF2B x Hx) (SF2B y Hy)) as H.
  rewrite !is_finite_SF2B, !B2R_SF2B in H. specialize (H Fx Fy). unfold Bcompare in H. now rewrite !B2SF_SF2B in H.
Qed.
Lemma SFltb_V x y : dbl x -> dbl y -> fin x -> fin y -> SFltb x y = Rlt_bool (V x) (V y).
Proof. intros. unfold SFltb. rewrite SFcompare_V by assumption. unfold Rlt_bool. destruct (Rcompare _ _); reflexivity. Qed.
Lemma SFleb_V x y : dbl x -> dbl y -> fin x -> fin y -> SFleb x y = Rle_bool (V x) (V y).
Proof. intros. unfold SFleb. rewrite SFcompare_V by assumption. unfold Rle_bool. destruct (Rcompare _ _); reflexivity. Qed.
Lemma SFabs_V x : dbl x -> fin x -> dbl (SFabs x) /\ fin (SFabs x) /\ V (SFabs x) = Rabs (V x).
Proof.
  intros Dx Fx. destruct x as [s|s| |s m e]; try discriminate Fx.
  - split; [reflexivity|]. split; [reflexivity|]. cbn [SFabs SF2R]. now rewrite Rabs_R0.
  - split; [exact Dx|]. split; [reflexivity|]. cbn [SFabs SF2R]. rewrite !cond_F2R. pose proof (sgn_cases false m e) as G. cbv zeta beta iota in G.
    destruct s; rewrite ?Rabs_Ropp, Rabs_pos_eq; auto; cbn [cond_Zopp] in G; lra.
Qed.
Lemma SFopp_V x : dbl x -> fin x -> dbl (SFopp x) /\ fin (SFopp x) /\ V (SFopp x) = (- V x)%R.
Proof.
  intros Dx Fx. destruct x as [s|s| |s m e]; try discriminate Fx.
  - split; [reflexivity|]. split; [reflexivity|]. cbn [SFopp SF2R]. lra.
  - split; [exact Dx|]. split; [reflexivity|]. cbn [SFopp SF2R]. rewrite !cond_F2R. destruct s; cbn [negb]; lra.
Qed.

Open Scope R_scope.
Lemma eps_V : dbl f_eps /\ fin f_eps /\ / 10 ^ 20 * (99 / 100) <= V f_eps <= / 10 ^ 20 * (101 / 100).
Proof.
  split; [vm_compute; reflexivity|]. split; [reflexivity|]. unfold f_eps. cbn [SF2R cond_Zopp]. unfold F2R. cbn [Fnum Fexp].
  change (bpow radix2 (-119)) with (/ 664613997892457936451903530140172288). lra.
Qed.

(** |v - r| <= K 2^-53 r *)
Definition rel (K v r : R) : Prop := 0 < r /\ Rabs (v - r) <= K * uu * r.
Lemma uu_pos : 0 < uu. Proof. rewrite uu_val. lra. Qed.
Lemma rel_weaken K L v r : K <= L -> rel K v r -> rel L v r.
Proof. intros H [P R]. split; [exact P|]. eapply Rle_trans; [exact R|]. apply Rmult_le_compat_r; [lra|]. apply Rmult_le_compat_r; [pose proof uu_pos; lra|exact H]. Qed.
Lemma rel_refl r : 0 < r -> rel 0 r r.
Proof. intros H. split; [exact H|]. rewrite Rminus_eq_0, Rabs_R0. lra. Qed.
Lemma rel_bounds K v r : 0 <= K <= 10 ^ 9 -> rel K v r -> 999 / 1000 * r <= v <= 1001 / 1000 * r.
Proof.
  intros HK [P R]. apply Rabs_le_inv in R. assert (K * uu <= / 1000) by (rewrite uu_val; lra).
  assert (K * uu * r <= / 1000 * r) by (apply Rmult_le_compat_r; lra). lra.
Qed.
Lemma rnd_rel_err y : tiny <= Rabs y -> Rabs (rnd y - y) <= uu * Rabs y.
Proof.
  intros H. pose proof (relative_error_N_FLT radix2 (-1074) 53 ltac:(lia) (fun n => negb (Z.even n)) y) as E.
  change (-1074 + 53 - 1)%Z with (-1022)%Z in E. specialize (E H).
  change (Znearest (fun n => negb (Z.even n))) with ZnearestE in E.
  change (bpow radix2 (Z.opp 53 + 1)) with (/ 4503599627370496) in E. rewrite uu_val. lra.
Qed.
Lemma rnd_abs_err y : Rabs (rnd y - y) <= uu * Rabs y + dmin / 2.
Proof.
  destruct (rnd_err y) as (e & h & He & Hh & ->). replace (y * (1 + e) + h - y) with (e * y + h) by ring.
  eapply Rle_trans; [apply Rabs_triang|]. rewrite Rabs_mult. apply Rplus_le_compat; [|exact Hh]. apply Rmult_le_compat_r; [apply Rabs_pos|exact He].
Qed.
Lemma rel_rnd K v r : 0 <= K <= 10 ^ 9 -> rel K v r -> tiny <= v -> rel (K + 101 / 100) (rnd v) r.
Proof.
  intros HK H T. pose proof (rel_bounds K v r HK H) as B. destruct H as [P R]. split; [exact P|].
  assert (V0 : 0 < v) by (pose proof (bpow_gt_0 radix2 (-1022)); lra).
  pose proof (rnd_rel_err v) as E. rewrite Rabs_pos_eq in E by lra. specialize (E T).
  replace (rnd v - r) with ((rnd v - v) + (v - r)) by ring. eapply Rle_trans; [apply Rabs_triang|].
  assert (uu * v <= uu * (1001 / 1000 * r)) by (apply Rmult_le_compat_l; [pose proof uu_pos; lra|lra]).
  pose proof uu_pos. assert (0 < uu * r) by (apply Rmult_lt_0_compat; lra). lra.
Qed.
Lemma rel_mul K L a r b s : 0 <= K <= 10 ^ 6 -> 0 <= L <= 10 ^ 6 -> rel K a r -> rel L b s -> rel (K + L + / 100) (a * b) (r * s).
Proof.
  intros HK HL [P R] [Q S]. split; [now apply Rmult_lt_0_compat|].
  replace (a * b - r * s) with ((a - r) * (b - s) + ((a - r) * s + r * (b - s))) by ring.
  eapply Rle_trans; [apply Rabs_triang|]. pose proof (Rabs_triang ((a - r) * s) (r * (b - s))) as T. rewrite !Rabs_mult in T. rewrite Rabs_mult.
  rewrite (Rabs_pos_eq s) in T by lra. rewrite (Rabs_pos_eq r) in T by lra.
  pose proof (Rabs_pos (a - r)) as A0. pose proof (Rabs_pos (b - s)) as B0. pose proof uu_pos as U0.
  assert (T1 : Rabs (a - r) * s <= K * uu * r * s) by (apply Rmult_le_compat_r; lra).
  assert (T2 : r * Rabs (b - s) <= r * (L * uu * s)) by (apply Rmult_le_compat_l; lra).
  assert (T3 : Rabs (a - r) * Rabs (b - s) <= (K * uu * r) * (L * uu * s)) by (apply Rmult_le_compat; lra).
  assert (KL : K * L * uu <= / 100).
  { assert (K * L <= 10 ^ 6 * 10 ^ 6) by (apply Rmult_le_compat; lra). rewrite uu_val. lra. }
  assert (T4 : (K * uu * r) * (L * uu * s) <= / 100 * (uu * (r * s))).
  { replace ((K * uu * r) * (L * uu * s)) with ((K * L * uu) * (uu * (r * s))) by ring. apply Rmult_le_compat_r; [|exact KL].
    left. apply Rmult_lt_0_compat; [exact U0|]. now apply Rmult_lt_0_compat. }
  lra.
Qed.
Lemma rel_inv K a r : 0 <= K <= 10 ^ 6 -> rel K a r -> rel (K + / 100) (/ a) (/ r).
Proof.
  intros HK H. pose proof (rel_bounds K a r ltac:(lra) H) as B. destruct H as [P R]. assert (A0 : 0 < a) by lra.
  split; [now apply Rinv_0_lt_compat|]. replace (/ a - / r) with (- (a - r) * (/ a * / r)) by (field; lra).
  rewrite Rabs_mult, Rabs_Ropp. assert (I : 0 < / a * / r) by (apply Rmult_lt_0_compat; apply Rinv_0_lt_compat; lra). rewrite (Rabs_pos_eq (/ a * / r)) by lra.
  pose proof uu_pos as U0. pose proof (Rinv_0_lt_compat r P) as Ir.
  apply Rle_trans with (K * uu * r * (/ a * / r)); [apply Rmult_le_compat_r; lra|].
  replace (K * uu * r * (/ a * / r)) with (K * uu * (r * / a) * / r) by (field; lra).
  apply Rmult_le_compat_r; [lra|].
  assert (Q : r * / a <= 1 + 2 * (K * uu)).
  { apply Rmult_le_reg_r with a; [exact A0|]. rewrite Rmult_assoc, Rinv_l, Rmult_1_r by lra. apply Rabs_le_inv in R.
    assert (Ku : 0 <= K * uu <= / 1000) by (split; [apply Rmult_le_pos; lra|rewrite uu_val; lra]).
    assert (K * uu * r <= K * uu * (1002 / 1000 * a)) by (apply Rmult_le_compat_l; lra). lra. }
  assert (Ku : 0 <= K * uu) by (apply Rmult_le_pos; lra).
  apply Rle_trans with (K * uu * (1 + 2 * (K * uu))); [apply Rmult_le_compat_l; lra|].
  assert (K * K * uu <= / 200). { assert (K * K <= 10 ^ 6 * 10 ^ 6) by (apply Rmult_le_compat; lra). rewrite uu_val. lra. }
  replace (K * uu * (1 + 2 * (K * uu))) with (uu * (K + 2 * (K * K * uu))) by ring. replace ((K + / 100) * uu) with (uu * (K + / 100)) by ring.
  apply Rmult_le_compat_l; lra.
Qed.
Lemma rel_div K L a r b s : 0 <= K <= 10 ^ 5 -> 0 <= L <= 10 ^ 5 -> rel K a r -> rel L b s -> rel (K + L + / 50) (a / b) (r / s).
Proof.
  intros HK HL H1 H2. pose proof (rel_inv L b s ltac:(lra) H2) as H3.
  eapply rel_weaken; [|apply (rel_mul K (L + / 100)); [| |exact H1|exact H3]]; lra.
Qed.
Lemma rel_sub K L M rho p P b B : 0 <= K -> 0 <= L -> 0 <= rho < 1 -> rel K p P -> rel L b B -> B <= rho * P -> K + L * rho <= M * (1 - rho) ->
  rel M (p - b) (P - B).
Proof.
  intros HK HL Hr [P0 R] [B0 S] HB HM. pose proof uu_pos as U0. assert (Q : 0 < P - B) by nra. split; [exact Q|].
  replace (p - b - (P - B)) with ((p - P) + - (b - B)) by ring. eapply Rle_trans; [apply Rabs_triang|]. rewrite Rabs_Ropp.
  apply Rle_trans with (K * uu * P + L * uu * B); [lra|].
  assert (M0 : 0 <= M) by (destruct (Rle_or_lt 0 M); auto; nra).
  assert (E1 : L * uu * B <= L * uu * (rho * P)) by (apply Rmult_le_compat_l; [apply Rmult_le_pos; lra|exact HB]).
  apply Rle_trans with (uu * P * (K + L * rho)); [lra|].
  apply Rle_trans with (uu * P * (M * (1 - rho))); [apply Rmult_le_compat_l; [apply Rmult_le_pos; lra|exact HM]|].
  replace (uu * P * (M * (1 - rho))) with (M * uu * (P - rho * P)) by ring. apply Rmult_le_compat_l; [apply Rmult_le_pos; lra|lra].
Qed.

(** ** The same for doubles *)
Definition relf (K : R) (x : f64) (r : R) : Prop := dbl x /\ fin x /\ rel K (V x) r.
Definition rng (r : R) : Prop := bpow radix2 (-1020) <= r <= bpow radix2 1020.
Lemma rng_tiny v r : rng r -> 999 / 1000 * r <= v <= 1001 / 1000 * r -> tiny <= v /\ Rabs (rnd v) < maxb.
Proof.
  intros [H1 H2] B. split.
  - apply Rle_trans with (bpow radix2 (-1021)); [apply bpow_le; lia|].
    assert (E : bpow radix2 (-1020) = 2 * bpow radix2 (-1021)) by (change 2 with (bpow radix2 1); rewrite <- bpow_plus; reflexivity). pose proof (bpow_gt_0 radix2 (-1021)). lra.
  - apply rnd_lt. pose proof (bpow_gt_0 radix2 (-1020)). rewrite Rabs_pos_eq by lra.
    assert (E : bpow radix2 1021 = 2 * bpow radix2 1020) by (change 2 with (bpow radix2 1); rewrite <- bpow_plus; reflexivity).
    assert (bpow radix2 1021 <= bpow radix2 1023) by (apply bpow_le; lia). pose proof (bpow_gt_0 radix2 1020). lra.
Qed.
Lemma relf_rnd K z v r : 0 <= K <= 10 ^ 9 -> is_rnd z v -> rel K v r -> rng r -> relf (K + 101 / 100) z r.
Proof.
  intros HK Z R G. destruct (rng_tiny v r G (rel_bounds K v r HK R)) as [T M].
  destruct (is_rnd_fin _ _ Z M) as [F E]. split; [exact (is_rnd_dbl _ _ Z)|]. split; [exact F|]. rewrite E. apply rel_rnd; auto.
Qed.
Lemma relf_weaken K L x r : K <= L -> relf K x r -> relf L x r.
Proof. intros H (A & B & C). split; [exact A|]. split; [exact B|]. eapply rel_weaken; eauto. Qed.
Lemma relf_mul K L a r b s : 0 <= K <= 10 ^ 5 -> 0 <= L <= 10 ^ 5 -> relf K a r -> relf L b s -> rng (r * s) -> relf (K + L + 102 / 100) (fmul a b) (r * s).
Proof.
  intros HK HL (Da & Fa & Ra) (Db & Fb & Rb) G. eapply relf_weaken; [|apply (relf_rnd (K + L + / 100) _ (V a * V b)); [lra|now apply fmul_rnd| |exact G]]; [lra|].
  apply rel_mul; auto; lra.
Qed.
Lemma relf_div K L a r b s : 0 <= K <= 10 ^ 5 -> 0 <= L <= 10 ^ 5 -> relf K a r -> relf L b s -> rng (r / s) -> relf (K + L + 104 / 100) (fdiv a b) (r / s).
Proof.
  intros HK HL (Da & Fa & Ra) (Db & Fb & Rb) G. pose proof (rel_bounds L _ _ ltac:(lra) Rb) as B. assert (0 < s) by apply Rb.
  eapply relf_weaken; [|apply (relf_rnd (K + L + / 50) _ (V a / V b)); [lra|apply fdiv_rnd; auto; lra| |exact G]]; [lra|].
  apply rel_div; auto.
Qed.
Lemma relf_sub K L M rho p P b B : 0 <= K -> 0 <= L -> 0 <= rho < 1 -> relf K p P -> relf L b B -> B <= rho * P -> K + L * rho <= M * (1 - rho) -> M <= 10 ^ 9 ->
  rng (P - B) -> relf (M + 101 / 100) (fsub p b) (P - B).
Proof.
  intros HK HL Hr (Dp & Fp & Rp) (Db & Fb & Rb) HB HM HM' G.
  assert (M0 : 0 <= M) by (destruct (Rle_or_lt 0 M); auto; nra).
  apply (relf_rnd M _ (V p - V b)); [lra|now apply fsub_rnd| |exact G]. apply (rel_sub K L M rho); assumption.
Qed.
Lemma relf_int k : (0 < k < 2 ^ 53)%Z -> relf 0 (fofZ k) (IZR k).
Proof.
  intros H. destruct (fofZ_small k ltac:(lia)) as (D & F & E). split; [exact D|]. split; [exact F|]. rewrite E. apply rel_refl. apply IZR_lt. lia.
Qed.
