(** * Symm: how the analysed coefficients change when the pattern is
    conjugated, turned about the axis, or reflected. *)
From Coq Require Import ZArith List String Bool Lia Reals Lra Permutation.
From Coquelicot Require Import Coquelicot.
From Verif Require Import Py PyFacts Num Exact MCoefs SpecCoefs Obs CoefsFacts CoefsFacts2 CoefsFacts3 MPatt SpecPatt PattFacts Sums Harm
  MPysphi MOps Smooth Dft PysphiFacts TransFacts MTrans TransFacts2 TransFacts3 TransFacts4 SpecHarm HarmFacts SpecInt Integ Integ2.
Import ListNotations.
Open Scope Z_scope.

Lemma sgn_add a b : (sg (a + b) = sg a * sg b)%C.
Proof.
  rewrite <- RtoC_mult, <- mult_IZR. do 2 f_equal. unfold sgnpow. rewrite Z.add_mod by lia.
  pose proof (Z.mod_pos_bound a 2 ltac:(lia)). pose proof (Z.mod_pos_bound b 2 ltac:(lia)).
  assert (a mod 2 = 0 \/ a mod 2 = 1) as [-> | ->] by lia; assert (b mod 2 = 0 \/ b mod 2 = 1) as [-> | ->] by lia; reflexivity.
Qed.
Lemma sgn_opp a : sg (- a) = sg a.
Proof. do 2 f_equal. unfold sgnpow. destruct (Z.eqb_spec (- a mod 2) 0); destruct (Z.eqb_spec (a mod 2) 0); auto; exfalso; Z.div_mod_to_equations; lia. Qed.
Lemma ipow_opp m : ipow m = (sg m * ipow (- m))%C.
Proof.
  assert (H : forall k, ipow (Z.of_nat k) = (sg (Z.of_nat k) * ipow (- Z.of_nat k))%C).
  { intros k. transitivity (ipow (Z.of_nat k) * ipow (Z.of_nat k) * ipow (- Z.of_nat k))%C.
    - rewrite <- Cmult_assoc, (Cmult_comm (ipow (Z.of_nat k)) (ipow (- _))), ipow_cancel. ring.
    - rewrite ipow_sq. f_equal. f_equal. rewrite sgnpow_pow. f_equal. lia. }
  destruct (Z_le_dec 0 m).
  - rewrite <- (Z2Nat.id m) by lia. apply H.
  - specialize (H (Z.to_nat (- m))). rewrite Z2Nat.id in H by lia. rewrite Z.opp_involutive, sgn_opp in H.
    rewrite H. rewrite Cmult_assoc, sg_sq. ring.
Qed.
Lemma Yt_mneg n m k : Yt n (- m) k = Yt n m k.
Proof. unfold Yt. now rewrite Z.abs_opp. Qed.

(** ** Sums over a period *)
Lemma sum_flip L f : 0 < L -> (forall a, f (a mod L) = f a) -> sumC 0 L (fun i => f (- i)) = sumC 0 L f.
Proof.
  intros HL Hf. rewrite (sumC_rev 0 L (fun i => f (- i))).
  rewrite (sumC_ext _ _ _ (fun k => f k)) by (intros; f_equal; lia).
  transitivity (sumC 0 L (fun k => f (k + (1 - L)))).
  - transitivity (sumC (0 + (1 - L)) (L + (1 - L)) f); [f_equal; lia|]. apply sumC_shift.
  - rewrite <- (sumC_mod L (1 - L) f HL). apply sumC_ext. intros k _. now rewrite Hf.
Qed.
Lemma sum_trans L s f : 0 < L -> (forall a, f (a mod L) = f a) -> sumC 0 L (fun i => f (i + s)) = sumC 0 L f.
Proof. intros HL Hf. rewrite <- (sumC_mod L s f HL). apply sumC_ext. intros k _. now rewrite Hf. Qed.

(** ** The periodic extension of a pattern *)
Definition pget (d : mat RN) (i j : Z) : C := cget d (i mod mt_nr RN d) (j mod mt_nc RN d).
Lemma Xhat_pget d m k : 0 < mt_nr RN d -> 0 < mt_nc RN d -> Xhat d m k =
  (RtoC (/ IZR (mt_nr RN d * mt_nc RN d)) *
   sumC 0 (mt_nr RN d) (fun i => sumC 0 (mt_nc RN d) (fun j =>
     pget d i j * root (mt_nr RN d) (- (i * k)) * root (mt_nc RN d) (- (j * m)))))%C.
Proof.
  intros H1 H2. unfold Xhat. f_equal. apply sumC_ext. intros i Hi. apply sumC_ext. intros j Hj. unfold pget.
  now rewrite !Z.mod_small by lia.
Qed.
Lemma pget_mod_l d i j : 0 < mt_nr RN d -> pget d (i mod mt_nr RN d) j = pget d i j.
Proof. intros H. unfold pget. now rewrite Z.mod_mod by lia. Qed.
Lemma pget_mod_r d i j : 0 < mt_nc RN d -> pget d i (j mod mt_nc RN d) = pget d i j.
Proof. intros H. unfold pget. now rewrite Z.mod_mod by lia. Qed.
Lemma root_mul_mod n a k : 0 < n -> root n (- (a mod n * k)) = root n (- (a * k)).
Proof.
  intros Hn. rewrite (Z.div_mod a n) at 2 by lia.
  replace (- ((n * (a / n) + a mod n) * k)) with (- (a mod n * k) + n * (- (a / n) * k)) by ring.
  symmetry. apply root_period. lia.
Qed.

(** The terms of the transform, at any integers. *)
Definition term (d : mat RN) (m k i j : Z) : C := (pget d i j * root (mt_nr RN d) (- (i * k)) * root (mt_nc RN d) (- (j * m)))%C.
Lemma term_mod_l d m k i j : 0 < mt_nr RN d -> term d m k (i mod mt_nr RN d) j = term d m k i j.
Proof. intros H. unfold term. now rewrite pget_mod_l, root_mul_mod by lia. Qed.
Lemma term_mod_r d m k i j : 0 < mt_nc RN d -> term d m k i (j mod mt_nc RN d) = term d m k i j.
Proof. intros H. unfold term. now rewrite pget_mod_r, root_mul_mod by lia. Qed.
Definition Tsum (d : mat RN) (m k : Z) : C := sumC 0 (mt_nr RN d) (fun i => sumC 0 (mt_nc RN d) (fun j => term d m k i j)).
Lemma Xhat_T d m k : 0 < mt_nr RN d -> 0 < mt_nc RN d -> Xhat d m k = (RtoC (/ IZR (mt_nr RN d * mt_nc RN d)) * Tsum d m k)%C.
Proof. apply Xhat_pget. Qed.
Lemma Tsum_rows d m k g : 0 < mt_nr RN d -> (g = (fun i => - i) \/ exists s, g = (fun i => i + s)) ->
  Tsum d m k = sumC 0 (mt_nr RN d) (fun i => sumC 0 (mt_nc RN d) (fun j => term d m k (g i) j)).
Proof.
  intros H [->|(s & ->)]; unfold Tsum; symmetry.
  - apply (sum_flip (mt_nr RN d) (fun i => sumC 0 (mt_nc RN d) (fun j => term d m k i j)) H).
    intros a. apply sumC_ext. intros j _. now apply term_mod_l.
  - apply (sum_trans (mt_nr RN d) s (fun i => sumC 0 (mt_nc RN d) (fun j => term d m k i j)) H).
    intros a. apply sumC_ext. intros j _. now apply term_mod_l.
Qed.
Lemma Tsum_cols d m k g : 0 < mt_nc RN d -> (g = (fun i => - i) \/ exists s, g = (fun i => i + s)) ->
  Tsum d m k = sumC 0 (mt_nr RN d) (fun i => sumC 0 (mt_nc RN d) (fun j => term d m k i (g j))).
Proof.
  intros H [->|(s & ->)]; unfold Tsum; apply sumC_ext; intros i _; symmetry.
  - apply (sum_flip (mt_nc RN d) (fun j => term d m k i j) H). intros a. now apply term_mod_r.
  - apply (sum_trans (mt_nc RN d) s (fun j => term d m k i j) H). intros a. now apply term_mod_r.
Qed.

(** A symmetric pattern's periodic extension. *)
Lemma pget_sym d B : mt_nc RN d = 2 * B -> 0 < B -> 0 < mt_nr RN d -> sphere_sym RN d -> forall i j, pget d (- i) (j + B) = pget d i j.
Proof.
  intros Hc HB HR HS i j. unfold pget.
  pose proof (Z.mod_pos_bound i (mt_nr RN d) HR). pose proof (Z.mod_pos_bound j (mt_nc RN d) ltac:(lia)).
  specialize (HS (i mod mt_nr RN d) (j mod mt_nc RN d) ltac:(lia) ltac:(lia)). unfold cget. etransitivity; [|exact HS].
  unfold across_row, across_col. f_equal.
  - replace (mt_nr RN d - i mod mt_nr RN d) with (- (i mod mt_nr RN d) + 1 * mt_nr RN d) by lia. rewrite Z.mod_add by lia.
    rewrite (Z.div_mod i (mt_nr RN d)) at 1 by lia.
    replace (- (mt_nr RN d * (i / mt_nr RN d) + i mod mt_nr RN d)) with (- (i mod mt_nr RN d) + (- (i / mt_nr RN d)) * mt_nr RN d) by ring.
    now rewrite Z.mod_add by lia.
  - rewrite Hc. replace (2 * B / 2) with B by (rewrite Z.mul_comm, Z.div_mul by lia; lia). rewrite Z.add_mod_idemp_r by lia. f_equal. lia.
Qed.
Lemma Xhat_sym d B : mt_nc RN d = 2 * B -> 0 < B -> 0 < mt_nr RN d -> sphere_sym RN d ->
  forall m k, Xhat d m (- k) = (sg m * Xhat d m k)%C.
Proof.
  intros Hc HB HR HS m k. rewrite !Xhat_T by lia.
  rewrite (Tsum_rows d m (- k) (fun i => - i)) by (auto; lia).
  rewrite (Tsum_cols d m k (fun j => j + - B)) by (try lia; right; eauto).
  assert (E : sumC 0 (mt_nr RN d) (fun i => sumC 0 (mt_nc RN d) (fun j => term d m (- k) (- i) j)) =
     (sg m * sumC 0 (mt_nr RN d) (fun i => sumC 0 (mt_nc RN d) (fun j => term d m k i (j + - B))))%C).
  { rewrite sumC_mul. apply sumC_ext. intros i _. rewrite sumC_mul. apply sumC_ext. intros j _. unfold term.
    replace (pget d (- i) j) with (pget d i (j + - B)) by (rewrite <- (pget_sym d B Hc HB HR HS i (j + - B)); f_equal; lia).
    replace (- (- i * - k)) with (- (i * k)) by ring. replace (- ((j + - B) * m)) with (- (j * m) + m * B) by ring.
    rewrite root_add by lia. rewrite Hc at 3. rewrite sgnpow_root by lia.
    transitivity ((sg m * sg m) * (pget d i (j + - B) * root (mt_nr RN d) (- (i * k)) * root (mt_nc RN d) (- (j * m))))%C; [rewrite sg_sq; ring|ring]. }
  rewrite E. ring.
Qed.
Lemma Xhat_conj d d' : mt_nr RN d' = mt_nr RN d -> mt_nc RN d' = mt_nc RN d -> 0 < mt_nr RN d -> 0 < mt_nc RN d ->
  (forall i j, pget d' i j = Cconj (pget d i j)) -> forall m k, Xhat d' m k = Cconj (Xhat d (- m) (- k)).
Proof.
  intros E1 E2 H1 H2 H m k. rewrite !Xhat_pget by lia. rewrite Cconj_mult, Cconj_R, E1, E2. f_equal.
  rewrite Cconj_sum. apply sumC_ext. intros i _. rewrite Cconj_sum. apply sumC_ext. intros j _.
  rewrite !Cconj_mult, H. unfold root. rewrite !Cconj_cis. f_equal; [f_equal|]; f_equal; rewrite !opp_IZR, !mult_IZR, !opp_IZR; unfold Rdiv; ring.
Qed.
Lemma Xhat_roll d d' s : mt_nr RN d' = mt_nr RN d -> mt_nc RN d' = mt_nc RN d -> 0 < mt_nr RN d -> 0 < mt_nc RN d ->
  (forall i j, pget d' i j = pget d i (j - s)) -> forall m k, Xhat d' m k = (root (mt_nc RN d) (- (s * m)) * Xhat d m k)%C.
Proof.
  intros E1 E2 H1 H2 H m k. rewrite !Xhat_T by lia. rewrite (Tsum_cols d m k (fun j => j + - s)) by (try lia; right; eauto).
  unfold Tsum. rewrite E1, E2.
  assert (E : sumC 0 (mt_nr RN d) (fun i => sumC 0 (mt_nc RN d) (fun j => term d' m k i j)) =
     (root (mt_nc RN d) (- (s * m)) * sumC 0 (mt_nr RN d) (fun i => sumC 0 (mt_nc RN d) (fun j => term d m k i (j + - s))))%C).
  { rewrite sumC_mul. apply sumC_ext. intros i _. rewrite sumC_mul. apply sumC_ext. intros j _. unfold term. rewrite H, E1, E2.
    replace (- (j * m)) with (- (s * m) + - ((j + - s) * m)) by ring. rewrite root_add by lia. replace (j - s) with (j + - s) by lia. ring. }
  rewrite E. ring.
Qed.
Lemma Xhat_phineg d d' : mt_nr RN d' = mt_nr RN d -> mt_nc RN d' = mt_nc RN d -> 0 < mt_nr RN d -> 0 < mt_nc RN d ->
  (forall i j, pget d' i j = pget d i (- j)) -> forall m k, Xhat d' m k = Xhat d (- m) k.
Proof.
  intros E1 E2 H1 H2 H m k. rewrite !Xhat_T by lia. rewrite (Tsum_cols d (- m) k (fun j => - j)) by (auto; lia).
  unfold Tsum. rewrite E1, E2. f_equal. apply sumC_ext. intros i _. apply sumC_ext. intros j _. unfold term. rewrite H, E1, E2.
  f_equal. f_equal. ring.
Qed.
Lemma Xhat_flip d d' R : mt_nr RN d = 2 * R - 2 -> 2 <= R -> mt_nr RN d' = mt_nr RN d -> mt_nc RN d' = mt_nc RN d -> 0 < mt_nc RN d ->
  (forall i j, pget d' i j = pget d (R - 1 - i) j) -> forall m k, Xhat d' m k = (sg k * Xhat d m (- k))%C.
Proof.
  intros HL HR E1 E2 H2 H m k. rewrite !Xhat_T by lia. rewrite (Tsum_rows d m (- k) (fun i => i + (R - 1))) by (try lia; right; eauto).
  unfold Tsum at 1. rewrite E1, E2.
  assert (F : sumC 0 (mt_nr RN d) (fun i => sumC 0 (mt_nc RN d) (fun j => term d' m k i j)) =
     sumC 0 (mt_nr RN d) (fun i => sumC 0 (mt_nc RN d) (fun j => term d' m k (- i) j))).
  { pose proof (Tsum_rows d' m k (fun i => - i) ltac:(lia) (or_introl eq_refl)) as T. unfold Tsum in T. now rewrite E1, E2 in T. }
  rewrite F.
  assert (E : sumC 0 (mt_nr RN d) (fun i => sumC 0 (mt_nc RN d) (fun j => term d' m k (- i) j)) =
     (sg k * sumC 0 (mt_nr RN d) (fun i => sumC 0 (mt_nc RN d) (fun j => term d m (- k) (i + (R - 1)) j)))%C).
  { rewrite sumC_mul. apply sumC_ext. intros i _. rewrite sumC_mul. apply sumC_ext. intros j _. unfold term. rewrite H, E1, E2.
    replace (R - 1 - - i) with (i + (R - 1)) by lia. replace (- (- i * k)) with (i * k) by ring.
    replace (- ((i + (R - 1)) * - k)) with (i * k + k * (R - 1)) by ring. rewrite root_add by lia. 
    replace (root (mt_nr RN d) (k * (R - 1))) with (sg k) by (rewrite HL; replace (2 * R - 2) with (2 * (R - 1)) by lia; rewrite sgnpow_root by lia; reflexivity).
    transitivity ((sg k * sg k) * (pget d (i + (R - 1)) j * root (mt_nr RN d) (i * k) * root (mt_nc RN d) (- (j * m))))%C; [rewrite sg_sq; ring|ring]. }
  rewrite E. ring.
Qed.

(** ** The analysis sum *)
Lemma sig_conj j : Cconj (sig j) = (- sig j)%C.
Proof. rewrite sig_tau. rewrite Cconj_mult, Cconj_R. replace (Cconj (- Ci)%C) with Ci by (apply injective_projections; cbn; ring). ring. Qed.
Lemma sig_even j : Z.even j = true -> sig j = RtoC 0.
Proof. intros H. unfold sig. rewrite <- Z.negb_even, H. reflexivity. Qed.
Lemma An_mneg R f m n : An R f (- m) n = (sg m * An R f m n)%C.
Proof.
  unfold An, bval. rewrite Z.opp_involutive, Yt_mneg.
  rewrite (sumC_ext 1 (n + 1) (fun k => hconv R f k * RtoC (Yt n (- m) k))%C (fun k => hconv R f k * RtoC (Yt n m k))%C) by (intros; now rewrite Yt_mneg).
  rewrite (ipow_opp m). ring.
Qed.
Lemma An_conj R g m n : An R (fun k => - Cconj (g k))%C (- m) n = Cconj (An R g m n).
Proof.
  assert (H : forall j, hconv R (fun k => - Cconj (g k))%C j = Cconj (hconv R g j)).
  { intros j. unfold hconv. rewrite Cconj_mult, Cconj_R, Cconj_sum. f_equal. apply sumC_ext. intros k _.
    rewrite Cconj_mult, sig_conj. ring. }
  unfold An, bval. rewrite H, Cconj_plus, !Cconj_mult, Cconj_sum, !Cconj_R, Cconj_ipow, Yt_mneg. do 2 f_equal.
  apply sumC_ext. intros k _. rewrite H, Cconj_mult, Cconj_R, Yt_mneg. reflexivity.
Qed.
Lemma An_flip R g m n : Z.abs m <= n -> An R (fun k => sg (k + 1) * g k)%C m n = (sg n * An R g m n)%C.
Proof.
  intros Hn.
  assert (H : forall j, hconv R (fun k => sg (k + 1) * g k)%C j = (sg j * hconv R g j)%C).
  { intros j. unfold hconv.
    transitivity (RtoC (4 * PI) * (sg j * sumC (- R) R (fun nu => g nu * sig (j - nu))))%C; [|ring]. f_equal. rewrite sumC_mul.
    apply sumC_ext. intros k _. destruct (Z.even (j - k)) eqn:E; [rewrite sig_even by auto; ring|].
    replace (sg (k + 1)) with (sg j); [ring|]. do 2 f_equal. unfold sgnpow.
    assert (O : Z.odd (j - k) = true) by now rewrite <- Z.negb_even, E. apply Z.odd_spec in O. destruct O as (q & Hq).
    replace j with (k + 1 + q * 2) by lia. now rewrite Z.mod_add by lia. }
  assert (Y : forall k, (sg k * hconv R g k * RtoC (Yt n m k) = sg n * (hconv R g k * RtoC (Yt n m k)))%C).
  { intros k. destruct (Z.odd (n + k)) eqn:E; [rewrite Yt_odd by auto; ring|].
    replace (sg k) with (sg n); [ring|]. do 2 f_equal. unfold sgnpow.
    assert (O : Z.even (n + k) = true) by now rewrite <- Z.negb_odd, E. apply Z.even_spec in O. destruct O as (q & Hq).
    replace n with (k + (q - k) * 2) by lia. now rewrite Z.mod_add by lia. }
  unfold An, bval. rewrite H.
  rewrite (sumC_ext 1 (n + 1) _ (fun k => sg n * (hconv R g k * RtoC (Yt n m k)))%C) by (intros; rewrite H; apply Y).
  rewrite <- sumC_mul. rewrite <- (Cmult_assoc (ipow (- m))), Y. ring.
Qed.

(** ** The analysed values *)
Lemma spht_val_roll d d' R s n m : mt_nr RN d' = mt_nr RN d -> mt_nc RN d' = mt_nc RN d -> 0 < mt_nr RN d -> 0 < mt_nc RN d ->
  (forall i j, pget d' i j = pget d i (j - s)) ->
  spht_val d' R n m = (root (mt_nc RN d) (- (s * m)) * spht_val d R n m)%C.
Proof.
  intros E1 E2 H1 H2 H. unfold spht_val.
  rewrite (An_ext R _ (fun nu => root (mt_nc RN d) (- (s * m)) * sin1 (trunc (R - 2) (Xhat d) m) nu)%C); [apply An_scal|].
  intros nu _. rewrite <- sin1_scal. apply sin1_ext. intros k. unfold trunc. destruct (Z.abs k <=? R - 2); [|ring]. now apply Xhat_roll.
Qed.
Lemma spht_val_phineg d d' R n m : mt_nr RN d' = mt_nr RN d -> mt_nc RN d' = mt_nc RN d -> 0 < mt_nr RN d -> 0 < mt_nc RN d ->
  (forall i j, pget d' i j = pget d i (- j)) -> spht_val d' R n m = (sg m * spht_val d R n (- m))%C.
Proof.
  intros E1 E2 H1 H2 H. unfold spht_val. rewrite (An_mneg R _ m n), Cmult_assoc, sg_sq, Cmult_1_l.
  apply An_ext. intros nu _. apply sin1_ext. intros k. unfold trunc. destruct (Z.abs k <=? R - 2); auto. now apply Xhat_phineg.
Qed.
Lemma spht_val_conj d d' R B n m : mt_nr RN d' = mt_nr RN d -> mt_nc RN d' = mt_nc RN d -> 0 < mt_nr RN d -> mt_nc RN d = 2 * B -> 0 < B ->
  sphere_sym RN d -> (forall i j, pget d' i j = Cconj (pget d i j)) -> spht_val d' R n (- m) = (sg m * Cconj (spht_val d R n m))%C.
Proof.
  intros E1 E2 H1 Hc HB HS H. unfold spht_val. rewrite <- An_conj, <- An_scal. apply An_ext. intros nu _.
  assert (E : forall k, trunc (R - 2) (Xhat d') (- m) k = (sg m * Cconj (trunc (R - 2) (Xhat d) m k))%C).
  { intros k. unfold trunc. destruct (Z.abs k <=? R - 2); [|rewrite Cconj_0; ring].
    rewrite (Xhat_conj d d') by (auto; lia). rewrite Z.opp_involutive, (Xhat_sym d B) by auto. rewrite Cconj_mult, Cconj_R. reflexivity. }
  unfold sin1. rewrite !E. rewrite Cconj_mult. unfold Cminus. rewrite Cconj_plus, Cconj_opp.
  replace (Cconj (RtoC 1 / (RtoC 2 * Ci)))%C with (- (RtoC 1 / (RtoC 2 * Ci)))%C by (apply injective_projections; cbn; field). ring.
Qed.
Lemma spht_val_flip d d' R B n m : mt_nr RN d = 2 * R - 2 -> 2 <= R -> mt_nr RN d' = mt_nr RN d -> mt_nc RN d' = mt_nc RN d ->
  mt_nc RN d = 2 * B -> 0 < B -> sphere_sym RN d -> Z.abs m <= n ->
  (forall i j, pget d' i j = pget d (R - 1 - i) j) -> spht_val d' R n m = (sg (n + m) * spht_val d R n m)%C.
Proof.
  intros HL HR E1 E2 Hc HB HS Hn H. unfold spht_val. rewrite sgn_add, <- Cmult_assoc, (Cmult_comm (sg m)), Cmult_assoc.
  rewrite <- An_flip, Cmult_comm, <- An_scal by auto. apply An_ext. intros nu _.
  assert (E : forall k, trunc (R - 2) (Xhat d') m k = (sg m * (sg k * trunc (R - 2) (Xhat d) m k))%C).
  { intros k. unfold trunc. destruct (Z.abs k <=? R - 2); [|ring].
    rewrite (Xhat_flip d d' R) by (auto; lia). rewrite (Xhat_sym d B) by (auto; lia). ring. }
  unfold sin1. rewrite !E. replace (nu - 1) with (nu + 1 + -2) by lia. rewrite (sgn_add (nu + 1) (-2)).
  replace (sg (-2)) with (RtoC 1) by reflexivity. ring.
Qed.

(** Any symmetric pattern: the analysed values are inner products with the
    truncated trigonometric interpolant. *)
Lemma spht_val_interp d R B n m : mt_nr RN d = 2 * R - 2 -> 2 <= R -> mt_nc RN d = 2 * B -> 0 < B -> sphere_sym RN d ->
  Z.abs m <= n -> Z.abs m < B ->
  is_sphere_int (fun t p => trig_poly (R - 2) (B - 1) (Xhat d) t p * Cconj (sph_harm n m t p))%C (spht_val d R n m).
Proof.
  intros HL HR Hc HB HS Hn Hm.
  pose proof (analysis_integral R (R - 2) (B - 1) (Xhat d) n m ltac:(lia) Hn (Xhat_sym d B Hc HB ltac:(lia) HS m)) as H.
  unfold spht_val. match type of H with is_sphere_int _ ?v => match goal with |- is_sphere_int _ ?w => replace w with v end end.
  - eapply is_sphere_int_ext; [|exact H]. intros t p. cbv beta. now rewrite Yc_sph_harm.
  - apply An_ext. intros nu _. apply sin1_ext. intros k. unfold trunc. destruct (Z.abs k <=? R - 2); auto.
    destruct (Z.leb_spec (Z.abs m) (B - 1)); [auto|lia].
Qed.
