(** * TransFacts4: symmetry, values and linearity of the transforms. *)
From Coq Require Import ZArith List Bool Lia Reals Lra.
From Coquelicot Require Import Complex.
From Verif Require Import Py PyFacts Num Exact MCoefs SpecCoefs CoefsFacts CoefsFacts2 CoefsFacts3 MPatt SpecPatt Sums Harm
  MPysphi MOps Dft PysphiFacts TransFacts MTrans TransFacts2 TransFacts3.
Import ListNotations.
Open Scope Z_scope.

(** ** Double-sphere symmetry of synthesised tables *)
Lemma sgnpow_root B m : 1 <= B -> root (2 * B) (m * B) = RtoC (IZR (sgnpow m)).
Proof.
  intros HB. unfold root. rewrite mult_IZR, mult_IZR.
  replace (2 * PI * (IZR m * IZR B) / (2 * IZR B))%R with (IZR m * PI)%R by (field; apply not_0_IZR; lia).
  unfold sgnpow. pose proof (Z.div_mod m 2 ltac:(lia)) as E. pose proof (Z.mod_pos_bound m 2 ltac:(lia)).
  assert (C2 : forall k, cisR (IZR (2 * k) * PI) = RtoC 1).
  { intros k. rewrite <- (cisR_2PIk k). f_equal. rewrite mult_IZR. ring. }
  destruct (Z.eqb_spec (m mod 2) 0) as [Z0|Z0].
  - rewrite E, Z0, Z.add_0_r. apply C2.
  - replace (m mod 2) with 1 in E by lia. rewrite E, plus_IZR.
    replace ((IZR (2 * (m / 2)) + 1) * PI)%R with (IZR (2 * (m / 2)) * PI + PI)%R by ring. rewrite cisR_add, C2.
    unfold cisR. rewrite cos_PI, sin_PI. apply injective_projections; cbn; ring.
Qed.

Lemma synth_sym L B F P M s p q : 1 <= L -> 1 <= B -> 0 <= P -> 2 * P < L -> 0 <= M < B ->
  (forall m k, P < Z.abs k \/ M < Z.abs m -> F m k = RtoC 0) ->
  (forall m k, F m (- k) = (s * RtoC (IZR (sgnpow m)) * F m k)%C) ->
  (s * s = RtoC 1)%C ->
  synth L (2 * B) F ((L - p) mod L) ((B + q) mod (2 * B)) = (s * synth L (2 * B) F p q)%C.
Proof.
  intros HL HB HP HP2 HM HF Hs Hss.
  rewrite !(synth_freq L (2 * B) F P M) by (auto; lia). rewrite sumC_mul. apply sumC_ext. intros m _.
  rewrite Cmult_assoc.
  assert (E1 : root (2 * B) (m * ((B + q) mod (2 * B))) = (RtoC (IZR (sgnpow m)) * root (2 * B) (m * q))%C).
  { rewrite <- (root_mod (2 * B)) by lia. rewrite Z.mul_mod_idemp_r by lia. rewrite root_mod by lia.
    rewrite Z.mul_add_distr_l, root_add by lia. now rewrite sgnpow_root. }
  rewrite E1. rewrite Cmult_assoc. f_equal.
  rewrite (sumC_rev (- P) (P + 1)). replace (1 - (P + 1)) with (- P) by lia. replace (1 - - P) with (P + 1) by lia.
  rewrite sumC_mul, sumC_mulr. apply sumC_ext. intros k _. rewrite Hs.
  assert (E2 : root L (- k * ((L - p) mod L)) = root L (k * p)).
  { rewrite <- (root_mod L) by lia. rewrite Z.mul_mod_idemp_r by lia. rewrite root_mod by lia.
    replace (- k * (L - p)) with (k * p + L * (- k)) by ring. apply root_period. lia. }
  rewrite E2.
  transitivity ((RtoC (IZR (sgnpow m)) * RtoC (IZR (sgnpow m))) * (s * (F m k * root L (k * p))))%C; [ring|].
  rewrite <- RtoC_mult, sign_sgn. ring.
Qed.

Lemma Fm_neg N M w m k : Fm N M w m (- k) = (RtoC (IZR (sgnpow m)) * Fm N M w m k)%C.
Proof.
  unfold Fm. destruct (Z.abs m <=? M); [|ring]. unfold Fw.
  transitivity (ipow m * (RtoC (IZR (sgnpow m)) * sumC (Z.abs m) (N + 1) (fun n => w n m * RtoC (Yt n m k))))%C; [|ring].
  f_equal. rewrite sumC_mul. apply sumC_ext. intros n _. rewrite Yt_neg, RtoC_mult. ring.
Qed.
Lemma Fsc_neg c m k : Fsc c m (- k) = (RtoC (IZR (sgnpow m)) * Fsc c m k)%C.
Proof. rewrite !(Fsc_Fm c (cval RN c)) by auto. apply Fm_neg. Qed.

Lemma Ws_neg n m k : Z.abs m <= n -> m <> 0 -> Ws n m (- k) = (- IZR (sgnpow m) * Ws n m k)%R.
Proof.
  intros Hn Hm.
  assert (E : forall k, (Ws n m (- k) + IZR (sgnpow m) * Ws n m k)%R = 0%R).
  { apply (Sq_inj n (fun k => Ws n m (- k) + IZR (sgnpow m) * Ws n m k)%R).
    - intros j Hj. rewrite !Ws_supp by lia. ring.
    - intros j. pose proof (Ws_S n m j Hm) as A. pose proof (Ws_S n m (- j) Hm) as B'. unfold Sq in *.
      rewrite Yt_neg in B'. rewrite <- A in B'.
      replace (- (j - 1)) with (- j + 1) by lia. replace (- (j + 1)) with (- j - 1) by lia. lra. }
  specialize (E k). lra.
Qed.
Lemma Gm_neg N M w m k : Gm N M w m (- k) = (- RtoC (IZR (sgnpow m)) * Gm N M w m k)%C.
Proof.
  unfold Gm. destruct (Z.abs m <=? M); [|ring]. unfold Gw.
  destruct (Z.eq_dec m 0) as [->|Hm].
  - replace (-2 * IZR 0)%R with 0%R by ring. ring.
  - transitivity (RtoC (-2 * IZR m) * (ipow m * (- RtoC (IZR (sgnpow m)) * sumC (Z.abs m) (N + 1) (fun n => w n m * RtoC (Ws n m k)))))%C; [|ring].
    do 2 f_equal. rewrite sumC_mul. apply sumC_ext. intros n Hn. rewrite Ws_neg by lia. rewrite RtoC_mult, RtoC_opp. ring.
Qed.
Lemma Tm_neg N M w1 w2 m k : Tm N M w1 w2 m (- k) = (- RtoC 1 * RtoC (IZR (sgnpow m)) * Tm N M w1 w2 m k)%C.
Proof. unfold Tm. rewrite Gm_neg, Fm_neg, opp_IZR, RtoC_opp. ring. Qed.
Lemma Pm_neg N M w1 w2 m k : Pm N M w1 w2 m (- k) = (- RtoC 1 * RtoC (IZR (sgnpow m)) * Pm N M w1 w2 m k)%C.
Proof. unfold Pm. rewrite Gm_neg, Fm_neg, opp_IZR, RtoC_opp. ring. Qed.
Lemma Tm_out N M w1 w2 m k : N < Z.abs k \/ M < Z.abs m -> Tm N M w1 w2 m k = RtoC 0.
Proof.
  intros [H|H]; [apply Tm_supp; lia|]. unfold Tm, Gm, Fm. destruct (Z.leb_spec (Z.abs m) M); [lia|]. ring.
Qed.
Lemma Pm_out N M w1 w2 m k : N < Z.abs k \/ M < Z.abs m -> Pm N M w1 w2 m k = RtoC 0.
Proof.
  intros [H|H]; [apply Pm_supp; lia|]. unfold Pm, Gm, Fm. destruct (Z.leb_spec (Z.abs m) M); [lia|]. ring.
Qed.

(** ** Linearity *)
Definition lin_mat (a b : C) (d d' s : mat RN) : Prop :=
  mt_nr RN s = mt_nr RN d /\ mt_nc RN s = mt_nc RN d /\ mt_nr RN d' = mt_nr RN d /\ mt_nc RN d' = mt_nc RN d /\
  forall i j, 0 <= i < mt_nr RN d -> 0 <= j < mt_nc RN d -> cget s i j = (cget d i j * a + cget d' i j * b)%C.

Lemma Xhat_lin a b d d' s m k : lin_mat a b d d' s -> Xhat s m k = (Xhat d m k * a + Xhat d' m k * b)%C.
Proof.
  intros (E1 & E2 & E3 & E4 & H). unfold Xhat. rewrite E1, E2, E3, E4.
  set (r := RtoC _).
  set (S0 := sumC _ _ _). set (S1 := sumC _ _ _). set (S2 := sumC _ _ _).
  assert (E : S0 = (S1 * a + S2 * b)%C).
  { unfold S0, S1, S2. rewrite !sumC_mulr, <- sumC_add. apply sumC_ext; intros i Hi.
    rewrite !sumC_mulr, <- sumC_add. apply sumC_ext; intros j Hj. rewrite H by auto. ring. }
  rewrite E. ring.
Qed.
Lemma Xt_lin R a b d d' s m k : lin_mat a b d d' s -> Xt R s m k = (Xt R d m k * a + Xt R d' m k * b)%C.
Proof. intros H. unfold Xt, trunc. destruct (Z.abs k <=? R - 2); [now apply Xhat_lin|ring]. Qed.
Lemma An_lin MM f g h a b m n : (forall k, h k = f k * a + g k * b)%C -> An MM h m n = (An MM f m n * a + An MM g m n * b)%C.
Proof.
  intros H. rewrite (An_ext MM h (fun k => a * f k + b * g k)%C) by (intros; rewrite H; ring).
  rewrite An_add, !An_scal. ring.
Qed.
Lemma sin1_lin f g h a b : (forall k, h k = f k * a + g k * b)%C -> forall k, sin1 h k = (sin1 f k * a + sin1 g k * b)%C.
Proof. intros H k. unfold sin1. rewrite !H. ring. Qed.
Lemma spht_val_lin R a b d d' s n m : lin_mat a b d d' s -> spht_val s R n m = (spht_val d R n m * a + spht_val d' R n m * b)%C.
Proof. intros H. unfold spht_val. apply An_lin, sin1_lin. intros k. now apply Xt_lin. Qed.
Lemma sLd_lin B T T' T'' P P' P'' a b m : (forall k, T'' m k = T m k * a + T' m k * b)%C -> (forall k, P'' m k = P m k * a + P' m k * b)%C ->
  forall k, sLd B T'' P'' m k = (sLd B T P m k * a + sLd B T' P' m k * b)%C.
Proof. intros HT HP k. unfold sLd, sinF. rewrite HT, !HP. ring. Qed.
Lemma Lf_lin R B a b p p' s m k :
  lin_mat a b (tp_t RN p) (tp_t RN p') (tp_t RN s) -> lin_mat a b (tp_p RN p) (tp_p RN p') (tp_p RN s) ->
  Lf1 R B s m k = (Lf1 R B p m k * a + Lf1 R B p' m k * b)%C /\ Lf2 R B s m k = (Lf2 R B p m k * a + Lf2 R B p' m k * b)%C.
Proof.
  intros H1 H2. unfold Lf1, Lf2. split; apply sLd_lin; intros j;
    try rewrite (Xt_lin R a b _ _ _ m j H1); try rewrite (Xt_lin R a b _ _ _ m j H2); ring.
Qed.

Lemma synth_lin L nc F F' F'' a b p q : (forall m k, F'' m k = F m k * a + F' m k * b)%C ->
  synth L nc F'' p q = (synth L nc F p q * a + synth L nc F' p q * b)%C.
Proof.
  intros H. unfold synth. rewrite !sumC_mulr, <- sumC_add. apply sumC_ext; intros i _.
  rewrite !sumC_mulr, <- sumC_add. apply sumC_ext; intros j _. rewrite H. ring.
Qed.
Lemma Fm_lin N M (w w' w'' : Z -> Z -> C) a b : (forall n m, is_mode N M n m -> w'' n m = w n m * a + w' n m * b)%C ->
  forall m k, Fm N M w'' m k = (Fm N M w m k * a + Fm N M w' m k * b)%C.
Proof.
  intros H m k. unfold Fm. destruct (Z.leb_spec (Z.abs m) M); [|ring]. unfold Fw.
  transitivity (ipow m * (sumC (Z.abs m) (N + 1) (fun n => w n m * RtoC (Yt n m k)) * a + sumC (Z.abs m) (N + 1) (fun n => w' n m * RtoC (Yt n m k)) * b))%C; [|ring].
  f_equal. rewrite !sumC_mulr, <- sumC_add. apply sumC_ext. intros n Hn. rewrite H by (unfold is_mode; lia). ring.
Qed.
Lemma Gm_lin N M (w w' w'' : Z -> Z -> C) a b : (forall n m, is_mode N M n m -> w'' n m = w n m * a + w' n m * b)%C ->
  forall m k, Gm N M w'' m k = (Gm N M w m k * a + Gm N M w' m k * b)%C.
Proof.
  intros H m k. unfold Gm. destruct (Z.leb_spec (Z.abs m) M); [|ring]. unfold Gw.
  transitivity (RtoC (-2 * IZR m) * (ipow m * (sumC (Z.abs m) (N + 1) (fun n => w n m * RtoC (Ws n m k)) * a + sumC (Z.abs m) (N + 1) (fun n => w' n m * RtoC (Ws n m k)) * b)))%C; [|ring].
  do 2 f_equal. rewrite !sumC_mulr, <- sumC_add. apply sumC_ext. intros n Hn. rewrite H by (unfold is_mode; lia). ring.
Qed.
