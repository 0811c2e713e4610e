(** * Integ: integrals of trigonometric polynomials over the sphere *)
From Coq Require Import ZArith List String Bool Lia Reals Lra.
From Coquelicot Require Import Coquelicot.
From Verif Require Import Py PyFacts Num Exact MCoefs SpecCoefs Obs CoefsFacts CoefsFacts2 CoefsFacts3 MPatt SpecPatt PattFacts Sums Harm
  MPysphi MOps Smooth Dft PysphiFacts TransFacts MTrans TransFacts2 TransFacts3 TransFacts4 SpecHarm HarmFacts SpecInt.
Import ListNotations.
Open Scope Z_scope.

Lemma is_CInt_ext f g a b l : (forall x, f x = g x) -> is_CInt f a b l -> is_CInt g a b l.
Proof. intros E [A B]. split; (eapply is_RInt_ext; [|eassumption]); intros x _; cbv beta; now rewrite E. Qed.
Lemma is_CInt_zero a b : is_CInt (fun _ => RtoC 0) a b (RtoC 0).
Proof.
  assert (H : is_RInt (fun _ : R => 0%R) a b 0%R).
  { pose proof (is_RInt_const (V := R_NormedModule) a b 0%R) as H.
    replace (scal (b - a)%R (0%R : R_NormedModule)) with 0%R in H by (unfold scal; cbn; unfold mult; cbn; ring). exact H. }
  split; exact H.
Qed.
Lemma is_CInt_plus f g a b l l' : is_CInt f a b l -> is_CInt g a b l' -> is_CInt (fun x => f x + g x)%C a b (l + l')%C.
Proof. intros [A B] [A' B']. split; cbn [fst snd Cplus]; apply (is_RInt_plus (V := R_NormedModule)); auto. Qed.
Lemma is_CInt_scal c f a b l : is_CInt f a b l -> is_CInt (fun x => c * f x)%C a b (c * l)%C.
Proof.
  intros [A B]. destruct c as [x y]. split; unfold Cmult; cbn [fst snd].
  - apply (is_RInt_minus (V := R_NormedModule)); apply (is_RInt_scal (V := R_NormedModule)); auto.
  - apply (is_RInt_plus (V := R_NormedModule)); apply (is_RInt_scal (V := R_NormedModule)); auto.
Qed.
Lemma is_CInt_scalr c f a b l : is_CInt f a b l -> is_CInt (fun x => f x * c)%C a b (l * c)%C.
Proof.
  intros H. rewrite Cmult_comm. eapply is_CInt_ext; [|apply (is_CInt_scal c), H]. intros x; cbv beta; ring.
Qed.
Lemma is_CInt_sum lo hi (f : Z -> R -> C) a b (l : Z -> C) : (forall k, lo <= k < hi -> is_CInt (f k) a b (l k)) ->
  is_CInt (fun x => sumC lo hi (fun k => f k x)) a b (sumC lo hi l).
Proof.
  revert lo hi. apply (gsum_ind (fun lo hi => (forall k, lo <= k < hi -> is_CInt (f k) a b (l k)) ->
    is_CInt (fun x => sumC lo hi (fun k => f k x)) a b (sumC lo hi l))).
  - intros lo hi H _. rewrite sumC_nil by lia. eapply is_CInt_ext; [|apply is_CInt_zero]. intros x; cbv beta; now rewrite sumC_nil by lia.
  - intros lo hi H IH Hk. rewrite sumC_cons by lia.
    eapply is_CInt_ext; [intros x; symmetry; apply sumC_cons; lia|].
    apply is_CInt_plus; [apply Hk; lia|]. apply IH. intros k Hk'. apply Hk. lia.
Qed.

Lemma int_cos nu a b : (nu <> 0)%R -> is_RInt (fun x => cos (nu * x)) a b ((sin (nu * b) - sin (nu * a)) / nu)%R.
Proof.
  intros H. replace ((sin (nu * b) - sin (nu * a)) / nu)%R with (minus (sin (nu * b) / nu) (sin (nu * a) / nu))%R
    by (unfold minus, plus, opp; cbn; field; auto).
  apply (is_RInt_derive (V := R_CompleteNormedModule) (fun x => sin (nu * x) / nu)%R).
  - intros x _. auto_derive; [auto|]. field. auto.
  - intros x _. apply continuity_pt_filterlim, derivable_continuous_pt. auto_derive_fun || idtac.
    apply ex_derive_Reals_0. auto_derive. auto.
Qed.
Lemma int_sin nu a b : (nu <> 0)%R -> is_RInt (fun x => sin (nu * x)) a b ((cos (nu * a) - cos (nu * b)) / nu)%R.
Proof.
  intros H. replace ((cos (nu * a) - cos (nu * b)) / nu)%R with (minus (- cos (nu * b) / nu) (- cos (nu * a) / nu))%R
    by (unfold minus, plus, opp; cbn; field; auto).
  apply (is_RInt_derive (V := R_CompleteNormedModule) (fun x => - cos (nu * x) / nu)%R).
  - intros x _. auto_derive; [auto|]. field. auto.
  - intros x _. apply continuity_pt_filterlim, derivable_continuous_pt.
    apply ex_derive_Reals_0. auto_derive. auto.
Qed.

Lemma e_i_cis t : e_i t = cisR t. Proof. reflexivity. Qed.
Lemma cis_PI nu : cisR (IZR nu * PI) = if Z.odd nu then (-1, 0)%R else (1, 0)%R.
Proof.
  rewrite (Zdiv2_odd_eqn nu) at 1. destruct (Z.odd nu).
  - rewrite plus_IZR, mult_IZR. replace ((2 * IZR (Z.div2 nu) + 1) * PI)%R with (2 * PI * IZR (Z.div2 nu) + PI)%R by ring.
    rewrite cisR_add, cisR_2PIk. unfold cisR. rewrite cos_PI, sin_PI. apply injective_projections; cbn; ring.
  - rewrite plus_IZR, mult_IZR. replace ((2 * IZR (Z.div2 nu) + 0) * PI)%R with (2 * PI * IZR (Z.div2 nu))%R by ring.
    rewrite cisR_2PIk. reflexivity.
Qed.

Lemma int_const x a b : is_RInt (fun _ : R => x) a b (x * (b - a))%R.
Proof.
  pose proof (is_RInt_const (V := R_NormedModule) a b x) as H.
  replace (scal (b - a)%R (x : R_NormedModule)) with (x * (b - a))%R in H by (unfold scal; cbn; unfold mult; cbn; ring). exact H.
Qed.

Lemma is_RInt_val (f : R -> R) (a b l l' : R) : is_RInt f a b l -> (l = l' :> R) -> is_RInt f a b l'.
Proof. now intros H <-. Qed.

Lemma int_cis_2PI m : is_CInt (fun x => cisR (IZR m * x)) 0 (2 * PI) (if m =? 0 then RtoC (2 * PI) else RtoC 0).
Proof.
  destruct (Z.eqb_spec m 0) as [->|H].
  - eapply (is_CInt_ext (fun _ => RtoC 1)).
    { intros x. rewrite Rmult_0_l, cisR_0. reflexivity. }
    split; cbn [fst snd RtoC].
    + eapply is_RInt_val; [apply int_const|ring].
    + eapply is_RInt_val; [apply int_const|ring].
  - assert (N : IZR m <> 0%R) by now apply not_0_IZR.
    assert (E : cisR (IZR m * (2 * PI)) = RtoC 1). { rewrite <- (cisR_2PIk m). f_equal. ring. }
    injection E as E1 E2. unfold cisR. split; cbn [fst snd RtoC].
    + eapply is_RInt_val; [now apply int_cos|].
      rewrite E2, Rmult_0_r, sin_0. field. auto.
    + eapply is_RInt_val; [now apply int_sin|].
      rewrite E1, Rmult_0_r, cos_0. field. auto.
Qed.

Lemma int_cis_PI nu : is_CInt (fun x => cisR (IZR nu * x)) 0 PI ((if nu =? 0 then RtoC PI else RtoC 0) - RtoC 2 * sig nu)%C.
Proof.
  destruct (Z.eqb_spec nu 0) as [->|H].
  - eapply (is_CInt_ext (fun _ => RtoC 1)).
    { intros x. rewrite Rmult_0_l, cisR_0. reflexivity. }
    unfold sig. cbn [Z.odd]. replace (RtoC PI - RtoC 2 * RtoC 0)%C with (RtoC PI) by ring.
    split; cbn [fst snd RtoC].
    + eapply is_RInt_val; [apply int_const|ring].
    + eapply is_RInt_val; [apply int_const|ring].
  - assert (N : IZR nu <> 0%R) by now apply not_0_IZR.
    pose proof (cis_PI nu) as E. unfold sig.
    assert (I : is_CInt (fun x => cisR (IZR nu * x)) 0 PI
       ((sin (IZR nu * PI) - sin (IZR nu * 0)) / IZR nu, (cos (IZR nu * 0) - cos (IZR nu * PI)) / IZR nu)%R).
    { split; cbn [fst snd]; [now apply int_cos|now apply int_sin]. }
    rewrite !Rmult_0_r, sin_0, cos_0 in I. unfold cisR in E. destruct (Z.odd nu).
    + injection E as E1 E2. rewrite E1, E2 in I.
      replace (RtoC 0 - RtoC 2 * (- Ci / RtoC (IZR nu)))%C with ((0 - 0) / IZR nu, (1 - -1) / IZR nu)%R; [exact I|].
      unfold Cdiv. rewrite <- RtoC_inv by auto. apply injective_projections; cbn; field; auto.
    + injection E as E1 E2. rewrite E1, E2 in I.
      replace (RtoC 0 - RtoC 2 * RtoC 0)%C with ((0 - 0) / IZR nu, (1 - 1) / IZR nu)%R; [exact I|].
      apply injective_projections; cbn; field; auto.
Qed.

(** ** Conjugates *)
Lemma Cconj_0 : Cconj (RtoC 0) = RtoC 0. Proof. apply injective_projections; cbn; ring. Qed.
Lemma Cconj_plus x y : Cconj (x + y)%C = (Cconj x + Cconj y)%C. Proof. apply injective_projections; cbn; ring. Qed.
Lemma Cconj_mult x y : Cconj (x * y)%C = (Cconj x * Cconj y)%C. Proof. apply injective_projections; cbn; ring. Qed.
Lemma Cconj_R r : Cconj (RtoC r) = RtoC r. Proof. apply injective_projections; cbn; ring. Qed.
Lemma Cconj_sum lo hi f : Cconj (sumC lo hi f) = sumC lo hi (fun k => Cconj (f k)).
Proof. unfold sumC. apply (gsum_hom (RtoC 0) Cplus Cconj); [apply Cconj_0|apply Cconj_plus]. Qed.
Lemma Cconj_cis t : Cconj (cisR t) = cisR (- t).
Proof. unfold cisR. rewrite cos_neg, sin_neg. reflexivity. Qed.
Lemma Cconj_ipow m : Cconj (ipow m) = ipow (- m).
Proof.
  unfold ipow, cipow. assert (H : 0 <= m mod 4 < 4) by (apply Z.mod_pos_bound; lia).
  destruct (Z.eq_dec (m mod 4) 0) as [E|E]; [rewrite Z.mod_opp_l_z, E by lia; apply injective_projections; cbn; ring|].
  rewrite Z.mod_opp_l_nz by lia.
  assert (m mod 4 = 1 \/ m mod 4 = 2 \/ m mod 4 = 3) as [->|[->| ->]] by lia; apply injective_projections; cbn; ring.
Qed.
Definition Dn (n m : Z) (t : R) : C := sumC (- n) (n + 1) (fun j => RtoC (Yt n m j) * cisR (- (IZR j * t)))%C.
Lemma Yc_conj n m t p : Cconj (Yc n m t p) = (ipow (- m) * cisR (- (IZR m * p)) * Dn n m t)%C.
Proof.
  unfold Yc, Dn. rewrite !Cconj_mult, Cconj_ipow, Cconj_cis, Cconj_sum. f_equal. apply sumC_ext. intros k _.
  now rewrite Cconj_mult, Cconj_cis, Cconj_R.
Qed.

(** ** The inner integral *)
Definition Acol (P M : Z) (a : Z -> Z -> C) (m : Z) (t : R) : C :=
  if Z.abs m <=? M then sumC (- P) (P + 1) (fun k => a m k * cisR (IZR k * t))%C else RtoC 0.
Lemma trig_poly_col P M a t p : trig_poly P M a t p = sumC (- M) (M + 1) (fun m => Acol P M a m t * cisR (IZR m * p))%C.
Proof.
  unfold trig_poly. apply sumC_ext. intros m Hm. unfold Acol. destruct (Z.leb_spec (Z.abs m) M); [|lia].
  rewrite sumC_mulr. apply sumC_ext. intros k _. now rewrite !e_i_cis.
Qed.
Lemma inner_int P M a n m t : 
  is_CInt (fun p => trig_poly P M a t p * Cconj (Yc n m t p))%C 0 (2 * PI)
    (RtoC (2 * PI) * ipow (- m) * Acol P M a m t * Dn n m t)%C.
Proof.
  eapply (is_CInt_ext (fun p => sumC (- M) (M + 1) (fun m' => (Acol P M a m' t * ipow (- m) * Dn n m t) * cisR (IZR (m' - m) * p)))%C).
  { intros p. rewrite trig_poly_col, Yc_conj, sumC_mulr. apply sumC_ext. intros m' _.
    replace (IZR (m' - m) * p)%R with (IZR m' * p + - (IZR m * p))%R by (rewrite minus_IZR; ring). rewrite cisR_add. ring. }
  replace (RtoC (2 * PI) * ipow (- m) * Acol P M a m t * Dn n m t)%C with
    (sumC (- M) (M + 1) (fun m' => (Acol P M a m' t * ipow (- m) * Dn n m t) * (if m' - m =? 0 then RtoC (2 * PI) else RtoC 0))%C).
  - apply is_CInt_sum. intros m' _. apply is_CInt_scal. apply int_cis_2PI.
  - destruct (Z.leb_spec (Z.abs m) M).
    + rewrite (sumC_single _ _ m); [|lia|].
      * rewrite Z.sub_diag. cbn [Z.eqb]. ring.
      * intros k _ Hk. destruct (Z.eqb_spec (k - m) 0); [lia|]. ring.
    + unfold Acol at 2. destruct (Z.leb_spec (Z.abs m) M); [lia|].
      rewrite sumC_zero; [ring|]. intros k Hk. destruct (Z.eqb_spec (k - m) 0); [lia|]. ring.
Qed.

(** ** Multiplication by the sine *)
Lemma sin_cis t : RtoC (sin t) = (RtoC 1 / (RtoC 2 * Ci) * (cisR t - cisR (- t)))%C.
Proof.
  unfold cisR. rewrite cos_neg, sin_neg. 
  replace (RtoC 1 / (RtoC 2 * Ci))%C with (0, -1/2)%R by (apply injective_projections; cbn; field).
  apply injective_projections; cbn; field.
Qed.
Lemma sum_sin1 P (b : Z -> C) t : 0 <= P -> (forall k, P < Z.abs k -> b k = RtoC 0) ->
  (sumC (- P) (P + 1) (fun k => b k * cisR (IZR k * t)) * RtoC (sin t))%C =
  sumC (- (P + 1)) (P + 2) (fun k => sin1 b k * cisR (IZR k * t))%C.
Proof.
  intros HP Hb. rewrite sin_cis. unfold sin1.
  rewrite (sumC_ext (- (P + 1)) (P + 2) _ (fun k => RtoC 1 / (RtoC 2 * Ci) * (b (k - 1)%Z * cisR (IZR k * t) - b (k + 1)%Z * cisR (IZR k * t)))%C) by (intros; ring).
  rewrite <- sumC_mul, sumC_sub.
  assert (E1 : sumC (- (P + 1)) (P + 2) (fun k => b (k - 1)%Z * cisR (IZR k * t))%C =
     (sumC (- P) (P + 1) (fun k => b k * cisR (IZR k * t)) * cisR t)%C).
  { rewrite <- (sumC_extend (- P) (P + 1) (- (P + 1) + -1) (P + 2 + -1) (fun k => b k * cisR (IZR k * t))%C); try lia.
    2:{ intros k _ Hk. rewrite Hb by lia. ring. }
    rewrite sumC_shift, sumC_mulr. apply sumC_ext. intros k _. replace (k + -1) with (k - 1) by lia.
    rewrite <- Cmult_assoc, <- cisR_add. do 2 f_equal. rewrite minus_IZR. ring. }
  assert (E2 : sumC (- (P + 1)) (P + 2) (fun k => b (k + 1)%Z * cisR (IZR k * t))%C =
     (sumC (- P) (P + 1) (fun k => b k * cisR (IZR k * t)) * cisR (- t))%C).
  { rewrite <- (sumC_extend (- P) (P + 1) (- (P + 1) + 1) (P + 2 + 1) (fun k => b k * cisR (IZR k * t))%C); try lia.
    2:{ intros k _ Hk. rewrite Hb by lia. ring. }
    rewrite sumC_shift, sumC_mulr. apply sumC_ext. intros k _.
    rewrite <- Cmult_assoc, <- cisR_add. do 2 f_equal. rewrite plus_IZR. ring. }
  rewrite E1, E2. ring.
Qed.

(** ** The code's analysis sum is that integral *)
Notation sg m := (RtoC (IZR (sgnpow m))).
Lemma sg_sq m : (sg m * sg m)%C = RtoC 1.
Proof. rewrite <- RtoC_mult, sign_sgn. reflexivity. Qed.
Lemma sig_opp j : sig (- j) = (- sig j)%C.
Proof. rewrite !sig_tau, tau_opp, RtoC_opp. ring. Qed.
Lemma sum_parC (f : Z -> C) n : 0 <= n -> (forall k, f (- k)%Z = f k) ->
  sumC (- n) (n + 1) f = (f 0%Z + RtoC 2 * sumC 1 (n + 1) f)%C.
Proof.
  intros Hn Hf. rewrite (sumC_split (- n) 0) by lia. rewrite (sumC_cons 0) by lia.
  rewrite (sumC_rev (- n) 0). replace (1 - 0) with 1 by lia. replace (1 - - n) with (n + 1) by lia.
  rewrite (sumC_ext 1 (n + 1) _ f) by (intros; apply Hf). replace (0 + 1) with 1 by lia.
  replace (RtoC 2) with (RtoC 1 + RtoC 1)%C by (rewrite <- RtoC_plus; reflexivity). ring.
Qed.
Lemma sum_revC Q f : sumC (- Q) (Q + 1) f = sumC (- Q) (Q + 1) (fun k => f (- k)).
Proof. rewrite sumC_rev. f_equal; lia. Qed.

Lemma An_double R Q f m n : 0 <= Q <= R - 1 -> 0 <= n -> (forall k, Q < Z.abs k -> f k = RtoC 0) ->
  (forall k : Z, f (- k)%Z = (- sg m * f k)%C) ->
  An R f m n = (RtoC (4 * PI) * ipow (- m) * sumC (- Q) (Q + 1) (fun k => sumC (- n) (n + 1) (fun j => f k * RtoC (Yt n m j) * sig (j - k))))%C.
Proof.
  intros HQ Hn Hs Hp.
  assert (H : forall j, hconv R f j = (RtoC (4 * PI) * sumC (- Q) (Q + 1) (fun k => f k * sig (j - k)))%C).
  { intros j. unfold hconv. f_equal. apply sumC_extend; try lia. intros k _ Hk. rewrite Hs by lia. ring. }
  assert (Hh : forall j, hconv R f (- j)%Z = (sg m * hconv R f j)%C).
  { intros j. rewrite !H. rewrite sum_revC.
    rewrite (sumC_ext _ _ _ (fun k => sg m * (f k * sig (j - k)))%C).
    - rewrite <- sumC_mul. ring.
    - intros k _. rewrite Hp. replace (- j - - k) with (- (j - k)) by lia. rewrite sig_opp. ring. }
  unfold An, bval.
  rewrite sumC_exch.
  transitivity (ipow (- m) * sumC (- n) (n + 1) (fun j => hconv R f j * RtoC (Yt n m j)))%C.
  - rewrite (sum_parC (fun j => hconv R f j * RtoC (Yt n m j))%C); [ring|exact Hn|].
    intros k. rewrite Hh, Yt_neg, RtoC_mult.
    transitivity ((sg m * sg m) * (hconv R f k * RtoC (Yt n m k)))%C; [ring|rewrite sg_sq; ring].
  - rewrite (Cmult_comm (RtoC (4 * PI))), <- Cmult_assoc. apply f_equal. rewrite sumC_mul.
    apply sumC_ext. intros j _. rewrite H, <- Cmult_assoc, sumC_mulr. f_equal. apply sumC_ext. intros k _. ring.
Qed.

Lemma sin1_par m (b : Z -> C) : (forall k : Z, b (- k)%Z = (sg m * b k)%C) -> forall k : Z, sin1 b (- k)%Z = (- sg m * sin1 b k)%C.
Proof.
  intros Hb k. unfold sin1. replace (- k - 1) with (- (k + 1)) by lia. replace (- k + 1) with (- (k - 1)) by lia. rewrite !Hb. ring.
Qed.
Lemma sin1_supp P (b : Z -> C) : (forall k, P < Z.abs k -> b k = RtoC 0) -> forall k, P + 1 < Z.abs k -> sin1 b k = RtoC 0.
Proof. intros Hb k Hk. unfold sin1. rewrite !Hb by lia. ring. Qed.

Lemma core_int R Q f m n : 0 <= Q <= R - 1 -> Z.abs m <= n -> (forall k, Q < Z.abs k -> f k = RtoC 0) ->
  (forall k : Z, f (- k)%Z = (- sg m * f k)%C) ->
  is_CInt (fun t => RtoC (2 * PI) * ipow (- m) * (sumC (- Q) (Q + 1) (fun k => f k * cisR (IZR k * t)) * Dn n m t))%C 0 PI (An R f m n).
Proof.
  intros HQ Hn Sf Pf.
  replace (An R f m n) with ((RtoC (2 * PI) * ipow (- m)) * (sumC (- Q) (Q + 1) (fun k => sumC (- n) (n + 1) (fun j =>
      f k * RtoC (Yt n m j) * ((if k - j =? 0 then RtoC PI else RtoC 0) - RtoC 2 * sig (k - j))))))%C.
  { apply is_CInt_scal.
    eapply (is_CInt_ext (fun t => sumC (- Q) (Q + 1) (fun k => sumC (- n) (n + 1) (fun j =>
      (f k * RtoC (Yt n m j)) * cisR (IZR (k - j) * t))))%C).
    { intros t. rewrite sumC_mulr. apply sumC_ext. intros k _. unfold Dn. rewrite sumC_mul. apply sumC_ext. intros j _.
      replace (IZR (k - j) * t)%R with (IZR k * t + - (IZR j * t))%R by (rewrite minus_IZR; ring). rewrite cisR_add. ring. }
    apply is_CInt_sum. intros k _. apply is_CInt_sum. intros j _. apply is_CInt_scal. apply int_cis_PI. }
  rewrite (An_double R Q f m n) by (auto; lia).
  assert (E0 : sumC (- Q) (Q + 1) (fun k => sumC (- n) (n + 1) (fun j => f k * RtoC (Yt n m j) * (if k - j =? 0 then RtoC PI else RtoC 0))%C) = RtoC 0).
  { assert (E : sumC (- Q) (Q + 1) (fun k => sumC (- n) (n + 1) (fun j => f k * RtoC (Yt n m j) * (if k - j =? 0 then RtoC PI else RtoC 0))%C) =
      (RtoC PI * sumC (- Q) (Q + 1) (fun k => f k * RtoC (Yt n m k)))%C).
    { rewrite sumC_mul. apply sumC_ext. intros k _. destruct (Z_lt_le_dec n (Z.abs k)).
      - rewrite Yt_supp by lia. rewrite sumC_zero; [ring|]. intros j Hj. destruct (Z.eqb_spec (k - j) 0); [lia|ring].
      - rewrite (sumC_single _ _ k); [|lia|].
        + rewrite Z.sub_diag. cbn [Z.eqb]. ring.
        + intros j _ Hj. destruct (Z.eqb_spec (k - j) 0); [lia|ring]. }
    rewrite E. set (S := sumC (- Q) (Q + 1) (fun k => f k * RtoC (Yt n m k))%C).
    assert (X : S = (- S)%C).
    { unfold S at 1. rewrite sum_revC. unfold S. rewrite sumC_opp. apply sumC_ext. intros k _. rewrite Pf, Yt_neg, RtoC_mult.
      transitivity (- ((sg m * sg m) * (f k * RtoC (Yt n m k))))%C; [ring|rewrite sg_sq; ring]. }
    assert (Z : S = RtoC 0).
    { destruct S as [x y]. injection X as X1 X2. apply injective_projections; cbn; lra. }
    rewrite Z. ring. }
  rewrite (sumC_ext _ _ _ (fun k => sumC (- n) (n + 1) (fun j => f k * RtoC (Yt n m j) * (if k - j =? 0 then RtoC PI else RtoC 0))%C
      + RtoC 2 * sumC (- n) (n + 1) (fun j => f k * RtoC (Yt n m j) * sig (j - k)))%C).
  2:{ intros k _. rewrite sumC_mul, <- sumC_add. apply sumC_ext. intros j _. replace (k - j) with (- (j - k)) by lia. rewrite sig_opp. ring. }
  rewrite sumC_add, E0, <- sumC_mul.
  replace (RtoC (4 * PI)) with (RtoC (2 * PI) * RtoC 2)%C by (rewrite <- RtoC_mult; f_equal; ring). ring.
Qed.

Lemma analysis_integral R P M a n m : 0 <= P <= R - 2 -> Z.abs m <= n ->
  (forall k : Z, a m (- k)%Z = (sg m * a m k)%C) ->
  is_sphere_int (fun t p => trig_poly P M a t p * Cconj (Yc n m t p))%C
    (An R (sin1 (trunc P (fun m k => if Z.abs m <=? M then a m k else RtoC 0) m)) m n).
Proof.
  intros HP Hn Ha. exists (fun t => RtoC (2 * PI) * ipow (- m) * Acol P M a m t * Dn n m t)%C.
  split; [intros t _; apply inner_int|].
  set (b := trunc P (fun m k => if Z.abs m <=? M then a m k else RtoC 0) m).
  assert (Sb : forall k, P < Z.abs k -> b k = RtoC 0) by (intros k Hk; apply fsupp_trunc; auto).
  assert (Pb : forall k : Z, b (- k)%Z = (sg m * b k)%C).
  { intros k. unfold b, trunc. rewrite Z.abs_opp. destruct (Z.abs k <=? P); [|ring]. destruct (Z.abs m <=? M); [apply Ha|ring]. }
  eapply (is_CInt_ext (fun t => (RtoC (2 * PI) * ipow (- m)) * (sumC (- (P + 1)) (P + 1 + 1) (fun k => sin1 b k * cisR (IZR k * t)) * Dn n m t))%C).
  { intros t. assert (E : Acol P M a m t = sumC (- P) (P + 1) (fun k => b k * cisR (IZR k * t))%C).
    - unfold Acol, b, trunc. destruct (Z.abs m <=? M).
      + apply sumC_ext. intros k Hk. destruct (Z.leb_spec (Z.abs k) P); [auto|lia].
      + symmetry. apply sumC_zero. intros k _. destruct (Z.abs k <=? P); ring.
    - rewrite E. replace (P + 1 + 1) with (P + 2) by lia. rewrite <- sum_sin1 by (auto; lia). ring. }
  set (f := sin1 b).
  assert (Pf : forall k : Z, f (- k)%Z = (- sg m * f k)%C) by now apply sin1_par.
  assert (Sf : forall k, P + 1 < Z.abs k -> f k = RtoC 0) by now apply sin1_supp.
  apply core_int; auto; lia.
Qed.
