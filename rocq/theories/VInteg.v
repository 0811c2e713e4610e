(** * VInteg: the vector transform as integrals over the sphere *)
From Coq Require Import ZArith List String Bool Lia Reals Lra Permutation.
From Coquelicot Require Import Coquelicot.
From Verif Require Import Py PyFacts Num Exact MCoefs SpecCoefs Obs CoefsFacts CoefsFacts2 CoefsFacts3 MPatt SpecPatt PattFacts Sums Harm
  MPysphi MOps Smooth Dft PysphiFacts TransFacts MTrans TransFacts2 TransFacts3 TransFacts4 SpecHarm HarmFacts VHarm SpecInt Integ Integ2.
Import ListNotations.
Open Scope Z_scope.

Lemma is_CInt_ext0 f g a b l : (a <= b)%R -> (forall x, (a < x < b)%R -> f x = g x) -> is_CInt f a b l -> is_CInt g a b l.
Proof.
  intros Hab E [A B]. split; (eapply is_RInt_ext; [|eassumption]); intros x Hx;
    rewrite Rmin_left, Rmax_right in Hx by auto; cbv beta; now rewrite E.
Qed.
Lemma is_CInt_val f a b l l' : is_CInt f a b l -> l = l' -> is_CInt f a b l'.
Proof. now intros H <-. Qed.

(** ** Integration by parts *)
Lemma int_dcis_PI nu : is_CInt (fun x => Ci * RtoC (IZR nu) * cisR (IZR nu * x))%C 0 PI (cisR (IZR nu * PI) - RtoC 1)%C.
Proof.
  destruct (Z.eq_dec nu 0) as [->|H].
  - rewrite Rmult_0_l, cisR_0. eapply (is_CInt_ext (fun _ => RtoC 0)); [intros x; ring|].
    eapply is_CInt_val; [apply is_CInt_zero|]. apply injective_projections; cbn; ring.
  - assert (N : IZR nu <> 0%R) by now apply not_0_IZR.
    eapply is_CInt_val; [apply is_CInt_scal, int_cis_PI|].
    destruct (Z.eqb_spec nu 0); [lia|]. rewrite cis_PI. unfold sig. destruct (Z.odd nu).
    + unfold Cdiv. rewrite <- RtoC_inv by auto. apply injective_projections; cbn; field; auto.
    + apply injective_projections; cbn; ring.
Qed.

Definition Up (Q : Z) (u : Z -> C) (t : R) : C := sumC (- Q) (Q + 1) (fun k => u k * cisR (IZR k * t))%C.
Definition dUp (Q : Z) (u : Z -> C) (t : R) : C := sumC (- Q) (Q + 1) (fun k => Ci * RtoC (IZR k) * (u k * cisR (IZR k * t)))%C.
Definition dDn (n m : Z) (t : R) : C := sumC (- n) (n + 1) (fun j => - (Ci * RtoC (IZR j)) * (RtoC (Yt n m j) * cisR (- (IZR j * t))))%C.

Lemma by_parts Q u n m : 
  is_CInt (fun t => dUp Q u t * Dn n m t + Up Q u t * dDn n m t)%C 0 PI (Up Q u PI * Dn n m PI - Up Q u 0 * Dn n m 0)%C.
Proof.
  assert (E : forall t, (Up Q u t * Dn n m t)%C = sumC (- Q) (Q + 1) (fun k => sumC (- n) (n + 1) (fun j => (u k * RtoC (Yt n m j)) * cisR (IZR (k - j) * t))%C)).
  { intros t. unfold Up, Dn. rewrite sumC_mulr. apply sumC_ext. intros k _. rewrite sumC_mul. apply sumC_ext. intros j _.
    replace (IZR (k - j) * t)%R with (IZR k * t + - (IZR j * t))%R by (rewrite minus_IZR; ring). rewrite cisR_add. ring. }
  eapply (is_CInt_ext (fun t => sumC (- Q) (Q + 1) (fun k => sumC (- n) (n + 1) (fun j => (u k * RtoC (Yt n m j)) * (Ci * RtoC (IZR (k - j)) * cisR (IZR (k - j) * t)))%C))).
  { intros t. unfold Up, dUp, Dn, dDn. rewrite !sumC_mulr, <- sumC_add. apply sumC_ext. intros k _. rewrite !sumC_mul, <- sumC_add. apply sumC_ext. intros j _.
    replace (IZR (k - j) * t)%R with (IZR k * t + - (IZR j * t))%R by (rewrite minus_IZR; ring). rewrite cisR_add, minus_IZR, RtoC_minus. ring. }
  rewrite !E, <- sumC_sub.
  rewrite (sumC_ext _ _ _ (fun k => sumC (- n) (n + 1) (fun j => (u k * RtoC (Yt n m j)) * (cisR (IZR (k - j) * PI) - RtoC 1))%C)).
  - apply is_CInt_sum. intros k _. apply is_CInt_sum. intros j _. apply is_CInt_scal. apply int_dcis_PI.
  - intros k _. rewrite <- sumC_sub. apply sumC_ext. intros j _. rewrite (Rmult_0_r (IZR (k - j))), cisR_0. ring.
Qed.

Lemma dtheta_conj n m t p : Z.abs m <= n -> Cconj (dtheta_sph_harm n m t p) = (ipow (- m) * cisR (- (IZR m * p)) * dDn n m t)%C.
Proof.
  intros H. rewrite (dtheta_Ev n m n) by lia. unfold Ev. rewrite !Cconj_mult, Cconj_ipow, Cconj_cis, Cconj_sum.
  unfold dDn. f_equal. rewrite sumC_mul. apply sumC_ext. intros k _. rewrite Cconj_mult, Cconj_cis, Cconj_R. unfold Dq.
  rewrite RtoC_mult. replace (Cconj Ci) with (- Ci)%C by (apply injective_projections; cbn; ring). ring.
Qed.

(** ** The phi integral against exp(-i m phi) *)
Lemma phi_int P M a m t (c : C) : 
  is_CInt (fun p => trig_poly P M a t p * (c * cisR (- (IZR m * p))))%C 0 (2 * PI) (RtoC (2 * PI) * (Acol P M a m t * c))%C.
Proof.
  eapply (is_CInt_ext (fun p => sumC (- M) (M + 1) (fun m' => (Acol P M a m' t * c) * cisR (IZR (m' - m) * p)))%C).
  { intros p. rewrite trig_poly_col, sumC_mulr. apply sumC_ext. intros m' _.
    replace (IZR (m' - m) * p)%R with (IZR m' * p + - (IZR m * p))%R by (rewrite minus_IZR; ring). rewrite cisR_add. ring. }
  replace (RtoC (2 * PI) * (Acol P M a m t * c))%C with
    (sumC (- M) (M + 1) (fun m' => (Acol P M a m' t * c) * (if m' - m =? 0 then RtoC (2 * PI) else RtoC 0))%C).
  - apply is_CInt_sum. intros m' _. apply is_CInt_scal. apply int_cis_2PI.
  - destruct (Z.leb_spec (Z.abs m) M).
    + rewrite (sumC_single _ _ m); [|lia|].
      * rewrite Z.sub_diag. cbn [Z.eqb]. ring.
      * intros k _ Hk. destruct (Z.eqb_spec (k - m) 0); [lia|]. ring.
    + unfold Acol at 2. destruct (Z.leb_spec (Z.abs m) M); [lia|].
      rewrite sumC_zero; [ring|]. intros k Hk. destruct (Z.eqb_spec (k - m) 0); [lia|]. ring.
Qed.

Lemma Acol_cut P M a m t : Acol P M a m t = Up P (cut P M a m) t.
Proof.
  unfold Acol, Up, cut. destruct (Z.leb_spec (Z.abs m) M); cbn [andb].
  - apply sumC_ext. intros k Hk. destruct (Z.leb_spec (Z.abs k) P); [auto|lia].
  - symmetry. apply sumC_zero. intros k _. ring.
Qed.

(** ** The analysis *)
Lemma vanal R B P M aT aP n m : 0 <= P <= R - 2 -> Z.abs m <= n -> 1 <= n -> - B < m < B ->
  (forall k : Z, cut P M aT m (- k)%Z = (- sg m * cut P M aT m k)%C) ->
  (forall k : Z, cut P M aP m (- k)%Z = (- sg m * cut P M aP m k)%C) ->
  is_sphere_int (fun t p => trig_poly P M aT t p * Cconj (vsh_theta n m (RtoC 1) (RtoC 0) t p) +
                            trig_poly P M aP t p * Cconj (vsh_phi n m (RtoC 1) (RtoC 0) t p))%C
    (An R (sLd B (cut P M aT) (cut P M aP) m) m n * nv n)%C.
Proof.
  intros HP Hn Hn1 Hm HT HPp.
  set (ip := ipow (- m)). set (bT := cut P M aT m) in *. set (bP := cut P M aP m) in *.
  assert (ST : forall k, P < Z.abs k -> bT k = RtoC 0) by (intros k Hk; apply cut_out; auto).
  assert (SP : forall k, P < Z.abs k -> bP k = RtoC 0) by (intros k Hk; apply cut_out; auto).
  set (nn := nv n). assert (Enn : RtoC (1 / sqrt (IZR n * (IZR n + 1))) = nn) by (unfold nn, nv; destruct (Z.eqb_spec n 0); [lia|reflexivity]).
  set (f := sLd B (cut P M aT) (cut P M aP) m).
  exists (fun t => RtoC (2 * PI) * (Acol P M aT m t * (- nn * RtoC (IZR m / sin t) * ip * Dn n m t)) +
                   RtoC (2 * PI) * (Acol P M aP m t * (Ci * nn * ip * dDn n m t)))%C.
  split.
  - intros t _. apply is_CInt_plus.
    + eapply is_CInt_ext; [|apply (phi_int P M aT m t (- nn * RtoC (IZR m / sin t) * ip * Dn n m t)%C)].
      intros p. cbv beta. f_equal. unfold vsh_theta.
      transitivity (- nn * RtoC (IZR m / sin t) * Cconj (Yc n m t p))%C.
      * rewrite Yc_conj. fold ip. ring.
      * rewrite Yc_sph_harm by auto.
        rewrite !Cconj_mult, Cconj_plus, !Cconj_mult, Cconj_opp, !Cconj_R, Enn. ring.
    + eapply is_CInt_ext; [|apply (phi_int P M aP m t (Ci * nn * ip * dDn n m t)%C)].
      intros p. cbv beta. f_equal. unfold vsh_phi.
      rewrite !Cconj_mult, Cconj_plus, !Cconj_mult, Cconj_opp, !Cconj_R, Enn, dtheta_conj by auto. fold ip.
      replace (Cconj Ci) with (- Ci)%C by (apply injective_projections; cbn; ring). ring.
  - pose proof PI_RGT_0 as HPI. set (u := sin1 bP).
    assert (Su : forall k, P + 1 < Z.abs k -> u k = RtoC 0) by (intros; apply (sin1_supp P); auto).
    assert (Eu : forall t, (Up P bP t * RtoC (sin t))%C = Up (P + 1) u t).
    { intros t. unfold Up, u. replace (P + 1 + 1) with (P + 2) by lia. apply sum_sin1; [lia|auto]. }
    assert (Ef : forall k, f k = (RtoC (IZR k) * u k - RtoC (IZR m) * bT k)%C).
    { intros k. unfold f, sLd, mfix. destruct (Z.eqb_spec m B); [lia|]. reflexivity. }
    assert (EF : forall t, Up (P + 1) f t = (- Ci * dUp (P + 1) u t - RtoC (IZR m) * Up P bT t)%C).
    { intros t. unfold Up, dUp. 
      rewrite <- (sumC_extend (- P) (P + 1) (- (P + 1)) (P + 1 + 1) (fun k => bT k * cisR (IZR k * t))%C); try lia.
      2:{ intros k _ Hk. rewrite ST by lia. ring. }
      rewrite !sumC_mul, <- sumC_sub. apply sumC_ext. intros k _. rewrite Ef.
      transitivity (- (Ci * Ci) * (RtoC (IZR k) * u k * cisR (IZR k * t)) - RtoC (IZR m) * bT k * cisR (IZR k * t))%C; [|ring].
      rewrite Ci_Ci. ring. }
    eapply (is_CInt_ext0 (fun t => nn * (RtoC (2 * PI) * ip * (Up (P + 1) f t * Dn n m t)) +
       (Ci * nn * RtoC (2 * PI) * ip) * (dUp (P + 1) u t * Dn n m t + Up (P + 1) u t * dDn n m t))%C); [lra| |].
    + intros t Ht. rewrite EF, <- Eu, !Acol_cut. fold bT bP.
      assert (Hs : (sin t <> 0)%R) by (pose proof (sin_gt_0 t (proj1 Ht) (proj2 Ht)); lra).
      assert (Es : (RtoC (IZR m / sin t) * RtoC (sin t))%C = RtoC (IZR m)) by (rewrite <- RtoC_mult; f_equal; field; auto).
      rewrite Cmult_plus_distr_r.
      transitivity (- nn * RtoC (2 * PI) * ip * Up P bT t * Dn n m t * (RtoC (IZR m / sin t) * RtoC (sin t)) +
        RtoC (2 * PI) * (Up P bP t * (Ci * nn * ip * dDn n m t)) * RtoC (sin t))%C; [rewrite Es; ring|ring].
    + eapply is_CInt_val.
      * apply is_CInt_plus; [apply is_CInt_scal|apply is_CInt_scal; apply by_parts].
        apply (core_int R (P + 1) f m n); auto; try lia.
        -- intros k Hk. rewrite Ef, Su, ST by lia. ring.
        -- intros k. rewrite !Ef. rewrite HT. unfold u.
           assert (X : sin1 bP (- k) = (sg m * sin1 bP k)%C).
           { unfold sin1. replace (- k - 1) with (- (k + 1)) by lia. replace (- k + 1) with (- (k - 1)) by lia. rewrite !HPp. ring. }
           rewrite X, opp_IZR, RtoC_opp. ring.
      * rewrite <- !Eu, sin_PI, sin_0. ring.
Qed.

Lemma vanal2 R B P M aT aP n m : 0 <= P <= R - 2 -> Z.abs m <= n -> 1 <= n -> - B < m < B ->
  (forall k : Z, cut P M aT m (- k)%Z = (- sg m * cut P M aT m k)%C) ->
  (forall k : Z, cut P M aP m (- k)%Z = (- sg m * cut P M aP m k)%C) ->
  is_sphere_int (fun t p => trig_poly P M aT t p * Cconj (vsh_theta n m (RtoC 0) (RtoC 1) t p) +
                            trig_poly P M aP t p * Cconj (vsh_phi n m (RtoC 0) (RtoC 1) t p))%C
    (An R (sLd B (fun m k => - Ci * cut P M aP m k)%C (fun m k => Ci * cut P M aT m k)%C m) m n * nv n)%C.
Proof.
  intros HP Hn Hn1 Hm HT HPp.
  assert (C1 : forall c a m k, cut P M (fun m k => c * a m k)%C m k = (c * cut P M a m k)%C).
  { intros c a m' k. unfold cut. destruct (_ && _); [auto|ring]. }
  pose proof (vanal R B P M (fun m k => - Ci * aP m k)%C (fun m k => Ci * aT m k)%C n m HP Hn Hn1 Hm) as H.
  assert (C2 : forall c a t p, trig_poly P M (fun m k => c * a m k)%C t p = (c * trig_poly P M a t p)%C).
  { intros c a t p. unfold trig_poly. rewrite sumC_mul. apply sumC_ext. intros m' _. rewrite sumC_mul. apply sumC_ext. intros k _. ring. }
  match goal with |- is_sphere_int _ ?w => match type of H with _ -> _ -> is_sphere_int _ ?u => replace w with u end end.
  - eapply is_sphere_int_ext; [|apply H]; [|intros k; rewrite !C1, HPp; ring|intros k; rewrite !C1, HT; ring].
    intros t p. cbv beta. rewrite !C2. unfold vsh_theta, vsh_phi.
    rewrite !Cconj_mult, !Cconj_plus, !Cconj_mult, !Cconj_opp, !Cconj_R.
    replace (Cconj Ci) with (- Ci)%C by (apply injective_projections; cbn; ring).
    set (T := trig_poly P M aT t p). set (Q := trig_poly P M aP t p). set (Y := Cconj (sph_harm n m t p)).
    set (D := Cconj (dtheta_sph_harm n m t p)). set (r := RtoC (IZR m / sin t)). set (s := RtoC (1 / _)).
    transitivity ((Ci * Ci) * (T * s * D) + Ci * Q * s * r * Y)%C; [ring|]. rewrite Ci_Ci. ring.
  - f_equal. apply An_ext. intros nu _. apply sLd_ext; intros k; apply C1.
Qed.

(** ** Coefficients of tangent fields *)
Lemma coef_antisym P M a : 0 <= P -> 0 <= M -> tangent_on_sphere (trig_poly P M a) ->
  forall m k, cut P M a m (- k) = (- sg m * cut P M a m k)%C.
Proof.
  intros HP HM HS m k. unfold cut. rewrite Z.abs_opp. destruct (Z.leb_spec (Z.abs m) M) as [Hm|]; cbn [andb]; [|ring].
  destruct (Z.leb_spec (Z.abs k) P) as [Hk|]; [|ring].
  pose proof (trig_poly_inj P M (fun m k => - sg m * a m (- k)%Z)%C a HP HM) as I. cbv beta in I.
  assert (E : forall t p, trig_poly P M (fun m k => - sg m * a m (- k)%Z)%C t p = trig_poly P M a t p).
  { intros t p. transitivity (- trig_poly P M a (- t) (p + PI))%C.
    - rewrite trig_poly_turn. unfold trig_poly. rewrite sumC_opp. apply sumC_ext. intros m' _. rewrite sumC_opp. apply sumC_ext. intros k' _. ring.
    - rewrite HS. ring. }
  rewrite <- (I E m k Hm Hk). transitivity ((sg m * sg m) * a m (- k)%Z)%C; [rewrite sg_sq; ring|ring].
Qed.

Lemma gridv_antisym F L B i j : 0 < L -> 0 < B -> tangent_on_sphere F -> gridv F L (2 * B) (- i) (j + B) = (- gridv F L (2 * B) i j)%C.
Proof.
  intros HL HB HF. unfold gridv. rewrite <- (HF (2 * PI * IZR i / IZR L)%R).
  assert (IZR L <> 0)%R by (apply not_0_IZR; lia). assert (IZR B <> 0)%R by (apply not_0_IZR; lia).
  f_equal; [rewrite opp_IZR; field; auto|rewrite plus_IZR, mult_IZR; field; auto].
Qed.

Lemma sampled_pattern_neg P M a (x : mat RN) R B : 0 <= P -> 0 <= M -> tangent_on_sphere (trig_poly P M a) ->
  mat_wf RN x -> mt_nr RN x = R -> mt_nc RN x = 2 * B -> 2 <= R -> 1 <= B ->
  (forall i j, 0 <= i < R -> 0 <= j < 2 * B -> mgetR x i j = gridv (trig_poly P M a) (2 * R - 2) (2 * B) i j) ->
  continue_sphere RN x (-1) = Ok (mmake RN (2 * R - 2) (2 * B) (gridv (trig_poly P M a) (2 * R - 2) (2 * B))).
Proof.
  intros HP HM HS Hw Hr Hc HR HB Hx. destruct (continue_sphere_ok x (-1) ltac:(lia)) as (d & E & N1 & N2 & W & S & V).
  rewrite E. f_equal. rewrite Hr in *. rewrite Hc in *. specialize (W ltac:(lia)).
  assert (Ev : (2 * B) mod 2 = 0) by (rewrite Z.mul_comm; apply Z.mod_mul; lia).
  specialize (S (or_intror eq_refl) Ev). set (g := gridv (trig_poly P M a) (2 * R - 2) (2 * B)) in *.
  assert (Gm : forall i j, g (i mod (2 * R - 2)) (j mod (2 * B)) = g i j) by (intros; apply gridv_mod; lia).
  assert (Gs : forall i j, g (- i) (j + B) = (- g i j)%C) by (intros; apply gridv_antisym; auto; lia).
  assert (SB : forall j, shiftc (2 * B) j = (j + B) mod (2 * B)).
  { intros j. unfold shiftc. f_equal. rewrite Z.mul_comm, Z.div_mul by lia. lia. }
  assert (M1 : forall z : C, (RtoC (IZR (-1)) * - z)%C = z) by (intros z; apply injective_projections; cbn; ring).
  assert (T : forall i j, 0 <= i < R -> 0 <= j < 2 * B -> mgetR d i j = g i j).
  { intros i j Hi Hj. rewrite V by lia. destruct ((i =? 0) || (i =? R - 1)) eqn:Ep.
    - pose proof (shiftc_range (2 * B) j ltac:(lia)). rewrite !Hx by lia.
      assert (Q : g i (shiftc (2 * B) j) = (- g i j)%C).
      { rewrite SB. transitivity (g (i mod (2 * R - 2)) ((j + B) mod (2 * B))); [now rewrite (Z.mod_small i) by lia|].
        rewrite Gm. rewrite <- (Gs i j). rewrite <- (Gm i (j + B)), <- (Gm (- i) (j + B)). f_equal.
        apply orb_prop in Ep. destruct Ep as [Ep|Ep]; apply Z.eqb_eq in Ep; subst i; [reflexivity|].
        replace (- (R - 1)) with ((R - 1) + (-1) * (2 * R - 2)) by lia. now rewrite Z.mod_add by lia. }
      cbn [rc RN] in *. rewrite Q. rewrite M1. apply ds_comb_same.
    - apply Hx; lia. }
  apply (mat_ext RN); auto; try (apply mmake_wf; lia).
  intros i j Hi Hj. rewrite N1 in Hi. rewrite N2 in Hj. etransitivity; [|symmetry; apply mget_mmake; auto].
  destruct (Z_lt_le_dec i R); [apply T; lia|].
  specialize (S i j). rewrite N1, N2 in S. specialize (S Hi Hj).
  assert (Sx : forall x y : C, y = (RtoC (IZR (-1)) * x)%C -> x = (RtoC (IZR (-1)) * y)%C)
    by (intros u v ->; apply injective_projections; cbn; ring).
  apply Sx in S. etransitivity; [exact S|]. unfold flip.
  pose proof (shiftc_range (2 * B) j ltac:(lia)).
  rewrite (Z.mod_small (2 * R - 2 - i)) by lia. rewrite T by lia. rewrite SB.
  transitivity (RtoC (IZR (-1)) * g ((2 * R - 2 - i) mod (2 * R - 2)) ((j + B) mod (2 * B)))%C; [now rewrite (Z.mod_small (2 * R - 2 - i)) by lia|].
  rewrite Gm. rewrite <- (M1 (g i j)). f_equal. rewrite <- (Gs i j), <- (Gm (- i) (j + B)), <- (Gm (2 * R - 2 - i) (j + B)). f_equal.
  replace (2 * R - 2 - i) with (- i + 1 * (2 * R - 2)) by lia. now rewrite Z.mod_add by lia.
Qed.

(** ** The analysed values are the inner products *)
Definition gpat (P M : Z) (a : Z -> Z -> C) (R B : Z) : mat RN :=
  mmake RN (2 * R - 2) (2 * B) (gridv (trig_poly P M a) (2 * R - 2) (2 * B)).
Lemma Xt_gpat P M a R B m k : 0 <= P <= R - 2 -> 0 <= M < B -> - B < m < B -> Xt R (gpat P M a R B) m k = cut P M a m k.
Proof.
  intros HP HM Hm. unfold Xt, gpat.
  replace (mmake RN (2 * R - 2) (2 * B) (gridv (trig_poly P M a) (2 * R - 2) (2 * B))) with
        (mmake RN (2 * R - 2) (2 * B) (synth (2 * R - 2) (2 * B) (cut P M a))).
  - apply trunc_synth; try lia. intros x y Hxy. apply cut_out. lia.
  - apply mmake_ext; try lia. intros i j _ _. apply synth_trig_poly; lia.
Qed.

Lemma vspht_val_integral P M aT aP R B n m : 0 <= P <= R - 2 -> 0 <= M < B ->
  tangent_on_sphere (trig_poly P M aT) -> tangent_on_sphere (trig_poly P M aP) ->
  Z.abs m <= n -> 1 <= n -> - B < m < B ->
  let p := mkTP RN (gpat P M aT R B) (gpat P M aP R B) in
  vinner (trig_poly P M aT) (trig_poly P M aP) (vsh_theta n m (RtoC 1) (RtoC 0)) (vsh_phi n m (RtoC 1) (RtoC 0)) (An R (Lf1 R B p m) m n * nv n)%C /\
  vinner (trig_poly P M aT) (trig_poly P M aP) (vsh_theta n m (RtoC 0) (RtoC 1)) (vsh_phi n m (RtoC 0) (RtoC 1)) (An R (Lf2 R B p m) m n * nv n)%C.
Proof.
  intros HP HM HT HPp Hn Hn1 Hm p.
  pose proof (coef_antisym P M aT ltac:(lia) ltac:(lia) HT m) as S1. pose proof (coef_antisym P M aP ltac:(lia) ltac:(lia) HPp m) as S2.
  split.
  - rewrite (An_ext R (Lf1 R B p m) (sLd B (cut P M aT) (cut P M aP) m)); [now apply vanal|].
    intros nu _. unfold Lf1. apply sLd_ext; intros k; apply Xt_gpat; auto.
  - rewrite (An_ext R (Lf2 R B p m) (sLd B (fun m k => - Ci * cut P M aP m k)%C (fun m k => Ci * cut P M aT m k)%C m)); [now apply vanal2|].
    intros nu _. unfold Lf2. apply sLd_ext; intros k; unfold p; cbn [tp_t tp_p]; now rewrite Xt_gpat.
Qed.

(** ** Vector harmonic series *)
Lemma vsh0 c1 c2 t p : sin t <> 0%R -> vsh_theta 0 0 c1 c2 t p = RtoC 0 /\ vsh_phi 0 0 c1 c2 t p = RtoC 0.
Proof.
  intros Hs. unfold vsh_theta, vsh_phi.
  assert (E : dtheta_sph_harm 0 0 t p = RtoC 0).
  { rewrite (dtheta_Ev 0 0 0) by lia. unfold Ev. rewrite (sumC_single _ _ 0) by lia. unfold Dq. rewrite (Rmult_0_l (Yt 0 0 0)). ring. }
  assert (E2 : RtoC (0 / sin t) = RtoC 0) by (f_equal; field; auto).
  rewrite E, E2. split; ring.
Qed.
Lemma vsh_lin n m c1 c2 t p : 
  vsh_theta n m c1 c2 t p = (c1 * vsh_theta n m (RtoC 1) (RtoC 0) t p + c2 * vsh_theta n m (RtoC 0) (RtoC 1) t p)%C /\
  vsh_phi n m c1 c2 t p = (c1 * vsh_phi n m (RtoC 1) (RtoC 0) t p + c2 * vsh_phi n m (RtoC 0) (RtoC 1) t p)%C.
Proof. unfold vsh_theta, vsh_phi. split; ring. Qed.

Definition wn (f : Z -> Z -> C) (n m : Z) : C := (f n m * nv n)%C.
Lemma vseries_trig N M f1 f2 t p : 0 <= M <= N -> sin t <> 0%R ->
  vharm_series vsh_theta N M f1 f2 t p = trig_poly N M (Tm N M (wn f1) (wn f2)) t p /\
  vharm_series vsh_phi N M f1 f2 t p = trig_poly N M (Pm N M (wn f1) (wn f2)) t p.
Proof.
  intros HM Hs. unfold vharm_series, trig_poly.
  split; apply sumC_ext; intros m Hm; symmetry.
  - transitivity ((Ci * sumC (- N) (N + 1) (fun k => Gm N M (wn f1) m k * cisR (IZR k * t)) +
       - Ci * sumC (- N) (N + 1) (fun k => RtoC (IZR k) * Fm N M (wn f2) m k * cisR (IZR k * t))) * cisR (IZR m * p))%C.
    { rewrite !sumC_mul, <- sumC_add, sumC_mulr. apply sumC_ext. intros k _. unfold Tm.
      change (e_i (IZR k * t)) with (cisR (IZR k * t)). change (e_i (IZR m * p)) with (cisR (IZR m * p)). ring. }
    rewrite Cmult_plus_distr_r, <- !Cmult_assoc, col_G, col_F by (auto; lia).
    rewrite !sumC_mul, <- sumC_add. apply sumC_ext. intros n Hn.
    destruct (Z.eq_dec n 0) as [->|Hn0].
    + replace m with 0 by lia. destruct (vsh0 (f1 0 0) (f2 0 0) t p Hs) as [-> _]. unfold wn, nv. cbn [Z.eqb]. ring.
    + unfold wn, nv, vsh_theta. destruct (Z.eqb_spec n 0); [lia|].
      set (Y := sph_harm n m t p). set (D := dtheta_sph_harm n m t p). set (r := RtoC (IZR m / sin t)). set (s := RtoC (1 / _)).
      transitivity ((Ci * Ci) * s * (f1 n m * (r * Y) + f2 n m * D))%C; [ring|]. rewrite Ci_Ci. ring.
  - transitivity ((sumC (- N) (N + 1) (fun k => RtoC (IZR k) * Fm N M (wn f1) m k * cisR (IZR k * t)) +
       (Ci * Ci) * sumC (- N) (N + 1) (fun k => Gm N M (wn f2) m k * cisR (IZR k * t))) * cisR (IZR m * p))%C.
    { rewrite sumC_mul, <- sumC_add, sumC_mulr. apply sumC_ext. intros k _. unfold Pm.
      change (e_i (IZR k * t)) with (cisR (IZR k * t)). change (e_i (IZR m * p)) with (cisR (IZR m * p)). ring. }
    rewrite Cmult_plus_distr_r, <- !Cmult_assoc, col_G, col_F by (auto; lia).
    rewrite !sumC_mul, <- sumC_add. apply sumC_ext. intros n Hn.
    destruct (Z.eq_dec n 0) as [->|Hn0].
    + replace m with 0 by lia. destruct (vsh0 (f1 0 0) (f2 0 0) t p Hs) as [_ ->]. unfold wn, nv. cbn [Z.eqb]. ring.
    + unfold wn, nv, vsh_phi. destruct (Z.eqb_spec n 0); [lia|].
      set (Y := sph_harm n m t p). set (D := dtheta_sph_harm n m t p). set (r := RtoC (IZR m / sin t)). set (s := RtoC (1 / _)).
      transitivity (- Ci * s * (f1 n m * D) + (Ci * Ci) * (Ci * s * (f2 n m * (r * Y))))%C; [ring|]. rewrite Ci_Ci. ring.
Qed.
Lemma sin_open t : (0 < t < PI)%R -> sin t <> 0%R.
Proof. intros H. pose proof (sin_gt_0 t (proj1 H) (proj2 H)). lra. Qed.
Lemma cut_Tm N M w1 w2 m k : cut N M (Tm N M w1 w2) m k = Tm N M w1 w2 m k /\ cut N M (Pm N M w1 w2) m k = Pm N M w1 w2 m k.
Proof.
  destruct (Z_lt_le_dec N (Z.abs k)); [split; rewrite cut_out by auto; symmetry; [apply Tm_out|apply Pm_out]; auto|].
  destruct (Z_lt_le_dec M (Z.abs m)); [split; rewrite cut_out by auto; symmetry; [apply Tm_out|apply Pm_out]; auto|].
  split; now apply cut_in.
Qed.

Lemma vseries_inner N M f1 f2 n m : 0 <= M <= N -> Z.abs m <= n -> 1 <= n ->
  vinner (vharm_series vsh_theta N M f1 f2) (vharm_series vsh_phi N M f1 f2) (vsh_theta n m (RtoC 1) (RtoC 0)) (vsh_phi n m (RtoC 1) (RtoC 0))
    (if (Z.abs m <=? M) && (n <=? N) then f1 n m else RtoC 0) /\
  vinner (vharm_series vsh_theta N M f1 f2) (vharm_series vsh_phi N M f1 f2) (vsh_theta n m (RtoC 0) (RtoC 1)) (vsh_phi n m (RtoC 0) (RtoC 1))
    (if (Z.abs m <=? M) && (n <=? N) then f2 n m else RtoC 0).
Proof.
  intros HM Hn Hn1. set (T := Tm N M (wn f1) (wn f2)). set (P := Pm N M (wn f1) (wn f2)).
  set (B := M + Z.abs m + 1).
  assert (H1 : forall k : Z, cut N M T m (- k)%Z = (- sg m * cut N M T m k)%C).
  { intros k. unfold T. rewrite !(proj1 (cut_Tm _ _ _ _ _ _)), Tm_neg. ring. }
  assert (H2 : forall k : Z, cut N M P m (- k)%Z = (- sg m * cut N M P m k)%C).
  { intros k. unfold P. rewrite !(proj2 (cut_Tm _ _ _ _ _ _)), Pm_neg. ring. }
  assert (An_n : forall w, (An (N + 2) (sin1 (Fm N M (fun n m => RtoC (IZR n * (IZR n + 1)) * wn w n m)%C m)) m n * nv n)%C =
     if (Z.abs m <=? M) && (n <=? N) then w n m else RtoC 0).
  { intros w. rewrite An_Fm by lia. destruct (_ && _); [|ring]. unfold wn.
    transitivity (w n m * (RtoC (IZR n * (IZR n + 1)) * nv n * nv n))%C; [ring|]. rewrite nv_sq by auto. ring. }
  split.
  - eapply (is_sphere_int_ext0 (fun t p => trig_poly N M T t p * Cconj (vsh_theta n m (RtoC 1) (RtoC 0) t p) + trig_poly N M P t p * Cconj (vsh_phi n m (RtoC 1) (RtoC 0) t p))%C).
    { intros t p Ht. destruct (vseries_trig N M f1 f2 t p HM (sin_open t Ht)) as [-> ->]. reflexivity. }
    rewrite <- (An_n f1).
    match goal with |- is_sphere_int _ (An ?R ?f m n * _)%C => rewrite (An_ext R f (sLd B (cut N M T) (cut N M P) m)) end.
    + apply vanal; auto; unfold B; lia.
    + intros k _. destruct (Z.leb_spec (Z.abs m) M).
      * rewrite (sLd_ext B (cut N M T) T (cut N M P) P m); [|intros j; apply cut_Tm|intros j; apply cut_Tm].
        unfold T, P. rewrite sLd_Fm by (unfold B; lia). apply sin1_ext. intros j. unfold Fm. destruct (Z.leb_spec (Z.abs m) M); [auto|lia].
      * unfold sLd, sinF, sin1, Fm. destruct (Z.leb_spec (Z.abs m) M); [lia|]. rewrite !cut_out by auto. ring.
  - eapply (is_sphere_int_ext0 (fun t p => trig_poly N M T t p * Cconj (vsh_theta n m (RtoC 0) (RtoC 1) t p) + trig_poly N M P t p * Cconj (vsh_phi n m (RtoC 0) (RtoC 1) t p))%C).
    { intros t p Ht. destruct (vseries_trig N M f1 f2 t p HM (sin_open t Ht)) as [-> ->]. reflexivity. }
    rewrite <- (An_n f2).
    match goal with |- is_sphere_int _ (An ?R ?f m n * _)%C => rewrite (An_ext R f (sLd B (fun m k => - Ci * cut N M P m k)%C (fun m k => Ci * cut N M T m k)%C m)) end.
    + apply vanal2; auto; unfold B; lia.
    + intros k _. destruct (Z.leb_spec (Z.abs m) M).
      * rewrite (sLd_ext B (fun m k => - Ci * cut N M P m k)%C (fun m k => - Ci * P m k)%C (fun m k => Ci * cut N M T m k)%C (fun m k => Ci * T m k)%C m);
          [|intros j; f_equal; apply cut_Tm|intros j; f_equal; apply cut_Tm].
        unfold T, P. rewrite sLd_Fm2 by (unfold B; lia). apply sin1_ext. intros j. unfold Fm. destruct (Z.leb_spec (Z.abs m) M); [auto|lia].
      * unfold sLd, sinF, sin1, Fm. destruct (Z.leb_spec (Z.abs m) M); [lia|]. rewrite !cut_out by auto. ring.
Qed.

(** <F, S> for a series S *)
Lemma vinner_series Ft Fp N M (v1 v2 f1 f2 : Z -> Z -> C) : 0 <= M <= N ->
  (forall n m, is_mode N M n m -> 1 <= n ->
     vinner Ft Fp (vsh_theta n m (RtoC 1) (RtoC 0)) (vsh_phi n m (RtoC 1) (RtoC 0)) (v1 n m) /\
     vinner Ft Fp (vsh_theta n m (RtoC 0) (RtoC 1)) (vsh_phi n m (RtoC 0) (RtoC 1)) (v2 n m)) ->
  vinner Ft Fp (vharm_series vsh_theta N M f1 f2) (vharm_series vsh_phi N M f1 f2)
    (sumC (- M) (M + 1) (fun m => sumC (Z.abs m) (N + 1) (fun n => if n =? 0 then RtoC 0 else (Cconj (f1 n m) * v1 n m + Cconj (f2 n m) * v2 n m)%C))).
Proof.
  intros HM H.
  eapply (is_sphere_int_ext0 (fun t p => sumC (- M) (M + 1) (fun m => sumC (Z.abs m) (N + 1) (fun n => if n =? 0 then RtoC 0 else
    (Cconj (f1 n m) * (Ft t p * Cconj (vsh_theta n m (RtoC 1) (RtoC 0) t p) + Fp t p * Cconj (vsh_phi n m (RtoC 1) (RtoC 0) t p)) +
     Cconj (f2 n m) * (Ft t p * Cconj (vsh_theta n m (RtoC 0) (RtoC 1) t p) + Fp t p * Cconj (vsh_phi n m (RtoC 0) (RtoC 1) t p)))%C)))).
  { intros t p Ht. unfold vharm_series. rewrite !Cconj_sum, !sumC_mul, <- sumC_add. apply sumC_ext. intros m Hm.
    rewrite !Cconj_sum, !sumC_mul, <- sumC_add. apply sumC_ext. intros n Hn. destruct (Z.eqb_spec n 0) as [->|].
    - replace m with 0 by lia. destruct (vsh0 (f1 0 0) (f2 0 0) t p (sin_open t Ht)) as [-> ->]. rewrite Cconj_0. ring.
    - destruct (vsh_lin n m (f1 n m) (f2 n m) t p) as [-> ->]. rewrite !Cconj_plus, !Cconj_mult. ring. }
  apply is_sphere_int_sum. intros m Hm. apply is_sphere_int_sum. intros n Hn. destruct (Z.eqb_spec n 0); [apply is_sphere_int_zero|].
  destruct (H n m) as [X1 X2]; [unfold is_mode; lia|lia|]. apply is_sphere_int_plus; apply is_sphere_int_scal; [exact X1|exact X2].
Qed.
Lemma vseries_norm N M f1 f2 : 0 <= M <= N ->
  vinner (vharm_series vsh_theta N M f1 f2) (vharm_series vsh_phi N M f1 f2) (vharm_series vsh_theta N M f1 f2) (vharm_series vsh_phi N M f1 f2)
    (sumC (- M) (M + 1) (fun m => sumC (Z.abs m) (N + 1) (fun n => if n =? 0 then RtoC 0 else (Cconj (f1 n m) * f1 n m + Cconj (f2 n m) * f2 n m)%C))).
Proof.
  intros HM. apply vinner_series; auto. intros n m Hm Hn. unfold is_mode in Hm.
  pose proof (vseries_inner N M f1 f2 n m HM ltac:(lia) Hn) as H.
  destruct (Z.leb_spec (Z.abs m) M); [|lia]. destruct (Z.leb_spec n N); [|lia]. exact H.
Qed.
