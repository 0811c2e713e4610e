(** * Integ2: sampled trigonometric polynomials, coefficient symmetry, Parseval *)
From Coq Require Import ZArith List String Bool Lia Reals Lra Permutation.
From Coquelicot Require Import Coquelicot.
From Verif Require Import Py PyFacts Num Exact MCoefs SpecCoefs Obs CoefsFacts CoefsFacts2 CoefsFacts3 MPatt SpecPatt PattFacts Sums Harm
  MPysphi MOps Smooth Dft PysphiFacts TransFacts MTrans TransFacts2 TransFacts3 TransFacts4 SpecHarm HarmFacts SpecInt Integ.
Import ListNotations.
Open Scope Z_scope.

Definition cut (P M : Z) (a : Z -> Z -> C) (m k : Z) : C :=
  if (Z.abs m <=? M) && (Z.abs k <=? P) then a m k else RtoC 0.
Lemma cut_in P M a m k : Z.abs m <= M -> Z.abs k <= P -> cut P M a m k = a m k.
Proof. intros. unfold cut. destruct (Z.leb_spec (Z.abs m) M); [|lia]. destruct (Z.leb_spec (Z.abs k) P); [auto|lia]. Qed.
Lemma cut_out P M a m k : P < Z.abs k \/ M < Z.abs m -> cut P M a m k = RtoC 0.
Proof. intros. unfold cut. destruct (Z.leb_spec (Z.abs m) M); cbn [andb]; auto. destruct (Z.leb_spec (Z.abs k) P); [lia|auto]. Qed.

Lemma synth_trig_poly L nc P M a p q : 0 <= P -> 2 * P < L -> 0 <= M -> 2 * M < nc ->
  synth L nc (cut P M a) p q = trig_poly P M a (2 * PI * IZR p / IZR L) (2 * PI * IZR q / IZR nc).
Proof.
  intros HP HL HM Hc. rewrite (synth_freq L nc _ P M); try lia; [|intros; now apply cut_out].
  unfold trig_poly. apply sumC_ext. intros m Hm. rewrite sumC_mulr. apply sumC_ext. intros k Hk.
  rewrite cut_in by lia. rewrite !root_cis by lia. reflexivity.
Qed.

Lemma e_i_per n k t : e_i (IZR k * (t + 2 * PI * IZR n)) = e_i (IZR k * t).
Proof.
  rewrite !e_i_cis. replace (IZR k * (t + 2 * PI * IZR n))%R with (IZR k * t + 2 * PI * IZR (k * n))%R by (rewrite mult_IZR; ring).
  rewrite cisR_add, cisR_2PIk. apply Cmult_1_r.
Qed.
Lemma trig_poly_per P M a t p u v : trig_poly P M a (t + 2 * PI * IZR u) (p + 2 * PI * IZR v) = trig_poly P M a t p.
Proof. unfold trig_poly. apply sumC_ext. intros m _. apply sumC_ext. intros k _. now rewrite !e_i_per. Qed.

(** Values on the grid, at any integer indices. *)
Definition gridv (F : R -> R -> C) (L nc i j : Z) : C := F (2 * PI * IZR i / IZR L)%R (2 * PI * IZR j / IZR nc)%R.
Lemma gridv_mod P M a L nc i j : 0 < L -> 0 < nc -> gridv (trig_poly P M a) L nc (i mod L) (j mod nc) = gridv (trig_poly P M a) L nc i j.
Proof.
  intros HL Hc. unfold gridv. rewrite <- (trig_poly_per P M a (2 * PI * IZR (i mod L) / IZR L) (2 * PI * IZR (j mod nc) / IZR nc) (i / L) (j / nc)).
  assert (IZR L <> 0)%R by (apply not_0_IZR; lia). assert (IZR nc <> 0)%R by (apply not_0_IZR; lia).
  f_equal.
  - rewrite (Z.div_mod i L) at 3 by lia. rewrite plus_IZR, mult_IZR. field. auto.
  - rewrite (Z.div_mod j nc) at 3 by lia. rewrite plus_IZR, mult_IZR. field. auto.
Qed.
Lemma gridv_sym F L B i j : 0 < L -> 0 < B -> on_sphere F -> gridv F L (2 * B) (- i) (j + B) = gridv F L (2 * B) i j.
Proof.
  intros HL HB HF. unfold gridv. rewrite <- (HF (2 * PI * IZR i / IZR L)%R).
  assert (IZR L <> 0)%R by (apply not_0_IZR; lia). assert (IZR B <> 0)%R by (apply not_0_IZR; lia).
  f_equal; [rewrite opp_IZR; field; auto|rewrite plus_IZR, mult_IZR; field; auto].
Qed.

(** The coefficients of a trigonometric polynomial are determined by its values ... *)
Lemma trig_poly_inj P M a b : 0 <= P -> 0 <= M -> (forall t p, trig_poly P M a t p = trig_poly P M b t p) ->
  forall m k, Z.abs m <= M -> Z.abs k <= P -> a m k = b m k.
Proof.
  intros HP HM H m k Hm Hk.
  assert (S : forall a, fsupp (P + 2 - 2) (cut P M a)) by (intros c x y Hxy; apply cut_out; lia).
  pose proof (trunc_synth (P + 2) (M + 1) (cut P M a) m k ltac:(lia) ltac:(lia) ltac:(lia) (S a)) as E1.
  pose proof (trunc_synth (P + 2) (M + 1) (cut P M b) m k ltac:(lia) ltac:(lia) ltac:(lia) (S b)) as E2.
  rewrite cut_in in E1, E2 by auto. rewrite <- E1, <- E2. do 2 f_equal. apply mmake_ext; try lia.
  intros i j _ _. rewrite !synth_trig_poly by lia. apply H.
Qed.
(** ... so a function on the sphere has coefficients of the matching parity. *)
Lemma trig_poly_turn P M a t p :
  trig_poly P M a (- t) (p + PI) = trig_poly P M (fun m k => sg m * a m (- k)%Z)%C t p.
Proof.
  unfold trig_poly. apply sumC_ext. intros m _. rewrite sum_revC. apply sumC_ext. intros k _.
  rewrite !e_i_cis. replace (IZR (- k) * - t)%R with (IZR k * t)%R by (rewrite opp_IZR; ring).
  replace (IZR m * (p + PI))%R with (IZR m * PI + IZR m * p)%R by ring. rewrite cisR_add.
  assert (E : cisR (IZR m * PI) = sg m).
  { rewrite <- (sgnpow_root 1 m) by lia. unfold root. f_equal. rewrite !mult_IZR. field. }
  change (e_i (IZR k * t)) with (cisR (IZR k * t)). change (e_i (IZR m * p)) with (cisR (IZR m * p)). rewrite E. ring.
Qed.
Lemma coef_sym P M a : 0 <= P -> 0 <= M -> on_sphere (trig_poly P M a) ->
  forall m k, Z.abs m <= M -> Z.abs k <= P -> a m (- k) = (sg m * a m k)%C.
Proof.
  intros HP HM HS m k Hm Hk.
  pose proof (trig_poly_inj P M (fun m k => sg m * a m (- k)%Z)%C a HP HM) as I. cbv beta in I.
  rewrite <- (I (fun t p => eq_trans (eq_sym (trig_poly_turn P M a t p)) (HS t p)) m k Hm Hk).
  rewrite Cmult_assoc, sg_sq. ring.
Qed.
Lemma trig_poly_sym P M a : (forall m k, Z.abs m <= M -> Z.abs k <= P -> a m (- k) = (sg m * a m k)%C) -> on_sphere (trig_poly P M a).
Proof.
  intros H t p. rewrite trig_poly_turn. unfold trig_poly. apply sumC_ext. intros m Hm. apply sumC_ext. intros k Hk.
  rewrite H by lia. rewrite Cmult_assoc, sg_sq. ring.
Qed.
Lemma trig_poly_cut P M a t p : trig_poly P M (cut P M a) t p = trig_poly P M a t p.
Proof. unfold trig_poly. apply sumC_ext. intros m Hm. apply sumC_ext. intros k Hk. now rewrite cut_in by lia. Qed.

(** ** The pattern constructor keeps the samples of a function on the sphere *)
Lemma sampled_pattern P M a (x : mat RN) R B : 0 <= P -> 0 <= M -> on_sphere (trig_poly P M a) ->
  mat_wf RN x -> mt_nr RN x = R -> mt_nc RN x = 2 * B -> 2 <= R -> 1 <= B ->
  (forall i j, 0 <= i < R -> 0 <= j < 2 * B -> mgetR x i j = gridv (trig_poly P M a) (2 * R - 2) (2 * B) i j) ->
  continue_sphere RN x 1 = Ok (mmake RN (2 * R - 2) (2 * B) (gridv (trig_poly P M a) (2 * R - 2) (2 * B))).
Proof.
  intros HP HM HS Hw Hr Hc HR HB Hx. destruct (continue_sphere_ok x 1 ltac:(lia)) as (d & E & N1 & N2 & W & S & V).
  rewrite E. f_equal. rewrite Hr in *. rewrite Hc in *. specialize (W ltac:(lia)).
  assert (Ev : (2 * B) mod 2 = 0) by (rewrite Z.mul_comm; apply Z.mod_mul; lia).
  specialize (S (or_introl eq_refl) Ev). set (g := gridv (trig_poly P M a) (2 * R - 2) (2 * B)) in *.
  assert (Gm : forall i j, g (i mod (2 * R - 2)) (j mod (2 * B)) = g i j) by (intros; apply gridv_mod; lia).
  assert (Gs : forall i j, g (- i) (j + B) = g i j) by (intros; apply gridv_sym; auto; lia).
  assert (SB : forall j, shiftc (2 * B) j = (j + B) mod (2 * B)).
  { intros j. unfold shiftc. f_equal. rewrite Z.mul_comm, Z.div_mul by lia. lia. }
  assert (T : forall i j, 0 <= i < R -> 0 <= j < 2 * B -> mgetR d i j = g i j).
  { intros i j Hi Hj. rewrite V by lia. destruct ((i =? 0) || (i =? R - 1)) eqn:Ep.
    - pose proof (shiftc_range (2 * B) j ltac:(lia)). rewrite !Hx by lia.
      assert (Q : g i (shiftc (2 * B) j) = g i j).
      { rewrite SB. transitivity (g (i mod (2 * R - 2)) ((j + B) mod (2 * B))); [now rewrite (Z.mod_small i) by lia|].
        rewrite Gm. rewrite <- (Gs i j). rewrite <- (Gm i (j + B)), <- (Gm (- i) (j + B)). f_equal.
        apply orb_prop in Ep. destruct Ep as [Ep|Ep]; apply Z.eqb_eq in Ep; subst i; [reflexivity|].
        replace (- (R - 1)) with ((R - 1) + (-1) * (2 * R - 2)) by lia. now rewrite Z.mod_add by lia. }
      cbn [rc RN] in *. rewrite Q. rewrite Cmult_1_l. apply ds_comb_same.
    - apply Hx; lia. }
  apply (mat_ext RN); auto; try (apply mmake_wf; lia).
  intros i j Hi Hj. rewrite N1 in Hi. rewrite N2 in Hj. etransitivity; [|symmetry; apply mget_mmake; auto].
  destruct (Z_lt_le_dec i R); [apply T; lia|].
  specialize (S i j). rewrite N1, N2 in S. specialize (S Hi Hj). rewrite Cmult_1_l in S. rewrite <- S.
  unfold flip. replace (2 * R - 2 - i) with (2 * R - 2 - i) by lia.
  pose proof (shiftc_range (2 * B) j ltac:(lia)).
  rewrite (Z.mod_small (2 * R - 2 - i)) by lia. rewrite T by lia. rewrite SB.
  transitivity (g ((2 * R - 2 - i) mod (2 * R - 2)) ((j + B) mod (2 * B))); [now rewrite (Z.mod_small (2 * R - 2 - i)) by lia|].
  rewrite Gm. rewrite <- (Gs i j), <- (Gm (- i) (j + B)), <- (Gm (2 * R - 2 - i) (j + B)). f_equal.
  replace (2 * R - 2 - i) with (- i + 1 * (2 * R - 2)) by lia. now rewrite Z.mod_add by lia.
Qed.

(** ** The analysed value is the inner product *)
Lemma spht_val_integral P M a R B n m : 0 <= P <= R - 2 -> 0 <= M < B -> on_sphere (trig_poly P M a) ->
  Z.abs m <= n -> - B < m < B ->
  is_sphere_int (fun t p => trig_poly P M a t p * Cconj (sph_harm n m t p))%C
    (spht_val (mmake RN (2 * R - 2) (2 * B) (gridv (trig_poly P M a) (2 * R - 2) (2 * B))) R n m).
Proof.
  intros HP HM HS Hn Hm.
  pose proof (analysis_integral R P M (cut P M a) n m HP Hn) as H.
  assert (Hc : forall k : Z, cut P M a m (- k)%Z = (sg m * cut P M a m k)%C).
  { intros k. unfold cut. rewrite Z.abs_opp. destruct (Z.leb_spec (Z.abs m) M); cbn [andb]; [|ring].
    destruct (Z.leb_spec (Z.abs k) P); [|ring]. apply (coef_sym P M a); auto; lia. }
  specialize (H Hc). unfold spht_val.
  match type of H with is_sphere_int _ ?v => match goal with |- is_sphere_int _ ?w => replace w with v end end.
  - destruct H as (g & G1 & G2). exists g. split; [|exact G2]. intros t Ht. eapply is_CInt_ext; [|apply (G1 t Ht)].
    intros p. cbv beta. now rewrite trig_poly_cut, Yc_sph_harm.
  - apply An_ext. intros nu _. apply sin1_ext. intros k.
    transitivity (cut P M a m k).
    + unfold trunc. unfold cut. destruct (Z.abs k <=? P); destruct (Z.abs m <=? M); reflexivity.
    + replace (mmake RN (2 * R - 2) (2 * B) (gridv (trig_poly P M a) (2 * R - 2) (2 * B))) with
        (mmake RN (2 * R - 2) (2 * B) (synth (2 * R - 2) (2 * B) (cut P M a))).
      * symmetry. apply trunc_synth; try lia. intros x y Hxy. apply cut_out. lia.
      * apply mmake_ext; try lia. intros i j _ _. apply synth_trig_poly; lia.
Qed.

(** ** Linear operations on integrals over the sphere *)
Lemma is_sphere_int_ext0 F G l : (forall t p, (0 < t < PI)%R -> F t p = G t p) -> is_sphere_int F l -> is_sphere_int G l.
Proof. intros E (g & G1 & G2). exists g. split; auto. intros t Ht. eapply is_CInt_ext; [|apply (G1 t Ht)]. intros p. now apply E. Qed.
Lemma is_sphere_int_ext F G l : (forall t p, F t p = G t p) -> is_sphere_int F l -> is_sphere_int G l.
Proof. intros E. apply is_sphere_int_ext0. auto. Qed.
Lemma is_sphere_int_plus F G l l' : is_sphere_int F l -> is_sphere_int G l' -> is_sphere_int (fun t p => F t p + G t p)%C (l + l')%C.
Proof.
  intros (g & G1 & G2) (h & H1 & H2). exists (fun t => g t + h t)%C. split.
  - intros t Ht. apply is_CInt_plus; auto.
  - eapply is_CInt_ext; [|apply is_CInt_plus; eassumption]. intros t; cbv beta; ring.
Qed.
Lemma is_sphere_int_scal c F l : is_sphere_int F l -> is_sphere_int (fun t p => c * F t p)%C (c * l)%C.
Proof.
  intros (g & G1 & G2). exists (fun t => c * g t)%C. split.
  - intros t Ht. apply is_CInt_scal; auto.
  - eapply is_CInt_ext; [|apply is_CInt_scal; eassumption]. intros t; cbv beta; ring.
Qed.
Lemma is_sphere_int_zero : is_sphere_int (fun _ _ => RtoC 0) (RtoC 0).
Proof.
  exists (fun _ => RtoC 0). split; [intros; apply is_CInt_zero|]. eapply is_CInt_ext; [|apply is_CInt_zero]. intros; cbv beta; ring.
Qed.
Lemma is_sphere_int_sum lo hi (F : Z -> R -> R -> C) (l : Z -> C) : (forall k, lo <= k < hi -> is_sphere_int (F k) (l k)) ->
  is_sphere_int (fun t p => sumC lo hi (fun k => F k t p)) (sumC lo hi l).
Proof.
  revert lo hi. apply (gsum_ind (fun lo hi => (forall k, lo <= k < hi -> is_sphere_int (F k) (l k)) ->
    is_sphere_int (fun t p => sumC lo hi (fun k => F k t p)) (sumC lo hi l))).
  - intros lo hi H _. rewrite sumC_nil by lia. eapply is_sphere_int_ext; [|apply is_sphere_int_zero]. intros t p; cbv beta; now rewrite sumC_nil by lia.
  - intros lo hi H IH Hk. rewrite sumC_cons by lia.
    eapply is_sphere_int_ext; [intros t p; symmetry; apply sumC_cons; lia|].
    apply is_sphere_int_plus; [apply Hk; lia|]. apply IH. intros k Hk'. apply Hk. lia.
Qed.
Lemma is_CInt_conj f a b l : is_CInt f a b l -> is_CInt (fun x => Cconj (f x)) a b (Cconj l).
Proof. intros [A B]. split; cbn [fst snd Cconj]; auto. apply (is_RInt_opp (V := R_NormedModule)); auto. Qed.
Lemma is_sphere_int_conj F l : is_sphere_int F l -> is_sphere_int (fun t p => Cconj (F t p)) (Cconj l).
Proof.
  intros (g & G1 & G2). exists (fun t => Cconj (g t)). split.
  - intros t Ht. apply is_CInt_conj; auto.
  - eapply is_CInt_ext; [|apply is_CInt_conj; eassumption]. intros t; cbv beta. rewrite Cconj_mult, Cconj_R. reflexivity.
Qed.
Lemma is_sphere_int_ge0 F l : (forall t p, 0 <= fst (F t p))%R -> is_sphere_int F l -> (0 <= fst l)%R.
Proof.
  intros HF (g & G1 & [G2 _]). pose proof PI_RGT_0.
  assert (P : forall t, (0 < t < PI)%R -> (0 <= fst (g t))%R).
  { intros t Ht. destruct (G1 t Ht) as [A _]. apply (is_RInt_le (fun _ => 0%R) _ 0 (2 * PI) 0%R _ ltac:(lra)) with (3 := fun x _ => HF t x); auto.
    pose proof (int_const 0%R 0%R (2 * PI)%R) as Q. eapply is_RInt_val; [exact Q|ring]. }
  apply (is_RInt_le (fun _ => 0%R) (fun t => fst (g t * RtoC (sin t))%C) 0 PI 0%R (fst l) ltac:(lra)); auto.
  - pose proof (int_const 0%R 0%R PI) as Q. eapply is_RInt_val; [exact Q|ring].
  - intros x Hx. cbn [fst snd Cmult RtoC]. rewrite Rmult_0_r, Rminus_0_r. apply Rmult_le_pos; auto.
    apply sin_ge_0; lra.
Qed.

(** ** Harmonic series *)
Lemma harm_series_trig N M f t p : harm_series N M f t p = trig_poly N M (Fm N M f) t p.
Proof.
  unfold harm_series, trig_poly. apply sumC_ext. intros m Hm.
  rewrite (sumC_ext (- N) (N + 1) _ (fun k => sumC (Z.abs m) (N + 1) (fun n => f n m * ipow m * (RtoC (Yt n m k) * cisR (IZR k * t)) * cisR (IZR m * p)))%C).
  - rewrite sumC_exch. apply sumC_ext. intros n Hn. rewrite <- Yc_sph_harm by lia. unfold Yc.
    rewrite <- sumC_mulr, <- sumC_mul.
    rewrite <- (sumC_extend (- n) (n + 1) (- N) (N + 1) (fun k => RtoC (Yt n m k) * cisR (IZR k * t))%C); try lia; [ring|].
    intros k _ Hk. rewrite Yt_supp by lia. ring.
  - intros k _. unfold Fm, Fw. destruct (Z.leb_spec (Z.abs m) M); [|lia].
    change (e_i (IZR k * t)) with (cisR (IZR k * t)). change (e_i (IZR m * p)) with (cisR (IZR m * p)).
    rewrite sumC_mul, !sumC_mulr. apply sumC_ext. intros n _. ring.
Qed.
Lemma series_inner N M f n m : 0 <= M <= N -> Z.abs m <= n ->
  is_sphere_int (fun t p => harm_series N M f t p * Cconj (sph_harm n m t p))%C
    (if (Z.abs m <=? M) && (n <=? N) then f n m else RtoC 0).
Proof.
  intros HM Hn. pose proof (analysis_integral (N + 2) N M (Fm N M f) n m ltac:(lia) Hn (Fm_neg N M f m)) as H.
  eapply (is_sphere_int_ext (fun t p => trig_poly N M (Fm N M f) t p * Cconj (Yc n m t p))%C);
    [intros t p; rewrite harm_series_trig, <- Yc_sph_harm by auto; reflexivity|].
  match type of H with is_sphere_int _ ?v => match goal with |- is_sphere_int _ ?w => replace w with v end end; [exact H|].
  destruct (Z.leb_spec (Z.abs m) M) as [Hm|Hm]; cbn [andb].
  - rewrite <- (An_comb (N + 2) (fun n' => f n' m) N m n) by lia.
    apply An_ext. intros nu _. apply sin1_ext. intros k. unfold trunc. destruct (Z.leb_spec (Z.abs k) N).
    + unfold Fm, Fw. destruct (Z.leb_spec (Z.abs m) M); [auto|lia].
    + rewrite sumC_zero; [ring|]. intros n' Hn'. rewrite Yt_supp by lia. ring.
  - rewrite (An_ext (N + 2) _ (fun _ => RtoC 0)); [apply An_zero|]. intros nu _. unfold sin1, trunc. destruct (Z.leb_spec (Z.abs m) M); [lia|].
    destruct (Z.abs (nu - 1) <=? N), (Z.abs (nu + 1) <=? N); ring.
Qed.
Lemma Cconj_series N M f t p : Cconj (harm_series N M f t p) =
  sumC (- M) (M + 1) (fun m => sumC (Z.abs m) (N + 1) (fun n => Cconj (f n m) * Cconj (sph_harm n m t p)))%C.
Proof.
  unfold harm_series. rewrite Cconj_sum. apply sumC_ext. intros m _. rewrite Cconj_sum. apply sumC_ext. intros n _. apply Cconj_mult.
Qed.
(** <F, S> = sum of <F, Y> conj (coefficient) *)
Lemma inner_series F N M (v f : Z -> Z -> C) : 
  (forall n m, is_mode N M n m -> is_sphere_int (fun t p => F t p * Cconj (sph_harm n m t p))%C (v n m)) ->
  is_sphere_int (fun t p => F t p * Cconj (harm_series N M f t p))%C
    (sumC (- M) (M + 1) (fun m => sumC (Z.abs m) (N + 1) (fun n => Cconj (f n m) * v n m)%C)).
Proof.
  intros H.
  eapply (is_sphere_int_ext (fun t p => sumC (- M) (M + 1) (fun m => sumC (Z.abs m) (N + 1) (fun n => Cconj (f n m) * (F t p * Cconj (sph_harm n m t p))))%C)).
  { intros t p. rewrite Cconj_series, sumC_mul. apply sumC_ext. intros m _. rewrite sumC_mul. apply sumC_ext. intros n _. ring. }
  apply is_sphere_int_sum. intros m Hm. apply is_sphere_int_sum. intros n Hn. apply is_sphere_int_scal. apply H. unfold is_mode. lia.
Qed.
Lemma series_norm N M f : 0 <= M <= N ->
  is_sphere_int (fun t p => harm_series N M f t p * Cconj (harm_series N M f t p))%C
    (sumC (- M) (M + 1) (fun m => sumC (Z.abs m) (N + 1) (fun n => Cconj (f n m) * f n m)%C)).
Proof.
  intros HM. apply inner_series. intros n m Hm. unfold is_mode in Hm. pose proof (series_inner N M f n m HM ltac:(lia)) as H.
  destruct (Z.leb_spec (Z.abs m) M); [|lia]. destruct (Z.leb_spec n N); [|lia]. exact H.
Qed.

(** ** Products of trigonometric polynomials are integrable *)
Definition ex_sphere_int (F : R -> R -> C) : Prop := exists l, is_sphere_int F l.
Lemma ex_mono m k : ex_sphere_int (fun t p => cisR (IZR k * t) * cisR (IZR m * p))%C.
Proof.
  exists ((if m =? 0 then RtoC (2 * PI) else RtoC 0) * (RtoC 1 / (RtoC 2 * Ci) *
      (((if k + 1 =? 0 then RtoC PI else RtoC 0) - RtoC 2 * sig (k + 1)) + (- RtoC 1) * ((if k - 1 =? 0 then RtoC PI else RtoC 0) - RtoC 2 * sig (k - 1)))))%C.
  exists (fun t => cisR (IZR k * t) * (if m =? 0 then RtoC (2 * PI) else RtoC 0))%C. split.
  - intros t _. apply is_CInt_scal. apply int_cis_2PI.
  - eapply (is_CInt_ext (fun t => (if m =? 0 then RtoC (2 * PI) else RtoC 0) * (RtoC 1 / (RtoC 2 * Ci) * (cisR (IZR (k + 1) * t) + (- RtoC 1) * cisR (IZR (k - 1) * t))))%C).
    + intros t. rewrite sin_cis. replace (IZR (k + 1) * t)%R with (IZR k * t + t)%R by (rewrite plus_IZR; ring).
      replace (IZR (k - 1) * t)%R with (IZR k * t + - t)%R by (rewrite minus_IZR; ring). rewrite !cisR_add. ring.
    + apply is_CInt_scal, is_CInt_scal, is_CInt_plus; [apply int_cis_PI|]. apply is_CInt_scal, int_cis_PI.
Qed.
Lemma ex_sphere_sum lo hi (F : Z -> R -> R -> C) : (forall k, lo <= k < hi -> ex_sphere_int (F k)) ->
  ex_sphere_int (fun t p => sumC lo hi (fun k => F k t p)).
Proof.
  revert lo hi. apply (gsum_ind (fun lo hi => (forall k, lo <= k < hi -> ex_sphere_int (F k)) ->
    ex_sphere_int (fun t p => sumC lo hi (fun k => F k t p)))).
  - intros lo hi H _. exists (RtoC 0). eapply is_sphere_int_ext; [|apply is_sphere_int_zero]. intros t p; cbv beta; now rewrite sumC_nil by lia.
  - intros lo hi H IH Hk. destruct (Hk lo ltac:(lia)) as (l1 & H1). destruct IH as (l2 & H2); [intros; apply Hk; lia|].
    exists (l1 + l2)%C. eapply is_sphere_int_ext; [intros t p; symmetry; apply sumC_cons; lia|]. now apply is_sphere_int_plus.
Qed.
Lemma ex_trig_prod P M a P' M' b : ex_sphere_int (fun t p => trig_poly P M a t p * Cconj (trig_poly P' M' b t p))%C.
Proof.
  destruct (ex_sphere_sum (- M) (M + 1) (fun m t p => sumC (- P) (P + 1) (fun k => sumC (- M') (M' + 1) (fun m' => sumC (- P') (P' + 1) (fun k' =>
     (a m k * Cconj (b m' k')) * (cisR (IZR (k - k') * t) * cisR (IZR (m - m') * p))))))%C) as (l & H).
  - intros m _. apply ex_sphere_sum. intros k _. apply ex_sphere_sum. intros m' _. apply ex_sphere_sum. intros k' _.
    destruct (ex_mono (m - m') (k - k')) as (l & H). exists ((a m k * Cconj (b m' k')) * l)%C. now apply is_sphere_int_scal.
  - exists l. eapply is_sphere_int_ext; [|exact H]. intros t p. cbv beta. unfold trig_poly. rewrite Cconj_sum, sumC_mulr.
    apply sumC_ext. intros m _. rewrite sumC_mulr. apply sumC_ext. intros k _. rewrite sumC_mul. apply sumC_ext. intros m' _.
    rewrite Cconj_sum, sumC_mul. apply sumC_ext. intros k' _. rewrite !Cconj_mult.
    repeat match goal with |- context [e_i ?x] => change (e_i x) with (cisR x) end. rewrite !Cconj_cis.
    replace (IZR (k - k') * t)%R with (IZR k * t + - (IZR k' * t))%R by (rewrite minus_IZR; ring).
    replace (IZR (m - m') * p)%R with (IZR m * p + - (IZR m' * p))%R by (rewrite minus_IZR; ring). rewrite !cisR_add. ring.
Qed.

(** ** Sums over all modes *)
Definition csumC (l : list C) : C := fold_right Cplus (RtoC 0) l.
Lemma csum_app (l l' : list C) : csumC (l ++ l') = (csumC l + csumC l')%C.
Proof.
  induction l as [|x l IH]; cbn [app]; [change (csumC []) with (RtoC 0); ring|].
  change (csumC (x :: l ++ l')) with (x + csumC (l ++ l'))%C. change (csumC (x :: l)) with (x + csumC l)%C. rewrite IH. ring.
Qed.
Lemma csum_perm (l l' : list C) : Permutation l l' -> csumC l = csumC l'.
Proof.
  induction 1; auto.
  - change (x + csumC l = x + csumC l')%C. now rewrite IHPermutation.
  - change (y + (x + csumC l) = x + (y + csumC l))%C. ring.
  - congruence.
Qed.
Lemma sumC_csum lo hi f : sumC lo hi f = csumC (map f (zrange lo hi)). Proof. reflexivity. Qed.
Lemma csum_flat {A} (g : A -> list C) l : csumC (flat_map g l) = csumC (map (fun x => csumC (g x)) l).
Proof.
  induction l as [|x l IH]; auto. cbn [flat_map map]. rewrite csum_app, IH. reflexivity.
Qed.
Lemma sum_modes N M (g : Z -> Z -> C) : 0 <= M ->
  sumC (- M) (M + 1) (fun m => sumC (Z.abs m) (N + 1) (fun n => g n m)) = csumC (map (fun p => g (fst p) (snd p)) (all_modes N M)).
Proof.
  intros HM.
  set (L := flat_map (fun m => map (fun n => (n, m)) (zrange (Z.abs m) (N + 1))) (zrange (- M) (M + 1))).
  assert (PL : Permutation L (all_modes N M)).
  { apply NoDup_Permutation; [|apply NoDup_all_modes|].
    - unfold L. apply NoDup_flat_map_disj; [apply NoDup_zrange| |].
      + intros m _. apply FinFun.Injective_map_NoDup; [|apply NoDup_zrange]. intros x y E. now injection E.
      + intros m m' x _ _ H1 H2. apply in_map_iff in H1, H2. destruct H1 as (n & <- & _), H2 as (n' & E & _). now injection E.
    - intros [n m]. rewrite In_all_modes. unfold L. rewrite in_flat_map. split.
      + intros (m' & H1 & H2). apply in_map_iff in H2. destruct H2 as (n' & E & H2). injection E as -> ->.
        apply In_zrange in H1, H2. unfold is_mode. lia.
      + intros H. unfold is_mode in H. exists m. split; [apply In_zrange; lia|]. apply in_map_iff. exists n. split; auto. apply In_zrange; lia. }
  rewrite <- (csum_perm _ _ (Permutation_map (fun p => g (fst p) (snd p)) PL)).
  unfold L. rewrite sumC_csum. clear. induction (zrange (- M) (M + 1)) as [|m l IH]; auto.
  cbn [map flat_map]. rewrite map_app, csum_app, <- IH. 
  match goal with |- csumC (?x :: ?l) = _ => change (csumC (x :: l)) with (x + csumC l)%C end. f_equal.
  rewrite map_map. reflexivity.
Qed.
Lemma csum_RtoC {A} (h : A -> R) l : csumC (map (fun x => RtoC (h x)) l) = RtoC (rsum RN (map h l)).
Proof.
  induction l as [|x l IH]; [reflexivity|]. cbn [map].
  change (RtoC (h x) + csumC (map (fun x => RtoC (h x)) l) = RtoC (h x + rsum RN (map h l)))%C. rewrite IH, RtoC_plus. reflexivity.
Qed.
Lemma conj_norm z : (z * Cconj z)%C = RtoC (Cmod z ^ 2).
Proof.
  destruct z as [x y]. unfold Cmod. cbn [fst snd]. rewrite <- Rsqr_pow2, Rsqr_sqrt by nra. apply injective_projections; cbn; ring.
Qed.
Lemma Cconj_conj z : Cconj (Cconj z) = z. Proof. apply injective_projections; cbn; ring. Qed.
Lemma Cconj_opp z : Cconj (- z)%C = (- Cconj z)%C. Proof. apply injective_projections; cbn; ring. Qed.
