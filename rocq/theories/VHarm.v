(** * VHarm: the vector synthesis evaluates vector spherical harmonics. *)
From Coq Require Import ZArith List Bool Lia Reals Lra.
From Coquelicot Require Import Coquelicot.
From Verif Require Import Py PyFacts Num Exact MCoefs SpecCoefs CoefsFacts CoefsFacts2 CoefsFacts3 Sums Harm SpecHarm
  MPysphi Dft PysphiFacts TransFacts TransFacts2 TransFacts3 TransFacts4 HarmFacts.
Open Scope R_scope.

Lemma sumR_derive (f f' : Z -> R -> R) t lo hi :
  (forall k, is_derive (f k) t (f' k t)) ->
  is_derive (fun s => sumR lo hi (fun k => f k s)) t (sumR lo hi (fun k => f' k t)).
Proof.
  intros H. revert lo hi. apply (gsum_ind (fun lo hi => is_derive (fun s => sumR lo hi (fun k => f k s)) t (sumR lo hi (fun k => f' k t)))).
  - intros lo hi Hh. rewrite sumR_nil by auto.
    apply (is_derive_ext (fun _ => 0)); [intros; now rewrite sumR_nil|]. apply (is_derive_const (V := R_NormedModule)).
  - intros lo hi Hh IH. rewrite sumR_cons by auto.
    apply (is_derive_ext (fun s => f lo s + sumR (lo + 1) hi (fun k => f k s))); [intros; now rewrite (sumR_cons lo)|].
    apply (is_derive_plus (K := R_AbsRing) (V := R_NormedModule)); auto.
Qed.

Lemma sumC_fst lo hi f : fst (sumC lo hi f) = sumR lo hi (fun k => fst (f k)).
Proof.
  revert lo hi. apply gsum_ind; intros lo hi H; [now rewrite sumC_nil, sumR_nil|].
  intros IH. rewrite sumC_cons, sumR_cons by auto. cbn [fst Cplus]. now rewrite <- IH.
Qed.
Lemma sumC_snd lo hi f : snd (sumC lo hi f) = sumR lo hi (fun k => snd (f k)).
Proof.
  revert lo hi. apply gsum_ind; intros lo hi H; [now rewrite sumC_nil, sumR_nil|].
  intros IH. rewrite sumC_cons, sumR_cons by auto. cbn [snd Cplus]. now rewrite <- IH.
Qed.

Lemma derive_trig (c : C) (a : seq) N t :
  derive_C (fun s => c * Ev N a s)%C t = (c * (Ci * Ev N (Dq a) t))%C.
Proof.
  assert (E1 : forall s, fst (c * Ev N a s)%C = sumR (- N) (N + 1) (fun k => a k * (fst c * cos (IZR k * s) - snd c * sin (IZR k * s)))).
  { intros s. unfold Ev. rewrite sumC_mul, sumC_fst. apply sumR_ext. intros k _. cbn. ring. }
  assert (E2 : forall s, snd (c * Ev N a s)%C = sumR (- N) (N + 1) (fun k => a k * (fst c * sin (IZR k * s) + snd c * cos (IZR k * s)))).
  { intros s. unfold Ev. rewrite sumC_mul, sumC_snd. apply sumR_ext. intros k _. cbn. ring. }
  apply injective_projections; cbn [fst snd derive_C].
  - rewrite (Derive_ext _ _ _ E1).
    erewrite is_derive_unique; [|apply (sumR_derive (fun k s => a k * (fst c * cos (IZR k * s) - snd c * sin (IZR k * s)))
       (fun k s => a k * IZR k * (- (fst c * sin (IZR k * s)) - snd c * cos (IZR k * s))))].
    + unfold Ev. rewrite !sumC_mul, sumC_fst. apply sumR_ext. intros k _. unfold Dq. cbn. ring.
    + intros k. auto_derive; [auto|ring].
  - rewrite (Derive_ext _ _ _ E2).
    erewrite is_derive_unique; [|apply (sumR_derive (fun k s => a k * (fst c * sin (IZR k * s) + snd c * cos (IZR k * s)))
       (fun k s => a k * IZR k * (fst c * cos (IZR k * s) - snd c * sin (IZR k * s))))].
    + unfold Ev. rewrite !sumC_mul, sumC_snd. apply sumR_ext. intros k _. unfold Dq. cbn. ring.
    + intros k. auto_derive; [auto|ring].
Qed.

Lemma Yc_Ev n m N theta phi : (Z.abs m <= n <= N)%Z -> Yc n m theta phi = (ipow m * cisR (IZR m * phi) * Ev N (Yt n m) theta)%C.
Proof.
  intros H. unfold Yc, Ev. f_equal. symmetry. apply sumC_extend; try lia.
  intros k _ Hk. rewrite Yt_supp by lia. ring.
Qed.

Lemma dtheta_Ev n m N theta phi : (Z.abs m <= n <= N)%Z ->
  dtheta_sph_harm n m theta phi = (ipow m * cisR (IZR m * phi) * (Ci * Ev N (Dq (Yt n m)) theta))%C.
Proof.
  intros H. unfold dtheta_sph_harm. rewrite <- derive_trig. unfold derive_C.
  apply injective_projections; cbn [fst snd]; apply Derive_ext; intros t; rewrite <- Yc_sph_harm by lia; now rewrite (Yc_Ev n m N).
Qed.

Lemma Ws_Ev n m N theta phi : (Z.abs m <= n <= N)%Z -> sin theta <> 0 ->
  (RtoC (-2 * IZR m) * (ipow m * cisR (IZR m * phi) * Ev N (Ws n m) theta))%C = (Ci * (RtoC (IZR m / sin theta) * sph_harm n m theta phi))%C.
Proof.
  intros H Hs. rewrite <- Yc_sph_harm, (Yc_Ev n m N) by lia.
  destruct (Z.eq_dec m 0) as [->|Hm].
  { replace (-2 * 0) with 0 by ring. replace (0 / sin theta) with 0 by (field; auto). ring. }
  rewrite <- (Ev_ext N _ _ theta (fun k => Ws_S n m k Hm)).
  rewrite Ev_Sq; [|lia|intros k Hk; apply Ws_supp; lia].
  replace (Ci * (RtoC (IZR m / sin theta) * (ipow m * cisR (IZR m * phi) * (Ci * RtoC (2 * sin theta) * Ev N (Ws n m) theta))))%C
    with ((Ci * Ci) * (RtoC (IZR m / sin theta) * RtoC (2 * sin theta)) * (ipow m * cisR (IZR m * phi) * Ev N (Ws n m) theta))%C by ring.
  rewrite <- RtoC_mult. replace (IZR m / sin theta * (2 * sin theta)) with (2 * IZR m) by (field; auto).
  replace (Ci * Ci)%C with (RtoC (-1)) by (apply injective_projections; cbn; ring).
  rewrite <- RtoC_mult. do 2 f_equal. ring.
Qed.

Lemma Ci_Ci : (Ci * Ci)%C = (- RtoC 1)%C. Proof. apply injective_projections; cbn; ring. Qed.

(** Column m of a table, evaluated in theta. *)
Lemma col_F N M w m theta phi : (Z.abs m <= M)%Z -> (M <= N)%Z ->
  (sumC (- N) (N + 1) (fun k => RtoC (IZR k) * Fm N M w m k * cisR (IZR k * theta)) * cisR (IZR m * phi))%C =
  sumC (Z.abs m) (N + 1) (fun n => w n m * (- Ci * dtheta_sph_harm n m theta phi))%C.
Proof.
  intros Hm HM.
  rewrite (sumC_ext (Z.abs m) (N + 1) _ (fun n => (ipow m * w n m * Ev N (Dq (Yt n m)) theta) * cisR (IZR m * phi))%C).
  2:{ intros n Hn. rewrite (dtheta_Ev n m N) by lia.
      transitivity (- (Ci * Ci) * (ipow m * w n m * Ev N (Dq (Yt n m)) theta * cisR (IZR m * phi)))%C; [ring|].
      rewrite Ci_Ci. ring. }
  rewrite <- sumC_mulr. f_equal. unfold Ev.
  rewrite (sumC_ext (Z.abs m) (N + 1) _ (fun n => sumC (- N) (N + 1) (fun k => ipow m * w n m * (RtoC (Dq (Yt n m) k) * cisR (IZR k * theta))))%C)
    by (intros; now rewrite sumC_mul).
  rewrite sumC_exch. apply sumC_ext. intros k _. unfold Fm, Fw. destruct (Z.leb_spec (Z.abs m) M); [|lia].
  transitivity (ipow m * (RtoC (IZR k) * cisR (IZR k * theta)) * sumC (Z.abs m) (N + 1) (fun n => w n m * RtoC (Yt n m k)))%C; [ring|].
  rewrite sumC_mul. apply sumC_ext. intros n _. unfold Dq. rewrite RtoC_mult. ring.
Qed.

Lemma col_G N M w m theta phi : (Z.abs m <= M)%Z -> (M <= N)%Z -> sin theta <> 0 ->
  (sumC (- N) (N + 1) (fun k => Gm N M w m k * cisR (IZR k * theta)) * cisR (IZR m * phi))%C =
  sumC (Z.abs m) (N + 1) (fun n => w n m * (Ci * (RtoC (IZR m / sin theta) * sph_harm n m theta phi)))%C.
Proof.
  intros Hm HM Hs.
  rewrite (sumC_ext (Z.abs m) (N + 1) _ (fun n => (RtoC (-2 * IZR m) * ipow m * w n m * Ev N (Ws n m) theta) * cisR (IZR m * phi))%C).
  2:{ intros n Hn. rewrite <- (Ws_Ev n m N) by (auto; lia). ring. }
  rewrite <- sumC_mulr. f_equal. unfold Ev.
  rewrite (sumC_ext (Z.abs m) (N + 1) _ (fun n => sumC (- N) (N + 1) (fun k => RtoC (-2 * IZR m) * ipow m * w n m * (RtoC (Ws n m k) * cisR (IZR k * theta))))%C)
    by (intros; now rewrite sumC_mul).
  rewrite sumC_exch. apply sumC_ext. intros k _. unfold Gm, Gw. destruct (Z.leb_spec (Z.abs m) M); [|lia].
  transitivity (RtoC (-2 * IZR m) * ipow m * cisR (IZR k * theta) * sumC (Z.abs m) (N + 1) (fun n => w n m * RtoC (Ws n m k)))%C; [ring|].
  rewrite sumC_mul. apply sumC_ext. intros n _. ring.
Qed.

Lemma synth_Tm L nc N M w1 w2 p q : (1 <= L)%Z -> (2 * N < L)%Z -> (0 <= M <= N)%Z -> (2 * M < nc)%Z ->
  let theta := 2 * PI * IZR p / IZR L in let phi := 2 * PI * IZR q / IZR nc in sin theta <> 0 ->
  synth L nc (Tm N M w1 w2) p q =
  sumC (- M) (M + 1) (fun m => sumC (Z.abs m) (N + 1) (fun n =>
    - (w1 n m * (RtoC (IZR m / sin theta) * sph_harm n m theta phi) + w2 n m * dtheta_sph_harm n m theta phi)))%C /\
  synth L nc (Pm N M w1 w2) p q =
  sumC (- M) (M + 1) (fun m => sumC (Z.abs m) (N + 1) (fun n =>
    - Ci * (w1 n m * dtheta_sph_harm n m theta phi + w2 n m * (RtoC (IZR m / sin theta) * sph_harm n m theta phi))))%C.
Proof.
  intros HL HN HM Hc theta phi Hs.
  rewrite (synth_freq L nc _ N M) by (try lia; apply Tm_out). rewrite (synth_freq L nc _ N M) by (try lia; apply Pm_out).
  split; apply sumC_ext; intros m Hm; rewrite (root_cis nc) by lia; fold phi.
  - rewrite (sumC_ext (- N) (N + 1) _ (fun k => Ci * (Gm N M w1 m k * cisR (IZR k * theta)) + - Ci * (RtoC (IZR k) * Fm N M w2 m k * cisR (IZR k * theta)))%C).
    2:{ intros k _. rewrite (root_cis L) by lia. fold theta. unfold Tm. ring. }
    rewrite sumC_add, <- !sumC_mul, Cmult_plus_distr_r, <- !Cmult_assoc, col_G, col_F by (auto; lia).
    rewrite !sumC_mul, <- sumC_add. apply sumC_ext. intros n _.
    set (Y := sph_harm n m theta phi). set (D := dtheta_sph_harm n m theta phi). set (r := RtoC (IZR m / sin theta)).
    transitivity ((Ci * Ci) * (w1 n m * (r * Y) + w2 n m * D))%C; [ring|]. rewrite Ci_Ci. ring.
  - rewrite (sumC_ext (- N) (N + 1) _ (fun k => (RtoC (IZR k) * Fm N M w1 m k * cisR (IZR k * theta)) + (Ci * Ci) * (Gm N M w2 m k * cisR (IZR k * theta)))%C).
    2:{ intros k _. rewrite (root_cis L) by lia. fold theta. unfold Pm. ring. }
    rewrite sumC_add, <- !sumC_mul, Cmult_plus_distr_r, <- !Cmult_assoc, col_G, col_F by (auto; lia).
    rewrite !sumC_mul, <- sumC_add. apply sumC_ext. intros n _.
    set (Y := sph_harm n m theta phi). set (D := dtheta_sph_harm n m theta phi). set (r := RtoC (IZR m / sin theta)).
    transitivity (- Ci * (w1 n m * D) + (Ci * Ci) * (Ci * (w2 n m * (r * Y))))%C; [ring|]. rewrite Ci_Ci. ring.
Qed.
