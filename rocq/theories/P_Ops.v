(** * P_Ops: properties C35 (Python part), C36 and C51: fast size search,
    convolution without aliasing, frequency domain operators. *)
From Coq Require Import ZArith Znumtheory List String Bool Lia Reals Lra.
From Coquelicot Require Import Coquelicot.
From Verif Require Import Py PyFacts Num Exact MCoefs SpecCoefs Obs CoefsFacts CoefsFacts2 CoefsFacts3
  MPatt SpecPatt PattFacts Sums Harm SpecHarm SpecOps MPysphi MOps Smooth Dft PysphiFacts TransFacts MTrans TransFacts2 TransFacts3
  TransFacts4 HarmFacts VHarm P_Coefs P_Patt P_Trans.
Import ListNotations.
Open Scope string_scope.
Open Scope list_scope.
Open Scope Z_scope.

(** ** C35 *)

Theorem C35_search_least : forall Q, 1 <= Q ->
  exists q, smallest_prime_factor Q = Ok q /\ Q <= q < 2 * Q /\
    (forall p, prime p -> (p | q) -> p = 2 \/ p = 3 \/ p = 5 \/ p = 7) /\
    forall k, Q <= k < q -> exists p, prime p /\ (p | k) /\ p <> 2 /\ p <> 3 /\ p <> 5 /\ p <> 7.
Proof.
  intros Q HQ. destruct (spf_ok Q HQ) as (q & E & (H1 & [H2 H3] & H4) & H5). exists q. split; [exact E|].
  split; [lia|]. split.
  - intros p Hp Hd. specialize (H3 p Hp Hd). cbn in H3. lia.
  - intros k Hk. specialize (H4 k Hk).
    destruct (Classical_Prop.classic (exists p, prime p /\ (p | k) /\ p <> 2 /\ p <> 3 /\ p <> 5 /\ p <> 7)) as [X|X]; auto.
    exfalso. apply H4. split; [lia|]. intros p Hp Hd.
    destruct (Z.eq_dec p 2) as [->|]; [cbn; tauto|]. destruct (Z.eq_dec p 3) as [->|]; [cbn; tauto|].
    destruct (Z.eq_dec p 5) as [->|]; [cbn; tauto|]. destruct (Z.eq_dec p 7) as [->|]; [cbn; tauto|].
    exfalso. apply X. exists p. auto 10.
Qed.
Print Assumptions C35_search_least.

(** Finding: no number of iterations suffices for Q <= 0. *)
Theorem C35_nonpositive_diverges : forall Q fuel, Q <= 0 -> spf_loop fuel Q Q = Raise OutOfFuel.
Proof. intros Q fuel H. apply spf_nonpos; auto. Qed.
Print Assumptions C35_nonpositive_diverges.

Example C35_nonvacuous : smallest_prime_factor 11 = Ok 12 /\ smallest_prime_factor 121 = Ok 125 /\ smallest_prime_factor 7 = Ok 7.
Proof. repeat split; vm_compute; reflexivity. Qed.

(** ** C36 *)

Lemma sig_inv_odd j : sig j = inv_odd j.
Proof.
  unfold sig, inv_odd. destruct (Z.odd j) eqn:E; auto.
  assert (H : IZR j <> 0%R) by (apply not_0_IZR; intros ->; discriminate).
  apply injective_projections; cbn; field; auto.
Qed.

(** hkm_fc with the kernel vector of s_data of any length Q >= L + Nmax is the
    linear convolution with -i/nu at k = 0 .. Nmax. *)
Theorem C36_no_aliasing : forall a Nmax m L Q, mt_nr RN a = 2 * L -> 1 <= L -> 0 <= Nmax -> 2 * L + Nmax <= Q ->
  - mt_nc RN a <= m < mt_nc RN a -> mget RN a L (m mod mt_nc RN a) = RtoC 0 ->
  exists s h, s_data (mt_nr RN a) Nmax Q = Ok s /\ zlen s = Q /\ hkm_fc a Nmax m s = Ok h /\ zlen h = Nmax + 1 /\
    forall k, 0 <= k <= Nmax ->
      vget (RtoC 0) h k = (RtoC (4 * PI) * sumC (- L) L (fun nu =>
         mget RN a (nu mod mt_nr RN a) (m mod mt_nc RN a) * inv_odd (k - nu)))%C.
Proof.
  intros a Nmax m L Q Hr HL HN HQ Hm Hz. exists (vmake Q (s_val L Nmax Q)). eexists.
  split; [rewrite Hr; apply s_data_eq; lia|]. split; [apply zlen_vmake'; lia|].
  split; [apply (hkm_fc_eq a Nmax m L Q); auto|]. split; [apply zlen_vmake'; lia|].
  intros k Hk. rewrite vget_vmake by lia. unfold hconv. f_equal. apply sumC_ext. intros nu Hnu.
  rewrite Hr. f_equal. apply sig_inv_odd.
Qed.
Print Assumptions C36_no_aliasing.

(** bnm_vec_fc always chooses an admissible length. *)
Theorem C36_length_admissible : forall nrows Nmax, 1 <= nrows + Nmax ->
  exists Q, smallest_prime_factor (nrows + Nmax) = Ok Q /\ nrows + Nmax <= Q.
Proof.
  intros nrows Nmax H. destruct (spf_ok _ H) as (q & E & (H1 & _) & _). exists q. auto.
Qed.
Print Assumptions C36_length_admissible.

Lemma tab_row L nc F i : 0 < L -> 0 < nc -> fsupp (L - 1) F -> 0 <= i < nc -> mget RN (tab (2 * L) nc F) L i = RtoC 0.
Proof.
  intros HL Hn HF Hi. change (cget (tab (2 * L) nc F) L i = RtoC 0). unfold tab. rewrite cget_mmake by lia. apply HF.
  unfold freqc. replace (2 * L / 2) with L by lia. destruct (Z.leb_spec L L); lia.
Qed.

(** The data handed to fc_to_sc by spht, and the two arrays handed to it by
    vspht, have a zero row -L/2. *)
Theorem C36_spht_data : forall d R, mt_nr RN d = 2 * R - 2 -> 2 <= R -> 1 <= mt_nc RN d ->
  exists f g, fft_padded d = Ok f /\ sin_fc f = Ok g /\ mt_nr RN g = 2 * R /\ mt_nc RN g = mt_nc RN d /\
    forall j, 0 <= j < mt_nc RN g -> mget RN g R j = RtoC 0.
Proof.
  intros d R Hr HR Hc. rewrite (fft_padded_ok d R) by auto. eexists. eexists. split; [reflexivity|].
  split; [apply sin_fc_tab; try lia; apply fsupp_trunc|]. split; [reflexivity|]. split; [reflexivity|].
  intros j Hj. apply tab_row; try lia; auto. replace (R - 1) with (R - 2 + 1) by lia. apply fsupp_sinF, fsupp_trunc.
Qed.
Print Assumptions C36_spht_data.
Theorem C36_vspht_data : forall t p R B, mt_nr RN t = 2 * R - 2 -> mt_nr RN p = 2 * R - 2 -> mt_nc RN t = 2 * B -> mt_nc RN p = 2 * B ->
  2 <= R -> 1 <= B ->
  exists f g h1 h2, fft_padded t = Ok f /\ fft_padded p = Ok g /\
    sinLdot_fc f g = Ok h1 /\ sinLdot_fc (ew1 (fun x => - Ci * x)%C g) (ew1 (fun x => Ci * x)%C f) = Ok h2 /\
    mt_nr RN h1 = 2 * R /\ mt_nc RN h1 = 2 * B /\ mt_nr RN h2 = 2 * R /\ mt_nc RN h2 = 2 * B /\
    forall j, 0 <= j < 2 * B -> mget RN h1 R j = RtoC 0 /\ mget RN h2 R j = RtoC 0.
Proof.
  intros t p R B Hr1 Hr2 Hc1 Hc2 HR HB. rewrite (fft_padded_ok t R), (fft_padded_ok p R) by (auto; lia). rewrite Hc1, Hc2.
  do 4 eexists. split; [reflexivity|]. split; [reflexivity|].
  rewrite !ew1_tab by lia.
  split; [apply sinLdot_fc_tab; try lia; apply fsupp_trunc|].
  split; [apply sinLdot_fc_tab; try lia; intros m k Hk; rewrite fsupp_trunc by lia; ring|].
  do 4 (split; [reflexivity|]). intros j Hj.
  assert (S : forall T P, fsupp (R - 2) T -> fsupp (R - 2) P -> fsupp (R - 1) (sLd B T P)).
  { intros T P HT HP m k Hk. unfold sLd. rewrite HT by lia. rewrite (fsupp_sinF (R - 2) P HP) by lia. ring. }
  split; apply tab_row; try lia; apply S; try apply fsupp_trunc; intros m k Hk; rewrite fsupp_trunc by lia; ring.
Qed.
Print Assumptions C36_vspht_data.

Example C36_nonvacuous : exists s h, let a := mmake RN 4 2 (fun i j => if i =? 2 then RtoC 0 else RtoC 1) in
  s_data 4 3 8 = Ok s /\ hkm_fc a 3 (-1) s = Ok h /\ zlen h = 4.
Proof.
  destruct (C36_no_aliasing (mmake RN 4 2 (fun i j => if i =? 2 then RtoC 0 else RtoC 1)) 3 (-1) 2 8) as (s & h & H1 & _ & H2 & H3 & _);
    try (cbn [mt_nr mt_nc mmake]; lia).
  - change (cget (mmake RN 4 2 (fun i j => if i =? 2 then RtoC 0 else RtoC 1)) 2 1 = RtoC 0). rewrite cget_mmake by lia. reflexivity.
  - exists s, h. repeat split; auto.
Qed.

(** ** C51 *)

(** Every table is [tab] of its own centred entries. *)
Definition fof (P : Z) (a : mat RN) (m k : Z) : C := if Z.abs k <=? P then colf a m k else RtoC 0.

Lemma freqc_in L i : 1 <= L -> 0 <= i < 2 * L -> - L < freqc (2 * L) i <= L.
Proof. intros. pose proof (freqc_range (2 * L) i ltac:(lia)). lia. Qed.

Lemma tab_fof a L nc P : mat_wf RN a -> mt_nr RN a = 2 * L -> mt_nc RN a = nc -> 1 <= L -> 1 <= nc ->
  (forall k, P < Z.abs k <= L -> row_free a k) -> a = tab (2 * L) nc (fof P a).
Proof.
  intros W Hr Hc HL Hn Hf. rewrite (mat_mmake a W) at 1. rewrite Hr, Hc. unfold tab. apply mmake_ext; try lia.
  intros i j Hi Hj. unfold fof, colf. rewrite Hr, Hc, !freqc_mod by lia.
  destruct (Z.leb_spec (Z.abs (freqc (2 * L) i)) P) as [H|H]; auto.
  pose proof (freqc_in L i HL Hi). specialize (Hf (freqc (2 * L) i)). rewrite <- (Hf ltac:(lia) j ltac:(lia)).
  unfold row_free. rewrite Hr, freqc_mod by lia. reflexivity.
Qed.
Lemma fof_supp P a : fsupp P (fof P a).
Proof. intros m k H. unfold fof. destruct (Z.leb_spec (Z.abs k) P); [lia|auto]. Qed.

Definition tv (L B : Z) (F : Z -> Z -> C) (theta phi : R) : C :=
  sumC (- B + 1) (B + 1) (fun m => sumC (- L + 1) (L + 1) (fun k => F m k * cisR (IZR k * theta)) * cisR (IZR m * phi))%C.
Lemma table_value_tab L B F theta phi : 1 <= L -> 1 <= B ->
  table_value (tab (2 * L) (2 * B) F) theta phi = tv L B F theta phi.
Proof.
  intros HL HB. unfold table_value, tv. change (mt_nr RN (tab (2 * L) (2 * B) F)) with (2 * L). change (mt_nc RN (tab (2 * L) (2 * B) F)) with (2 * B).
  replace (2 * L / 2) with L by lia. replace (2 * B / 2) with B by lia.
  apply sumC_ext. intros m Hm. rewrite sumC_mulr. apply sumC_ext. intros k Hk.
  change (colf (tab (2 * L) (2 * B) F) m k * cisR (IZR k * theta) * cisR (IZR m * phi) = F m k * cisR (IZR k * theta) * cisR (IZR m * phi))%C.
  rewrite colf_tab by lia. reflexivity.
Qed.

Lemma cis_sin t : (RtoC 1 / (RtoC 2 * Ci) * (cisR t - cisR (- t)))%C = RtoC (sin t).
Proof.
  replace (RtoC 1 / (RtoC 2 * Ci))%C with (RtoC (1 / 2) * - Ci)%C.
  - unfold cisR. rewrite cos_neg, sin_neg. apply injective_projections; cbn; field.
  - apply injective_projections; cbn; field.
Qed.

Lemma sinF_col L F m theta : 2 <= L -> fsupp (L - 2) F ->
  sumC (- L + 1) (L + 1) (fun k => sinF F m k * cisR (IZR k * theta))%C =
  (RtoC (sin theta) * sumC (- L + 1) (L + 1) (fun k => F m k * cisR (IZR k * theta)))%C.
Proof.
  intros HL HF. set (S := sumC (- L + 1) (L + 1) (fun k => F m k * cisR (IZR k * theta))%C).
  assert (E : forall d, d = 1 \/ d = -1 ->
     sumC (- L + 1) (L + 1) (fun k => F m (k - d)%Z * cisR (IZR k * theta))%C = (cisR (IZR d * theta) * S)%C).
  { intros d Hd. unfold S. rewrite sumC_mul.
    rewrite (sumC_extend (- L + 2) (L - 1) (- L + 1) (L + 1) (fun k => cisR (IZR d * theta) * (F m k * cisR (IZR k * theta)))%C)
      by (try lia; intros k _ Hk; rewrite HF by lia; ring).
    rewrite (sumC_extend (- L + 2 + d) (L - 1 + d) (- L + 1) (L + 1) (fun k => F m (k - d)%Z * cisR (IZR k * theta))%C)
      by (try lia; intros k _ Hk; rewrite HF by lia; ring).
    rewrite sumC_shift. apply sumC_ext. intros k _. replace (k + d - d) with k by lia.
    rewrite plus_IZR, Rmult_plus_distr_r, cisR_add. ring. }
  assert (E1 := E 1 (or_introl eq_refl)). assert (E2 := E (-1) (or_intror eq_refl)).
  unfold sinF.
  rewrite (sumC_ext _ _ _ (fun k => RtoC 1 / (RtoC 2 * Ci) * (F m (k - 1)%Z * cisR (IZR k * theta)) - RtoC 1 / (RtoC 2 * Ci) * (F m (k - -1)%Z * cisR (IZR k * theta)))%C)
    by (intros k _; replace (k - -1) with (k + 1) by lia; ring).
  rewrite sumC_sub, <- !sumC_mul, E1, E2.
  rewrite <- (cis_sin theta). replace (1 * theta)%R with theta by ring. replace (-1 * theta)%R with (- theta)%R by ring. ring.
Qed.

(** sin_fc multiplies by sin theta. *)
Theorem C51_sin_fc : forall a L B, mat_wf RN a -> mt_nr RN a = 2 * L -> mt_nc RN a = 2 * B -> 2 <= L -> 1 <= B ->
  row_free a (L - 1) -> row_free a L -> row_free a (- (L - 1)) ->
  exists b, sin_fc a = Ok b /\ mt_nr RN b = 2 * L /\ mt_nc RN b = 2 * B /\
    forall theta phi, table_value b theta phi = (RtoC (sin theta) * table_value a theta phi)%C.
Proof.
  intros a L B W Hr Hc HL HB F1 F2 F3.
  assert (E : a = tab (2 * L) (2 * B) (fof (L - 2) a)).
  { apply tab_fof; auto; try lia. intros k Hk.
    assert (k = L - 1 \/ k = L \/ k = - (L - 1) \/ k = - L) as [-> | [-> | [-> | ->]]] by lia; auto.
    intros j Hj. rewrite <- (F2 j Hj). f_equal. rewrite Hr. rewrite (Z.mod_small L) by lia. rewrite mod_neg_small by lia. lia. }
  exists (tab (2 * L) (2 * B) (sinF (fof (L - 2) a))). split; [|split; [reflexivity|split; [reflexivity|]]].
  - rewrite E at 1. apply sin_fc_tab; try lia. apply fof_supp.
  - intros theta phi. rewrite E at 2. rewrite !table_value_tab by lia. unfold tv. rewrite sumC_mul. apply sumC_ext. intros m _.
    rewrite sinF_col by (auto using fof_supp). ring.
Qed.
Print Assumptions C51_sin_fc.

(** divsin_fc undoes it. *)
Theorem C51_divsin_inverts : forall a b L B, mat_wf RN a -> mt_nr RN a = 2 * L -> mt_nc RN a = 2 * B -> 2 <= L -> 1 <= B ->
  row_free a (L - 1) -> row_free a L -> row_free a (- (L - 1)) ->
  sin_fc a = Ok b -> divsin_fc b = Ok a.
Proof.
  intros a b L B W Hr Hc HL HB F1 F2 F3 Hs.
  assert (E : a = tab (2 * L) (2 * B) (fof (L - 2) a)).
  { apply tab_fof; auto; try lia. intros k Hk.
    assert (k = L - 1 \/ k = L \/ k = - (L - 1) \/ k = - L) as [-> | [-> | [-> | ->]]] by lia; auto.
    intros j Hj. rewrite <- (F2 j Hj). f_equal. rewrite Hr. rewrite (Z.mod_small L) by lia. rewrite mod_neg_small by lia. lia. }
  rewrite E in Hs at 1. rewrite sin_fc_tab in Hs by (try lia; apply fof_supp). apply Ok_inj in Hs; subst b.
  rewrite divsin_fc_tab by (try lia; apply fof_supp). now rewrite <- E.
Qed.
Print Assumptions C51_divsin_inverts.

Lemma derive_cis_sum (c : Z -> C) (lo hi : Z) t :
  derive_C (fun s => sumC lo hi (fun k => c k * cisR (IZR k * s))%C) t =
  sumC lo hi (fun k => Ci * RtoC (IZR k) * c k * cisR (IZR k * t))%C.
Proof.
  apply injective_projections; cbn [fst snd derive_C].
  - rewrite sumC_fst. erewrite Derive_ext by (intros s; apply sumC_fst).
    erewrite is_derive_unique; [reflexivity|].
    apply (sumR_derive (fun k s => fst (c k * cisR (IZR k * s))%C) (fun k s => fst (Ci * RtoC (IZR k) * c k * cisR (IZR k * s))%C)).
    intros k. cbn. auto_derive; [auto|ring].
  - rewrite sumC_snd. erewrite Derive_ext by (intros s; apply sumC_snd).
    erewrite is_derive_unique; [reflexivity|].
    apply (sumR_derive (fun k s => snd (c k * cisR (IZR k * s))%C) (fun k s => snd (Ci * RtoC (IZR k) * c k * cisR (IZR k * s))%C)).
    intros k. cbn. auto_derive; [auto|ring].
Qed.
Lemma derive_C_ext f g t : (forall s, f s = g s) -> derive_C f t = derive_C g t.
Proof. intros H. unfold derive_C. f_equal; apply Derive_ext; intros s; now rewrite H. Qed.

Lemma tv_theta L B F theta phi : tv L B F theta phi =
  sumC (- L + 1) (L + 1) (fun k => sumC (- B + 1) (B + 1) (fun m => F m k * cisR (IZR m * phi)) * cisR (IZR k * theta))%C.
Proof.
  unfold tv. rewrite (sumC_ext _ _ _ (fun m => sumC (- L + 1) (L + 1) (fun k => F m k * cisR (IZR k * theta) * cisR (IZR m * phi))%C))
    by (intros m _; apply sumC_mulr).
  rewrite sumC_exch. apply sumC_ext. intros k _. rewrite sumC_mulr. apply sumC_ext. intros m _. ring.
Qed.

(** dtheta_fc and dphi_fc differentiate. *)
Theorem C51_dtheta_fc : forall a L B, mat_wf RN a -> mt_nr RN a = 2 * L -> mt_nc RN a = 2 * B -> 1 <= L -> 1 <= B ->
  row_free a L ->
  exists b, dtheta_fc a = Ok b /\ mt_nr RN b = 2 * L /\ mt_nc RN b = 2 * B /\
    forall theta phi, table_value b theta phi = dtheta (table_value a) theta phi.
Proof.
  intros a L B W Hr Hc HL HB F2.
  assert (E : a = tab (2 * L) (2 * B) (fof (L - 1) a)).
  { apply tab_fof; auto; try lia. intros k Hk. assert (k = L \/ k = - L) as [-> | ->] by lia; auto.
    intros j Hj. rewrite <- (F2 j Hj). f_equal. rewrite Hr. rewrite (Z.mod_small L) by lia. rewrite mod_neg_small by lia. lia. }
  eexists. split; [rewrite E at 1; apply dtheta_fc_tab; try lia; apply fof_supp|]. split; [reflexivity|]. split; [reflexivity|].
  intros theta phi. rewrite table_value_tab by lia. unfold dtheta. 
  rewrite (derive_C_ext _ (fun s => tv L B (fof (L - 1) a) s phi)) by (intros s; rewrite E at 1; now apply table_value_tab).
  rewrite tv_theta. rewrite (derive_C_ext _ _ theta (fun s => tv_theta L B (fof (L - 1) a) s phi)).
  rewrite (derive_cis_sum (fun k => sumC (- B + 1) (B + 1) (fun m => fof (L - 1) a m k * cisR (IZR m * phi))%C)).
  apply sumC_ext. intros k _. f_equal. rewrite sumC_mul. apply sumC_ext. intros m _. ring.
Qed.
Print Assumptions C51_dtheta_fc.

Theorem C51_dphi_fc : forall a L B, mat_wf RN a -> mt_nr RN a = 2 * L -> mt_nc RN a = 2 * B -> 1 <= L -> 1 <= B ->
  col_free a B ->
  exists b, dphi_fc a = Ok b /\ mt_nr RN b = 2 * L /\ mt_nc RN b = 2 * B /\
    forall theta phi, table_value b theta phi = dphi (table_value a) theta phi.
Proof.
  intros a L B W Hr Hc HL HB F2.
  assert (E : a = tab (2 * L) (2 * B) (fof L a)) by (apply tab_fof; auto; try lia; intros k Hk; lia).
  assert (FB : forall k, fof L a B k = RtoC 0).
  { intros k. unfold fof. destruct (_ <=? _); auto. unfold colf. apply (F2 (k mod mt_nr RN a)). apply mod_range. lia. }
  eexists. split; [rewrite E at 1; apply dphi_fc_tab; auto; lia|]. split; [reflexivity|]. split; [reflexivity|].
  intros theta phi. rewrite table_value_tab by lia. unfold dphi.
  rewrite (derive_C_ext _ (fun s => tv L B (fof L a) theta s)) by (intros s; rewrite E at 1; now apply table_value_tab).
  unfold tv. rewrite derive_cis_sum. apply sumC_ext. intros m _. f_equal. rewrite sumC_mul. apply sumC_ext. intros k _. ring.
Qed.
Print Assumptions C51_dphi_fc.

(** Table of the coefficients c: what L_fc and sinLdot_fc do to it. *)
Lemma tv_Fm L B N M w theta phi : N < L -> 0 <= M < B -> 0 <= N ->
  tv L B (Fm N M w) theta phi = harm_series N M w theta phi.
Proof.
  intros HN HM HN0. unfold tv, harm_series.
  rewrite (sumC_extend (- M) (M + 1)) by
    first [lia | intros m _ Hm; rewrite sumC_zero; [ring|intros k _; unfold Fm; destruct (Z.leb_spec (Z.abs m) M); [lia|ring]]].
  apply sumC_ext. intros m Hm.
  rewrite (sumC_extend (- N) (N + 1)) by (try lia; intros k _ Hk; rewrite Fm_supp by lia; ring).
  rewrite (sumC_ext _ _ _ (fun k => sumC (Z.abs m) (N + 1) (fun n => ipow m * w n m * RtoC (Yt n m k) * cisR (IZR k * theta))%C)).
  2:{ intros k _. unfold Fm, Fw. destruct (Z.leb_spec (Z.abs m) M); [|lia]. rewrite sumC_mul, sumC_mulr. apply sumC_ext. intros n _. ring. }
  rewrite sumC_exch, sumC_mulr. apply sumC_ext. intros n Hn. rewrite <- Yc_sph_harm by lia. unfold Yc.
  rewrite (sumC_extend (- n) (n + 1)) by (try lia; intros k _ Hk; rewrite Yt_supp by lia; ring).
  rewrite sumC_mulr, !sumC_mul. apply sumC_ext. intros k _. ring.
Qed.

Lemma tv_ext L B F G theta phi : (forall m k, - B < m <= B -> - L < k <= L -> F m k = G m k) -> tv L B F theta phi = tv L B G theta phi.
Proof.
  intros H. unfold tv. apply sumC_ext. intros m Hm. f_equal. apply sumC_ext. intros k Hk. rewrite H by lia. reflexivity.
Qed.
Lemma tv_sinF L B F theta phi : 2 <= L -> fsupp (L - 2) F -> tv L B (sinF F) theta phi = (RtoC (sin theta) * tv L B F theta phi)%C.
Proof. intros HL HF. unfold tv. rewrite sumC_mul. apply sumC_ext. intros m _. rewrite sinF_col by auto. ring. Qed.
Lemma tv_scal L B c F theta phi : tv L B (fun m k => c * F m k)%C theta phi = (c * tv L B F theta phi)%C.
Proof.
  unfold tv. rewrite sumC_mul. apply sumC_ext. intros m _. rewrite Cmult_assoc, sumC_mul. f_equal. apply sumC_ext. intros k _. ring.
Qed.
Lemma dtheta_tv L B F theta phi : dtheta (tv L B F) theta phi = tv L B (fun m k => Ci * RtoC (IZR k) * F m k)%C theta phi.
Proof.
  unfold dtheta. rewrite tv_theta. rewrite (derive_C_ext _ _ theta (fun s => tv_theta L B F s phi)).
  rewrite (derive_cis_sum (fun k => sumC (- B + 1) (B + 1) (fun m => F m k * cisR (IZR m * phi))%C)).
  apply sumC_ext. intros k _. f_equal. rewrite sumC_mul. apply sumC_ext. intros m _. ring.
Qed.
Lemma dphi_tv L B F theta phi : dphi (tv L B F) theta phi = tv L B (fun m k => Ci * RtoC (IZR m) * F m k)%C theta phi.
Proof.
  unfold dphi, tv. rewrite derive_cis_sum. apply sumC_ext. intros m _. f_equal. rewrite sumC_mul. apply sumC_ext. intros k _. ring.
Qed.

(** On the Fourier table of a harmonic series L_fc is (i / sin theta) d/dphi
    and -i d/dtheta, and sinLdot_fc of the two is the series with every
    coefficient multiplied by n (n + 1), times sin theta. *)
Theorem C51_L_operators : forall c f L B, valid RN c -> holds c f -> sc_nmax RN c + 2 <= L -> sc_mmax RN c < B ->
  exists t ft fp s,
    py_sc_to_fc (sc_vec RN c) (sc_nmax RN c) (sc_mmax RN c) (2 * L) (2 * B) = Ok t /\
    L_fc t = Ok (ft, fp) /\ sinLdot_fc ft fp = Ok s /\
    forall theta phi,
      table_value t theta phi = harm_series (sc_nmax RN c) (sc_mmax RN c) f theta phi /\
      (RtoC (sin theta) * table_value ft theta phi = Ci * dphi (table_value t) theta phi)%C /\
      (table_value fp theta phi = - Ci * dtheta (table_value t) theta phi)%C /\
      (table_value s theta phi = RtoC (sin theta) *
         harm_series (sc_nmax RN c) (sc_mmax RN c) (fun n m => RtoC (IZR n * (IZR n + 1)) * f n m) theta phi)%C.
Proof.
  intros c f L B Hv Hh HL HB. pose proof (proj1 (valid_wf RN c) Hv) as Hw. pose proof Hw as [[Hg1 Hg2] _].
  set (N := sc_nmax RN c) in *. set (M := sc_mmax RN c) in *.
  assert (Et : py_sc_to_fc (sc_vec RN c) N M (2 * L) (2 * B) = Ok (tab (2 * L) (2 * B) (Fm N M f))).
  { etransitivity; [apply (py_sc_to_fc_ok c (2 * L) (2 * B)); auto; fold N M; lia|]. f_equal. apply tab_ext; try lia.
    intros m k _ _. apply Fsc_Fm. now apply holds_cval. }
  pose proof (L_fc_Fm (L + 1) B N M f ltac:(lia) ltac:(lia) ltac:(lia)) as EL.
  replace (2 * (L + 1) - 2) with (2 * L) in EL by lia.
  do 4 eexists. split; [exact Et|]. split; [exact EL|]. split.
  { apply sinLdot_fc_tab; try lia. intros m k Hk. rewrite Fm_supp by lia. ring. }
  intros theta phi. rewrite !table_value_tab by lia.
  assert (Dt : forall s1 s2, table_value (tab (2 * L) (2 * B) (Fm N M f)) s1 s2 = tv L B (Fm N M f) s1 s2) by (intros; apply table_value_tab; lia).
  assert (HG : fsupp (L - 2) (Gm N M f)) by (intros m k Hk; apply Gm_supp; lia).
  assert (SG : forall m k, sinF (Gm N M f) m k = (Ci * RtoC (IZR m) * Fm N M f m k)%C).
  { intros m k. unfold sinF, Gm, Fm. destruct (Z.abs m <=? M); [|ring]. apply (sin1_Gw (fun n => f n m) N m k). }
  split; [apply tv_Fm; lia|]. split; [|split].
  - rewrite tv_scal. unfold dphi. rewrite (derive_C_ext _ (fun s => tv L B (Fm N M f) theta s)) by (intros; apply Dt).
    change (derive_C (fun s => tv L B (Fm N M f) theta s) phi) with (dphi (tv L B (Fm N M f)) theta phi). rewrite dphi_tv.
    rewrite (tv_ext L B (fun m k => Ci * RtoC (IZR m) * Fm N M f m k)%C (sinF (Gm N M f))) by (intros; now rewrite SG). rewrite tv_sinF by (auto; lia). ring.
  - unfold dtheta. rewrite (derive_C_ext _ (fun s => tv L B (Fm N M f) s phi)) by (intros; apply Dt).
    change (derive_C (fun s => tv L B (Fm N M f) s phi) theta) with (dtheta (tv L B (Fm N M f)) theta phi). rewrite dtheta_tv, <- tv_scal.
    apply tv_ext. intros m k _ _. transitivity (- (Ci * Ci) * (RtoC (IZR k) * Fm N M f m k))%C; [rewrite Ci_sq; change (RtoC (-1)) with (RtoC (IZR (-1))); replace (RtoC (IZR (-1))) with (- RtoC 1)%C by (rewrite <- RtoC_opp; f_equal; ring); ring|ring].
  - rewrite <- (tv_Fm L B) by lia. rewrite <- tv_sinF by (try lia; intros m k Hk; apply Fm_supp; lia).
    apply tv_ext. intros m k Hm _. unfold sLd, mfix.
    destruct (Z.leb_spec (Z.abs m) M) as [Hmm|Hmm].
    + destruct (Z.eqb_spec m B); [lia|].
      pose proof (Lf_Fw (fun n => f n m) N m k) as H.
      transitivity (RtoC (IZR k) * sin1 (fun k => RtoC (IZR k) * Fw (fun n => f n m) N m k) k - Ci * RtoC (IZR m) * Gw (fun n => f n m) N m k)%C.
      * unfold sinF, sin1, Fm, Gm. destruct (Z.leb_spec (Z.abs m) M); [|lia]. ring.
      * rewrite H. unfold sinF, sin1, Fm. destruct (Z.leb_spec (Z.abs m) M); [|lia]. reflexivity.
    + unfold sinF, Fm, Gm. destruct (Z.leb_spec (Z.abs m) M); [lia|]. ring.
Qed.
Print Assumptions C51_L_operators.

Lemma harm_series_10 g theta phi : harm_series 1 0 g theta phi = (g 0 0 * sph_harm 0 0 theta phi + g 1 0 * sph_harm 1 0 theta phi)%C.
Proof.
  unfold harm_series. rewrite (sumC_cons (- 0)), (sumC_nil (- 0 + 1)) by lia. change (Z.abs (- 0)) with 0. change (- 0) with 0.
  rewrite (sumC_cons 0), (sumC_cons (0 + 1)), (sumC_nil (0 + 1 + 1)) by lia. change (0 + 1) with 1. ring.
Qed.
Example C51_nonvacuous : exists t ft fp s, py_sc_to_fc (sc_vec RN ex10) 1 0 6 2 = Ok t /\ L_fc t = Ok (ft, fp) /\
  sinLdot_fc ft fp = Ok s /\ table_value s (PI / 2) 0 = (RtoC 2 * table_value t (PI / 2) 0)%C.
Proof.
  destruct (C51_L_operators ex10 f10 3 1 ex10_valid ex10_holds) as (t & ft & fp & s & E1 & E2 & E3 & V); [cbn; lia|cbn; lia|].
  exists t, ft, fp, s. split; [exact E1|]. split; [exact E2|]. split; [exact E3|].
  destruct (V (PI / 2)%R 0%R) as (V1 & _ & _ & V4). rewrite V1, V4, sin_PI2. cbn [sc_nmax sc_mmax ex10].
  rewrite !harm_series_10. change (f10 0 0) with (RtoC 0). change (f10 1 0) with (RtoC 1).
  replace (1 * (1 + 1))%R with 2%R by ring. ring.
Qed.
