(** * KissFl2: the butterflies of kiss_fft in double precision. *)
From Coq Require Import ZArith List Bool SpecFloat Reals Lia Lra Psatz Permutation.
From Coquelicot Require Import Complex.
From Flocq Require Import Core.Core IEEE754.BinarySingleNaN.
From Verif Require Import Py PyFacts Num FloatN FloatText Exact MCoefs Sums MPysphi Dft MKiss KissFacts KissFacts2 MDouble FlFacts SeedReal SeedFl SeedFl2 DoubleFacts FlSigned SbesselFTerm SbesselFRel SbesselFFun TabFl SumFl SumFl2 SumFl3 MKissF KissFl.
Import ListNotations.
Open Scope list_scope.
Open Scope Z_scope.

Notation vgf := (vget cf0).
Lemma fbget_ok b i : 0 <= i < zlen b -> fbget b i = Ok (vgf b i).
Proof. apply bget_ok. Qed.

Lemma Cmod_cisR t : Cmod (cisR t) = 1%R.
Proof. unfold cisR, Cmod. cbn [fst snd]. replace (cos t ^ 2 + sin t ^ 2)%R with 1%R; [apply sqrt_1|]. pose proof (sin2_cos2 t) as H. unfold Rsqr in H. lra. Qed.
Lemma Cmod_W n sg k : Cmod (W n sg k) = 1%R.
Proof. apply Cmod_cisR. Qed.
Lemma Cmod_sumC lo hi f (e : R) : lo <= hi -> (forall k, lo <= k < hi -> (Cmod (f k) <= e)%R) -> (Cmod (sumC lo hi f) <= IZR (hi - lo) * e)%R.
Proof.
  intros H. revert hi H. apply (Zlt_lower_bound_ind (fun hi => (forall k, lo <= k < hi -> (Cmod (f k) <= e)%R) -> (Cmod (sumC lo hi f) <= IZR (hi - lo) * e)%R) lo).
  intros hi IH H Hf. destruct (Z.eq_dec hi lo) as [->|Ne]; [rewrite sumC_nil by lia; rewrite Z.sub_diag, Cmod_0; lra|].
  replace hi with (hi - 1 + 1) by lia. rewrite sumC_snoc by lia. replace (hi - 1 + 1 - lo) with (hi - 1 - lo + 1) by lia. rewrite plus_IZR.
  pose proof (IH (hi - 1) ltac:(lia) ltac:(intros; apply Hf; lia)). pose proof (Hf (hi - 1) ltac:(lia)). pose proof (Cmod_triangle (sumC lo (hi - 1) f) (f (hi - 1))). lra.
Qed.

Record fcfg_ok (st : kcfgf) (sg : Z) (eps : R) : Prop := mkFCfgOk {
  fo_pos : 0 < kf_nfft st;
  fo_sg : sg = if kf_inverse st then 1 else -1;
  fo_len : zlen (kf_tw st) = kf_nfft st;
  fo_tw : forall i, 0 <= i < kf_nfft st -> twid eps (vgf (kf_tw st) i) (W (kf_nfft st) sg i) }.

Definition small (A : R) (x : cf) : Prop := finc x /\ (Cmod (VC x) <= A)%R.
Definition near (E : R) (x : cf) (g : C) : Prop := finc x /\ (Cmod (VC x - g)%C <= E)%R.

Definition fbfly_spec (W : Z -> C) (E : R) (out out' : list cf) (o fs m p : Z) : Prop :=
  zlen out' = zlen out /\
  (forall q1 u, 0 <= q1 < p -> 0 <= u < m ->
     near E (vgf out' (cell o m u q1)) (sumC 0 p (fun q => VC (vgf out (cell o m u q)) * W (fs * (q * (q1 * m + u)))%Z)%C)) /\
  (forall i, i < o \/ o + p * m <= i -> vgf out' i = vgf out i).
Definition fbody_spec (W : Z -> C) (E : R) (out out' : list cf) (o fs m p u : Z) : Prop :=
  zlen out' = zlen out /\
  (forall q1, 0 <= q1 < p ->
     near E (vgf out' (cell o m u q1)) (sumC 0 p (fun q => VC (vgf out (cell o m u q)) * W (fs * (q * (q1 * m + u)))%Z)%C)) /\
  (forall i, (forall q, 0 <= q < p -> i <> cell o m u q) -> vgf out' i = vgf out i).

Lemma fbfly_loop W A E out o fs m p body :
  1 <= m -> 0 <= p -> 0 <= o -> o + p * m <= zlen out -> (forall i, o <= i < o + p * m -> small A (vgf out i)) ->
  (forall u b, 0 <= u < m -> zlen b = zlen out -> (forall q, 0 <= q < p -> small A (vgf b (cell o m u q))) -> exists b', body u b = Ok b' /\ fbody_spec W E b b' o fs m p u) ->
  exists out', mfor (zrange 0 m) body out = Ok out' /\ fbfly_spec W E out out' o fs m p.
Proof.
  intros Hm Hp Ho Hl HA Hb.
  pose (P := fun (k : Z) (b : list cf) => zlen b = zlen out /\
     (forall q1 u, 0 <= q1 < p -> 0 <= u < k -> u < m ->
       near E (vgf b (cell o m u q1)) (sumC 0 p (fun q => VC (vgf out (cell o m u q)) * W (fs * (q * (q1 * m + u)))%Z)%C)) /\
     (forall q1 u, 0 <= q1 < p -> k <= u < m -> vgf b (cell o m u q1) = vgf out (cell o m u q1)) /\
     (forall i, i < o \/ o + p * m <= i -> vgf b i = vgf out i)).
  destruct (mfor_inv P 0 m body out) as (out' & E' & H1 & H2 & H3 & H4).
  - lia.
  - unfold P. split; [reflexivity|]. split; [intros; lia|]. split; auto.
  - intros u b Hu (H1 & H2 & H3 & H4). destruct (Hb u b) as (b' & E' & G1 & G2 & G3); auto.
    { intros q Hq. rewrite H3 by lia. apply HA. apply cell_bounds; lia. }
    exists b'. split; auto. unfold P. split; [lia|]. split; [|split].
    + intros q1 u' Hq Hu' Hu''. destruct (Z.eq_dec u' u) as [->|Hne].
      * rewrite (sumC_ext 0 p _ (fun q => VC (vgf b (cell o m u q)) * W (fs * (q * (q1 * m + u)))%Z)%C); [apply G2; auto|].
        intros q Hq'. rewrite H3 by lia. reflexivity.
      * rewrite G3. apply H2; lia.
        intros q Hq' E''. apply cell_inj in E''; lia.
    + intros q1 u' Hq Hu'. rewrite G3. apply H3; lia. intros q Hq' E''. apply cell_inj in E''; lia.
    + intros i Hi. rewrite G3. apply H4; auto. intros q Hq' ->. pose proof (cell_bounds o m u q p); lia.
  - exists out'. split; auto. unfold fbfly_spec. split; [exact H1|]. split; [intros; apply H2; lia|exact H4].
Qed.

Section Butterflies.
Variables (st : kcfgf) (sg : Z) (eps A : R).
Hypothesis Hst : fcfg_ok st sg eps.
Hypothesis HA0 : (bpow radix2 (-900) <= A)%R.
Hypothesis HAB : (100 * A <= BIG)%R.
Hypothesis Hu : (uu <= eps)%R.
Hypothesis He : (eps <= / 1000)%R.
Notation nfft := (kf_nfft st).
Notation WW := (W nfft sg).
Notation KC := (kc A eps).
Let Hn : 0 < nfft := fo_pos st sg eps Hst.
Let A0 : (0 < A)%R. Proof. pose proof (bpow_gt_0 radix2 (-900)). lra. Qed.
Let e0 : (0 < eps)%R. Proof. pose proof uu_small. lra. Qed.
Lemma fsg_cases : sg = 1 \/ sg = -1.
Proof. rewrite (fo_sg _ _ _ Hst). destruct (kf_inverse st); auto. Qed.
Lemma ftw_ok i : 0 <= i < nfft -> fbget (kf_tw st) i = Ok (vgf (kf_tw st) i).
Proof. intros H. apply fbget_ok. now rewrite (fo_len _ _ _ Hst). Qed.
Lemma ftw_twid i : 0 <= i < nfft -> twid eps (vgf (kf_tw st) i) (WW i).
Proof. apply (fo_tw _ _ _ Hst). Qed.
Lemma small_kc x : small A x -> KC 1 0 x (VC x).
Proof. intros [F B]. apply kc_self; auto. lra. Qed.
Lemma kc_near k c E x g h : KC k c x g -> g = h -> (c * (eps * A) <= E)%R -> near E x h.
Proof. intros (F & _ & B) -> HE. split; [exact F|lra]. Qed.

Ltac twd := repeat (rewrite ftw_ok by nia; cbn [bind]).
Ltac side Hc := rewrite ?zlen_vset; apply Hc; lia.
Ltac cbs Hc := repeat first
  [ rewrite fbget_ok by side Hc; cbn [bind]
  | rewrite bset_ok by side Hc; cbn [bind] ].
Ltac getset Hc Hi :=
  repeat first
  [ rewrite vget_vset_eq by side Hc
  | rewrite vget_vset_ne by (apply Hi; lia) ].
Ltac okt := unfold okc; repeat split; lra.
Ltac start4 r Hc Hi := match goal with Hl : ?o + r * ?m <= zlen ?out, Hu : 0 <= ?u < ?m, Hb : zlen ?b = zlen ?out |- _ =>
  assert (Hc : forall q, 0 <= q < r -> 0 <= cell o m u q < zlen b)
    by (intros q Hq; pose proof (cell_bounds o m u q r); lia);
  assert (Hi : forall q q', q <> q' -> cell o m u q <> cell o m u q')
    by (intros q q' Hq E'; apply cell_inj in E'; lia) end.
Definition be (p : Z) : R := (IZR p * (32 + IZR p) * (eps * A))%R.
Lemma eA_pos : (0 < eps * A)%R. Proof. apply Rmult_lt_0_compat; auto. Qed.

Lemma fbfly2_ok out o fs m : 1 <= m -> 0 <= o -> 0 < fs -> o + 2 * m <= zlen out -> fs * (2 * m) = nfft -> (forall i, o <= i < o + 2 * m -> small A (vgf out i)) ->
  exists out', ff_bfly2 out o fs st m = Ok out' /\ fbfly_spec WW (be 2) out out' o fs m 2.
Proof.
  intros Hm Ho Hf Hl E HS. unfold ff_bfly2. destruct (Z.ltb_spec m 1); [lia|].
  apply (fbfly_loop WW A); try lia; auto. intros u b Hu' Hb Hs. start4 2 Hc Hi.
  replace (o + m + u) with (cell o m u 1) by (unfold cell; ring).
  replace (o + u) with (cell o m u 0) by (unfold cell; ring).
  replace (u * fs) with (fs * (1 * u)) by ring.
  cbs Hc. twd. cbs Hc. eexists; split; [reflexivity|].
  pose proof (small_kc _ (Hs 0 ltac:(lia))) as K0. pose proof (small_kc _ (Hs 1 ltac:(lia))) as K1.
  pose proof (ftw_twid (fs * (1 * u)) ltac:(nia)) as T1.
  pose proof (kc_mul A eps HA0 Hu He _ _ _ _ _ _ K1 T1 ltac:(okt)) as M1.
  pose proof (kc_add A eps HA0 Hu _ _ _ _ _ _ _ _ K0 M1 ltac:(okt) ltac:(okt)) as R0.
  pose proof (kc_sub A eps HA0 Hu _ _ _ _ _ _ _ _ K0 M1 ltac:(okt) ltac:(okt)) as R1.
  pose proof eA_pos as EP.
  unfold fbody_spec. rewrite !zlen_vset. split; auto. split.
  - intros q1 Hq. rewrite (sumC_cons 0), (sumC_cons (0 + 1)), (sumC_nil (0 + 1 + 1)) by lia. cbn [Z.add Pos.add].
    rewrite !(W_cell nfft sg fs m 2) by lia.
    replace (WW (fs * (0 * u))) with (RtoC 1) by (symmetry; rewrite Z.mul_0_r; apply W_0; auto).
    assert (q1 = 0 \/ q1 = 1) as [-> | ->] by lia; getset Hc Hi.
    + eapply kc_near; [exact R0| |unfold be; lra].
      rewrite !(root_red 2 (sg * _) 0), root_0 by (destruct fsg_cases as [-> | ->]; reflexivity || lia). ring.
    + eapply kc_near; [exact R1| |unfold be; lra].
      rewrite (root_red 2 (sg * (0 * 1)) 0), (root_red 2 (sg * (1 * 1)) 1), root_0, root2_1
        by (destruct fsg_cases as [-> | ->]; reflexivity || lia). ring.
  - intros i Hi'. pose proof (Hi' 0 ltac:(lia)). pose proof (Hi' 1 ltac:(lia)).
    rewrite !vget_vset_ne by lia. reflexivity.
Qed.

Lemma fbfly4_ok out o fs m : 1 <= m -> 0 <= o -> 0 < fs -> o + 4 * m <= zlen out -> fs * (4 * m) = nfft -> (forall i, o <= i < o + 4 * m -> small A (vgf out i)) ->
  exists out', ff_bfly4 out o fs st m = Ok out' /\ fbfly_spec WW (be 4) out out' o fs m 4.
Proof.
  intros Hm Ho Hf Hl E HS. unfold ff_bfly4. destruct (Z.ltb_spec m 1); [lia|].
  apply (fbfly_loop WW A); try lia; auto. intros u b Hu' Hb Hs. start4 4 Hc Hi.
  replace (o + u + m) with (cell o m u 1) by (unfold cell; ring).
  replace (o + u + 2 * m) with (cell o m u 2) by (unfold cell; ring).
  replace (o + u + 3 * m) with (cell o m u 3) by (unfold cell; ring).
  replace (o + u) with (cell o m u 0) by (unfold cell; ring).
  replace (u * fs) with (fs * (1 * u)) by ring.
  replace (u * (fs * 2)) with (fs * (2 * u)) by ring.
  replace (u * (fs * 3)) with (fs * (3 * u)) by ring.
  pose proof (fo_sg _ _ _ Hst) as Hsg. pose proof eA_pos as EP.
  pose proof (small_kc _ (Hs 0 ltac:(lia))) as K0. pose proof (small_kc _ (Hs 1 ltac:(lia))) as K1.
  pose proof (small_kc _ (Hs 2 ltac:(lia))) as K2. pose proof (small_kc _ (Hs 3 ltac:(lia))) as K3.
  pose proof (kc_mul A eps HA0 Hu He _ _ _ _ _ _ K1 (ftw_twid (fs * (1 * u)) ltac:(nia)) ltac:(okt)) as M1.
  pose proof (kc_mul A eps HA0 Hu He _ _ _ _ _ _ K2 (ftw_twid (fs * (2 * u)) ltac:(nia)) ltac:(okt)) as M2.
  pose proof (kc_mul A eps HA0 Hu He _ _ _ _ _ _ K3 (ftw_twid (fs * (3 * u)) ltac:(nia)) ltac:(okt)) as M3.
  pose proof (kc_sub A eps HA0 Hu _ _ _ _ _ _ _ _ K0 M2 ltac:(okt) ltac:(okt)) as S5.
  pose proof (kc_add A eps HA0 Hu _ _ _ _ _ _ _ _ K0 M2 ltac:(okt) ltac:(okt)) as Y0.
  pose proof (kc_add A eps HA0 Hu _ _ _ _ _ _ _ _ M1 M3 ltac:(okt) ltac:(okt)) as S3.
  pose proof (kc_sub A eps HA0 Hu _ _ _ _ _ _ _ _ M1 M3 ltac:(okt) ltac:(okt)) as S4.
  pose proof (kc_add A eps HA0 Hu _ _ _ _ _ _ _ _ Y0 S3 ltac:(okt) ltac:(okt)) as R0.
  pose proof (kc_sub A eps HA0 Hu _ _ _ _ _ _ _ _ Y0 S3 ltac:(okt) ltac:(okt)) as R2.
  pose proof (kc_addi A eps HA0 Hu _ _ _ _ _ _ _ _ S5 S4 ltac:(okt) ltac:(okt)) as RP.
  pose proof (kc_subi A eps HA0 Hu _ _ _ _ _ _ _ _ S5 S4 ltac:(okt) ltac:(okt)) as RM.
  destruct (kf_inverse st);
  (repeat (cbs Hc; twd); eexists; split; [reflexivity|];
  unfold fbody_spec; rewrite !zlen_vset; split; auto; split;
  [ intros q1 Hq; rewrite (sumC_cons 0), (sumC_cons (0 + 1)), (sumC_cons (0 + 1 + 1)), (sumC_cons (0 + 1 + 1 + 1)),
      (sumC_nil (0 + 1 + 1 + 1 + 1)) by lia; cbn [Z.add Pos.add];
    rewrite !(W_cell nfft _ fs m 4) by lia;
    replace (W nfft _ (fs * (0 * u))) with (RtoC 1) by (symmetry; rewrite Z.mul_0_r; apply W_0; auto);
    assert (q1 = 0 \/ q1 = 1 \/ q1 = 2 \/ q1 = 3) as [-> | [-> | [-> | ->]]] by lia; getset Hc Hi;
    (eapply kc_near; [first [exact R0 | exact R2 | exact RP | exact RM] | rewrite Hsg; roots; cring | unfold be; lra])
  | intros i Hi'; pose proof (Hi' 0 ltac:(lia)); pose proof (Hi' 1 ltac:(lia));
    pose proof (Hi' 2 ltac:(lia)); pose proof (Hi' 3 ltac:(lia));
    rewrite !vget_vset_ne by lia; reflexivity ]).
Qed.

Lemma twid_snd w g : twid eps w g -> (dbl (snd w) /\ fin (snd w)) /\ (Rabs (snd g) <= 1)%R /\ (Rabs (V (snd w) - snd g) <= eps)%R.
Proof.
  intros (F & M & Ew). split; [exact (proj2 F)|]. split; [rewrite <- M; apply Cmod_snd|]. eapply Rle_trans; [|exact Ew].
  exact (Cmod_snd (VC w - g)%C).
Qed.
Lemma twid_fst w g : twid eps w g -> (dbl (fst w) /\ fin (fst w)) /\ (Rabs (fst g) <= 1)%R /\ (Rabs (V (fst w) - fst g) <= eps)%R.
Proof.
  intros (F & M & Ew). split; [exact (proj1 F)|]. split; [rewrite <- M; apply Cmod_fst|]. eapply Rle_trans; [|exact Ew].
  exact (Cmod_fst (VC w - g)%C).
Qed.
Lemma half_ok : dbl f_half /\ fin f_half /\ V f_half = (/ 2)%R.
Proof. split; [reflexivity|]. split; [reflexivity|]. cbn [f_half SF2R cond_Zopp]. unfold F2R. cbn [Fnum Fexp]. change (bpow radix2 (-53)) with (/ IZR (Z.pow_pos 2 53))%R. change (Z.pow_pos 2 53) with 9007199254740992. lra. Qed.

Lemma fbfly3_ok out o fs m : 1 <= m -> 0 <= o -> 0 < fs -> o + 3 * m <= zlen out -> fs * (3 * m) = nfft -> (forall i, o <= i < o + 3 * m -> small A (vgf out i)) ->
  exists out', ff_bfly3 out o fs st m = Ok out' /\ fbfly_spec WW (be 3) out out' o fs m 3.
Proof.
  intros Hm Ho Hf Hl E HS. unfold ff_bfly3. destruct (Z.ltb_spec m 1); [lia|]. twd.
  apply (fbfly_loop WW A); try lia; auto. intros u b Hu' Hb Hs. start4 3 Hc Hi.
  replace (o + u + m) with (cell o m u 1) by (unfold cell; ring).
  replace (o + u + 2 * m) with (cell o m u 2) by (unfold cell; ring).
  replace (o + u) with (cell o m u 0) by (unfold cell; ring).
  replace (u * fs) with (fs * (1 * u)) by ring.
  replace (u * (fs * 2)) with (fs * (2 * u)) by ring.
  pose proof (ftw_twid (fs * m) ltac:(nia)) as TE.
  replace (WW (fs * m)) with (root 3 (sg * 1)) in TE by (symmetry; rewrite <- (W_sub nfft sg Hn fs 3 m 1) by lia; f_equal; ring).
  destruct (twid_snd _ _ TE) as ((De & Fe) & Me & Ee). destruct half_ok as (Dh & Fh & Vh).
  pose proof eA_pos as EP.
  pose proof (small_kc _ (Hs 0 ltac:(lia))) as K0. pose proof (small_kc _ (Hs 1 ltac:(lia))) as K1. pose proof (small_kc _ (Hs 2 ltac:(lia))) as K2.
  pose proof (kc_mul A eps HA0 Hu He _ _ _ _ _ _ K1 (ftw_twid (fs * (1 * u)) ltac:(nia)) ltac:(okt)) as M1.
  pose proof (kc_mul A eps HA0 Hu He _ _ _ _ _ _ K2 (ftw_twid (fs * (2 * u)) ltac:(nia)) ltac:(okt)) as M2.
  pose proof (kc_add A eps HA0 Hu _ _ _ _ _ _ _ _ M1 M2 ltac:(okt) ltac:(okt)) as S3.
  pose proof (kc_sub A eps HA0 Hu _ _ _ _ _ _ _ _ M1 M2 ltac:(okt) ltac:(okt)) as S0.
  assert (H2 : (Rabs (V f_half - / 2) <= eps)%R) by (rewrite Vh, Rminus_eq_0, Rabs_R0; lra).
  assert (H1 : (Rabs (/ 2) <= 1)%R) by (rewrite Rabs_right; lra).
  pose proof (kc_scale A eps HA0 Hu He _ _ _ _ _ _ S3 Dh Fh H1 H2 ltac:(okt)) as SH.
  pose proof (kc_sub A eps HA0 Hu _ _ _ _ _ _ _ _ K0 SH ltac:(okt) ltac:(okt)) as YM.
  pose proof (kc_scale A eps HA0 Hu He _ _ _ _ _ _ S0 De Fe Me Ee ltac:(okt)) as SE.
  pose proof (kc_add A eps HA0 Hu _ _ _ _ _ _ _ _ K0 S3 ltac:(okt) ltac:(okt)) as R0.
  pose proof (kc_addi A eps HA0 Hu _ _ _ _ _ _ _ _ YM SE ltac:(okt) ltac:(okt)) as R1.
  pose proof (kc_subi A eps HA0 Hu _ _ _ _ _ _ _ _ YM SE ltac:(okt) ltac:(okt)) as R2.
  repeat (cbs Hc; twd). eexists; split; [reflexivity|].
  unfold fbody_spec; rewrite !zlen_vset; split; auto; split.
  - intros q1 Hq; rewrite (sumC_cons 0), (sumC_cons (0 + 1)), (sumC_cons (0 + 1 + 1)), (sumC_nil (0 + 1 + 1 + 1)) by lia; cbn [Z.add Pos.add].
    rewrite !(W_cell nfft _ fs m 3) by lia.
    replace (WW (fs * (0 * u))) with (RtoC 1) by (symmetry; rewrite Z.mul_0_r; apply W_0; auto).
    assert (q1 = 0 \/ q1 = 1 \/ q1 = 2) as [-> | [-> | ->]] by lia; getset Hc Hi;
    (eapply kc_near; [first [exact R0 | exact R1 | exact R2] | | unfold be; lra]);
    generalize (WW (fs * (1 * u))) (WW (fs * (2 * u))); intros w1 w2;
    destruct fsg_cases as [Hsg|Hsg]; rewrite Hsg; 
    repeat match goal with
    | |- context [root 3 ?a] => first [rewrite (r3_0 a) by reflexivity | rewrite (r3_2 a) by reflexivity
           | lazymatch a with 1 => fail | _ => rewrite (r3_1 a) by reflexivity end ]
    end; cring.
  - intros i Hi'; pose proof (Hi' 0 ltac:(lia)); pose proof (Hi' 1 ltac:(lia)); pose proof (Hi' 2 ltac:(lia)).
    rewrite !vget_vset_ne by lia; reflexivity.
Qed.

Lemma fbfly5_ok out o fs m : 1 <= m -> 0 <= o -> 0 < fs -> o + 5 * m <= zlen out -> fs * (5 * m) = nfft -> (forall i, o <= i < o + 5 * m -> small A (vgf out i)) ->
  exists out', ff_bfly5 out o fs st m = Ok out' /\ fbfly_spec WW (be 5) out out' o fs m 5.
Proof.
  intros Hm Ho Hf Hl E HS. unfold ff_bfly5. twd.
  apply (fbfly_loop WW A); try lia; auto. intros u b Hu' Hb Hs. start4 5 Hc Hi.
  replace (o + m + u) with (cell o m u 1) by (unfold cell; ring).
  replace (o + 2 * m + u) with (cell o m u 2) by (unfold cell; ring).
  replace (o + 3 * m + u) with (cell o m u 3) by (unfold cell; ring).
  replace (o + 4 * m + u) with (cell o m u 4) by (unfold cell; ring).
  replace (o + u) with (cell o m u 0) by (unfold cell; ring).
  replace (2 * u * fs) with (fs * (2 * u)) by ring.
  replace (3 * u * fs) with (fs * (3 * u)) by ring.
  replace (4 * u * fs) with (fs * (4 * u)) by ring.
  replace (u * fs) with (fs * (1 * u)) by ring.
  pose proof (ftw_twid (fs * m) ltac:(nia)) as TA. pose proof (ftw_twid (fs * 2 * m) ltac:(nia)) as TB.
  replace (WW (fs * m)) with (root 5 (sg * 1)) in TA by (symmetry; rewrite <- (W_sub nfft sg Hn fs 5 m 1) by lia; f_equal; ring).
  replace (WW (fs * 2 * m)) with (root 5 (sg * 2)) in TB by (symmetry; rewrite <- (W_sub nfft sg Hn fs 5 m 2) by lia; f_equal; ring).
  destruct (twid_fst _ _ TA) as ((Da & Fa) & Ma & Ea). destruct (twid_snd _ _ TA) as ((Da' & Fa') & Ma' & Ea').
  destruct (twid_fst _ _ TB) as ((Db & Fb) & Mb & Eb). destruct (twid_snd _ _ TB) as ((Db' & Fb') & Mb' & Eb').
  pose proof eA_pos as EP.
  pose proof (small_kc _ (Hs 0 ltac:(lia))) as K0. pose proof (small_kc _ (Hs 1 ltac:(lia))) as K1. pose proof (small_kc _ (Hs 2 ltac:(lia))) as K2.
  pose proof (small_kc _ (Hs 3 ltac:(lia))) as K3. pose proof (small_kc _ (Hs 4 ltac:(lia))) as K4.
  pose proof (kc_mul A eps HA0 Hu He _ _ _ _ _ _ K1 (ftw_twid (fs * (1 * u)) ltac:(nia)) ltac:(okt)) as M1.
  pose proof (kc_mul A eps HA0 Hu He _ _ _ _ _ _ K2 (ftw_twid (fs * (2 * u)) ltac:(nia)) ltac:(okt)) as M2.
  pose proof (kc_mul A eps HA0 Hu He _ _ _ _ _ _ K3 (ftw_twid (fs * (3 * u)) ltac:(nia)) ltac:(okt)) as M3.
  pose proof (kc_mul A eps HA0 Hu He _ _ _ _ _ _ K4 (ftw_twid (fs * (4 * u)) ltac:(nia)) ltac:(okt)) as M4.
  pose proof (kc_add A eps HA0 Hu _ _ _ _ _ _ _ _ M1 M4 ltac:(okt) ltac:(okt)) as S7.
  pose proof (kc_sub A eps HA0 Hu _ _ _ _ _ _ _ _ M1 M4 ltac:(okt) ltac:(okt)) as S10.
  pose proof (kc_add A eps HA0 Hu _ _ _ _ _ _ _ _ M2 M3 ltac:(okt) ltac:(okt)) as S8.
  pose proof (kc_sub A eps HA0 Hu _ _ _ _ _ _ _ _ M2 M3 ltac:(okt) ltac:(okt)) as S9.
  pose proof (kc_add A eps HA0 Hu _ _ _ _ _ _ _ _ S7 S8 ltac:(okt) ltac:(okt)) as S78.
  pose proof (kc_add A eps HA0 Hu _ _ _ _ _ _ _ _ K0 S78 ltac:(okt) ltac:(okt)) as R0.
  pose proof (kc_scale A eps HA0 Hu He _ _ _ _ _ _ S7 Da Fa Ma Ea ltac:(okt)) as S7a.
  pose proof (kc_scale A eps HA0 Hu He _ _ _ _ _ _ S8 Db Fb Mb Eb ltac:(okt)) as S8b.
  pose proof (kc_scale A eps HA0 Hu He _ _ _ _ _ _ S7 Db Fb Mb Eb ltac:(okt)) as S7b.
  pose proof (kc_scale A eps HA0 Hu He _ _ _ _ _ _ S8 Da Fa Ma Ea ltac:(okt)) as S8a.
  pose proof (kc_scale A eps HA0 Hu He _ _ _ _ _ _ S10 Da' Fa' Ma' Ea' ltac:(okt)) as S10a.
  pose proof (kc_scale A eps HA0 Hu He _ _ _ _ _ _ S9 Db' Fb' Mb' Eb' ltac:(okt)) as S9b.
  pose proof (kc_scale A eps HA0 Hu He _ _ _ _ _ _ S10 Db' Fb' Mb' Eb' ltac:(okt)) as S10b.
  pose proof (kc_scale A eps HA0 Hu He _ _ _ _ _ _ S9 Da' Fa' Ma' Ea' ltac:(okt)) as S9a.
  pose proof (kc_add A eps HA0 Hu _ _ _ _ _ _ _ _ (kc_add A eps HA0 Hu _ _ _ _ _ _ _ _ K0 S7a ltac:(okt) ltac:(okt)) S8b ltac:(okt) ltac:(okt)) as S5.
  pose proof (kc_add A eps HA0 Hu _ _ _ _ _ _ _ _ (kc_add A eps HA0 Hu _ _ _ _ _ _ _ _ K0 S7b ltac:(okt) ltac:(okt)) S8a ltac:(okt) ltac:(okt)) as S11.
  pose proof (kc_mi A eps HA0 Hu _ _ _ _ _ _ _ _ S10a S9b ltac:(okt) ltac:(okt)) as S6.
  pose proof (kc_pi A eps HA0 Hu _ _ _ _ _ _ _ _ S10b S9a ltac:(okt) ltac:(okt)) as S12.
  pose proof (kc_sub A eps HA0 Hu _ _ _ _ _ _ _ _ S5 S6 ltac:(okt) ltac:(okt)) as R1.
  pose proof (kc_add A eps HA0 Hu _ _ _ _ _ _ _ _ S5 S6 ltac:(okt) ltac:(okt)) as R4.
  pose proof (kc_add A eps HA0 Hu _ _ _ _ _ _ _ _ S11 S12 ltac:(okt) ltac:(okt)) as R2.
  pose proof (kc_sub A eps HA0 Hu _ _ _ _ _ _ _ _ S11 S12 ltac:(okt) ltac:(okt)) as R3.
  clear S5 S6 S7 S8 S9 S10 S11 S12 S78 S7a S7b S8a S8b S9a S9b S10a S10b M1 M2 M3 M4 K0 K1 K2 K3 K4.
  repeat (cbs Hc; twd). eexists; split; [reflexivity|].
  unfold fbody_spec; rewrite !zlen_vset; split; auto; split.
  - intros q1 Hq; rewrite (sumC_cons 0), (sumC_cons (0 + 1)), (sumC_cons (0 + 1 + 1)), (sumC_cons (0 + 1 + 1 + 1)),
      (sumC_cons (0 + 1 + 1 + 1 + 1)), (sumC_nil (0 + 1 + 1 + 1 + 1 + 1)) by lia; cbn [Z.add Pos.add Pos.succ].
    rewrite !(W_cell nfft _ fs m 5) by lia.
    replace (WW (fs * (0 * u))) with (RtoC 1) by (symmetry; rewrite Z.mul_0_r; apply W_0; auto).
    assert (q1 = 0 \/ q1 = 1 \/ q1 = 2 \/ q1 = 3 \/ q1 = 4) as [-> | [-> | [-> | [-> | ->]]]] by lia; getset Hc Hi;
    (eapply kc_near; [first [exact R0 | exact R1 | exact R2 | exact R3 | exact R4] | clear R0 R1 R2 R3 R4 | unfold be; lra]);
    generalize (WW (fs * (1 * u))) (WW (fs * (2 * u))) (WW (fs * (3 * u))) (WW (fs * (4 * u))); intros w1 w2 w3 w4;
    destruct fsg_cases as [Hsg|Hsg]; rewrite Hsg; 
    repeat match goal with
    | |- context [root 5 ?a] => first [rewrite (r5_0 a) by reflexivity | rewrite (r5_3 a) by reflexivity | rewrite (r5_4 a) by reflexivity
           | lazymatch a with 1 => fail | _ => rewrite (r5_1 a) by reflexivity end
           | lazymatch a with 2 => fail | _ => rewrite (r5_2 a) by reflexivity end ]
    end; cring.
  - intros i Hi'; pose proof (Hi' 0 ltac:(lia)); pose proof (Hi' 1 ltac:(lia)); pose proof (Hi' 2 ltac:(lia));
      pose proof (Hi' 3 ltac:(lia)); pose proof (Hi' 4 ltac:(lia)).
    rewrite !vget_vset_ne by lia; reflexivity.
Qed.
End Butterflies.
