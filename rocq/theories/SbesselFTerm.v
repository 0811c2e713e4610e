(** * SbesselFTerm: the while loop of sbesselj ends, in double precision. *)
From Coq Require Import ZArith List Bool SpecFloat Reals Lia Lra Psatz.
From Flocq Require Import Core.Core IEEE754.BinarySingleNaN.
From Flocq Require Import Relative.
From Verif Require Import Py PyFacts Num FloatN FloatText FileFacts2 MPysphi MDouble FlFacts SeedFl SeedFl2 FlSigned MSbesselF.
Import ListNotations.
Open Scope Z_scope.
#[local] Existing Instance FloatText.prec53.
#[local] Existing Instance FloatText.pe53.

(** ** Size of a rounded number *)
Lemma rnd_opp y : rnd (- y) = (- rnd y)%R.
Proof. apply round_NE_opp. Qed.
Lemma rnd_abs y : Rabs (rnd y) = rnd (Rabs y).
Proof.
  unfold Rabs. destruct (Rcase_abs y) as [H|H].
  - rewrite rnd_opp. destruct (Rcase_abs (rnd y)) as [G|G]; [reflexivity|].
    assert (rnd y <= 0)%R by (rewrite <- rnd_0; apply rnd_le; lra). lra.
  - destruct (Rcase_abs (rnd y)) as [G|G]; [|reflexivity]. assert (0 <= rnd y)%R by (apply rnd_ge_0; lra). lra.
Qed.
Lemma rnd_err y : exists e h, (Rabs e <= uu /\ Rabs h <= dmin / 2 /\ rnd y = y * (1 + e) + h)%R.
Proof.
  destruct (error_N_FLT radix2 (-1074) 53 ltac:(lia) (fun x => negb (Z.even x)) y) as (e & h & He & Hh & _ & E).
  exists e, h. split; [|split; [|exact E]].
  - eapply Rle_trans; [exact He|]. unfold uu. right. change (bpow radix2 (Z.opp 53 + 1)) with (bpow radix2 (-52)).
    replace (bpow radix2 (-52)) with (2 * bpow radix2 (-53))%R; [field|]. change 2%R with (bpow radix2 1). rewrite <- bpow_plus. reflexivity.
  - eapply Rle_trans; [exact Hh|]. right. generalize (bpow radix2 (-1074)). intros r. lra.
Qed.
Lemma rnd_up y : (Rabs (rnd y) <= 2 * Rabs y + dmin)%R.
Proof.
  destruct (rnd_err y) as (e & h & He & Hh & ->). eapply Rle_trans; [apply Rabs_triang|]. rewrite Rabs_mult.
  assert (Rabs (1 + e) <= 2)%R.
  { eapply Rle_trans; [apply Rabs_triang|]. rewrite Rabs_R1. rewrite uu_val in He. lra. }
  pose proof (Rabs_pos y). pose proof (Rabs_pos h). assert (Rabs y * Rabs (1 + e) <= Rabs y * 2)%R by (apply Rmult_le_compat_l; auto). lra.
Qed.
Lemma dmin_small : (0 < dmin <= / 10 ^ 30)%R.
Proof.
  split; [apply bpow_gt_0|]. apply Rle_trans with (bpow radix2 (-100)); [apply bpow_le; lia|]. cbn -[Rinv pow]. 
  apply Rinv_le; lra.
Qed.
Lemma rnd_lo y : (1 <= y -> 9 / 10 * y <= rnd y)%R.
Proof.
  intros H. destruct (rnd_err y) as (e & h & He & Hh & ->). pose proof dmin_small as [D1 D2].
  assert (dmin <= / 1000)%R by (eapply Rle_trans; [exact D2|]; apply Rinv_le; lra).
  rewrite uu_val in He. apply Rabs_le_inv in He, Hh. assert (- / 100 <= e)%R by lra.
  assert (- / 100 * y <= e * y)%R by (apply Rmult_le_compat_r; lra). lra.
Qed.

(** ** Reading [is_rnd] *)
Lemma is_rnd_fin z y : is_rnd z y -> (Rabs (rnd y) < maxb)%R -> fin z /\ V z = rnd y.
Proof. intros [_ [H|[_ H]]] L; [exact H|lra]. Qed.
Lemma is_rnd_dbl z y : is_rnd z y -> dbl z. Proof. intros [H _]. exact H. Qed.
Lemma fin_fmt x : dbl x -> fin x -> generic_format radix2 fx (V x).
Proof.
  intros Du Fu. destruct x as [s|s| |s m e]; try discriminate Fu; cbn [SF2R]; [apply generic_format_0|].
  apply generic_format_canonical. exact (canonical_bounded 53 1024 s m e Du).
Qed.
Lemma fin_max x : dbl x -> fin x -> (Rabs (V x) < maxb)%R.
Proof.
  intros Du Fu. destruct x as [s|s| |s m e]; try discriminate Fu; cbn [SF2R]; [rewrite Rabs_R0; apply bpow_gt_0|].
  rewrite cond_F2R. assert (fpos (S754_finite false m e)) as P by (exists m, e; split; [reflexivity|exact Du]).
  pose proof (fpos_max _ P) as M. pose proof (fpos_gt _ P) as G. cbn [SF2R cond_Zopp] in M, G.
  destruct s; rewrite ?Rabs_Ropp, Rabs_pos_eq; lra.
Qed.
Lemma rnd_abs_le y b : generic_format radix2 fx b -> (Rabs y <= b -> Rabs (rnd y) <= b)%R.
Proof. intros Hb H. rewrite rnd_abs. apply rnd_le_g; assumption. Qed.
Lemma rnd_abs_ge y b : generic_format radix2 fx b -> (b <= Rabs y -> b <= Rabs (rnd y))%R.
Proof. intros Hb H. rewrite rnd_abs. apply rnd_ge; assumption. Qed.
Lemma fofZ_rnd p : is_rnd (fofZ p) (IZR p).
Proof. pose proof (normalize_rnd p 0) as H. unfold F2R in H. cbn [Fnum Fexp bpow] in H. rewrite Rmult_1_r in H. exact H. Qed.
Lemma fofZ_small p : Z.abs p < 2 ^ 53 -> dbl (fofZ p) /\ fin (fofZ p) /\ V (fofZ p) = IZR p.
Proof.
  intros H. pose proof (fofZ_rnd p) as R. pose proof (rnd_fmt _ (fmt_int p H)) as E.
  destruct (is_rnd_fin _ _ R) as [F E']; [rewrite E, <- abs_IZR; apply maxb_int; lia|].
  split; [exact (is_rnd_dbl _ _ R)|]. split; [exact F|]. now rewrite E', E.
Qed.

(** 1 - a is zero or at least 2^-53 *)
Lemma one_minus a : generic_format radix2 fx a -> (rnd (1 - a) = 0 \/ bpow radix2 (-53) <= Rabs (rnd (1 - a)))%R.
Proof.
  intros Fa. assert (B : forall y, (/ 2 <= Rabs y)%R -> (bpow radix2 (-53) <= Rabs (rnd y))%R).
  { intros y H. apply rnd_abs_ge; [apply fmt_bpow; lia|]. eapply Rle_trans; [|exact H]. change (/ 2)%R with (bpow radix2 (-1)). apply bpow_le; lia. }
  destruct (Rle_lt_dec a (/ 2)) as [H1|H1]; [right; apply B; rewrite Rabs_pos_eq; lra|].
  destruct (Rle_lt_dec (3 / 2) a) as [H2|H2]; [right; apply B; rewrite Rabs_left; lra|].
  set (c := cexp radix2 fx a). assert (Hc : -53 <= c).
  { unfold c, cexp, FLT_exp. assert (0 <= mag radix2 a)%Z by (apply mag_ge_bpow; rewrite Rabs_pos_eq by lra; cbn -[Rinv]; lra). lia. }
  unfold generic_format in Fa. fold c in Fa. unfold F2R in Fa. cbn [Fnum Fexp] in Fa. set (m := Ztrunc (scaled_mantissa radix2 fx a)) in Fa. clearbody m c.
  set (j := 2 ^ 53 - m * 2 ^ (c + 53)).
  assert (E : (1 - a = IZR j * bpow radix2 (-53))%R).
  { unfold j. rewrite minus_IZR, mult_IZR. change (2 ^ (c + 53)) with (radix2 ^ (c + 53)). change (2 ^ 53) with (radix2 ^ 53). rewrite !IZR_Zpower by lia.
    rewrite Rmult_minus_distr_r, Rmult_assoc, <- !bpow_plus. replace (c + 53 + -53) with c by lia. rewrite <- Fa. reflexivity. }
  destruct (Z.eq_dec j 0) as [J|J].
  - left. rewrite E, J, Rmult_0_l. apply rnd_0.
  - right. apply rnd_abs_ge; [apply fmt_bpow; lia|]. rewrite E, Rabs_mult, (Rabs_pos_eq (bpow _ _)) by apply bpow_ge_0.
    rewrite <- (Rmult_1_l (bpow radix2 (-53))) at 1. apply Rmult_le_compat_r; [apply bpow_ge_0|]. rewrite <- abs_IZR. apply IZR_le. lia.
Qed.

(** ** One step of the loop, once n is large *)
Notation one := (fofZ 1).
Definition dn (m : Z) : f64 := fsub (fmul (fofZ 4) (fofZ (m ^ 2))) one.
Definition nu (z : f64) (m : Z) (u : f64) : f64 := fdiv one (fsub one (fdiv (fmul z u) (dn m))).

Lemma one_spec : dbl one /\ fin one /\ V one = 1%R. Proof. apply (fofZ_small 1). cbn. lia. Qed.

Lemma rnd_lt y : (Rabs y <= bpow radix2 1023 -> Rabs (rnd y) < maxb)%R.
Proof. intros H. eapply Rle_lt_trans; [apply rnd_abs_le; [|exact H]; apply fmt_bpow; lia|]. apply bpow_lt. lia. Qed.

Lemma dn_spec m : 1 <= m -> (m <= 2 ^ 505) ->
  is_inf (fofZ (m ^ 2)) = false /\ dbl (dn m) /\ fin (dn m) /\ (IZR (m ^ 2) <= V (dn m))%R.
Proof.
  intros H1 H2. assert (M1 : (1 <= IZR (m ^ 2))%R) by (apply IZR_le; nia).
  assert (M2 : (IZR (m ^ 2) <= bpow radix2 1010)%R).
  { replace (bpow radix2 1010) with (IZR (2 ^ 505 * 2 ^ 505)).
    - apply IZR_le. rewrite Z.pow_2_r. apply Z.mul_le_mono_nonneg; lia.
    - rewrite mult_IZR. change 2 with (radix_val radix2). rewrite IZR_Zpower by lia. rewrite <- bpow_plus. reflexivity. }
  assert (B4 : (bpow radix2 1010 * 32 <= bpow radix2 1023)%R).
  { replace 32%R with (bpow radix2 5) by (cbn; lra). rewrite <- bpow_plus. apply bpow_le. lia. }
  pose proof dmin_small as [D1 D2].
  assert (dm : (dmin <= / 1000)%R) by (eapply Rle_trans; [exact D2|]; apply Rinv_le; lra). clear D2 H1 H2.
  set (M := IZR (m ^ 2)) in *. revert M2 B4. generalize (bpow radix2 1010). intros b10 M2 B4.
  assert (LT : forall y, (0 <= y <= b10 * 32)%R -> (Rabs (rnd y) < maxb)%R) by (intros y Hy; apply rnd_lt; rewrite Rabs_pos_eq; lra). clear B4.
  pose proof (fofZ_rnd (m ^ 2)) as R1. fold M in R1.
  destruct (is_rnd_fin _ _ R1 (LT M ltac:(lra))) as [F1 E1]. pose proof (is_rnd_dbl _ _ R1) as Db1.
  pose proof (rnd_lo M M1) as Lo1. pose proof (rnd_up M) as Up1. rewrite (Rabs_pos_eq M) in Up1 by lra. rewrite <- E1 in Lo1, Up1.
  rewrite Rabs_pos_eq in Up1 by lra.
  destruct (fofZ_small 4 ltac:(cbn; lia)) as (D4 & F4 & E4). destruct one_spec as (D1' & F1' & E1').
  unfold dn. set (n2 := fofZ (m ^ 2)) in *. clearbody n2.
  pose proof (fmul_rnd _ _ D4 Db1 F4 F1) as R2. rewrite E4 in R2. 
  destruct (is_rnd_fin _ _ R2 (LT (4 * V n2)%R ltac:(lra))) as [F2 E2]. pose proof (is_rnd_dbl _ _ R2) as Db2.
  pose proof (rnd_lo (4 * V n2) ltac:(lra)) as Lo2. pose proof (rnd_up (4 * V n2)) as Up2. rewrite (Rabs_pos_eq (4 * V n2)) in Up2 by lra. rewrite <- E2 in Lo2, Up2.
  rewrite Rabs_pos_eq in Up2 by lra. set (w := fmul (fofZ 4) n2) in *. clearbody w.
  pose proof (fsub_rnd _ _ Db2 D1' F2 F1') as R3. rewrite E1' in R3.
  destruct (is_rnd_fin _ _ R3 (LT (V w - 1)%R ltac:(lra))) as [F3 E3]. pose proof (is_rnd_dbl _ _ R3) as Db3.
  pose proof (rnd_lo (V w - 1) ltac:(lra)) as Lo3. rewrite <- E3 in Lo3.
  split; [|split; [exact Db3|split; [exact F3|lra]]]. destruct n2; try reflexivity. discriminate F1.
Qed.

Lemma fin_pos_shape x : fin x -> (0 < V x)%R -> exists m e, x = S754_finite false m e.
Proof.
  intros Fx P. destruct x as [s|s| |s m e]; try discriminate Fx; cbn [SF2R] in P; [lra|]. destruct s; [|eauto].
  pose proof (sgn_cases true m e) as G. cbv zeta beta iota in G. lra.
Qed.
Lemma fin_0 x : fin x -> V x = 0%R -> exists s, x = S754_zero s.
Proof.
  intros Fx P. destruct x as [s|s| |s m e]; try discriminate Fx; [eauto|]. cbn [SF2R] in P.
  pose proof (sgn_cases s m e) as G. cbv zeta beta iota in G. rewrite P in G. destruct s; lra.
Qed.

(** the factor a = z*u/(4n^2-1) *)
Lemma fa_spec z u m : dbl z -> fin z -> dbl u -> fin u -> 1 <= m -> m <= 2 ^ 505 ->
  (exists s, fdiv (fmul z u) (dn m) = S754_infinity s) \/
  (dbl (fdiv (fmul z u) (dn m)) /\ fin (fdiv (fmul z u) (dn m)) /\ V (fdiv (fmul z u) (dn m)) = rnd (rnd (V z * V u) / V (dn m))).
Proof.
  intros Dz Fz Du Fu H1 H2. destruct (dn_spec m H1 H2) as (_ & DD & FD & GD).
  assert (P : (1 <= V (dn m))%R) by (eapply Rle_trans; [|exact GD]; apply IZR_le; nia).
  destruct (fmul_rnd _ _ Dz Du Fz Fu) as [Dp [[Fp Ep]|[Ep _]]].
  - right. pose proof (fdiv_rnd _ _ Dp DD Fp FD ltac:(lra)) as R.
    assert (L : (Rabs (rnd (V (fmul z u) / V (dn m))) < maxb)%R).
    { pose proof (fin_max _ Dp Fp) as M. eapply Rle_lt_trans; [|exact M]. apply rnd_abs_le.
      - apply generic_format_abs. now apply fin_fmt.
      - unfold Rdiv. rewrite Rabs_mult. rewrite (Rabs_pos_eq (/ _)) by (left; apply Rinv_0_lt_compat; lra).
        rewrite <- (Rmult_1_r (Rabs (V (fmul z u)))) at 2. apply Rmult_le_compat_l; [apply Rabs_pos|].
        rewrite <- Rinv_1. apply Rinv_le; lra. }
    destruct (is_rnd_fin _ _ R L) as [F E]. rewrite Ep in E. split; [exact (is_rnd_dbl _ _ R)|]. split; assumption.
  - left. rewrite Ep. destruct (fin_pos_shape _ FD ltac:(lra)) as (mm & e & ->). eexists. reflexivity.
Qed.

Definition cls (u : f64) : Prop := is_zero u = true \/ is_inf u = true \/ (dbl u /\ fin u /\ (Rabs (V u) <= bpow radix2 53)%R).
Definition small (u : f64) : Prop := dbl u /\ fin u /\ (Rabs (V u) <= 2)%R.
Definition good (u : f64) : Prop := u = one \/ u = S754_nan.

(** from any finite u *)
Lemma nu_any z u m : dbl z -> fin z -> dbl u -> fin u -> 1 <= m -> m <= 2 ^ 505 -> cls (nu z m u).
Proof.
  intros Dz Fz Du Fu H1 H2. unfold nu. destruct one_spec as (D1 & F1 & E1).
  destruct (fa_spec z u m Dz Fz Du Fu H1 H2) as [[s ->]|(Da & Fa & _)]; [left; destruct s; reflexivity|].
  set (a := fdiv (fmul z u) (dn m)) in *. destruct (fsub_rnd _ _ D1 Da F1 Fa) as [Dd [[Fd Ed]|[Ed _]]].
  2: { rewrite Ed. left. destruct (Rlt_bool _ _); reflexivity. }
  rewrite E1 in Ed. destruct (one_minus (V a) (fin_fmt _ Da Fa)) as [Z|B].
  - rewrite Z in Ed. destruct (fin_0 _ Fd Ed) as [s ->]. right; left. destruct s; reflexivity.
  - rewrite <- Ed in B. set (d := fsub one a) in *. assert (N : V d <> 0%R).
    { intros Z. rewrite Z, Rabs_R0 in B. pose proof (bpow_gt_0 radix2 (-53)). lra. }
    pose proof (fdiv_rnd _ _ D1 Dd F1 Fd N) as R. rewrite E1 in R.
    assert (L : (Rabs (rnd (1 / V d)) <= bpow radix2 53)%R).
    { apply rnd_abs_le; [apply fmt_bpow; lia|]. unfold Rdiv. rewrite Rmult_1_l, Rabs_inv.
      change 53 with (- (-53))%Z. rewrite bpow_opp. apply Rinv_le; [apply bpow_gt_0|exact B]. }
    destruct (is_rnd_fin _ _ R) as [F E]; [eapply Rle_lt_trans; [exact L|]; apply bpow_lt; lia|].
    right; right. rewrite <- E in L. split; [exact (is_rnd_dbl _ _ R)|]. split; assumption.
Qed.

Lemma a_small z u m b : dbl z -> fin z -> dbl u -> fin u -> 1 <= m -> m <= 2 ^ 505 ->
  (bpow radix2 60 * (Rabs (V z) + 1) <= IZR (m ^ 2))%R -> (Rabs (V u) <= b)%R -> (1 <= b <= bpow radix2 58)%R ->
  dbl (fdiv (fmul z u) (dn m)) /\ fin (fdiv (fmul z u) (dn m)) /\ (Rabs (V (fdiv (fmul z u) (dn m))) <= b * bpow radix2 (-56))%R.
Proof.
  intros Dz Fz Du Fu H1 H2 Hz Hu Hb. destruct (dn_spec m H1 H2) as (_ & DD & FD & GD).
  pose proof (Rabs_pos (V z)) as Pz. pose proof (Rabs_pos (V u)) as Pu.
  assert (Pz1 : (Rabs (V z) * Rabs (V u) <= Rabs (V z) * b)%R) by (apply Rmult_le_compat_l; lra).
  set (D := V (dn m)) in *. pose proof dmin_small as [d1 d2].
  assert (dm : (dmin <= / 1000)%R) by (eapply Rle_trans; [exact d2|]; apply Rinv_le; lra). clear d2.
  pose proof (rnd_up (V z * V u)) as U1. rewrite Rabs_mult in U1.
  assert (P1 : (Rabs (rnd (V z * V u)) <= 2 * ((Rabs (V z) + 1) * b))%R) by nra.
  assert (B60 : (bpow radix2 60 = 1152921504606846976)%R) by (cbn; lra). rewrite B60 in *.
  assert (PD : (1 <= D)%R) by nra.
  assert (Q : (Rabs (rnd (V z * V u) / D) <= b * (2 / 1152921504606846976))%R).
  { unfold Rdiv. rewrite Rabs_mult, (Rabs_pos_eq (/ D)) by (left; apply Rinv_0_lt_compat; lra).
    apply Rmult_le_reg_r with D; [lra|]. rewrite Rmult_assoc, Rinv_l, Rmult_1_r by lra.
    eapply Rle_trans; [exact P1|]. apply Rle_trans with (b * (2 * / 1152921504606846976) * (1152921504606846976 * (Rabs (V z) + 1)))%R; [right; field|].
    apply Rmult_le_compat_l; [nra|]. lra. }
  assert (B56 : (bpow radix2 (-56) = 16 / 1152921504606846976)%R) by (cbn; field).
  assert (L : (Rabs (rnd (rnd (V z * V u) / D)) <= b * bpow radix2 (-56))%R).
  { eapply Rle_trans; [apply rnd_up|]. rewrite B56. 
    assert (dmin <= / 1152921504606846976)%R by (apply Rle_trans with (bpow radix2 (-60)); [apply bpow_le; lia|right; rewrite <- B60; reflexivity]). nra. }
  destruct (fmul_rnd _ _ Dz Du Fz Fu) as [Dp [[Fp Ep]|[_ Ep]]].
  2: { exfalso.  revert Ep. apply Rlt_not_le. pose proof (fin_max _ DD FD) as M. fold D in M. rewrite Rabs_pos_eq in M by lra. eapply Rle_lt_trans; [exact P1|]. eapply Rle_lt_trans; [|exact M].
       eapply Rle_trans; [|exact GD]. eapply Rle_trans; [|exact Hz].
       assert (bpow radix2 58 = 288230376151711744)%R as B58 by (cbn; lra). rewrite B58 in Hb. assert ((Rabs (V z) + 1) * b <= (Rabs (V z) + 1) * 288230376151711744)%R by (apply Rmult_le_compat_l; lra). lra. }
  pose proof (fdiv_rnd _ _ Dp DD Fp FD ltac:(fold D; lra)) as R. fold D in R. rewrite Ep in R.
  destruct (is_rnd_fin _ _ R) as [F E].
  { eapply Rle_lt_trans; [exact L|]. apply Rle_lt_trans with (bpow radix2 58 * bpow radix2 (-56))%R; [apply Rmult_le_compat_r; [apply bpow_ge_0|lra]|]. rewrite <- bpow_plus. apply bpow_lt. lia. }
  split; [exact (is_rnd_dbl _ _ R)|]. split; [exact F|]. rewrite E. exact L.
Qed.

Lemma fsub_one a : dbl a -> fin a -> (Rabs (V a) <= / 4)%R ->
  dbl (fsub one a) /\ fin (fsub one a) /\ (/ 2 <= V (fsub one a) <= 2)%R.
Proof.
  intros Da Fa H. destruct one_spec as (D1 & F1 & E1). pose proof (fsub_rnd _ _ D1 Da F1 Fa) as R. rewrite E1 in R. apply Rabs_le_inv in H.
  assert (L : (/ 2 <= rnd (1 - V a) <= 2)%R).
  { split; [apply rnd_ge|apply rnd_le_g]; try lra; [change (/ 2)%R with (bpow radix2 (-1))|change 2%R with (bpow radix2 1)]; apply fmt_bpow; lia. }
  destruct (is_rnd_fin _ _ R) as [F E].
  { rewrite Rabs_pos_eq by lra. apply Rle_lt_trans with 2%R; [lra|]. change 2%R with (bpow radix2 1). apply bpow_lt. lia. }
  split; [exact (is_rnd_dbl _ _ R)|]. split; [exact F|]. rewrite E. exact L.
Qed.
Lemma finv d : dbl d -> fin d -> (/ 2 <= V d <= 2)%R -> dbl (fdiv one d) /\ fin (fdiv one d) /\ V (fdiv one d) = rnd (/ V d) /\ (/ 2 <= V (fdiv one d) <= 2)%R.
Proof.
  intros Dd Fd H. destruct one_spec as (D1 & F1 & E1). pose proof (fdiv_rnd _ _ D1 Dd F1 Fd ltac:(lra)) as R. rewrite E1 in R.
  unfold Rdiv in R. rewrite Rmult_1_l in R.
  assert (L : (/ 2 <= rnd (/ V d) <= 2)%R).
  { split; [apply rnd_ge|apply rnd_le_g].
    - change (/ 2)%R with (bpow radix2 (-1)). apply fmt_bpow; lia.
    - apply Rinv_le; lra.
    - change 2%R with (bpow radix2 1). apply fmt_bpow; lia.
    - rewrite <- (Rinv_inv 2). apply Rinv_le; lra. }
  destruct (is_rnd_fin _ _ R) as [F E].
  { rewrite Rabs_pos_eq by lra. apply Rle_lt_trans with 2%R; [lra|]. change 2%R with (bpow radix2 1). apply bpow_lt. lia. }
  split; [exact (is_rnd_dbl _ _ R)|]. split; [exact F|]. split; [exact E|]. rewrite E. exact L.
Qed.

Lemma pos_fpos x : dbl x -> fin x -> (0 < V x)%R -> fpos x.
Proof. intros Dx Fx P. destruct (fin_pos_shape x Fx P) as (m & e & ->). exists m, e. split; [reflexivity|exact Dx]. Qed.

(** u = 1 again when a is tiny *)
Lemma rnd_near_1 y : (Rabs (1 - y) <= bpow radix2 (-55))%R -> rnd y = 1%R.
Proof.
  intros H. apply Rabs_le_inv in H.
  assert (F1 : generic_format radix2 fx 1) by (change 1%R with (bpow radix2 0); apply fmt_bpow; lia).
  assert (B : (bpow radix2 (-53) = 4 * bpow radix2 (-55))%R) by (replace 4%R with (bpow radix2 2) by (cbn; lra); rewrite <- bpow_plus; reflexivity).
  assert (B2 : (bpow radix2 (-52) = 8 * bpow radix2 (-55))%R) by (replace 8%R with (bpow radix2 3) by (cbn; lra); rewrite <- bpow_plus; reflexivity).
  pose proof (bpow_gt_0 radix2 (-55)) as P. apply Rle_antisym.
  - apply (round_N_le_midp radix2 fx); [exact F1|]. rewrite succ_eq_pos by lra. change 1%R with (bpow radix2 0) at 3. rewrite ulp_bpow. 
    change (fx (0 + 1)) with (-52). rewrite B2. lra.
  - apply (round_N_ge_midp radix2 fx); [exact F1|]. pose proof (pred_bpow radix2 fx 0) as Q. change (bpow radix2 0) with 1%R in Q. change (fx 0) with (-53) in Q. rewrite Q, B. lra.
Qed.
Lemma one_tiny a : dbl a -> fin a -> (Rabs (V a) <= bpow radix2 (-55))%R -> fsub one a = one.
Proof.
  intros Da Fa H. destruct one_spec as (D1 & F1 & E1). pose proof (fsub_rnd _ _ D1 Da F1 Fa) as R. rewrite E1 in R.
  assert (E : rnd (1 - V a) = 1%R) by (apply rnd_near_1; replace (1 - (1 - V a))%R with (V a) by ring; exact H).
  destruct (is_rnd_fin _ _ R) as [F E']; [rewrite E, Rabs_R1; change 1%R with (bpow radix2 0); apply bpow_lt; lia|]. rewrite E in E'.
  apply fpos_inj; [apply pos_fpos; [exact (is_rnd_dbl _ _ R)|exact F|lra]|apply pos_fpos; auto; lra|congruence].
Qed.
Lemma one_inv : fdiv one one = one. Proof. reflexivity. Qed.

Section Steps.
Variables (z : f64) (m : Z).
Hypothesis Dz : dbl z.
Hypothesis H1 : 1 <= m.
Hypothesis H2 : m <= 2 ^ 505.
Lemma dn_shape : exists p e, dn m = S754_finite false p e.
Proof. destruct (dn_spec m H1 H2) as (_ & _ & FD & GD). apply fin_pos_shape; [exact FD|]. eapply Rlt_le_trans; [|exact GD]. apply IZR_lt. nia. Qed.
Lemma nu_z_nan u : z = S754_nan -> nu z m u = S754_nan.
Proof. intros ->. reflexivity. Qed.
Lemma nu_nan : nu z m S754_nan = S754_nan.
Proof. clear. unfold nu. destruct z; reflexivity. Qed.
Lemma nu_zero u : is_zero u = true -> good (nu z m u).
Proof.
  intros Hu. unfold nu. destruct dn_shape as (p & e & ->). clear - Hu. destruct u as [s| | |]; try discriminate Hu.
  destruct z as [s'|s'| |s' m' e']; [left; destruct s, s'; reflexivity|right; reflexivity|right; reflexivity|left; destruct s, s'; reflexivity].
Qed.
Lemma nu_inf u : is_inf u = true -> good (nu z m u) \/ is_zero (nu z m u) = true.
Proof.
  intros Hu. unfold nu. destruct dn_shape as (p & e & ->). clear - Hu. destruct u as [|s| |]; try discriminate Hu.
  destruct z as [s'|s'| |s' m' e']; [left; right; reflexivity|right; destruct s, s'; reflexivity|left; right; reflexivity|right; destruct s, s'; reflexivity].
Qed.
Lemma nu_z_inf u : is_inf z = true -> good (nu z m u) \/ is_zero (nu z m u) = true.
Proof.
  intros Hz. unfold nu. destruct dn_shape as (p & e & ->). clear - Hz. destruct z as [|s| |]; try discriminate Hz.
  destruct u as [s'|s'| |s' m' e']; [left; right; reflexivity|right; destruct s, s'; reflexivity|left; right; reflexivity|right; destruct s, s'; reflexivity].
Qed.
Hypothesis H3 : (bpow radix2 60 * (Rabs (V z) + 1) <= IZR (m ^ 2))%R.
Lemma nu_cls u : fin z -> dbl u -> fin u -> (Rabs (V u) <= bpow radix2 53)%R -> small (nu z m u).
Proof.
  intros Fz Du Fu Bu. destruct (a_small z u m (bpow radix2 53) Dz Fz Du Fu H1 H2 H3 Bu) as (Da & Fa & Ba).
  { split; [change 1%R with (bpow radix2 0)|]; apply bpow_le; lia. }
  rewrite <- bpow_plus in Ba. change (bpow radix2 (53 + -56)) with (/ 8)%R in Ba.
  destruct (fsub_one _ Da Fa ltac:(lra)) as (Dd & Fd & Bd). destruct (finv _ Dd Fd Bd) as (Di & Fi & _ & Bi).
  split; [exact Di|]. split; [exact Fi|]. unfold nu. rewrite Rabs_pos_eq; lra.
Qed.
Lemma nu_small u : fin z -> small u -> nu z m u = one.
Proof.
  intros Fz (Du & Fu & Bu). destruct (a_small z u m 2 Dz Fz Du Fu H1 H2 H3 Bu) as (Da & Fa & Ba).
  { split; [lra|]. change 2%R with (bpow radix2 1). apply bpow_le. lia. }
  unfold nu. rewrite one_tiny; [apply one_inv|exact Da|exact Fa|]. eapply Rle_trans; [exact Ba|]. change 2%R with (bpow radix2 1). rewrite <- bpow_plus. apply bpow_le; lia.
Qed.
End Steps.

(** ** The loop *)
Definition ends (py : bool) (k : nat) (z : f64) (n : Z) (u v w : f64) : Prop :=
  match f_loop py k z n u v w with Ok _ => True | Raise ZeroDivisionError => True | _ => False end.

Lemma f_loop_S py k z n u v w : f_loop py (S k) z n u v w =
  (q <- xdiv py v w ;;
   if SFltb f_eps (SFabs q) then
     n2 <- i2f ((n + 1) ^ 2) ;;
     a <- xdiv py (fmul z u) (fsub (fmul (fofZ 4) n2) one) ;;
     u' <- xdiv py one (fsub one a) ;;
     f_loop py k z (n + 1) u' (fmul v (fsub u' one)) (fadd w (fmul v (fsub u' one)))
   else Ok w).
Proof. reflexivity. Qed.
Lemma xdiv_cases py a b : xdiv py a b = Ok (fdiv a b) \/ xdiv py a b = Raise ZeroDivisionError.
Proof. unfold xdiv. destruct (py && is_zero b); auto. Qed.

Lemma ends_S py k z n u v w : 0 <= n -> n + 1 <= 2 ^ 505 ->
  (let u' := nu z (n + 1) u in ends py k z (n + 1) u' (fmul v (fsub u' one)) (fadd w (fmul v (fsub u' one)))) -> ends py (S k) z n u v w.
Proof.
  intros H1 H2 H. unfold ends. rewrite f_loop_S. destruct (xdiv_cases py v w) as [-> | ->]; [|exact I]. cbn [bind].
  destruct (SFltb _ _); [|exact I]. destruct (dn_spec (n + 1) ltac:(lia) H2) as (NI & _). unfold i2f. rewrite NI. cbn [bind].
  fold (dn (n + 1)). destruct (xdiv_cases py (fmul z u) (dn (n + 1))) as [-> | ->]; [|exact I]. cbn [bind].
  destruct (xdiv_cases py one (fsub one (fdiv (fmul z u) (dn (n + 1))))) as [-> | ->]; [|exact I]. cbn [bind]. exact H.
Qed.
Lemma ends_good py z n u v w : good u -> ends py 0 z n u (fmul v (fsub u one)) w.
Proof.
  intros G. unfold ends. cbn [f_loop]. destruct (xdiv_cases py (fmul v (fsub u one)) w) as [-> | ->]; [|exact I]. cbn [bind].
  assert (E : SFltb f_eps (SFabs (fdiv (fmul v (fsub u one)) w)) = false).
  { destruct G as [-> | ->].
    - change (fsub one one) with (S754_zero false). destruct v as [s|s| |s m e], w as [s'|s'| |s' m' e']; reflexivity.
    - change (fsub S754_nan one) with S754_nan. destruct v as [s|s| |s m e], w as [s'|s'| |s' m' e']; reflexivity. }
  now rewrite E.
Qed.
Lemma f_loop_mono py k z : forall n u v w, f_loop py k z n u v w <> Raise OutOfFuel -> f_loop py (S k) z n u v w = f_loop py k z n u v w.
Proof.
  induction k as [|k IH]; intros n u v w H.
  - rewrite f_loop_S. cbn [f_loop] in *. destruct (xdiv py v w); cbn [bind] in *; [|reflexivity]. destruct (SFltb _ _); congruence.
  - rewrite f_loop_S. rewrite f_loop_S in H |- *. destruct (xdiv py v w); cbn [bind] in *; [|reflexivity]. destruct (SFltb _ _); [|reflexivity].
    destruct (i2f ((n + 1) ^ 2)) as [n2|]; cbn [bind] in *; [|reflexivity]. destruct (xdiv py (fmul z u) _) as [a0|]; cbn [bind] in *; [|reflexivity].
    destruct (xdiv py one _) as [u0|]; cbn [bind] in *; [|reflexivity]. apply IH. exact H.
Qed.
Lemma ends_mono py k z n u v w : ends py k z n u v w -> ends py (S k) z n u v w.
Proof. intros H. unfold ends in *. rewrite f_loop_mono; [exact H|]. intros E. rewrite E in H. exact H. Qed.
Lemma ends_le py k l z n u v w : (k <= l)%nat -> ends py k z n u v w -> ends py l z n u v w.
Proof. intros L H. induction L; auto. now apply ends_mono. Qed.

Lemma good_dbl u : good u -> dbl u. Proof. intros [-> | ->]; [apply one_spec|reflexivity]. Qed.
Lemma zero_dbl u : is_zero u = true -> dbl u. Proof. destruct u; try discriminate. reflexivity. Qed.
Lemma inf_dbl u : is_inf u = true -> dbl u. Proof. destruct u; try discriminate. reflexivity. Qed.
Lemma cls_dbl u : cls u -> dbl u. Proof. intros [H|[H|[H _]]]; auto using zero_dbl, inf_dbl. Qed.
Lemma f64_cases u : u = S754_nan \/ is_inf u = true \/ fin u.
Proof. unfold fin. destruct u; auto. Qed.
Lemma nu_dbl z m u : dbl z -> fin z -> 1 <= m -> m <= 2 ^ 505 -> dbl u -> dbl (nu z m u).
Proof.
  intros Dz Fz H1 H2 Du. destruct (f64_cases u) as [Hn|[Hu|Fu]]; [rewrite Hn|..].
  - rewrite nu_nan. reflexivity.
  - destruct (nu_inf z m H1 H2 u Hu); auto using good_dbl, zero_dbl.
  - apply cls_dbl, nu_any; auto.
Qed.

Section Loop.
Variables (py : bool) (z : f64).
Hypothesis Dz : dbl z.
Lemma ends_zero n u v w : 0 <= n -> n + 1 <= 2 ^ 505 -> is_zero u = true -> ends py 1 z n u v w.
Proof. intros H1 H2 Hu. apply ends_S; auto. cbv zeta. apply ends_good. apply nu_zero; auto; lia. Qed.
Lemma ends_inf n u v w : 0 <= n -> n + 2 <= 2 ^ 505 -> is_inf u = true -> ends py 2 z n u v w.
Proof.
  intros H1 H2 Hu. apply ends_S; auto; [lia|]. cbv zeta. destruct (nu_inf z (n + 1) ltac:(lia) ltac:(lia) u Hu) as [G|G].
  - apply ends_mono, ends_good, G.
  - apply ends_zero; [lia..|exact G].
Qed.
Lemma ends_znan n u v w : 0 <= n -> n + 1 <= 2 ^ 505 -> z = S754_nan -> ends py 1 z n u v w.
Proof. intros H1 H2 Hz. apply ends_S; auto. cbv zeta. apply ends_good. right. now apply nu_z_nan. Qed.
Lemma ends_zinf n u v w : 0 <= n -> n + 2 <= 2 ^ 505 -> is_inf z = true -> ends py 2 z n u v w.
Proof.
  intros H1 H2 Hz. apply ends_S; auto; [lia|]. cbv zeta. destruct (nu_z_inf z (n + 1) ltac:(lia) ltac:(lia) u Hz) as [G|G].
  - apply ends_mono, ends_good, G.
  - apply ends_zero; [lia..|exact G].
Qed.
Hypothesis Fz : fin z.
Variable K : Z.
Hypothesis K1 : 1 <= K.
Hypothesis HK : (bpow radix2 60 * (Rabs (V z) + 1) <= IZR (K ^ 2))%R.
Lemma big n : K <= n + 1 -> (bpow radix2 60 * (Rabs (V z) + 1) <= IZR ((n + 1) ^ 2))%R.
Proof. intros H. eapply Rle_trans; [exact HK|]. apply IZR_le. apply Z.pow_le_mono_l. lia. Qed.
Lemma ends_small n u v w : 0 <= n -> K <= n + 1 -> n + 1 <= 2 ^ 505 -> small u -> ends py 1 z n u v w.
Proof.
  intros H1 H2 H3 Hu. apply ends_S; auto. cbv zeta. apply ends_good. left. apply nu_small; auto; try lia. now apply big.
Qed.
Lemma ends_cls n u v w : 0 <= n -> K <= n + 1 -> n + 2 <= 2 ^ 505 -> cls u -> ends py 2 z n u v w.
Proof.
  intros H1 H2 H3 [Hu|[Hu|(Du & Fu & Bu)]].
  - apply ends_mono, ends_zero; auto; lia.
  - apply ends_inf; auto; lia.
  - apply ends_S; auto; [lia|]. cbv zeta. apply ends_small; try lia. apply nu_cls; auto; try lia. now apply big.
Qed.
Lemma ends_any n u v w : 0 <= n -> K <= n + 1 -> n + 3 <= 2 ^ 505 -> dbl u -> ends py 3 z n u v w.
Proof.
  intros H1 H2 H3 Du. destruct (f64_cases u) as [-> |[Hu|Fu]].
  - apply ends_S; [lia..|]. cbv zeta. rewrite nu_nan. apply (ends_le py 0); [lia|]. apply ends_good. now right.
  - apply ends_mono, ends_inf; auto; lia.
  - apply ends_S; [lia..|]. cbv zeta. apply ends_cls; try lia. apply nu_any; auto; lia.
Qed.
Lemma ends_all j : forall n u v w, 0 <= n -> K <= n + Z.of_nat j + 1 -> n + Z.of_nat j + 3 <= 2 ^ 505 -> dbl u -> ends py (j + 3) z n u v w.
Proof.
  induction j as [|j IH]; intros n u v w H1 H2 H3 Du; [apply ends_any; auto; lia|].
  apply ends_S; [lia..|]. cbv zeta. apply IH; try lia. apply nu_dbl; auto; lia.
Qed.
End Loop.

(** z = x ** 2 a double of size at most 2^940, or an infinity or NaN *)
Lemma loop_ends py z nmax v w K : dbl z -> 0 <= nmax <= 2 ^ 500 -> 1 <= K <= 2 ^ 500 ->
  (fin z -> (bpow radix2 60 * (Rabs (V z) + 1) <= IZR (K ^ 2))%R) -> ends py (Z.to_nat (K - nmax) + 3) z nmax one v w.
Proof.
  intros Dz Hn HK H. assert (P : 2 ^ 500 + 2 ^ 500 + 3 <= 2 ^ 505) by (vm_compute; discriminate).
  assert (P0 : 0 < 2 ^ 500) by (vm_compute; reflexivity). destruct (f64_cases z) as [Hz|[Hz|Fz]].
  - apply (ends_le py 1); [lia|]. apply ends_znan; auto; lia.
  - apply (ends_le py 2); [lia|]. apply ends_zinf; auto; lia.
  - apply ends_all with (K := K); auto; try lia. apply one_spec.
Qed.
