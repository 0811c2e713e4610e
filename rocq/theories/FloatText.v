(** * FloatText: 17 significant digits identify a binary64 number. *)
From Coq Require Import ZArith List Bool Ascii String SpecFloat Reals Lia Lra.
From Flocq Require Import Core.Core IEEE754.BinarySingleNaN.
From Verif Require Import Py PyFacts Num FloatN MText TextFacts.
Import ListNotations.
Open Scope Z_scope.

Notation fx := (FLT_exp (-1074) 53).

#[local] Instance prec53 : Prec_gt_0 53 := eq_refl.
#[local] Instance pe53 : Prec_lt_emax 53 1024 := eq_refl.

Lemma round_aux_same sx mx ex lx :
  SpecFloat.binary_round_aux 53 1024 sx mx ex lx
  = BinarySingleNaN.binary_round_aux 53 1024 mode_NE sx mx ex lx.
Proof.
  unfold SpecFloat.binary_round_aux, BinarySingleNaN.binary_round_aux.
  destruct (shr_fexp 53 1024 mx ex lx) as [mrs e'].
  assert (E : choice_mode mode_NE sx (shr_m mrs) (loc_of_shr_record mrs)
          = SpecFloat.round_nearest_even (shr_m mrs) (loc_of_shr_record mrs)).
  { unfold choice_mode, SpecFloat.round_nearest_even, Round.cond_incr, Round.round_N.
    destruct (loc_of_shr_record mrs) as [|[]]; auto.
    destruct (Z.even (shr_m mrs)); reflexivity. }
  rewrite E.
  destruct (shr_fexp 53 1024 _ _ _) as [mrs2 e2]. 
  destruct (shr_m mrs2); reflexivity.
Qed.

(** Correct rounding of a decimal. *)
Lemma dec2f_round neg D k x :
  0 < D ->
  SpecFloat.valid_binary 53 1024 x = true ->
  (exists m e, x = S754_finite neg m e) ->
  round radix2 fx ZnearestE (IZR (cond_Zopp neg D) * (IZR (ppow 10 k) / IZR (ppow 10 (- k)))) = SF2R radix2 x ->
  dec2f neg D k = x.
Proof.
  intros HD Vx (m & e & ->) HR.
  destruct D as [|p|p]; try lia.
  cbn [dec2f]. unfold SFdiv.
  assert (P1 : 0 < Zpos p * ppow 10 k) by (unfold ppow; apply Z.mul_pos_pos; [lia|apply Z.pow_pos_nonneg; lia]).
  assert (P2 : 0 < ppow 10 (- k)) by (unfold ppow; apply Z.pow_pos_nonneg; lia).
  generalize (Bdiv_correct_aux 53 1024 prec53 pe53 mode_NE neg (Z.to_pos (Zpos p * ppow 10 k)) 0 false (Z.to_pos (ppow 10 (- k))) 0).
  cbv zeta. rewrite !Z2Pos.id by lia.
  destruct (SFdiv_core_binary _ _ _ _ _ _) as [[mz ez] lz].
  rewrite <- round_aux_same.
  set (z := SpecFloat.binary_round_aux _ _ _ _ _ _).
  intros [Vz Hz].
  change (SpecFloat.fexp 53 1024) with (fun e => Z.max (e - 53) (-1074)) in Hz.
  assert (EQ : (F2R (Float radix2 (SpecFloat.cond_Zopp neg (Z.pos p * ppow 10 k)) 0)
            / F2R (Float radix2 (SpecFloat.cond_Zopp false (ppow 10 (- k))) 0)
        = IZR (cond_Zopp neg (Z.pos p)) * (IZR (ppow 10 k) / IZR (ppow 10 (- k))))%R).
  { unfold F2R. cbn [Fnum Fexp bpow]. 
    destruct neg; cbn [SpecFloat.cond_Zopp cond_Zopp];
    rewrite ?opp_IZR, ?mult_IZR; field; apply not_0_IZR; lia. }
  rewrite EQ in Hz. 
  change (round_mode mode_NE) with ZnearestE in Hz.
  change (fun e => Z.max (e - 53) (-1074)) with fx in Hz.
  rewrite HR in Hz.
  rewrite Rlt_bool_true in Hz.
  2:{ change (SF2R radix2 (S754_finite neg m e)) with (B2R (SF2B (prec:=53) (emax:=1024) _ Vx)).
      apply abs_B2R_lt_emax. }
  destruct Hz as (Hz1 & Hz2 & Hz3).
  assert (E : SF2B (prec:=53) (emax:=1024) z Vz = SF2B (prec:=53) (emax:=1024) _ Vx).
  { apply B2R_Bsign_inj; rewrite ?is_finite_SF2B, ?B2R_SF2B, ?Bsign_SF2B; auto.
    rewrite Hz3. destruct neg; reflexivity. }
  apply (f_equal (B2SF (prec:=53) (emax:=1024))) in E.
  rewrite !B2SF_SF2B in E. exact E.
Qed.

(** Two members of the format closer than 10^-16 relative are equal. *)
Lemma near_unique x r :
  (0 < x)%R -> (0 < r)%R ->
  generic_format radix2 fx x -> generic_format radix2 fx r ->
  (Rabs (r - x) <= 1 / 10 ^ 16 * x)%R -> r = x.
Proof.
  intros Hx Hr Fx Fr H.
  assert (K : forall a b, (0 < a)%R -> (a < b)%R -> generic_format radix2 fx a -> generic_format radix2 fx b ->
     (a * bpow radix2 (-53) < b - a)%R).
  { intros a b Ha Hab Fa Fb.
    assert (S : (succ radix2 fx a <= b)%R) by (apply succ_le_lt; auto; apply FLT_exp_valid; reflexivity).
    rewrite succ_eq_pos in S by lra.
    generalize (ulp_FLT_gt radix2 (-1074) 53 a). rewrite Rabs_pos_eq by lra. change (-(53)) with (-53). lra. }
  assert (B : bpow radix2 (-53) = (/ 9007199254740992)%R) by (change (-53) with (- (53)); rewrite bpow_opp; cbn; lra).
  rewrite B in K.
  assert (B10 : (1 / 10 ^ 16 = / 10000000000000000)%R) by (cbn [pow]; lra).
  rewrite B10 in H.
  destruct (Rtotal_order r x) as [L|[E|G]]; auto; exfalso.
  - specialize (K r x Hr L Fr Fx). rewrite Rabs_left in H by lra. lra.
  - specialize (K x r Hx G Fx Fr). rewrite Rabs_pos_eq in H by lra. lra.
Qed.

Lemma round_back x v :
  (0 < x)%R -> generic_format radix2 fx x ->
  (2 * Rabs (v - x) <= 1 / 10 ^ 16 * x)%R ->
  round radix2 fx ZnearestE v = x.
Proof.
  intros Hx Fx H.
  assert (VE : Valid_exp fx) by (apply FLT_exp_valid; reflexivity).
  destruct (round_N_pt radix2 fx (fun z => negb (Z.even z)) v) as [Fr N].
  set (r := round radix2 fx ZnearestE v) in *.
  specialize (N x Fx).
  assert (A : (Rabs (r - x) <= 1 / 10 ^ 16 * x)%R).
  { replace (r - x)%R with ((r - v) + (v - x))%R by ring.
    eapply Rle_trans; [apply Rabs_triang|].
    rewrite (Rabs_minus_sym x v) in N. lra. }
  apply near_unique; auto.
  apply Rabs_le_inv in A. 
  assert (1 / 10 ^ 16 < 1)%R by lra. nra.
Qed.

Definition r10 : radix := Build_radix 10 eq_refl.

Lemma ppow_pos b e : 0 < b -> 0 < ppow b e.
Proof. intros; unfold ppow; apply Z.pow_pos_nonneg; lia. Qed.

Lemma ppow_bpow (r : radix) k :
  (IZR (ppow r k) / IZR (ppow r (- k)) = bpow r k)%R.
Proof.
  unfold ppow. pose proof (radix_gt_0 r) as Hr.
  destruct (Z.le_gt_cases 0 k).
  - rewrite (Z.max_l k), (Z.max_r (-k)) by lia. rewrite Z.pow_0_r, IZR_Zpower by lia. field.
  - rewrite (Z.max_r k), (Z.max_l (-k)) by lia. rewrite Z.pow_0_r, IZR_Zpower by lia.
    rewrite bpow_opp. field. apply Rgt_not_eq, bpow_gt_0.
Qed.

Lemma rhe_near a b : 0 < b -> (2 * Rabs (IZR (rhe a b) - IZR a / IZR b) <= 1)%R.
Proof.
  intros Hb. unfold rhe.
  pose proof (Z.div_mod a b ltac:(lia)) as DM.
  pose proof (Z.mod_pos_bound a b Hb) as MB.
  set (q := a / b) in *. set (r := a mod b) in *. clearbody q r.
  assert (E : (IZR a / IZR b = IZR q + IZR r / IZR b)%R).
  { rewrite DM at 1. rewrite plus_IZR, mult_IZR. field. apply not_0_IZR; lia. }
  rewrite E.
  assert (Hb' : (0 < IZR b)%R) by (apply IZR_lt; lia).
  assert (LO : 2 * r <= b -> (2 * Rabs (IZR q - (IZR q + IZR r / IZR b)) <= 1)%R).
  { intros L. replace (IZR q - (IZR q + IZR r / IZR b))%R with (- (IZR r / IZR b))%R by ring.
    rewrite Rabs_Ropp, Rabs_pos_eq.
    2:{ apply Rmult_le_pos; [apply IZR_le; lia | left; apply Rinv_0_lt_compat; auto]. }
    apply Rmult_le_reg_r with (IZR b); auto. unfold Rdiv.
    rewrite <- Rmult_assoc, Rmult_assoc, Rinv_l by lra.
    rewrite Rmult_1_r, Rmult_1_l, <- mult_IZR. apply IZR_le; lia. }
  assert (HI : b <= 2 * r -> (2 * Rabs (IZR (q + 1) - (IZR q + IZR r / IZR b)) <= 1)%R).
  { intros L. rewrite plus_IZR.
    replace (IZR q + 1 - (IZR q + IZR r / IZR b))%R with ((IZR b - IZR r) / IZR b)%R by (field; lra).
    rewrite <- minus_IZR.
    rewrite Rabs_pos_eq.
    2:{ apply Rmult_le_pos; [apply IZR_le; lia | left; apply Rinv_0_lt_compat; auto]. }
    apply Rmult_le_reg_r with (IZR b); auto. unfold Rdiv.
    rewrite <- Rmult_assoc, Rmult_assoc, Rinv_l by lra.
    rewrite Rmult_1_r, Rmult_1_l, <- mult_IZR. apply IZR_le; lia. }
  destruct (Z.ltb_spec (2 * r) b); [apply LO; lia|].
  destruct (Z.ltb_spec b (2 * r)); [apply HI; lia|].
  destruct (Z.even q); [apply LO; lia|apply HI; lia].
Qed.

Lemma p10_le_spec E n d : 0 < d ->
  p10_le E n d = true <-> (bpow r10 E <= IZR n / IZR d)%R.
Proof.
  intros Hd. unfold p10_le. rewrite Z.leb_le.
  rewrite <- (ppow_bpow r10 E). change (radix_val r10) with 10.
  assert (P1 : 0 < ppow 10 (-E)) by (apply ppow_pos; lia).
  assert (R1 : (0 < IZR (ppow 10 (-E)))%R) by (apply IZR_lt; lia).
  assert (R2 : (0 < IZR d)%R) by (apply IZR_lt; lia).
  split; intros H.
  - apply Rmult_le_reg_r with (IZR (ppow 10 (-E)) * IZR d)%R; [nra|].
    replace (IZR (ppow 10 E) / IZR (ppow 10 (- E)) * (IZR (ppow 10 (- E)) * IZR d))%R
      with (IZR (ppow 10 E * d)) by (rewrite mult_IZR; field; lra).
    replace (IZR n / IZR d * (IZR (ppow 10 (- E)) * IZR d))%R
      with (IZR (n * ppow 10 (- E))) by (rewrite mult_IZR; field; lra).
    apply IZR_le; lia.
  - apply le_IZR. rewrite !mult_IZR.
    apply Rmult_le_compat_r with (r := (IZR (ppow 10 (-E)) * IZR d)%R) in H; [|nra].
    replace (IZR (ppow 10 E) / IZR (ppow 10 (- E)) * (IZR (ppow 10 (- E)) * IZR d))%R
      with (IZR (ppow 10 E) * IZR d)%R in H by (field; lra).
    replace (IZR n / IZR d * (IZR (ppow 10 (- E)) * IZR d))%R
      with (IZR n * IZR (ppow 10 (- E)))%R in H by (field; lra).
    exact H.
Qed.

(** The search finds the decimal exponent. *)
Lemma dexp_spec n d : 0 < d ->
  forall fuel E, (IZR n / IZR d < bpow r10 (E + 1))%R ->
  (bpow r10 (E - Z.of_nat fuel) <= IZR n / IZR d)%R ->
  let E' := dexp fuel E n d in
  (bpow r10 E' <= IZR n / IZR d < bpow r10 (E' + 1))%R.
Proof.
  intros Hd. induction fuel as [|f IH]; intros E HI LO; cbn [dexp].
  - replace (E - Z.of_nat 0) with E in LO by lia. auto.
  - destruct (p10_le E n d) eqn:P.
    + apply p10_le_spec in P; auto.
    + apply IH.
      * replace (E - 1 + 1) with E by lia.
        apply Rnot_le_lt. intros A. apply p10_le_spec in A; auto. congruence.
      * replace (E - 1 - Z.of_nat f) with (E - Z.of_nat (S f)) by lia. auto.
Qed.

Lemma dec17_spec n d : 0 < d ->
  (IZR n / IZR d < bpow r10 311)%R -> (bpow r10 (-390) <= IZR n / IZR d)%R ->
  let '(D, E) := dec17 n d in
  10 ^ 16 <= D < 10 ^ 17 /\
  (2 * Rabs (IZR D * bpow r10 (E - 16) - IZR n / IZR d) <= 1 / 10 ^ 16 * (IZR n / IZR d))%R.
Proof.
  intros Hd HI LO. unfold dec17.
  pose proof (dexp_spec n d Hd 700 310 HI ltac:(exact LO)) as S. cbv zeta in S.
  set (E := dexp 700 310 n d) in *. clearbody E.
  set (v := (IZR n / IZR d)%R) in *.
  assert (P1 : 0 < d * ppow 10 (E - 16)) by (apply Z.mul_pos_pos; [lia|apply ppow_pos; lia]).
  pose proof (rhe_near (n * ppow 10 (16 - E)) _ P1) as N.
  set (D := rhe _ _) in *. clearbody D.
  assert (Q : (IZR (n * ppow 10 (16 - E)) / IZR (d * ppow 10 (E - 16)) = v * bpow r10 (16 - E))%R).
  { rewrite <- (ppow_bpow r10). change (radix_val r10) with 10.
    replace (- (16 - E)) with (E - 16) by lia. rewrite !mult_IZR. unfold v. field.
    split; apply not_0_IZR; pose proof (ppow_pos 10 (E-16)); lia. }
  rewrite Q in N.
  assert (B1 : (bpow r10 16 <= v * bpow r10 (16 - E))%R).
  { replace (bpow r10 16) with (bpow r10 E * bpow r10 (16 - E))%R by (rewrite <- bpow_plus; f_equal; lia).
    apply Rmult_le_compat_r; [apply bpow_ge_0|lra]. }
  assert (B2 : (v * bpow r10 (16 - E) < bpow r10 17)%R).
  { replace (bpow r10 17) with (bpow r10 (E + 1) * bpow r10 (16 - E))%R by (rewrite <- bpow_plus; f_equal; lia).
    apply Rmult_lt_compat_r; [apply bpow_gt_0|lra]. }
  change (bpow r10 16) with (IZR (10 ^ 16)) in B1. change (bpow r10 17) with (IZR (10 ^ 17)) in B2.
  assert (D1 : 10 ^ 16 <= D).
  { apply Z.lt_pred_le. apply lt_IZR. rewrite <- Z.sub_1_r, minus_IZR.
    apply Rmult_le_compat_l with (r := (/2)%R) in N; [|lra].
    rewrite <- Rmult_assoc, Rinv_l, Rmult_1_l in N by lra. apply Rabs_le_inv in N. lra. }
  assert (D2 : D <= 10 ^ 17).
  { apply Z.lt_succ_r. apply lt_IZR. rewrite <- Z.add_1_r, plus_IZR.
    apply Rmult_le_compat_l with (r := (/2)%R) in N; [|lra].
    rewrite <- Rmult_assoc, Rinv_l, Rmult_1_l in N by lra. apply Rabs_le_inv in N. lra. }
  assert (A : (2 * Rabs (IZR D * bpow r10 (E - 16) - v) <= 1 / 10 ^ 16 * v)%R).
  { replace (IZR D * bpow r10 (E - 16) - v)%R with ((IZR D - v * bpow r10 (16 - E)) * bpow r10 (E - 16))%R.
    2:{ rewrite Rmult_minus_distr_r, Rmult_assoc, <- bpow_plus.
        replace (16 - E + (E - 16)) with 0 by lia. cbn [bpow]. ring. }
    rewrite Rabs_mult, (Rabs_pos_eq (bpow _ _)) by apply bpow_ge_0.
    rewrite <- Rmult_assoc.
    apply Rle_trans with (1 * bpow r10 (E - 16))%R.
    - apply Rmult_le_compat_r; [apply bpow_ge_0|exact N].
    - unfold Zminus. rewrite bpow_plus.
      replace (bpow r10 (-(16))) with (1 / 10 ^ 16)%R.
      2:{ rewrite bpow_opp. change (bpow r10 16) with (10000000000000000)%R. cbn [pow]; lra. }
      rewrite Rmult_1_l, Rmult_comm. apply Rmult_le_compat_l; [lra|tauto]. }
  destruct (Z.eqb_spec D (10 ^ 17)) as [->|NE].
  - split; [split; [lia|apply Z.pow_lt_mono_r; lia]|].
    replace (IZR (10 ^ 16) * bpow r10 (E + 1 - 16))%R with (IZR (10 ^ 17) * bpow r10 (E - 16))%R; auto.
    replace (E + 1 - 16) with (1 + (E - 16)) by lia.
    rewrite bpow_plus, <- Rmult_assoc. f_equal.
    change (bpow r10 1) with (IZR 10). rewrite <- mult_IZR. f_equal.
  - split; [lia|exact A].
Qed.

Definition is_fin (x : f64) : bool :=
  match x with S754_zero _ | S754_finite _ _ _ => true | _ => false end.

Lemma finite_range m e : SpecFloat.valid_binary 53 1024 (S754_finite false m e) = true ->
  (bpow radix2 (-1074) <= IZR (Zpos m) * bpow radix2 e < bpow radix2 1024)%R.
Proof.
  intros V. split.
  - assert (-1074 <= e).
    { apply andb_prop in V as [V1 V2]. apply Zeq_bool_eq in V1.
      unfold SpecFloat.fexp, SpecFloat.emin in V1. lia. }
    apply Rle_trans with (1 * bpow radix2 e)%R.
    + rewrite Rmult_1_l. apply bpow_le; lia.
    + apply Rmult_le_compat_r; [apply bpow_ge_0|apply IZR_le; lia].
  - change (IZR (Zpos m) * bpow radix2 e)%R with (SF2R radix2 (S754_finite false m e)).
    rewrite <- (B2R_SF2B 53 1024 _ V).
    eapply Rle_lt_trans; [apply Rle_abs|]. apply abs_B2R_lt_emax.
Qed.

Lemma bpow_2_10_lo : (bpow r10 (-390) <= bpow radix2 (-1074))%R.
Proof.
  change (-390) with (-(390)). change (-1074) with (-(1074)).
  rewrite !bpow_opp. apply Rinv_le; [apply bpow_gt_0|].
  rewrite <- !IZR_Zpower by lia. apply IZR_le. vm_compute. discriminate.
Qed.
Lemma bpow_2_10_hi : (bpow radix2 1024 <= bpow r10 311)%R.
Proof.
  rewrite <- !IZR_Zpower by lia. apply IZR_le. vm_compute. discriminate.
Qed.

Lemma round_opp v : round radix2 fx ZnearestE (- v) = (- round radix2 fx ZnearestE v)%R.
Proof. apply round_NE_opp. Qed.

(** The heart of C37-C39. *)
Lemma fmt_parse a b x :
  (forall c, In c a -> is_space c = true) -> (forall c, In c b -> is_space c = true) ->
  SpecFloat.valid_binary 53 1024 x = true -> is_fin x = true ->
  parse_float (a ++ fmt_e16 x ++ b) = Ok x.
Proof.
  intros A B V F. destruct x as [s|s| |s m e]; try discriminate F.
  - cbn [fmt_e16]. rewrite parse_dec17 by (auto; lia). reflexivity.
  - cbn [fmt_e16].
    set (n := Zpos m * ppow 2 e). set (d := ppow 2 (- e)).
    assert (Hd : 0 < d) by (apply ppow_pos; lia).
    assert (EQ : (IZR n / IZR d = IZR (Zpos m) * bpow radix2 e)%R).
    { rewrite <- (ppow_bpow radix2). change (radix_val radix2) with 2. unfold n, d. rewrite mult_IZR. field.
      apply not_0_IZR. unfold d in Hd. lia. }
    pose proof (finite_range m e V) as [LO HI].
    pose proof (dec17_spec n d Hd) as S.
    rewrite EQ in S.
    specialize (S (Rlt_le_trans _ _ _ HI bpow_2_10_hi) (Rle_trans _ _ _ bpow_2_10_lo LO)).
    destruct (dec17 n d) as [D E]. destruct S as [DR N].
    rewrite parse_dec17 by (auto; lia). f_equal.
    apply dec2f_round; auto; [lia|eauto|].
    rewrite (ppow_bpow r10).
    assert (P : (0 < IZR (Zpos m) * bpow radix2 e)%R).
    { eapply Rlt_le_trans; [|exact LO]. apply bpow_gt_0. }
    assert (R : round radix2 fx ZnearestE (IZR D * bpow r10 (E - 16)) = (IZR (Zpos m) * bpow radix2 e)%R).
    { apply round_back; auto.
      change (IZR (Zpos m) * bpow radix2 e)%R with (F2R (Float radix2 (Zpos m) e)).
      apply generic_format_canonical.
      apply andb_prop in V as [V1 V2].
      exact (canonical_canonical_mantissa 53 1024 false m e V1). }
    destruct s; cbn [cond_Zopp].
    + rewrite opp_IZR, Ropp_mult_distr_l_reverse, round_opp, R.
      cbn [SF2R]. unfold F2R; cbn [Fnum Fexp SpecFloat.cond_Zopp cond_Zopp]. rewrite opp_IZR. ring.
    + rewrite R. reflexivity.
Qed.
