(** * CintFacts2: floor(sqrt((double) n)) in binary64 is the integer square root *)
From Coq Require Import ZArith List Bool SpecFloat Reals Lia Lra.
From Flocq Require Import Core.Core IEEE754.BinarySingleNaN.
From Verif Require Import Py PyFacts Num FloatN MText TextFacts FloatText FileFacts2 MCint.
Open Scope Z_scope.

#[local] Instance prec53 : Prec_gt_0 53 := eq_refl.
#[local] Instance pe53 : Prec_lt_emax 53 1024 := eq_refl.

(** An integer below 2 ^ 53 converts exactly. *)
Lemma fofZ_exact p : Zpos p < 2 ^ 53 ->
  exists m e, fofZ (Zpos p) = S754_finite false m e /\ SpecFloat.bounded 53 1024 m e = true /\
    F2R (Float radix2 (Zpos m) e) = IZR (Zpos p).
Proof.
  intros Hp. cbn [fofZ]. unfold SpecFloat.binary_normalize. rewrite round_same.
  destruct (binary_round_correct 53 1024 prec53 pe53 mode_NE false p 0) as [V H].
  set (z := BinarySingleNaN.binary_round 53 1024 mode_NE false p 0) in *.
  assert (EF : F2R (Float radix2 (SpecFloat.cond_Zopp false (Zpos p)) 0) = IZR (Zpos p)) by (unfold F2R; cbn; lra).
  cbv zeta in H. rewrite EF in H.
  assert (G : generic_format radix2 (SpecFloat.fexp 53 1024) (IZR (Zpos p))).
  { apply (generic_format_FLT radix2 (-1074) 53). exists (Float radix2 (Zpos p) 0); cbn [Fnum Fexp]; [unfold F2R; cbn; lra| |lia].
    rewrite Z.abs_eq by lia. exact Hp. }
  rewrite round_generic in H; auto with typeclass_instances.
  rewrite Rlt_bool_true in H.
  2:{ rewrite Rabs_pos_eq by (apply IZR_le; lia). eapply Rlt_le_trans; [apply IZR_lt; exact Hp|].
      change (IZR (2 ^ 53)) with (bpow radix2 53). apply bpow_le. lia. }
  destruct H as (H1 & H2 & H3).
  destruct z as [s|s| |s m e]; try discriminate.
  - exfalso. cbn in H1. apply (eq_IZR 0) in H1. lia.
  - cbn in H3. subst s. exists m, e. split; [reflexivity|]. split; [exact V|exact H1].
Qed.

Lemma floor_between (s : Z) (x : R) m e : (0 <= s)%Z -> SF2R radix2 (S754_finite false m e) = x -> (IZR s <= x < IZR s + 1)%R ->
  dbl_floor (S754_finite false m e) = s.
Proof.
  intros Hs Hx [H1 H2]. cbn [SF2R cond_Zopp] in Hx. unfold F2R in Hx. cbn [Fnum Fexp] in Hx. subst x. cbn [dbl_floor].
  change (SpecFloat.cond_Zopp false (Z.pos m)) with (Z.pos m) in *.
  destruct (Z.leb_spec 0 e).
  - rewrite <- IZR_Zpower in * by auto. change (radix_val radix2) with 2 in *. rewrite <- mult_IZR in *.
    rewrite <- (plus_IZR s 1) in H2. apply le_IZR in H1. apply lt_IZR in H2. lia.
  - assert (P : 0 < 2 ^ (- e)) by (apply Z.pow_pos_nonneg; lia).
    assert (E : (bpow radix2 e * IZR (2 ^ (- e)) = 1)%R).
    { change (2 ^ (- e)) with (radix_val radix2 ^ (- e)). rewrite IZR_Zpower by lia. rewrite <- bpow_plus. replace (e + - e) with 0 by lia. reflexivity. }
    assert (HP : (0 < IZR (2 ^ (- e)))%R) by (apply IZR_lt; auto).
    symmetry. apply (Z.div_unique_pos _ _ _ (Zpos m - 2 ^ (- e) * s)); [|ring].
    assert (A1 : (IZR (s * 2 ^ (- e)) <= IZR (Zpos m))%R).
    { rewrite mult_IZR. replace (IZR (Z.pos m)) with (IZR (Z.pos m) * bpow radix2 e * IZR (2 ^ (- e)))%R by (rewrite Rmult_assoc, E; ring).
      apply Rmult_le_compat_r; lra. }
    assert (A2 : (IZR (Zpos m) < IZR ((s + 1) * 2 ^ (- e)))%R).
    { rewrite mult_IZR. replace (IZR (Z.pos m)) with (IZR (Z.pos m) * bpow radix2 e * IZR (2 ^ (- e)))%R by (rewrite Rmult_assoc, E; ring).
      apply Rmult_lt_compat_r; auto. rewrite plus_IZR. lra. }
    apply le_IZR in A1. apply lt_IZR in A2. lia.
Qed.

(** The double computed by floor(sqrt((double) n)) is exactly the integer
    square root, for every non-negative int n. *)
Lemma c_floor_sqrt_ok n : 0 <= n < 2 ^ 31 -> c_floor_sqrt n = Z.sqrt n.
Proof.
  intros Hn. unfold c_floor_sqrt. destruct n as [|p|p]; [reflexivity| |lia].
  destruct (fofZ_exact p ltac:(lia)) as (m & e & -> & Hb & Hv).
  cbn [SFsqrt]. pose proof (Bsqrt_correct_aux 53 1024 prec53 pe53 mode_NE m e Hb) as H. cbv zeta in H.
  destruct (SFsqrt_core_binary 53 1024 (Zpos m) e) as [[mz ez] lz].
  rewrite round_aux_same. set (z := BinarySingleNaN.binary_round_aux 53 1024 mode_NE false mz ez lz) in *.
  destruct H as (V & HR & HF & HS). rewrite Hv in HR.
  set (s := Z.sqrt (Zpos p)). pose proof (Z.sqrt_spec (Zpos p) ltac:(lia)) as [S1 S2]. fold s in S1, S2.
  pose proof (Z.sqrt_nonneg (Zpos p)) as S0. fold s in S0.
  assert (Ss : Z.succ s <= 2 ^ 16) by nia. unfold Z.succ in *.
  assert (Sp : 1 <= s) by nia.
  assert (L1 : (IZR s <= sqrt (IZR (Zpos p)))%R).
  { rewrite <- (sqrt_Rsqr (IZR s)) by (apply IZR_le; auto). apply sqrt_le_1_alt. unfold Rsqr. rewrite <- mult_IZR. apply IZR_le. lia. }
  pose (u := ((s + 1) * 2 ^ 17 - 1)%Z).
  assert (L2 : (sqrt (IZR (Zpos p)) <= IZR u * bpow radix2 (-17))%R).
  { assert (HU : (0 <= IZR u * bpow radix2 (-17))%R) by (apply Rmult_le_pos; [apply IZR_le; unfold u; lia|apply bpow_ge_0]).
    rewrite <- (sqrt_Rsqr _ HU). apply sqrt_le_1_alt. unfold Rsqr.
    replace (IZR u * bpow radix2 (-17) * (IZR u * bpow radix2 (-17)))%R with (IZR (u * u) * bpow radix2 (-34))%R
      by (rewrite mult_IZR; change (-34) with (-17 + -17); rewrite bpow_plus; ring).
    apply Rmult_le_reg_r with (bpow radix2 34); [apply bpow_gt_0|].
    rewrite Rmult_assoc, <- bpow_plus. change (-34 + 34) with 0. cbn [bpow]. rewrite Rmult_1_r.
    change (IZR (Z.pow_pos radix2 34)) with (IZR (2 ^ 34)). rewrite <- mult_IZR. apply IZR_le. unfold u. nia. }
  assert (F1 : generic_format radix2 (SpecFloat.fexp 53 1024) (IZR s)).
  { apply (generic_format_FLT radix2 (-1074) 53). exists (Float radix2 s 0); cbn [Fnum Fexp]; [unfold F2R; cbn; lra| |lia].
    rewrite Z.abs_eq by lia. change (radix2 ^ 53) with (2 ^ 53). lia. }
  assert (F2 : generic_format radix2 (SpecFloat.fexp 53 1024) (IZR u * bpow radix2 (-17))).
  { apply (generic_format_FLT radix2 (-1074) 53). exists (Float radix2 u (-17)); cbn [Fnum Fexp]; [reflexivity| |lia].
    rewrite Z.abs_eq by (unfold u; lia). change (radix2 ^ 53) with (2 ^ 53). unfold u. lia. }
  assert (R1 : (IZR s <= SF2R radix2 z)%R).
  { rewrite HR. apply round_ge_generic; [apply (fexp_correct 53 1024 prec53)|apply valid_rnd_round_mode|exact F1|exact L1]. }
  assert (R2 : (SF2R radix2 z < IZR s + 1)%R).
  { apply Rle_lt_trans with (IZR u * bpow radix2 (-17))%R.
    - rewrite HR. apply round_le_generic; [apply (fexp_correct 53 1024 prec53)|apply valid_rnd_round_mode|exact F2|exact L2].
    - apply Rmult_lt_reg_r with (bpow radix2 17); [apply bpow_gt_0|]. rewrite Rmult_assoc, <- bpow_plus. change (-17 + 17) with 0. cbn [bpow].
      rewrite Rmult_1_r. change (IZR (Z.pow_pos radix2 17)) with (IZR (2 ^ 17)). rewrite <- (plus_IZR s 1), <- mult_IZR. apply IZR_lt. unfold u. lia. }
  destruct z as [b|b| |b m' e']; try discriminate.
  - exfalso. cbn in R1. apply (le_IZR s 0) in R1. lia.
  - cbn in HS. subst b. eapply (floor_between s); [exact S0|reflexivity|split; [exact R1|exact R2]].
Qed.
