(** * FlSigned: binary64 operations on numbers of either sign. *)
From Coq Require Import ZArith List Bool SpecFloat Reals Lia Lra.
From Flocq Require Import Core.Core IEEE754.BinarySingleNaN.
From Flocq Require Import Relative.
From Verif Require Import Py PyFacts Num FloatN FloatText FileFacts2 MDouble FlFacts.
Open Scope Z_scope.
#[local] Existing Instance FloatText.prec53.
#[local] Existing Instance FloatText.pe53.

(** A bit pattern of a double (finite mantissas and exponents in range). *)
Definition dbl (x : f64) : Prop := SpecFloat.valid_binary 53 1024 x = true.
Definition fin (x : f64) : Prop := is_finite_SF x = true.

(** the result is the rounded real number, or an infinity if that is too large *)
Definition is_rnd (z : f64) (y : R) : Prop :=
  dbl z /\ ((fin z /\ V z = rnd y) \/ (z = S754_infinity (Rlt_bool y 0) /\ (maxb <= Rabs (rnd y))%R)).

Lemma rnd_0 : rnd 0 = 0%R.
Proof. apply round_0; auto with typeclass_instances. Qed.

Lemma sgn_F2R s m e : Rlt_bool (F2R (Float radix2 (cond_Zopp s (Z.pos m)) e)) 0 = s.
Proof. destruct s; [apply Rlt_bool_true, F2R_lt_0|apply Rlt_bool_false, F2R_ge_0]; cbn; lia. Qed.
Lemma sgn_cases s m e : let v := F2R (Float radix2 (cond_Zopp s (Z.pos m)) e) in (if s then v < 0 else 0 < v)%R.
Proof. destruct s; cbv zeta; [apply F2R_lt_0|apply F2R_gt_0]; cbn; lia. Qed.
Lemma sgn_mul (a b : R) (s t : bool) : (if s then a < 0 else 0 < a)%R -> (if t then b < 0 else 0 < b)%R -> Rlt_bool (a * b) 0 = xorb s t.
Proof.
  destruct s, t; intros Ha Hb; cbn [xorb]; [apply Rlt_bool_false|apply Rlt_bool_true|apply Rlt_bool_true|apply Rlt_bool_false].
  - replace (a * b)%R with ((- a) * (- b))%R by ring. apply Rmult_le_pos; lra.
  - replace (a * b)%R with (- ((- a) * b))%R by ring. assert (0 < - a * b)%R by (apply Rmult_lt_0_compat; lra). lra.
  - replace (a * b)%R with (- (a * - b))%R by ring. assert (0 < a * - b)%R by (apply Rmult_lt_0_compat; lra). lra.
  - apply Rmult_le_pos; lra.
Qed.
Lemma sgn_inv (b : R) (t : bool) : (if t : bool then b < 0 else 0 < b)%R -> (if t then / b < 0 else 0 < / b)%R.
Proof. destruct t; [apply Rinv_lt_0_compat|apply Rinv_0_lt_compat]. Qed.

Lemma fmul_rnd x y : dbl x -> dbl y -> fin x -> fin y -> is_rnd (fmul x y) (V x * V y).
Proof.
  intros Dx Dy Fx Fy.
  destruct x as [sx|sx| |sx m e]; try discriminate Fx; destruct y as [sy|sy| |sy m' e']; try discriminate Fy; cbn [SF2R];
    try (split; [reflexivity|left]; split; [reflexivity|]; rewrite ?Rmult_0_l, ?Rmult_0_r; rewrite rnd_0; reflexivity).
  unfold dbl in *. cbn [SpecFloat.valid_binary] in Dx, Dy. unfold fmul. cbn [SFmul]. rewrite round_aux_same.
  pose proof (Bmult_correct_aux 53 1024 _ _ mode_NE sx m e Dx sy m' e' Dy) as H. cbv zeta in H. destruct H as [Hv H].
  set (z := BinarySingleNaN.binary_round_aux 53 1024 mode_NE (xorb sx sy) (Z.pos (m * m')) (e + e') loc_Exact) in *.
  split; [exact Hv|]. destruct (Rlt_bool_spec (Rabs (round radix2 fx ZnearestE (F2R (Float radix2 (cond_Zopp sx (Z.pos m)) e) * F2R (Float radix2 (cond_Zopp sy (Z.pos m')) e')))) (bpow radix2 1024)) as [Hlt|Hge].
  - left. rewrite Rlt_bool_true in H by exact Hlt. destruct H as (E & Hf & _). split; [exact Hf|exact E].
  - right. rewrite Rlt_bool_false in H by exact Hge. split; [|exact Hge].
    rewrite (sgn_mul _ _ sx sy (sgn_cases sx m e) (sgn_cases sy m' e')). exact H.
Qed.

Lemma fdiv_rnd x y : dbl x -> dbl y -> fin x -> fin y -> V y <> 0%R -> is_rnd (fdiv x y) (V x / V y).
Proof.
  intros Dx Dy Fx Fy Hy.
  destruct x as [sx|sx| |sx m e]; try discriminate Fx; destruct y as [sy|sy| |sy m' e']; try discriminate Fy; cbn [SF2R] in *; try congruence.
  { split; [reflexivity|left]; split; [reflexivity|]. unfold Rdiv. rewrite Rmult_0_l, rnd_0. reflexivity. }
  unfold dbl in *. cbn [SpecFloat.valid_binary] in Dx, Dy. unfold fdiv. cbn [SFdiv].
  pose proof (Bdiv_correct_aux 53 1024 _ _ mode_NE sx m e sy m' e') as H. cbv zeta in H.
  destruct (SFdiv_core_binary 53 1024 (Z.pos m) e (Z.pos m') e') as [[mz ez] lz]. rewrite round_aux_same. destruct H as [Hv H].
  split; [exact Hv|]. destruct (Rlt_bool_spec (Rabs (round radix2 fx ZnearestE (F2R (Float radix2 (cond_Zopp sx (Z.pos m)) e) / F2R (Float radix2 (cond_Zopp sy (Z.pos m')) e')))) (bpow radix2 1024)) as [Hlt|Hge].
  - left. rewrite Rlt_bool_true in H by exact Hlt. destruct H as (E & Hf & _). split; [exact Hf|exact E].
  - right. rewrite Rlt_bool_false in H by exact Hge. split; [|exact Hge]. unfold Rdiv.
    rewrite (sgn_mul _ _ sx sy (sgn_cases sx m e) (sgn_inv _ _ (sgn_cases sy m' e'))). exact H.
Qed.

Lemma normalize_rnd mx ex : is_rnd (SpecFloat.binary_normalize 53 1024 mx ex false) (F2R (Float radix2 mx ex)).
Proof.
  assert (G : forall s p, is_rnd (SpecFloat.binary_round 53 1024 s p ex) (F2R (Float radix2 (cond_Zopp s (Z.pos p)) ex))).
  { intros s p. rewrite round_same. destruct (binary_round_correct 53 1024 _ _ mode_NE s p ex) as [Hv H]. cbv zeta in H.
    split; [exact Hv|]. destruct (Rlt_bool_spec (Rabs (round radix2 fx ZnearestE (F2R (Float radix2 (cond_Zopp s (Z.pos p)) ex)))) (bpow radix2 1024)) as [Hlt|Hge].
    - left. rewrite Rlt_bool_true in H by exact Hlt. destruct H as (E & Hf & _). split; [exact Hf|exact E].
    - right. rewrite Rlt_bool_false in H by exact Hge. split; [|exact Hge]. rewrite sgn_F2R. exact H. }
  destruct mx as [|p|p]; cbn [SpecFloat.binary_normalize].
  - rewrite F2R_0. split; [reflexivity|left]. split; [reflexivity|]. rewrite rnd_0. reflexivity.
  - apply (G false p).
  - apply (G true p).
Qed.

Lemma cond_F2R s m e : F2R (Float radix2 (cond_Zopp s (Z.pos m)) e) = (if s then - F2R (Float radix2 (Z.pos m) e) else F2R (Float radix2 (Z.pos m) e))%R.
Proof. destruct s; cbn [cond_Zopp]; [rewrite <- F2R_Zopp|]; reflexivity. Qed.

Lemma fadd_rnd x y : dbl x -> dbl y -> fin x -> fin y -> is_rnd (fadd x y) (V x + V y).
Proof.
  intros Dx Dy Fx Fy.
  assert (G : forall u, dbl u -> fin u -> is_rnd u (V u)).
  { intros u Du Fu. split; [exact Du|left]. split; [exact Fu|]. symmetry. apply rnd_fmt.
    destruct u as [s|s| |s m e]; try discriminate Fu; cbn [SF2R]; [apply generic_format_0|].
    apply generic_format_canonical. exact (canonical_bounded 53 1024 s m e Du). }
  destruct x as [sx|sx| |sx m e]; try discriminate Fx; destruct y as [sy|sy| |sy m' e']; try discriminate Fy.
  - cbn [SF2R]. rewrite Rplus_0_r. destruct sx, sy; (split; [reflexivity|left; split; [reflexivity|rewrite rnd_0; reflexivity]]).
  - change (V (S754_zero sx)) with 0%R. rewrite Rplus_0_l. exact (G _ Dy Fy).
  - change (V (S754_zero sy)) with 0%R. rewrite Rplus_0_r. exact (G _ Dx Fx).
  - unfold fadd. cbn [SFadd]. cbn [SF2R].
    destruct (align_sum m e m' e') as [A1 A2]. cbv zeta in A1, A2. set (ez := Z.min e e') in *.
    set (a := fst (shl_align m e ez)) in *. set (b := fst (shl_align m' e' ez)) in *.
    replace (F2R (Float radix2 (cond_Zopp sx (Z.pos m)) e) + F2R (Float radix2 (cond_Zopp sy (Z.pos m')) e'))%R
      with (F2R (Float radix2 (cond_Zopp sx (Z.pos a) + cond_Zopp sy (Z.pos b)) ez)); [apply normalize_rnd|].
    rewrite !cond_F2R, <- A1, <- A2. unfold F2R. cbn [Fnum Fexp]. rewrite plus_IZR. destruct sx, sy; cbn [cond_Zopp]; rewrite ?opp_IZR; try ring.
    all: change (IZR (Z.neg ?p)) with (- IZR (Z.pos p))%R; ring.
Qed.
Lemma fsub_rnd x y : dbl x -> dbl y -> fin x -> fin y -> is_rnd (fsub x y) (V x - V y).
Proof.
  intros Dx Dy Fx Fy.
  replace (fsub x y) with (fadd x (SFopp y)).
  - replace (V x - V y)%R with (V x + V (SFopp y))%R.
    + apply fadd_rnd; auto; unfold dbl, fin in *; destruct y as [s|s| |s m e]; auto.
    + unfold Rminus. f_equal. destruct y as [s|s| |s m e]; cbn [SFopp SF2R]; try (rewrite Ropp_0; reflexivity). rewrite !cond_F2R. destruct s; cbn [negb]; ring.
  - destruct x as [[]|[]| |sx m e]; destruct y as [[]|[]| |sy m' e']; try reflexivity; unfold fadd, fsub; cbn [SFadd SFsub SFopp].
    f_equal. destruct sy; cbn [negb SpecFloat.cond_Zopp]; unfold SpecFloat.cond_Zopp; destruct sx; lia.
Qed.
