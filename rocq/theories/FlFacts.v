(** * FlFacts: positive binary64 numbers and the real values they stand for. *)
From Coq Require Import ZArith List Bool SpecFloat Reals Lia Lra.
From Flocq Require Import Core.Core IEEE754.BinarySingleNaN.
From Flocq Require Import Relative.
From Verif Require Import Py PyFacts Num FloatN FloatText FileFacts2 MCint CintFacts2 MDouble.
Open Scope Z_scope.
#[local] Existing Instance FloatText.prec53.
#[local] Existing Instance FloatText.pe53.

Notation rnd := (round radix2 fx ZnearestE).
Notation V := (SF2R radix2).

Definition fpos (x : f64) : Prop := exists m e, x = S754_finite false m e /\ SpecFloat.bounded 53 1024 m e = true.

Lemma fpos_gt x : fpos x -> (0 < V x)%R.
Proof. intros (m & e & -> & _). cbn. apply F2R_gt_0. reflexivity. Qed.

Lemma fpos_fmt x : fpos x -> generic_format radix2 fx (V x).
Proof.
  intros (m & e & -> & Hb). cbn [SF2R]. change (cond_Zopp false (Z.pos m)) with (Z.pos m).
  apply generic_format_canonical. apply (canonical_bounded 53 1024 false m e Hb).
Qed.

(** Same value, same float. *)
Lemma fpos_inj x y : fpos x -> fpos y -> V x = V y -> x = y.
Proof.
  intros (m & e & -> & Hb) (m' & e' & -> & Hb') E. cbn [SF2R] in E.
  pose proof (canonical_bounded 53 1024 false m e Hb) as C1.
  pose proof (canonical_bounded 53 1024 false m' e' Hb') as C2.
  pose proof (canonical_unique _ _ _ _ C1 C2 E) as H. injection H; intros; subst. reflexivity.
Qed.

Lemma fpos_of z : SpecFloat.valid_binary 53 1024 z = true -> is_finite_SF z = true -> sign_SF z = false -> (0 < V z)%R -> fpos z.
Proof.
  destruct z as [s|s| |s m e]; cbn; intros Hv Hf Hs H; try discriminate; try lra.
  subst s. exists m, e. split; [reflexivity|exact Hv].
Qed.

Lemma rnd_ge_0 x : (0 <= x -> 0 <= rnd x)%R.
Proof. intros. apply round_ge_generic; auto with typeclass_instances. apply generic_format_0. Qed.

Lemma rnd_le x y : (x <= y -> rnd x <= rnd y)%R.
Proof. intros. apply round_le; auto with typeclass_instances. Qed.

Lemma rnd_fmt x : generic_format radix2 fx x -> rnd x = x.
Proof. intros. apply round_generic; auto with typeclass_instances. Qed.

Lemma rnd_ge x y : generic_format radix2 fx x -> (x <= y -> x <= rnd y)%R.
Proof. intros. apply round_ge_generic; auto with typeclass_instances. Qed.
Lemma rnd_le_g x y : generic_format radix2 fx y -> (x <= y -> rnd x <= y)%R.
Proof. intros. apply round_le_generic; auto with typeclass_instances. Qed.

Lemma fmt_bpow e : -1074 <= e -> generic_format radix2 fx (bpow radix2 e).
Proof. intros. apply generic_format_bpow. unfold FLT_exp. lia. Qed.
Lemma fmt_Z m e : Z.abs m < 2 ^ 53 -> -1074 <= e -> generic_format radix2 fx (IZR m * bpow radix2 e).
Proof.
  intros H1 H2. apply (generic_format_FLT radix2 (-1074) 53). exists (Float radix2 m e); cbn [Fnum Fexp]; auto.
Qed.
Lemma fmt_int m : Z.abs m < 2 ^ 53 -> generic_format radix2 fx (IZR m).
Proof. intros. replace (IZR m) with (IZR m * bpow radix2 0)%R by (cbn; ring). apply fmt_Z; lia. Qed.

Notation maxb := (bpow radix2 1024).

(** ** The operations *)
Lemma fmul_pos x y : fpos x -> fpos y -> (0 < rnd (V x * V y) < maxb)%R ->
  fpos (fmul x y) /\ V (fmul x y) = rnd (V x * V y).
Proof.
  intros (m & e & -> & Hb) (m' & e' & -> & Hb') [H1 H2].
  unfold fmul. cbn [SFmul]. rewrite round_aux_same.
  pose proof (Bmult_correct_aux 53 1024 _ _ mode_NE false m e Hb false m' e' Hb') as H. cbv zeta in H.
  destruct H as [Hv H]. cbn [SF2R] in H1, H2 |- *.
  change (xorb false false) with false in *.
  set (z := BinarySingleNaN.binary_round_aux 53 1024 mode_NE false (Z.pos (m * m')) (e + e') loc_Exact) in *.
  rewrite Rlt_bool_true in H by (rewrite Rabs_pos_eq; [exact H2|apply Rlt_le; exact H1]).
  destruct H as (E & Hf & Hs). split; [apply fpos_of; auto; rewrite E; exact H1|exact E].
Qed.

Lemma fmul_ovf x y : fpos x -> fpos y -> (maxb <= rnd (V x * V y))%R -> fmul x y = S754_infinity false.
Proof.
  intros (m & e & -> & Hb) (m' & e' & -> & Hb') H1.
  unfold fmul. cbn [SFmul]. rewrite round_aux_same.
  pose proof (Bmult_correct_aux 53 1024 _ _ mode_NE false m e Hb false m' e' Hb') as H. cbv zeta in H.
  destruct H as [Hv H]. cbn [SF2R] in H1.
  change (xorb false false) with false in *.
  rewrite Rlt_bool_false in H; [exact H|].
  eapply Rle_trans; [exact H1|apply Rle_abs].
Qed.

Lemma fdiv_pos x y : fpos x -> fpos y -> (0 < rnd (V x / V y) < maxb)%R ->
  fpos (fdiv x y) /\ V (fdiv x y) = rnd (V x / V y).
Proof.
  intros (m & e & -> & Hb) (m' & e' & -> & Hb') [H1 H2].
  unfold fdiv. cbn [SFdiv].
  pose proof (Bdiv_correct_aux 53 1024 _ _ mode_NE false m e false m' e') as H. cbv zeta in H.
  destruct (SFdiv_core_binary 53 1024 (Z.pos m) e (Z.pos m') e') as [[mz ez] lz].
  rewrite round_aux_same.
  destruct H as [Hv H]. cbn [SF2R] in H1, H2 |- *.
  change (xorb false false) with false in *.
  rewrite Rlt_bool_true in H by (rewrite Rabs_pos_eq; [exact H2|apply Rlt_le; exact H1]).
  destruct H as (E & Hf & Hs). split; [apply fpos_of; auto; rewrite E; exact H1|exact E].
Qed.

Lemma fsqrt_pos x : fpos x -> (0 < rnd (sqrt (V x)))%R ->
  fpos (fsqrt x) /\ V (fsqrt x) = rnd (sqrt (V x)).
Proof.
  intros (m & e & -> & Hb) H1.
  unfold fsqrt. cbn [SFsqrt].
  pose proof (Bsqrt_correct_aux 53 1024 _ _ mode_NE m e Hb) as H. cbv zeta in H.
  destruct (SFsqrt_core_binary 53 1024 (Z.pos m) e) as [[mz ez] lz].
  rewrite round_aux_same. cbn [SF2R] in H1 |- *. change (cond_Zopp false (Z.pos m)) with (Z.pos m) in *.
  destruct H as (Hv & E & Hf & Hs). split; [apply fpos_of; auto; rewrite E; exact H1|exact E].
Qed.

(** Integers *)
Lemma fofZ_pos p : 0 < p < 2 ^ 53 -> fpos (fofZ p) /\ V (fofZ p) = IZR p.
Proof.
  intros H. destruct p as [|p|p]; try lia. destruct (fofZ_exact p ltac:(lia)) as (m & e & -> & Hb & E).
  split; [exists m, e; auto|]. cbn [SF2R]. exact E.
Qed.

Lemma normalize_pos mx ex : 0 < mx -> (0 < rnd (F2R (Float radix2 mx ex)) < maxb)%R ->
  fpos (SpecFloat.binary_normalize 53 1024 mx ex false) /\ V (SpecFloat.binary_normalize 53 1024 mx ex false) = rnd (F2R (Float radix2 mx ex)).
Proof.
  intros Hm [H1 H2]. destruct mx as [|p|p]; try lia. unfold SpecFloat.binary_normalize. rewrite round_same.
  destruct (binary_round_correct 53 1024 _ _ mode_NE false p ex) as [Hv H]. cbv zeta in H.
  change (SpecFloat.cond_Zopp false (Z.pos p)) with (Z.pos p) in H.
  rewrite Rlt_bool_true in H by (rewrite Rabs_pos_eq; [exact H2|apply Rlt_le; exact H1]).
  destruct H as (E & Hf & Hs). split; [apply fpos_of; auto; rewrite E; exact H1|exact E].
Qed.

Lemma shl_align_F2R m e ez m' e' : shl_align m e ez = (m', e') -> F2R (Float radix2 (Zpos m') e') = F2R (Float radix2 (Zpos m) e) /\ e' <= ez /\ (ez <= e -> e' = ez) /\ (e <= ez -> e' = e).
Proof.
  intros H. unfold shl_align in H. destruct (ez - e) eqn:D.
  - injection H; intros; subst. repeat split; auto; lia.
  - injection H; intros; subst. repeat split; auto; lia.
  - injection H; intros; subst. repeat split; auto; try lia.
    rewrite shift_pos_correct. unfold F2R. cbn [Fnum Fexp]. rewrite Z.mul_comm, mult_IZR.
    replace e with (e' + Zpos p) by lia. rewrite bpow_plus. rewrite (Rmult_comm (bpow radix2 e')).
    rewrite <- Rmult_assoc. f_equal.
Qed.

Lemma align_sum m1 e1 m2 e2 : let ez := Z.min e1 e2 in
  F2R (Float radix2 (Zpos (fst (shl_align m1 e1 ez))) ez) = F2R (Float radix2 (Zpos m1) e1) /\
  F2R (Float radix2 (Zpos (fst (shl_align m2 e2 ez))) ez) = F2R (Float radix2 (Zpos m2) e2).
Proof.
  intros ez. split.
  - destruct (shl_align m1 e1 ez) as [m e] eqn:E. destruct (shl_align_F2R _ _ _ _ _ E) as (H & _ & H2 & _).
    rewrite H2 in H by lia. exact H.
  - destruct (shl_align m2 e2 ez) as [m e] eqn:E. destruct (shl_align_F2R _ _ _ _ _ E) as (H & _ & H2 & _).
    rewrite H2 in H by lia. exact H.
Qed.

Lemma fadd_pos x y : fpos x -> fpos y -> (rnd (V x + V y) < maxb)%R ->
  fpos (fadd x y) /\ V (fadd x y) = rnd (V x + V y).
Proof.
  intros Px Py H2. pose proof (fpos_gt _ Px) as Gx. pose proof (fpos_gt _ Py) as Gy.
  assert (H1 : (0 < rnd (V x + V y))%R).
  { apply Rlt_le_trans with (V x); auto. apply rnd_ge; [apply fpos_fmt; auto|lra]. }
  destruct Px as (m & e & -> & Hb). destruct Py as (m' & e' & -> & Hb').
  unfold fadd. cbn [SFadd]. cbn [SF2R] in *. change (cond_Zopp false (Z.pos m)) with (Z.pos m) in *.
  change (cond_Zopp false (Z.pos m')) with (Z.pos m') in *. cbn [SpecFloat.cond_Zopp].
  destruct (align_sum m e m' e') as [A1 A2]. cbv zeta in A1, A2.
  set (ez := Z.min e e') in *.
  set (a := fst (shl_align m e ez)) in *. set (b := fst (shl_align m' e' ez)) in *.
  assert (E : F2R (Float radix2 (Z.pos a + Z.pos b) ez) = (F2R (Float radix2 (Z.pos m) e) + F2R (Float radix2 (Z.pos m') e'))%R).
  { rewrite <- A1, <- A2. unfold F2R. cbn [Fnum Fexp]. rewrite plus_IZR. ring. }
  rewrite <- E in *. apply normalize_pos; [lia|split; auto].
Qed.

Lemma fsub_pos x y : fpos x -> fpos y -> (V y < V x)%R -> (0 < rnd (V x - V y) < maxb)%R ->
  fpos (fsub x y) /\ V (fsub x y) = rnd (V x - V y).
Proof.
  intros Px Py Hl H2.
  destruct Px as (m & e & -> & Hb). destruct Py as (m' & e' & -> & Hb').
  unfold fsub. cbn [SFsub]. cbn [SF2R] in *. change (cond_Zopp false (Z.pos m)) with (Z.pos m) in *.
  change (cond_Zopp false (Z.pos m')) with (Z.pos m') in *. cbn [SpecFloat.cond_Zopp].
  destruct (align_sum m e m' e') as [A1 A2]. cbv zeta in A1, A2.
  set (ez := Z.min e e') in *.
  set (a := fst (shl_align m e ez)) in *. set (b := fst (shl_align m' e' ez)) in *.
  assert (E : F2R (Float radix2 (Z.pos a - Z.pos b) ez) = (F2R (Float radix2 (Z.pos m) e) - F2R (Float radix2 (Z.pos m') e'))%R).
  { rewrite <- A1, <- A2. unfold F2R. cbn [Fnum Fexp]. rewrite minus_IZR. ring. }
  rewrite <- E in *. apply normalize_pos; [|exact H2].
  assert (H : (0 < F2R (Float radix2 (Z.pos a - Z.pos b) ez))%R) by (rewrite E; lra).
  apply gt_0_F2R in H. exact H.
Qed.

(** Exact integer arithmetic below 2^53 *)
Lemma maxb_int z : Z.abs z < 2 ^ 53 -> (IZR z < maxb)%R.
Proof.
  intros H. apply Rlt_trans with (bpow radix2 53); [|apply bpow_lt; lia].
  change (bpow radix2 53) with (IZR (2 ^ 53)). apply IZR_lt. lia.
Qed.

Lemma fadd_int a b : 0 < a -> 0 < b -> a + b < 2 ^ 53 -> fadd (fofZ a) (fofZ b) = fofZ (a + b).
Proof.
  intros Ha Hb H. destruct (fofZ_pos a ltac:(lia)) as [P1 E1]. destruct (fofZ_pos b ltac:(lia)) as [P2 E2].
  destruct (fofZ_pos (a + b) ltac:(lia)) as [P3 E3].
  assert (E : rnd (V (fofZ a) + V (fofZ b)) = IZR (a + b)).
  { rewrite E1, E2, <- plus_IZR. apply rnd_fmt. apply fmt_int. lia. }
  destruct (fadd_pos _ _ P1 P2) as [P4 E4]; [rewrite E; apply maxb_int; lia|].
  apply fpos_inj; auto. rewrite E4, E3. exact E.
Qed.

Lemma fmul_int a b : 0 < a -> 0 < b -> a * b < 2 ^ 53 -> fmul (fofZ a) (fofZ b) = fofZ (a * b).
Proof.
  intros Ha Hb H. assert (a <= a * b) by nia. assert (b <= a * b) by nia.
  destruct (fofZ_pos a ltac:(lia)) as [P1 E1]. destruct (fofZ_pos b ltac:(lia)) as [P2 E2].
  destruct (fofZ_pos (a * b) ltac:(lia)) as [P3 E3].
  assert (E : rnd (V (fofZ a) * V (fofZ b)) = IZR (a * b)).
  { rewrite E1, E2, <- mult_IZR. apply rnd_fmt. apply fmt_int. lia. }
  destruct (fmul_pos _ _ P1 P2) as [P4 E4]; [rewrite E; split; [apply IZR_lt; lia|apply maxb_int; lia]|].
  apply fpos_inj; auto. rewrite E4, E3. exact E.
Qed.

Lemma fsub_int a b : 0 < b -> b < a -> a < 2 ^ 53 -> fsub (fofZ a) (fofZ b) = fofZ (a - b).
Proof.
  intros Ha Hb H.
  destruct (fofZ_pos a ltac:(lia)) as [P1 E1]. destruct (fofZ_pos b ltac:(lia)) as [P2 E2].
  destruct (fofZ_pos (a - b) ltac:(lia)) as [P3 E3].
  assert (E : rnd (V (fofZ a) - V (fofZ b)) = IZR (a - b)).
  { rewrite E1, E2, <- minus_IZR. apply rnd_fmt. apply fmt_int. lia. }
  destruct (fsub_pos _ _ P1 P2) as [P4 E4]; [rewrite E1, E2; apply IZR_lt; lia|rewrite E; split; [apply IZR_lt; lia|apply maxb_int; lia]|].
  apply fpos_inj; auto. rewrite E4, E3. exact E.
Qed.

Lemma fsub_self x : fpos x -> fsub x x = S754_zero false.
Proof.
  intros (m & e & -> & _). unfold fsub. cbn [SFsub]. rewrite Z.min_id, shl_align_id. cbn [fst SpecFloat.cond_Zopp].
  rewrite Z.sub_diag. reflexivity.
Qed.

Lemma fmul_comm x y : fmul x y = fmul y x.
Proof.
  destruct x as [[]|[]| |[] m e]; destruct y as [[]|[]| |[] m' e']; unfold fmul; cbn [SFmul xorb]; try reflexivity;
    rewrite Pos.mul_comm, Z.add_comm; reflexivity.
Qed.

Lemma fmul_one x : fpos x -> fmul (fofZ 1) x = x.
Proof.
  intros P. destruct (fofZ_pos 1 ltac:(lia)) as [P1 E1]. pose proof (fpos_gt _ P) as G.
  assert (E : rnd (V (fofZ 1) * V x) = V x) by (rewrite E1, Rmult_1_l; apply rnd_fmt, fpos_fmt; auto).
  assert (M : (V x < maxb)%R).
  { destruct P as (m & e & -> & Hb). cbn [SF2R]. apply (bounded_lt_emax 53 1024 m e Hb). }
  destruct (fmul_pos _ _ P1 P) as [P4 E4]; [rewrite E; split; auto|].
  apply fpos_inj; auto. rewrite E4. exact E.
Qed.

Lemma fpos_max x : fpos x -> (V x < maxb)%R.
Proof. intros (m & e & -> & Hb). cbn [SF2R]. apply (bounded_lt_emax 53 1024 m e Hb). Qed.
