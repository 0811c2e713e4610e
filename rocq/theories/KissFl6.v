(** * KissFl6: kiss_fft in double precision, error relative to the sum of the moduli of the data. *)
From Coq Require Import ZArith List Bool SpecFloat Reals Lia Lra Psatz Permutation Znumtheory.
From Coquelicot Require Import Complex.
From Flocq Require Import Core.Core IEEE754.BinarySingleNaN.
From Verif Require Import Py PyFacts Num FloatN FloatText Exact MCoefs Sums MPysphi Dft MKiss KissFacts KissFacts2 MDouble FlFacts SeedReal SeedFl SeedFl2 DoubleFacts FlSigned SbesselFTerm SbesselFRel SbesselFFun TabFl SumFl SumFl2 SumFl3 MKissF KissFl KissFl2 KissFl3 KissFl4 KissFl5.
Import ListNotations.
Open Scope list_scope.
Open Scope Z_scope.

Lemma wcost1_le P l : forall n, good_factors n l -> (forall r, In r l -> (IZR (fst r) <= P)%R) -> (0 <= P)%R -> (wcost1 l <= 2 * (P * (32 + P)) * IZR (zlen l))%R.
Proof.
  induction l as [|(p & m) l IH]; intros n G H HP; [destruct G|]. destruct G as (_ & Hp & _ & G). apply IZR_le in Hp. cbn [wcost1].
  replace (zlen ((p, m) :: l)) with (1 + zlen l) by (unfold zlen; cbn [length]; lia). rewrite plus_IZR.
  pose proof (H (p, m) (or_introl eq_refl)) as HpP. cbn in HpP.
  assert (0 <= IZR (zlen l))%R by (apply IZR_le; unfold zlen; lia). assert (Q0 : (0 <= P * (32 + P))%R) by (apply Rmult_le_pos; lra).
  assert (0 <= 2 * (P * (32 + P)) * IZR (zlen l))%R by (apply Rmult_le_pos; lra). assert (IZR p * (32 + IZR p) <= P * (32 + P))%R by (apply Rmult_le_compat; lra).
  destruct (Z.eqb_spec m 1) as [->|Hm]; [lra|]. destruct G as [G|G]; [lia|]. specialize (IH m G (fun r h => H r (or_intror h)) HP). lra.
Qed.

(** the sum of the moduli of the data, each increased by 2^-900 *)
Definition l1 (x : list cf) (stride n : Z) : R := sumR 0 n (fun j => Cmod (VC (vgf x (j * stride)%Z)) + tt)%R.
Section Fft.
Variables (delta : R) (cosf sinf : f64 -> f64) (n P : Z) (inv : bool) (st : kcfgf).
Hypothesis HT : trig_ok delta cosf sinf.
Hypothesis Hd : (0 <= delta <= / 2 ^ 44)%R.
Hypothesis Hn : 1 <= n <= 2 ^ 20.
Hypothesis HP : 4 <= P.
Hypothesis Hpr : forall p, prime p -> (p | n) -> p <= P.
Hypothesis Est : ff_alloc cosf sinf n inv = Ok st.
Definition fft_tol1 : R := (2 * (IZR P * (32 + IZR P)) * (IZR (Z.log2 n) + 1) * keps delta)%R.
Hypothesis Htol : (fft_tol1 <= 1)%R.

Lemma ff_run1 junk stride fin fout : 1 <= stride -> (n - 1) * stride < zlen fin -> n <= zlen fout ->
  (forall j, 0 <= j < n -> finc (vgf fin (j * stride))) -> (400 * IZR n * l1 fin stride n <= BIG)%R ->
  exists out, ff_work junk st fin stride (kf_factors st) fout 0 0 1 = Ok out /\ zlen out = zlen fout /\
    (forall k, 0 <= k < n -> near (fft_tol1 * l1 fin stride n) (vgf out k) (sumC 0 n (fun j => VC (vgf fin (j * stride)) * root n (dir inv * (j * k)))%C)) /\
    (forall k, n <= k -> vgf out k = vgf fout k).
Proof.
  intros Hs Hf Ho Hin bg. destruct (ff_alloc_ok cosf sinf delta n inv HT Hn) as (st' & E & En & Ef & Hc & Hg & L). rewrite Est in E. injection E as <-.
  assert (U : (0 < uu <= / 10 ^ 15)%R) by exact uu_small.
  assert (e1 : (uu <= keps delta)%R) by (unfold keps; lra).
  assert (e2 : (keps delta <= / 2 ^ 42)%R). { unfold keps. rewrite uu_val. lra. }
  assert (n1 : (1 <= IZR n)%R) by (apply IZR_le; lia). assert (n2 : (IZR n <= 1048576)%R) by (apply IZR_le; lia).
  assert (e3 : (keps delta <= / 1000)%R) by lra.
  assert (cgb : (cg (kf_nfft st) * keps delta <= / 2)%R).
  { rewrite En. unfold cg. assert (0 <= IZR n * IZR n)%R by (apply Rmult_le_pos; lra). assert (IZR n * IZR n <= 1048576 * 1048576)%R by (apply Rmult_le_compat; lra).
    apply Rle_trans with ((12 * 1048576 + 1048576 * 1048576) * / 2 ^ 42)%R; [apply Rmult_le_compat; lra|lra]. }
  assert (lg : 0 <= Z.log2 n <= 20). { split; [apply Z.log2_nonneg|]. assert (Z.log2 n < 21) by (apply Z.log2_lt_pow2; lia). lia. }
  assert (lr : (0 <= IZR (Z.log2 n) <= 20)%R) by (split; apply IZR_le; lia).
  assert (ll : (IZR (zlen (kf_factors st)) <= IZR (Z.log2 n) + 1)%R) by (rewrite <- plus_IZR; apply IZR_le; lia).
  assert (w1 : (wcost1 (kf_factors st) * keps delta <= fft_tol1)%R).
  { assert (4 <= IZR P)%R by (apply IZR_le; auto). unfold fft_tol1. apply Rmult_le_compat_r; [lra|]. eapply Rle_trans; [apply (wcost1_le (IZR P) _ n Hg)|].
    - intros r Hr. apply IZR_le. apply (radix_le n (kf_factors st) P); auto; lia.
    - lra.
    - apply Rmult_le_compat_l; [|lra]. assert (0 <= IZR P * (32 + IZR P))%R by (apply Rmult_le_pos; lra). lra. }
  assert (NE : nsum fin stride 0 1 n = l1 fin stride n). { unfold nsum, l1. apply sumR_ext. intros j _. do 4 f_equal. ring. }
  assert (NP : (0 <= l1 fin stride n)%R). { apply sumR_nonneg. intros j _. pose proof (Cmod_ge_0 (VC (vgf fin (j * stride)))). pose proof (bpow_gt_0 radix2 (-900)). lra. }
  destruct (ff_work1_ok st (dir inv) (keps delta) Hc e1 e3 cgb junk fin stride (kf_factors st) n fout 0 0 1) as (out & Eo & L1 & L2 & L3); auto; try lia; try lra; try (rewrite NE, En; exact bg).
  { intros j Hj. replace (0 + j * (1 * stride)) with (j * stride) by ring. split; [nia|auto]. }
  exists out. split; auto. split; auto. split.
  - intros k Hk. destruct (L2 k Hk) as (Fk & Ek). split; [exact Fk|]. cbn [Z.add] in Ek. unfold gsum in Ek.
    match goal with |- (Cmod (?a - ?S)%C <= _)%R => match type of Ek with (Cmod (?b - ?T)%C <= _)%R => assert (ES : T = S) end end.
    { apply sumC_ext. intros j Hj. unfold W. rewrite En. replace (0 + j * (1 * stride)) with (j * stride) by ring. f_equal. f_equal. ring. }
    rewrite ES in Ek. replace (0 + k) with k in Ek by ring. eapply Rle_trans; [exact Ek|]. rewrite NE. apply Rmult_le_compat_r; [exact NP|exact w1].
  - intros k Hk. apply L3. lia.
Qed.
Lemma ff_stride1_ok junk stride fin fout : 1 <= stride -> (n - 1) * stride < zlen fin -> n <= zlen fout ->
  (forall j, 0 <= j < n -> finc (vgf fin (j * stride))) -> (400 * IZR n * l1 fin stride n <= BIG)%R ->
  exists out, ff_fft_stride junk st fin fout stride = Ok out /\ zlen out = zlen fout /\
    (forall k, 0 <= k < n -> near (fft_tol1 * l1 fin stride n) (vgf out k) (sumC 0 n (fun j => VC (vgf fin (j * stride)) * root n (dir inv * (j * k)))%C)) /\
    (forall k, n <= k -> vgf out k = vgf fout k).
Proof. apply ff_run1. Qed.
Lemma ff_inplace1_ok junk buf : n <= zlen buf ->
  (forall j, 0 <= j < n -> finc (vgf buf j)) -> (400 * IZR n * l1 buf 1 n <= BIG)%R ->
  exists out, ff_fft_inplace junk st buf = Ok out /\ zlen out = zlen buf /\
    (forall k, 0 <= k < n -> near (fft_tol1 * l1 buf 1 n) (vgf out k) (sumC 0 n (fun j => VC (vgf buf j) * root n (dir inv * (j * k)))%C)) /\
    (forall k, n <= k -> vgf out k = vgf buf k).
Proof.
  intros Hl Hin bg. destruct (ff_alloc_ok cosf sinf delta n inv HT Hn) as (st' & E & En & _). rewrite Est in E. injection E as <-.
  unfold ff_fft_inplace. rewrite En.
  destruct (ff_run1 junk 1 buf (vmake n junk)) as (tmp & -> & L1 & L2 & L3); [lia|lia|rewrite zlen_vmake; lia| |exact bg|].
  { intros j Hj. rewrite Z.mul_1_r. auto. }
  cbn [bind]. rewrite zlen_vmake in L1. unfold ff_memcpy.
  destruct (Z.leb_spec n (zlen tmp)); [|lia]. destruct (Z.leb_spec n (zlen buf)); [|lia]. cbn [andb].
  eexists; split; [reflexivity|]. split; [rewrite zlen_vmake; lia|]. split.
  - intros k Hk. rewrite vget_vmake by lia. destruct (Z.ltb_spec k n); [|lia]. destruct (L2 k Hk) as (F & E2). split; [exact F|].
    match type of E2 with (Cmod (?b - ?T)%C <= _)%R => match goal with |- (Cmod (_ - ?S)%C <= _)%R => assert (ES : T = S) by (apply sumC_ext; intros; now rewrite Z.mul_1_r) end end.
    now rewrite <- ES.
  - intros k Hk. destruct (Z_lt_dec k (zlen buf)).
    + rewrite vget_vmake by lia. destruct (Z.ltb_spec k n); [lia|reflexivity].
    + rewrite !vget_out; auto; rewrite ?zlen_vmake; lia.
Qed.
End Fft.
