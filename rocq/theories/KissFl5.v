(** * KissFl5: kf_work in double precision, error relative to the sum of the moduli of the data. *)
From Coq Require Import ZArith List Bool SpecFloat Reals Lia Lra Psatz Permutation.
From Coquelicot Require Import Complex.
From Flocq Require Import Core.Core IEEE754.BinarySingleNaN.
From Verif Require Import Py PyFacts Num FloatN FloatText Exact MCoefs Sums MPysphi Dft MKiss KissFacts KissFacts2 MDouble FlFacts SeedReal SeedFl SeedFl2 DoubleFacts FlSigned SbesselFTerm SbesselFRel SbesselFFun TabFl SumFl SumFl2 SumFl3 MKissF KissFl KissFl2 KissFl3 KissFl4.
Import ListNotations.
Open Scope list_scope.
Open Scope Z_scope.

Lemma sumR_le lo hi f g : (forall k, lo <= k < hi -> (f k <= g k)%R) -> (sumR lo hi f <= sumR lo hi g)%R.
Proof.
  intros H. destruct (Z_le_dec lo hi) as [L|L]; [|rewrite !sumR_nil by lia; lra].
  assert (P : forall k, 0 <= k -> lo + k <= hi -> (sumR lo (lo + k) f <= sumR lo (lo + k) g)%R).
  { apply (natlike_ind (fun k => lo + k <= hi -> (sumR lo (lo + k) f <= sumR lo (lo + k) g)%R)).
    - intros _. rewrite !sumR_nil by lia. lra.
    - intros k Hk IH Hh. unfold Z.succ in *. rewrite Z.add_assoc, !sumR_snoc by lia. specialize (H (lo + k) ltac:(lia)). specialize (IH ltac:(lia)). lra. }
  replace hi with (lo + (hi - lo)) by lia. apply P; lia.
Qed.
Lemma sumR_const lo hi c : lo <= hi -> sumR lo hi (fun _ => c) = (IZR (hi - lo) * c)%R.
Proof.
  intros L. assert (P : forall k, 0 <= k -> sumR lo (lo + k) (fun _ => c) = (IZR k * c)%R).
  { apply natlike_ind; [rewrite sumR_nil by lia; lra|]. intros k Hk IH. unfold Z.succ. rewrite Z.add_assoc, sumR_snoc, IH, plus_IZR by lia. ring. }
  replace hi with (lo + (hi - lo)) at 1 by lia. apply P. lia.
Qed.
Lemma sumR_nonneg lo hi f : (forall k, lo <= k < hi -> (0 <= f k)%R) -> (0 <= sumR lo hi f)%R.
Proof. intros H. rewrite <- (sumR_zero lo hi (fun _ => 0%R)) by auto. apply sumR_le. auto. Qed.
Lemma Cmod_sumC1 lo hi f : (Cmod (sumC lo hi f) <= sumR lo hi (fun k => Cmod (f k)))%R.
Proof.
  destruct (Z_le_dec lo hi) as [L|L]; [|rewrite sumC_nil, sumR_nil, Cmod_0 by lia; lra].
  assert (P : forall k, 0 <= k -> (Cmod (sumC lo (lo + k) f) <= sumR lo (lo + k) (fun k => Cmod (f k)))%R).
  { apply natlike_ind.
    - rewrite sumC_nil, sumR_nil, Cmod_0 by lia. lra.
    - intros k Hk IH. unfold Z.succ. rewrite Z.add_assoc, sumC_snoc, sumR_snoc by lia. eapply Rle_trans; [apply Cmod_triangle|]. lra. }
  replace hi with (lo + (hi - lo)) by lia. apply P. lia.
Qed.
Lemma sumR_radixf p m f : 0 <= p -> 0 <= m ->
  sumR 0 (p * m) f = sumR 0 p (fun q => sumR 0 m (fun j => f (q + j * p))).
Proof.
  intros Hp Hm. revert m Hm. apply natlike_ind.
  - rewrite Z.mul_0_r, (sumR_nil 0 0) by lia. symmetry. apply sumR_zero. intros; apply sumR_nil; lia.
  - intros m Hm IH. rewrite (sumR_split 0 (p * m)) by nia. rewrite IH.
    transitivity (sumR 0 p (fun q => sumR 0 m (fun j => f (q + j * p)%Z) + f (q + m * p)%Z)%R).
    + rewrite sumR_add. f_equal.
      replace (p * Z.succ m) with (p + m * p) by (unfold Z.succ; ring).
      replace (p * m) with (0 + m * p) at 1 by ring. apply sumR_shift.
    + apply sumR_ext. intros k Hk. unfold Z.succ. symmetry. apply (sumR_snoc 0 m (fun j => f (k + j * p)%Z)). lia.
Qed.

(** ** kf_work: every stage of radix p adds 2 p (32 + p) units of eps, relative to the
    sum of the moduli of the data (each increased by tt = 2^-900) *)
Notation tt := (bpow radix2 (-900)).
Fixpoint wcost1 (l : list (Z * Z)) : R :=
  match l with [] => 0 | (p, m) :: l => 2 * (IZR p * (32 + IZR p)) + (if m =? 1 then 0 else wcost1 l) end.
Lemma wcost1_pos n l : good_factors n l -> (0 <= wcost1 l)%R.
Proof.
  revert n. induction l as [|(p & m) l IH]; intros n G; [destruct G|]. destruct G as (_ & Hp & _ & G). apply IZR_le in Hp. cbn [wcost1].
  assert (0 <= IZR p * (32 + IZR p))%R by (apply Rmult_le_pos; lra). destruct (Z.eqb_spec m 1); [lra|]. destruct G as [G|G]; [lia|]. specialize (IH m G). lra.
Qed.
Definition nsum (fin : list cf) (is fi fs n : Z) : R := sumR 0 n (fun j => Cmod (VC (vgf fin (fi + j * (fs * is))%Z)) + tt)%R.
Section Work.
Variables (st : kcfgf) (sg : Z) (eps : R).
Hypothesis Hst : fcfg_ok st sg eps.
Hypothesis Hu : (uu <= eps)%R.
Hypothesis He : (eps <= / 1000)%R.
Notation nfft := (kf_nfft st).
Notation WW := (W nfft sg).
Let Hn : 0 < nfft := fo_pos st sg eps Hst.
Let e0 : (0 < eps)%R. Proof. pose proof uu_small. lra. Qed.
Hypothesis Hcg : (cg nfft * eps <= / 2)%R.
Notation gsum := (gsum st sg).

Lemma ff_work1_ok junk fin is : forall factors n out o fi fs,
  good_factors n factors -> fs * n = nfft -> 0 < fs -> 0 <= o -> o + n <= zlen out ->
  (forall j, 0 <= j < n -> 0 <= fi + j * (fs * is) < zlen fin /\ finc (vgf fin (fi + j * (fs * is)))) -> (wcost1 factors * eps <= 1)%R ->
  (400 * IZR nfft * nsum fin is fi fs n <= BIG)%R ->
  exists out', ff_work junk st fin is factors out o fi fs = Ok out' /\
    zlen out' = zlen out /\
    (forall k, 0 <= k < n -> near (wcost1 factors * eps * nsum fin is fi fs n) (vgf out' (o + k)) (gsum fin is fi fs n k)) /\
    (forall i, i < o \/ o + n <= i -> vgf out' i = vgf out i).
Proof.
  induction factors as [|(p & m) factors IH]; intros n out o fi fs Hg E Hf Ho Hl Hin HW Hbig; [destruct Hg|].
  pose proof Hg as Hg0. destruct Hg as (-> & Hp & Hm & Hg). cbn [ff_work].
  destruct (Z.ltb_spec p 1); [lia|]. destruct (Z.ltb_spec m 1); [lia|]. cbn [orb].
  set (wc := if m =? 1 then 0%R else wcost1 factors).
  assert (wc0 : (0 <= wc)%R) by (unfold wc; destruct (Z.eqb_spec m 1); [lra|]; destruct Hg as [|Hg]; [lia|]; exact (wcost1_pos m factors Hg)).
  assert (p1 : (1 <= IZR p)%R) by (apply IZR_le; lia). assert (m1 : (1 <= IZR m)%R) by (apply IZR_le; lia).
  assert (HW' : (wc * eps <= 1)%R). { cbn [wcost1] in HW. fold wc in HW. assert (0 <= (2 * (IZR p * (32 + IZR p))) * eps)%R by (apply Rmult_le_pos; [nra|lra]). lra. }
  assert (t0 : (0 < tt)%R) by apply bpow_gt_0.
  set (NS := fun i => nsum fin is (fi + i * (fs * is)) (fs * p) m). set (N1 := nsum fin is fi fs (p * m)) in *.
  assert (NS1 : N1 = sumR 0 p NS).
  { unfold N1, NS, nsum. rewrite sumR_radixf by lia. apply sumR_ext. intros q Hq. apply sumR_ext. intros j Hj. do 4 f_equal. ring. }
  assert (NSt : forall i, (tt <= NS i)%R).
  { intros i. unfold NS, nsum. apply Rle_trans with (sumR 0 m (fun _ => tt)).
    - rewrite sumR_const by lia. rewrite Z.sub_0_r. nra.
    - apply sumR_le. intros. pose proof (Cmod_ge_0 (VC (vgf fin (fi + i * (fs * is) + k * (fs * p * is))))). lra. }
  assert (NSle : forall i, 0 <= i < p -> (NS i <= N1)%R).
  { intros i Hi. rewrite NS1. apply Rle_trans with (sumR 0 p (fun k => if k =? i then NS i else 0%R)).
    - right. symmetry. rewrite (sumR_single 0 p i); [now rewrite Z.eqb_refl|exact Hi|]. intros k _ Hk. destruct (Z.eqb_spec k i); [lia|reflexivity].
    - apply sumR_le. intros k _. destruct (Z.eqb_spec k i) as [->|]; [lra|]. specialize (NSt k). lra. }
  assert (N1t : (tt <= N1)%R) by (eapply Rle_trans; [apply (NSt 0)|apply NSle; lia]).
  (* the sub-transforms *)
  assert (Sub : exists out1,
     (if m =? 1 then
        mfor (zrange 0 p) (fun i out => x <- fbget fin (fi + i * (fs * is)) ;; bset out (o + i) x) out
      else mfor (zrange 0 p) (fun i out => ff_work junk st fin is factors out (o + i * m) (fi + i * (fs * is)) (fs * p)) out)
     = Ok out1 /\ zlen out1 = zlen out /\
     (forall i u, 0 <= i < p -> 0 <= u < m -> near (wc * eps * NS i) (vgf out1 (cell o m u i))
        (sumC 0 m (fun j => VC (vgf fin (fi + (i + j * p) * (fs * is))%Z) * WW (fs * p * (j * u))%Z)%C)) /\
     (forall i, i < o \/ o + p * m <= i -> vgf out1 i = vgf out i)).
  { match goal with |- exists out1, (if m =? 1 then mfor _ ?f _ else mfor _ ?g _) = _ /\ _ =>
      pose (B := if m =? 1 then f else g);
      assert (Hstep : forall i b, 0 <= i < p -> zlen b = zlen out -> exists b', B i b = Ok b' /\ zlen b' = zlen out /\
        (forall u, 0 <= u < m -> near (wc * eps * NS i) (vgf b' (cell o m u i))
           (sumC 0 m (fun j => VC (vgf fin (fi + (i + j * p) * (fs * is))%Z) * WW (fs * p * (j * u))%Z)%C)) /\
        (forall k, k < o + i * m \/ o + i * m + m <= k -> vgf b' k = vgf b k));
      [|destruct (mfor_inv (fun k b => zlen b = zlen out /\
          (forall i u, 0 <= i < k -> 0 <= u < m -> near (wc * eps * NS i) (vgf b (cell o m u i))
             (sumC 0 m (fun j => VC (vgf fin (fi + (i + j * p) * (fs * is))%Z) * WW (fs * p * (j * u))%Z)%C)) /\
          (forall i, i < o \/ o + p * m <= i -> vgf b i = vgf out i)) 0 p B out) as (out1 & E1 & G1 & G2 & G3)] end.
    - intros i b Hi Hb. unfold B, wc. destruct (Z.eqb_spec m 1) as [->|Hm1].
      + destruct (Hin i ltac:(nia)) as [Hi1 Hi2].
        rewrite fbget_ok by exact Hi1; cbn [bind]. rewrite bset_ok by nia. eexists; split; [reflexivity|].
        rewrite zlen_vset. split; auto. split.
        * intros u Hu'. replace u with 0 by lia. unfold cell. replace (o + (i * 1 + 0)) with (o + i) by ring.
          rewrite vget_vset_eq by nia. rewrite (sumC_cons 0 1), sumC_nil by lia.
          replace (fs * p * (0 * 0)) with 0 by ring. rewrite W_0 by auto. replace (i + 0 * p) with i by ring.
          split; [exact Hi2|]. match goal with |- (Cmod ?z <= _)%R => replace z with (RtoC 0) by ring end. rewrite Cmod_0. lra.
        * intros k Hk. rewrite vget_vset_ne; auto. lia.
      + destruct (IH m b (o + i * m) (fi + i * (fs * is)) (fs * p)) as (b' & Eb & L1 & L2 & L3).
        * tauto.
        * rewrite <- E. ring.
        * nia.
        * nia.
        * nia.
        * intros j Hj. replace (fi + i * (fs * is) + j * (fs * p * is)) with (fi + (i + j * p) * (fs * is)) by ring.
          apply Hin. nia.
        * unfold wc in HW'. destruct (Z.eqb_spec m 1); [lia|exact HW'].
        * eapply Rle_trans; [|exact Hbig]. apply Rmult_le_compat_l; [apply IZR_lt in Hn; lra|]. exact (NSle i Hi).
        * exists b'. split; auto. split; [lia|]. split; auto.
          intros u Hu'. replace (cell o m u i) with (o + i * m + u) by (unfold cell; ring).
          destruct (L2 u Hu') as [F EE]. split; [exact F|]. eapply Rle_trans; [|exact EE]. right. do 2 f_equal. unfold gsum. apply sumC_ext. intros j Hj. do 3 f_equal. ring.
    - lia.
    - split; [reflexivity|]. split; auto. intros; lia.
    - intros i b Hi (G1 & G2 & G3). destruct (Hstep i b Hi G1) as (b' & Eb & K1 & K2 & K3).
      exists b'. split; auto. split; auto. split.
      + intros i' u Hi' Hu'. destruct (Z.eq_dec i' i) as [->|]; auto.
        rewrite K3. apply G2; lia. unfold cell. nia.
      + intros k Hk. rewrite K3. apply G3; auto. nia.
    - exists out1. split; [unfold B in E1; destruct (m =? 1); exact E1|]. split; [exact G1|]. split; [exact G2|exact G3]. }
  destruct Sub as (out1 & -> & L1 & L2 & L3). cbn [bind].
  (* sizes after the sub-transforms *)
  set (A2 := (2 * N1)%R).
  assert (GS : forall i u, 0 <= i < p -> 0 <= u < m ->
     (Cmod (sumC 0 m (fun j => VC (vgf fin (fi + (i + j * p) * (fs * is))%Z) * WW (fs * p * (j * u))%Z)%C) <= NS i)%R).
  { intros i u Hi Hu'. eapply Rle_trans; [apply Cmod_sumC1|]. apply sumR_le. intros j Hj. rewrite Cmod_mult, Cmod_W, Rmult_1_r.
    replace (fi + i * (fs * is) + j * (fs * p * is)) with (fi + (i + j * p) * (fs * is)) by ring. lra. }
  assert (SM : forall i, o <= i < o + p * m -> small A2 (vgf out1 i)).
  { intros i Hi. assert (EC : i = cell o m ((i - o) mod m) ((i - o) / m)) by (unfold cell; pose proof (Z.div_mod (i - o) m ltac:(lia)); lia).
    pose proof (Z.mod_pos_bound (i - o) m ltac:(lia)) as Hu'.
    assert (Hq : 0 <= (i - o) / m < p) by (split; [apply Z.div_pos; lia|apply Z.div_lt_upper_bound; lia]).
    destruct (L2 _ _ Hq Hu') as [F EE]. rewrite <- EC in F, EE. split; [exact F|].
    set (g := sumC 0 m _) in EE. replace (VC (vgf out1 i)) with ((VC (vgf out1 i) - g) + g)%C by ring. eapply Rle_trans; [apply Cmod_triangle|].
    pose proof (GS _ _ Hq Hu') as GG. fold g in GG. pose proof (NSle _ Hq) as Ln. pose proof (NSt ((i - o) / m)) as Lt. assert (wc * eps * NS ((i - o) / m)%Z <= 1 * NS ((i - o) / m)%Z)%R by (apply Rmult_le_compat_r; lra). unfold A2. lra. }
  assert (Nn : (IZR nfft = IZR fs * (IZR p * IZR m))%R) by (rewrite <- E, !mult_IZR; reflexivity).
  assert (f1 : (1 <= IZR fs)%R) by (apply IZR_le; lia).
  assert (PMN : (IZR p * IZR m <= IZR nfft)%R) by (rewrite Nn; assert (1 <= IZR p * IZR m)%R by nra; nra).
  assert (Hcp : (cg p * eps <= / 2)%R).
  { eapply Rle_trans; [|exact Hcg]. apply Rmult_le_compat_r; [lra|]. assert (IZR p <= IZR nfft)%R by nra. unfold cg. nra. }
  assert (HB2 : (100 * (IZR p + 1) * A2 <= BIG)%R).
  { eapply Rle_trans; [|exact Hbig]. unfold A2. assert (IZR p <= IZR nfft)%R by nra. replace (100 * (IZR p + 1) * (2 * N1))%R with ((200 * (IZR p + 1)) * N1)%R by ring.
    apply Rmult_le_compat_r; lra. }
  destruct (fbfly_ok st sg eps A2 Hst ltac:(unfold A2; lra) Hu He junk out1 o fs m p) as (out' & Eo & B1 & B2 & B3); auto; try lia.
  exists out'. split; auto. split; [lia|]. split.
  - intros k Hk. 
    assert (Hkq : k = k / m * m + k mod m) by (rewrite (Z.div_mod k m) at 1 by lia; ring).
    pose proof (Z.mod_pos_bound k m ltac:(lia)) as Hu'.
    assert (Hq : 0 <= k / m < p) by (split; [apply Z.div_pos; lia|apply Z.div_lt_upper_bound; lia]).
    set (q1 := k / m) in *. set (u := k mod m) in *.
    replace (o + k) with (cell o m u q1) by (unfold cell; lia).
    destruct (B2 q1 u Hq Hu') as [F EE]. split; [exact F|].
    assert (EG : gsum fin is fi fs (p * m) k = sumC 0 p (fun q => sumC 0 m (fun j => VC (vgf fin (fi + (q + j * p) * (fs * is))%Z) * WW (fs * p * (j * u))%Z)%C * WW (fs * (q * (q1 * m + u)))%Z)%C).
    { unfold gsum. rewrite sumC_radixf by lia. apply sumC_ext. intros q Hq'.
      rewrite sumC_mulr by auto. apply sumC_ext. intros j Hj.
      rewrite <- Cmult_assoc. f_equal. rewrite <- W_add by auto. rewrite Hkq.
      rewrite <- (W_period nfft sg Hn (fs * p * (j * u) + fs * (q * (q1 * m + u))) (j * q1)).
      f_equal. rewrite <- E. ring. }
    rewrite EG. set (S1 := sumC 0 p (fun q => VC (vgf out1 (cell o m u q)) * WW (fs * (q * (q1 * m + u))))%C) in *.
    match goal with |- (Cmod (?z - ?S2)%C <= _)%R => set (S3 := S2) in *; replace (z - S3)%C with ((z - S1) + (S1 - S3))%C by ring end.
    eapply Rle_trans; [apply Cmod_triangle|].
    assert (D : (Cmod (S1 - S3)%C <= wc * eps * N1)%R).
    { replace (S1 - S3)%C with (sumC 0 p (fun q => (VC (vgf out1 (cell o m u q)) - sumC 0 m (fun j => VC (vgf fin (fi + (q + j * p) * (fs * is))%Z) * WW (fs * p * (j * u))%Z)%C) * WW (fs * (q * (q1 * m + u)))%Z)%C).
      - eapply Rle_trans; [apply Cmod_sumC1|]. rewrite NS1, sumR_mul. apply sumR_le. intros q Hq'. rewrite Cmod_mult, Cmod_W, Rmult_1_r. apply (L2 q u); auto.
      - unfold S1, S3. replace (sumC 0 p (fun q => VC (vgf out1 (cell o m u q)) * WW (fs * (q * (q1 * m + u))))%C) with
          (sumC 0 p (fun q => (VC (vgf out1 (cell o m u q)) - sumC 0 m (fun j => VC (vgf fin (fi + (q + j * p) * (fs * is))%Z) * WW (fs * p * (j * u))%Z)%C) * WW (fs * (q * (q1 * m + u)))%Z
             + sumC 0 m (fun j => VC (vgf fin (fi + (q + j * p) * (fs * is))%Z) * WW (fs * p * (j * u))%Z)%C * WW (fs * (q * (q1 * m + u)))%Z)%C) by (apply sumC_ext; intros; ring).
        rewrite sumC_add. ring. }
    eapply Rle_trans; [apply Rplus_le_compat; [exact EE|exact D]|]. cbn [wcost1]. fold wc. unfold be, A2. fold N1. right. ring.
  - intros i Hi. rewrite B3, L3; auto.
Qed.
End Work.
