(** * P_CsphiF: C73, the C backend's spht in double precision, from the Fourier data on. *)
From Coq Require Import ZArith List Bool SpecFloat Reals Lia Lra Psatz Znumtheory.
From Coquelicot Require Import Coquelicot.
From Flocq Require Import Core.Core IEEE754.BinarySingleNaN.
From Verif Require Import Exact Py PyFacts Num FloatN FloatText MCoefs SpecCoefs CoefsFacts Sums Harm Smooth Dft MOps MPysphi PysphiFacts TransFacts TransFacts2 SpecHarm MKiss KissFacts KissFacts2 MCsphi CsphiFacts
  SpecDft MDouble FlFacts SeedReal SeedFl SeedFl2 DoubleFacts P_Double FlSigned SbesselFTerm SbesselFRel SbesselFFun TabFl P_Table SumFl SumFl2 SumFl3 P_Sums
  MKissF KissFl KissFl2 KissFl3 KissFl4 KissFl5 KissFl6 P_KissF MCsphiF HkmF HkmF2 HkmF3.
Import ListNotations.
Open Scope list_scope.
Open Scope Z_scope.

(** ** Specification ([value], [finite] as in P_Double; [double], [cvalue], [within],
    [sum_tol], [exact_tol] as in P_Sums; [trig_accurate] as in P_KissF) *)

(** the column of order m of the buffer fdata holds finite doubles, whose values are the
    column of order m of the array a (stored by rows) *)
Definition holds_column (fdata : list cf) (a : mat RN) (m : Z) : Prop :=
  forall i, 0 <= i < mt_nr RN a -> let z := vget cf0 fdata (i * mt_nc RN a + m mod mt_nc RN a) in
    double (fst z) /\ finite (fst z) /\ double (snd z) /\ finite (snd z) /\ cvalue z = cget a i (m mod mt_nc RN a).
(** the sum of the moduli of the column of order m *)
Definition col_total (a : mat RN) (m : Z) : R := sumR 0 (mt_nr RN a) (fun i => Cmod (cget a i (m mod mt_nc RN a))).

(** bits N: about log2 N.  [data_bound]: how large the numbers summed by the routine can
    be; [data_error]: how far off they can be, for columns of total modulus F of an array
    such that rows + nmax = N, with a math library that is accurate to delta *)
Definition bits (N : Z) : R := (IZR (Z.log2 N) + 2)%R.
Definition data_bound (N : Z) (F : R) : R := (26 * bits N * F)%R.
Definition data_error (delta : R) (N : Z) (F : R) : R := (22570 * bits N ^ 2 * (2 * delta + 40 / 2 ^ 53) * F)%R.

(** ** Proof *)
Lemma hcirc_ext MM Nmax Q f g k : (forall nu, - MM <= nu < MM -> f nu = g nu) -> hcirc MM Nmax Q f k = hcirc MM Nmax Q g k.
Proof.
  intros H. unfold hcirc. f_equal. apply sumC_ext. intros a Ha. destruct (Z.ltb_spec a (2 * MM)); [|reflexivity]. f_equal. apply H. lia.
Qed.
Lemma log2_double N Q : 1 <= N -> 1 <= Q < 2 * N -> Z.log2 Q <= Z.log2 N + 1.
Proof. intros HN HQ. rewrite <- Z.add_1_r || idtac. replace (Z.log2 N + 1) with (Z.log2 (2 * N)) by (rewrite Z.log2_double by lia; lia). apply Z.log2_le_mono. lia. Qed.

Theorem C73_spht_c_accurate : forall delta cosf sinf junk junkr junki fdata sc a half nmax mmax F,
  trig_accurate delta cosf sinf -> (0 <= delta <= / 2 ^ 44)%R ->
  0 <= mmax <= nmax -> nmax <= 1022 -> zlen sc = ncoef nmax mmax ->
  mt_nr RN a = 2 * half -> 1 <= half -> mmax < mt_nc RN a -> 2 * half + nmax <= 2 ^ 19 -> zlen fdata = 2 * half * mt_nc RN a ->
  (/ 2 ^ 800 <= F <= 2 ^ 880)%R ->
  (forall m, Z.abs m <= mmax -> holds_column fdata a m /\ (col_total a m <= F)%R /\ cget a half (m mod mt_nc RN a) = RtoC 0) ->
  exists c v, ff_fc_to_sc cosf sinf junk junkr junki fdata (2 * half) (mt_nc RN a) sc nmax mmax = Ok c /\ py_fc_to_sc a nmax mmax = Ok v /\ zlen c = zlen v /\
    forall n m, is_mode nmax mmax n m ->
      within (sum_tol n (data_bound (2 * half + nmax) F) 0 + exact_tol n (data_error delta (2 * half + nmax) F)) (vget cf0 c (pos nmax n m)) (vget (RtoC 0) v (pos nmax n m)).
Proof.
  intros delta cosf sinf junk junkr junki fdata sc a half nmax mmax F HT Hd HM HN Ls HL Hh Hc Hs Lf HF Hcol.
  apply trig_acc_ok in HT. set (N := 2 * half + nmax) in *. set (nc := mt_nc RN a) in *.
  destruct (FindQ_ok N) as (Q & EQ & (Q1 & (_ & Qp) & _) & Q2); [lia|].
  assert (Qpr : forall p, prime p -> (p | Q) -> p <= 5). { intros p Hp Hdv. destruct (Qp p Hp Hdv) as [<-|[<-|[<-|[]]]]; lia. }
  assert (HQ2 : Q <= 2 ^ 20) by (change (2 ^ 20) with (2 * 2 ^ 19); lia).
  destruct (ff_alloc_ok cosf sinf delta Q false HT ltac:(lia)) as (fw & Efw & _).
  destruct (ff_alloc_ok cosf sinf delta Q true HT ltac:(lia)) as (bw & Ebw & _).
  assert (HQ : 2 * half + nmax <= Q) by (unfold N in *; lia).
  destruct (ssF_ok delta cosf sinf half nmax Q fw HT Hd Hh ltac:(lia) HQ HQ2 Qpr Efw junk) as (S & ES & LS & NS).
  assert (HF1 : (bpow radix2 (-800) <= F <= bpow radix2 880)%R).
  { change (-800) with (- Z.of_nat 800). rewrite bpow_neg. change 880 with (Z.of_nat 880). rewrite bpow2_pow. exact HF. }
  assert (COL : forall m, Z.abs m <= mmax -> exists h, zlen h = nmax + 1 /\
    (forall hkm ff, zlen hkm = nmax + 1 -> zlen ff = Q -> exists ff', ff_hkm_fc junk fdata (2 * half) nc nmax m hkm (nmax + 1) S Q ff fw bw = Ok (h, ff') /\ zlen ff' = Q) /\
    (forall k, 0 <= k <= nmax -> hkm_part delta Q F (fst (hcirc half nmax Q (colf a m) k)) (26 * ((IZR (Z.log2 Q) + 1) * F)) (fst (vgf h k)) /\
                                 hkm_part delta Q F (snd (hcirc half nmax Q (colf a m) k)) (26 * ((IZR (Z.log2 Q) + 1) * F)) (snd (vgf h k)))).
  { intros m Hm. destruct (Hcol m Hm) as (HC & HT1 & _).
    assert (Hm2 : - nc <= m < nc) by lia.
    destruct (ff_hkm_ok delta cosf sinf half nmax Q fw bw HT Hd Hh ltac:(lia) HQ HQ2 Qpr Efw Ebw fdata nc m F junk S) as (h & L1 & L2 & L3); auto.
    - intros i Hi. destruct (HC i ltac:(lia)) as (D1 & F1 & D2 & F2 & _). split; split; auto using finite_fin.
    - eapply Rle_trans; [|exact HT1]. right. unfold col_total. rewrite HL. apply sumR_ext. intros i Hi. f_equal. destruct (HC i ltac:(lia)) as (_ & _ & _ & _ & E). exact E.
    - exists h. split; [exact L1|]. split; [exact L2|]. intros k Hk. specialize (L3 k Hk).
      rewrite (hcirc_ext half nmax Q _ (colf a m) k) in L3; [exact L3|].
      intros nu Hnu. unfold fcol, colf. rewrite HL. pose proof (Z.mod_pos_bound nu (2 * half) ltac:(lia)) as B. destruct (HC (nu mod (2 * half)) ltac:(lia)) as (_ & _ & _ & _ & E). exact E. }
  set (hk := fun m => match ff_hkm_fc junk fdata (2 * half) nc nmax m (vmake (nmax + 1) junk) (nmax + 1) S Q (vmake Q junk) fw bw with Ok (h, _) => h | Raise _ => [] end).
  assert (HK : forall m, Z.abs m <= mmax -> zlen (hk m) = nmax + 1 /\
    (forall hkm ff, zlen hkm = nmax + 1 -> zlen ff = Q -> exists ff', ff_hkm_fc junk fdata (2 * half) nc nmax m hkm (nmax + 1) S Q ff fw bw = Ok (hk m, ff') /\ zlen ff' = Q) /\
    (forall k, 0 <= k <= nmax -> hkm_part delta Q F (fst (hcirc half nmax Q (colf a m) k)) (26 * ((IZR (Z.log2 Q) + 1) * F)) (fst (vgf (hk m) k)) /\
                                 hkm_part delta Q F (snd (hcirc half nmax Q (colf a m) k)) (26 * ((IZR (Z.log2 Q) + 1) * F)) (snd (vgf (hk m) k)))).
  { intros m Hm. destruct (COL m Hm) as (h & L1 & L2 & L3).
    assert (E : hk m = h). { unfold hk. destruct (L2 (vmake (nmax + 1) junk) (vmake Q junk)) as (ff' & -> & _); [apply zlen_vmake'; lia|apply zlen_vmake'; lia|reflexivity]. }
    rewrite E. auto. }
  assert (F0 : (0 < F)%R) by (pose proof (bpow_gt_0 radix2 (-800)); lra).
  assert (LB : (1 <= IZR (Z.log2 Q) + 1 <= bits N)%R).
  { pose proof (log2_double N Q ltac:(lia) ltac:(lia)) as G. apply IZR_le in G. rewrite plus_IZR in G. pose proof (Z.log2_nonneg Q) as G0. apply IZR_le in G0. unfold bits. lra. }
  assert (K0 : (0 <= keps delta)%R) by (unfold keps; pose proof uu_small; lra).
  assert (EB : (26 * ((IZR (Z.log2 Q) + 1) * F) <= data_bound N F)%R).
  { unfold data_bound. rewrite (Rmult_assoc 26). apply Rmult_le_compat_l; [lra|]. apply Rmult_le_compat_r; lra. }
  assert (EE : (hkm_err delta Q F <= data_error delta N F)%R).
  { unfold hkm_err, data_error. rewrite tau_eq. assert (Ek : keps delta = (2 * delta + 40 / 2 ^ 53)%R) by (unfold keps; rewrite uu_val; lra). rewrite <- Ek.
    set (l := (IZR (Z.log2 Q) + 1)%R) in *. replace (61 * (370 * l * keps delta * l * F))%R with (22570 * l ^ 2 * keps delta * F)%R by ring.
    apply Rmult_le_compat_r; [lra|]. apply Rmult_le_compat_r; [exact K0|]. apply Rmult_le_compat_l; [lra|]. apply pow_incr. lra. }
  destruct (C69_spht_vs_exact_c hk junkr junki sc a half nmax mmax (data_bound N F) (data_error delta N F) HM HN Ls HL Hh Hc) as (c & v & Ec & Ev & Lcv & A).
  - intros m Hm. apply Hcol, Hm.
  - split; [apply Rle_trans with (26 * ((IZR (Z.log2 Q) + 1) * F))%R; [apply Rmult_le_pos; [lra|apply Rmult_le_pos; lra]|exact EB]|].
    assert (bits N <= 21)%R. { unfold bits. assert (Z.log2 N < 20) by (apply Z.log2_lt_pow2; [lia|change (2 ^ 20) with (2 * 2 ^ 19); lia]). assert (IZR (Z.log2 N) <= 19)%R by (apply IZR_le; lia). lra. }
    unfold data_bound. apply Rle_trans with (2 ^ 120 * 2 ^ 880)%R; [|rewrite <- pow_add; right; reflexivity].
    apply Rmult_le_compat; [lra|lra| |lra]. apply Rle_trans with (2 ^ 10)%R; [lra|apply Rle_pow; [lra|lia]].
  - intros m Hm. destruct (HK m Hm) as (L1 & _ & L3). split; [exact L1|].
    destruct (Hcol m Hm) as (_ & _ & Hz).
    assert (Hz2 : colf a m half = RtoC 0) by (unfold colf; rewrite HL, Z.mod_small by lia; exact Hz).
    exists (vmake (nmax + 1) (hconv half (colf a m))). split; [apply exact_h_eq; auto; fold nc; lia|].
    intros k Hk. rewrite vget_vmake by lia. destruct (L3 k ltac:(lia)) as ((D1 & F1 & E1 & B1) & (D2 & F2 & E2 & B2)).
    rewrite hcirc_hconv in E1, E2; try lia.
    2,3: unfold colf in *; rewrite HL in *; rewrite <- Hz2; f_equal; rewrite <- (Z_mod_plus_full (- half) 1 (2 * half)); f_equal; lia.
    split.
    + split; [exact D1|]. split; [apply fin_finite, F1|]. split; [eapply Rle_trans; [exact B1|exact EB]|]. split; [exact D2|]. split; [apply fin_finite, F2|]. eapply Rle_trans; [exact B2|exact EB].
    + split; [exact D1|]. split; [apply fin_finite, F1|]. split; [eapply Rle_trans; [exact E1|exact EE]|]. split; [exact D2|]. split; [apply fin_finite, F2|]. eapply Rle_trans; [exact E2|exact EE].
  - exists c, v. split; [|split; [exact Ev|split; [exact Lcv|exact A]]].
    apply (fc_sim cosf sinf junk junkr junki fdata (2 * half) nc nmax mmax Q (vmake Q (fcs half nmax Q)) S fw bw hk); try assumption; try lia.
    + rewrite SDataF_ok by (try lia; apply zlen_vmake'; lia). reflexivity.
    + intros m Hm. destruct (HK m Hm) as (L1 & L2 & _). split; [exact L1|exact L2].
Qed.
Print Assumptions C73_spht_c_accurate.

(** ** Non-vacuity: cos and sin rounded to a grid, six rows (the fourth is the half row) of five columns *)
Definition ex_data : list cf := vmake 30 (fun j => if j / 5 =? 3 then (fofZ 0, fofZ 0) else (fofZ 1, fofZ 0)).
Definition ex_array : mat RN := mmake RN 6 5 (fun i _ => if i =? 3 then RtoC 0 else RtoC 1).
Lemma ex_holds m : Z.abs m <= 2 -> holds_column ex_data ex_array m /\ (col_total ex_array m <= 8)%R /\ cget ex_array 3 (m mod mt_nc RN ex_array) = RtoC 0.
Proof.
  intros Hm. destruct one_double as (D1 & F1 & V1). destruct zero_double as (D0 & F0 & V0). change (mt_nc RN ex_array) with 5. pose proof (Z.mod_pos_bound m 5 ltac:(lia)) as Bm.
  assert (G : forall i, 0 <= i < 6 -> cget ex_array i (m mod 5) = if i =? 3 then RtoC 0 else RtoC 1).
  { intros i Hi. unfold ex_array. rewrite cget_mmake by lia. reflexivity. }
  split; [|split; [|rewrite G by lia; reflexivity]].
  - intros i Hi. change (mt_nr RN ex_array) with 6 in Hi. change (mt_nc RN ex_array) with 5. rewrite G by exact Hi. unfold ex_data. rewrite vget_vmake by lia.
    replace ((i * 5 + m mod 5) / 5) with i by (rewrite Z.div_add_l by lia; rewrite Z.div_small by lia; lia).
    destruct (i =? 3); cbn zeta; unfold cvalue, RtoC; cbn [fst snd]; rewrite ?V0, ?V1; auto 10.
  - unfold col_total. change (mt_nr RN ex_array) with 6. change (mt_nc RN ex_array) with 5. eapply Rle_trans; [apply (sumR_le 0 6 _ (fun _ => 1%R))|rewrite sumR_const by lia; rewrite Z.sub_0_r; lra].
    intros i Hi. rewrite G by exact Hi. destruct (i =? 3); [rewrite Cmod_0; lra|rewrite Cmod_R, Rabs_R1; lra].
Qed.
Example C73_nonvacuous : exists c, ff_fc_to_sc cos_grid sin_grid (fun _ => (S754_nan, S754_nan)) (fun _ => S754_nan) (fun _ => 0) ex_data 6 5 (vmake 9 (fun _ => (S754_nan, S754_nan))) 2 2 = Ok c /\
  double (fst (vget cf0 c 0)) /\ finite (fst (vget cf0 c 0)).
Proof.
  destruct (C73_spht_c_accurate (/ 2 ^ 51) cos_grid sin_grid (fun _ => (S754_nan, S754_nan)) (fun _ => S754_nan) (fun _ => 0) ex_data (vmake 9 (fun _ => (S754_nan, S754_nan))) ex_array 3 2 2 8) as (c & v & E & _ & _ & H); try lia.
  - apply trig_grid.
  - split; [left; apply Rinv_0_lt_compat, pow_lt; lra|]. apply Rinv_le_contravar; [apply pow_lt; lra|]. apply Rle_pow; [lra|lia].
  - reflexivity.
  - reflexivity.
  - reflexivity.
  - reflexivity.
  - split; [apply Rle_trans with 1%R; [|lra]; rewrite <- Rinv_1; apply Rinv_le_contravar; [lra|apply pow_R1_Rle; lra]|].
    apply Rle_trans with (2 ^ 4)%R; [lra|apply Rle_pow; [lra|lia]].
  - apply ex_holds.
  - exists c. split; [exact E|]. destruct (H 0 0 ltac:(unfold is_mode; lia)) as (D1 & F1 & _). split; [exact D1|exact F1].
Qed.
