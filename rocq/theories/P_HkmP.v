(** * P_HkmP: C78, the Python backend's spht in double precision, from the Fourier data on. *)
From Coq Require Import ZArith List Bool SpecFloat Reals Lia Lra Psatz Permutation.
From Coquelicot Require Import Coquelicot.
From Flocq Require Import Core.Core IEEE754.BinarySingleNaN.
From Verif Require Import Exact Py PyFacts Num FloatN FloatText MCoefs SpecCoefs CoefsFacts Sums Harm Smooth Dft MOps MPysphi PysphiFacts TransFacts TransFacts2 SpecHarm MKiss KissFacts KissFacts2 MCsphi CsphiFacts
  SpecDft MDouble FlFacts SeedReal SeedFl SeedFl2 DoubleFacts P_Double FlSigned SbesselFTerm SbesselFRel SbesselFFun TabFl P_Table SumFl SumFl2 SumFl3 P_Sums
  MKissF KissFl KissFl2 KissFl5 P_KissF MCsphiF HkmF P_CsphiF MTransF TransF P_TransF MTransP MHkmP HkmP.
Import ListNotations.
Open Scope list_scope.
Open Scope Z_scope.

(** ** Specification ([value], [finite] as in P_Double; [double], [cvalue], [within],
    [sum_tol], [exact_tol], [i_pow] as in P_Sums; [cnear] as in P_KissF; [holds_column],
    [col_total], [bits], [data_bound] as in P_CsphiF; [dft] in SpecDft) *)

(** n finite complex doubles whose moduli add up to at most F *)
Definition data_of (n : Z) (x : list cf) (F : R) : Prop := zlen x = n /\
  (forall j, 0 <= j < n -> let z := vget cf0 x j in double (fst z) /\ finite (fst z) /\ double (snd z) /\ finite (snd z)) /\
  (sumR 0 n (fun j => Cmod (cvalue (vget cf0 x j))) <= F)%R.
(** np.fft.fft and np.fft.ifft are accurate to eps: relative to the largest modulus an output can have *)
Definition fft_accurate (eps : R) (fft : list cf -> list cf) : Prop := forall n x F,
  1 <= n <= 2 ^ 30 -> (/ 2 ^ 800 <= F <= 2 ^ 900)%R -> data_of n x F ->
  zlen (fft x) = n /\ forall k, 0 <= k < n -> cnear (eps * F) (vget cf0 (fft x) k) (dft (-1) n (fun j => cvalue (vget cf0 x j)) k).
Definition ifft_accurate (eps : R) (ifft : list cf -> list cf) : Prop := forall n x F,
  1 <= n <= 2 ^ 30 -> (/ 2 ^ 800 <= F <= 2 ^ 900)%R -> data_of n x F ->
  zlen (ifft x) = n /\ forall k, 0 <= k < n -> cnear (eps * F / IZR n) (vget cf0 (ifft x) k) (dft 1 n (fun j => cvalue (vget cf0 x j)) k / RtoC (IZR n))%C.

(** how far off the numbers summed by the routine can be, for columns of total modulus F
    of an array such that rows + nmax = N (the C backend: [data_error] of P_CsphiF) *)
Definition py_data_error (eps : R) (N : Z) (F : R) : R := (90 * bits N * (eps + 40 / 2 ^ 53) * F)%R.

(** ** Connections *)
Lemma fft1_acc_of eps fft : fft_accurate eps fft -> fft1_acc eps fft.
Proof.
  intros H n x F Hn Lx Hx Hs HF. apply size_range2 in HF.
  destruct (H n x F Hn HF) as (L & A).
  { split; [exact Lx|]. split; [|exact Hs]. intros j Hj. destruct (Hx j Hj) as ((D1 & F1) & (D2 & F2)). cbv zeta. auto 10 using fin_finite. }
  split; [exact L|]. intros k Hk. specialize (A k Hk). rewrite <- (root_dft false) in A by lia. apply cnear_near in A.
  replace (sumC 0 n (fun j => VC (vgf x j) * root n (- (j * k))))%C with (sumC 0 n (fun j => cvalue (vget cf0 x j) * root n (dir false * (j * k))))%C; [exact A|].
  apply sumC_ext. intros j _. unfold dir. replace (-1 * (j * k)) with (- (j * k)) by ring. reflexivity.
Qed.
Lemma ifft1_acc_of eps ifft : ifft_accurate eps ifft -> ifft1_acc eps ifft.
Proof.
  intros H n x F Hn Lx Hx Hs HF. apply size_range2 in HF.
  destruct (H n x F Hn HF) as (L & A).
  { split; [exact Lx|]. split; [|exact Hs]. intros j Hj. destruct (Hx j Hj) as ((D1 & F1) & (D2 & F2)). cbv zeta. auto 10 using fin_finite. }
  split; [exact L|]. intros k Hk. specialize (A k Hk). rewrite <- (root_dft true) in A by lia. apply cnear_near in A.
  replace (RtoC (/ IZR n) * sumC 0 n (fun j => VC (vgf x j) * root n (j * k)))%C with (sumC 0 n (fun j => cvalue (vget cf0 x j) * root n (dir true * (j * k))) / RtoC (IZR n))%C; [exact A|].
  unfold Cdiv. rewrite Cmult_comm. rewrite <- RtoC_inv by (apply not_0_IZR; lia). f_equal. apply sumC_ext. intros j _. unfold dir. replace (1 * (j * k)) with (j * k) by ring. reflexivity.
Qed.
Lemma near_within E z c B : near E z c -> (Cmod (VC z) <= B)%R -> bounded B z /\ within E z c.
Proof.
  intros (((D1 & F1) & (D2 & F2)) & G) HB.
  assert (P : forall w : C, (Rabs (fst w) <= Cmod w /\ Rabs (snd w) <= Cmod w)%R). { intros w. pose proof (Rmax_Cmod w) as Q. split; (eapply Rle_trans; [|exact Q]); [apply Rmax_l|apply Rmax_r]. }
  destruct (P (VC z)) as [P1 P2]. destruct (P (VC z - c)%C) as [P3 P4].
  split.
  - split; [exact D1|]. split; [apply fin_finite, F1|]. split; [eapply Rle_trans; [exact P1|exact HB]|]. split; [exact D2|]. split; [apply fin_finite, F2|]. eapply Rle_trans; [exact P2|exact HB].
  - split; [exact D1|]. split; [apply fin_finite, F1|]. split; [eapply Rle_trans; [exact P3|exact G]|]. split; [exact D2|]. split; [apply fin_finite, F2|]. eapply Rle_trans; [exact P4|exact G].
Qed.

(** ** Theorems *)

(** The Python backend's fc_to_sc, called by spht on the extended Fourier data: if
    np.fft.fft and ifft are accurate to eps, the powers 1j ** m to ew, and np.sum adds in
    any order, then it returns for every buffer that holds columns of total modulus at most F
    with half row zero, and every coefficient is a pair of finite doubles within the bound
    below of the exact one. *)
Theorem C78_spht_python_accurate : forall eps ew fft ifft sum ipw fdata a half nmax mmax F,
  fft_accurate eps fft -> ifft_accurate eps ifft -> (0 <= eps <= / 2 ^ 30)%R ->
  (forall l, sums l (sum l)) -> (0 <= ew <= 1 / 64)%R -> (forall m, Z.abs m <= mmax -> within ew (ipw m) (i_pow m)) ->
  0 <= mmax <= nmax -> nmax <= 1022 ->
  mt_nr RN a = 2 * half -> 1 <= half -> mmax < mt_nc RN a -> 2 * half + nmax <= 2 ^ 19 ->
  (/ 2 ^ 800 <= F <= 2 ^ 860)%R ->
  (forall m, Z.abs m <= mmax -> holds_column fdata a m /\ (col_total a m <= F)%R /\ cget a half (m mod mt_nc RN a) = RtoC 0) ->
  exists c v, fp_fc_to_sc sum ipw fft ifft (2 * half) (mt_nc RN a) fdata nmax mmax = Ok c /\ py_fc_to_sc a nmax mmax = Ok v /\ zlen c = zlen v /\
    forall n m, is_mode nmax mmax n m ->
      within (sum_tol n (data_bound (2 * half + nmax) F) ew + exact_tol n (py_data_error eps (2 * half + nmax) F)) (vget cf0 c (pos nmax n m)) (vget (RtoC 0) v (pos nmax n m)).
Proof.
  intros eps ew fft ifft sum ipw fdata a half nmax mmax F HT1 HT2 He HS Hew Hip HM HN HL Hh Hc Hs HF Hcol.
  apply fft1_acc_of in HT1. apply ifft1_acc_of in HT2. set (N := 2 * half + nmax) in *. set (nc := mt_nc RN a) in *.
  destruct (spf_ok N) as (Q & EQ & (Q1 & _) & Q2); [lia|].
  assert (HQ2 : Q <= 2 ^ 20) by (change (2 ^ 20) with (2 * 2 ^ 19); lia).
  assert (HQ : 2 * half + nmax <= Q) by (unfold N in *; lia).
  assert (HF1 : (bpow radix2 (-800) <= F <= bpow radix2 860)%R).
  { change (-800) with (- Z.of_nat 800). rewrite bpow_neg. change 860 with (Z.of_nat 860). rewrite bpow2_pow. exact HF. }
  assert (F0 : (0 < F)%R) by (pose proof (bpow_gt_0 radix2 (-800)); lra).
  assert (LB : (1 <= IZR (Z.log2 Q) + 1 <= bits N)%R).
  { pose proof (log2_double N Q ltac:(lia) ltac:(lia)) as G. apply IZR_le in G. rewrite plus_IZR in G. pose proof (Z.log2_nonneg Q) as G0. apply IZR_le in G0. unfold bits. lra. }
  assert (EB : (26 * ((IZR (Z.log2 Q) + 1) * F) <= data_bound N F)%R).
  { unfold data_bound. rewrite (Rmult_assoc 26). apply Rmult_le_compat_l; [lra|]. apply Rmult_le_compat_r; lra. }
  assert (EE : (phkm_err eps Q F <= py_data_error eps N F)%R).
  { unfold phkm_err, py_data_error. replace (40 / 2 ^ 53)%R with (40 * uu)%R by (rewrite uu_val; lra). set (l := (IZR (Z.log2 Q) + 1)%R) in *. set (k := (eps + 40 * uu)%R).
    assert (K0 : (0 <= k)%R) by (unfold k; pose proof uu_small; lra). clearbody k l.
    replace (90 * (k * l * F))%R with (90 * l * k * F)%R by ring. apply Rmult_le_compat_r; [lra|]. apply Rmult_le_compat_r; [exact K0|]. lra. }
  assert (Bmax : (0 <= data_bound N F <= 2 ^ 1000)%R).
  { split; [apply Rle_trans with (26 * ((IZR (Z.log2 Q) + 1) * F))%R; [apply Rmult_le_pos; [lra|apply Rmult_le_pos; lra]|exact EB]|].
    assert (bits N <= 21)%R. { unfold bits. assert (Z.log2 N < 20) by (apply Z.log2_lt_pow2; [lia|change (2 ^ 20) with (2 * 2 ^ 19); lia]). assert (IZR (Z.log2 N) <= 19)%R by (apply IZR_le; lia). lra. }
    unfold data_bound. apply Rle_trans with (2 ^ 140 * 2 ^ 860)%R; [|rewrite <- pow_add; right; reflexivity].
    apply Rmult_le_compat; [lra|lra| |lra]. apply Rle_trans with (2 ^ 10)%R; [lra|apply Rle_pow; [lra|lia]]. }
  set (sv := vmake Q (fs_val half nmax Q)).
  set (hk := fun m => match fp_hkm_fc fft ifft (2 * half) nc fdata nmax m sv with Ok h => h | Raise _ => [] end).
  assert (HK : forall m, Z.abs m <= mmax -> fp_hkm_fc fft ifft (2 * half) nc fdata nmax m sv = Ok (hk m) /\ zlen (hk m) = nmax + 1 /\
    forall k, 0 <= k <= nmax -> near (phkm_err eps Q F) (vgf (hk m) k) (hconv half (colf a m) k) /\ (Cmod (VC (vgf (hk m) k)) <= 26 * ((IZR (Z.log2 Q) + 1) * F))%R).
  { intros m Hm. destruct (Hcol m Hm) as (HC & HT & Hz).
    set (x := fun i => fget nc fdata i (m mod nc)).
    assert (XF : forall i, 0 <= i < 2 * half -> finc (x i) /\ VC (x i) = cget a i (m mod nc)).
    { intros i Hi. destruct (HC i ltac:(lia)) as (D1 & F1 & D2 & F2 & E). split; [split; split; auto using finite_fin|exact E]. }
    destruct (fp_hkm_ok eps fft ifft half nmax Q HT1 HT2 He Hh ltac:(lia) HQ HQ2 x F) with (nc := nc) (fdata := fdata) (m := m) as (h & Eh & Lh & Ah); auto.
    - intros i Hi. apply XF, Hi.
    - eapply Rle_trans; [|exact HT]. right. unfold col_total. rewrite HL. apply sumR_ext. intros i Hi. f_equal. apply XF, Hi.
    - lia.
    - rewrite (proj2 (XF half ltac:(lia))). exact Hz.
    - assert (E : hk m = h) by (unfold hk, sv; rewrite Eh; reflexivity). rewrite E. split; [exact Eh|]. split; [exact Lh|]. intros k Hk.
      destruct (Ah k Hk) as (A1 & A2). split; [|exact A2].
      replace (hconv half (colf a m) k) with (hconv half (fun nu => VC (x (nu mod (2 * half)))) k); [exact A1|].
      unfold hconv. f_equal. apply sumC_ext. intros nu Hnu. f_equal. unfold colf. rewrite HL. apply XF. apply Z.mod_pos_bound. lia. }
  assert (BV : forall m, Z.abs m <= mmax -> fp_bnm_vec_fc sum ipw fft ifft (2 * half) nc fdata nmax m = f_bnm_vec sum (ipw (- m)) (hk m) nmax m).
  { intros m Hm. unfold fp_bnm_vec_fc. fold N. rewrite EQ. cbn [bind]. rewrite fp_s_data_eq by lia. cbn [bind]. fold sv. rewrite (proj1 (HK m Hm)). reflexivity. }
  assert (EQV : fp_fc_to_sc sum ipw fft ifft (2 * half) nc fdata nmax mmax = f_fc_to_sc sum ipw hk nmax mmax).
  { unfold fp_fc_to_sc, f_fc_to_sc. rewrite BV by lia. change (- 0) with 0. destruct (f_bnm_vec sum (ipw 0) (hk 0) nmax 0) as [c|e]; cbn [bind]; [|reflexivity].
    apply mfor_ext. intros m s Hm. apply In_zrange in Hm. rewrite !BV by lia. rewrite Z.opp_involutive. reflexivity. }
  rewrite EQV.
  apply (C69_spht_vs_exact sum ipw hk a half nmax mmax (data_bound N F) ew (py_data_error eps N F)); auto.
  - intros m Hm. apply Hcol, Hm.
  - intros m Hm. destruct (HK m Hm) as (_ & L1 & A). split; [exact L1|].
    assert (Hz2 : colf a m half = RtoC 0). { unfold colf. rewrite HL, Z.mod_small by lia. apply Hcol, Hm. }
    exists (vmake (nmax + 1) (hconv half (colf a m))). split; [apply exact_h_eq; auto; fold nc; lia|].
    intros k Hk. rewrite vget_vmake by lia. destruct (A k Hk) as (A1 & A2).
    apply near_within; [|eapply Rle_trans; [exact A2|exact EB]]. destruct A1 as (A3 & A4). split; [exact A3|]. eapply Rle_trans; [exact A4|exact EE].
Qed.
Print Assumptions C78_spht_python_accurate.

(** ** Non-vacuity: the exact transforms rounded, left-to-right sums, exact powers of 1j *)
Definition ex_fft (x : list cf) : list cf := vmake (zlen x) (fun k => cnearest (dft (-1) (zlen x) (fun j => cvalue (vget cf0 x j)) k)).
Definition ex_ifft (x : list cf) : list cf := vmake (zlen x) (fun k => cnearest (dft 1 (zlen x) (fun j => cvalue (vget cf0 x j)) k / RtoC (IZR (zlen x)))%C).
Lemma lsum_order l : sums l (lsum cf0 l).
Proof.
  assert (H : forall l pre acc, sums pre acc -> sums (pre ++ l) (lsum acc l)).
  { induction l0 as [|x l0 IH]; intros pre acc Hp; cbn [lsum]; [now rewrite app_nil_r|].
    replace (pre ++ x :: l0) with ((pre ++ [x]) ++ l0) by (rewrite <- app_assoc; reflexivity).
    apply IH. apply (sums_add pre [x] (pre ++ [x]) acc x); auto. apply sums_one. }
  exact (H l [] cf0 sums_nil).
Qed.
Lemma Cmod_dft1 inv n x F k : 0 < n -> data_of n x F -> (Cmod (dft (if inv : bool then 1 else -1)%R n (fun j => cvalue (vget cf0 x j)) k) <= F)%R.
Proof.
  intros Hn (_ & _ & Ht). rewrite <- root_dft by auto. eapply Rle_trans; [|exact Ht].
  eapply Rle_trans; [apply Cmod_sumC1; lia|]. apply sumR_le. intros j Hj. rewrite !Cmod_mult, !Cmod_root. lra.
Qed.
(** a value of modulus at most F / d, rounded *)
Lemma nearest_rel X F d : (1 <= d <= 2 ^ 30)%R -> (/ 2 ^ 800 <= F <= 2 ^ 900)%R -> (Cmod X <= F)%R -> cnear (/ 2 ^ 51 * F / d) (cnearest (X / RtoC d)%C) (X / RtoC d)%C.
Proof.
  intros n1 HF M. assert (I : (0 < / d <= 1)%R) by (split; [apply Rinv_0_lt_compat; lra|rewrite <- Rinv_1; apply Rinv_le_contravar; lra]).
  assert (F0 : (0 < F)%R) by (destruct HF as [HF _]; eapply Rlt_le_trans; [|exact HF]; apply Rinv_0_lt_compat, pow_lt; lra).
  assert (E : Cmod (X / RtoC d)%C = (Cmod X * / d)%R). { rewrite Cmod_div by (intros Q; injection Q; lra). rewrite Cmod_R, Rabs_pos_eq by lra. reflexivity. }
  assert (E1 : (Cmod (X / RtoC d)%C <= F * / d)%R) by (rewrite E; apply Rmult_le_compat_r; lra).
  assert (E2 : (F * / d <= F * 1)%R) by (apply Rmult_le_compat_l; lra).
  assert (F9 : (F <= BIG)%R). { apply Rle_trans with (2 ^ 900)%R; [lra|]. rewrite <- bpow2_pow. apply bpow_le. lia. }
  destruct (cnearest_ok (X / RtoC d)%C) as (G1 & G2); [lra|].
  apply (near_cnear (/ 2 ^ 51 * F / d) _ _ (X / RtoC d)%C); [|reflexivity|reflexivity]. split; [exact G1|]. eapply Rle_trans; [exact G2|].
  assert (D : (dmin <= uu * (F * / d))%R).
  { assert (D2 : (/ 2 ^ 30 <= / d)%R) by (apply Rinv_le_contravar; lra).
    apply Rle_trans with (uu * (/ 2 ^ 800 * / 2 ^ 30))%R.
    - unfold uu. rewrite <- (bpow_neg 800), <- (bpow_neg 30), <- !bpow_plus. apply bpow_le. lia.
    - apply Rmult_le_compat_l; [pose proof uu_small; lra|]. apply Rmult_le_compat; try lra; left; apply Rinv_0_lt_compat, pow_lt; lra. }
  assert (uu * Cmod (X / RtoC d)%C <= uu * (F * / d))%R by (apply Rmult_le_compat_l; [pose proof uu_small; lra|exact E1]).
  unfold Rdiv. rewrite Rmult_assoc. rewrite uu_val in *. lra.
Qed.
Lemma ex_ifft_ok : ifft_accurate (/ 2 ^ 51) ex_ifft.
Proof.
  intros n x F Hn HF HA. pose proof HA as (Lx & _). unfold ex_ifft. rewrite Lx. split; [apply zlen_vmake'; lia|]. intros k Hk. rewrite vget_vmake by auto.
  apply nearest_rel; [|exact HF|apply (Cmod_dft1 true); [lia|exact HA]]. split; [apply IZR_le; lia|]. rewrite (pow_IZR 2 30). apply IZR_le. exact (proj2 Hn).
Qed.
Lemma ex_fft_ok : fft_accurate (/ 2 ^ 51) ex_fft.
Proof.
  intros n x F Hn HF HA. pose proof HA as (Lx & _). unfold ex_fft. rewrite Lx. split; [apply zlen_vmake'; lia|]. intros k Hk. rewrite vget_vmake by auto.
  set (X := dft (-1) n (fun j => cvalue (vget cf0 x j)) k).
  assert (M : (Cmod X <= F)%R) by (apply (Cmod_dft1 false); [lia|exact HA]). clearbody X.
  assert (R1 : (1 <= 2 ^ 30)%R) by (apply pow_R1_Rle; lra).
  pose proof (nearest_rel X F 1 ltac:(lra) HF M) as Q.
  assert (EX : (X / RtoC 1)%C = X) by (unfold Cdiv; rewrite <- RtoC_inv by lra; rewrite Rinv_1; ring). rewrite EX in Q. replace (/ 2 ^ 51 * F)%R with (/ 2 ^ 51 * F / 1)%R by field. exact Q.
Qed.
Lemma two51_30 : (0 <= / 2 ^ 51 <= / 2 ^ 30)%R.
Proof. split; [left; apply Rinv_0_lt_compat, pow_lt; lra|]. apply Rinv_le_contravar; [apply pow_lt; lra|]. apply Rle_pow; [lra|lia]. Qed.
Example C78_nonvacuous : exists c, fp_fc_to_sc (lsum cf0) ex_ipw ex_fft ex_ifft 6 5 ex_data 2 2 = Ok c /\
  double (fst (vget cf0 c 0)) /\ finite (fst (vget cf0 c 0)).
Proof.
  destruct (C78_spht_python_accurate (/ 2 ^ 51) 0 ex_fft ex_ifft (lsum cf0) ex_ipw ex_data ex_array 3 2 2 8) as (c & v & E & _ & _ & H); try lia.
  - exact ex_fft_ok.
  - exact ex_ifft_ok.
  - exact two51_30.
  - exact lsum_order.
  - lra.
  - intros m _. apply C69_powers_nonvacuous.
  - reflexivity.
  - reflexivity.
  - split; [apply Rle_trans with 1%R; [|lra]; rewrite <- Rinv_1; apply Rinv_le_contravar; [lra|apply pow_R1_Rle; lra]|].
    apply Rle_trans with (2 ^ 4)%R; [lra|apply Rle_pow; [lra|lia]].
  - apply ex_holds.
  - exists c. split; [exact E|]. destruct (H 0 0 ltac:(unfold is_mode; lia)) as (D1 & F1 & _). split; [exact D1|exact F1].
Qed.
