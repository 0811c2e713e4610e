(** * SumFl4: the whole of fc_to_sc in C and the columns of sc_to_fc, in binary64. *)
From Coq Require Import ZArith List Bool SpecFloat Reals Lia Lra Psatz Permutation.
From Coquelicot Require Import Coquelicot.
From Flocq Require Import Core.Core IEEE754.BinarySingleNaN.
From Verif Require Import Py PyFacts Num FloatN FloatText MCoefs SpecCoefs CoefsFacts Sums Harm MPysphi PysphiFacts TransFacts MKiss KissFacts MCsphi CsphiFacts MDouble FlFacts SeedReal SeedFl SeedFl2
  DoubleFacts TableEq FlSigned SbesselFTerm SbesselFRel Unsold TabFl SumFl SumFl2 SumFl3.
Import ListNotations.
Open Scope Z_scope.

Lemma fc_fc_to_sc_acc hk junkr junki sc Nmax Mmax B : 0 <= Mmax <= Nmax -> Nmax <= 1022 -> (0 <= B <= bpow radix2 1000)%R ->
  (forall m, Z.abs m <= Mmax -> zlen (hk m) = Nmax + 1 /\ forall k, 0 <= k <= Nmax -> cap B 0 (vget cf0 (hk m) k) (VC (vget cf0 (hk m) k))) ->
  zlen sc = ncoef Nmax Mmax ->
  exists c, fc_fc_to_sc hk junkr junki sc Nmax Mmax = Ok c /\ zlen c = ncoef Nmax Mmax /\
    forall n m, is_mode Nmax Mmax n m -> exists M, cap M (eacc n B 0) (vget cf0 c (pos Nmax n m)) (bval (fun k => VC (vget cf0 (hk m) k)) m n).
Proof.
  intros HM HN HB Hh Ls. unfold fc_fc_to_sc. rewrite c_inds_ok by lia. cbn [bind].
  assert (Hr : forall m, Z.abs m <= Mmax -> 0 <= cstart Nmax m /\ cstart Nmax m + (Nmax + 1 - Z.abs m) <= zlen sc)
    by (intros; rewrite Ls; now apply cstart_range).
  pose proof (Hr 0 ltac:(lia)) as Hr0. rewrite cstart_0 in Hr0.
  destruct (Hh 0 ltac:(lia)) as [Lh0 Kh0].
  destruct (fc_bnm_acc (hk 0) Nmax 0 0 (Nmax + 1) sc (vmake (Nmax + 1) junkr) B) as (s1 & y1 & -> & L1 & Y1 & _ & V1);
    [lia|lia|lia|exact Lh0|apply zlen_vmake'; lia|lia|cbn [Z.abs] in *; lia|exact HB|exact Kh0|]. cbn [bind].
  set (G := fun (v : list cf) m => forall n, Z.abs m <= n <= Nmax -> exists M, cap M (eacc n B 0) (vget cf0 v (pos Nmax n m)) (bval (fun k => VC (vget cf0 (hk m) k)) m n)).
  edestruct (mfor_inv (fun (i : Z) (r : list cf * list f64) => zlen (fst r) = zlen sc /\ zlen (snd r) = Nmax + 1 /\
      forall m, Z.abs m < i -> G (fst r) m) 1 (Mmax + 1)) as (r & E & R1 & R2 & R3); [lia| | |rewrite E; cbn [bind]].
  { cbn [fst snd]. split; auto. split; auto. intros m Hm n Hn. assert (m = 0) by lia. subst m. unfold pos. rewrite cstart_0.
    replace (0 + n - Z.abs 0) with (0 + (n - Z.abs 0)) by lia. apply V1. lia. }
  2:{ exists (fst r). split; [reflexivity|]. split; [lia|]. intros n m (M1 & M2 & M3). apply R3; lia. }
  assert (Hold : forall (s s' : list cf) m m', Z.abs m <= Mmax -> Z.abs m' <= Mmax -> m <> m' ->
     (forall i, ~ cstart Nmax m <= i < cstart Nmax m + (Nmax - Z.abs m + 1) -> vget cf0 s' i = vget cf0 s i) -> G s m' -> G s' m').
  { intros s s' m m' Hm Hm' Ne Hv Hg n Hn. rewrite Hv; [apply Hg; auto|]. unfold pos.
    destruct (cstart_disjoint Nmax Mmax m m' HM Hm Hm' Ne); lia. }
  intros m [s y] Hm (A1 & A2 & A3). cbn [fst snd] in *. rewrite inds_neg by lia. cbn [bind].
  pose proof (Hr m ltac:(lia)). pose proof (Hr (- m) ltac:(lia)).
  destruct (Hh (- m) ltac:(lia)) as [Lh1 Kh1]. destruct (Hh m ltac:(lia)) as [Lh2 Kh2].
  destruct (fc_bnm_acc (hk (- m)) Nmax (- m) (cstart Nmax (- m)) (Nmax + 1) s y B) as (s2 & y2 & -> & L2 & Y2 & V2 & W2);
    [lia|lia|lia|exact Lh1|auto|lia|lia|exact HB|exact Kh1|]. cbn [bind]. rewrite inds_pos by lia. cbn [bind].
  destruct (fc_bnm_acc (hk m) Nmax m (cstart Nmax m) (Nmax + 1) s2 y2 B) as (s3 & y3 & -> & L3 & Y3 & V3 & W3);
    [lia|lia|lia|exact Lh2|auto|lia|lia|exact HB|exact Kh2|].
  eexists. split; [reflexivity|]. cbn [fst snd]. split; [lia|]. split; [lia|]. intros q Hq.
  destruct (Z.eq_dec q m) as [->|N1].
  { intros n Hn. unfold pos. replace (cstart Nmax m + n - Z.abs m) with (cstart Nmax m + (n - Z.abs m)) by lia. apply W3. exact Hn. }
  apply (Hold s2 s3 m q ltac:(lia) ltac:(lia) ltac:(auto) V3).
  destruct (Z.eq_dec q (- m)) as [->|N2].
  { intros n Hn. unfold pos. replace (cstart Nmax (- m) + n - Z.abs (- m)) with (cstart Nmax (- m) + (n - Z.abs (- m))) by lia. apply W2. exact Hn. }
  apply (Hold s s2 (- m) q ltac:(lia) ltac:(lia) ltac:(auto) V2). apply A3. lia.
Qed.

(** ** Columns *)
Lemma ymax_mono a b : 0 <= a <= b -> (ymax a <= ymax b)%R.
Proof.
  intros H. unfold ymax. apply sqrt_le_1_alt. pose proof PI_RGT_0. apply Rmult_le_compat_r; [left; apply Rinv_0_lt_compat; lra|].
  assert (IZR a <= IZR b)%R by (apply IZR_le; lia). lra.
Qed.
Lemma tab_err_mono a b : 0 <= a <= b -> (tab_err a <= tab_err b)%R.
Proof.
  intros H. pose proof (ymax_mono a b H). assert (0 <= IZR a <= IZR b)%R by (split; apply IZR_le; lia). pose proof uu_small.
  assert (0 <= ymax a)%R by (apply sqrt_pos). unfold tab_err. apply Rmult_le_compat_r; [lra|].
  apply Rmult_le_compat; try lra; [|apply Rmult_le_compat_l; [lra|]; apply pow_incr; lra].
  apply Rmult_le_pos; [lra|]. apply pow_le. lra.
Qed.
Lemma tab_ap_le n N m v k : (forall k, 0 <= k < zlen v -> dbl (vget fz v k) /\ fin (vget fz v k) /\ (Rabs (V (vget fz v k) - Yt n m k) <= tab_err n)%R /\
    (n < k \/ (n - k) mod 2 = 1 -> vget fz v k = fz /\ Yt n m k = 0%R)) -> Z.abs m <= n <= N -> 0 <= k < zlen v ->
  ap (ymax N) (tab_err N) (vget fz v k) (Yt n m k).
Proof.
  intros H Hm Hk. eapply ap_le; [apply tab_ap; [exact H|lia|exact Hk]|apply ymax_mono; lia|apply tab_err_mono; lia].
Qed.
Lemma sums_snoc (x : Z -> cf) lo k s : lo <= k -> sums (map x (zrange lo k)) s -> sums (map x (zrange lo (k + 1))) (cfadd s (x k)).
Proof.
  intros H R. rewrite zrange_snoc, map_app by lia. apply (sums_add _ _ _ _ _ R (sums_one (x k))). apply Permutation_refl.
Qed.

(** the table of degree n, order m with L entries *)
Definition ftab (n m L : Z) : list f64 := match f_ynunm n m L with Ok t => t | _ => [] end.
Lemma ftab_ok n m L : Z.abs m <= n -> n <= 1022 -> n < L -> f_ynunm n m L = Ok (ftab n m L) /\ zlen (ftab n m L) = L /\
   forall N k, n <= N -> 0 <= k < L -> ap (ymax N) (tab_err N) (vget fz (ftab n m L) k) (Yt n m k).
Proof.
  intros Hm Hn HL. destruct (table_accurate n m L Hm Hn HL) as (t & E & Lt & T). unfold ftab. rewrite E. split; [reflexivity|]. split; [exact Lt|].
  intros N k HN Hk. apply tab_ap_le; [rewrite Lt; exact T|lia|lia].
Qed.

(** exact arithmetic on the values of the stored coefficients of one order *)
Definition FcolV (x : Z -> cf) (nmax m k : Z) : C := (ipow m * sumC (Z.abs m) (nmax + 1) (fun n => VC (x n) * RtoC (Yt n m k)))%C.
Lemma FcolV_neg x nmax m k : FcolV x nmax m (- k) = (RtoC (IZR (sgnpow m)) * FcolV x nmax m k)%C.
Proof.
  unfold FcolV. rewrite !Cmult_assoc, (Cmult_comm (RtoC _) (ipow m)), <- Cmult_assoc. f_equal.
  rewrite sumC_mul. apply sumC_ext. intros n Hn. rewrite Yt_neg, RtoC_mult. ring.
Qed.
Lemma FcolV_hi x nmax m k : nmax < Z.abs k -> FcolV x nmax m k = RtoC 0.
Proof. intros. unfold FcolV. rewrite sumC_zero, Cmult_0_r; auto. intros n Hn. rewrite Yt_supp by lia. ring. Qed.
Lemma cap_zero M e : (0 <= M)%R -> (0 <= e)%R -> cap M e cf0 (RtoC 0).
Proof. intros. split; apply ap_le with 0%R 0%R; try apply ap_zero; auto. Qed.
Definition col_ok (n : Z) (B ew : R) (z : cf) (c : C) : Prop := exists M, (M + eacc n B ew <= BIG)%R /\ cap M (eacc n B ew) z c.
Lemma eacc_bounds n B ew : 0 <= n <= 1022 -> (0 <= B <= bpow radix2 1000)%R -> (0 <= ew <= / 64)%R -> (0 <= eacc n B ew <= BIG)%R.
Proof.
  intros Hn HB Hw. destruct (col_c n B ew Hn HB Hw (fun _ => fz) (fun _ => 0%R) (fun _ => fz) (fun _ => 0%R) (n + 1) fz) as (M & H1 & H2); [lia|intros; lia|intros; lia| |].
  - rewrite zrange_nil by lia. apply rs_nil; first [apply ap_zero|reflexivity].
  - fold (eacc n B ew) in *. destruct (ap_pos _ _ _ _ H2). lra.
Qed.
Lemma col_ok_zero n B ew : 0 <= n <= 1022 -> (0 <= B <= bpow radix2 1000)%R -> (0 <= ew <= / 64)%R -> col_ok n B ew cf0 (RtoC 0).
Proof. intros. exists 0%R. destruct (eacc_bounds n B ew); auto. split; [lra|]. apply cap_zero; lra. Qed.
Lemma col_ok_sign_py n B ew z c m : col_ok n B ew z c -> col_ok n B ew (cfmul (cfre (fofZ (powm1 m))) z) (RtoC (IZR (powm1 m)) * c)%C.
Proof.
  intros (M & HB & H1 & H2). exists M. split; [exact HB|]. pose proof (ap_unit _ _ _ _ m H1 HB) as A1. pose proof (ap_unit _ _ _ _ m H2 HB) as A2.
  unfold cfmul, cfre. cbn [fst snd]. unfold Cmult, RtoC. split; cbn [fst snd].
  - rewrite Rmult_0_l, Rminus_0_r. eapply ap_fsub_0r; [exact A1|rewrite fmul_comm; apply ap_fmul_0; [apply H2|apply H2|apply ap_zero]|exact HB].
  - rewrite Rmult_0_l, Rplus_0_r. eapply ap_fadd_0r; [exact A2|rewrite fmul_comm; apply ap_fmul_0; [apply H1|apply H1|apply ap_zero]|exact HB].
Qed.

Lemma f_fcvec_acc w vec m nmax nrows B ew : Z.abs m <= nmax -> nmax <= 1022 -> nmax + 1 <= nrows -> zlen vec = nmax - Z.abs m + 1 ->
  (0 <= B <= bpow radix2 1000)%R -> (0 <= ew <= / 64)%R -> wap 1 ew w (ipow m) ->
  (forall i, 0 <= i <= nmax - Z.abs m -> cap B 0 (vget cf0 vec i) (VC (vget cf0 vec i))) ->
  exists F, f_fcvec_m_sc w vec m nmax nrows = Ok F /\ zlen F = nrows /\
    forall i, 0 <= i < nrows -> col_ok nmax B ew (vget cf0 F i) (FcolV (fun n => vget cf0 vec (n - Z.abs m)) nmax m (freqc nrows i)).
Proof.
  intros Hm Hn Hr Lv HB Hew Hw Hx. unfold f_fcvec_m_sc. rewrite np_zeros_ok by lia. cbn [bind].
  set (K := nmax + 1). set (z0 := vmake nrows _). assert (Lz : zlen z0 = nrows) by (apply zlen_vmake'; lia).
  set (x := fun n => vget cf0 vec (n - Z.abs m)).
  edestruct (mfor_inv (fun (p : Z) (F : list cf) => zlen F = nrows /\ (forall k, K <= k < nrows -> vget cf0 F k = cf0) /\
      forall k, 0 <= k < K -> sums (map (fun n => cfmul (x n) (cfre (vget fz (ftab n m K) k))) (zrange (Z.abs m) p)) (vget cf0 F k)) (Z.abs m) K)
    as (F & E & LF & HF & VF); [unfold K; lia| | |rewrite E; cbn [bind]].
  { split; auto. assert (Z0 : forall k, 0 <= k < nrows -> vget cf0 z0 k = cf0) by (intros; unfold z0; rewrite vget_vmake by lia; reflexivity).
    split; [intros; apply Z0; unfold K in *; lia|]. intros k Hk. rewrite Z0 by (unfold K in *; lia). rewrite zrange_nil by lia. apply sums_nil. }
  { intros n F Hi (LF & HF & VF). destruct (ftab_ok n m K ltac:(lia) ltac:(unfold K in *; lia) ltac:(unfold K in *; lia)) as (-> & Lt & _). cbn [bind].
    rewrite py_get_ok by (unfold K in *; lia). cbn [bind]. cbv zeta.
    rewrite zlen_py_slice by (unfold K in *; lia). rewrite zlen_map, Lt, Z.sub_0_r, Z.eqb_refl.
    fold (x n).
    destruct (py_slice_set_ok F 0 K (zip_with cfadd (py_slice F 0 K) (map (fun y => cfmul (x n) (cfre y)) (ftab n m K)))) as (F' & -> & LF' & VF');
      [unfold K in *; lia|unfold K in *; lia| |].
    { rewrite zlen_zip_with; [rewrite zlen_py_slice by (unfold K in *; lia); lia|]. rewrite zlen_py_slice, zlen_map by (unfold K in *; lia). lia. }
    eexists. split; [reflexivity|]. split; [lia|]. split.
    - intros k Hk. rewrite VF' by (unfold K in *; lia). destruct (Z.leb_spec 0 k); [|unfold K in *; lia]. destruct (Z.ltb_spec k K); [lia|]. cbn [andb]. apply HF. lia.
    - intros k Hk. rewrite VF' by (unfold K in *; lia).
      destruct (Z.leb_spec 0 k); [|lia]. destruct (Z.ltb_spec k K); [|lia]. cbn [andb]. rewrite Z.sub_0_r.
      rewrite (vget_zip_with _ _ _ _ cf0 cf0) by (rewrite ?zlen_map, ?zlen_py_slice by (unfold K in *; lia); lia).
      rewrite vget_py_slice by (unfold K in *; lia). rewrite (vget_map _ fz) by lia. replace (0 + k) with k by lia.
      apply (sums_snoc (fun n => cfmul (x n) (cfre (vget fz (ftab n m K) k)))); [lia|]. apply VF. lia. }
  destruct (py_slice_set_ok F 0 K (map (fun a => cfmul a w) (py_slice F 0 K))) as (G & -> & LG & VG);
    [unfold K in *; lia|unfold K in *; lia|rewrite zlen_map, zlen_py_slice by (unfold K in *; lia); lia|]. cbn [bind]. cbv zeta.
  assert (VG' : forall k, 0 <= k < nrows -> col_ok nmax B ew (vget cf0 G k) (FcolV x nmax m k)).
  { intros k Hk. rewrite VG by lia. destruct (Z.leb_spec 0 k); [|lia]. destruct (Z.ltb_spec k K); cbn [andb].
    - rewrite Z.sub_0_r, (vget_map _ cf0) by (rewrite zlen_py_slice by (unfold K in *; lia); lia).
      rewrite vget_py_slice by (unfold K in *; lia). replace (0 + k) with k by lia.
      apply (col_py nmax B ew ltac:(lia) HB Hew x (fun n => VC (x n)) (fun n => vget fz (ftab n m K) k) (fun n => Yt n m k) (Z.abs m) w (ipow m)); auto; try lia.
      + intros n Hn'. apply Hx. lia.
      + intros n Hn'. destruct (ftab_ok n m K ltac:(lia) ltac:(lia) ltac:(unfold K; lia)) as (_ & _ & T). apply T; lia.
    - rewrite HF by lia. rewrite FcolV_hi by (unfold K in *; lia). apply col_ok_zero; auto. lia. }
  set (H := if nrows mod 2 =? 0 then nrows / 2 - 1 else (nrows - 1) / 2).
  assert (HH : 0 <= H /\ nrows <= 2 * H + 2 /\ 2 * H + 1 <= nrows).
  { unfold H. destruct (Z.eqb_spec (nrows mod 2) 0); [pose proof (Z.div_mod nrows 2 ltac:(lia)); lia|].
    pose proof (Z.div_mod (nrows - 1) 2 ltac:(lia)). pose proof (Z.mod_pos_bound (nrows - 1) 2 ltac:(lia)). lia. }
  edestruct (mfor_inv (fun (p : Z) (F : list cf) => zlen F = nrows /\
      forall k, 0 <= k < nrows -> col_ok nmax B ew (vget cf0 F k) (FcolV x nmax m (if k <? nrows - p then k else k - nrows))) 0 H)
    as (F2 & E2 & LF2 & VF2); [lia| | |exists F2; split; [exact E2|]; split; [exact LF2|]].
  { split; [lia|]. intros k Hk. destruct (Z.ltb_spec k (nrows - 0)); [|lia]. apply VG'. exact Hk. }
  2:{ intros i Hi. replace (freqc nrows i) with (if i <? nrows - H then i else i - nrows); [apply VF2; exact Hi|]. unfold freqc.
      assert (nrows / 2 = H + 1 /\ nrows mod 2 = 0 \/ nrows / 2 = H /\ nrows mod 2 = 1) as HD.
      { unfold H; destruct (Z.eqb_spec (nrows mod 2) 0); lia. }
      destruct (Z.ltb_spec i (nrows - H)), (Z.leb_spec i (nrows / 2)); auto; lia. }
  intros i s Hi (L & Vs). rewrite py_get_ok by lia. cbn [bind]. unfold py_set, py_index.
  destruct (Z.leb_spec 0 (- (i + 1))); [lia|]. cbn [andb]. destruct (Z.leb_spec (- zlen s) (- (i + 1))); [|lia].
  destruct (Z.ltb_spec (- (i + 1)) 0); [|lia]. cbn [andb bind]. eexists. split; [reflexivity|].
  rewrite zlen_vset. split; auto. intros k Hk. destruct (Z.eq_dec k (- (i + 1) + zlen s)) as [Ek|Ne].
  - rewrite Ek. rewrite vget_vset_eq by lia. destruct (Z.ltb_spec (- (i + 1) + zlen s) (nrows - (i + 1))); [lia|].
    replace (- (i + 1) + zlen s - nrows) with (- (i + 1)) by lia. rewrite FcolV_neg, <- sgn_powm1. apply col_ok_sign_py.
    specialize (Vs (i + 1) ltac:(lia)). destruct (Z.ltb_spec (i + 1) (nrows - i)); [exact Vs|lia].
  - rewrite vget_vset_ne by lia. specialize (Vs k Hk). destruct (Z.ltb_spec k (nrows - i)), (Z.ltb_spec k (nrows - (i + 1))); auto; lia.
Qed.

Lemma half_facts Nrow : 1 <= Nrow -> let H := if Z.rem Nrow 2 =? 0 then Z.quot Nrow 2 - 1 else Z.quot (Nrow - 1) 2 in
  0 <= H /\ Nrow <= 2 * H + 2 /\ 2 * H + 1 <= Nrow /\ forall i, freqc Nrow i = if i <? Nrow - H then i else i - Nrow.
Proof.
  intros HN H. assert (HD : 0 <= H /\ Nrow <= 2 * H + 2 /\ 2 * H + 1 <= Nrow /\ (Nrow / 2 = H + 1 /\ Nrow mod 2 = 0 \/ Nrow / 2 = H /\ Nrow mod 2 = 1)).
  { unfold H. rewrite Z.rem_mod_nonneg, !Z.quot_div_nonneg by lia. destruct (Z.eqb_spec (Nrow mod 2) 0); lia. }
  split; [lia|]. split; [lia|]. split; [lia|]. intros i. unfold freqc. destruct (Z.ltb_spec i (Nrow - H)), (Z.leb_spec i (Nrow / 2)); auto; lia.
Qed.
(** the rows whose frequency exceeds n hold zeros *)
Definition zrow (n k : Z) (z : cf) : Prop := n < Z.abs k -> cap 0 0 z (RtoC 0).
Lemma zrow_sign n k z m : zrow n k z -> zrow n (- k) (fmul (fofZ (powm1 m)) (fst z), fmul (fofZ (powm1 m)) (snd z)).
Proof.
  intros H Hk. rewrite Z.abs_opp in Hk. destruct (H Hk) as [A1 A2]. cbn [fst snd RtoC] in *. assert (B0 : (0 + 0 <= BIG)%R) by (rewrite Rplus_0_l; apply bpow_ge_0).
  pose proof (ap_unit _ _ _ _ m A1 B0) as Q1. pose proof (ap_unit _ _ _ _ m A2 B0) as Q2. rewrite Rmult_0_r in Q1, Q2. split; assumption.
Qed.
Lemma fc_fcvec_acc sc off m Nmax Nrow Ncol M len fdata y B : Z.abs m <= Nmax -> Nmax <= 1022 -> Nmax + 1 <= Nrow -> Nmax < len ->
  0 <= M < Ncol -> zlen fdata = Nrow * Ncol -> zlen y = len -> 0 <= off -> off + (Nmax - Z.abs m + 1) <= zlen sc -> (0 <= B <= bpow radix2 1000)%R ->
  (forall i, 0 <= i <= Nmax - Z.abs m -> cap B 0 (vget cf0 sc (off + i)) (VC (vget cf0 sc (off + i)))) ->
  (forall k, 0 <= k < Nrow -> vget cf0 fdata (k * Ncol + M) = cf0) ->
  exists fd y', fc_fcvec_m_sc sc off m Nmax Nrow Ncol M len (fdata, y) = Ok (fd, y') /\ zlen fd = zlen fdata /\ zlen y' = len /\
    (forall j, 0 <= j < zlen fdata -> (forall k, 0 <= k < Nrow -> j <> k * Ncol + M) -> vget cf0 fd j = vget cf0 fdata j) /\
    forall i, 0 <= i < Nrow -> col_ok Nmax B 0 (vget cf0 fd (i * Ncol + M)) (FcolV (fun n => vget cf0 sc (off + (n - Z.abs m))) Nmax m (freqc Nrow i)) /\
      zrow Nmax (freqc Nrow i) (vget cf0 fd (i * Ncol + M)).
Proof.
  intros Hm Hn Hr HL HMc Lf Ly Ho Ls HB Hx Hz. unfold fc_fcvec_m_sc. set (K := Nmax + 1).
  set (x := fun n => vget cf0 sc (off + (n - Z.abs m))).
  assert (Hix : forall k, 0 <= k < Nrow -> 0 <= k * Ncol + M < zlen fdata) by (intros; nia).
  assert (Hinj : forall k k', k * Ncol + M = k' * Ncol + M -> k = k') by (intros; nia).
  assert (Hset : forall (F : list cf) k k' v, zlen F = zlen fdata -> 0 <= k < Nrow -> 0 <= k' < Nrow -> 
     vget cf0 (vset F (k * Ncol + M) v) (k' * Ncol + M) = if k' =? k then v else vget cf0 F (k' * Ncol + M)).
  { intros F k k' v LF H1 H2. pose proof (Hix k H1). pose proof (Hix k' H2). destruct (Z.eqb_spec k' k) as [->|Ne]; [apply vget_vset_eq; lia|].
    apply vget_vset_ne. intros Q. apply Ne. apply Hinj. auto. }
  set (oth := fun (F : list cf) => forall j, 0 <= j < zlen fdata -> (forall k, 0 <= k < Nrow -> j <> k * Ncol + M) -> vget cf0 F j = vget cf0 fdata j).
  assert (Oset : forall (F : list cf) k v, zlen F = zlen fdata -> 0 <= k < Nrow -> oth F -> oth (vset F (k * Ncol + M) v)).
  { intros F k v LF H1 O j Hj Nj. rewrite vget_vset_ne by (apply Nj; auto). apply O; auto. }
  set (tr := fun k n => fmul (fst (x n)) (vget fz (ftab n m len) k)). set (ti := fun k n => fmul (snd (x n)) (vget fz (ftab n m len) k)).
  set (S := fun (F : list cf) k p => rsums (map (tr k) (zrange (Z.abs m) p)) (fst (vget cf0 F (k * Ncol + M))) /\ rsums (map (ti k) (zrange (Z.abs m) p)) (snd (vget cf0 F (k * Ncol + M)))).
  edestruct (mfor_inv (fun (p : Z) (r : list cf * list f64) => zlen (fst r) = zlen fdata /\ zlen (snd r) = len /\ oth (fst r) /\
      (forall k, K <= k < Nrow -> vget cf0 (fst r) (k * Ncol + M) = cf0) /\ forall k, 0 <= k < K -> S (fst r) k p) (Z.abs m) K)
    as ([F t] & E & LF & Lt & OF & HF & VF); [unfold K; lia| | |unfold K in E; rewrite E; fold K; cbn [bind fst snd] in *].
  { cbn [fst snd]. split; auto. split; auto. split; [intros j Hj Nj; reflexivity|]. split; [intros; apply Hz; unfold K in *; lia|].
    intros k Hk. unfold S. rewrite zrange_nil by lia. rewrite Hz by (unfold K in *; lia). cbn [map]. split; apply rs_nil; first [apply ap_zero|reflexivity]. }
  { intros n [F y1] Hi (LF & L1 & OF & HF & VF). cbn [fst snd] in *.
    destruct (ftab_ok n m len ltac:(lia) ltac:(unfold K in *; lia) ltac:(unfold K in *; lia)) as (TE & TL & _).
    rewrite table_eq by (auto; unfold K in *; lia). rewrite TE. cbn [bind].
    edestruct (mfor_inv (fun (p : Z) (G : list cf) => zlen G = zlen fdata /\ oth G /\
        forall k, 0 <= k < Nrow -> if k <? p then S G k (n + 1) else vget cf0 G (k * Ncol + M) = vget cf0 F (k * Ncol + M)) 0 K) as (G & EG & LG & OG & VG);
      [unfold K; lia| | |rewrite EG; cbn [bind]].
    { split; auto. split; auto. intros k Hk. destruct (Z.ltb_spec k 0); [lia|]. reflexivity. }
    { intros k G Hk (LG & OG & VG). pose proof (Hix k ltac:(unfold K in *; lia)).
      rewrite !bget_ok by (unfold K in *; lia). cbn [bind]. rewrite bset_ok by lia. eexists. split; [reflexivity|]. rewrite zlen_vset. split; auto.
      split; [apply Oset; auto; unfold K in *; lia|].
      intros k' Hk'. unfold S. rewrite (Hset G k k') by (auto; unfold K in *; lia). pose proof (VG k' Hk') as Q.
      destruct (Z.eqb_spec k' k) as [->|Ne].
      - destruct (Z.ltb_spec k (k + 1)); [|lia]. destruct (Z.ltb_spec k k); [lia|]. rewrite Q. cbn [fst snd].
        destruct (VF k ltac:(lia)) as [V1 V2]. split; [apply (rs_snoc (tr k)); [lia|exact V1]|apply (rs_snoc (ti k)); [lia|exact V2]].
      - destruct (Z.ltb_spec k' (k + 1)), (Z.ltb_spec k' k); try lia; exact Q. }
    eexists. split; [reflexivity|]. cbn [fst snd]. split; auto. split; auto. split; auto. split.
    - intros k Hk. pose proof (VG k ltac:(unfold K in *; lia)) as Q. destruct (Z.ltb_spec k K); [lia|]. rewrite Q. apply HF. exact Hk.
    - intros k Hk. pose proof (VG k ltac:(unfold K in *; lia)) as Q. destruct (Z.ltb_spec k K); [exact Q|lia]. }
  assert (CF : forall k, 0 <= k < K -> exists M0, (M0 + eacc Nmax B 0 <= BIG)%R /\ cap M0 (eacc Nmax B 0) (vget cf0 F (k * Ncol + M))
     (sumC (Z.abs m) (Nmax + 1) (fun n => VC (x n) * RtoC (Yt n m k)))%C).
  { intros k Hk. destruct (VF k Hk) as [Rr Ri].
    assert (HY : forall n, Z.abs m <= n <= Nmax -> ap (ymax Nmax) (tab_err Nmax) (vget fz (ftab n m len) k) (Yt n m k)).
    { intros n Hn'. destruct (ftab_ok n m len ltac:(lia) ltac:(lia) ltac:(lia)) as (_ & _ & T). apply T; unfold K in *; lia. }
    assert (Hc : forall n, Z.abs m <= n <= Nmax -> cap B 0 (x n) (VC (x n))) by (intros; unfold x; apply Hx; lia).
    destruct (col_c Nmax B 0 ltac:(lia) HB ltac:(lra) (fun n => fst (x n)) (fun n => V (fst (x n))) (fun n => vget fz (ftab n m len) k) (fun n => Yt n m k) (Z.abs m) _ ltac:(lia) ltac:(intros; apply Hc; lia) HY Rr) as (M1 & B1 & C1).
    destruct (col_c Nmax B 0 ltac:(lia) HB ltac:(lra) (fun n => snd (x n)) (fun n => V (snd (x n))) (fun n => vget fz (ftab n m len) k) (fun n => Yt n m k) (Z.abs m) _ ltac:(lia) ltac:(intros; apply Hc; lia) HY Ri) as (M2 & B2 & C2).
    exists (Rmax M1 M2). fold (eacc Nmax B 0) in *. split; [apply Rmax_case; assumption|]. split.
    - rewrite fst_sumC. rewrite (sumR_ext _ _ _ (fun n => V (fst (x n)) * Yt n m k)%R); [eapply ap_le; [exact C1|apply Rmax_l|apply Rle_refl]|].
      intros n Hn'. unfold VC, RtoC, Cmult. cbn [fst snd]. ring.
    - rewrite snd_sumC. rewrite (sumR_ext _ _ _ (fun n => V (snd (x n)) * Yt n m k)%R); [eapply ap_le; [exact C2|apply Rmax_r|apply Rle_refl]|].
      intros n Hn'. unfold VC, RtoC, Cmult. cbn [fst snd]. ring. }
  edestruct (mfor_inv (fun (p : Z) (G : list cf) => zlen G = zlen fdata /\ oth G /\
      forall k, 0 <= k < Nrow -> if k <? p then col_ok Nmax B 0 (vget cf0 G (k * Ncol + M)) (FcolV x Nmax m k) else vget cf0 G (k * Ncol + M) = vget cf0 F (k * Ncol + M)) 0 K)
    as (G & EG & LG & OG & VG); [unfold K; lia| | |rewrite EG; cbn [bind]].
  { split; auto. split; auto. intros k Hk. destruct (Z.ltb_spec k 0); [lia|]. reflexivity. }
  { intros i G Hi (LG & OG & VG). pose proof (Hix i ltac:(unfold K in *; lia)). rewrite bget_ok by lia. cbn [bind].
    pose proof (VG i ltac:(unfold K in *; lia)) as Q. destruct (Z.ltb_spec i i); [lia|]. rewrite Q.
    destruct (CF i ltac:(unfold K in *; lia)) as (M0 & B0 & C0). pose proof (phase_pos_cap _ _ _ _ m C0 B0) as PM.
    match type of PM with cap _ _ ?z _ => set (zz := z) in * end.
    match goal with |- exists s', ?X = Ok s' /\ _ => assert (HW : X = Ok (vset G (i * Ncol + M) zz)) end.
    { unfold zz. destruct (Z.rem (Z.abs m) 2 =? 1); cbv zeta; apply bset_ok; lia. }
    rewrite HW. eexists. split; [reflexivity|]. rewrite zlen_vset. split; auto. split; [apply Oset; auto; unfold K in *; lia|].
    intros k Hk. rewrite (Hset G i k) by (auto; unfold K in *; lia). pose proof (VG k Hk) as Qk. destruct (Z.eqb_spec k i) as [->|Ne].
    - destruct (Z.ltb_spec i (i + 1)); [|lia]. exists M0. split; [exact B0|exact PM].
    - destruct (Z.ltb_spec k (i + 1)), (Z.ltb_spec k i); try lia; exact Qk. }
  assert (VG' : forall k, 0 <= k < Nrow -> col_ok Nmax B 0 (vget cf0 G (k * Ncol + M)) (FcolV x Nmax m k)).
  { intros k Hk. pose proof (VG k Hk) as Q. destruct (Z.ltb_spec k K); [exact Q|]. rewrite Q, HF by lia. rewrite FcolV_hi by (unfold K in *; lia). apply col_ok_zero; auto; lra || lia. }
  destruct (half_facts Nrow ltac:(lia)) as (HH1 & HH2 & HH3 & HFq). set (H := if Z.rem Nrow 2 =? 0 then Z.quot Nrow 2 - 1 else Z.quot (Nrow - 1) 2) in *. clearbody H.
  edestruct (mfor_inv (fun (p : Z) (F : list cf) => zlen F = zlen fdata /\ oth F /\
      forall k, 0 <= k < Nrow -> col_ok Nmax B 0 (vget cf0 F (k * Ncol + M)) (FcolV x Nmax m (if k <? Nrow - p then k else k - Nrow)) /\
        zrow Nmax (if k <? Nrow - p then k else k - Nrow) (vget cf0 F (k * Ncol + M))) 0 H)
    as (F2 & E2 & LF2 & OF2 & VF2); [lia| | |rewrite E2; cbn [bind]; do 2 eexists; split; [reflexivity|]; split; [exact LF2|]; split; [exact Lt|]; split; [exact OF2|]].
  { split; auto. split; auto. intros k Hk. destruct (Z.ltb_spec k (Nrow - 0)); [|lia]. split; [apply VG'; exact Hk|].
    intros Hk2. pose proof (VG k Hk) as Q. destruct (Z.ltb_spec k K); [unfold K in *; lia|]. rewrite Q, HF by lia. apply cap_zero; apply Rle_refl. }
  2:{ intros i Hi. rewrite HFq. apply VF2. exact Hi. }
  intros i s Hi (L & Os & Vs). pose proof (Hix (i + 1) ltac:(lia)). pose proof (Hix (Nrow - 1 - i) ltac:(lia)).
  replace (Ncol * (i + 1) + M) with ((i + 1) * Ncol + M) by lia. replace (Ncol * (Nrow - 1 - i) + M) with ((Nrow - 1 - i) * Ncol + M) by lia.
  rewrite bget_ok by lia. cbn [bind]. rewrite bset_ok by lia. eexists. split; [reflexivity|].
  rewrite zlen_vset. split; auto. split; [apply Oset; auto; lia|]. intros k Hk. rewrite (Hset s (Nrow - 1 - i) k) by (auto; lia). destruct (Z.eqb_spec k (Nrow - 1 - i)) as [->|Ne].
  - destruct (Z.ltb_spec (Nrow - 1 - i) (Nrow - (i + 1))); [lia|].
    replace (Nrow - 1 - i - Nrow) with (- (i + 1)) by lia. rewrite FcolV_neg, <- sgn_powm1.
    specialize (Vs (i + 1) ltac:(lia)). destruct (Z.ltb_spec (i + 1) (Nrow - i)); [|lia]. destruct Vs as ((M0 & B0 & C1 & C2) & Zr). split; [|apply zrow_sign, Zr]. exists M0. split; [exact B0|].
    split; unfold Cmult, RtoC; cbn [fst snd]; [rewrite Rmult_0_l, Rminus_0_r|rewrite Rmult_0_l, Rplus_0_r]; apply ap_unit; auto.
  - specialize (Vs k Hk). destruct (Z.ltb_spec k (Nrow - i)), (Z.ltb_spec k (Nrow - (i + 1))); auto; lia.
Qed.
