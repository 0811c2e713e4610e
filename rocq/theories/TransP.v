(** * TransP: pysphi.py's sc_to_fc as a whole, and ispht with it, in double precision. *)
From Coq Require Import ZArith List Bool SpecFloat Reals Lia Lra Psatz.
From Coquelicot Require Import Coquelicot.
From Flocq Require Import Core.Core IEEE754.BinarySingleNaN.
From Verif Require Import Exact Py PyFacts Num FloatN FloatText MCoefs SpecCoefs CoefsFacts Sums Harm Smooth Dft MOps MPysphi PysphiFacts MTrans TransFacts TransFacts2 SpecHarm MKiss MCsphi CsphiFacts
  MDouble FlFacts SeedReal SeedFl SeedFl2 DoubleFacts P_Double FlSigned SbesselFTerm TabPert Unsold TabFl P_Table SumFl SumFl2 SumFl3 SumFl4 P_Sums
  MKissF KissFl KissFl2 KissFl5 MCsphiF MTransF TransF TransF2 MTransP.
Import ListNotations.
Open Scope list_scope.
Open Scope Z_scope.

Lemma zrow_sign_py n k z m : zrow n k z -> zrow n (- k) (cfmul (cfre (fofZ (powm1 m))) z).
Proof.
  intros H Hk. rewrite Z.abs_opp in Hk. destruct (H Hk) as [H1 H2]. cbn [fst snd RtoC] in *. assert (B0 : (0 + 0 <= BIG)%R) by (rewrite Rplus_0_l; apply bpow_ge_0).
  pose proof (ap_unit _ _ _ _ m H1 B0) as A1. pose proof (ap_unit _ _ _ _ m H2 B0) as A2. rewrite Rmult_0_r in A1, A2.
  unfold cfmul, cfre. split; cbn [fst snd RtoC].
  - eapply ap_fsub_0r; [exact A1|rewrite fmul_comm; apply ap_fmul_0; [apply H2|apply H2|apply ap_zero]|exact B0].
  - eapply ap_fadd_0r; [exact A2|rewrite fmul_comm; apply ap_fmul_0; [apply H1|apply H1|apply ap_zero]|exact B0].
Qed.
Lemma f_fcvec_acc_z w vec m nmax nrows B ew : Z.abs m <= nmax -> nmax <= 1022 -> nmax + 1 <= nrows -> zlen vec = nmax - Z.abs m + 1 ->
  (0 <= B <= bpow radix2 1000)%R -> (0 <= ew <= / 64)%R -> wap 1 ew w (ipow m) ->
  (forall i, 0 <= i <= nmax - Z.abs m -> cap B 0 (vget cf0 vec i) (VC (vget cf0 vec i))) ->
  exists F, f_fcvec_m_sc w vec m nmax nrows = Ok F /\ zlen F = nrows /\
    forall i, 0 <= i < nrows -> col_ok nmax B ew (vget cf0 F i) (FcolV (fun n => vget cf0 vec (n - Z.abs m)) nmax m (freqc nrows i)) /\
      zrow nmax (freqc nrows i) (vget cf0 F i).
Proof.
  intros Hm Hn Hr Lv HB Hew Hw Hx. unfold f_fcvec_m_sc. rewrite np_zeros_ok by lia. cbn [bind].
  set (K := nmax + 1). set (z0 := vmake nrows _). assert (Lz : zlen z0 = nrows) by (apply zlen_vmake'; lia).
  set (x := fun n => vget cf0 vec (n - Z.abs m)).
  edestruct (mfor_inv (fun (p : Z) (F : list cf) => zlen F = nrows /\ (forall k, K <= k < nrows -> vget cf0 F k = cf0) /\
      forall k, 0 <= k < K -> sums (map (fun n => cfmul (x n) (cfre (vget fz (ftab n m K) k))) (zrange (Z.abs m) p)) (vget cf0 F k)) (Z.abs m) K)
    as (F & E & LF & HF & VF); [unfold K; lia| | |rewrite E; cbn [bind]].
  { split; auto. assert (Z0 : forall k, 0 <= k < nrows -> vget cf0 z0 k = cf0) by (intros; unfold z0; rewrite vget_vmake by lia; reflexivity).
    split; [intros; apply Z0; unfold K in *; lia|]. intros k Hk. rewrite Z0 by (unfold K in *; lia). rewrite zrange_nil by lia. apply sums_nil. }
  { intros n F Hi (LF & HF & VF). destruct (ftab_ok n m K ltac:(lia) ltac:(unfold K in *; lia) ltac:(unfold K in *; lia)) as (-> & Lt & _). cbn [bind].
    rewrite py_get_ok by (unfold K in *; lia). cbn [bind]. cbv zeta.
    rewrite zlen_py_slice by (unfold K in *; lia). rewrite zlen_map, Lt, Z.sub_0_r, Z.eqb_refl.
    fold (x n).
    destruct (py_slice_set_ok F 0 K (zip_with cfadd (py_slice F 0 K) (map (fun y => cfmul (x n) (cfre y)) (ftab n m K)))) as (F' & -> & LF' & VF');
      [unfold K in *; lia|unfold K in *; lia| |].
    { rewrite zlen_zip_with; [rewrite zlen_py_slice by (unfold K in *; lia); lia|]. rewrite zlen_py_slice, zlen_map by (unfold K in *; lia). lia. }
    eexists. split; [reflexivity|]. split; [lia|]. split.
    - intros k Hk. rewrite VF' by (unfold K in *; lia). destruct (Z.leb_spec 0 k); [|unfold K in *; lia]. destruct (Z.ltb_spec k K); [lia|]. cbn [andb]. apply HF. lia.
    - intros k Hk. rewrite VF' by (unfold K in *; lia).
      destruct (Z.leb_spec 0 k); [|lia]. destruct (Z.ltb_spec k K); [|lia]. cbn [andb]. rewrite Z.sub_0_r.
      rewrite (vget_zip_with _ _ _ _ cf0 cf0) by (rewrite ?zlen_map, ?zlen_py_slice by (unfold K in *; lia); lia).
      rewrite vget_py_slice by (unfold K in *; lia). rewrite (vget_map _ fz) by lia. replace (0 + k) with k by lia.
      apply (sums_snoc (fun n => cfmul (x n) (cfre (vget fz (ftab n m K) k)))); [lia|]. apply VF. lia. }
  destruct (py_slice_set_ok F 0 K (map (fun a => cfmul a w) (py_slice F 0 K))) as (G & -> & LG & VG);
    [unfold K in *; lia|unfold K in *; lia|rewrite zlen_map, zlen_py_slice by (unfold K in *; lia); lia|]. cbn [bind]. cbv zeta.
  assert (VG' : forall k, 0 <= k < nrows -> col_ok nmax B ew (vget cf0 G k) (FcolV x nmax m k) /\ zrow nmax k (vget cf0 G k)).
  { intros k Hk. rewrite VG by lia. destruct (Z.leb_spec 0 k); [|lia]. destruct (Z.ltb_spec k K); cbn [andb].
    - split; [|intros Q; unfold K in *; lia]. rewrite Z.sub_0_r, (vget_map _ cf0) by (rewrite zlen_py_slice by (unfold K in *; lia); lia).
      rewrite vget_py_slice by (unfold K in *; lia). replace (0 + k) with k by lia.
      apply (col_py nmax B ew ltac:(lia) HB Hew x (fun n => VC (x n)) (fun n => vget fz (ftab n m K) k) (fun n => Yt n m k) (Z.abs m) w (ipow m)); auto; try lia.
      + intros n Hn'. apply Hx. lia.
      + intros n Hn'. destruct (ftab_ok n m K ltac:(lia) ltac:(lia) ltac:(unfold K; lia)) as (_ & _ & T). apply T; lia.
    - rewrite HF by lia. split; [|intros _; apply cap_zero; lra]. rewrite FcolV_hi by (unfold K in *; lia). apply col_ok_zero; auto. lia. }
  set (H := if nrows mod 2 =? 0 then nrows / 2 - 1 else (nrows - 1) / 2).
  assert (HH : 0 <= H /\ nrows <= 2 * H + 2 /\ 2 * H + 1 <= nrows).
  { unfold H. destruct (Z.eqb_spec (nrows mod 2) 0); [pose proof (Z.div_mod nrows 2 ltac:(lia)); lia|].
    pose proof (Z.div_mod (nrows - 1) 2 ltac:(lia)). pose proof (Z.mod_pos_bound (nrows - 1) 2 ltac:(lia)). lia. }
  edestruct (mfor_inv (fun (p : Z) (F : list cf) => zlen F = nrows /\
      forall k, 0 <= k < nrows -> col_ok nmax B ew (vget cf0 F k) (FcolV x nmax m (if k <? nrows - p then k else k - nrows)) /\ zrow nmax (if k <? nrows - p then k else k - nrows) (vget cf0 F k)) 0 H)
    as (F2 & E2 & LF2 & VF2); [lia| | |exists F2; split; [exact E2|]; split; [exact LF2|]].
  { split; [lia|]. intros k Hk. destruct (Z.ltb_spec k (nrows - 0)); [|lia]. apply VG'. exact Hk. }
  2:{ intros i Hi. replace (freqc nrows i) with (if i <? nrows - H then i else i - nrows); [apply VF2; exact Hi|]. unfold freqc.
      assert (nrows / 2 = H + 1 /\ nrows mod 2 = 0 \/ nrows / 2 = H /\ nrows mod 2 = 1) as HD.
      { unfold H; destruct (Z.eqb_spec (nrows mod 2) 0); lia. }
      destruct (Z.ltb_spec i (nrows - H)), (Z.leb_spec i (nrows / 2)); auto; lia. }
  intros i s Hi (L & Vs). rewrite py_get_ok by lia. cbn [bind]. unfold py_set, py_index.
  destruct (Z.leb_spec 0 (- (i + 1))); [lia|]. cbn [andb]. destruct (Z.leb_spec (- zlen s) (- (i + 1))); [|lia].
  destruct (Z.ltb_spec (- (i + 1)) 0); [|lia]. cbn [andb bind]. eexists. split; [reflexivity|].
  rewrite zlen_vset. split; auto. intros k Hk. destruct (Z.eq_dec k (- (i + 1) + zlen s)) as [Ek|Ne].
  - rewrite Ek. rewrite vget_vset_eq by lia. destruct (Z.ltb_spec (- (i + 1) + zlen s) (nrows - (i + 1))); [lia|].
    replace (- (i + 1) + zlen s - nrows) with (- (i + 1)) by lia. rewrite FcolV_neg, <- sgn_powm1.
    specialize (Vs (i + 1) ltac:(lia)). destruct (Z.ltb_spec (i + 1) (nrows - i)); [|lia]. destruct Vs as [V1 V2]. split; [apply col_ok_sign_py, V1|apply zrow_sign_py, V2].
  - rewrite vget_vset_ne by lia. specialize (Vs k Hk). destruct (Z.ltb_spec k (nrows - i)), (Z.ltb_spec k (nrows - (i + 1))); auto; lia.
Qed.

(** one column *)
Lemma fp_col_ok ipw sc N Mx nr nc m (g : Z -> Z -> cf) B ew : 0 <= Mx <= N -> N <= 1022 -> N + 1 <= nr -> 1 <= nc -> zlen sc = ncoef N Mx ->
  (0 <= B <= bpow radix2 1000)%R -> (0 <= ew <= / 64)%R -> (forall m, Z.abs m <= Mx -> wap 1 ew (ipw m) (ipow m)) ->
  (forall i, 0 <= i < zlen sc -> cap B 0 (vget cf0 sc i) (VC (vget cf0 sc i))) -> Z.abs m <= Mx -> - nc <= m < nc ->
  exists F, fp_sc_to_fc_col ipw sc N Mx nr nc m (fmake nr nc g) = Ok (fmake nr nc (fun p q => if q =? m mod nc then vget cf0 F p else g p q)) /\
    forall p, 0 <= p < nr -> col_ok N B ew (vget cf0 F p) (FcolV (ordv sc N m) N m (freqc nr p)) /\ zrow N (freqc nr p) (vget cf0 F p).
Proof.
  intros HM HN Hr Hc Ls HB Hew Hw Hx Hm Hmc. assert (Hg : good_size N Mx) by (unfold good_size; lia). destruct (cstart_range N Mx m Hg Hm) as [R1 R2].
  unfold fp_sc_to_fc_col. rewrite mindx_closed by auto. cbn [bind]. cbv zeta.
  assert (Hz : zlen (py_slice sc (cstart N m) (cstart N m + N - Z.abs m + 1)) = N - Z.abs m + 1) by (rewrite zlen_py_slice by lia; lia).
  assert (Hv : forall i, 0 <= i <= N - Z.abs m -> vget cf0 (py_slice sc (cstart N m) (cstart N m + N - Z.abs m + 1)) i = vget cf0 sc (cstart N m + i)) by (intros; rewrite vget_py_slice by lia; reflexivity).
  destruct (f_fcvec_acc_z (ipw m) (py_slice sc (cstart N m) (cstart N m + N - Z.abs m + 1)) m N nr B ew) as (F & E & LF & A); auto; try lia.
  { intros i Hi. rewrite Hv by lia. apply Hx. lia. }
  rewrite E. cbn [bind]. exists F. split.
  - unfold f_col_set. rewrite py_index_mod by lia. cbn [bind]. rewrite LF, Z.eqb_refl. f_equal. apply fmake_ext; try lia. intros p q Hp Hq. destruct (_ =? _); [reflexivity|]. apply fget_fmake; auto.
  - intros p Hp. destruct (A p Hp) as [A1 A2]. split; [|exact A2]. replace (FcolV (ordv sc N m) N m (freqc nr p)) with
      (FcolV (fun n => vget cf0 (py_slice sc (cstart N m) (cstart N m + N - Z.abs m + 1)) (n - Z.abs m)) N m (freqc nr p)); [exact A1|].
    unfold FcolV. f_equal. apply sumC_ext. intros n Hn. rewrite Hv by lia. reflexivity.
Qed.

Lemma fp_sc_to_fc_acc ipw sc nr nc N Mx B ew : 0 <= Mx <= N -> N <= 1022 -> N + 1 <= nr -> 2 * Mx + 2 <= nc -> zlen sc = ncoef N Mx ->
  (0 <= B <= bpow radix2 1000)%R -> (0 <= ew <= / 64)%R -> (forall m, Z.abs m <= Mx -> wap 1 ew (ipw m) (ipow m)) ->
  (forall i, 0 <= i < zlen sc -> cap B 0 (vget cf0 sc i) (VC (vget cf0 sc i))) ->
  exists fd, fp_sc_to_fc ipw sc N Mx nr nc = Ok fd /\ zlen fd = nr * nc /\
    forall p q, 0 <= p < nr -> 0 <= q < nc -> col_ok N B ew (fget nc fd p q) (FscV sc N Mx (freqc nc q) (freqc nr p)) /\
      (Mx < Z.abs (freqc nc q) \/ N < Z.abs (freqc nr p) -> cap 0 0 (fget nc fd p q) (RtoC 0)).
Proof.
  intros HM HN Hr Hc Ls HB Hew Hw Hx. unfold fp_sc_to_fc. destruct (Z.ltb_spec nr 0); [lia|]. destruct (Z.ltb_spec nc 0); [lia|]. cbn [orb].
  set (OK := fun m p z => col_ok N B ew z (FcolV (ordv sc N m) N m (freqc nr p)) /\ zrow N (freqc nr p) z).
  set (st := fun k p q z => if q <? Z.min k (Mx + 1) then OK q p z else if nc - Z.min k Mx <=? q then OK (q - nc) p z else z = cf0).
  set (I := fun k fd => exists g, fd = fmake nr nc g /\ forall p q, 0 <= p < nr -> 0 <= q < nc -> st k p q (g p q)).
  assert (Col : forall m g, Z.abs m <= Mx -> exists F, fp_sc_to_fc_col ipw sc N Mx nr nc m (fmake nr nc g) = Ok (fmake nr nc (fun p q => if q =? m mod nc then vget cf0 F p else g p q)) /\
    forall p, 0 <= p < nr -> OK m p (vget cf0 F p)).
  { intros m g Hm. apply (fp_col_ok ipw sc N Mx nr nc m g B ew); auto; lia. }
  match goal with |- context [mfor (zrange 0 (nc / 2)) ?f0 ?b0] => destruct (mfor_inv I 0 (nc / 2) f0 b0) as (fd & E & (g & Eg & Hs)) end.
  - lia.
  - exists (fun _ _ => cf0). split; [reflexivity|]. intros p q Hp Hq. unfold st. rewrite !Z.min_l by lia.
    destruct (Z.ltb_spec q 0); [lia|]. destruct (Z.leb_spec (nc - 0) q); [lia|reflexivity].
  - intros k s Hk (g & Es & Hs). subst s. destruct (Z.ltb_spec k Mx) as [L|L].
    + destruct (Col k g ltac:(lia)) as (F1 & -> & A1). cbn [bind].
      match goal with |- context [fp_sc_to_fc_col _ _ _ _ _ _ (- (k + 1)) (fmake nr nc ?g1)] => destruct (Col (- (k + 1)) g1 ltac:(lia)) as (F2 & -> & A2) end. cbn [bind].
      destruct (Z.eqb_spec k Mx); [lia|]. eexists. split; [reflexivity|]. eexists. split; [reflexivity|]. intros p q Hp Hq. cbv beta.
      rewrite mod_neg_small by lia. rewrite (Z.mod_small k) by lia. pose proof (Hs p q Hp Hq) as Q. unfold st in *. rewrite !Z.min_l in * by lia.
      destruct (Z.eqb_spec q (- (k + 1) + nc)) as [Eq|N1].
      * destruct (Z.ltb_spec q (k + 1)); [lia|]. destruct (Z.leb_spec (nc - (k + 1)) q); [|lia]. replace (q - nc) with (- (k + 1)) by lia. apply A2, Hp.
      * destruct (Z.eqb_spec q k) as [->|N2].
        -- destruct (Z.ltb_spec k (k + 1)); [|lia]. apply A1, Hp.
        -- destruct (Z.ltb_spec q k), (Z.ltb_spec q (k + 1)), (Z.leb_spec (nc - k) q), (Z.leb_spec (nc - (k + 1)) q); try lia; exact Q.
    + cbn [bind]. destruct (Z.eqb_spec k Mx) as [E|Hne].
      * destruct (Col k g ltac:(lia)) as (F1 & -> & A1). eexists. split; [reflexivity|]. eexists. split; [reflexivity|]. intros p q Hp Hq. cbv beta.
        rewrite (Z.mod_small k) by lia. pose proof (Hs p q Hp Hq) as Q. unfold st in *. rewrite (Z.min_l (k + 1) (Mx + 1)), (Z.min_r (k + 1) Mx) by lia.
        destruct (Z.eqb_spec q k) as [->|N1]; [destruct (Z.ltb_spec k (k + 1)); [apply A1, Hp|lia]|].
        rewrite (Z.min_l k (Mx + 1)), (Z.min_l k Mx) in Q by lia. rewrite <- E.
        destruct (Z.ltb_spec q k), (Z.ltb_spec q (k + 1)); try lia; exact Q.
      * eexists. split; [reflexivity|]. exists g. split; [reflexivity|]. intros p q Hp Hq. pose proof (Hs p q Hp Hq) as Q. unfold st in *. rewrite !Z.min_r in * by lia. exact Q.
  - exists fd. split; [exact E|]. subst fd. split; [unfold fmake; apply zlen_vmake'; nia|]. intros p q Hp Hq. rewrite fget_fmake by auto. pose proof (Hs p q Hp Hq) as Q. unfold st in Q.
    rewrite !Z.min_r in Q by lia. unfold FscV.
    assert (Z0 : g p q = cf0 -> Mx < Z.abs (freqc nc q) -> col_ok N B ew (g p q) (if Z.abs (freqc nc q) <=? Mx then FcolV (ordv sc N (freqc nc q)) N (freqc nc q) (freqc nr p) else RtoC 0) /\
      (Mx < Z.abs (freqc nc q) \/ N < Z.abs (freqc nr p) -> cap 0 0 (g p q) (RtoC 0))).
    { intros -> Hq2. destruct (Z.leb_spec (Z.abs (freqc nc q)) Mx); [lia|]. split; [apply col_ok_zero; auto; lra || lia|]. intros _. apply cap_zero; apply Rle_refl. }
    assert (F0 : freqc nc q = if q <=? nc / 2 then q else q - nc) by reflexivity.
    assert (OKOK : forall m, freqc nc q = m -> Z.abs m <= Mx -> OK m p (g p q) -> col_ok N B ew (g p q) (if Z.abs (freqc nc q) <=? Mx then FcolV (ordv sc N (freqc nc q)) N (freqc nc q) (freqc nr p) else RtoC 0) /\
      (Mx < Z.abs (freqc nc q) \/ N < Z.abs (freqc nr p) -> cap 0 0 (g p q) (RtoC 0))).
    { intros m -> Hm [G1 G2]. destruct (Z.leb_spec (Z.abs m) Mx); [|lia]. split; [exact G1|]. intros [Hk|Hk]; [lia|]. apply G2, Hk. }
    destruct (Z.ltb_spec q (Mx + 1)).
    + apply (OKOK q); [rewrite F0; destruct (Z.leb_spec q (nc / 2)); lia|lia|exact Q].
    + destruct (Z.leb_spec (nc - Mx) q).
      * apply (OKOK (q - nc)); [rewrite F0; destruct (Z.leb_spec q (nc / 2)); lia|lia|exact Q].
      * apply Z0; [exact Q|]. rewrite F0. destruct (Z.leb_spec q (nc / 2)); lia.
Qed.

(** ** ispht *)
Open Scope R_scope.
Lemma fp_ispht_core eps ifft2 ipw sc N Mx nrows ncols B ew : ifft_acc eps ifft2 -> 0 <= eps <= / 2 -> (0 <= Mx <= N)%Z -> (N <= 1022)%Z -> (N < nrows)%Z -> (2 <= nrows <= 2 ^ 29)%Z ->
  (2 * Mx + 2 <= ncols <= 2 ^ 30)%Z -> (ncols mod 2 = 0)%Z -> zlen sc = ncoef N Mx -> bpow radix2 (-700) <= B <= bpow radix2 800 -> 0 <= ew <= / 2 ^ 40 ->
  (forall m, (Z.abs m <= Mx)%Z -> wap 1 ew (ipw m) (ipow m)) ->
  (forall i, (0 <= i < zlen sc)%Z -> cap B 0 (vget cf0 sc i) (VC (vget cf0 sc i))) ->
  let L := (2 * nrows - 2)%Z in let e0 := eacc N B ew in
  exists ds, fp_ispht ifft2 ipw sc N Mx (Some nrows) (Some ncols) = Ok (L, ncols, ds) /\ zlen ds = (L * ncols)%Z /\
    forall p q, (0 <= p < L)%Z -> (0 <= q < ncols)%Z -> near (modes N Mx * (2 * e0) + modes N Mx * (entry_bound N B + 2 * e0) * (eps + 40 * uu)) (fget ncols ds p q) (synth L ncols (FscV sc N Mx) p q).
Proof.
  intros HF He HM HN Hr Hr2 Hc Hc2 Ls HB Hew Hw Hx L e0. assert (HL : (N + 1 <= L)%Z) by (unfold L; lia). pose proof (bpow_gt_0 radix2 (-700)) as B0.
  destruct (fp_sc_to_fc_acc ipw sc L ncols N Mx B ew HM HN HL ltac:(lia) Ls) as (fd & Efd & Lfd & A); [| |exact Hw|exact Hx|].
  { split; [lra|]. apply Rle_trans with (bpow radix2 800); [lra|apply bpow_le; lia]. }
  { lra. }
  unfold fp_ispht. destruct (Z.leb_spec nrows N); [lia|]. destruct (Z.ltb_spec ncols (2 * Mx + 2)); [lia|]. rewrite Hc2. change (0 =? 1)%Z with false. cbv iota. fold L.
  rewrite Efd. cbn [bind]. destruct (Z.ltb_spec L 1); [lia|]. destruct (Z.ltb_spec ncols 1); [lia|]. cbn [orb].
  pose proof (eacc_Bw N B ew ltac:(lia) ltac:(lra) Hew) as EB. fold e0 in EB.
  destruct (ispht_tail eps ifft2 fd (FscV sc N Mx) N Mx L ncols B e0 HF He HM HN ltac:(unfold L; lia) ltac:(lia) Lfd HB EB) as (Lo & O).
  { intros p q Hp Hq. destruct (A p q Hp Hq) as ((M & _ & Cp) & _). exact (cap_near _ _ _ _ Cp). }
  { intros p q Hp Hq Hs. destruct (A p q Hp Hq) as (_ & Z0). destruct (Z0 Hs) as [Z1 Z2]. unfold VC. cbn [RtoC fst snd] in *. rewrite (V_ap0 _ Z1), (V_ap0 _ Z2). reflexivity. }
  { intros m k Hs. unfold FscV. destruct (Z.leb_spec (Z.abs m) Mx); [|reflexivity]. apply FcolV_hi. lia. }
  { intros. apply FscV_size; auto. lra. }
  eexists. split; [reflexivity|]. split; [exact Lo|]. exact O.
Qed.
