(** * P_HkmP2: C79 and C80, the Python backend's spht in double precision and the round trip. *)
From Coq Require Import ZArith List Bool SpecFloat Reals Lia Lra Psatz.
From Coquelicot Require Import Coquelicot.
From Flocq Require Import Core.Core IEEE754.BinarySingleNaN.
From Verif Require Import Exact Py PyFacts Num FloatN FloatText MCoefs SpecCoefs CoefsFacts CoefsFacts2 Obs CoefsFacts3 Sums Harm Smooth Dft MOps MPysphi PysphiFacts MTrans TransFacts TransFacts2 SpecHarm HarmFacts MKiss KissFacts KissFacts2 SpecDft MCsphi CsphiFacts MPatt P_Coefs P_Trans
  MDouble FlFacts SeedReal SeedFl SeedFl2 DoubleFacts P_Double FlSigned SbesselFTerm TabPert Unsold TabFl P_Table SumFl SumFl2 SumFl3 SumFl4 P_Sums
  MKissF KissFl KissFl2 KissFl5 P_KissF MCsphiF HkmF P_CsphiF MTransF TransF P_TransF TransF2 P_TransF2 MTransP TransP P_TransP MHkmP HkmP P_HkmP.
Import ListNotations.
Open Scope list_scope.
Open Scope Z_scope.

(** ** Specification (as in P_TransF2, P_TransP and P_HkmP) *)

(** np.fft as a whole: the four routines used are accurate to eps *)
Definition np_fft_accurate (eps : R) (fft2 ifft2 : Z -> Z -> list cf -> list cf) (fft ifft : list cf -> list cf) : Prop :=
  fft2_accurate eps fft2 /\ ifft2_accurate eps ifft2 /\ fft_accurate eps fft /\ ifft_accurate eps ifft.
(** the values of 1j ** m are accurate to ew up to |m| = mmax, and np.sum adds all entries in some order *)
Definition powers_accurate (ew : R) (ipw : Z -> cf) (mmax : Z) : Prop := forall m, Z.abs m <= mmax -> within ew (ipw m) (i_pow m).
Definition some_order (sum : list cf -> cf) : Prop := forall l, sums l (sum l).

(** [coef_tol] for the Python backend *)
Definition coef_tol_py (eps ew : R) (nrows nmax n : Z) (D e : R) : R :=
  (sum_tol n (data_bound (2 * nrows + nmax) (4 * IZR nrows * D)) ew + exact_tol n (py_data_error eps (2 * nrows + nmax) (4 * IZR nrows * D)) +
   exact_tol n (data_bound (2 * nrows + nmax) ((eps + 30 / 2 ^ 53) * D + e)))%R.

(** ** Connections *)
Lemma core_py eps ew fft2 fft ifft sum ipw nrows ncols d s onmax ommax nmax mmax D e :
  fft2_accurate eps fft2 -> fft_accurate eps fft -> ifft_accurate eps ifft -> (0 <= eps <= / 2 ^ 30)%R -> some_order sum -> (0 <= ew <= 1 / 64)%R -> powers_accurate ew ipw mmax ->
  asks nrows ncols onmax ommax nmax mmax -> 0 <= mmax <= nmax -> nmax <= nrows - 2 -> nmax <= 1022 -> 2 * mmax < ncols <= 2 ^ 30 -> ncols mod 2 = 0 -> 2 * nrows + nmax <= 2 ^ 19 ->
  zlen d = (2 * nrows - 2) * ncols -> (/ 2 ^ 700 <= D <= 2 ^ 800)%R -> (forall i, 0 <= i < zlen d -> cbounded D (vget cf0 d i)) ->
  mt_nr RN s = 2 * nrows - 2 -> mt_nc RN s = ncols ->
  (forall i j, 0 <= i < 2 * nrows - 2 -> 0 <= j < ncols -> (Cmod (cvalue (fget ncols d i j) - mget RN s i j)%C <= e)%R) ->
  exists sc, fp_spht fft2 sum ipw fft ifft (2 * nrows - 2) ncols d onmax ommax = Ok (nmax, mmax, sc) /\ zlen sc = ncoef nmax mmax /\
    forall n m, is_mode nmax mmax n m -> within (coef_tol_py eps ew nrows nmax n D e) (vget cf0 sc (pos nmax n m)) (spht_val s nrows n m).
Proof.
  intros H2 H1 H1' He HS Hew Hip HA HM HN1 HN Hm Hc2 HRN Ld HD Hd Sr Sc Hs.
  assert (He4 : (0 <= eps <= / 4)%R) by (split; [lra|]; apply Rle_trans with (/ 2 ^ 30)%R; [lra|]; apply Rinv_le_contravar; [lra|]; apply Rle_trans with (2 ^ 2)%R; [lra|apply Rle_pow; [lra|lia]]).
  destruct (f_spht_front eps fft2 nrows ncols d s nmax mmax D e) as (ext & a & Ef & Le & Ar & Ac & HFr & COL & PT); auto; try lia.
  { apply fft_acc_of, H2. } { apply size_range7, HD. }
  { intros p q Hp Hq. unfold fget. destruct (Hd (p * ncols + q)) as (D1 & F1 & D2 & F2 & B); [nia|]. split; [now apply double_finc|exact B]. }
  destruct (C78_spht_python_accurate eps ew fft ifft sum ipw ext a nrows nmax mmax (4 * IZR nrows * D) H1 H1' He HS Hew Hip HM HN Ar) as (c & v & Ec & Ev & Lcv & W); auto; try lia.
  destruct (PT v Ev) as (Lv & PT').
  exists c. split; [|split; [congruence|]].
  - unfold fp_spht. replace ((2 * nrows - 2) / 2 + 1) with nrows by lia. rewrite (asks_sizes _ _ _ _ nmax mmax HA).
    rewrite spht_guard_ok by (auto; lia). cbn [bind]. destruct (Z.ltb_spec (2 * nrows - 2) 1); [lia|]. destruct (Z.ltb_spec ncols 1); [lia|]. cbn [orb].
    rewrite (front_bind _ _ _ _ _ Ef).
    assert (NC : 0 <= ncoef nmax mmax) by (unfold ncoef; nia).
    unfold np_zeros. destruct (Z.ltb_spec (ncoef nmax mmax) 0); [lia|]. cbn [bind].
    replace (2 * nrows - 2 + 2) with (2 * nrows) by ring. rewrite <- Ac at 1. rewrite Ec. reflexivity.
  - intros n m Hn. unfold coef_tol_py. replace (30 / 2 ^ 53)%R with (30 * uu)%R by (rewrite uu_val; lra). apply PT'; auto.
Qed.

(** ** Theorems *)

(** spht with the Python backend: the counterpart of C75. *)
Theorem C79_spht_accurate : forall eps ew fft2 ifft2 fft ifft sum ipw nrows ncols d s onmax ommax nmax mmax D e,
  np_fft_accurate eps fft2 ifft2 fft ifft -> (0 <= eps <= / 2 ^ 30)%R -> some_order sum -> (0 <= ew <= 1 / 64)%R -> powers_accurate ew ipw mmax ->
  asks nrows ncols onmax ommax nmax mmax -> 0 <= mmax <= nmax -> nmax <= nrows - 2 -> nmax <= 1022 -> 2 * mmax < ncols <= 2 ^ 30 -> ncols mod 2 = 0 -> 2 * nrows + nmax <= 2 ^ 19 ->
  zlen d = (2 * nrows - 2) * ncols -> (/ 2 ^ 700 <= D <= 2 ^ 800)%R -> (forall i, 0 <= i < zlen d -> cbounded D (vget cf0 d i)) ->
  mt_nr RN s = 2 * nrows - 2 -> mt_nc RN s = ncols ->
  (forall i j, 0 <= i < 2 * nrows - 2 -> 0 <= j < ncols -> (Cmod (cvalue (fget ncols d i j) - mget RN s i j)%C <= e)%R) ->
  exists sc c, fp_spht fft2 sum ipw fft ifft (2 * nrows - 2) ncols d onmax ommax = Ok (nmax, mmax, sc) /\ zlen sc = ncoef nmax mmax /\
    spht py_backend s onmax ommax = Ok c /\ valid RN c /\ sc_nmax RN c = nmax /\ sc_mmax RN c = mmax /\
    forall n m, is_mode nmax mmax n m -> exists x, reads RN c n m x /\ within (coef_tol_py eps ew nrows nmax n D e) (vget cf0 sc (pos nmax n m)) x.
Proof.
  intros eps ew fft2 ifft2 fft ifft sum ipw nrows ncols d s onmax ommax nmax mmax D e (H2 & _ & H1 & H1') He HS Hew Hip HA HM HN1 HN Hm Hc2 HRN Ld HD Hd Sr Sc Hs.
  destruct (core_py eps ew fft2 fft ifft sum ipw nrows ncols d s onmax ommax nmax mmax D e) as (sc & E & L & A); auto.
  destruct (spht_eq s nrows nmax mmax) as (c & Ec & W & N1 & N2 & V); try lia.
  exists sc, c. split; [exact E|]. split; [exact L|]. assert (Hv : valid RN c) by now apply valid_wf.
  split; [|split; [exact Hv|split; [exact N1|split; [exact N2|]]]].
  - rewrite <- Ec. unfold spht. cbn [spht_sizes]. rewrite (asks_sizes _ _ _ _ nmax mmax); [reflexivity|].
    unfold p_nrows, p_ncols. rewrite Sr, Sc. replace ((2 * nrows - 2) / 2 + 1) with nrows by lia. exact HA.
  - intros n m Hn. exists (spht_val s nrows n m). split; [|apply A, Hn]. apply reads_iff; [exact Hv|]. rewrite N1, N2. split; [exact Hn|]. symmetry. apply V, Hn.
Qed.
Print Assumptions C79_spht_accurate.

(** On the same double sphere of doubles the two backends return coefficients of the same sizes
    that differ in each part by at most the sum of the two bounds (e = 0: no other error). *)
Theorem C79_backends_agree : forall eps delta ew fft2 ifft2 fft ifft sum ipw cosf sinf junk junkr junki nrows ncols d onmax ommax nmax mmax D,
  np_fft_accurate eps fft2 ifft2 fft ifft -> (0 <= eps <= / 2 ^ 30)%R -> some_order sum -> (0 <= ew <= 1 / 64)%R -> powers_accurate ew ipw mmax ->
  trig_accurate delta cosf sinf -> (0 <= delta <= / 2 ^ 44)%R ->
  asks nrows ncols onmax ommax nmax mmax -> 0 <= mmax <= nmax -> nmax <= nrows - 2 -> nmax <= 1022 -> 2 * mmax < ncols <= 2 ^ 30 -> ncols mod 2 = 0 -> 2 * nrows + nmax <= 2 ^ 19 ->
  zlen d = (2 * nrows - 2) * ncols -> (/ 2 ^ 700 <= D <= 2 ^ 800)%R -> (forall i, 0 <= i < zlen d -> cbounded D (vget cf0 d i)) ->
  exists cp cc, fp_spht fft2 sum ipw fft ifft (2 * nrows - 2) ncols d onmax ommax = Ok (nmax, mmax, cp) /\
    f_spht fft2 cosf sinf junk junkr junki (2 * nrows - 2) ncols d onmax ommax = Ok (nmax, mmax, cc) /\ zlen cp = zlen cc /\
    forall n m, is_mode nmax mmax n m -> let x := vget cf0 cp (pos nmax n m) in let y := vget cf0 cc (pos nmax n m) in let t := (coef_tol_py eps ew nrows nmax n D 0 + coef_tol delta eps nrows nmax n D 0)%R in
      (Rabs (fst (cvalue x) - fst (cvalue y)) <= t /\ Rabs (snd (cvalue x) - snd (cvalue y)) <= t)%R.
Proof.
  intros eps delta ew fft2 ifft2 fft ifft sum ipw cosf sinf junk junkr junki nrows ncols d onmax ommax nmax mmax D (H2 & _ & H1 & H1') He HS Hew Hip HT Hdl HA HM HN1 HN Hm Hc2 HRN Ld HD Hd.
  set (s := mmake RN (2 * nrows - 2) ncols (fun i j => cvalue (fget ncols d i j))).
  assert (Hs : forall i j, 0 <= i < 2 * nrows - 2 -> 0 <= j < ncols -> (Cmod (cvalue (fget ncols d i j) - mget RN s i j)%C <= 0)%R).
  { intros i j Hi Hj. unfold s. change (mget RN ?a ?p ?q) with (cget a p q). rewrite cget_mmake by lia. 
    replace (cvalue (fget ncols d i j) - cvalue (fget ncols d i j))%C with (RtoC 0) by ring. rewrite Cmod_0. lra. }
  assert (He4 : (0 <= eps <= 1 / 4)%R) by (split; [lra|]; apply Rle_trans with (/ 2 ^ 30)%R; [lra|]; replace (1 / 4)%R with (/ 4)%R by field; apply Rinv_le_contravar; [lra|]; apply Rle_trans with (2 ^ 2)%R; [lra|apply Rle_pow; [lra|lia]]).
  destruct (core_py eps ew fft2 fft ifft sum ipw nrows ncols d s onmax ommax nmax mmax D 0) as (cp & Ep & Lp & Ap); auto.
  destruct (core2 delta eps fft2 cosf sinf junk junkr junki nrows ncols d s onmax ommax nmax mmax D 0) as (cc & Ec & Lc & Ac); auto.
  exists cp, cc. split; [exact Ep|]. split; [exact Ec|]. split; [congruence|]. intros n m Hn. cbv zeta.
  destruct (Ap n m Hn) as (_ & _ & P1 & _ & _ & P2). destruct (Ac n m Hn) as (_ & _ & Q1 & _ & _ & Q2).
  unfold cvalue. cbn [fst snd]. split.
  - match type of P1 with (Rabs (?x - ?h) <= _)%R => match type of Q1 with (Rabs (?y - _) <= _)%R => replace (x - y)%R with ((x - h) - (y - h))%R by ring end end.
    eapply Rle_trans; [apply Rabs_triang|]. rewrite Rabs_Ropp. lra.
  - match type of P2 with (Rabs (?x - ?h) <= _)%R => match type of Q2 with (Rabs (?y - _) <= _)%R => replace (x - y)%R with ((x - h) - (y - h))%R by ring end end.
    eapply Rle_trans; [apply Rabs_triang|]. rewrite Rabs_Ropp. lra.
Qed.
Print Assumptions C79_backends_agree.

(** The round trip with the Python backend (C76 for the C backend). *)
Theorem C80_round_trip_accurate : forall eps ew fft2 ifft2 fft ifft sum ipw sc nmax mmax nrows ncols B D,
  np_fft_accurate eps fft2 ifft2 fft ifft -> (0 <= eps <= / 2 ^ 30)%R -> some_order sum -> (0 <= ew <= / 2 ^ 40)%R -> powers_accurate ew ipw mmax ->
  0 <= mmax <= nmax -> nmax <= 1022 -> zlen sc = ncoef nmax mmax -> nmax + 2 <= nrows -> 2 * nrows + nmax <= 2 ^ 19 -> 2 * mmax + 2 <= ncols <= 2 ^ 30 -> ncols mod 2 = 0 ->
  (/ 2 ^ 700 <= B <= 2 ^ 800)%R -> (forall i, 0 <= i < zlen sc -> bounded B (vget cf0 sc i)) -> (/ 2 ^ 700 <= D <= 2 ^ 800)%R ->
  (forall i j, 0 <= i < 2 * nrows - 2 -> 0 <= j < ncols ->
    (Cmod (harm_series nmax mmax (fun n m => cvalue (vget cf0 sc (pos nmax n m))) (PI * IZR i / IZR (nrows - 1)) (2 * PI * IZR j / IZR ncols)) + sample_tol_w eps ew nmax mmax B <= D)%R) ->
  exists ds sc', fp_ispht ifft2 ipw sc nmax mmax (Some nrows) (Some ncols) = Ok (2 * nrows - 2, ncols, ds) /\
    fp_spht fft2 sum ipw fft ifft (2 * nrows - 2) ncols ds (Some nmax) (Some mmax) = Ok (nmax, mmax, sc') /\ zlen sc' = zlen sc /\
    forall n m, is_mode nmax mmax n m ->
      within (coef_tol_py eps ew nrows nmax n D (sample_tol_w eps ew nmax mmax B)) (vget cf0 sc' (pos nmax n m)) (cvalue (vget cf0 sc (pos nmax n m))).
Proof.
  intros eps ew fft2 ifft2 fft ifft sum ipw sc N M nrows ncols B D (H2 & HI & H1 & H1') He HS Hew Hip HM HN Ls Hr HRN Hc Hc2 HB Hx HD Hsz.
  assert (E40 : (/ 2 ^ 40 <= 1 / 64)%R) by lra. assert (E30 : (/ 2 ^ 30 <= 1 / 2)%R) by lra.
  destruct (C77_ispht_accurate eps ifft2 ew ipw sc N M nrows ncols B) as (ds & E & L & A); auto; try lia; try (split; lra).
  set (c := mkSC RN (map VC sc) N M).
  assert (Hg : good_size N M) by (unfold good_size; lia).
  assert (Hw : sc_wf RN c) by (split; [exact Hg|]; unfold c; cbn [sc_vec sc_nmax sc_mmax]; rewrite zlen_map; exact Ls).
  assert (Ev : forall n m, is_mode N M n m -> cval RN c n m = VC (vget cf0 sc (pos N n m))).
  { intros n m (Hm1 & Hm2 & Hm3). unfold cval, c. cbn [sc_vec sc_nmax]. rewrite c0_RN. destruct (cstart_range N M m Hg ltac:(lia)). unfold pos. 
    rewrite (vget_map _ cf0) by lia. reflexivity. }
  assert (Es : forall i j, 0 <= i < 2 * nrows - 2 -> 0 <= j < ncols ->
    synth (2 * nrows - 2) ncols (Fsc c) i j = harm_series N M (fun n m => cvalue (vget cf0 sc (pos N n m))) (PI * IZR i / IZR (nrows - 1)) (2 * PI * IZR j / IZR ncols)).
  { intros i j Hi Hj. rewrite synth_Fsc by (auto; unfold c; cbn [sc_nmax sc_mmax]; lia). unfold c. cbn [sc_nmax sc_mmax]. unfold expansion, harm_series.
    replace (2 * PI * IZR i / IZR (2 * nrows - 2))%R with (PI * IZR i / IZR (nrows - 1))%R.
    2: { replace (2 * nrows - 2) with (2 * (nrows - 1)) by lia. rewrite mult_IZR. field. apply not_0_IZR. lia. }
    apply sumC_ext. intros m Hm. apply sumC_ext. intros n Hn. rewrite Yc_sph_harm by lia. f_equal. apply Ev. unfold is_mode. lia. }
  set (s := mmake RN (2 * nrows - 2) ncols (synth (2 * nrows - 2) ncols (Fsc c))).
  destruct (core_py eps ew fft2 fft ifft sum ipw nrows ncols ds s (Some N) (Some M) N M D (sample_tol_w eps ew N M B)) as (sc' & E' & L' & A'); auto; try lia; try (split; lra).
  { split; reflexivity. }
  { intros k Hk. rewrite L in Hk. pose proof (Z.div_mod k ncols ltac:(lia)) as Ek. pose proof (Z.mod_pos_bound k ncols ltac:(lia)) as Bk.
    assert (Bi : 0 <= k / ncols < 2 * nrows - 2) by (split; [apply Z.div_pos; lia|apply Z.div_lt_upper_bound; lia]).
    pose proof (Hsz (k / ncols) (k mod ncols) Bi Bk) as Q. destruct (A (k / ncols) (k mod ncols) Bi Bk) as (D1 & F1 & D2 & F2 & G).
    assert (Eg : fget ncols ds (k / ncols) (k mod ncols) = vget cf0 ds k) by (unfold fget; f_equal; lia).
    rewrite Eg in *. split; [exact D1|]. split; [exact F1|]. split; [exact D2|]. split; [exact F2|].
    match type of G with (Cmod (?z - ?h)%C <= _)%R => replace z with ((z - h) + h)%C by ring end.
    eapply Rle_trans; [apply Cmod_triangle|]. lra. }
  { intros i j Hi Hj. unfold s. change (mget RN ?a ?p ?q) with (cget a p q). rewrite cget_mmake by lia. rewrite Es by auto. apply A; auto. }
  exists ds, sc'. split; [exact E|]. split; [exact E'|]. split; [congruence|]. intros n m Hm. specialize (A' n m Hm). pose proof Hm as (M1 & M2 & M3).
  replace (spht_val s nrows n m) with (cval RN c n m) in A'; [rewrite Ev in A' by exact Hm; exact A'|].
  unfold s. rewrite (half_even ncols Hc2). rewrite spht_val_Fsc by (auto; unfold c; cbn [sc_nmax sc_mmax]; lia). unfold c at 2 3. cbn [sc_nmax sc_mmax].
  destruct (Z.leb_spec (Z.abs m) M); [|lia]. destruct (Z.leb_spec n N); [|lia]. reflexivity.
Qed.
Print Assumptions C80_round_trip_accurate.

(** The same with a bound for the samples that depends on the sizes and B only. *)
Definition samples_size_w (eps ew : R) (nmax mmax : Z) (B : R) : R :=
  (IZR (2 * mmax + 1) * (IZR (nmax + 1) * (2 * B * sqrt ((2 * IZR nmax + 1) / (4 * PI)))) + sample_tol_w eps ew nmax mmax B)%R.
Lemma samples_range_w eps ew N M B : (0 <= ew <= / 2 ^ 40)%R -> (0 <= eps <= 1 / 2)%R -> 0 <= M <= N -> N <= 1022 -> (/ 2 ^ 690 <= B <= 2 ^ 700)%R -> (/ 2 ^ 700 <= samples_size_w eps ew N M B <= 2 ^ 800)%R.
Proof.
  intros Hew He HM HN HB. pose proof (ymax_range N ltac:(lia)) as Y. pose proof uu_small as [U0 U1].
  assert (HB' : (bpow radix2 (-690) <= B <= bpow radix2 700)%R). { change 700 with (Z.of_nat 700). change (-690) with (- Z.of_nat 690). rewrite bpow_neg, bpow2_pow. exact HB. }
  clear HB. pose proof (bpow_gt_0 radix2 (-690)) as B0. assert (B7 : (bpow radix2 (-700) <= bpow radix2 (-690))%R) by (apply bpow_le; lia).
  pose proof (eacc_Bw N B ew ltac:(lia) ltac:(lra) Hew) as EB. unfold samples_size_w. rewrite <- sample_tol_w_eq. set (e0 := eacc N B ew) in *. clearbody e0. fold (ymax N).
  assert (N0 : (0 <= IZR N <= 1022)%R) by (split; apply IZR_le; lia). assert (M0 : (0 <= IZR M <= 1022)%R) by (split; apply IZR_le; lia).
  assert (W0 : (/ 2 * B <= entry_bound N B <= 28644 * B)%R).
  { unfold entry_bound. assert (Q : (/ 4 <= (IZR N + 1) * ymax N <= 1023 * 14)%R) by (split; [apply Rle_trans with (1 * / 4)%R; [lra|apply Rmult_le_compat; lra]|apply Rmult_le_compat; lra]).
    replace (2 * (IZR N + 1) * ymax N * B)%R with (2 * ((IZR N + 1) * ymax N) * B)%R by ring. split; apply Rmult_le_compat_r; lra. }
  assert (S1 : (1 <= modes N M <= 2045 * 2045)%R).
  { unfold modes. rewrite !plus_IZR, !mult_IZR. split; [apply Rle_trans with (1 * 1)%R; [lra|apply Rmult_le_compat; lra]|apply Rmult_le_compat; lra]. }
  assert (T1 : (0 <= modes N M * (2 * e0) <= 2045 * 2045 * (2 * B))%R) by (split; [apply Rmult_le_pos; lra|apply Rmult_le_compat; lra]).
  assert (T2 : (0 <= modes N M * (entry_bound N B + 2 * e0) * (eps + 40 * uu) <= 2045 * 2045 * (28646 * B) * 1)%R).
  { split; [apply Rmult_le_pos; [apply Rmult_le_pos; lra|lra]|]. apply Rmult_le_compat; try lra; [apply Rmult_le_pos; lra|apply Rmult_le_compat; lra]. }
  assert (T3 : (/ 2 * B <= IZR (2 * M + 1) * (IZR (N + 1) * (2 * B * ymax N)) <= 2045 * (1023 * (28 * B)))%R).
  { rewrite !plus_IZR, !mult_IZR. assert (Q2 : (/ 2 * B <= 2 * B * ymax N <= 28 * B)%R).
    { split; [replace (/ 2 * B)%R with (2 * B * / 4)%R by field|replace (28 * B)%R with (2 * B * 14)%R by ring]; apply Rmult_le_compat_l; lra. }
    assert (Q3 : (1 * (/ 2 * B) <= (IZR N + 1) * (2 * B * ymax N) <= 1023 * (28 * B))%R) by (split; apply Rmult_le_compat; lra).
    split; [apply Rle_trans with (1 * (1 * (/ 2 * B)))%R; [lra|apply Rmult_le_compat; lra]|apply Rmult_le_compat; lra]. }
  set (t1 := (modes N M * (2 * e0))%R) in *. set (t2 := (modes N M * (entry_bound N B + 2 * e0) * (eps + 40 * uu))%R) in *. set (t3 := (IZR (2 * M + 1) * (IZR (N + 1) * (2 * B * ymax N)))%R) in *.
  clearbody t1 t2 t3. split.
  - rewrite <- (bpow_neg 700). change (- Z.of_nat 700) with (-700). apply Rle_trans with (/ 2 * B)%R; [|lra]. apply Rle_trans with (/ 2 * bpow radix2 (-690))%R; [|lra].
    change (/ 2)%R with (bpow radix2 (-1)). rewrite <- bpow_plus. apply bpow_le. lia.
  - rewrite <- bpow2_pow. change (Z.of_nat 800) with (100 + 700). rewrite bpow_plus. apply Rle_trans with (bpow radix2 100 * B)%R; [|apply Rmult_le_compat_l; [apply bpow_ge_0|lra]].
    apply Rle_trans with (2 ^ 40 * B)%R; [lra|]. apply Rmult_le_compat_r; [lra|]. rewrite <- bpow2_pow. apply bpow_le. lia.
Qed.


Theorem C80_round_trip_sizes : forall eps ew fft2 ifft2 fft ifft sum ipw sc nmax mmax nrows ncols B,
  np_fft_accurate eps fft2 ifft2 fft ifft -> (0 <= eps <= / 2 ^ 30)%R -> some_order sum -> (0 <= ew <= / 2 ^ 40)%R -> powers_accurate ew ipw mmax ->
  0 <= mmax <= nmax -> nmax <= 1022 -> zlen sc = ncoef nmax mmax -> nmax + 2 <= nrows -> 2 * nrows + nmax <= 2 ^ 19 -> 2 * mmax + 2 <= ncols <= 2 ^ 30 -> ncols mod 2 = 0 ->
  (/ 2 ^ 690 <= B <= 2 ^ 700)%R -> (forall i, 0 <= i < zlen sc -> bounded B (vget cf0 sc i)) ->
  exists ds sc', fp_ispht ifft2 ipw sc nmax mmax (Some nrows) (Some ncols) = Ok (2 * nrows - 2, ncols, ds) /\
    fp_spht fft2 sum ipw fft ifft (2 * nrows - 2) ncols ds (Some nmax) (Some mmax) = Ok (nmax, mmax, sc') /\ zlen sc' = zlen sc /\
    forall n m, is_mode nmax mmax n m ->
      within (coef_tol_py eps ew nrows nmax n (samples_size_w eps ew nmax mmax B) (sample_tol_w eps ew nmax mmax B)) (vget cf0 sc' (pos nmax n m)) (cvalue (vget cf0 sc (pos nmax n m))).
Proof.
  intros eps ew fft2 ifft2 fft ifft sum ipw sc N M nrows ncols B HF He HS Hew Hip HM HN Ls Hr HRN Hc Hc2 HB Hx.
  assert (HB2 : (/ 2 ^ 700 <= B <= 2 ^ 800)%R).
  { destruct HB as [H1 H2]. split; [eapply Rle_trans; [|exact H1]; apply Rinv_le_contravar; [apply pow_lt; lra|]|eapply Rle_trans; [exact H2|]]; (apply Rle_pow; [lra|lia]). }
  assert (E30 : (/ 2 ^ 30 <= 1 / 2)%R) by lra.
  apply (C80_round_trip_accurate eps ew fft2 ifft2 fft ifft sum ipw sc N M nrows ncols B (samples_size_w eps ew N M B)); auto.
  - apply samples_range_w; auto. split; lra.
  - intros i j Hi Hj. unfold samples_size_w. apply Rplus_le_compat_r. apply (series_size sc N M B); auto.
Qed.
Print Assumptions C80_round_trip_sizes.

(** ** The hypotheses are met: five visible rows, six columns; the coefficients of C76's example come back *)
Example C80_nonvacuous : exists ds sc',
  fp_ispht ex_ifft2 ex_ipw (vmake 7 (fun i => (fofZ i, fofZ 1))) 2 1 (Some 5) (Some 6) = Ok (8, 6, ds) /\
  fp_spht ex_fft2 (lsum cf0) ex_ipw ex_fft ex_ifft 8 6 ds (Some 2) (Some 1) = Ok (2, 1, sc') /\
  within (coef_tol_py (/ 2 ^ 51) 0 5 2 2 (samples_size_w (/ 2 ^ 51) 0 2 1 8) (sample_tol_w (/ 2 ^ 51) 0 2 1 8)) (vget cf0 sc' (pos 2 2 (-1))) (RtoC 4 + Ci)%C.
Proof.
  assert (S : forall k, 0 <= k < 7 -> value (fofZ k) = IZR k /\ value (fofZ 1) = 1%R /\ double (fofZ k) /\ finite (fofZ k) /\ double (fofZ 1) /\ finite (fofZ 1)).
  { intros k Hk. destruct (fofZ_small k) as (D1 & F1 & E1); [lia|]. destruct (fofZ_small 1) as (D2 & F2 & E2); [lia|]. auto 10 using fin_finite. }
  destruct (C80_round_trip_sizes (/ 2 ^ 51) 0 ex_fft2 ex_ifft2 ex_fft ex_ifft (lsum cf0) ex_ipw (vmake 7 (fun i => (fofZ i, fofZ 1))) 2 1 5 6 8) as (ds & sc' & E & E' & L & A); try lia; try lra.
  - exact (conj ex_fft2_ok (conj ex_ifft2_ok (conj ex_fft_ok ex_ifft_ok))).
  - exact lsum_order.
  - intros m _. apply C69_powers_nonvacuous.
  - reflexivity.
  - change (zlen (vmake 7 (fun i => (fofZ i, fofZ 1)))) with 7. intros i Hi. rewrite vget_vmake by auto. destruct (S i Hi) as (E1 & E2 & D1 & F1 & D2 & F2).
    unfold bounded. cbn [fst snd]. rewrite E1, E2, Rabs_R1. assert (0 <= IZR i <= 6)%R by (split; apply IZR_le; lia). rewrite Rabs_pos_eq by lra.
    split; [exact D1|]. split; [exact F1|]. split; [lra|]. split; [exact D2|]. split; [exact F2|lra].
  - exists ds, sc'. split; [exact E|]. split; [exact E'|]. specialize (A 2 (-1) ltac:(unfold is_mode; lia)).
    change (pos 2 2 (-1)) with 4 in *. rewrite vget_vmake in A by lia. destruct (S 4 ltac:(lia)) as (E1 & E2 & _). unfold cvalue in A. cbn [fst snd] in A. rewrite E1, E2 in A.
    replace (RtoC 4 + Ci)%C with ((4, 1)%R : C); [exact A|]. unfold RtoC, Ci, Cplus. cbn [fst snd]. f_equal; ring.
Qed.
