(** * P_TransF2: C75 and C76, the C backend's spht in double precision and the round trip. *)
From Coq Require Import ZArith List Bool SpecFloat Reals Lia Lra Psatz.
From Coquelicot Require Import Coquelicot.
From Flocq Require Import Core.Core IEEE754.BinarySingleNaN.
From Verif Require Import Exact Py PyFacts Num FloatN FloatText MCoefs SpecCoefs CoefsFacts CoefsFacts2 Obs CoefsFacts3 Sums Harm Smooth Dft MOps MPysphi PysphiFacts MTrans TransFacts TransFacts2 SpecHarm HarmFacts MKiss KissFacts KissFacts2 SpecDft MCsphi CsphiFacts MPatt P_Coefs P_Trans
  MDouble FlFacts SeedReal SeedFl SeedFl2 DoubleFacts P_Double FlSigned SbesselFTerm TabPert Unsold TabFl P_Table SumFl SumFl2 SumFl3 SumFl4 P_Sums
  MKissF KissFl KissFl2 KissFl5 P_KissF MCsphiF HkmF P_CsphiF MTransF TransF P_TransF TransF2.
Import ListNotations.
Open Scope list_scope.
Open Scope Z_scope.

(** ** Specification ([value], [finite] as in P_Double; [double], [cvalue], [bounded],
    [within], [sum_tol], [exact_tol] as in P_Sums; [trig_accurate], [cbounded], [cnear] as in P_KissF; [data_bound],
    [data_error] as in P_CsphiF; [dft2], [array_of] as in P_TransF) *)

(** np.fft.fft2 is accurate to eps: relative to the largest modulus an output can have *)
Definition fft2_accurate (eps : R) (fft2 : Z -> Z -> list cf -> list cf) : Prop := forall nr nc a F,
  1 <= nr <= 2 ^ 30 -> 1 <= nc <= 2 ^ 30 -> (/ 2 ^ 800 <= F <= 2 ^ 900)%R -> array_of nr nc a F ->
  zlen (fft2 nr nc a) = nr * nc /\ forall p q, 0 <= p < nr -> 0 <= q < nc ->
    cnear (eps * F) (fget nc (fft2 nr nc a) p q) (dft2 (-1) nr nc (fun i j => cvalue (fget nc a i j)) p q).

(** the sizes (nmax, mmax) a call of spht asks for *)
Definition asks (nrows ncols : Z) (onmax ommax : option Z) (nmax mmax : Z) : Prop :=
  match onmax, ommax with
  | Some n, Some m => nmax = n /\ mmax = m
  | Some n, None => nmax = n /\ mmax = n
  | None, _ => nmax = nrows - 2 /\ mmax = ncols / 2 - 1
  end.

(** Error bound for a coefficient of degree n, from data of modulus at most D that differ
    by at most e from the exact data: what the sums (C73) add, and the errors of the
    transform, the products and the data, carried through the sums. *)
Definition coef_tol (delta eps : R) (nrows nmax n : Z) (D e : R) : R :=
  (sum_tol n (data_bound (2 * nrows + nmax) (4 * IZR nrows * D)) 0 + exact_tol n (data_error delta (2 * nrows + nmax) (4 * IZR nrows * D)) +
   exact_tol n (data_bound (2 * nrows + nmax) ((eps + 30 / 2 ^ 53) * D + e)))%R.

(** ** Connections *)
Lemma fft_acc_of eps fft2 : fft2_accurate eps fft2 -> fft_acc eps fft2.
Proof.
  intros H nr nc a F Hr Hc La Hf Ht HF. apply size_range2 in HF.
  destruct (H nr nc a F Hr Hc HF) as (L & A).
  { split; [exact La|]. split; [|exact Ht]. intros p q Hp Hq. destruct (Hf p q Hp Hq) as ((D1 & F1) & (D2 & F2)). auto 10 using fin_finite. }
  split; [exact L|]. intros p q Hp Hq. specialize (A p q Hp Hq). rewrite (dft2_root false) in A by lia. apply cnear_near in A.
  replace (sumC 0 nr (fun i => sumC 0 nc (fun j => VC (fget nc a i j) * root nr (- (i * p)) * root nc (- (j * q)))))%C with
    (sumC 0 nr (fun i => sumC 0 nc (fun j => cvalue (fget nc a i j) * root nr (dir false * (i * p)) * root nc (dir false * (j * q)))))%C; [exact A|].
  apply sumC_ext. intros i _. apply sumC_ext. intros j _. unfold dir. replace (-1 * (i * p)) with (- (i * p)) by ring. replace (-1 * (j * q)) with (- (j * q)) by ring. reflexivity.
Qed.
Lemma asks_sizes nrows ncols onmax ommax N M : asks nrows ncols onmax ommax N M -> spht_sizes nrows ncols onmax ommax = (N, M).
Proof. unfold asks, spht_sizes. destruct onmax as [n|]; [destruct ommax as [m|]|]; intros (-> & ->); reflexivity. Qed.
Lemma size_range7 B : (/ 2 ^ 700 <= B <= 2 ^ 800)%R -> (bpow radix2 (-700) <= B <= bpow radix2 800)%R.
Proof. change 800 with (Z.of_nat 800). change (-700) with (- Z.of_nat 700). now rewrite bpow_neg, bpow2_pow. Qed.
Lemma core2 delta eps fft2 cosf sinf junk junkr junki nrows ncols d s onmax ommax nmax mmax D e :
  trig_accurate delta cosf sinf -> (0 <= delta <= / 2 ^ 44)%R -> fft2_accurate eps fft2 -> (0 <= eps <= 1 / 4)%R ->
  asks nrows ncols onmax ommax nmax mmax -> 0 <= mmax <= nmax -> nmax <= nrows - 2 -> nmax <= 1022 -> 2 * mmax < ncols <= 2 ^ 30 -> ncols mod 2 = 0 -> 2 * nrows + nmax <= 2 ^ 19 ->
  zlen d = (2 * nrows - 2) * ncols -> (/ 2 ^ 700 <= D <= 2 ^ 800)%R -> (forall i, 0 <= i < zlen d -> cbounded D (vget cf0 d i)) ->
  mt_nr RN s = 2 * nrows - 2 -> mt_nc RN s = ncols ->
  (forall i j, 0 <= i < 2 * nrows - 2 -> 0 <= j < ncols -> (Cmod (cvalue (fget ncols d i j) - mget RN s i j)%C <= e)%R) ->
  exists sc, f_spht fft2 cosf sinf junk junkr junki (2 * nrows - 2) ncols d onmax ommax = Ok (nmax, mmax, sc) /\ zlen sc = ncoef nmax mmax /\
    forall n m, is_mode nmax mmax n m -> within (coef_tol delta eps nrows nmax n D e) (vget cf0 sc (pos nmax n m)) (spht_val s nrows n m).
Proof.
  intros HT Hdl HF He HA HM HN1 HN Hm Hc2 HRN Ld HD Hd Sr Sc Hs.
  destruct (f_spht_core delta eps fft2 cosf sinf junk junkr junki nrows ncols d s onmax ommax nmax mmax D e) as (sc & E & L & A); auto; try lia.
  { apply fft_acc_of, HF. } { lra. } { apply asks_sizes, HA. } { apply size_range7, HD. }
  { intros p q Hp Hq. unfold fget. destruct (Hd (p * ncols + q)) as (D1 & F1 & D2 & F2 & B); [nia|]. split; [now apply double_finc|exact B]. }
  exists sc. split; [exact E|]. split; [exact L|]. intros n m Hn. specialize (A n m Hn). unfold coef_tol. replace (30 / 2 ^ 53)%R with (30 * uu)%R by (rewrite uu_val; lra). exact A.
Qed.

(** ** Theorems *)

(** spht with the C backend: if np.fft.fft2 is accurate to eps and the C library's cos
    and sin to delta, then the call succeeds for every double sphere of doubles of
    modulus at most D, and every coefficient is a pair of finite doubles within [coef_tol] of the one the exact spht
    returns for any double sphere s within e of it (e = 0: the same data). *)
Theorem C75_spht_accurate : forall delta eps fft2 cosf sinf junk junkr junki nrows ncols d s onmax ommax nmax mmax D e,
  trig_accurate delta cosf sinf -> (0 <= delta <= / 2 ^ 44)%R -> fft2_accurate eps fft2 -> (0 <= eps <= 1 / 4)%R ->
  asks nrows ncols onmax ommax nmax mmax -> 0 <= mmax <= nmax -> nmax <= nrows - 2 -> nmax <= 1022 -> 2 * mmax < ncols <= 2 ^ 30 -> ncols mod 2 = 0 -> 2 * nrows + nmax <= 2 ^ 19 ->
  zlen d = (2 * nrows - 2) * ncols -> (/ 2 ^ 700 <= D <= 2 ^ 800)%R -> (forall i, 0 <= i < zlen d -> cbounded D (vget cf0 d i)) ->
  mt_nr RN s = 2 * nrows - 2 -> mt_nc RN s = ncols ->
  (forall i j, 0 <= i < 2 * nrows - 2 -> 0 <= j < ncols -> (Cmod (cvalue (fget ncols d i j) - mget RN s i j)%C <= e)%R) ->
  exists sc c, f_spht fft2 cosf sinf junk junkr junki (2 * nrows - 2) ncols d onmax ommax = Ok (nmax, mmax, sc) /\ zlen sc = ncoef nmax mmax /\
    spht py_backend s onmax ommax = Ok c /\ valid RN c /\ sc_nmax RN c = nmax /\ sc_mmax RN c = mmax /\
    forall n m, is_mode nmax mmax n m -> exists x, reads RN c n m x /\ within (coef_tol delta eps nrows nmax n D e) (vget cf0 sc (pos nmax n m)) x.
Proof.
  intros delta eps fft2 cosf sinf junk junkr junki nrows ncols d s onmax ommax nmax mmax D e HT Hdl HF He HA HM HN1 HN Hm Hc2 HRN Ld HD Hd Sr Sc Hs.
  destruct (core2 delta eps fft2 cosf sinf junk junkr junki nrows ncols d s onmax ommax nmax mmax D e) as (sc & E & L & A); auto.
  destruct (spht_eq s nrows nmax mmax) as (c & Ec & W & N1 & N2 & V); try lia.
  exists sc, c. split; [exact E|]. split; [exact L|]. assert (Hv : valid RN c) by now apply valid_wf.
  split; [|split; [exact Hv|split; [exact N1|split; [exact N2|]]]].
  - rewrite <- Ec. unfold spht. cbn [spht_sizes]. rewrite (asks_sizes _ _ _ _ nmax mmax); [reflexivity|].
    unfold p_nrows, p_ncols. rewrite Sr, Sc. replace ((2 * nrows - 2) / 2 + 1) with nrows by lia. exact HA.
  - intros n m Hn. exists (spht_val s nrows n m). split; [|apply A, Hn]. apply reads_iff; [exact Hv|]. rewrite N1, N2. split; [exact Hn|]. symmetry. apply V, Hn.
Qed.
Print Assumptions C75_spht_accurate.

(** The round trip: coefficients of size at most B, evaluated on a grid of at least
    nmax + 2 rows and 2 mmax + 2 columns by ispht and transformed back by spht, both in double
    precision, come back within [coef_tol], where the error of the samples is [sample_tol] (C74).  D is
    any bound for the samples and their errors. *)
Theorem C76_round_trip_accurate : forall delta eps eps' fft2 ifft2 cosf sinf junk junkr junki sc nmax mmax nrows ncols B D,
  trig_accurate delta cosf sinf -> (0 <= delta <= / 2 ^ 44)%R -> fft2_accurate eps fft2 -> (0 <= eps <= 1 / 4)%R -> ifft2_accurate eps' ifft2 -> (0 <= eps' <= 1 / 2)%R ->
  0 <= mmax <= nmax -> nmax <= 1022 -> zlen sc = ncoef nmax mmax -> nmax + 2 <= nrows -> 2 * nrows + nmax <= 2 ^ 19 -> 2 * mmax + 2 <= ncols <= 2 ^ 30 -> ncols mod 2 = 0 ->
  (/ 2 ^ 700 <= B <= 2 ^ 800)%R -> (forall i, 0 <= i < zlen sc -> bounded B (vget cf0 sc i)) -> (/ 2 ^ 700 <= D <= 2 ^ 800)%R ->
  (forall i j, 0 <= i < 2 * nrows - 2 -> 0 <= j < ncols ->
    (Cmod (harm_series nmax mmax (fun n m => cvalue (vget cf0 sc (pos nmax n m))) (PI * IZR i / IZR (nrows - 1)) (2 * PI * IZR j / IZR ncols)) + sample_tol eps' nmax mmax B <= D)%R) ->
  exists ds sc', f_ispht ifft2 junkr junki sc nmax mmax (Some nrows) (Some ncols) = Ok (2 * nrows - 2, ncols, ds) /\
    f_spht fft2 cosf sinf junk junkr junki (2 * nrows - 2) ncols ds (Some nmax) (Some mmax) = Ok (nmax, mmax, sc') /\ zlen sc' = zlen sc /\
    forall n m, is_mode nmax mmax n m ->
      within (coef_tol delta eps nrows nmax n D (sample_tol eps' nmax mmax B)) (vget cf0 sc' (pos nmax n m)) (cvalue (vget cf0 sc (pos nmax n m))).
Proof.
  intros delta eps eps' fft2 ifft2 cosf sinf junk junkr junki sc N M nrows ncols B D HT Hdl HF He HI He' HM HN Ls Hr HRN Hc Hc2 HB Hx HD Hsz.
  destruct (C74_ispht_accurate eps' ifft2 junkr junki sc N M nrows ncols B) as (ds & E & L & A); auto; try lia.
  set (c := mkSC RN (map VC sc) N M).
  assert (Hg : good_size N M) by (unfold good_size; lia).
  assert (Hw : sc_wf RN c) by (split; [exact Hg|]; unfold c; cbn [sc_vec sc_nmax sc_mmax]; rewrite zlen_map; exact Ls).
  assert (Ev : forall n m, is_mode N M n m -> cval RN c n m = VC (vget cf0 sc (pos N n m))).
  { intros n m (Hm1 & Hm2 & Hm3). unfold cval, c. cbn [sc_vec sc_nmax]. rewrite c0_RN. destruct (cstart_range N M m Hg ltac:(lia)). unfold pos. 
    rewrite (vget_map _ cf0) by lia. reflexivity. }
  assert (Es : forall i j, 0 <= i < 2 * nrows - 2 -> 0 <= j < ncols ->
    synth (2 * nrows - 2) ncols (Fsc c) i j = harm_series N M (fun n m => cvalue (vget cf0 sc (pos N n m))) (PI * IZR i / IZR (nrows - 1)) (2 * PI * IZR j / IZR ncols)).
  { intros i j Hi Hj. rewrite synth_Fsc by (auto; unfold c; cbn [sc_nmax sc_mmax]; lia). unfold c. cbn [sc_nmax sc_mmax]. unfold expansion, harm_series.
    replace (2 * PI * IZR i / IZR (2 * nrows - 2))%R with (PI * IZR i / IZR (nrows - 1))%R.
    2: { replace (2 * nrows - 2) with (2 * (nrows - 1)) by lia. rewrite mult_IZR. field. apply not_0_IZR. lia. }
    apply sumC_ext. intros m Hm. apply sumC_ext. intros n Hn. rewrite Yc_sph_harm by lia. f_equal. apply Ev. unfold is_mode. lia. }
  set (s := mmake RN (2 * nrows - 2) ncols (synth (2 * nrows - 2) ncols (Fsc c))).
  destruct (core2 delta eps fft2 cosf sinf junk junkr junki nrows ncols ds s (Some N) (Some M) N M D (sample_tol eps' N M B)) as (sc' & E' & L' & A'); auto; try lia.
  { split; reflexivity. }
  { intros k Hk. rewrite L in Hk. pose proof (Z.div_mod k ncols ltac:(lia)) as Ek. pose proof (Z.mod_pos_bound k ncols ltac:(lia)) as Bk.
    assert (Bi : 0 <= k / ncols < 2 * nrows - 2) by (split; [apply Z.div_pos; lia|apply Z.div_lt_upper_bound; lia]).
    pose proof (Hsz (k / ncols) (k mod ncols) Bi Bk) as Q. destruct (A (k / ncols) (k mod ncols) Bi Bk) as (D1 & F1 & D2 & F2 & G).
    assert (Eg : fget ncols ds (k / ncols) (k mod ncols) = vget cf0 ds k) by (unfold fget; f_equal; lia).
    rewrite Eg in *. split; [exact D1|]. split; [exact F1|]. split; [exact D2|]. split; [exact F2|].
    match type of G with (Cmod (?z - ?h)%C <= _)%R => replace z with ((z - h) + h)%C by ring end.
    eapply Rle_trans; [apply Cmod_triangle|]. lra. }
  { intros i j Hi Hj. unfold s. change (mget RN ?a ?p ?q) with (cget a p q). rewrite cget_mmake by lia. rewrite Es by auto. apply A; auto. }
  exists ds, sc'. split; [exact E|]. split; [exact E'|]. split; [congruence|]. intros n m Hm. specialize (A' n m Hm). pose proof Hm as (M1 & M2 & M3).
  replace (spht_val s nrows n m) with (cval RN c n m) in A'; [rewrite Ev in A' by exact Hm; exact A'|].
  unfold s. rewrite (half_even ncols Hc2). rewrite spht_val_Fsc by (auto; unfold c; cbn [sc_nmax sc_mmax]; lia). unfold c at 2 3. cbn [sc_nmax sc_mmax].
  destruct (Z.leb_spec (Z.abs m) M); [|lia]. destruct (Z.leb_spec n N); [|lia]. reflexivity.
Qed.
Print Assumptions C76_round_trip_accurate.

(** The same with a bound for the samples that depends on the sizes and B only. *)
Definition samples_size (eps : R) (nmax mmax : Z) (B : R) : R :=
  (IZR (2 * mmax + 1) * (IZR (nmax + 1) * (2 * B * sqrt ((2 * IZR nmax + 1) / (4 * PI)))) + sample_tol eps nmax mmax B)%R.

Lemma bounded_Cmod B z : bounded B z -> (Cmod (cvalue z) <= 2 * B)%R.
Proof. intros (_ & _ & B1 & _ & _ & B2). eapply Rle_trans; [apply Cmod_sum1|]. unfold cvalue. cbn [fst snd]. lra. Qed.
Lemma series_size sc N M B t p : 0 <= M <= N -> zlen sc = ncoef N M -> (forall i, 0 <= i < zlen sc -> bounded B (vget cf0 sc i)) ->
  (Cmod (harm_series N M (fun n m => cvalue (vget cf0 sc (pos N n m))) t p) <= IZR (2 * M + 1) * (IZR (N + 1) * (2 * B * ymax N)))%R.
Proof.
  intros HM Ls Hx. pose proof (sqrt_pos ((2 * IZR N + 1) / (4 * PI))) as Y0. change (0 <= ymax N)%R in Y0.
  assert (Hg : good_size N M) by (unfold good_size; lia).
  assert (HB : (0 <= 2 * B)%R).
  { pose proof (ncoef_mono N 0 M ltac:(lia) ltac:(lia)) as Q. rewrite ncoef_0 in Q. assert (Q0 : 0 <= 0 < zlen sc) by lia. pose proof (bounded_Cmod _ _ (Hx 0 Q0)) as Q1. pose proof (Cmod_ge_0 (cvalue (vget cf0 sc 0))). lra. }
  unfold harm_series. eapply Rle_trans; [apply (Cmod_sum _ _ _ (IZR (N + 1) * (2 * B * ymax N)))|].
  - lia.
  - intros m Hm. eapply Rle_trans; [apply (Cmod_sum _ _ _ (2 * B * ymax N)); [lia|]|].
    + intros n Hn. rewrite Cmod_mult. apply Rmult_le_compat; try apply Cmod_ge_0.
      * apply bounded_Cmod, Hx. rewrite Ls. destruct (cstart_range N M m Hg ltac:(lia)). unfold pos. lia.
      * eapply Rle_trans; [apply harm_bound; lia|]. apply ymax_mono. lia.
    + apply Rmult_le_compat_r; [apply Rmult_le_pos; lra|]. apply IZR_le. lia.
  - replace (M + 1 - - M) with (2 * M + 1) by ring. lra.
Qed.
Lemma samples_range eps N M B : (0 <= eps <= 1 / 2)%R -> 0 <= M <= N -> N <= 1022 -> (/ 2 ^ 690 <= B <= 2 ^ 700)%R -> (/ 2 ^ 700 <= samples_size eps N M B <= 2 ^ 800)%R.
Proof.
  intros He HM HN HB. pose proof (ymax_range N ltac:(lia)) as Y. pose proof uu_small as [U0 U1].
  assert (HB' : (bpow radix2 (-690) <= B <= bpow radix2 700)%R). { change 700 with (Z.of_nat 700). change (-690) with (- Z.of_nat 690). rewrite bpow_neg, bpow2_pow. exact HB. }
  clear HB. pose proof (bpow_gt_0 radix2 (-690)) as B0. assert (B7 : (bpow radix2 (-700) <= bpow radix2 (-690))%R) by (apply bpow_le; lia).
  pose proof (eacc_B N B ltac:(lia) ltac:(lra)) as EB. unfold samples_size. rewrite <- sample_tol_eq. unfold ispht_err. set (e0 := eacc N B 0) in *. clearbody e0. fold (ymax N).
  assert (N0 : (0 <= IZR N <= 1022)%R) by (split; apply IZR_le; lia). assert (M0 : (0 <= IZR M <= 1022)%R) by (split; apply IZR_le; lia).
  assert (W0 : (/ 2 * B <= entry_bound N B <= 28644 * B)%R).
  { unfold entry_bound. assert (Q : (/ 4 <= (IZR N + 1) * ymax N <= 1023 * 14)%R) by (split; [apply Rle_trans with (1 * / 4)%R; [lra|apply Rmult_le_compat; lra]|apply Rmult_le_compat; lra]).
    replace (2 * (IZR N + 1) * ymax N * B)%R with (2 * ((IZR N + 1) * ymax N) * B)%R by ring. split; apply Rmult_le_compat_r; lra. }
  assert (S1 : (1 <= modes N M <= 2045 * 2045)%R).
  { unfold modes. rewrite !plus_IZR, !mult_IZR. split; [apply Rle_trans with (1 * 1)%R; [lra|apply Rmult_le_compat; lra]|apply Rmult_le_compat; lra]. }
  assert (T1 : (0 <= modes N M * (2 * e0) <= 2045 * 2045 * (2 * B))%R) by (split; [apply Rmult_le_pos; lra|apply Rmult_le_compat; lra]).
  assert (T2 : (0 <= modes N M * (entry_bound N B + 2 * e0) * (eps + 40 * uu) <= 2045 * 2045 * (28646 * B) * 1)%R).
  { split; [apply Rmult_le_pos; [apply Rmult_le_pos; lra|lra]|]. apply Rmult_le_compat; try lra; [apply Rmult_le_pos; lra|apply Rmult_le_compat; lra]. }
  assert (T3 : (/ 2 * B <= IZR (2 * M + 1) * (IZR (N + 1) * (2 * B * ymax N)) <= 2045 * (1023 * (28 * B)))%R).
  { rewrite !plus_IZR, !mult_IZR. assert (Q2 : (/ 2 * B <= 2 * B * ymax N <= 28 * B)%R).
    { split; [replace (/ 2 * B)%R with (2 * B * / 4)%R by field|replace (28 * B)%R with (2 * B * 14)%R by ring]; apply Rmult_le_compat_l; lra. }
    assert (Q3 : (1 * (/ 2 * B) <= (IZR N + 1) * (2 * B * ymax N) <= 1023 * (28 * B))%R) by (split; apply Rmult_le_compat; lra).
    split; [apply Rle_trans with (1 * (1 * (/ 2 * B)))%R; [lra|apply Rmult_le_compat; lra]|apply Rmult_le_compat; lra]. }
  set (t1 := (modes N M * (2 * e0))%R) in *. set (t2 := (modes N M * (entry_bound N B + 2 * e0) * (eps + 40 * uu))%R) in *. set (t3 := (IZR (2 * M + 1) * (IZR (N + 1) * (2 * B * ymax N)))%R) in *.
  clearbody t1 t2 t3. split.
  - rewrite <- (bpow_neg 700). change (- Z.of_nat 700) with (-700). apply Rle_trans with (/ 2 * B)%R; [|lra]. apply Rle_trans with (/ 2 * bpow radix2 (-690))%R; [|lra].
    change (/ 2)%R with (bpow radix2 (-1)). rewrite <- bpow_plus. apply bpow_le. lia.
  - rewrite <- bpow2_pow. change (Z.of_nat 800) with (100 + 700). rewrite bpow_plus. apply Rle_trans with (bpow radix2 100 * B)%R; [|apply Rmult_le_compat_l; [apply bpow_ge_0|lra]].
    apply Rle_trans with (2 ^ 40 * B)%R; [lra|]. apply Rmult_le_compat_r; [lra|]. rewrite <- bpow2_pow. apply bpow_le. lia.
Qed.

Theorem C76_round_trip_sizes : forall delta eps eps' fft2 ifft2 cosf sinf junk junkr junki sc nmax mmax nrows ncols B,
  trig_accurate delta cosf sinf -> (0 <= delta <= / 2 ^ 44)%R -> fft2_accurate eps fft2 -> (0 <= eps <= 1 / 4)%R -> ifft2_accurate eps' ifft2 -> (0 <= eps' <= 1 / 2)%R ->
  0 <= mmax <= nmax -> nmax <= 1022 -> zlen sc = ncoef nmax mmax -> nmax + 2 <= nrows -> 2 * nrows + nmax <= 2 ^ 19 -> 2 * mmax + 2 <= ncols <= 2 ^ 30 -> ncols mod 2 = 0 ->
  (/ 2 ^ 690 <= B <= 2 ^ 700)%R -> (forall i, 0 <= i < zlen sc -> bounded B (vget cf0 sc i)) ->
  exists ds sc', f_ispht ifft2 junkr junki sc nmax mmax (Some nrows) (Some ncols) = Ok (2 * nrows - 2, ncols, ds) /\
    f_spht fft2 cosf sinf junk junkr junki (2 * nrows - 2) ncols ds (Some nmax) (Some mmax) = Ok (nmax, mmax, sc') /\ zlen sc' = zlen sc /\
    forall n m, is_mode nmax mmax n m ->
      within (coef_tol delta eps nrows nmax n (samples_size eps' nmax mmax B) (sample_tol eps' nmax mmax B)) (vget cf0 sc' (pos nmax n m)) (cvalue (vget cf0 sc (pos nmax n m))).
Proof.
  intros delta eps eps' fft2 ifft2 cosf sinf junk junkr junki sc N M nrows ncols B HT Hdl HF He HI He' HM HN Ls Hr HRN Hc Hc2 HB Hx.
  assert (HB2 : (/ 2 ^ 700 <= B <= 2 ^ 800)%R).
  { destruct HB as [H1 H2]. split; [eapply Rle_trans; [|exact H1]; apply Rinv_le_contravar; [apply pow_lt; lra|]|eapply Rle_trans; [exact H2|]]; (apply Rle_pow; [lra|lia]). }
  apply (C76_round_trip_accurate delta eps eps' fft2 ifft2 cosf sinf junk junkr junki sc N M nrows ncols B (samples_size eps' N M B)); auto.
  - apply samples_range; auto.
  - intros i j Hi Hj. unfold samples_size. apply Rplus_le_compat_r. apply (series_size sc N M B); auto.
Qed.
Print Assumptions C76_round_trip_sizes.

(** ** The hypotheses are met *)

(** the exact two-dimensional transform, rounded *)
Definition ex_fft2 (nr nc : Z) (a : list cf) : list cf :=
  fmake nr nc (fun p q => cnearest (dft2 (-1) nr nc (fun i j => cvalue (fget nc a i j)) p q)).
Lemma ex_fft2_ok : fft2_accurate (/ 2 ^ 51) ex_fft2.
Proof.
  intros nr nc a F Hr Hc HF HA. split; [unfold ex_fft2, fmake; apply zlen_vmake'; nia|]. intros p q Hp Hq. unfold ex_fft2. rewrite fget_fmake by auto.
  pose proof (Cmod_dft2 false nr nc a F p q ltac:(lia) ltac:(lia) HA) as M. cbn iota in M. set (X := dft2 (-1) nr nc (fun i j => cvalue (fget nc a i j)) p q) in *. clearbody X.
  assert (F9 : (F <= BIG)%R). { apply Rle_trans with (2 ^ 900)%R; [lra|]. rewrite <- bpow2_pow. apply bpow_le. lia. }
  destruct (cnearest_ok X) as (G1 & G2); [lra|].
  apply (near_cnear (/ 2 ^ 51 * F) _ _ X); [|reflexivity|reflexivity]. split; [exact G1|]. eapply Rle_trans; [exact G2|].
  assert (D : (dmin <= uu * F)%R).
  { apply Rle_trans with (uu * / 2 ^ 800)%R.
    - unfold uu. rewrite <- (bpow_neg 800), <- !bpow_plus. apply bpow_le. lia.
    - apply Rmult_le_compat_l; [pose proof uu_small; lra|]. apply HF. }
  assert (uu * Cmod X <= uu * F)%R by (apply Rmult_le_compat_l; [pose proof uu_small; lra|exact M]).
  rewrite uu_val in *. lra.
Qed.
(** five visible rows, six columns: the coefficients of C74's example come back *)
Example C76_nonvacuous : exists ds sc',
  f_ispht ex_ifft2 (fun _ => S754_nan) (fun _ => 0) (vmake 7 (fun i => (fofZ i, fofZ 1))) 2 1 (Some 5) (Some 6) = Ok (8, 6, ds) /\
  f_spht ex_fft2 cos_grid sin_grid (fun _ => (S754_nan, S754_nan)) (fun _ => S754_nan) (fun _ => 0) 8 6 ds (Some 2) (Some 1) = Ok (2, 1, sc') /\
  within (coef_tol (/ 2 ^ 51) (/ 2 ^ 51) 5 2 2 (samples_size (/ 2 ^ 51) 2 1 8) (sample_tol (/ 2 ^ 51) 2 1 8)) (vget cf0 sc' (pos 2 2 (-1))) (RtoC 4 + Ci)%C.
Proof.
  assert (S : forall k, 0 <= k < 7 -> value (fofZ k) = IZR k /\ value (fofZ 1) = 1%R /\ double (fofZ k) /\ finite (fofZ k) /\ double (fofZ 1) /\ finite (fofZ 1)).
  { intros k Hk. destruct (fofZ_small k) as (D1 & F1 & E1); [lia|]. destruct (fofZ_small 1) as (D2 & F2 & E2); [lia|]. auto 10 using fin_finite. }
  assert (Q : (0 <= / 2 ^ 51 <= / 2 ^ 44)%R). { split; [left; apply Rinv_0_lt_compat, pow_lt; lra|]. apply Rinv_le_contravar; [apply pow_lt; lra|]. apply Rle_pow; [lra|lia]. }
  assert (Q4 : (/ 2 ^ 44 <= 1 / 4)%R) by lra.
  destruct (C76_round_trip_sizes (/ 2 ^ 51) (/ 2 ^ 51) (/ 2 ^ 51) ex_fft2 ex_ifft2 cos_grid sin_grid (fun _ => (S754_nan, S754_nan)) (fun _ => S754_nan) (fun _ => 0) (vmake 7 (fun i => (fofZ i, fofZ 1))) 2 1 5 6 8) as (ds & sc' & E & E' & L & A); try lia; try lra.
  - apply trig_grid.
  - exact ex_fft2_ok.
  - exact ex_ifft2_ok.
  - reflexivity.
  - change (zlen (vmake 7 (fun i => (fofZ i, fofZ 1)))) with 7. intros i Hi. rewrite vget_vmake by auto. destruct (S i Hi) as (E1 & E2 & D1 & F1 & D2 & F2).
    unfold bounded. cbn [fst snd]. rewrite E1, E2, Rabs_R1. assert (0 <= IZR i <= 6)%R by (split; apply IZR_le; lia). rewrite Rabs_pos_eq by lra.
    split; [exact D1|]. split; [exact F1|]. split; [lra|]. split; [exact D2|]. split; [exact F2|lra].
  - exists ds, sc'. split; [exact E|]. split; [exact E'|]. specialize (A 2 (-1) ltac:(unfold is_mode; lia)).
    change (pos 2 2 (-1)) with 4 in *. rewrite vget_vmake in A by lia. destruct (S 4 ltac:(lia)) as (E1 & E2 & _). unfold cvalue in A. cbn [fst snd] in A. rewrite E1, E2 in A.
    replace (RtoC 4 + Ci)%C with ((4, 1)%R : C); [exact A|]. unfold RtoC, Ci, Cplus. cbn [fst snd]. f_equal; ring.
Qed.
