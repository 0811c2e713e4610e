(** * P_TransP: C77, the Python backend's ispht in double precision. *)
From Coq Require Import ZArith List Bool SpecFloat Reals Lia Lra Psatz.
From Coquelicot Require Import Coquelicot.
From Flocq Require Import Core.Core IEEE754.BinarySingleNaN.
From Verif Require Import Exact Py PyFacts Num FloatN FloatText MCoefs SpecCoefs CoefsFacts Sums Harm Smooth Dft MOps MPysphi PysphiFacts MTrans TransFacts TransFacts2 SpecHarm HarmFacts MKiss KissFacts KissFacts2 SpecDft MCsphi CsphiFacts
  MDouble FlFacts SeedReal SeedFl SeedFl2 DoubleFacts P_Double FlSigned SbesselFTerm TabPert Unsold TabFl P_Table SumFl SumFl2 SumFl3 SumFl4 P_Sums
  MKissF KissFl KissFl2 KissFl5 P_KissF MCsphiF MTransF TransF P_TransF MTransP TransP.
Import ListNotations.
Open Scope list_scope.
Open Scope Z_scope.

(** ** Specification (as in P_TransF; [within] and [i_pow] as in P_Sums) *)

(** [sample_tol] with the error ew of the values of 1j ** m in each entry of the Fourier array *)
Definition sample_tol_w (eps ew : R) (nmax mmax : Z) (B : R) : R :=
  (IZR ((2 * nmax + 1) * (2 * mmax + 1)) *
     (2 * sum_tol nmax B ew + (eps + 40 / 2 ^ 53) * (2 * (IZR nmax + 1) * sqrt ((2 * IZR nmax + 1) / (4 * PI)) * B + 2 * sum_tol nmax B ew)))%R.

(** ** Connections *)
Lemma sample_tol_w_eq eps ew N Mx B : (modes N Mx * (2 * eacc N B ew) + modes N Mx * (entry_bound N B + 2 * eacc N B ew) * (eps + 40 * uu))%R = sample_tol_w eps ew N Mx B.
Proof.
  unfold sample_tol_w, modes, entry_bound, ymax. rewrite sum_tol_eq, mult_IZR. replace (40 / 2 ^ 53)%R with (40 * uu)%R by (rewrite uu_val; lra). set (t := sum_tol N B ew). set (s := sqrt _). ring.
Qed.

(** ** Theorems *)

(** ispht with the Python backend: if np.fft.ifft2 is accurate to eps and the powers
    1j ** m to ew, the call succeeds for coefficients of size at most B, and every
    entry of the double sphere is a pair of finite doubles within [sample_tol_w] of the
    series the coefficients denote. *)
Theorem C77_ispht_accurate : forall eps ifft2 ew ipw sc nmax mmax nrows ncols B, ifft2_accurate eps ifft2 -> (0 <= eps <= 1 / 2)%R ->
  (0 <= ew <= / 2 ^ 40)%R -> (forall m, Z.abs m <= mmax -> within ew (ipw m) (i_pow m)) ->
  0 <= mmax <= nmax -> nmax <= 1022 -> zlen sc = ncoef nmax mmax -> nmax + 2 <= nrows <= 2 ^ 29 -> 2 * mmax + 2 <= ncols <= 2 ^ 30 -> ncols mod 2 = 0 ->
  (/ 2 ^ 700 <= B <= 2 ^ 800)%R -> (forall i, 0 <= i < zlen sc -> bounded B (vget cf0 sc i)) ->
  exists ds, fp_ispht ifft2 ipw sc nmax mmax (Some nrows) (Some ncols) = Ok (2 * nrows - 2, ncols, ds) /\ zlen ds = (2 * nrows - 2) * ncols /\
    forall i j, 0 <= i < 2 * nrows - 2 -> 0 <= j < ncols ->
      cnear (sample_tol_w eps ew nmax mmax B) (fget ncols ds i j)
        (harm_series nmax mmax (fun n m => cvalue (vget cf0 sc (pos nmax n m))) (PI * IZR i / IZR (nrows - 1)) (2 * PI * IZR j / IZR ncols)).
Proof.
  intros eps ifft2 ew ipw sc N M nrows ncols B HT He Hew Hip HM HN Ls Hr Hc Hc2 HB Hx.
  destruct (fp_ispht_core eps ifft2 ipw sc N M nrows ncols B ew) as (ds & E & L & A); auto; try lia.
  { apply ifft_acc_of, HT. }
  { lra. }
  { change 800 with (Z.of_nat 800). change (-700) with (- Z.of_nat 700). now rewrite bpow_neg, bpow2_pow. }
  { intros m Hm. apply within_wap, Hip, Hm. }
  { intros i Hi. apply bounded_cap. auto. }
  exists ds. split; [exact E|]. split; [exact L|]. intros i j Hi Hj.
  set (c := mkSC RN (map VC sc) N M).
  assert (Hg : good_size N M) by (unfold good_size; lia).
  assert (Hw : sc_wf RN c) by (split; [exact Hg|]; unfold c; cbn [sc_vec sc_nmax sc_mmax]; rewrite zlen_map; exact Ls).
  apply (near_cnear _ _ _ _ _ (A i j Hi Hj)); [apply sample_tol_w_eq|].
  transitivity (synth (2 * nrows - 2) ncols (Fsc c) i j).
  { unfold synth. apply sumC_ext. intros u Hu. apply sumC_ext. intros v Hv. rewrite FscV_Fsc by (auto; lia). reflexivity. }
  rewrite synth_Fsc by (auto; unfold c; cbn [sc_nmax sc_mmax]; lia). unfold c. cbn [sc_nmax sc_mmax]. unfold expansion, harm_series.
  replace (2 * PI * IZR i / IZR (2 * nrows - 2))%R with (PI * IZR i / IZR (nrows - 1))%R.
  2: { replace (2 * nrows - 2) with (2 * (nrows - 1)) by lia. rewrite mult_IZR. field. apply not_0_IZR. lia. }
  apply sumC_ext. intros m Hm. apply sumC_ext. intros n Hn. rewrite Yc_sph_harm by lia. f_equal.
  unfold cval. cbn [sc_vec sc_nmax]. rewrite c0_RN. destruct (cstart_range N M m Hg ltac:(lia)). unfold pos. 
  rewrite (vget_map _ cf0) by lia. reflexivity.
Qed.
Print Assumptions C77_ispht_accurate.

(** On the same coefficients the two backends return arrays of the same shape whose
    entries differ by at most the sum of the two bounds, whatever the inverse
    transforms [i1], [i2] of the two runs, accurate to eps each. *)
Theorem C77_backends_agree : forall eps i1 i2 junkr junki ew ipw sc nmax mmax nrows ncols B, ifft2_accurate eps i1 -> ifft2_accurate eps i2 -> (0 <= eps <= 1 / 2)%R ->
  (0 <= ew <= / 2 ^ 40)%R -> (forall m, Z.abs m <= mmax -> within ew (ipw m) (i_pow m)) ->
  0 <= mmax <= nmax -> nmax <= 1022 -> zlen sc = ncoef nmax mmax -> nmax + 2 <= nrows <= 2 ^ 29 -> 2 * mmax + 2 <= ncols <= 2 ^ 30 -> ncols mod 2 = 0 ->
  (/ 2 ^ 700 <= B <= 2 ^ 800)%R -> (forall i, 0 <= i < zlen sc -> bounded B (vget cf0 sc i)) ->
  exists dp dc, fp_ispht i1 ipw sc nmax mmax (Some nrows) (Some ncols) = Ok (2 * nrows - 2, ncols, dp) /\
    f_ispht i2 junkr junki sc nmax mmax (Some nrows) (Some ncols) = Ok (2 * nrows - 2, ncols, dc) /\
    forall i j, 0 <= i < 2 * nrows - 2 -> 0 <= j < ncols ->
      (Cmod (cvalue (fget ncols dp i j) - cvalue (fget ncols dc i j))%C <= sample_tol_w eps ew nmax mmax B + sample_tol eps nmax mmax B)%R.
Proof.
  intros eps i1 i2 junkr junki ew ipw sc N M nrows ncols B H1 H2 He Hew Hip HM HN Ls Hr Hc Hc2 HB Hx.
  destruct (C77_ispht_accurate eps i1 ew ipw sc N M nrows ncols B) as (dp & Ep & Lp & Ap); auto.
  destruct (C74_ispht_accurate eps i2 junkr junki sc N M nrows ncols B) as (dc & Ec & Lc & Ac); auto.
  exists dp, dc. split; [exact Ep|]. split; [exact Ec|]. intros i j Hi Hj.
  destruct (cnear_near _ _ _ (Ap i j Hi Hj)) as [_ Q1]. destruct (cnear_near _ _ _ (Ac i j Hi Hj)) as [_ Q2].
  change VC with cvalue in Q1, Q2. set (h := harm_series _ _ _ _ _) in *. set (x := cvalue (fget ncols dp i j)) in *. set (y := cvalue (fget ncols dc i j)) in *.
  replace (x - y)%C with ((x - h) + - (y - h))%C by ring. eapply Rle_trans; [apply Cmod_triangle|]. rewrite Cmod_opp. lra.
Qed.
Print Assumptions C77_backends_agree.

(** ** The hypotheses are met *)
Example C77_nonvacuous : exists ds,
  fp_ispht ex_ifft2 ex_ipw (vmake 7 (fun i => (fofZ i, fofZ 1))) 2 1 (Some 5) (Some 6) = Ok (8, 6, ds) /\
  cnear (sample_tol_w (/ 2 ^ 51) 0 2 1 8) (fget 6 ds 7 4)
    (harm_series 2 1 (fun n m => cvalue (vget cf0 (vmake 7 (fun i => (fofZ i, fofZ 1))) (pos 2 n m))) (PI * 7 / 4) (2 * PI * 4 / 6)).
Proof.
  destruct (C77_ispht_accurate (/ 2 ^ 51) ex_ifft2 0%R ex_ipw (vmake 7 (fun i => (fofZ i, fofZ 1))) 2 1 5 6 8) as (ds & E & _ & A); try lia.
  - exact ex_ifft2_ok.
  - split; [left; apply Rinv_0_lt_compat, pow_lt; lra|]. lra.
  - split; [lra|]. left. apply Rinv_0_lt_compat, pow_lt. lra.
  - intros m _. apply C69_powers_nonvacuous.
  - reflexivity.
  - split; [apply Rle_trans with 1%R; [|lra]; rewrite <- Rinv_1; apply Rinv_le_contravar; [lra|apply pow_R1_Rle; lra]|].
    apply Rle_trans with (2 ^ 4)%R; [lra|apply Rle_pow; [lra|lia]].
  - change (zlen (vmake 7 (fun i => (fofZ i, fofZ 1)))) with 7. intros i Hi. rewrite vget_vmake by auto. destruct (fofZ_small i) as (D1 & F1 & E1); [lia|]. destruct (fofZ_small 1) as (D2 & F2 & E2); [lia|].
    unfold bounded. cbn [fst snd]. change (value (fofZ i)) with (V (fofZ i)). change (value (fofZ 1)) with (V (fofZ 1)). rewrite E1, E2, Rabs_R1. assert (0 <= IZR i <= 6)%R by (split; apply IZR_le; lia). rewrite Rabs_pos_eq by lra.
    split; [exact D1|]. split; [apply fin_finite, F1|]. split; [lra|]. split; [exact D2|]. split; [apply fin_finite, F2|lra].
  - exists ds. split; [exact E|]. apply (A 7 4); lia.
Qed.
