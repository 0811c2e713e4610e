(** * P_TransF: C74, the C backend's ispht in double precision. *)
From Coq Require Import ZArith List Bool SpecFloat Reals Lia Lra Psatz.
From Coquelicot Require Import Coquelicot.
From Flocq Require Import Core.Core IEEE754.BinarySingleNaN.
From Verif Require Import Exact Py PyFacts Num FloatN FloatText MCoefs SpecCoefs CoefsFacts Sums Harm Smooth Dft MOps MPysphi PysphiFacts MTrans TransFacts TransFacts2 SpecHarm HarmFacts MKiss KissFacts KissFacts2 SpecDft MCsphi CsphiFacts
  MDouble FlFacts SeedReal SeedFl SeedFl2 DoubleFacts P_Double FlSigned SbesselFTerm TabPert Unsold TabFl P_Table SumFl SumFl2 SumFl3 SumFl4 P_Sums
  MKissF KissFl KissFl2 KissFl5 P_KissF MCsphiF MTransF TransF.
Import ListNotations.
Open Scope list_scope.
Open Scope Z_scope.

(** ** Specification ([value], [finite] as in P_Double; [double], [cvalue], [bounded],
    [sum_tol] as in P_Sums; [cnear] as in P_KissF; [dft] as in SpecDft) *)

(** the two-dimensional transform: [dft] of every row, then of the columns *)
Definition dft2 (s : R) (nr nc : Z) (x : Z -> Z -> C) (p q : Z) : C := dft s nr (fun i => dft s nc (x i) q) p.
(** an array of nr rows and nc columns of finite doubles whose moduli add up to at most F *)
Definition array_of (nr nc : Z) (a : list cf) (F : R) : Prop := zlen a = nr * nc /\
  (forall p q, 0 <= p < nr -> 0 <= q < nc -> let z := fget nc a p q in double (fst z) /\ finite (fst z) /\ double (snd z) /\ finite (snd z)) /\
  (sumR 0 nr (fun p => sumR 0 nc (fun q => Cmod (cvalue (fget nc a p q)))) <= F)%R.
(** np.fft.ifft2 is accurate to eps: relative to the largest modulus an entry can have *)
Definition ifft2_accurate (eps : R) (ifft2 : Z -> Z -> list cf -> list cf) : Prop := forall nr nc a F,
  1 <= nr <= 2 ^ 30 -> 1 <= nc <= 2 ^ 30 -> (/ 2 ^ 800 <= F <= 2 ^ 900)%R -> array_of nr nc a F ->
  zlen (ifft2 nr nc a) = nr * nc /\ forall p q, 0 <= p < nr -> 0 <= q < nc ->
    cnear (eps * F / IZR (nr * nc)) (fget nc (ifft2 nr nc a) p q) (dft2 1 nr nc (fun i j => cvalue (fget nc a i j)) p q / RtoC (IZR (nr * nc)))%C.

(** Error bound for the samples of a series of degree nmax and order mmax with
    coefficients of size at most B: the number of modes times twice the error of an entry of the
    Fourier array (C70), plus what the inverse transform and the scaling add relative to
    the largest sum of entries there can be. *)
Definition sample_tol (eps : R) (nmax mmax : Z) (B : R) : R :=
  (IZR ((2 * nmax + 1) * (2 * mmax + 1)) *
     (2 * sum_tol nmax B 0 + (eps + 40 / 2 ^ 53) * (2 * (IZR nmax + 1) * sqrt ((2 * IZR nmax + 1) / (4 * PI)) * B + 2 * sum_tol nmax B 0)))%R.

(** ** Connections *)
Lemma double_finc z : double (fst z) -> finite (fst z) -> double (snd z) -> finite (snd z) -> finc z.
Proof. intros. split; split; auto using finite_fin. Qed.
Lemma dft2_root (inv : bool) nr nc (x : Z -> Z -> C) p q : 0 < nr -> 0 < nc ->
  dft2 (if inv then 1 else -1)%R nr nc x p q = sumC 0 nr (fun i => sumC 0 nc (fun j => x i j * root nr (dir inv * (i * p)) * root nc (dir inv * (j * q))))%C.
Proof.
  intros Hr Hc. unfold dft2. rewrite <- root_dft by auto. apply sumC_ext. intros i _. rewrite <- root_dft by auto. rewrite (Cmult_comm (sumC _ _ _)), sumC_mul. apply sumC_ext. intros j _. ring.
Qed.
Lemma dft2_ext s nr nc (x y : Z -> Z -> C) p q : (forall i j, 0 <= i < nr -> 0 <= j < nc -> x i j = y i j) -> dft2 s nr nc x p q = dft2 s nr nc y p q.
Proof. intros H. unfold dft2, dft. apply sumC_ext. intros i Hi. f_equal. apply sumC_ext. intros j Hj. now rewrite H. Qed.
Lemma size_range2 F : (bpow radix2 (-800) <= F <= bpow radix2 900)%R -> (/ 2 ^ 800 <= F <= 2 ^ 900)%R.
Proof. change 900 with (Z.of_nat 900). change (-800) with (- Z.of_nat 800). now rewrite bpow_neg, bpow2_pow. Qed.
Lemma cnear_near E z c : cnear E z c -> near E z c.
Proof. intros (D1 & F1 & D2 & F2 & H). split; [now apply double_finc|exact H]. Qed.
Lemma ifft_acc_of eps ifft2 : ifft2_accurate eps ifft2 -> ifft_acc eps ifft2.
Proof.
  intros H nr nc a F Hr Hc La Hf Ht HF. apply size_range2 in HF.
  destruct (H nr nc a F Hr Hc HF) as (L & A).
  { split; [exact La|]. split; [|exact Ht]. intros p q Hp Hq. destruct (Hf p q Hp Hq) as ((D1 & F1) & (D2 & F2)). auto 10 using fin_finite. }
  split; [exact L|]. intros p q Hp Hq. specialize (A p q Hp Hq). rewrite (dft2_root true) in A by lia. rewrite mult_IZR in A. apply cnear_near in A.
  assert (R1 : (IZR nr * IZR nc <> 0)%R) by (apply Rmult_integral_contrapositive_currified; apply not_0_IZR; lia).
  replace (RtoC (/ (IZR nr * IZR nc)) * sumC 0 nr (fun i => sumC 0 nc (fun j => VC (fget nc a i j) * root nr (i * p) * root nc (j * q))))%C with
    (sumC 0 nr (fun i => sumC 0 nc (fun j => cvalue (fget nc a i j) * root nr (dir true * (i * p)) * root nc (dir true * (j * q)))) / RtoC (IZR nr * IZR nc))%C; [exact A|].
  unfold Cdiv. rewrite RtoC_inv by exact R1. rewrite Cmult_comm. f_equal. apply sumC_ext. intros i _. apply sumC_ext. intros j _. unfold dir. now rewrite !Z.mul_1_l.
Qed.
Lemma sample_tol_eq eps N Mx B : ispht_err eps N Mx B = sample_tol eps N Mx B.
Proof.
  unfold ispht_err, sample_tol, modes, entry_bound, ymax. rewrite sum_tol_eq, mult_IZR. replace (40 / 2 ^ 53)%R with (40 * uu)%R by (rewrite uu_val; lra). set (t := sum_tol N B 0). set (s := sqrt _). ring.
Qed.

(** ** Theorems *)

(** ispht with the C backend: if np.fft.ifft2 is accurate to eps, the call succeeds for
    coefficients of size at most B, and every entry of the double sphere, visible row (i < nrows) or not, is a pair of
    finite doubles within [sample_tol] of the series the coefficients denote. *)
Theorem C74_ispht_accurate : forall eps ifft2 junkr junki sc nmax mmax nrows ncols B, ifft2_accurate eps ifft2 -> (0 <= eps <= 1 / 2)%R ->
  0 <= mmax <= nmax -> nmax <= 1022 -> zlen sc = ncoef nmax mmax -> nmax + 2 <= nrows <= 2 ^ 29 -> 2 * mmax + 2 <= ncols <= 2 ^ 30 -> ncols mod 2 = 0 ->
  (/ 2 ^ 700 <= B <= 2 ^ 800)%R -> (forall i, 0 <= i < zlen sc -> bounded B (vget cf0 sc i)) ->
  exists ds, f_ispht ifft2 junkr junki sc nmax mmax (Some nrows) (Some ncols) = Ok (2 * nrows - 2, ncols, ds) /\ zlen ds = (2 * nrows - 2) * ncols /\
    forall i j, 0 <= i < 2 * nrows - 2 -> 0 <= j < ncols ->
      cnear (sample_tol eps nmax mmax B) (fget ncols ds i j)
        (harm_series nmax mmax (fun n m => cvalue (vget cf0 sc (pos nmax n m))) (PI * IZR i / IZR (nrows - 1)) (2 * PI * IZR j / IZR ncols)).
Proof.
  intros eps ifft2 junkr junki sc N M nrows ncols B HT He HM HN Ls Hr Hc Hc2 HB Hx.
  destruct (f_ispht_core eps ifft2 junkr junki sc N M nrows ncols B) as (ds & E & L & A); auto; try lia.
  { apply ifft_acc_of, HT. }
  { lra. }
  { change 800 with (Z.of_nat 800). change (-700) with (- Z.of_nat 700). now rewrite bpow_neg, bpow2_pow. }
  { intros i Hi. apply bounded_cap. auto. }
  exists ds. split; [exact E|]. split; [exact L|]. intros i j Hi Hj.
  set (c := mkSC RN (map VC sc) N M).
  assert (Hg : good_size N M) by (unfold good_size; lia).
  assert (Hw : sc_wf RN c) by (split; [exact Hg|]; unfold c; cbn [sc_vec sc_nmax sc_mmax]; rewrite zlen_map; exact Ls).
  apply (near_cnear _ _ _ _ _ (A i j Hi Hj)); [apply sample_tol_eq|].
  transitivity (synth (2 * nrows - 2) ncols (Fsc c) i j).
  { unfold synth. apply sumC_ext. intros u Hu. apply sumC_ext. intros v Hv. rewrite FscV_Fsc by (auto; lia). reflexivity. }
  rewrite synth_Fsc by (auto; unfold c; cbn [sc_nmax sc_mmax]; lia). unfold c. cbn [sc_nmax sc_mmax]. unfold expansion, harm_series.
  replace (2 * PI * IZR i / IZR (2 * nrows - 2))%R with (PI * IZR i / IZR (nrows - 1))%R.
  2: { replace (2 * nrows - 2) with (2 * (nrows - 1)) by lia. rewrite mult_IZR. field. apply not_0_IZR. lia. }
  apply sumC_ext. intros m Hm. apply sumC_ext. intros n Hn. rewrite Yc_sph_harm by lia. f_equal.
  unfold cval. cbn [sc_vec sc_nmax]. rewrite c0_RN. destruct (cstart_range N M m Hg ltac:(lia)). unfold pos. 
  rewrite (vget_map _ cf0) by lia. reflexivity.
Qed.
Print Assumptions C74_ispht_accurate.

(** ** The hypotheses are met *)

(** the double nearest to a real number *)
Definition nearest (x : R) : f64 :=
  B2SF (binary_normalize 53 1024 FloatText.prec53 FloatText.pe53 mode_NE (Ztrunc (scaled_mantissa radix2 FloatText.fx (rnd x))) (cexp radix2 FloatText.fx (rnd x)) false).
Lemma nearest_ok x : (Rabs x <= BIG)%R -> dbl (nearest x) /\ fin (nearest x) /\ V (nearest x) = rnd x.
Proof.
  intros Hx. assert (G : generic_format radix2 FloatText.fx (rnd x)) by (apply generic_format_round; [apply FLT_exp_valid; reflexivity|auto with typeclass_instances]).
  pose proof (binary_normalize_correct 53 1024 FloatText.prec53 FloatText.pe53 mode_NE (Ztrunc (scaled_mantissa radix2 FloatText.fx (rnd x))) (cexp radix2 FloatText.fx (rnd x)) false) as H.
  cbv zeta in H. rewrite <- G in H. change (round radix2 (SpecFloat.fexp 53 1024) (round_mode mode_NE) (rnd x)) with (rnd (rnd x)) in H.
  rewrite (round_generic radix2 FloatText.fx ZnearestE (rnd x)) in H by exact G.
  rewrite Rlt_bool_true in H.
  - destruct H as (E & F & _). split; [apply valid_binary_B2SF|]. split; [unfold fin, nearest; rewrite is_finite_SF_B2SF; exact F|]. unfold nearest. rewrite SF2R_B2SF. exact E.
  - apply Rle_lt_trans with BIG; [|apply bpow_lt; lia]. apply abs_round_le_generic; auto with typeclass_instances; [apply FLT_exp_valid; reflexivity|]. apply generic_format_bpow. vm_compute. discriminate.
Qed.
Definition cnearest (z : C) : cf := (nearest (fst z), nearest (snd z)).
Lemma cnearest_ok z : (Cmod z <= BIG)%R -> finc (cnearest z) /\ (Cmod (VC (cnearest z) - z)%C <= 2 * uu * Cmod z + 2 * dmin)%R.
Proof.
  intros Hz. pose proof (Rmax_Cmod z) as RM. pose proof (Rmax_l (Rabs (fst z)) (Rabs (snd z))) as R1. pose proof (Rmax_r (Rabs (fst z)) (Rabs (snd z))) as R2.
  destruct (nearest_ok (fst z)) as (D1 & F1 & E1); [lra|]. destruct (nearest_ok (snd z)) as (D2 & F2 & E2); [lra|].
  split; [split; split; assumption|]. pose proof uu_small as U. pose proof dmin_pos as D. eapply Rle_trans; [apply Cmod_sum1|].
  unfold VC, cnearest, Cminus, Cplus, Copp. cbn [fst snd]. rewrite E1, E2.
  pose proof (rnd_ok (fst z)) as Q1. pose proof (rnd_ok (snd z)) as Q2. unfold Rminus in Q1, Q2.
  assert (uu * Rabs (fst z) <= uu * Cmod z)%R by (apply Rmult_le_compat_l; lra). assert (uu * Rabs (snd z) <= uu * Cmod z)%R by (apply Rmult_le_compat_l; lra). lra.
Qed.
(** the exact two-dimensional inverse transform, rounded *)
Definition ex_ifft2 (nr nc : Z) (a : list cf) : list cf :=
  fmake nr nc (fun p q => cnearest (dft2 1 nr nc (fun i j => cvalue (fget nc a i j)) p q / RtoC (IZR (nr * nc)))%C).
Lemma fget_fmake nr nc f p q : 0 <= p < nr -> 0 <= q < nc -> fget nc (fmake nr nc f) p q = f p q.
Proof.
  intros Hp Hq. unfold fget, fmake. rewrite vget_vmake by nia. rewrite Z.div_add_l, Z.div_small, Z.add_0_r by lia. f_equal. rewrite Z.add_comm, Z.mod_add, Z.mod_small by lia. reflexivity.
Qed.
Lemma Cmod_dft2 inv nr nc a F p q : 0 < nr -> 0 < nc -> array_of nr nc a F ->
  (Cmod (dft2 (if inv : bool then 1 else -1)%R nr nc (fun i j => cvalue (fget nc a i j)) p q) <= F)%R.
Proof.
  intros Hr Hc (_ & _ & Ht). rewrite dft2_root by auto. eapply Rle_trans; [|exact Ht].
  eapply Rle_trans; [apply Cmod_sumC1; lia|]. apply sumR_le. intros i Hi. eapply Rle_trans; [apply Cmod_sumC1; lia|]. apply sumR_le. intros j Hj.
  rewrite !Cmod_mult, !Cmod_root. lra.
Qed.
Lemma ex_ifft2_ok : ifft2_accurate (/ 2 ^ 51) ex_ifft2.
Proof.
  intros nr nc a F Hr Hc HF HA. split; [unfold ex_ifft2, fmake; apply zlen_vmake'; nia|]. intros p q Hp Hq. unfold ex_ifft2. rewrite fget_fmake by auto.
  pose proof (Cmod_dft2 true nr nc a F p q ltac:(lia) ltac:(lia) HA) as M. cbn iota in M. set (X := dft2 1 nr nc (fun i j => cvalue (fget nc a i j)) p q) in *.
  assert (n1 : (1 <= IZR (nr * nc) <= 2 ^ 60)%R). { split; [apply IZR_le; nia|]. rewrite (pow_IZR 2 60). apply IZR_le. replace (2 ^ Z.of_nat 60) with (2 ^ 30 * 2 ^ 30) by reflexivity. apply Z.mul_le_mono_nonneg; lia. }
  set (d := IZR (nr * nc)) in *. clearbody d X. assert (I : (0 < / d <= 1)%R) by (split; [apply Rinv_0_lt_compat; lra|rewrite <- Rinv_1; apply Rinv_le_contravar; lra]).
  assert (F0 : (0 < F)%R) by (destruct HF as [HF _]; eapply Rlt_le_trans; [|exact HF]; apply Rinv_0_lt_compat, pow_lt; lra).
  assert (E : Cmod (X / RtoC d)%C = (Cmod X * / d)%R). { rewrite Cmod_div by (intros Q; injection Q; lra). rewrite Cmod_R, Rabs_pos_eq by lra. reflexivity. }
  assert (E1 : (Cmod (X / RtoC d)%C <= F * / d)%R) by (rewrite E; apply Rmult_le_compat_r; lra).
  assert (E2 : (F * / d <= F * 1)%R) by (apply Rmult_le_compat_l; lra).
  assert (F9 : (F <= BIG)%R). { apply Rle_trans with (2 ^ 900)%R; [lra|]. rewrite <- bpow2_pow. apply bpow_le. lia. }
  destruct (cnearest_ok (X / RtoC d)%C) as (G1 & G2); [lra|].
  apply (near_cnear (/ 2 ^ 51 * F / d) _ _ (X / RtoC d)%C); [|reflexivity|reflexivity]. split; [exact G1|]. eapply Rle_trans; [exact G2|].
  assert (D : (dmin <= uu * (F * / d))%R).
  { assert (D2 : (/ 2 ^ 60 <= / d)%R) by (apply Rinv_le_contravar; lra).
    apply Rle_trans with (uu * (/ 2 ^ 800 * / 2 ^ 60))%R.
    - unfold uu. rewrite <- (bpow_neg 800), <- (bpow_neg 60), <- !bpow_plus. apply bpow_le. lia.
    - apply Rmult_le_compat_l; [pose proof uu_small; lra|]. apply Rmult_le_compat; try lra; left; apply Rinv_0_lt_compat, pow_lt; lra. }
  assert (uu * Cmod (X / RtoC d)%C <= uu * (F * / d))%R by (apply Rmult_le_compat_l; [pose proof uu_small; lra|exact E1]).
  unfold Rdiv. rewrite Rmult_assoc. rewrite uu_val in *. lra.
Qed.
Example C74_nonvacuous : exists ds,
  f_ispht ex_ifft2 (fun _ => S754_nan) (fun _ => 0) (vmake 7 (fun i => (fofZ i, fofZ 1))) 2 1 (Some 5) (Some 6) = Ok (8, 6, ds) /\
  cnear (sample_tol (/ 2 ^ 51) 2 1 8) (fget 6 ds 7 4)
    (harm_series 2 1 (fun n m => cvalue (vget cf0 (vmake 7 (fun i => (fofZ i, fofZ 1))) (pos 2 n m))) (PI * 7 / 4) (2 * PI * 4 / 6)).
Proof.
  destruct (C74_ispht_accurate (/ 2 ^ 51) ex_ifft2 (fun _ => S754_nan) (fun _ => 0) (vmake 7 (fun i => (fofZ i, fofZ 1))) 2 1 5 6 8) as (ds & E & _ & A); try lia.
  - exact ex_ifft2_ok.
  - split; [left; apply Rinv_0_lt_compat, pow_lt; lra|]. lra.
  - reflexivity.
  - split; [apply Rle_trans with 1%R; [|lra]; rewrite <- Rinv_1; apply Rinv_le_contravar; [lra|apply pow_R1_Rle; lra]|].
    apply Rle_trans with (2 ^ 4)%R; [lra|apply Rle_pow; [lra|lia]].
  - change (zlen (vmake 7 (fun i => (fofZ i, fofZ 1)))) with 7. intros i Hi. rewrite vget_vmake by auto. destruct (fofZ_small i) as (D1 & F1 & E1); [lia|]. destruct (fofZ_small 1) as (D2 & F2 & E2); [lia|].
    unfold bounded. cbn [fst snd]. change (value (fofZ i)) with (V (fofZ i)). change (value (fofZ 1)) with (V (fofZ 1)). rewrite E1, E2, Rabs_R1. assert (0 <= IZR i <= 6)%R by (split; apply IZR_le; lia). rewrite Rabs_pos_eq by lra.
    split; [exact D1|]. split; [apply fin_finite, F1|]. split; [lra|]. split; [exact D2|]. split; [apply fin_finite, F2|lra].
  - exists ds. split; [exact E|]. apply (A 7 4); lia.
Qed.
