(** * KissFl4: kiss_fft_alloc and kiss_fft in double precision. *)
From Coq Require Import ZArith List Bool SpecFloat Reals Lia Lra Psatz Permutation Znumtheory.
From Coquelicot Require Import Complex.
From Flocq Require Import Core.Core IEEE754.BinarySingleNaN.
From Verif Require Import Py PyFacts Num FloatN FloatText Exact MCoefs Sums MPysphi Dft MKiss KissFacts KissFacts2 MDouble FlFacts SeedReal SeedFl SeedFl2 DoubleFacts FlSigned SbesselFTerm SbesselFRel SbesselFFun TabFl SumFl SumFl2 SumFl3 MKissF KissFl KissFl2 KissFl3.
Import ListNotations.
Open Scope list_scope.
Open Scope Z_scope.

(** ** cos and sin are 1-Lipschitz *)
Lemma sin_le_abs x : (Rabs (sin x) <= Rabs x)%R.
Proof.
  destruct (Rle_dec 0 x) as [H|H].
  - rewrite (Rabs_pos_eq x) by lra. destruct (Req_dec x 0) as [->|N]; [rewrite sin_0, Rabs_R0; lra|].
    destruct (Rle_dec 1 x) as [H1|H1]; [pose proof (SIN_bound x); apply Rabs_le; lra|].
    pose proof (sin_lt_x x ltac:(lra)). assert (0 <= sin x)%R by (apply sin_ge_0; pose proof PI2_1; lra). rewrite Rabs_pos_eq; lra.
  - rewrite <- (Rabs_Ropp x), <- (Rabs_Ropp (sin x)), <- sin_neg. set (y := (- x)%R) in *. assert (0 < y)%R by (unfold y; lra).
    rewrite (Rabs_pos_eq y) by lra.
    destruct (Rle_dec 1 y) as [H1|H1]; [pose proof (SIN_bound y); apply Rabs_le; lra|].
    pose proof (sin_lt_x y ltac:(lra)). assert (0 <= sin y)%R by (apply sin_ge_0; pose proof PI2_1; lra). rewrite Rabs_pos_eq; lra.
Qed.
Lemma cos_lip x y : (Rabs (cos x - cos y) <= Rabs (x - y))%R.
Proof.
  rewrite form2. rewrite !Rabs_mult. replace (Rabs (-2)) with 2%R by (rewrite Rabs_left; lra).
  pose proof (sin_le_abs ((x - y) / 2)) as H. assert (Rabs ((x - y) / 2) = Rabs (x - y) / 2)%R as E by (unfold Rdiv; rewrite Rabs_mult, (Rabs_pos_eq (/ 2)) by lra; reflexivity).
  rewrite E in H. assert (Rabs (sin ((x + y) / 2)) <= 1)%R by (apply Rabs_le; pose proof (SIN_bound ((x + y) / 2)); lra).
  pose proof (Rabs_pos (sin ((x - y) / 2))). pose proof (Rabs_pos (sin ((x + y) / 2))). nra.
Qed.
Lemma sin_lip x y : (Rabs (sin x - sin y) <= Rabs (x - y))%R.
Proof.
  pose proof (cos_lip (PI / 2 - x) (PI / 2 - y)) as H. rewrite !cos_shift in H.
  replace (PI / 2 - x - (PI / 2 - y))%R with (- (x - y))%R in H by ring. now rewrite Rabs_Ropp in H.
Qed.

(** ** The phase of a twiddle *)
Lemma m2pi : let x := fmul (fofZ (-2)) f_pi in dbl x /\ fin x /\ (Rabs (V x + 2 * PI) <= 32 / 5 * uu)%R /\ (Rabs (V x) <= 629 / 100)%R.
Proof.
  cbv zeta. assert (E : fmul (fofZ (-2)) f_pi = S754_finite true 7074237752028440 (-50)) by (vm_compute; reflexivity). rewrite E.
  assert (EV : V (S754_finite true 7074237752028440 (-50)) = (- (7074237752028440 / 1125899906842624))%R).
  { cbn [SF2R cond_Zopp]. unfold F2R, Fnum, Fexp. change (bpow radix2 (-50)) with (/ IZR (2 ^ 50))%R. change (2 ^ 50) with 1125899906842624. change (Z.neg 7074237752028440) with (- (7074237752028440)). rewrite opp_IZR. field. }
  rewrite EV. split; [vm_compute; reflexivity|]. split; [reflexivity|]. pose proof PI_bounds as P. rewrite uu_val.
  split; [apply Rabs_le|]; [|rewrite Rabs_left; lra]. lra.
Qed.

Lemma ff_phase_ok n inv i : 0 <= i < n -> n <= 2 ^ 20 ->
  let x := ff_phase n inv i in dbl x /\ fin x /\ (Rabs (V x - 2 * PI * IZR (dir inv * i) / IZR n) <= 20 * uu)%R.
Proof.
  intros Hi Hn. cbv zeta. unfold ff_phase. destruct m2pi as (D1 & F1 & E1 & B1). set (p1 := fmul (fofZ (-2)) f_pi) in *. clearbody p1.
  destruct (fofZ_small i) as (D2 & F2 & E2); [lia|]. destruct (fofZ_small n) as (D3 & F3 & E3); [lia|].
  assert (U : (0 < uu <= / 10 ^ 15)%R) by exact uu_small. assert (T : (0 < dmin <= uu / 1000)%R). { pose proof dmin_small. rewrite uu_val. lra. }
  assert (HI : (0 <= IZR i)%R) by (apply IZR_le; lia). assert (HIN : (IZR i + 1 <= IZR n)%R) by (rewrite <- (plus_IZR i 1); apply IZR_le; lia).
  assert (HN : (IZR n <= 1048576)%R) by (apply IZR_le; lia).
  assert (BB : (16777216 <= BIG)%R) by (change 16777216%R with (bpow radix2 24); apply bpow_le; lia).
  pose proof (fmul_rnd p1 (fofZ i) D1 D2 F1 F2) as R2. rewrite E2 in R2.
  assert (B2 : (Rabs (V p1 * IZR i) <= 629 / 100 * IZR i)%R) by (rewrite Rabs_mult, (Rabs_pos_eq (IZR i)) by lra; apply Rmult_le_compat_r; lra).
  destruct (big_rnd _ _ R2) as (D4 & F4 & E4); [lra|]. pose proof (rnd_ok (V p1 * IZR i)) as Q4. rewrite <- E4 in Q4.
  set (p2 := fmul p1 (fofZ i)) in *. clearbody p2. clear R2 E4.
  assert (NN : (IZR n <> 0)%R) by lra.
  pose proof (fdiv_rnd p2 (fofZ n) D4 D3 F4 F3) as R3. rewrite E3 in R3. specialize (R3 NN).
  set (t := (IZR i / IZR n)%R). assert (Ht : (0 <= t <= 1)%R). { unfold t. split; [apply Rmult_le_pos; [lra|left; apply Rinv_0_lt_compat; lra]|]. apply Rmult_le_reg_r with (IZR n); [lra|]. unfold Rdiv. rewrite Rmult_assoc, Rinv_l by lra. lra. }
  assert (e1 : (Rabs (V p2 / IZR n - V p1 * t) <= 629 / 100 * uu + dmin)%R).
  { replace (V p2 / IZR n - V p1 * t)%R with ((V p2 - V p1 * IZR i) * / IZR n)%R by (unfold t; field; auto).
    rewrite Rabs_mult, (Rabs_pos_eq (/ IZR n)) by (left; apply Rinv_0_lt_compat; lra).
    apply Rmult_le_reg_r with (IZR n); [lra|]. rewrite Rmult_assoc, Rinv_l, Rmult_1_r by lra.
    eapply Rle_trans; [exact Q4|]. assert (uu * Rabs (V p1 * IZR i) <= uu * (629 / 100 * IZR i))%R by (apply Rmult_le_compat_l; lra).
    assert (uu * IZR i <= uu * IZR n)%R by (apply Rmult_le_compat_l; lra). assert (dmin * 1 <= dmin * IZR n)%R by (apply Rmult_le_compat_l; lra). lra. }
  assert (a1 : (Rabs (V p1 * t) <= 629 / 100)%R) by (rewrite Rabs_mult, (Rabs_pos_eq t) by lra; pose proof (Rabs_pos (V p1)); nra).
  assert (b1 : (Rabs (V p2 / IZR n) <= 630 / 100)%R). { replace (V p2 / IZR n)%R with ((V p2 / IZR n - V p1 * t) + V p1 * t)%R by ring. eapply Rle_trans; [apply Rabs_triang|]. lra. }
  destruct (big_rnd _ _ R3) as (D5 & F5 & E5); [lra|]. pose proof (rnd_ok (V p2 / IZR n)) as Q5. rewrite <- E5 in Q5.
  set (p3 := fdiv p2 (fofZ n)) in *. clearbody p3. clear R3 E5.
  assert (X : (Rabs (V p3 + 2 * PI * t) <= 20 * uu)%R).
  { replace (V p3 + 2 * PI * t)%R with ((V p3 - V p2 / IZR n) + ((V p2 / IZR n - V p1 * t) + (V p1 + 2 * PI) * t))%R by ring.
    eapply Rle_trans; [apply Rabs_triang|]. eapply Rle_trans; [apply Rplus_le_compat_l, Rabs_triang|].
    assert (Rabs ((V p1 + 2 * PI) * t) <= 32 / 5 * uu)%R by (rewrite Rabs_mult, (Rabs_pos_eq t) by lra; pose proof (Rabs_pos (V p1 + 2 * PI)); nra).
    assert (uu * Rabs (V p2 / IZR n) <= uu * (630 / 100))%R by (apply Rmult_le_compat_l; lra). lra. }
  unfold dir. destruct inv.
  - destruct (fofZ_small (-1)) as (D6 & F6 & E6); [lia|]. pose proof (fmul_rnd p3 (fofZ (-1)) D5 D6 F5 F6) as R6. rewrite E6 in R6.
    assert (b3 : (Rabs (V p3 * -1) <= 7)%R).
    { rewrite Rabs_mult. replace (Rabs (-1)) with 1%R by (rewrite Rabs_left; lra). replace (V p3) with ((V p3 - V p2 / IZR n) + V p2 / IZR n)%R by ring.
      rewrite Rmult_1_r. eapply Rle_trans; [apply Rabs_triang|]. assert (uu * Rabs (V p2 / IZR n) <= uu * (630 / 100))%R by (apply Rmult_le_compat_l; lra). lra. }
    destruct (big_rnd _ _ R6) as (D7 & F7 & E7); [lra|]. split; [auto|]. split; [auto|]. rewrite E7.
    rewrite round_generic; [|apply valid_rnd_N|].
    + replace (V p3 * -1 - 2 * PI * IZR (1 * i) / IZR n)%R with (- (V p3 + 2 * PI * t))%R; [now rewrite Rabs_Ropp|]. unfold t. rewrite Z.mul_1_l. field. auto.
    + replace (V p3 * -1)%R with (- V p3)%R by ring. apply generic_format_opp. now apply fin_fmt.
  - split; [auto|]. split; [auto|]. replace (V p3 - 2 * PI * IZR (-1 * i) / IZR n)%R with (V p3 + 2 * PI * t)%R; auto.
    unfold t. rewrite mult_IZR. field. auto.
Qed.

(** ** kiss_fft_alloc *)
Definition trig_ok (delta : R) (cosf sinf : f64 -> f64) : Prop := forall x, dbl x -> fin x -> (Rabs (V x) <= 7)%R ->
  ((dbl (cosf x) /\ fin (cosf x)) /\ (Rabs (V (cosf x) - cos (V x)) <= delta)%R) /\
  ((dbl (sinf x) /\ fin (sinf x)) /\ (Rabs (V (sinf x) - sin (V x)) <= delta)%R).

Definition keps (delta : R) : R := (2 * delta + 40 * uu)%R.
Lemma ff_alloc_ok cosf sinf delta n inv : trig_ok delta cosf sinf -> 1 <= n <= 2 ^ 20 ->
  exists st, ff_alloc cosf sinf n inv = Ok st /\ kf_nfft st = n /\ kf_factor n = Ok (kf_factors st) /\ fcfg_ok st (dir inv) (keps delta) /\ good_factors n (kf_factors st) /\ zlen (kf_factors st) <= Z.max 1 (Z.log2 n).
Proof.
  intros HT Hn. unfold ff_alloc. destruct (kf_factor_ok n) as (l & El & G & L); [lia|]. rewrite El. cbn [bind].
  assert (Z.log2 n < 32) by (apply Z.log2_lt_pow2; lia).
  unfold MAXFACTORS. destruct (Z.ltb_spec 32 (zlen l)); [lia|].
  eexists; split; [reflexivity|]. cbn [kf_nfft kf_factors]. split; auto. split; auto. split; [|split; auto].
  constructor; cbn [kf_nfft kf_inverse kf_tw].
  - lia.
  - reflexivity.
  - rewrite zlen_vmake. lia.
  - intros i Hi. rewrite vget_vmake by auto. destruct (ff_phase_ok n inv i Hi ltac:(lia)) as (D & F & E). set (x := ff_phase n inv i) in *.
    assert (U : (0 < uu <= / 10 ^ 15)%R) by exact uu_small.
    assert (HI : (0 <= IZR i)%R) by (apply IZR_le; lia). assert (HIN : (IZR i + 1 <= IZR n)%R) by (rewrite <- (plus_IZR i 1); apply IZR_le; lia).
    assert (Ht : (Rabs (2 * PI * IZR (dir inv * i) / IZR n) <= 2 * PI)%R).
    { pose proof PI_RGT_0. unfold Rdiv. rewrite !Rabs_mult, (Rabs_pos_eq 2), (Rabs_pos_eq PI), (Rabs_pos_eq (/ IZR n)) by (try lra; left; apply Rinv_0_lt_compat; lra).
      replace (Rabs (IZR (dir inv * i))) with (IZR i).
      2:{ rewrite mult_IZR, Rabs_mult, (Rabs_pos_eq (IZR i)) by lra. unfold dir. destruct inv; [rewrite Rabs_pos_eq by lra; ring|rewrite Rabs_left by lra; ring]. }
      apply Rmult_le_reg_r with (IZR n); [lra|]. rewrite Rmult_assoc, Rinv_l, Rmult_1_r by lra. apply Rmult_le_compat_l; lra. }
    assert (BX : (Rabs (V x) <= 7)%R).
    { replace (V x) with ((V x - 2 * PI * IZR (dir inv * i) / IZR n) + 2 * PI * IZR (dir inv * i) / IZR n)%R by ring. eapply Rle_trans; [apply Rabs_triang|]. pose proof PI_bounds. lra. }
    destruct (HT x D F BX) as ((Fc & Ec) & (Fs & Es)). unfold W, root. set (y := (2 * PI * IZR (dir inv * i) / IZR n)%R) in *.
    split; [split; auto|]. split; [apply Cmod_cisR|]. unfold cisR.
    assert (cx : (Rabs (V (cosf x) - cos y) <= delta + 20 * uu)%R).
    { replace (V (cosf x) - cos y)%R with ((V (cosf x) - cos (V x)) + (cos (V x) - cos y))%R by ring. eapply Rle_trans; [apply Rabs_triang|]. pose proof (cos_lip (V x) y). lra. }
    assert (sx : (Rabs (V (sinf x) - sin y) <= delta + 20 * uu)%R).
    { replace (V (sinf x) - sin y)%R with ((V (sinf x) - sin (V x)) + (sin (V x) - sin y))%R by ring. eapply Rle_trans; [apply Rabs_triang|]. pose proof (sin_lip (V x) y). lra. }
    eapply Rle_trans; [apply Cmod_sum1|]. unfold VC, keps, Cminus, Cplus, Copp. cbn [fst snd]. unfold Rminus in cx, sx. lra.
Qed.

(** ** What the stages cost *)
Lemma wcost_le P l : (forall r, In r l -> (IZR (fst r) <= P)%R) -> (0 <= P)%R -> (wcost l <= 2 * (32 + P) * IZR (zlen l))%R.
Proof.
  intros H HP. induction l as [|(p & m) l IH]; [cbn; lra|]. cbn [wcost]. replace (zlen ((p, m) :: l)) with (1 + zlen l) by (unfold zlen; cbn [length]; lia). rewrite plus_IZR.
  pose proof (H (p, m) (or_introl eq_refl)) as Hp. cbn in Hp. specialize (IH (fun r h => H r (or_intror h))).
  assert (0 <= IZR (zlen l))%R by (apply IZR_le; unfold zlen; lia). assert (0 <= 2 * (32 + P) * IZR (zlen l))%R by (apply Rmult_le_pos; lra).
  destruct (m =? 1); nra.
Qed.
Lemma chain_divides l : forall n r, chain n l -> In r l -> (fst r | n).
Proof.
  induction l as [|(p & m) l IH]; intros n r C H; [destruct H|]. destruct C as (-> & C). destruct H as [<-|H]; [exists m; cbn; ring|].
  apply Z.divide_trans with m; [apply IH; auto|exists p; ring].
Qed.
Lemma radix_le n l P : 1 <= n -> kf_factor n = Ok l -> 4 <= P -> (forall p, prime p -> (p | n) -> p <= P) -> forall r, In r l -> fst r <= P.
Proof.
  intros Hn E HP H r Hr. destruct (Z.eq_dec n 1) as [->|N1]; [rewrite kf_factor_1 in E; injection E as <-; destruct Hr as [<-|[]]; cbn; lia|].
  destruct (kf_factor_inv n l ltac:(lia) E) as (C & A). rewrite Forall_forall in A. destruct (A r Hr) as [->|Hp]; auto. apply H; auto. eapply chain_divides; eauto.
Qed.

(** ** kiss_fft *)
Section Fft.
Variables (delta B : R) (cosf sinf : f64 -> f64) (n P : Z) (inv : bool) (st : kcfgf).
Hypothesis HT : trig_ok delta cosf sinf.
Hypothesis Hd : (0 <= delta <= / 2 ^ 44)%R.
Hypothesis Hn : 1 <= n <= 2 ^ 20.
Hypothesis HB : (bpow radix2 (-900) <= B <= bpow radix2 900)%R.
Hypothesis HP : 4 <= P.
Hypothesis Hpr : forall p, prime p -> (p | n) -> p <= P.
Hypothesis Est : ff_alloc cosf sinf n inv = Ok st.
Definition fft_tol : R := (2 * (32 + IZR P) * (IZR (Z.log2 n) + 1) * keps delta * (IZR n * B))%R.

Lemma ff_run junk stride fin fout : 1 <= stride -> (n - 1) * stride < zlen fin -> n <= zlen fout ->
  (forall j, 0 <= j < n -> small B (vgf fin (j * stride))) ->
  exists out, ff_work junk st fin stride (kf_factors st) fout 0 0 1 = Ok out /\ zlen out = zlen fout /\
    (forall k, 0 <= k < n -> near fft_tol (vgf out k) (sumC 0 n (fun j => VC (vgf fin (j * stride)) * root n (dir inv * (j * k)))%C)) /\
    (forall k, n <= k -> vgf out k = vgf fout k).
Proof.
  intros Hs Hf Ho Hin. destruct (ff_alloc_ok cosf sinf delta n inv HT Hn) as (st' & E & En & Ef & Hc & Hg & L). rewrite Est in E. injection E as <-.
  assert (U : (0 < uu <= / 10 ^ 15)%R) by exact uu_small.
  assert (e1 : (uu <= keps delta)%R) by (unfold keps; lra).
  assert (e2 : (keps delta <= / 2 ^ 42)%R). { unfold keps. rewrite uu_val. lra. }
  assert (n1 : (1 <= IZR n)%R) by (apply IZR_le; lia). assert (n2 : (IZR n <= 1048576)%R) by (apply IZR_le; lia).
  assert (e3 : (keps delta <= / 1000)%R) by lra.
  assert (b0 : (0 < B)%R) by (pose proof (bpow_gt_0 radix2 (-900)); lra).
  assert (cgb : (cg (kf_nfft st) * keps delta <= / 2)%R).
  { rewrite En. unfold cg. assert (0 <= IZR n * IZR n)%R by (apply Rmult_le_pos; lra). assert (IZR n * IZR n <= 1048576 * 1048576)%R by (apply Rmult_le_compat; lra).
    apply Rle_trans with ((12 * 1048576 + 1048576 * 1048576) * / 2 ^ 42)%R; [apply Rmult_le_compat; lra|lra]. }
  assert (bg : (400 * IZR (kf_nfft st) * B <= BIG)%R).
  { rewrite En. replace BIG with (bpow radix2 120 * bpow radix2 900)%R by (rewrite <- bpow_plus; reflexivity). apply Rmult_le_compat; try lra.
    apply Rle_trans with (bpow radix2 40); [change (bpow radix2 40) with 1099511627776%R; lra|]. apply bpow_le. lia. }
  assert (lg : 0 <= Z.log2 n <= 20). { split; [apply Z.log2_nonneg|]. assert (Z.log2 n < 21) by (apply Z.log2_lt_pow2; lia). lia. }
  assert (lr : (0 <= IZR (Z.log2 n) <= 20)%R) by (split; apply IZR_le; lia).
  assert (ll : (IZR (zlen (kf_factors st)) <= IZR (Z.log2 n) + 1)%R) by (rewrite <- plus_IZR; apply IZR_le; lia).
  assert (ww : forall Q, 4 <= Q -> (forall p, prime p -> (p | n) -> p <= Q) -> (wcost (kf_factors st) <= 2 * (32 + IZR Q) * (IZR (Z.log2 n) + 1))%R).
  { intros Q HQ Hq. assert (4 <= IZR Q)%R by (apply IZR_le; auto). eapply Rle_trans; [apply (wcost_le (IZR Q))|].
    - intros r Hr. apply IZR_le. apply (radix_le n (kf_factors st) Q); auto; lia.
    - lra.
    - apply Rmult_le_compat_l; lra. }
  assert (wc : (wcost (kf_factors st) * keps delta <= 1)%R).
  { assert (W0 : (0 <= wcost (kf_factors st))%R) by (eapply wcost_pos; eauto). specialize (ww (2 ^ 20) ltac:(lia)). lapply ww.
    - clear ww. intros ww. change (IZR (2 ^ 20)) with 1048576%R in ww. assert (wcost (kf_factors st) <= 2 * (32 + 1048576) * (20 + 1))%R by lra.
      apply Rle_trans with ((2 * (32 + 1048576) * (20 + 1)) * / 2 ^ 42)%R; [apply Rmult_le_compat; lra|lra].
    - intros p Hp Hpn. apply Z.divide_pos_le in Hpn; lia. }
  destruct (ff_work_ok st (dir inv) (keps delta) B Hc (proj1 HB) e1 e3 cgb bg junk fin stride (kf_factors st) n fout 0 0 1) as (out & Eo & L1 & L2 & L3); auto; try lia.
  { intros j Hj. replace (0 + j * (1 * stride)) with (j * stride) by ring. split; [nia|auto]. }
  exists out. split; auto. split; auto. split.
  - intros k Hk. destruct (L2 k Hk) as (Fk & Ek). split; [exact Fk|]. cbn [Z.add] in Ek. unfold gsum in Ek.
    match goal with |- (Cmod (?a - ?S)%C <= _)%R => match type of Ek with (Cmod (?b - ?T)%C <= _)%R => assert (ES : T = S) end end.
    { apply sumC_ext. intros j Hj. unfold W. rewrite En. replace (0 + j * (1 * stride)) with (j * stride) by ring. f_equal. f_equal. ring. }
    rewrite ES in Ek. replace (0 + k) with k in Ek by ring. eapply Rle_trans; [exact Ek|]. unfold fft_tol. apply Rmult_le_compat_r; [apply Rmult_le_pos; lra|].
    apply Rmult_le_compat_r; [lra|]. apply (ww P); auto.
  - intros k Hk. apply L3. lia.
Qed.
Lemma ff_stride_ok junk stride fin fout : 1 <= stride -> (n - 1) * stride < zlen fin -> n <= zlen fout ->
  (forall j, 0 <= j < n -> small B (vgf fin (j * stride))) ->
  exists out, ff_fft_stride junk st fin fout stride = Ok out /\ zlen out = zlen fout /\
    (forall k, 0 <= k < n -> near fft_tol (vgf out k) (sumC 0 n (fun j => VC (vgf fin (j * stride)) * root n (dir inv * (j * k)))%C)) /\
    (forall k, n <= k -> vgf out k = vgf fout k).
Proof. apply ff_run. Qed.
Lemma ff_inplace_ok junk buf : n <= zlen buf ->
  (forall j, 0 <= j < n -> small B (vgf buf j)) ->
  exists out, ff_fft_inplace junk st buf = Ok out /\ zlen out = zlen buf /\
    (forall k, 0 <= k < n -> near fft_tol (vgf out k) (sumC 0 n (fun j => VC (vgf buf j) * root n (dir inv * (j * k)))%C)) /\
    (forall k, n <= k -> vgf out k = vgf buf k).
Proof.
  intros Hl Hin. destruct (ff_alloc_ok cosf sinf delta n inv HT Hn) as (st' & E & En & _). rewrite Est in E. injection E as <-.
  unfold ff_fft_inplace. rewrite En.
  destruct (ff_run junk 1 buf (vmake n junk)) as (tmp & -> & L1 & L2 & L3); [lia|lia|rewrite zlen_vmake; lia| |].
  { intros j Hj. rewrite Z.mul_1_r. auto. }
  cbn [bind]. rewrite zlen_vmake in L1. unfold ff_memcpy.
  destruct (Z.leb_spec n (zlen tmp)); [|lia]. destruct (Z.leb_spec n (zlen buf)); [|lia]. cbn [andb].
  eexists; split; [reflexivity|]. split; [rewrite zlen_vmake; lia|]. split.
  - intros k Hk. rewrite vget_vmake by lia. destruct (Z.ltb_spec k n); [|lia]. destruct (L2 k Hk) as (F & E2). split; [exact F|].
    match type of E2 with (Cmod (?b - ?T)%C <= _)%R => match goal with |- (Cmod (_ - ?S)%C <= _)%R => assert (ES : T = S) by (apply sumC_ext; intros; now rewrite Z.mul_1_r) end end.
    now rewrite <- ES.
  - intros k Hk. destruct (Z_lt_dec k (zlen buf)).
    + rewrite vget_vmake by lia. destruct (Z.ltb_spec k n); [lia|reflexivity].
    + rewrite !vget_out; auto; rewrite ?zlen_vmake; lia.
Qed.
End Fft.
