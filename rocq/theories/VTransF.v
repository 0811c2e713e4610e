(** * VTransF: errors of vispht in double precision. *)
From Coq Require Import ZArith List Bool SpecFloat Reals Lia Lra Psatz.
From Coquelicot Require Import Coquelicot.
From Flocq Require Import Core.Core IEEE754.BinarySingleNaN.
From Verif Require Import Exact Py PyFacts Num FloatN FloatText MCoefs SpecCoefs Obs CoefsFacts CoefsFacts2 CoefsFacts3 Sums Harm Smooth Dft MOps MPysphi PysphiFacts MTrans TransFacts TransFacts2 TransFacts3 SpecHarm HarmFacts MKiss KissFacts KissFacts2 SpecDft MCsphi CsphiFacts P_Coefs
  MDouble FlFacts SeedReal SeedFl SeedFl2 DoubleFacts P_Double FlSigned SbesselFTerm SbesselFRel TabPert Unsold TabFl P_Table SumFl SumFl2 SumFl3 SumFl4 P_Sums
  MKissF KissFl KissFl2 KissFl5 P_KissF MTransF TransF P_TransF MTransP TransP MOpsF OpsF P_OpsF MVecF P_VecF MVTransF.
Import ListNotations.
Open Scope list_scope.
Open Scope Z_scope.

(** what is known of both backends' sc_to_fc *)
Definition s2f_acc (s2f : list cf -> Z -> Z -> Z -> Z -> res (list cf)) (ew : R) (Mm : Z) : Prop := forall sc N Mx L nc B, Mx <= Mm -> 0 <= Mx <= N -> N <= 1022 -> N + 1 <= L -> 2 * Mx + 2 <= nc -> zlen sc = ncoef N Mx ->
  (0 <= B <= bpow radix2 1000)%R -> (forall i, 0 <= i < zlen sc -> cap B 0 (vget cf0 sc i) (VC (vget cf0 sc i))) ->
  exists fd, s2f sc N Mx L nc = Ok fd /\ zlen fd = L * nc /\ forall p q, 0 <= p < L -> 0 <= q < nc -> exists K, cap K (eacc N B ew) (fget nc fd p q) (FscV sc N Mx (freqc nc q) (freqc L p)).
Lemma c_s2f_acc junkr junki Mm : s2f_acc (c_s2f junkr junki) 0 Mm.
Proof.
  intros sc N Mx L nc B _ HM HN HL Hc Ls HB Hx. unfold c_s2f. rewrite np_zeros_ok by nia. cbn [bind].
  destruct (ff_sc_to_fc_acc junkr junki sc L nc N Mx B HM HN HL Hc Ls HB Hx) as (fd & E & Lf & A). exists fd. split; [exact E|]. split; [exact Lf|].
  intros p q Hp Hq. destruct (A p q Hp Hq) as ((K & _ & Q) & _). exists K. exact Q.
Qed.
Lemma p_s2f_acc ipw ew Mm : (0 <= ew <= / 64)%R -> (forall m, Z.abs m <= Mm -> wap 1 ew (ipw m) (ipow m)) -> s2f_acc (p_s2f ipw) ew Mm.
Proof.
  intros Hew Hw sc N Mx L nc B Hm HM HN HL Hc Ls HB Hx. unfold p_s2f.
  destruct (fp_sc_to_fc_acc ipw sc L nc N Mx B ew HM HN HL Hc Ls HB Hew) as (fd & E & Lf & A); [intros; apply Hw; lia|exact Hx|]. exists fd. split; [exact E|]. split; [exact Lf|].
  intros p q Hp Hq. destruct (A p q Hp Hq) as ((K & _ & Q) & _). exists K. exact Q.
Qed.

Open Scope R_scope.
Lemma norm_ge n : (1 <= n)%Z -> 101 / 100 <= harm_norm n.
Proof.
  intros Hn. unfold harm_norm. rewrite <- (sqrt_pow2 (101 / 100)) by lra. apply sqrt_le_1_alt. assert (1 <= IZR n) by (apply IZR_le; lia).
  apply Rle_trans with (1 * 2); [lra|]. apply Rmult_le_compat; lra.
Qed.
(** one part after the normalisation *)
Lemma normalised_bounds n x y B : (0 <= n)%Z -> normalised n x y -> Rabs (V x) <= B -> bpow radix2 (-900) <= B ->
  dbl y /\ fin y /\ Rabs (V y) <= B /\ Rabs (V y - V x * (if (n =? 0)%Z then 0 else / harm_norm n)) <= 6 * uu * B.
Proof.
  intros H0 (D & F & Z0 & N) Hx HB. apply finite_fin in F. change value with V in *. split; [exact D|]. split; [exact F|]. pose proof (bpow_gt_0 radix2 (-900)) as B0. pose proof uu_small as [U0 U1].
  destruct (Z.eqb_spec n 0) as [->|Hne].
  - rewrite Z0, Rmult_0_r, Rminus_0_r, Rabs_R0 by reflexivity. split; [lra|]. apply Rmult_le_pos; lra.
  - specialize (N ltac:(lia)). pose proof (norm_ge n ltac:(lia)) as G. unfold Rdiv at 1 3 in N.
    assert (I : 0 < / harm_norm n <= 100 / 101) by (split; [apply Rinv_0_lt_compat; lra|apply Rle_trans with (/ (101 / 100)); [apply Rinv_le_contravar; lra|lra]]).
    set (i := / harm_norm n) in *. clearbody i.
    replace (5 / 2 ^ 53) with (5 * uu) in N by (rewrite uu_val; field).
    assert (T : / 2 ^ 1074 <= / 10 * (uu * B)).
    { rewrite <- (bpow_neg 1074). change (- Z.of_nat 1074)%Z with (-1074)%Z. apply Rle_trans with (bpow radix2 (-60 + -900)); [apply bpow_le; lia|]. rewrite bpow_plus.
      replace (/ 10 * (uu * B)) with (/ 10 * uu * B) by ring. apply Rmult_le_compat; [apply bpow_ge_0|lra| |exact HB]. rewrite uu_val. change (bpow radix2 (-60)) with (/ 1152921504606846976). lra. }
    assert (M : Rabs (V x) * i <= B * (100 / 101)) by (apply Rmult_le_compat; try lra; apply Rabs_pos).
    assert (M0 : 0 <= Rabs (V x) * i) by (apply Rmult_le_pos; [apply Rabs_pos|lra]).
    assert (M2 : 5 * uu * (Rabs (V x) * i) <= 5 * uu * (B * (100 / 101))) by (apply Rmult_le_compat_l; lra).
    assert (W : 0 < uu * B) by (apply Rmult_lt_0_compat; lra). assert (W2 : uu * B <= / 10 ^ 15 * B) by (apply Rmult_le_compat_r; lra).
    replace (5 * uu * (B * (100 / 101))) with (500 / 101 * (uu * B)) in M2 by field. replace (6 * uu * B) with (6 * (uu * B)) by ring.
    split; [|lra].
    replace (V y) with ((V y - V x * i) + V x * i) by ring. eapply Rle_trans; [apply Rabs_triang|]. rewrite (Rabs_mult (V x)), (Rabs_pos_eq i) by lra. lra.
Qed.
(** the exact weights and the Fourier sums of the normalised coefficients *)
Definition wf_of (v : scoefs FN) (n m : Z) : C := (VC (cval FN v n m) * nv n)%C.
Lemma nv_real n x : (0 <= n)%Z -> (x * nv n)%C = (fst x * (if (n =? 0)%Z then 0 else / harm_norm n), snd x * (if (n =? 0)%Z then 0 else / harm_norm n)).
Proof. intros H. unfold nv, harm_norm. destruct (Z.eqb_spec n 0); apply injective_projections; cbn; unfold Rdiv; ring. Qed.

Lemma fourier_sim s2f ew v N Mx L nc B : s2f_acc s2f ew Mx -> valid FN v -> sc_nmax FN v = N -> sc_mmax FN v = Mx -> (N <= 1022)%Z -> (N + 1 <= L)%Z -> (2 * Mx + 2 <= nc)%Z ->
  bpow radix2 (-700) <= B <= bpow radix2 800 -> 0 <= ew <= / 2 ^ 40 -> (forall n m x, reads FN v n m x -> bounded B x) ->
  exists v' fd, f_normalise v N = Ok v' /\ (sc_nmax FN v' = N /\ sc_mmax FN v' = Mx) /\ s2f (sc_vec FN v') (sc_nmax FN v') (sc_mmax FN v') L nc = Ok fd /\ zlen fd = (L * nc)%Z /\
    forall p q, (0 <= p < L)%Z -> (0 <= q < nc)%Z -> gpc (entry_bound N B + B) (eacc N B ew + entry_bound N (6 * uu * B)) (fget nc fd p q) (Fm N Mx (wf_of v) (freqc nc q) (freqc L p)).
Proof.
  intros HS Hv EN EM HN HL Hc HB Hew Hb. pose proof Hv as Hw. apply valid_wf in Hw. pose proof Hw as [[Hg1 Hg2] _]. rewrite EN, EM in *.
  destruct (C83_normalise_accurate v Hv) as (v' & E & Hv' & E1 & E2 & _ & HR); [rewrite EN; lia| |].
  { intros n m x Hx. destruct (Hb n m x Hx) as (D1 & F1 & _ & D2 & F2 & _). auto. }
  rewrite EN, EM in *. pose proof Hv' as Hw'. apply valid_wf in Hw'. pose proof (proj2 Hw') as Ls0. rewrite E1, E2 in Ls0. assert (Ls : @zlen cf (sc_vec FN v') = ncoef N Mx) by exact Ls0. clear Ls0.
  assert (HBB : bpow radix2 (-900) <= bpow radix2 (-700)) by (apply bpow_le; lia). pose proof uu_small as [U0 U1]. pose proof (bpow_gt_0 radix2 (-700)) as B0.
  assert (Md : forall n m, is_mode N Mx n m -> cap B 0 (cval FN v' n m) (VC (cval FN v' n m)) /\ Cmod (VC (cval FN v' n m) - wf_of v n m)%C <= 12 * uu * B).
  { intros n m Hm. assert (Rx : reads FN v n m (cval FN v n m)) by (apply reads_iff; auto; rewrite EN, EM; auto).
    destruct (HR n m _ Rx) as (y & Ry & N1 & N2). apply reads_inv in Ry; auto. destruct Ry as [_ ->].
    destruct (Hb n m _ Rx) as (_ & _ & X1 & _ & _ & X2). assert (Hn : (0 <= n)%Z) by (destruct Hm as (? & ? & ?); lia).
    destruct (normalised_bounds n _ _ B Hn N1 X1 ltac:(lra)) as (D1 & F1 & A1 & A2). destruct (normalised_bounds n _ _ B Hn N2 X2 ltac:(lra)) as (D2 & F2 & A3 & A4).
    set (y := cval FN v' n m) in *. split.
    - split; (split; [assumption|]); (split; [assumption|]); unfold VC; cbn [fst snd]; (split; [assumption|]); rewrite Rminus_eq_0, Rabs_R0; lra.
    - unfold wf_of. rewrite nv_real by lia. eapply Rle_trans; [apply Cmod_sum1|]. unfold VC, Cminus, Cplus, Copp. cbn [fst snd]. unfold Rminus in A2, A4. replace (12 * uu * B) with (6 * uu * B + 6 * uu * B) by ring. apply Rplus_le_compat; assumption. }
  destruct (HS (sc_vec FN v') N Mx L nc B) as (fd & Ef & Lf & A); [lia|lia|exact HN|exact HL|exact Hc|exact Ls| | |].
  { split; [lra|]. apply Rle_trans with (bpow radix2 800); [lra|apply bpow_le; lia]. }
  { intros i Hi. rewrite Ls in Hi. destruct (pos_surj N Mx i) as (n & m & Hm & <-); [unfold good_size; lia|exact Hi|]. destruct (Md n m Hm) as [Q _]. unfold cval in Q. rewrite E1 in Q. exact Q. }
  exists v', fd. split; [exact E|]. split; [split; assumption|]. rewrite E1, E2. split; [exact Ef|]. split; [exact Lf|]. intros p q Hp Hq. destruct (A p q Hp Hq) as (K & Q).
  set (m := freqc nc q) in *. set (k := freqc L p) in *. clearbody m k.
  assert (N0 : 0 <= IZR N) by (apply IZR_le; lia). pose proof (sqrt_pos ((2 * IZR N + 1) / (4 * PI))) as Y0. change (0 <= ymax N) in Y0.
  assert (Df : Cmod (FscV (sc_vec FN v') N Mx m k - Fm N Mx (wf_of v) m k)%C <= entry_bound N (6 * uu * B)).
  { unfold FscV, Fm. destruct (Z.leb_spec (Z.abs m) Mx).
    - unfold FcolV, Fw. assert (Em : Cmod (ipow m) = 1) by (rewrite ipow_cis; apply Cmod_cis).
      match goal with |- Cmod (?i * ?a - ?i * ?b)%C <= _ => replace (i * a - i * b)%C with (i * (a - b))%C by ring end. rewrite Cmod_mult, Em, Rmult_1_l, <- sumC_sub.
      eapply Rle_trans; [apply Cmod_sumC1|]. eapply Rle_trans; [apply (sumR_le _ _ _ (fun _ => 12 * uu * B * ymax N))|].
      + intros n Hn. match goal with |- Cmod (?a * ?y - ?b * ?y)%C <= _ => replace (a * y - b * y)%C with ((a - b) * y)%C by ring end. rewrite Cmod_mult, Cmod_R.
        assert (Hm : is_mode N Mx n m) by (unfold is_mode; lia). destruct (Md n m Hm) as [_ D].
        apply Rmult_le_compat; [apply Cmod_ge_0|apply Rabs_pos| |].
        * unfold cval in D at 1. rewrite E1 in D. unfold ordv. replace (cstart N m + (n - Z.abs m))%Z with (pos N n m) by (unfold pos; lia). exact D.
        * eapply Rle_trans; [apply Yt_bound; lia|apply ymax_mono; lia].
      + rewrite sumR_const by lia. unfold entry_bound. replace (2 * (IZR N + 1) * ymax N * (6 * uu * B)) with ((IZR N + 1) * (12 * uu * B * ymax N)) by ring.
        apply Rmult_le_compat_r; [apply Rmult_le_pos; [apply Rmult_le_pos; lra|lra]|]. rewrite <- plus_IZR. apply IZR_le. lia.
    - replace (RtoC 0 - RtoC 0)%C with (RtoC 0) by ring. rewrite Cmod_0. unfold entry_bound. apply Rmult_le_pos; [apply Rmult_le_pos; lra|apply Rmult_le_pos; lra]. }
  assert (Sz : Cmod (FscV (sc_vec FN v') N Mx m k) <= entry_bound N B).
  { apply FscV_size; [lia|exact Ls|lra|]. intros i Hi. rewrite Ls in Hi. destruct (pos_surj N Mx i) as (n & m' & Hm & <-); [unfold good_size; lia|exact Hi|]. destruct (Md n m' Hm) as [Q' _]. unfold cval in Q'. rewrite E1 in Q'. exact Q'. }
  pose proof (eacc_Bw N B ew ltac:(lia) ltac:(lra) Hew) as EB.
  destruct Q as [(D1 & F1 & _ & Q1) (D2 & F2 & _ & Q2)]. set (X := FscV _ N Mx m k) in *. set (Y := Fm N Mx (wf_of v) m k) in *. set (z := fget nc fd p q) in *.
  pose proof (Cmod_fst X) as X1. pose proof (Cmod_snd X) as X2. pose proof (Cmod_fst (X - Y)%C) as Z1. pose proof (Cmod_snd (X - Y)%C) as Z2.
  cbn [Cminus Cplus Copp fst snd] in Z1, Z2. clearbody X Y z.
  assert (G : forall a b c E e t, Rabs (a - b) <= e -> Rabs b <= E -> Rabs (b + - c) <= t -> e <= B -> Rabs a <= E + B /\ Rabs (a - c) <= e + t).
  { clear. intros a b c E e t H1 H2 H3 H4. split; [replace a with ((a - b) + b) by ring|replace (a - c) with ((a - b) + (b + - c)) by ring]; (eapply Rle_trans; [apply Rabs_triang|]); lra. }
  split; (split; [assumption|]); (split; [assumption|]); (eapply G; [eassumption|lra|lra|lra]).
Qed.

(** ** The operators *)
Definition vbound (LH BH : Z) (F : R) : R := 4 * IZR LH * (IZR BH + 1) * F.
Definition verr (LH BH : Z) (F d : R) : R := 8 * uu * IZR LH ^ 2 * (IZR BH + 1) * F + 2 * IZR LH * (IZR BH * d + uu * ((IZR BH + 1) * F)).
Lemma gp_add F1 d1 F2 d2 x y X Y : F1 + F2 <= bpow radix2 1000 -> gp F1 d1 x X -> gp F2 d2 y Y ->
  gp ((F1 + F2) * (1 + uu)) (d1 + d2 + uu * (F1 + F2)) (fadd x y) (X + Y).
Proof.
  intros HF (Dx & Fx & Bx & Ex) (Dy & Fy & By & Ey). pose proof uu_small as [U0 U1]. assert (HB : bpow radix2 1000 <= BIG) by (apply bpow_le; lia).
  assert (S : Rabs (V x + V y) <= F1 + F2) by (eapply Rle_trans; [apply Rabs_triang|lra]).
  pose proof (fadd_rnd x y Dx Dy Fx Fy) as R. destruct (big_rnd _ _ R) as (D & F' & E); [lra|].
  pose proof (rnd_add_err x y Dx Fx Dy Fy) as Q. rewrite <- E in Q. set (s := V x + V y) in *.
  assert (Q2 : uu * Rabs s <= uu * (F1 + F2)) by (apply Rmult_le_compat_l; lra).
  split; [exact D|]. split; [exact F'|]. split.
  - replace (V (fadd x y)) with ((V (fadd x y) - s) + s) by ring. eapply Rle_trans; [apply Rabs_triang|]. lra.
  - replace (V (fadd x y) - (X + Y)) with ((V (fadd x y) - s) + ((V x - X) + (V y - Y))) by (unfold s; ring).
    eapply Rle_trans; [apply Rabs_triang|]. eapply Rle_trans; [apply Rplus_le_compat_l, Rabs_triang|]. lra.
Qed.
Lemma gpc_add F1 d1 F2 d2 x y X Y : F1 + F2 <= bpow radix2 1000 -> gpc F1 d1 x X -> gpc F2 d2 y Y ->
  gpc ((F1 + F2) * (1 + uu)) (d1 + d2 + uu * (F1 + F2)) (cfadd x y) (X + Y)%C.
Proof. intros HF [X1 X2] [Y1 Y2]. split; cbn [cfadd fst snd Cplus]; apply gp_add; auto. Qed.

(** L_fc of one component, against the closed form of the exact pipeline, with bounds that do not depend on the row *)
Lemma L_closed LH BH N Mx w f F d : (2 <= LH <= 2 ^ 20)%Z -> (1 <= BH <= 2 ^ 20)%Z -> (0 <= Mx <= N)%Z -> (N + 1 <= LH)%Z -> (Mx < BH)%Z ->
  dmin <= uu * F -> 0 < F <= bpow radix2 860 -> 0 <= d ->
  (forall p q, (0 <= p < 2 * LH)%Z -> (0 <= q < 2 * BH)%Z -> gpc F d (f p q) (Fm N Mx w (freqc (2 * BH) q) (freqc (2 * LH) p))) ->
  exists g1 g2, f_L_fc (2 * LH) (2 * BH) (fmake (2 * LH) (2 * BH) f) = Ok (fmake (2 * LH) (2 * BH) g1, fmake (2 * LH) (2 * BH) g2) /\
    forall p q, (0 <= p < 2 * LH)%Z -> (0 <= q < 2 * BH)%Z ->
      gpc (vbound LH BH F) (verr LH BH F d) (g1 p q) (Ci * Gm N Mx w (freqc (2 * BH) q) (freqc (2 * LH) p))%C /\
      gpc (vbound LH BH F) (verr LH BH F d) (g2 p q) (RtoC (IZR (freqc (2 * LH) p)) * Fm N Mx w (freqc (2 * BH) q) (freqc (2 * LH) p))%C.
Proof.
  intros HL HB HM HN HMB Hm HF Hd H. pose proof uu_small as [U0 U1].
  destruct (L_sim LH BH f _ F d HL HB Hm HF Hd H) as (g1 & g2 & G1 & G2 & E1 & E2 & A).
  change (mmake RN (2 * LH) (2 * BH) (fun p q : Z => Fm N Mx w (freqc (2 * BH) q) (freqc (2 * LH) p))) with (tab (2 * LH) (2 * BH) (Fm N Mx w)) in E2.
  pose proof (L_fc_Fm (LH + 1) BH N Mx w ltac:(lia) ltac:(lia) ltac:(lia)) as E3. replace (2 * (LH + 1) - 2)%Z with (2 * LH)%Z in E3 by lia.
  assert (T : (tab (2 * LH) (2 * BH) (fun m k => Ci * Gm N Mx w m k)%C, tab (2 * LH) (2 * BH) (fun m k => RtoC (IZR k) * Fm N Mx w m k)%C) = (mmake RN (2 * LH) (2 * BH) G1, mmake RN (2 * LH) (2 * BH) G2)).
  { apply Ok_inj. rewrite <- E2, <- E3. reflexivity. }
  pose proof (f_equal fst T) as T1. pose proof (f_equal snd T) as T2. unfold fst, snd in T1, T2. clear T E2 E3.
  exists g1, g2. split; [exact E1|]. intros p q Hp Hq. destruct (A p q Hp Hq) as [A1 A2].
  assert (Q1 : G1 p q = (Ci * Gm N Mx w (freqc (2 * BH) q) (freqc (2 * LH) p))%C) by (rewrite <- (cget_mmake (2 * LH) (2 * BH) G1 p q), <- T1 by auto; unfold tab; rewrite cget_mmake by auto; reflexivity).
  assert (Q2 : G2 p q = (RtoC (IZR (freqc (2 * LH) p)) * Fm N Mx w (freqc (2 * BH) q) (freqc (2 * LH) p))%C) by (rewrite <- (cget_mmake (2 * LH) (2 * BH) G2 p q), <- T2 by auto; unfold tab; rewrite cget_mmake by auto; reflexivity).
  rewrite Q1 in A1. rewrite Q2 in A2. clear T1 T2 Q1 Q2 E1 A.
  assert (Ht : 1 <= IZR (LH - freq LH p) <= 2 * IZR LH) by (rewrite <- mult_IZR; split; apply IZR_le; unfold freq; destruct (Z.ltb_spec p LH); lia).
  set (t := IZR (LH - freq LH p)) in *. clearbody t. assert (LL : 2 <= IZR LH) by (apply IZR_le; lia). assert (LB : 1 <= IZR BH) by (apply IZR_le; lia).
  unfold vbound, verr. set (l := IZR LH) in *. set (b := IZR BH) in *. clearbody l b.
  assert (P : 0 <= (b + 1) * F) by (apply Rmult_le_pos; lra). assert (w0 : 0 <= uu * ((b + 1) * F)) by (apply Rmult_le_pos; lra).
  assert (bd : 0 <= b * d) by (apply Rmult_le_pos; lra). split.
  - eapply gpc_weak; [exact A1| |].
    + unfold rb. replace (4 * l * (b + 1) * F) with (2 * ((b + 1) * F) * (2 * l)) by ring. apply Rmult_le_compat_l; lra.
    + unfold re. replace (8 * uu * l ^ 2 * (b + 1) * F) with (2 * uu * ((b + 1) * F) * (2 * l * (2 * l))) by ring. apply Rplus_le_compat.
      * apply Rmult_le_compat_l; [replace (2 * uu * ((b + 1) * F)) with (2 * (uu * ((b + 1) * F))) by ring; lra|]. apply Rmult_le_compat; lra.
      * apply Rmult_le_compat_r; lra.
  - eapply gpc_weak; [exact A2| |].
    + apply Rmult_le_compat_r; [lra|]. replace (4 * l * (b + 1)) with (4 * l + 4 * (l * b)) by ring. assert (0 <= l * b) by (apply Rmult_le_pos; lra). lra.
    + assert (l * d <= 2 * l * (b * d)).
      { replace (2 * l * (b * d)) with (l * d * (2 * b)) by ring. rewrite <- (Rmult_1_r (l * d)) at 1. apply Rmult_le_compat_l; [apply Rmult_le_pos; lra|lra]. }
      assert (uu * ((l + 1) * F) <= 2 * l * (uu * ((b + 1) * F))).
      { replace (2 * l * (uu * ((b + 1) * F))) with (uu * (2 * l * (b + 1) * F)) by ring. apply Rmult_le_compat_l; [lra|]. apply Rmult_le_compat_r; [lra|].
        replace (2 * l * (b + 1)) with (2 * l + 2 * (l * b)) by ring. assert (0 <= l * b) by (apply Rmult_le_pos; lra). lra. }
      assert (0 <= 8 * uu * l ^ 2 * (b + 1) * F).
      { replace (8 * uu * l ^ 2 * (b + 1) * F) with (8 * (l ^ 2) * (uu * ((b + 1) * F))) by ring. apply Rmult_le_pos; [|exact w0]. apply Rmult_le_pos; [lra|apply pow2_ge_0]. }
      rewrite (Rmult_plus_distr_l (2 * l)). lra.
Qed.

(** ** The inverse transform of an array that need not vanish anywhere *)
Lemma ifft_tail eps ifft2 fd X L nc W e : ifft_acc eps ifft2 -> 0 <= eps <= / 2 -> (1 <= L <= 2 ^ 30)%Z -> (1 <= nc <= 2 ^ 30)%Z -> zlen fd = (L * nc)%Z ->
  (forall p q, (0 <= p < L)%Z -> (0 <= q < nc)%Z -> near e (fget nc fd p q) (X (freqc nc q) (freqc L p)) /\ Cmod (VC (fget nc fd p q)) <= W) ->
  bpow radix2 (-800) <= W -> IZR L * IZR nc * W <= bpow radix2 900 ->
  let ds := f_ifft_scaled ifft2 L nc fd in zlen ds = (L * nc)%Z /\
  forall p q, (0 <= p < L)%Z -> (0 <= q < nc)%Z -> near (IZR L * IZR nc * e + IZR L * IZR nc * W * (eps + 40 * uu)) (fget nc ds p q) (synth L nc X p q).
Proof.
  intros HF He HL Hc Lfd EV HW HW2 ds. pose proof (bpow_gt_0 radix2 (-800)) as B0. pose proof uu_small as [U0 U1].
  assert (L1 : 1 <= IZR L) by (apply IZR_le; lia). assert (C1 : 1 <= IZR nc) by (apply IZR_le; lia).
  set (F := IZR L * IZR nc * W) in *.
  assert (LC : 1 <= IZR L * IZR nc) by (replace 1 with (1 * 1) by ring; apply Rmult_le_compat; lra).
  assert (FW : W <= F) by (unfold F; rewrite <- (Rmult_1_l W) at 1; apply Rmult_le_compat_r; lra).
  assert (TC : forall g c, (forall p q, (0 <= p < L)%Z -> (0 <= q < nc)%Z -> g p q <= c) -> tot2 L nc g <= IZR L * IZR nc * c).
  { intros g c Hg. apply Rle_trans with (tot2 L nc (fun _ _ => c)); [apply tot2_le; exact Hg|]. unfold tot2. rewrite !sumR_const by lia. rewrite !Z.sub_0_r. right. ring. }
  assert (TF : tot2 L nc (fun p q => Cmod (VC (fget nc fd p q))) <= F) by (apply TC; intros; apply EV; auto).
  destruct (HF L nc fd F HL Hc Lfd) as (Lo & O); [|exact TF|lra|].
  { intros p q Hp Hq. apply EV; auto. }
  split; [unfold ds, f_ifft_scaled; rewrite zlen_map; exact Lo|]. intros p q Hp Hq. unfold ds, f_ifft_scaled. rewrite (fget_map _ L) by auto.
  specialize (O p q Hp Hq). set (x := fget nc (ifft2 L nc fd) p q) in *.
  set (D := sumC 0 L (fun i => sumC 0 nc (fun j => VC (fget nc fd i j) * root L (i * p) * root nc (j * q))%C)) in *.
  assert (DF : Cmod D <= F).
  { eapply Rle_trans; [apply Cmod_sum2|]. eapply Rle_trans; [|exact TF]. apply tot2_le. intros i j _ _. rewrite !Cmod_mult, !Cmod_root, !Rmult_1_r. apply Rle_refl. }
  replace (eps * F / (IZR L * IZR nc)) with (eps * W) in O by (unfold F; field; lra).
  assert (XG : Cmod (RtoC (/ (IZR L * IZR nc)) * D)%C <= W).
  { rewrite Cmod_mult, Cmod_R, Rabs_right by (left; apply Rinv_0_lt_compat; lra). replace W with (/ (IZR L * IZR nc) * F) by (unfold F; field; lra). apply Rmult_le_compat_l; [left; apply Rinv_0_lt_compat; lra|exact DF]. }
  pose proof (scale2 x _ W eps L nc O XG He ltac:(lia) ltac:(lia)) as SC. replace (W * IZR L * IZR nc) with F in SC by (unfold F; ring).
  replace (RtoC (/ (IZR L * IZR nc)) * D * RtoC (IZR L) * RtoC (IZR nc))%C with D in SC.
  2:{ replace (RtoC (/ (IZR L * IZR nc)) * D * RtoC (IZR L) * RtoC (IZR nc))%C with (D * RtoC (/ (IZR L * IZR nc) * IZR L * IZR nc))%C by (rewrite !RtoC_mult; ring).
      replace (/ (IZR L * IZR nc) * IZR L * IZR nc) with 1 by (field; lra). ring. }
  apply near_le with ((eps + 40 * uu) * F + IZR L * IZR nc * e).
  - apply near_shift with D.
    + apply SC.
      * apply Rle_trans with (bpow radix2 (-800)); [apply bpow_le; lia|exact HW].
      * apply Rle_trans with (bpow radix2 900); [lra|apply bpow_le; lia].
    + unfold D, synth. rewrite <- sumC_sub.
      rewrite (sumC_ext 0 L _ (fun i => sumC 0 nc (fun j => (VC (fget nc fd i j) - X (freqc nc j) (freqc L i)) * root L (i * p) * root nc (j * q))%C)).
      2:{ intros i Hi. rewrite <- sumC_sub. apply sumC_ext. intros j Hj. ring. }
      eapply Rle_trans; [apply Cmod_sum2|]. apply TC. intros i j Hi Hj. rewrite !Cmod_mult, !Cmod_root, !Rmult_1_r. destruct (EV i j Hi Hj) as [[_ Q] _]. exact Q.
  - lra.
Qed.

(** ** vispht *)
Lemma gpc_near B e z c : gpc B e z c -> near (2 * e) z c /\ Cmod (VC z) <= 2 * B.
Proof.
  intros ((D1 & F1 & B1 & E1) & (D2 & F2 & B2 & E2)). split; [split; [split; split; assumption|]|].
  - eapply Rle_trans; [apply Cmod_sum1|]. unfold VC, Cminus, Cplus, Copp. cbn [fst snd]. unfold Rminus in E1, E2. lra.
  - eapply Rle_trans; [apply Cmod_sum1|]. unfold VC. cbn [fst snd]. lra.
Qed.
Lemma entry_size N B : (0 <= N <= 1022)%Z -> 0 <= B -> 0 <= entry_bound N B <= 28644 * B.
Proof.
  intros HN HB. pose proof (ymax_14 N ltac:(lia)) as [Y0 Y1]. assert (N0 : 0 <= IZR N <= 1022) by (split; apply IZR_le; lia). unfold entry_bound.
  assert (Q : 0 <= (IZR N + 1) * ymax N <= 1023 * 14) by (split; [apply Rmult_le_pos; lra|apply Rmult_le_compat; lra]).
  replace (2 * (IZR N + 1) * ymax N * B) with (2 * ((IZR N + 1) * ymax N) * B) by ring. split; [apply Rmult_le_pos; lra|]. apply Rmult_le_compat_r; lra.
Qed.
(** the error of one sample *)
Definition vvis_err (eps ew : R) (N LH BH : Z) (B : R) : R :=
  let F := entry_bound N B + B in let d := eacc N B ew + entry_bound N (6 * uu * B) in
  IZR (2 * LH) * IZR (2 * BH) * (2 * (verr LH BH F d + verr LH BH F d + uu * (vbound LH BH F + vbound LH BH F))) +
  IZR (2 * LH) * IZR (2 * BH) * (5 * vbound LH BH F) * (eps + 40 * uu).
Lemma vbound_size LH BH F : (2 <= LH <= 2 ^ 20)%Z -> (1 <= BH <= 2 ^ 20)%Z -> 0 <= F -> F <= vbound LH BH F <= bpow radix2 44 * F.
Proof.
  intros HL HB HF. assert (L1 : 2 <= IZR LH <= 1048576) by (split; apply IZR_le; lia). assert (B1 : 1 <= IZR BH <= 1048576) by (split; apply IZR_le; lia).
  unfold vbound. assert (Q : 1 <= 4 * IZR LH * (IZR BH + 1) <= bpow radix2 44).
  { split.
    - apply Rle_trans with (8 * 2); [lra|]. apply Rmult_le_compat; lra.
    - apply Rle_trans with (4 * 1048576 * (1048576 + 1)); [apply Rmult_le_compat; lra|]. change (bpow radix2 44) with (IZR (2 ^ 44)). replace (IZR (2 ^ 44)) with 17592186044416 by (f_equal; reflexivity). lra. }
  split; [|apply Rmult_le_compat_r; lra]. rewrite <- (Rmult_1_l F) at 1. apply Rmult_le_compat_r; lra.
Qed.
Lemma f_vispht_core eps ifft2 s2f ew v1 v2 N Mx LH BH B : ifft_acc eps ifft2 -> 0 <= eps <= / 2 -> s2f_acc s2f ew Mx -> 0 <= ew <= / 2 ^ 40 ->
  valid FN v1 -> sc_nmax FN v1 = N -> sc_mmax FN v1 = Mx -> valid FN v2 -> sc_nmax FN v2 = N -> sc_mmax FN v2 = Mx -> (0 <= Mx <= N)%Z ->
  (N <= 1022)%Z -> (N + 1 <= LH)%Z -> (2 <= LH <= 2 ^ 20)%Z -> (Mx < BH)%Z -> (1 <= BH <= 2 ^ 20)%Z -> bpow radix2 (-700) <= B <= bpow radix2 700 ->
  (forall n m x, reads FN v1 n m x -> bounded B x) -> (forall n m x, reads FN v2 n m x -> bounded B x) ->
  exists ft fp, f_vispht s2f ifft2 v1 v2 N Mx (Some (LH + 1)%Z) (Some (2 * BH)%Z) = Ok ((2 * LH)%Z, (2 * BH)%Z, (ft, fp)) /\
    zlen ft = (2 * LH * (2 * BH))%Z /\ zlen fp = (2 * LH * (2 * BH))%Z /\
    forall p q, (0 <= p < 2 * LH)%Z -> (0 <= q < 2 * BH)%Z ->
      near (vvis_err eps ew N LH BH B) (fget (2 * BH) ft p q) (synth (2 * LH) (2 * BH) (Tm N Mx (wf_of v1) (wf_of v2)) p q) /\
      near (vvis_err eps ew N LH BH B) (fget (2 * BH) fp p q) (synth (2 * LH) (2 * BH) (Pm N Mx (wf_of v1) (wf_of v2)) p q).
Proof.
  intros HI He HS Hew Hv1 HN1 HM1 Hv2 HN2 HM2 HM HN HL HLr HB HBr HBB Hx1 Hx2.
  pose proof (bpow_gt_0 radix2 (-700)) as P0. pose proof uu_small as [U0 U1].
  destruct (fourier_sim s2f ew v1 N Mx (2 * LH) (2 * BH) B HS Hv1 HN1 HM1 HN ltac:(lia) ltac:(lia)) as (w1 & fd1 & EN1 & (SN1 & SM1) & ES1 & Lf1 & A1); [split; [lra|]; apply Rle_trans with (bpow radix2 700); [lra|apply bpow_le; lia]|exact Hew|exact Hx1|].
  destruct (fourier_sim s2f ew v2 N Mx (2 * LH) (2 * BH) B HS Hv2 HN2 HM2 HN ltac:(lia) ltac:(lia)) as (w2 & fd2 & EN2 & (SN2 & SM2) & ES2 & Lf2 & A2); [split; [lra|]; apply Rle_trans with (bpow radix2 700); [lra|apply bpow_le; lia]|exact Hew|exact Hx2|].
  pose proof (entry_size N B ltac:(lia) ltac:(lra)) as [Q1 Q2]. pose proof (entry_size N (6 * uu * B) ltac:(lia) ltac:(apply Rmult_le_pos; lra)) as [Q3 _].
  pose proof (eacc_Bw N B ew ltac:(lia) ltac:(lra) Hew) as [Q4 _].
  unfold vvis_err. cbv zeta. set (F := entry_bound N B + B) in *. set (d := eacc N B ew + entry_bound N (6 * uu * B)) in *.
  assert (F1 : B <= F <= 28645 * B) by (unfold F; lra). assert (d0 : 0 <= d) by (unfold d; lra).
  assert (F2 : F <= bpow radix2 715).
  { replace 715%Z with (15 + 700)%Z by reflexivity. rewrite bpow_plus. apply Rle_trans with (28645 * B); [lra|]. apply Rmult_le_compat; try lra. change (bpow radix2 15) with (IZR (2 ^ 15)). replace (IZR (2 ^ 15)) with 32768 by (f_equal; reflexivity). lra. }
  assert (F3 : dmin <= uu * F).
  { apply Rle_trans with (uu * bpow radix2 (-700)); [unfold uu; rewrite <- bpow_plus; apply bpow_le; lia|apply Rmult_le_compat_l; lra]. }
  clearbody F d. clear Q1 Q2 Q3 Q4.
  assert (F4 : 0 < F <= bpow radix2 860) by (split; [lra|]; apply Rle_trans with (bpow radix2 715); [lra|apply bpow_le; lia]).
  destruct (vbound_size LH BH F HLr HBr ltac:(lra)) as [V1 V2].
  destruct (L_closed LH BH N Mx (wf_of v1) (fget (2 * BH) fd1) F d HLr HBr HM HL HB F3 F4 d0 A1) as (g1 & g2 & EG & G).
  destruct (L_closed LH BH N Mx (wf_of v2) (fget (2 * BH) fd2) F d HLr HBr HM HL HB F3 F4 d0 A2) as (h1 & h2 & EH & H).
  rewrite <- (arr_fmake (2 * LH) (2 * BH) fd1) in EG by lia. rewrite <- (arr_fmake (2 * LH) (2 * BH) fd2) in EH by lia.
  set (PB := vbound LH BH F) in *. set (PE := verr LH BH F d) in *. clearbody PB PE.
  assert (VB : PB <= bpow radix2 759). { apply Rle_trans with (1 := V2). replace 759%Z with (44 + 715)%Z by reflexivity. rewrite bpow_plus. apply Rmult_le_compat_l; [apply bpow_ge_0|lra]. }
  assert (VB1 : PB + PB <= bpow radix2 1000). { apply Rle_trans with (bpow radix2 760); [|apply bpow_le; lia]. replace 760%Z with (1 + 759)%Z by reflexivity. rewrite bpow_plus. change (bpow radix2 1) with 2. lra. }
  assert (VB2 : PB <= bpow radix2 1000) by lra.
  unfold f_vispht.
  destruct (Z.ltb_spec (LH + 1) (N + 2)); [lia|]. destruct (Z.ltb_spec (2 * BH) (2 * Mx + 2)); [lia|].
  replace (2 * (LH + 1) - 2)%Z with (2 * LH)%Z by lia. cbv zeta.
  replace ((2 * BH) mod 2)%Z with 0%Z by (rewrite Z.mul_comm, Z.mod_mul; lia). cbn [Z.eqb].
  rewrite EN1. cbn [bind]. rewrite EN2. cbn [bind]. 
  rewrite ES1. cbn [bind]. rewrite ES2. cbn [bind]. rewrite EG. cbn [bind]. rewrite EH. cbn [bind fst snd].
  destruct (Z.ltb_spec (2 * LH) 1); [lia|]. destruct (Z.ltb_spec (2 * BH) 1); [lia|]. cbn [orb].
  eexists _, _. split; [reflexivity|].
  assert (LC : 1 <= IZR (2 * LH) * IZR (2 * BH) <= bpow radix2 42).
  { rewrite <- mult_IZR. split; [apply IZR_le; lia|]. change (bpow radix2 42) with (IZR (2 ^ 42)). apply IZR_le. nia. }
  assert (TL : forall g X, (forall p q, (0 <= p < 2 * LH)%Z -> (0 <= q < 2 * BH)%Z -> gpc ((PB + PB) * (1 + uu)) (PE + PE + uu * (PB + PB)) (g p q) (X (freqc (2 * BH) q) (freqc (2 * LH) p))) ->
    let ds := f_ifft_scaled ifft2 (2 * LH) (2 * BH) (fmake (2 * LH) (2 * BH) g) in zlen ds = (2 * LH * (2 * BH))%Z /\
    forall p q, (0 <= p < 2 * LH)%Z -> (0 <= q < 2 * BH)%Z -> near (IZR (2 * LH) * IZR (2 * BH) * (2 * (PE + PE + uu * (PB + PB))) + IZR (2 * LH) * IZR (2 * BH) * (5 * PB) * (eps + 40 * uu)) (fget (2 * BH) ds p q) (synth (2 * LH) (2 * BH) X p q)).
  { intros g X Hg. apply ifft_tail; auto; try lia.
    - unfold fmake. apply zlen_vmake'. lia.
    - intros p q Hp Hq. rewrite fget_fmake by auto. destruct (gpc_near _ _ _ _ (Hg p q Hp Hq)) as [K1 K2]. split; [exact K1|].
      apply Rle_trans with (1 := K2). assert (uu * PB <= / 10 ^ 15 * PB) by (apply Rmult_le_compat_r; lra). lra.
    - apply Rle_trans with (bpow radix2 (-700)); [apply bpow_le; lia|lra].
    - apply Rle_trans with (bpow radix2 42 * bpow radix2 762).
      + apply Rmult_le_compat; try lra. replace 762%Z with (3 + 759)%Z by reflexivity. rewrite bpow_plus. apply Rmult_le_compat; try lra. change (bpow radix2 3) with 8. lra.
      + rewrite <- bpow_plus. apply bpow_le. lia. }
  destruct (TL (fun p q => cfsubk (fget (2 * BH) (fmake (2 * LH) (2 * BH) g1) p q) (cfmul f_1j (fget (2 * BH) (fmake (2 * LH) (2 * BH) h2) p q))) (Tm N Mx (wf_of v1) (wf_of v2))) as [LT AT].
  { intros p q Hp Hq. rewrite !fget_fmake by auto. unfold Tm. destruct (G p q Hp Hq) as [G1 _]. destruct (H p q Hp Hq) as [_ Hh2].
    apply gpc_sub; [exact VB1|exact G1|]. 
    replace (Ci * (RtoC (IZR (freqc (2 * LH) p)) * Fm N Mx (wf_of v2) (freqc (2 * BH) q) (freqc (2 * LH) p)))%C with (Ci * RtoC 1 * (RtoC (IZR (freqc (2 * LH) p)) * Fm N Mx (wf_of v2) (freqc (2 * BH) q) (freqc (2 * LH) p)))%C by ring.
    apply imul_unit; [exact iunit_j|left; reflexivity|exact Hh2|exact VB2]. }
  destruct (TL (fun p q => cfadd (fget (2 * BH) (fmake (2 * LH) (2 * BH) g2) p q) (cfmul f_1j (fget (2 * BH) (fmake (2 * LH) (2 * BH) h1) p q))) (Pm N Mx (wf_of v1) (wf_of v2))) as [LP AP].
  { intros p q Hp Hq. rewrite !fget_fmake by auto. unfold Pm. destruct (G p q Hp Hq) as [_ G2]. destruct (H p q Hp Hq) as [Hh1 _].
    apply gpc_add; [exact VB1|exact G2|]. 
    replace (Ci * (Ci * Gm N Mx (wf_of v2) (freqc (2 * BH) q) (freqc (2 * LH) p)))%C with (Ci * RtoC 1 * (Ci * Gm N Mx (wf_of v2) (freqc (2 * BH) q) (freqc (2 * LH) p)))%C by ring.
    apply imul_unit; [exact iunit_j|left; reflexivity|exact Hh1|exact VB2]. }
  split; [exact LT|]. split; [exact LP|]. intros p q Hp Hq. split; [apply AT; auto|apply AP; auto].
Qed.
