(** * CintFacts4: the routines of csphi.c with C ints *)
From Coq Require Import ZArith Znumtheory List String Bool Reals Lia Lra.
From Coquelicot Require Import Complex.
From Verif Require Import Py PyFacts Num Exact MCoefs CoefsFacts Sums MPysphi Dft Smooth PysphiFacts MKiss KissFacts KissFacts2 MOps MTrans MCsphi CsphiFacts MCint CintFacts CintFacts2 CintFacts3.
Import ListNotations.
Open Scope list_scope.
Open Scope Z_scope.

Lemma refR_Okv ov {A A' B} (R : A' -> B -> Prop) (v : A) x f c : refR ov eq x (Ok v) -> refR ov R (f v) c -> refR ov R (bind x f) c.
Proof. intros [[H ->]|[(a & b & -> & E & ->)|(e & -> & E)]] Hf; [left; auto|apply Ok_inj in E; subst; auto|discriminate]. Qed.
(** ** FFT plans *)
Definition plan_fit (st : kcfg) : Prop :=
  good_factors (k_nfft st) (k_factors st) /\ k_nfft st <= INT_MAX /\
  (k_nfft st <= 2 ^ 30 \/ Forall small_radix (k_factors st)).
Lemma chain_radix_div : forall l n p m, chain n l -> In (p, m) l -> (p | n).
Proof.
  induction l as [|(p0 & m0) l IH]; intros n p m H Hin; [destruct Hin|]. destruct H as (-> & H).
  destruct Hin as [E|Hin]; [injection E as -> ->; apply Z.divide_factor_l|].
  apply Z.divide_mul_r. eauto.
Qed.
Lemma plan_fit_alloc n inv st : 1 <= n <= INT_MAX -> n <= 2 ^ 30 \/ smooth [2; 3; 5] n -> kiss_fft_alloc n inv = Ok st -> k_nfft st = n /\ plan_fit st.
Proof.
  intros Hn Hs E. unfold INT_MAX in Hn. destruct (kiss_fft_alloc_ok n inv) as (st' & E' & En & _ & G); [lia|].
  rewrite E in E'. apply Ok_inj in E'. subst st'. split; auto. unfold plan_fit. rewrite En. split; auto. split; [unfold INT_MAX; lia|].
  destruct Hs as [Hs|Hs]; [left; auto|]. right.
  unfold kiss_fft_alloc in E. destruct (kf_factor n) as [l|] eqn:El; cbn [bind] in E; [|discriminate].
  destruct (MAXFACTORS <? zlen l); [discriminate|]. apply Ok_inj in E. subst st. cbn [k_factors].
  destruct (Z.eq_dec n 1) as [->|].
  { rewrite kf_factor_1 in El. apply Ok_inj in El. subst l. constructor; [right; auto|constructor]. }
  destruct (kf_factor_inv n l) as [H1 H2]; auto; [lia|]. rewrite Forall_forall in *. intros (p & m) Hin. left.
  specialize (H2 _ Hin). cbn [fst] in *. destruct H2 as [->|Hp]; [lia|].
  destruct Hs as [_ Hs]. specialize (Hs p Hp (chain_radix_div l n p m H1 Hin)). cbn in Hs. lia.
Qed.

Section Csphi.
Variable ov : bool.
Notation refR := (refR ov).

Lemma x_inplace_ref junk st buf : (ov = false -> plan_fit st) -> refR eq (x_fft_inplace junk st buf) (kiss_fft_inplace junk st buf).
Proof.
  intros H. unfold x_fft_inplace, kiss_fft_inplace. apply (refR_bind _ eq).
  - apply (x_kf_work_ref ov junk st buf 1 _ (k_nfft st)). intros E. destruct (H E) as (G1 & G2 & G3). repeat split; auto; lia.
  - intros a b _ _ <-. apply refR_refl.
Qed.

(** ** ynnm, ynunm *)
Lemma x_ynnm_ref n m : (ov = false -> Z.abs m <= 2 ^ 30 /\ n <= 2 ^ 30) -> refR eq (x_ynnm n m) (Ok (c_ynnm n m)).
Proof.
  intros H. unfold x_ynnm, c_ynnm. rstep. destruct (Z.ltb_spec n (Z.abs m)); [now apply refR_ok|].
  destruct (Z.eqb_spec n 0); [now apply refR_ok|].
  rstep. destruct (negb (n =? Z.abs m)); [|now apply refR_ok].
  rstep. rstep. rewrite <- mfor_ok. replace (Z.abs m - 1) with (Z.abs m - 1) by ring.
  apply refR_mfor. intros k y Hk. apply In_zrange_down' in Hk. rstep. rstep. apply refR_ok. rewrite plus_IZR. reflexivity.
Qed.
Lemma Bm_int en k : (IZR (en - k) * (IZR (en + k) + 1))%R = Bm (IZR en) (IZR k).
Proof. unfold Bm. rewrite minus_IZR, plus_IZR. reflexivity. Qed.
Lemma In_zrange_down2' i hi : In i (zrange_down2 hi (-1)) -> 0 <= i <= hi.
Proof. unfold zrange_down2. rewrite in_map_iff. intros (k & <- & Hk). apply in_seq in Hk. lia. Qed.
Lemma x_ynunm_ref en em y len : (ov = false -> Z.abs em <= 2 ^ 30 /\ en <= 2 ^ 30) -> refR eq (x_ynunm en em y len) (c_ynunm en em y len).
Proof.
  intros H. unfold x_ynunm, c_ynunm. rstep. rstep.
  destruct (Z.leb_spec (Z.abs em) en); [|apply refR_refl].
  apply (refR_Okv _ _ (c_ynnm en em)); [apply x_ynnm_ref; auto|].
  rstep. rstep.
  destruct (Z.leb_spec 0 (en - 2)); [|apply refR_refl].
  rstep. rstep. rstep. rewrite Bm_int. rstep. rstep. rstep.
  intros k s Hk. apply In_zrange_down2' in Hk. rstep. rstep. rstep. rstep. rewrite Bm_int.
  apply refR_same_r. intros b _. rstep. now apply refR_ok.
Qed.

(** ** SData *)
Lemma x_SData_ref s Q Nrows Nmax :
  (ov = false -> 0 <= Nrows /\ 0 <= Nmax /\ Nrows / 2 + Nmax + 1 <= INT_MAX /\ Nrows <= Q /\ Q + Nrows / 2 <= INT_MAX + 1) ->
  refR eq (x_SData s Q Nrows Nmax) (SData s Q Nrows Nmax).
Proof.
  intros H. unfold x_SData, SData.
  assert (EQ : ov = false -> Z.quot Nrows 2 = Nrows / 2) by (intros E; apply Z.quot_div_nonneg; [destruct (H E)|]; lia).
  assert (H' : ov = false -> 0 <= Z.quot Nrows 2 /\ 2 * Z.quot Nrows 2 <= Nrows /\ 0 <= Nmax /\ Z.quot Nrows 2 + Nmax + 1 <= INT_MAX /\ Nrows <= Q /\ Q + Z.quot Nrows 2 <= INT_MAX + 1).
  { intros E. rewrite (EQ E). destruct (H E) as (A1 & A2 & A3 & A4 & A5). lia. }
  clear H EQ. rename H' into H. rstep. rstep. rstep. rstep. rstep.
  apply (refR_bind _ eq).
  - apply refR_mfor. intros k b Hk. apply In_zrange' in Hk. destruct (Z.rem k 2 =? 1); [|apply refR_refl]. rstep. rstep.
  - intros b ? _ _ <-. rstep. rstep. intros k c Hk. apply In_zrange' in Hk. rstep.
    destruct (Z.rem (Z.abs k) 2 =? 1); [|apply refR_refl]. rstep. rstep. rstep.
Qed.

(** ** hkm_fc, bnm_fc *)
Lemma x_hkm_fc_ref junk g Nrow Ncol n m hkm len ss Q ff fw bw :
  (ov = false -> plan_fit fw /\ plan_fit bw /\ 0 <= Nrow /\ 1 <= Ncol /\ Nrow * Ncol <= 2 ^ 31 /\ Nrow <= INT_MAX /\ Ncol <= INT_MAX /\ - Ncol <= m < Ncol) ->
  refR eq (x_hkm_fc junk g Nrow Ncol n m hkm len ss Q ff fw bw) (c_hkm_fc junk g Nrow Ncol n m hkm len ss Q ff fw bw).
Proof.
  intros H. unfold x_hkm_fc, c_hkm_fc. rstep. rstep.
  
  cbv zeta. set (ind := if 0 <=? m then m else Ncol + m).
  apply (refR_Okv _ _ ind).
  { unfold ind. destruct (Z.leb_spec 0 m); [apply refR_refl|]. apply refR_ck_val. sd. }
  assert (Hi : ov = false -> 0 <= ind < Ncol).
  { intros E. specialize (H E). unfold ind. destruct (Z.leb_spec 0 m); lia. }
  set (mm := Z.quot Nrow 2).
  assert (Hm : ov = false -> 2 * mm <= Nrow).
  { intros E. specialize (H E). unfold mm. rewrite Z.quot_div_nonneg by lia. lia. }
  apply (refR_bind _ eq).
  - apply refR_mfor. intros k b Hk. apply In_zrange' in Hk.
    assert (Hc : ov = false -> 0 <= Ncol * (mm + k) /\ Ncol * (mm + k) + ind <= INT_MAX /\ 0 <= Ncol * k <= Ncol * (mm + k) /\ mm + k <= INT_MAX).
    { intros E. specialize (H E). specialize (Hi E). specialize (Hm E).
      destruct H as (_ & _ & K0 & K1 & K2 & K3 & _ & _). assert (mm + k + 1 <= Nrow) by lia.
      assert (Ncol * (mm + k + 1) <= Nrow * Ncol) by (rewrite (Z.mul_comm Nrow); apply Z.mul_le_mono_nonneg_l; lia).
      unfold INT_MAX in *. repeat split; try lia; nia. }
    clear H. repeat rstep.
  - intros b ? _ _ <-. apply (refR_bind _ eq); [apply x_inplace_ref; intros E; apply (H E)|]. intros b1 ? _ _ <-.
    rstep. apply (refR_bind _ eq); [apply x_inplace_ref; intros E; apply (H E)|]. intros b2 ? _ _ <-. apply refR_refl.
Qed.

Lemma x_bnm_fc_ref junk g Nrow Ncol Nmax m off ss Q Lh Ly fw bw st :
  (ov = false -> plan_fit fw /\ plan_fit bw /\ 0 <= Nrow /\ 1 <= Ncol /\ Nrow * Ncol <= 2 ^ 31 /\ Nrow <= INT_MAX /\ Ncol <= INT_MAX /\
     - Ncol <= m < Ncol /\ Z.abs m <= Nmax /\ Nmax <= 2 ^ 30) ->
  refR eq (x_bnm_fc junk g Nrow Ncol Nmax m off ss Q Lh Ly fw bw st) (c_bnm_fc junk g Nrow Ncol Nmax m off ss Q Lh Ly fw bw st).
Proof.
  intros H. unfold x_bnm_fc, c_bnm_fc. destruct st as [[[sc ff] hkm] y]. rstep.
  apply (refR_bind _ eq).
  { apply x_hkm_fc_ref. intros E. specialize (H E). tauto. }
  intros (hkm1 & ff1) ? _ _ <-. rstep.
  apply (refR_bind _ eq).
  2:{ intros (sc1 & y1) ? _ _ <-. apply refR_refl. }
  apply refR_mfor. intros n (sc1 & y1) Hn. apply In_zrange' in Hn.
  apply (refR_bind _ eq). { apply x_ynunm_ref. intros E. specialize (H E). lia. }
  intros y2 ? _ _ <-. rstep. rstep. rstep. rstep. rstep. rstep. rstep.
  destruct (Z.rem (Z.abs m) 2 =? 1); [|apply refR_refl].
  apply (refR_bind _ eq); [|intros ? ? _ _ <-; apply refR_refl]. rstep. apply refR_refl.
Qed.

(** ** inds *)
Lemma ncoef_mono Nmax a b : 0 <= a <= b -> b <= Nmax -> ncoef Nmax a <= ncoef Nmax b.
Proof. intros. unfold ncoef. nia. Qed.
Lemma x_inds_ref Nmax Mmax junki : 0 <= Mmax ->
  (ov = false -> Mmax <= Nmax /\ Nmax <= 2 ^ 30 /\ 2 * Mmax + 1 <= INT_MAX /\ ncoef Nmax Mmax <= INT_MAX) ->
  refR eq (x_inds Nmax Mmax junki) (c_inds Nmax Mmax junki).
Proof.
  intros HM H. unfold x_inds, c_inds. rstep. rstep. rstep. rstep. rstep. rstep.
  apply (refR_bind _ eq).
  2:{ intros r ? _ _ <-. apply refR_refl. }
  apply (refR_imp ov (fun (a b : list Z * Z * Z) => a = b /\ snd (fst a) = ncoef Nmax (Mmax + 1 - 1) /\ snd a = Nmax + 1 - (Mmax + 1))); [tauto|].
  apply (refR_mfor_rel ov (fun m (a b : list Z * Z * Z) => a = b /\ snd (fst a) = ncoef Nmax (m - 1) /\ snd a = Nmax + 1 - m)); [lia| |].
  { cbn [fst snd]. split; auto. unfold ncoef. lia. }
  intros m ((inds & N) & QQ) b Hm (<- & E1 & E2). cbn [fst snd] in E1, E2.
  assert (B : ov = false -> 0 <= N /\ 0 <= QQ <= Nmax /\ N + QQ + QQ <= INT_MAX).
  { intros E. specialize (H E). pose proof (ncoef_step Nmax (m - 1)) as S. replace (m - 1 + 1) with m in S by ring.
    pose proof (ncoef_mono Nmax m Mmax ltac:(lia) ltac:(lia)). assert (0 <= ncoef Nmax (m - 1)) by (unfold ncoef; nia). lia. }
  rstep. rstep. rstep. rstep. rstep. rstep. rstep. apply refR_ok. cbn [fst snd]. split; auto.
  pose proof (ncoef_step Nmax (m - 1)) as S. replace (m - 1 + 1) with m in S by ring. replace (m + 1 - 1) with m by ring. lia.
Qed.

(** ** fcvec_m_sc *)
Lemma x_fcvec_ref sc off m Nmax Nrow Ncol M len st :
  (ov = false -> Z.abs m <= Nmax /\ Nmax + 1 <= Nrow /\ Nmax <= 2 ^ 30 /\ 1 <= Ncol /\ Nrow * Ncol <= 2 ^ 31 /\ Nrow <= INT_MAX /\ Ncol <= INT_MAX /\ 0 <= M < Ncol) ->
  refR eq (x_fcvec_m_sc sc off m Nmax Nrow Ncol M len st) (c_fcvec_m_sc sc off m Nmax Nrow Ncol M len st).
Proof.
  intros H. unfold x_fcvec_m_sc, c_fcvec_m_sc. destruct st as [fdata y].
  assert (HK : ov = false -> forall k, 0 <= k < Nrow -> 0 <= k * Ncol /\ k * Ncol + M <= INT_MAX).
  { intros E k Hk. specialize (H E). destruct H as (_ & K0 & _ & K1 & K2 & _ & _ & K3).
    assert ((k + 1) * Ncol <= Nrow * Ncol) by (apply Z.mul_le_mono_nonneg_r; lia). unfold INT_MAX. nia. }
  rstep. rstep. rstep. apply (refR_bind _ eq).
  { apply refR_mfor. intros n (fd & y1) Hn. apply In_zrange' in Hn.
    apply (refR_bind _ eq). { apply x_ynunm_ref. intros E. specialize (H E). lia. }
    intros y2 ? _ _ <-. apply (refR_bind _ eq); [|intros ? ? _ _ <-; apply refR_refl].
    apply refR_mfor. intros k b Hk. apply In_zrange' in Hk.
    apply refR_ck; [intros E; specialize (HK E k); specialize (H E); unfold isint, INT_MIN, INT_MAX in *; lia|intros _].
    rstep. rstep. rstep. rstep. rstep. }
  intros (fd & y1) ? _ _ <-. apply (refR_bind _ eq).
  { apply refR_mfor. intros k b Hk. apply In_zrange' in Hk.
    apply refR_ck; [intros E; specialize (HK E k); specialize (H E); unfold isint, INT_MIN, INT_MAX in *; lia|intros _].
    rstep. rstep. destruct (Z.rem (Z.abs m) 2 =? 1); [|apply refR_refl]. rstep. apply refR_refl. }
  intros fd2 ? _ _ <-.
  set (HH := if Z.rem Nrow 2 =? 0 then Z.quot Nrow 2 - 1 else Z.quot (Nrow - 1) 2).
  apply (refR_Okv _ _ HH).
  { unfold HH. destruct (Z.rem Nrow 2 =? 0).
    - apply refR_ck_val. intros E. specialize (H E). rewrite Z.quot_div_nonneg by lia. unfold isint, INT_MIN, INT_MAX in *. lia.
    - rstep. now apply refR_ok. }
  assert (HHb : ov = false -> 2 * HH <= Nrow).
  { intros E. specialize (H E). unfold HH. destruct (Z.rem Nrow 2 =? 0); rewrite Z.quot_div_nonneg by lia; lia. }
  apply (refR_bind _ eq); [|intros ? ? _ _ <-; apply refR_refl].
  apply refR_mfor. intros k b Hk. apply In_zrange' in Hk.
  assert (B1 : ov = false -> 0 <= Ncol * (k + 1) /\ Ncol * (k + 1) + M <= INT_MAX).
  { intros E. specialize (HHb E). specialize (HK E (k + 1)). specialize (H E). rewrite (Z.mul_comm Ncol). apply HK. lia. }
  assert (B2 : ov = false -> 0 <= Ncol * (Nrow - 1 - k) /\ Ncol * (Nrow - 1 - k) + M <= INT_MAX).
  { intros E. specialize (HHb E). specialize (HK E (Nrow - 1 - k)). specialize (H E). rewrite (Z.mul_comm Ncol). apply HK. lia. }
  clear HK. repeat rstep.
Qed.
End Csphi.
