(** * CintFacts5: fc_to_sc and sc_to_fc with C ints. *)
From Coq Require Import ZArith Znumtheory List String Bool Reals Lia Lra.
From Coquelicot Require Import Complex.
From Verif Require Import Py PyFacts Num Exact MCoefs CoefsFacts Sums MPysphi Dft Smooth PysphiFacts TransFacts TransFacts2 MKiss KissFacts KissFacts2 MOps MTrans MCsphi CsphiFacts
  MCint CintFacts CintFacts2 CintFacts3 CintFacts4.
Import ListNotations.
Open Scope list_scope.
Open Scope Z_scope.

(** the number of coefficients fits in an int when the Fourier table does *)
Lemma ncoef_fit nmax mmax nr nc : 0 <= mmax <= nmax -> nmax + 1 <= nr -> 2 * mmax + 1 <= nc -> 2 <= nc -> nr * nc <= 2 ^ 31 ->
  ncoef nmax mmax <= INT_MAX.
Proof.
  intros Hm Hr Hc H2 Hb. unfold ncoef, INT_MAX.
  assert ((nmax + 1) * nc <= nr * nc) by (apply Z.mul_le_mono_nonneg_r; lia).
  destruct (Z.eq_dec mmax 0) as [->|]; [nia|].
  assert ((nmax + 1) * (2 * mmax + 1) <= (nmax + 1) * nc) by (apply Z.mul_le_mono_nonneg_l; lia).
  nia.
Qed.
Lemma half_cells a b : 2 <= b -> 0 <= a -> a * b <= 2 ^ 31 -> a <= 2 ^ 30.
Proof. nia. Qed.

Section Top.
Variable ov : bool.
Notation refR := (refR ov).

Lemma x_fc_to_sc_ref junk junkr junki fdata Nrow Ncol sc Nmax Mmax :
  1 <= Nrow -> 0 <= Nmax -> 0 <= Mmax ->
  (ov = false -> Nrow mod 2 = 0 /\ Mmax <= Nmax /\ 2 * Nmax <= Nrow /\ 2 * Mmax < Ncol /\ 2 <= Ncol /\ Nrow * Ncol <= 2 ^ 31 /\ Ncol <= INT_MAX) ->
  refR eq (x_fc_to_sc junk junkr junki fdata Nrow Ncol sc Nmax Mmax) (c_fc_to_sc junk junkr junki fdata Nrow Ncol sc Nmax Mmax).
Proof.
  intros HN0 Hn0 Hm0 H.
  assert (B : ov = false -> Nrow <= 2 ^ 30 /\ 2 * Nmax <= 2 ^ 30).
  { intros E. specialize (H E). assert (Nrow <= 2 ^ 30) by (apply (half_cells _ Ncol); lia). lia. }
  unfold x_fc_to_sc, c_fc_to_sc. rstep.
  apply (refR_bind _ eq). { apply x_FindQ_ref; [lia|]. intros E. specialize (H E). specialize (B E). unfold LAST5. lia. }
  intros Q ? EQx EQ <-.
  assert (HQ : Nrow + Nmax <= Q <= INT_MAX).
  { apply x_findq_int in EQx; [|auto]. unfold isint in EQx. lia. }
  assert (HQs : smooth [2; 3; 5] Q /\ (ov = false -> Q <= 3 * 2 ^ 29)).
  { destruct (FindQ_ok (Nrow + Nmax)) as (q & Eq & (L1 & L2 & L3) & _); [lia|]. rewrite Eq in EQ. apply Ok_inj in EQ. subst q.
    split; auto. intros E. specialize (B E). destruct (Z_le_gt_dec Q (3 * 2 ^ 29)); auto. exfalso. apply (L3 (3 * 2 ^ 29)); [lia|].
    change (3 * 2 ^ 29) with (2 ^ 29 * 3 ^ 1 * 5 ^ 0). apply smooth_mul235; lia. }
  destruct HQs as [HQs HQb].
  apply (refR_bind _ eq).
  { apply x_SData_ref. intros E. specialize (H E). specialize (HQb E). specialize (B E). unfold INT_MAX. lia. }
  intros s ? _ _ <-. rewrite !x_fft_alloc_eq by lia.
  apply refR_same. intros fw Efw. apply refR_same. intros bw Ebw.
  destruct (plan_fit_alloc Q false fw) as [_ Pfw]; auto; [lia|].
  destruct (plan_fit_alloc Q true bw) as [_ Pbw]; auto; [lia|].
  apply (refR_bind _ eq); [apply x_inplace_ref; auto|]. intros s1 ? _ _ <-.
  rstep. apply (refR_bind _ eq).
  { apply x_inds_ref; auto. intros E. specialize (H E). specialize (B E). unfold INT_MAX.
    destruct H as (K1 & K2 & K3 & K4 & K5 & K6 & K7). unfold INT_MAX in K7. repeat split; try lia.
    pose proof (ncoef_fit Nmax Mmax Nrow Ncol). unfold INT_MAX in *. 
    destruct (Z.eq_dec Nmax 0); [subst; assert (Mmax = 0) by lia; subst; unfold ncoef; lia|]. lia. }
  intros inds ? _ _ <-.
  assert (HB : ov = false -> forall m, Z.abs m <= Mmax ->
    plan_fit fw /\ plan_fit bw /\ 0 <= Nrow /\ 1 <= Ncol /\ Nrow * Ncol <= 2 ^ 31 /\ Nrow <= INT_MAX /\ Ncol <= INT_MAX /\
     - Ncol <= m < Ncol /\ Z.abs m <= Nmax /\ Nmax <= 2 ^ 30).
  { intros E m Hm. specialize (H E). specialize (B E). unfold INT_MAX in *. split; [auto|]. split; [auto|]. lia. }
  apply (refR_bind _ eq). { apply x_bnm_fc_ref. intros E. apply HB; auto. }
  intros st ? _ _ <-. rstep.
  apply (refR_bind _ eq); [|intros [[[? ?] ?] ?] ? _ _ <-; apply refR_refl].
  apply refR_mfor. intros m st1 Hm. apply In_zrange' in Hm.
  assert (B' : ov = false -> 2 * m <= 2 ^ 30 /\ Z.abs m <= Nmax) by (intros E; specialize (B E); specialize (H E); lia).
  rstep. rstep. rstep. rstep. rstep. rstep. rstep.
  apply (refR_bind _ eq). { apply x_bnm_fc_ref. intros E. apply HB; auto. lia. }
  intros st2 ? _ _ <-. rstep. apply x_bnm_fc_ref. intros E. apply HB; auto. lia.
Qed.

Lemma x_sc_to_fc_ref junkr junki fdata Nrow Ncol sc Nmax Mmax :
  0 <= Mmax ->
  (ov = false -> Mmax <= Nmax /\ Nmax + 1 <= Nrow /\ 2 * Mmax + 2 <= Ncol /\ Nrow * Ncol <= 2 ^ 31 /\ Ncol <= INT_MAX) ->
  refR eq (x_sc_to_fc junkr junki fdata Nrow Ncol sc Nmax Mmax) (c_sc_to_fc junkr junki fdata Nrow Ncol sc Nmax Mmax).
Proof.
  intros Hm0 H.
  assert (B : ov = false -> Nrow <= 2 ^ 30).
  { intros E. specialize (H E). apply (half_cells _ Ncol); lia. }
  unfold x_sc_to_fc, c_sc_to_fc. rstep. apply (refR_bind _ eq).
  { apply x_inds_ref; auto. intros E. specialize (H E). specialize (B E). 
    pose proof (ncoef_fit Nmax Mmax Nrow Ncol). unfold INT_MAX in *. lia. }
  intros inds ? _ _ <-.
  assert (Bq : ov = false -> 0 <= 2 * Z.quot Ncol 2 <= Ncol).
  { intros E. specialize (H E). rewrite Z.quot_div_nonneg by lia. lia. }
  rstep. apply (refR_bind _ eq); [|intros [? ?] ? _ _ <-; apply refR_refl].
  apply refR_mfor. intros k r Hk. apply In_zrange' in Hk.
  assert (HF : ov = false -> forall m M, Z.abs m <= Mmax -> 0 <= M < Ncol ->
    Z.abs m <= Nmax /\ Nmax + 1 <= Nrow /\ Nmax <= 2 ^ 30 /\ 1 <= Ncol /\ Nrow * Ncol <= 2 ^ 31 /\ Nrow <= INT_MAX /\ Ncol <= INT_MAX /\ 0 <= M < Ncol).
  { intros E m M Hm HM. specialize (H E). specialize (B E). unfold INT_MAX in *. lia. }
  destruct (Z.ltb_spec k Mmax).
  - rstep. rstep. apply (refR_bind _ eq).
    { apply x_fcvec_ref. intros E. specialize (H E). apply HF; auto; lia. }
    intros r1 ? _ _ <-. rstep. rstep. rstep. rstep. rstep. rstep. rstep.
    apply x_fcvec_ref. intros E. specialize (H E). apply HF; auto; lia.
  - destruct (Z.eqb_spec k Mmax); [|apply refR_refl].
    rstep. rstep. apply x_fcvec_ref. intros E. specialize (H E). apply HF; auto; lia.
Qed.
End Top.

(** ** Where an index leaves the range of int *)
Lemma mfor_Ok_inv {S} : forall l (f : Z -> S -> res S) s s' i, mfor l f s = Ok s' -> In i l -> exists a b, f i a = Ok b.
Proof.
  induction l as [|j l IH]; intros f s s' i E Hi; [destruct Hi|]. cbn [mfor] in E.
  destruct (f j s) as [s1|] eqn:E1; cbn [bind] in E; [|discriminate].
  destruct Hi as [->|Hi]; eauto.
Qed.
Lemma bind_Ok_inv {A B} (x : res A) (f : A -> res B) b : bind x f = Ok b -> exists a, x = Ok a /\ f a = Ok b.
Proof. destruct x as [a|]; cbn [bind]; [eauto|discriminate]. Qed.

Lemma upto_inv a e l : upto a e = Ok l -> l = zrange a (e + 1).
Proof.
  unfold upto. destruct (Z.ltb_spec e a); intros E.
  - apply Ok_inj in E. subst. now rewrite zrange_nil by lia.
  - destruct (ck_cases (e + 1)) as [[E1 _]|E1]; rewrite E1 in E; cbn [bind] in E; [|discriminate]. now apply Ok_inj in E.
Qed.
(** splits a hypothesis [x <- a ;; ... = Ok _] *)
Ltac binv E := apply bind_Ok_inv in E; let a := fresh "a" in let E1 := fresh "B" in destruct E as (a & E1 & E);
  try (apply ck_inv in E1; let K := fresh "I" in destruct E1 as [-> K]); try (apply upto_inv in E1; subst a).

Lemma x_hkm_inv junk g Nrow Ncol n hkm len ss Q ff fw bw r :
  x_hkm_fc junk g Nrow Ncol n (-1) hkm len ss Q ff fw bw = Ok r -> 2 <= Nrow -> Nrow mod 2 = 0 -> Nrow * Ncol <= 2 ^ 31.
Proof.
  intros E H2 Hev. unfold x_hkm_fc in E. cbn [Z.leb Z.compare] in E. cbv zeta in E. do 4 binv E. clear E.
  rewrite Z.quot_div_nonneg in B1 by lia.
  apply (mfor_Ok_inv _ _ _ _ (Nrow / 2 - 1)) in B1; [|apply In_zrange_intro; lia].
  destruct B1 as (s & s' & E). cbv beta in E. do 3 binv E. replace (Nrow / 2 + (Nrow / 2 - 1)) with (Nrow - 1) in * by lia.
  unfold isint, INT_MAX in *. nia.
Qed.
Lemma x_fc_inv junk junkr junki fdata Nrow Ncol sc Nmax Mmax v :
  x_fc_to_sc junk junkr junki fdata Nrow Ncol sc Nmax Mmax = Ok v -> 1 <= Mmax -> 2 <= Nrow -> Nrow mod 2 = 0 -> Nrow * Ncol <= 2 ^ 31.
Proof.
  intros E HM H2 Hev. unfold x_fc_to_sc in E. cbv zeta in E.
  repeat (lazymatch type of E with (bind (mfor _ _ _) _) = _ => fail | _ => binv E end).
  binv E. lazymatch goal with K : mfor _ _ _ = Ok _ |- _ => apply (mfor_Ok_inv _ _ _ _ 1) in K; [destruct K as (s & s' & K); rename K into E2|apply In_zrange_intro; lia] end.
  cbv beta in E2.
  repeat (lazymatch type of E2 with (bind (x_bnm_fc _ _ _ _ _ _ _ _ _ _ _ _ _ _) _) = _ => fail | _ => binv E2 end).
  binv E2. clear E2. lazymatch goal with K : x_bnm_fc _ _ _ _ _ (- (1)) _ _ _ _ _ _ _ s = Ok _ |- _ => rename K into E3 end.
  unfold x_bnm_fc in E3. destruct s as [[[sc1 ff1] hk1] y1]. do 2 binv E3.
  lazymatch goal with K : x_hkm_fc _ _ _ _ _ _ _ _ _ _ _ _ _ = Ok _ |- _ => apply x_hkm_inv in K; auto end.
Qed.
Lemma x_fc_overflow junk junkr junki fdata Nrow Ncol sc Nmax Mmax :
  2 <= Nrow -> Nrow mod 2 = 0 -> 1 <= Mmax <= Nmax -> 2 * Mmax < Ncol -> 2 ^ 31 < Nrow * Ncol ->
  zlen fdata = Nrow * Ncol -> zlen sc = ncoef Nmax Mmax ->
  x_fc_to_sc junk junkr junki fdata Nrow Ncol sc Nmax Mmax = Raise IntOverflow.
Proof.
  intros H2 Hev Hm Hc Hb Hf Hs.
  destruct (ck_cases (Nrow + Nmax)) as [[_ HS]|E].
  2:{ unfold x_fc_to_sc. now rewrite E. }
  destruct (refR_true _ _ (x_fc_to_sc_ref true junk junkr junki fdata Nrow Ncol sc Nmax Mmax ltac:(lia) ltac:(lia) ltac:(lia) ltac:(discriminate))) as [E|E]; auto.
  exfalso.
  destruct (c_fc_to_sc_ok junk junkr junki (mkMat RN Nrow Ncol fdata) sc Nmax Mmax (Nrow / 2)) as (Q & v & _ & E1 & _).
  - repeat split; cbn; auto; lia.
  - cbn [mt_nr]. lia.
  - lia.
  - lia.
  - cbn [mt_nc]. lia.
  - unfold isint, INT_MAX in HS. lia.
  - exact Hs.
  - cbn [mt_dat mt_nr mt_nc] in E1. rewrite E1 in E. apply x_fc_inv in E; lia.
Qed.

Lemma x_fcvec_inv sc off m Nmax Nrow Ncol M len st r :
  x_fcvec_m_sc sc off m Nmax Nrow Ncol M len st = Ok r -> 3 <= Nrow -> Ncol * (Nrow - 1) + M <= INT_MAX.
Proof.
  intros E H3. unfold x_fcvec_m_sc in E. destruct st as [fd y]. cbv zeta in E. do 4 binv E. lazymatch type of E with (let '(_, _) := ?p in _) = _ => destruct p as [fd1 y1] end. do 3 binv E. clear E.
  lazymatch goal with K : (if _ then _ else _) = Ok ?a |- _ => rename K into EH; rename a into hh end.
  assert (HH : 1 <= hh).
  { destruct (Z.rem Nrow 2 =? 0) eqn:Er.
    - apply ck_inv in EH. destruct EH as [-> _]. apply Z.eqb_eq in Er. rewrite Z.rem_mod_nonneg in Er by lia. rewrite Z.quot_div_nonneg by lia. lia.
    - binv EH. apply Ok_inj in EH. subst hh. rewrite Z.quot_div_nonneg by lia. lia. }
  lazymatch goal with K : mfor (zrange 0 hh) _ _ = Ok _ |- _ => apply (mfor_Ok_inv _ _ _ _ 0) in K; [destruct K as (s & s' & E2)|apply In_zrange_intro; lia] end.
  cbv beta in E2. repeat binv E2. unfold isint in *. replace (Nrow - 1 - 0) with (Nrow - 1) in * by ring. tauto.
Qed.

Lemma x_sc_inv junkr junki fdata Nrow Ncol sc Nmax Mmax v :
  x_sc_to_fc junkr junki fdata Nrow Ncol sc Nmax Mmax = Ok v -> 1 <= Mmax -> 3 <= Nrow -> 2 <= Ncol -> Nrow * Ncol <= 2 ^ 31.
Proof.
  intros E HM H3 Hc. unfold x_sc_to_fc in E. cbv zeta in E. do 4 binv E. clear E.
  lazymatch goal with K : mfor _ _ _ = Ok _ |- _ => apply (mfor_Ok_inv _ _ _ _ 0) in K; [destruct K as (s & s' & E2)|apply In_zrange_intro; rewrite Z.quot_div_nonneg by lia; lia] end.
  cbv beta in E2. destruct (Z.ltb_spec 0 Mmax); [|lia]. repeat binv E2.
  apply x_fcvec_inv in E2; auto. unfold INT_MAX in E2. nia.
Qed.
Lemma x_sc_overflow junkr junki Nrow Ncol sc Nmax Mmax :
  1 <= Mmax <= Nmax -> Nmax + 1 <= Nrow -> 3 <= Nrow -> 2 * Mmax + 2 <= Ncol -> 2 ^ 31 < Nrow * Ncol -> zlen sc = ncoef Nmax Mmax ->
  x_sc_to_fc junkr junki (flat Nrow Ncol (fun _ _ => RtoC 0)) Nrow Ncol sc Nmax Mmax = Raise IntOverflow.
Proof.
  intros Hm Hr H3 Hc Hb Hs.
  destruct (refR_true _ _ (x_sc_to_fc_ref true junkr junki (flat Nrow Ncol (fun _ _ => RtoC 0)) Nrow Ncol sc Nmax Mmax ltac:(lia) ltac:(discriminate))) as [E|E]; auto.
  exfalso. assert (W : sc_wf RN (mkSC RN sc Nmax Mmax)) by (split; [split; cbn; lia|exact Hs]).
  pose proof (c_sc_to_fc_ok junkr junki (mkSC RN sc Nmax Mmax) Nrow Ncol W Hr Hc) as E1. cbn [sc_vec sc_nmax sc_mmax] in E1. rewrite E1 in E.
  apply x_sc_inv in E; lia.
Qed.

(** ** kiss_fft for a large prime length *)
Lemma mfor_inv_at {S} (P : Z -> S -> Prop) f lo hi : forall s r i, mfor (zrange lo hi) f s = Ok r -> P lo s ->
  (forall j a b, lo <= j < hi -> P j a -> f j a = Ok b -> P (j + 1) b) -> lo <= i < hi -> exists a b, P i a /\ f i a = Ok b.
Proof.
  intros s r i E H0 Hs Hi. remember (Z.to_nat (hi - lo)) as n eqn:En. revert lo s H0 Hs Hi E En.
  induction n as [|n IH]; intros lo s H0 Hs Hi E En; [lia|].
  rewrite zrange_cons in E by lia. cbn [mfor] in E. apply bind_Ok_inv in E. destruct E as (s1 & E1 & E).
  destruct (Z.eq_dec i lo) as [->|]; [eauto|]. apply (IH (lo + 1) s1); auto; try lia.
  - apply (Hs lo s); auto. lia.
  - intros j a b Hj. apply Hs. lia.
Qed.
Lemma generic_inv junk out o fs st m p r : x_bfly_generic junk out o fs st m p = Ok r ->
  1 <= m -> 3 <= p -> 1 <= fs -> k_nfft st = fs * (p * m) -> 2 * (fs * ((p - 1) * m)) <= INT_MAX.
Proof.
  intros E Hm Hp Hf HN. unfold x_bfly_generic in E. cbv zeta in E.
  apply (mfor_Ok_inv _ _ _ _ 0) in E; [|apply In_zrange_intro; lia]. destruct E as (b & b' & E). cbv beta in E.
  binv E. destruct a as [scr k0]. binv E. clear E B.
  apply (mfor_inv_at (fun q (a : list C * Z) => snd a = q * m) _ _ _ _ _ (p - 1)) in B0; cbn [snd]; try lia.
  - destruct B0 as ([b1 k] & b2 & Ek & E). cbn [snd] in Ek. subst k. do 2 binv E. binv E. clear E.
    lazymatch goal with K : mfor (zrange 1 p) _ _ = Ok _ |- _ => rename K into E1 end.
    apply (mfor_inv_at (fun q (a : list C * Z) => (q = 1 -> snd a = 0) /\ (q = 2 -> snd a = fs * ((p - 1) * m))) _ _ _ _ _ 2) in E1; cbn [snd]; try lia.
    + destruct E1 as ([b3 tw] & b4 & (_ & E2) & E3). specialize (E2 eq_refl). cbn [snd] in E2. subst tw. cbn [snd fst] in E3. binv E3.
      unfold isint in *. lia.
    + intros j (b5 & t) b6 Hj (P1 & _) E3. split; [lia|]. intros Hj2. assert (j = 1) by lia. subst j. specialize (P1 eq_refl). cbn [snd fst] in *. subst t.
      binv E3. rewrite HN in E3. destruct (Z.leb_spec (fs * (p * m)) (0 + fs * ((p - 1) * m))); [exfalso; nia|].
      repeat binv E3. lazymatch goal with K : Ok (0 + _) = Ok ?t |- _ => apply Ok_inj in K; subst t end.
      apply Ok_inj in E3. subst b6. cbn [snd]. lia.
  - intros j (b5 & k) b6 Hj Hk E. cbn [snd] in Hk. subst k. repeat binv E. apply Ok_inj in E. subst b6. cbn [snd]. ring.
Qed.

Lemma kf_factor_prime n : prime n -> kf_factor n = Ok [(n, 1)].
Proof.
  intros Hn. pose proof (prime_ge_2 n Hn) as H2. destruct (kf_factor_ok n ltac:(lia)) as (l & E & _). rewrite E.
  destruct (kf_factor_inv n l H2 E) as [HC HF].
  assert (Hp : forall p, 2 <= p -> (p | n) -> p = n).
  { intros p Hp Hd. destruct (prime_divisors n Hn p Hd); lia. }
  destruct l as [|(p & m) l]; [unfold kf_factor in E|].
  { exfalso. cbn [chain] in HC. revert HC. destruct (Z.eq_dec n 1); lia. }
  cbn [chain] in HC. destruct HC as [En HC]. inversion HF as [|? ? HF1 HF2]; subst. cbn [fst] in HF1.
  assert (Hp2 : 2 <= p) by (destruct HF1 as [->|HP]; [lia|pose proof (prime_ge_2 p HP); lia]).
  pose proof (Hp p Hp2 (Z.divide_factor_l _ _)) as Ep.
  assert (m = 1) by nia. subst m. f_equal. f_equal; [f_equal; lia|].
  destruct l as [|(p1 & m1) l]; [reflexivity|]. exfalso. cbn [chain] in HC. destruct HC as [E1 _].
  inversion HF2 as [|? ? HF3 _]; subst. cbn [fst] in HF3. assert (2 <= p1) by (destruct HF3 as [->|HP]; [lia|pose proof (prime_ge_2 p1 HP); lia]).
  assert (Hd : (p1 | 1)) by (exists m1; lia). apply Z.divide_1_r_nonneg in Hd; lia.
Qed.
Lemma x_kf_work_prime_inv junk st fin s out n r : x_kf_work junk st fin s [(n, 1)] out 0 0 1 = Ok r -> 5 < n -> k_nfft st = n -> n <= 2 ^ 30.
Proof.
  intros E Hn HN. cbn [x_kf_work] in E. destruct ((n <? 1) || (1 <? 1)); [discriminate|]. do 2 binv E.
  unfold x_bfly in E. destruct (Z.eqb_spec n 2); [lia|]. destruct (Z.eqb_spec n 3); [lia|]. destruct (Z.eqb_spec n 4); [lia|]. destruct (Z.eqb_spec n 5); [lia|].
  apply generic_inv in E; try lia. unfold INT_MAX in E. lia.
Qed.
