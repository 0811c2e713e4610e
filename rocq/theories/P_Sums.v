(** * P_Sums: C69 and C70, how accurate the sums over the harmonic tables are in double precision. *)
From Coq Require Import ZArith List Bool SpecFloat Reals Lia Lra Psatz Permutation.
From Coquelicot Require Import Coquelicot.
From Flocq Require Import Core.Core IEEE754.BinarySingleNaN.
From Verif Require Import Exact Py PyFacts Num FloatN FloatText MCoefs SpecCoefs CoefsFacts MPatt PattFacts Sums Harm Smooth Dft MOps MPysphi PysphiFacts TransFacts TransFacts2 SpecHarm HarmFacts
  SpecInt Integ Integ2 MKiss KissFacts MCsphi CsphiFacts MDouble FlFacts SeedReal SeedFl SeedFl2 DoubleFacts TableEq P_Double FlSigned SbesselFTerm SbesselFRel Unsold TabFl P_Table SumFl SumFl2 SumFl3 SumFl4.
Import ListNotations.
Open Scope Z_scope.

(** ** Specification ([harm_fourier], [value], [finite] as in P_Double) *)

(** a double, in the representation of Coq's SpecFloat *)
Definition double (x : f64) : Prop := SpecFloat.valid_binary 53 1024 x = true.
(** the complex number a pair of finite doubles denotes *)
Definition cvalue (z : cf) : C := (value (fst z), value (snd z)).
(** both parts are finite doubles of absolute value at most B *)
Definition bounded (B : R) (z : cf) : Prop :=
  double (fst z) /\ finite (fst z) /\ (Rabs (value (fst z)) <= B)%R /\ double (snd z) /\ finite (snd z) /\ (Rabs (value (snd z)) <= B)%R.
(** both parts are finite doubles within e of those of c *)
Definition within (e : R) (z : cf) (c : C) : Prop :=
  double (fst z) /\ finite (fst z) /\ (Rabs (value (fst z) - fst c) <= e)%R /\ double (snd z) /\ finite (snd z) /\ (Rabs (value (snd z) - snd c) <= e)%R.

(** the powers of i: i^m = e^(i m pi/2) *)
Definition i_pow (m : Z) : C := e_i (IZR m * (PI / 2)).

(** The coefficient (n, m) belonging to h_0 ... h_n, and the entry for frequency k of
    the column of order m belonging to c_|m| ... c_nmax; y n k, |k| <= n, are the Fourier
    coefficients of Y_n^m. *)
Definition coef_of (n m : Z) (h : Z -> C) (y : Z -> R) : C :=
  (i_pow (- m) * (h 0%Z * RtoC (y 0%Z) + RtoC 2 * sumC 1 (n + 1) (fun k => h k * RtoC (y k))))%C.
Definition entry_of (nmax m k : Z) (c : Z -> C) (y : Z -> Z -> R) : C :=
  (i_pow m * sumC (Z.abs m) (nmax + 1) (fun n => if (Z.abs k <=? n)%Z then c n * RtoC (y n k) else RtoC 0))%C.
(** the frequency row i of nrows stands for *)
Definition row_freq (nrows i : Z) : Z := if i <=? nrows / 2 then i else i - nrows.

(** an absolute error bound, for data of size B and powers of 1j that are off by ew *)
Definition sum_tol (n : Z) (B ew : R) : R :=
  ((IZR n + 1) * (1 + sqrt ((2 * IZR n + 1) / (4 * PI))) * (B * (48 * (IZR n + 1) ^ 3 / 2 ^ 53 + 12 * ew) + 16 / 2 ^ 1074))%R.

(** ** Connections *)
Lemma bpow2_pow n : bpow radix2 (Z.of_nat n) = (2 ^ n)%R.
Proof. induction n as [|n IH]; [reflexivity|]. rewrite Nat2Z.inj_succ. unfold Z.succ. rewrite bpow_plus_1, IH. reflexivity. Qed.
Lemma dmin_val : dmin = (/ 2 ^ 1074)%R.
Proof. change (-1074) with (- (Z.of_nat 1074)). rewrite bpow_opp, bpow2_pow. reflexivity. Qed.
Lemma sum_tol_eq n B ew : eacc n B ew = sum_tol n B ew.
Proof.
  unfold eacc, sum_tol, acc, ymax. assert (Eu : uu = (/ 2 ^ 53)%R) by (rewrite uu_val; lra). rewrite Eu, dmin_val. set (s := sqrt _). set (c := ((IZR n + 1) ^ 3)%R). set (d := (/ 2 ^ 1074)%R).
  replace (16 / 2 ^ 1074)%R with (16 * d)%R by reflexivity. clearbody d s c. set (b := (/ 2 ^ 53)%R) in *. replace (48 * c / 2 ^ 53)%R with (48 * c * b)%R by reflexivity. clearbody b. ring.
Qed.
Lemma i_pow_eq m : i_pow m = ipow m.
Proof. unfold i_pow. change e_i with cisR. symmetry. apply ipow_cis. Qed.
Lemma finite_fin x : finite x -> fin x.
Proof. destruct x; intros H; try contradiction H; reflexivity. Qed.
Lemma bounded_cap B z : bounded B z -> cap B 0 z (VC z).
Proof.
  intros (D1 & F1 & B1 & D2 & F2 & B2). unfold VC. split; cbn [fst snd]; (split; [assumption|]); (split; [apply finite_fin; assumption|]); (split; [assumption|]); rewrite Rminus_eq_0, Rabs_R0; apply Rle_refl.
Qed.
Lemma cap_within M e z c : cap M e z c -> within e z c.
Proof. intros [(D1 & F1 & _ & E1) (D2 & F2 & _ & E2)]. unfold within. auto 10 using fin_finite. Qed.
Lemma ipow_unit m : (Rabs (fst (ipow m)) + Rabs (snd (ipow m)) <= 1)%R.
Proof.
  rewrite ipow_val. destruct (m mod 4) as [|[[p|p|]|[p|p|]|]|p]; cbn [fst snd RtoC Ci];
    rewrite ?Rabs_R0, ?Rabs_R1, ?(Rabs_left (-1)) by lra; lra.
Qed.
Lemma within_wap ew w m : within ew w (i_pow m) -> wap 1 ew w (ipow m).
Proof.
  rewrite i_pow_eq. intros (D1 & F1 & E1 & D2 & F2 & E2). unfold wap. rewrite !Rmult_1_l. split; [|split; [|apply ipow_unit]];
  (split; [assumption|]); (split; [apply finite_fin; assumption|]); (split; [apply Rle_refl|assumption]).
Qed.
Lemma coef_of_eq n m h y : Z.abs m <= n -> harm_fourier n m y -> coef_of n m h y = bval h m n.
Proof.
  intros Hm Hy. assert (Q : forall k, 0 <= k <= n -> y k = Yt n m k) by (intros k Hk; apply (harm_fourier_unique n m); auto using harm_fourier_Yt; lia).
  unfold coef_of, bval. rewrite i_pow_eq, Q by lia. rewrite (sumC_ext 1 (n + 1) _ (fun k => h k * RtoC (Yt n m k))%C) by (intros k Hk; rewrite Q by lia; reflexivity). ring.
Qed.
Lemma entry_of_eq nmax m k x y : (forall n, Z.abs m <= n <= nmax -> harm_fourier n m (y n)) -> entry_of nmax m k (fun n => VC (x n)) y = FcolV x nmax m k.
Proof.
  intros Hy. unfold entry_of, FcolV. rewrite i_pow_eq. f_equal. apply sumC_ext. intros n Hn. destruct (Z.leb_spec (Z.abs k) n).
  - rewrite (harm_fourier_unique n m (y n) (Yt n m)); auto using harm_fourier_Yt; try lia; [apply Hy; lia|apply harm_fourier_Yt; lia].
  - rewrite Yt_supp by lia. ring.
Qed.

(** ** C69: spht.  [hk m] is what the FFTs gave for column m. *)
Theorem C69_spht_accurate : forall sum ipw hk nmax mmax B ew, (forall l, sums l (sum l)) -> 0 <= mmax <= nmax -> nmax <= 1022 ->
  (0 <= B <= 2 ^ 1000)%R -> (0 <= ew <= 1 / 64)%R -> (forall m, Z.abs m <= mmax -> within ew (ipw m) (i_pow m)) ->
  (forall m, Z.abs m <= mmax -> zlen (hk m) = nmax + 1 /\ forall k, 0 <= k <= nmax -> bounded B (vget cf0 (hk m) k)) ->
  exists c, f_fc_to_sc sum ipw hk nmax mmax = Ok c /\ zlen c = ncoef nmax mmax /\
    forall n m y, is_mode nmax mmax n m -> harm_fourier n m y ->
      within (sum_tol n B ew) (vget cf0 c (pos nmax n m)) (coef_of n m (fun k => cvalue (vget cf0 (hk m) k)) y).
Proof.
  intros sum ipw hk nmax mmax B ew HS HM HN HB Hew Hw Hh.
  destruct (f_fc_to_sc_acc sum ipw hk nmax mmax B ew HS HM HN) as (c & E & L & A).
  - change 1000 with (Z.of_nat 1000). rewrite bpow2_pow. exact HB.
  - clear - Hew. lra.
  - intros m Hm. apply within_wap, Hw, Hm.
  - intros m Hm. destruct (Hh m Hm) as [L K]. split; [exact L|]. intros k Hk. apply bounded_cap, K, Hk.
  - exists c. split; [exact E|]. split; [exact L|]. intros n m y Hm Hy. destruct (A n m Hm) as (M & C). rewrite coef_of_eq by (auto; destruct Hm; lia).
    rewrite <- sum_tol_eq. exact (cap_within _ _ _ _ C).
Qed.
Print Assumptions C69_spht_accurate.
(** The C backend, whatever its work arrays and the destination contained. *)
Theorem C69_spht_accurate_c : forall hk junkr junki sc nmax mmax B, 0 <= mmax <= nmax -> nmax <= 1022 -> (0 <= B <= 2 ^ 1000)%R ->
  (forall m, Z.abs m <= mmax -> zlen (hk m) = nmax + 1 /\ forall k, 0 <= k <= nmax -> bounded B (vget cf0 (hk m) k)) -> zlen sc = ncoef nmax mmax ->
  exists c, fc_fc_to_sc hk junkr junki sc nmax mmax = Ok c /\ zlen c = ncoef nmax mmax /\
    forall n m y, is_mode nmax mmax n m -> harm_fourier n m y ->
      within (sum_tol n B 0) (vget cf0 c (pos nmax n m)) (coef_of n m (fun k => cvalue (vget cf0 (hk m) k)) y).
Proof.
  intros hk junkr junki sc nmax mmax B HM HN HB Hh Ls.
  destruct (fc_fc_to_sc_acc hk junkr junki sc nmax mmax B HM HN) as (c & E & L & A).
  - change 1000 with (Z.of_nat 1000). rewrite bpow2_pow. exact HB.
  - intros m Hm. destruct (Hh m Hm) as [L K]. split; [exact L|]. intros k Hk. apply bounded_cap, K, Hk.
  - exact Ls.
  - exists c. split; [exact E|]. split; [exact L|]. intros n m y Hm Hy. destruct (A n m Hm) as (M & C). rewrite coef_of_eq by (auto; destruct Hm; lia).
    rewrite <- sum_tol_eq. exact (cap_within _ _ _ _ C).
Qed.
Print Assumptions C69_spht_accurate_c.

(** *** Against exact arithmetic: [exact_h] is the data the code computes from the
    Fourier array before summing (pysphi.py:155-175), in exact arithmetic; if the doubles
    [hk m] are within delta of it, every coefficient of the double-precision spht is
    within the bound below of the one exact arithmetic gives. *)
Definition exact_h (a : mat RN) (nmax m : Z) : res (list C) :=
  Q <- smallest_prime_factor (mt_nr RN a + nmax) ;; s <- s_data (mt_nr RN a) nmax Q ;; hkm_fc a nmax m s.
Definition exact_tol (n : Z) (delta : R) : R := ((2 * IZR n + 1) * sqrt ((2 * IZR n + 1) / (4 * PI)) * delta)%R.

Lemma exact_h_eq a nmax m MM : mt_nr RN a = 2 * MM -> 1 <= MM -> 0 <= nmax -> - mt_nc RN a <= m < mt_nc RN a -> colf a m MM = RtoC 0 ->
  exact_h a nmax m = Ok (vmake (nmax + 1) (hconv MM (colf a m))).
Proof.
  intros HL HM Hn Hc Hz. unfold exact_h. rewrite HL.
  destruct (spf_ok (2 * MM + nmax) ltac:(lia)) as (Q & -> & (HQ & _) & _). cbn [bind].
  rewrite s_data_eq by lia. cbn [bind].
  rewrite (hkm_fc_eq a nmax m MM Q) by (auto; try lia; unfold colf in Hz; rewrite HL, Z.mod_small in Hz by lia; exact Hz).
  unfold colf. now rewrite HL.
Qed.
Lemma sumR_bound lo hi f M : lo <= hi -> (forall k, lo <= k < hi -> (Rabs (f k) <= M)%R) -> (Rabs (sumR lo hi f) <= IZR (hi - lo) * M)%R.
Proof.
  intros H. revert hi H. apply (Zlt_lower_bound_ind (fun hi => (forall k, lo <= k < hi -> (Rabs (f k) <= M)%R) -> (Rabs (sumR lo hi f) <= IZR (hi - lo) * M)%R) lo).
  intros hi IH H Hf. destruct (Z.eq_dec hi lo) as [->|Ne]; [rewrite sumR_nil by lia; rewrite Z.sub_diag, Rabs_R0; lra|].
  replace hi with (hi - 1 + 1) by lia. rewrite sumR_snoc by lia. replace (hi - 1 + 1 - lo) with (hi - 1 - lo + 1) by lia. rewrite plus_IZR.
  pose proof (IH (hi - 1) ltac:(lia) ltac:(intros; apply Hf; lia)). pose proof (Hf (hi - 1) ltac:(lia)). pose proof (Rabs_triang (sumR lo (hi - 1) f) (f (hi - 1))). lra.
Qed.
Lemma rot_bound m (D : C) E : (Rabs (fst D) <= E)%R -> (Rabs (snd D) <= E)%R -> (Rabs (fst (ipow m * D)%C) <= E)%R /\ (Rabs (snd (ipow m * D)%C) <= E)%R.
Proof.
  intros H1 H2. assert (E0 : (0 <= E)%R) by (pose proof (Rabs_pos (fst D)); lra).
  rewrite ipow_val. destruct (m mod 4) as [|[[p|p|]|[p|p|]|]|p]; unfold Cmult, RtoC, Ci; cbn [fst snd];
  rewrite ?Rmult_0_l, ?Rmult_1_l, ?Rminus_0_r, ?Rplus_0_r, ?Rplus_0_l, ?Rminus_0_l; split; rewrite <- ?Ropp_mult_distr_l, ?Rmult_1_l, ?Ropp_involutive, ?Rabs_Ropp; try assumption;
  match goal with |- (Rabs ?x <= _)%R => first [replace x with (fst D) by ring; assumption|replace x with (- fst D)%R by ring; rewrite Rabs_Ropp; assumption|replace x with (snd D) by ring; assumption|replace x with (- snd D)%R by ring; rewrite Rabs_Ropp; assumption] end.
Qed.
Lemma bval_pert h h' m n d : Z.abs m <= n -> (forall k, 0 <= k <= n -> (Rabs (fst (h k) - fst (h' k)) <= d)%R /\ (Rabs (snd (h k) - snd (h' k)) <= d)%R) ->
  (Rabs (fst (bval h m n) - fst (bval h' m n)) <= exact_tol n d)%R /\ (Rabs (snd (bval h m n) - snd (bval h' m n)) <= exact_tol n d)%R.
Proof.
  intros Hm Hd. set (S := fun g : Z -> C => (g 0%Z * RtoC (Yt n m 0) + RtoC 2 * sumC 1 (n + 1) (fun k => g k * RtoC (Yt n m k)))%C).
  assert (EB : forall g, bval g m n = (ipow (- m) * S g)%C) by (intros g; unfold bval, S; ring).
  assert (E : forall a b : C, (fst a - fst b = fst (a - b)%C)%R /\ (snd a - snd b = snd (a - b)%C)%R) by (intros [] []; split; reflexivity).
  destruct (E (bval h m n) (bval h' m n)) as [-> ->]. rewrite !EB. replace (ipow (- m) * S h - ipow (- m) * S h')%C with (ipow (- m) * (S h - S h'))%C by ring.
  pose proof (fun k => Yt_bound n m k Hm) as YB. assert (Y0 : (0 <= ymax n)%R) by apply sqrt_pos.
  assert (N0 : (0 <= IZR n)%R) by (apply IZR_le; lia).
  assert (G : forall (pr : C -> R) , (forall a b r, pr (a * RtoC r)%C - pr (b * RtoC r)%C = (pr a - pr b) * r)%R -> (forall k, 0 <= k <= n -> (Rabs (pr (h k) - pr (h' k)) <= d)%R) ->
     (Rabs ((pr (h 0%Z) - pr (h' 0%Z)) * Yt n m 0 + 2 * sumR 1 (n + 1) (fun k => (pr (h k) - pr (h' k)) * Yt n m k)) <= exact_tol n d)%R).
  { intros pr _ Hp. assert (T : forall k, 0 <= k <= n -> (Rabs ((pr (h k) - pr (h' k)) * Yt n m k) <= d * ymax n)%R).
    { intros k Hk. rewrite Rabs_mult. apply Rmult_le_compat; auto using Rabs_pos. }
    pose proof (T 0 ltac:(lia)) as T0. pose proof (sumR_bound 1 (n + 1) (fun k => (pr (h k) - pr (h' k)) * Yt n m k)%R (d * ymax n) ltac:(lia) ltac:(intros; apply T; lia)) as T1.
    replace (n + 1 - 1) with n in T1 by lia. eapply Rle_trans; [apply Rabs_triang|]. rewrite (Rabs_mult 2), (Rabs_right 2) by lra. unfold exact_tol. fold (ymax n).
    replace ((2 * IZR n + 1) * ymax n * d)%R with (d * ymax n + 2 * (IZR n * (d * ymax n)))%R by ring. lra. }
  apply rot_bound.
  - replace (fst (S h - S h')%C) with ((fst (h 0%Z) - fst (h' 0%Z)) * Yt n m 0 + 2 * sumR 1 (n + 1) (fun k => (fst (h k) - fst (h' k)) * Yt n m k))%R.
    + apply (G fst); [intros; unfold Cmult, RtoC; cbn [fst snd]; ring|intros; apply Hd; lia].
    + unfold S, Cminus, Cplus, Copp, Cmult, RtoC. cbn [fst snd]. rewrite !fst_sumC, !snd_sumC. cbn [fst snd].
      rewrite (sumR_ext 1 (n + 1) (fun k => (fst (h k) - fst (h' k)) * Yt n m k)%R (fun k => (fst (h k) * Yt n m k - snd (h k) * 0) + (-1) * (fst (h' k) * Yt n m k - snd (h' k) * 0))%R) by (intros; ring).
      rewrite sumR_add, <- sumR_mul. ring.
  - replace (snd (S h - S h')%C) with ((snd (h 0%Z) - snd (h' 0%Z)) * Yt n m 0 + 2 * sumR 1 (n + 1) (fun k => (snd (h k) - snd (h' k)) * Yt n m k))%R.
    + apply (G snd); [intros; unfold Cmult, RtoC; cbn [fst snd]; ring|intros; apply Hd; lia].
    + unfold S, Cminus, Cplus, Copp, Cmult, RtoC. cbn [fst snd]. rewrite !fst_sumC, !snd_sumC. cbn [fst snd].
      rewrite (sumR_ext 1 (n + 1) (fun k => (snd (h k) - snd (h' k)) * Yt n m k)%R (fun k => (fst (h k) * 0 + snd (h k) * Yt n m k) + (-1) * (fst (h' k) * 0 + snd (h' k) * Yt n m k))%R) by (intros; ring).
      rewrite sumR_add, <- sumR_mul. ring.
Qed.
Lemma exact_h_val a nmax m MM h d B (hs : list cf) n : mt_nr RN a = 2 * MM -> 1 <= MM -> Z.abs m <= n <= nmax -> Z.abs m < mt_nc RN a -> cget a MM (m mod mt_nc RN a) = RtoC 0 ->
  exact_h a nmax m = Ok h -> (forall k, 0 <= k <= nmax -> bounded B (vget cf0 hs k) /\ within d (vget cf0 hs k) (vget (RtoC 0) h k)) ->
  (Rabs (fst (bval (fun k => cvalue (vget cf0 hs k)) m n) - fst (bcol MM a n m)) <= exact_tol n d)%R /\
  (Rabs (snd (bval (fun k => cvalue (vget cf0 hs k)) m n) - snd (bcol MM a n m)) <= exact_tol n d)%R.
Proof.
  intros HL HM Hn Hc Hz Eh Hw. assert (Hz' : colf a m MM = RtoC 0) by (unfold colf; rewrite HL, Z.mod_small by lia; exact Hz).
  rewrite (exact_h_eq a nmax m MM) in Eh by (auto; lia). injection Eh as <-. unfold bcol. apply bval_pert; [lia|].
  intros k Hk. destruct (Hw k ltac:(lia)) as [_ (_ & _ & W1 & _ & _ & W2)]. rewrite vget_vmake in W1, W2 by lia. split; assumption.
Qed.
Lemma within_shift e1 e2 z c c' : within e1 z c -> (Rabs (fst c - fst c') <= e2)%R -> (Rabs (snd c - snd c') <= e2)%R -> within (e1 + e2) z c'.
Proof.
  intros (D1 & F1 & E1 & D2 & F2 & E2) H1 H2. unfold within. repeat (split; [assumption|]). split; [|split; [assumption|split; [assumption|]]].
  - replace (value (fst z) - fst c')%R with ((value (fst z) - fst c) + (fst c - fst c'))%R by ring. eapply Rle_trans; [apply Rabs_triang|lra].
  - replace (value (snd z) - snd c')%R with ((value (snd z) - snd c) + (snd c - snd c'))%R by ring. eapply Rle_trans; [apply Rabs_triang|lra].
Qed.

(** [close_h a nmax mmax B delta hk]: for every order the doubles [hk m] have the right
    number of entries, are bounded by B and within delta of the exact data. *)
Definition close_h (a : mat RN) (nmax mmax : Z) (B delta : R) (hk : Z -> list cf) : Prop :=
  forall m, Z.abs m <= mmax -> zlen (hk m) = nmax + 1 /\ exists h, exact_h a nmax m = Ok h /\
    forall k, 0 <= k <= nmax -> bounded B (vget cf0 (hk m) k) /\ within delta (vget cf0 (hk m) k) (vget (RtoC 0) h k).

Theorem C69_spht_vs_exact : forall sum ipw hk a half nmax mmax B ew delta, (forall l, sums l (sum l)) -> 0 <= mmax <= nmax -> nmax <= 1022 ->
  mt_nr RN a = 2 * half -> 1 <= half -> mmax < mt_nc RN a -> (forall m, Z.abs m <= mmax -> cget a half (m mod mt_nc RN a) = RtoC 0) ->
  (0 <= B <= 2 ^ 1000)%R -> (0 <= ew <= 1 / 64)%R -> (forall m, Z.abs m <= mmax -> within ew (ipw m) (i_pow m)) -> close_h a nmax mmax B delta hk ->
  exists c v, f_fc_to_sc sum ipw hk nmax mmax = Ok c /\ py_fc_to_sc a nmax mmax = Ok v /\ zlen c = zlen v /\
    forall n m, is_mode nmax mmax n m -> within (sum_tol n B ew + exact_tol n delta) (vget cf0 c (pos nmax n m)) (vget (RtoC 0) v (pos nmax n m)).
Proof.
  intros sum ipw hk a half nmax mmax B ew d HS HM HN HL Hh Hc Hz HB Hew Hw Hk.
  destruct (C69_spht_accurate sum ipw hk nmax mmax B ew HS HM HN HB Hew Hw) as (c & E & L & A).
  { intros m Hm. destruct (Hk m Hm) as (L & h & _ & K). split; [exact L|]. intros k Hkk. apply K, Hkk. }
  destruct (py_fc_to_sc_ok a nmax mmax half HL Hh HM Hc) as (v & Ev & Lv & Vv).
  { intros m Hm. unfold colf. rewrite HL, Z.mod_small by lia. apply Hz, Hm. }
  exists c, v. split; [exact E|]. split; [exact Ev|]. split; [rewrite L, Lv; reflexivity|]. intros n m Hm. rewrite Vv by exact Hm.
  pose proof Hm as (M1 & M2 & M3). destruct (Hk m ltac:(lia)) as (Lh & h & Eh & K).
  pose proof (A n m (Yt n m) Hm (harm_fourier_Yt n m M2)) as W. rewrite coef_of_eq in W by (auto using harm_fourier_Yt).
  destruct (exact_h_val a nmax m half h d B (hk m) n HL Hh ltac:(lia) ltac:(lia) ltac:(apply Hz; lia) Eh K) as [P1 P2].
  exact (within_shift _ _ _ _ _ W P1 P2).
Qed.
Print Assumptions C69_spht_vs_exact.
Theorem C69_spht_vs_exact_c : forall hk junkr junki sc a half nmax mmax B delta, 0 <= mmax <= nmax -> nmax <= 1022 -> zlen sc = ncoef nmax mmax ->
  mt_nr RN a = 2 * half -> 1 <= half -> mmax < mt_nc RN a -> (forall m, Z.abs m <= mmax -> cget a half (m mod mt_nc RN a) = RtoC 0) ->
  (0 <= B <= 2 ^ 1000)%R -> close_h a nmax mmax B delta hk ->
  exists c v, fc_fc_to_sc hk junkr junki sc nmax mmax = Ok c /\ py_fc_to_sc a nmax mmax = Ok v /\ zlen c = zlen v /\
    forall n m, is_mode nmax mmax n m -> within (sum_tol n B 0 + exact_tol n delta) (vget cf0 c (pos nmax n m)) (vget (RtoC 0) v (pos nmax n m)).
Proof.
  intros hk junkr junki sc a half nmax mmax B d HM HN Ls HL Hh Hc Hz HB Hk.
  destruct (C69_spht_accurate_c hk junkr junki sc nmax mmax B HM HN HB) as (c & E & L & A).
  { intros m Hm. destruct (Hk m Hm) as (L & h & _ & K). split; [exact L|]. intros k Hkk. apply K, Hkk. }
  { exact Ls. }
  destruct (py_fc_to_sc_ok a nmax mmax half HL Hh HM Hc) as (v & Ev & Lv & Vv).
  { intros m Hm. unfold colf. rewrite HL, Z.mod_small by lia. apply Hz, Hm. }
  exists c, v. split; [exact E|]. split; [exact Ev|]. split; [rewrite L, Lv; reflexivity|]. intros n m Hm. rewrite Vv by exact Hm.
  pose proof Hm as (M1 & M2 & M3). destruct (Hk m ltac:(lia)) as (Lh & h & Eh & K).
  pose proof (A n m (Yt n m) Hm (harm_fourier_Yt n m M2)) as W. rewrite coef_of_eq in W by (auto using harm_fourier_Yt).
  destruct (exact_h_val a nmax m half h d B (hk m) n HL Hh ltac:(lia) ltac:(lia) ltac:(apply Hz; lia) Eh K) as [P1 P2].
  exact (within_shift _ _ _ _ _ W P1 P2).
Qed.
Print Assumptions C69_spht_vs_exact_c.

(** ** C70: ispht, the column of order m handed to the inverse FFT.  [vec] holds the
    coefficients (|m|, m) ... (nmax, m). *)
Theorem C70_ispht_accurate : forall w vec m nmax nrows B ew, Z.abs m <= nmax -> nmax <= 1022 -> nmax + 1 <= nrows -> zlen vec = nmax - Z.abs m + 1 ->
  (0 <= B <= 2 ^ 1000)%R -> (0 <= ew <= 1 / 64)%R -> within ew w (i_pow m) ->
  (forall i, 0 <= i <= nmax - Z.abs m -> bounded B (vget cf0 vec i)) ->
  exists F, f_fcvec_m_sc w vec m nmax nrows = Ok F /\ zlen F = nrows /\
    forall i y, 0 <= i < nrows -> (forall n, Z.abs m <= n <= nmax -> harm_fourier n m (y n)) ->
      within (sum_tol nmax B ew) (vget cf0 F i) (entry_of nmax m (row_freq nrows i) (fun n => cvalue (vget cf0 vec (n - Z.abs m))) y).
Proof.
  intros w vec m nmax nrows B ew Hm HN Hr Lv HB Hew Hw Hx.
  destruct (f_fcvec_acc w vec m nmax nrows B ew Hm HN Hr Lv) as (F & E & L & A).
  - change 1000 with (Z.of_nat 1000). rewrite bpow2_pow. exact HB.
  - clear - Hew. lra.
  - apply within_wap, Hw.
  - intros i Hi. apply bounded_cap, Hx, Hi.
  - exists F. split; [exact E|]. split; [exact L|]. intros i y Hi Hy. destruct (A i Hi) as (M & _ & C).
    change (fun n => cvalue (vget cf0 vec (n - Z.abs m))) with (fun n => VC ((fun n => vget cf0 vec (n - Z.abs m)) n)). rewrite entry_of_eq by exact Hy.
    rewrite <- sum_tol_eq. exact (cap_within _ _ _ _ C).
Qed.
Print Assumptions C70_ispht_accurate.
(** C: column [col] of a Fourier array of ncol columns whose entries in that column are
    zero before the call; the other columns keep their contents. *)
Theorem C70_ispht_accurate_c : forall sc off m nmax nrow ncol col len fdata work B, Z.abs m <= nmax -> nmax <= 1022 -> nmax + 1 <= nrow -> nmax < len ->
  0 <= col < ncol -> zlen fdata = nrow * ncol -> zlen work = len -> 0 <= off -> off + (nmax - Z.abs m + 1) <= zlen sc -> (0 <= B <= 2 ^ 1000)%R ->
  (forall i, 0 <= i <= nmax - Z.abs m -> bounded B (vget cf0 sc (off + i))) ->
  (forall i, 0 <= i < nrow -> vget cf0 fdata (i * ncol + col) = cf0) ->
  exists fd work', fc_fcvec_m_sc sc off m nmax nrow ncol col len (fdata, work) = Ok (fd, work') /\ zlen fd = zlen fdata /\
    (forall i j, 0 <= i < nrow -> 0 <= j < ncol -> j <> col -> vget cf0 fd (i * ncol + j) = vget cf0 fdata (i * ncol + j)) /\
    forall i y, 0 <= i < nrow -> (forall n, Z.abs m <= n <= nmax -> harm_fourier n m (y n)) ->
      within (sum_tol nmax B 0) (vget cf0 fd (i * ncol + col)) (entry_of nmax m (row_freq nrow i) (fun n => cvalue (vget cf0 sc (off + (n - Z.abs m)))) y).
Proof.
  intros sc off m nmax nrow ncol col len fdata work B Hm HN Hr HL Hc Lf Lw Ho Ls HB Hx Hz.
  destruct (fc_fcvec_acc sc off m nmax nrow ncol col len fdata work B Hm HN Hr HL Hc Lf Lw Ho Ls) as (F & w' & E & L & _ & O & A).
  - change 1000 with (Z.of_nat 1000). rewrite bpow2_pow. exact HB.
  - intros i Hi. apply bounded_cap, Hx, Hi.
  - exact Hz.
  - exists F, w'. split; [exact E|]. split; [exact L|]. split.
    + intros i j Hi Hj Ne. apply O; [rewrite Lf; nia|]. intros k Hk Q. assert (K : (i - k) * ncol = col - j) by lia. destruct (Z.eq_dec i k) as [->|Nk]; [lia|nia].
    + intros i y Hi Hy. destruct (A i Hi) as ((M & _ & C) & _).
      change (fun n => cvalue (vget cf0 sc (off + (n - Z.abs m)))) with (fun n => VC ((fun n => vget cf0 sc (off + (n - Z.abs m))) n)). rewrite entry_of_eq by exact Hy.
      rewrite <- sum_tol_eq. exact (cap_within _ _ _ _ C).
Qed.
Print Assumptions C70_ispht_accurate_c.

(** Against the exact column: the same call in exact arithmetic on the coefficients the
    doubles denote. *)
Theorem C70_ispht_vs_exact : forall w vec m nmax nrows B ew, Z.abs m <= nmax -> nmax <= 1022 -> nmax + 1 <= nrows -> zlen vec = nmax - Z.abs m + 1 ->
  (0 <= B <= 2 ^ 1000)%R -> (0 <= ew <= 1 / 64)%R -> within ew w (i_pow m) ->
  (forall i, 0 <= i <= nmax - Z.abs m -> bounded B (vget cf0 vec i)) ->
  exists F G, f_fcvec_m_sc w vec m nmax nrows = Ok F /\ fcvec_m_sc (map cvalue vec) m nmax nrows = Ok G /\ zlen F = nrows /\ zlen G = nrows /\
    forall i, 0 <= i < nrows -> within (sum_tol nmax B ew) (vget cf0 F i) (vget (RtoC 0) G i).
Proof.
  intros w vec m nmax nrows B ew Hm HN Hr Lv HB Hew Hw Hx.
  destruct (C70_ispht_accurate w vec m nmax nrows B ew Hm HN Hr Lv HB Hew Hw Hx) as (F & E & L & A).
  exists F, (vmake nrows (fun i => Fcol (map cvalue vec) nmax m (freqc nrows i))). split; [exact E|].
  split; [apply fcvec_m_sc_eq; auto; rewrite zlen_map; exact Lv|]. split; [exact L|]. split; [apply zlen_vmake'; lia|].
  intros i Hi. rewrite vget_vmake by lia.
  pose proof (A i (fun n => Yt n m) Hi ltac:(intros; apply harm_fourier_Yt; lia)) as W.
  change (fun n => cvalue (vget cf0 vec (n - Z.abs m))) with (fun n => VC ((fun n => vget cf0 vec (n - Z.abs m)) n)) in W.
  rewrite entry_of_eq in W by (intros; apply harm_fourier_Yt; lia).
  replace (Fcol (map cvalue vec) nmax m (freqc nrows i)) with (FcolV (fun n => vget cf0 vec (n - Z.abs m)) nmax m (freqc nrows i)); [exact W|].
  unfold FcolV, Fcol. f_equal. apply sumC_ext. intros n Hn. rewrite (vget_map _ cf0) by lia. reflexivity.
Qed.
Print Assumptions C70_ispht_vs_exact.

(** ** How large the bounds are: for data of size 1 and exact powers of 1j, below 1e-6 up
    to degree 50 and below 0.1 at the largest degree. *)
Theorem C69_bound_size : forall n, 0 <= n -> (n <= 50 -> (sum_tol n 1 0 <= / 10 ^ 6)%R) /\ (n <= 1022 -> (sum_tol n 1 0 <= / 10)%R).
Proof.
  intros n Hn0. split; intros Hn1; assert (Hn : 0 <= n <= 1022) by lia.
  - rewrite <- sum_tol_eq. unfold eacc, acc. pose proof (ymax_14 n ltac:(lia)) as [Y0 Y1].
    assert (N : (0 <= IZR n <= 50)%R) by (split; apply IZR_le; lia). pose proof dmin_small as [D0 D1]. rewrite uu_val.
    assert (P : ((IZR n + 1) ^ 3 <= 51 ^ 3)%R) by (apply pow_incr; lra). assert (P0 : (0 <= (IZR n + 1) ^ 3)%R) by (apply pow_le; lra).
    assert (Q : (0 <= 1 * (48 * (IZR n + 1) ^ 3 * / 9007199254740992 + 12 * 0) + 16 * dmin <= / 10 ^ 9)%R) by lra.
    apply Rle_trans with (51 * 15 * / 10 ^ 9)%R; [|lra]. apply Rmult_le_compat; [|lra| |lra]; [apply Rmult_le_pos; lra|apply Rmult_le_compat; lra].
  - rewrite <- sum_tol_eq. unfold eacc, acc. pose proof (ymax_14 n ltac:(lia)) as [Y0 Y1].
    assert (N : (0 <= IZR n <= 1022)%R) by (split; apply IZR_le; lia). pose proof dmin_small as [D0 D1]. rewrite uu_val.
    assert (P : ((IZR n + 1) ^ 3 <= 1023 ^ 3)%R) by (apply pow_incr; lra). assert (P0 : (0 <= (IZR n + 1) ^ 3)%R) by (apply pow_le; lra).
    assert (Q : (0 <= 1 * (48 * (IZR n + 1) ^ 3 * / 9007199254740992 + 12 * 0) + 16 * dmin <= 6 / 10 ^ 6)%R) by lra.
    apply Rle_trans with (1023 * 15 * (6 / 10 ^ 6))%R; [|lra]. apply Rmult_le_compat; [|lra| |lra]; [apply Rmult_le_pos; lra|apply Rmult_le_compat; lra].
Qed.
Print Assumptions C69_bound_size.

(** ** The hypotheses are met *)
Lemma one_double : double (fofZ 1) /\ finite (fofZ 1) /\ value (fofZ 1) = 1%R.
Proof. destruct (fofZ_small 1 eq_refl) as (D & F & E). split; [exact D|]. split; [apply fin_finite; exact F|exact E]. Qed.
Lemma zero_double : double (fofZ 0) /\ finite (fofZ 0) /\ value (fofZ 0) = 0%R.
Proof. split; [reflexivity|]. split; [exact I|reflexivity]. Qed.
(** powers of 1j *)
Definition ex_ipw (m : Z) : cf :=
  match m mod 4 with 0 => (fofZ 1, fofZ 0) | 1 => (fofZ 0, fofZ 1) | 2 => (SFopp (fofZ 1), fofZ 0) | _ => (fofZ 0, SFopp (fofZ 1)) end.
Example C69_powers_nonvacuous : forall m, within 0 (ex_ipw m) (i_pow m).
Proof.
  intros m. rewrite i_pow_eq, ipow_val. unfold ex_ipw. destruct one_double as (D1 & F1 & V1). destruct zero_double as (D0 & F0 & V0).
  destruct (opp_f (fofZ 1) D1 (finite_fin _ F1)) as (D2 & F2 & V2). apply fin_finite in F2.
  destruct (m mod 4) as [|[[p|p|]|[p|p|]|]|p]; unfold within, RtoC, Ci; cbn [fst snd]; rewrite ?V2, ?V1, ?V0; repeat (split; [assumption|]);
    (split; [match goal with |- (Rabs ?x <= 0)%R => replace x with 0%R by ring; rewrite Rabs_R0; apply Rle_refl end|]); repeat (split; [assumption|]);
    match goal with |- (Rabs ?x <= 0)%R => replace x with 0%R by ring; rewrite Rabs_R0; apply Rle_refl end.
Qed.
(** data equal to 1 everywhere, at the largest degree *)
Example C69_nonvacuous : exists c, f_fc_to_sc (lsum cf0) ex_ipw (fun _ => vmake 1023 (fun _ => (fofZ 1, fofZ 0))) 1022 1022 = Ok c /\
  finite (fst (vget cf0 c (pos 1022 1022 (-1022)))).
Proof.
  destruct one_double as (D1 & F1 & V1). destruct zero_double as (D0 & F0 & V0).
  assert (HS : forall l, sums l (lsum cf0 l)).
  { assert (H : forall l pre acc, sums pre acc -> sums (pre ++ l) (lsum acc l)).
    { induction l as [|x l IH]; intros pre acc Hp; cbn [lsum]; [now rewrite app_nil_r|].
      replace (pre ++ x :: l) with ((pre ++ [x]) ++ l) by (rewrite <- app_assoc; reflexivity).
      apply IH. apply (sums_add pre [x] (pre ++ [x]) acc x); auto. apply sums_one. }
    intros l. exact (H l [] cf0 sums_nil). }
  destruct (C69_spht_accurate (lsum cf0) ex_ipw (fun _ => vmake 1023 (fun _ => (fofZ 1, fofZ 0))) 1022 1022 1 0 HS) as (c & E & _ & A); try lia.
  - split; [lra|]. apply pow_R1_Rle. lra.
  - lra.
  - intros m _. apply C69_powers_nonvacuous.
  - intros m _. split; [apply zlen_vmake'; lia|]. intros k Hk. rewrite vget_vmake by lia. unfold bounded. cbn [fst snd]. rewrite V1, V0, Rabs_R1, Rabs_R0.
    repeat (split; [assumption|]). split; [lra|]. repeat (split; [assumption|]). lra.
  - exists c. split; [exact E|]. assert (M : is_mode 1022 1022 1022 (-1022)) by (unfold is_mode; lia).
    destruct (A 1022 (-1022) (Yt 1022 (-1022)) M (harm_fourier_Yt 1022 (-1022) ltac:(lia))) as (_ & F & _). exact F.
Qed.
Example C70_nonvacuous : exists F, f_fcvec_m_sc (ex_ipw 3) (vmake 8 (fun _ => (fofZ 1, fofZ 1))) 3 10 24 = Ok F /\ finite (snd (vget cf0 F 23)).
Proof.
  destruct one_double as (D1 & F1 & V1).
  destruct (C70_ispht_vs_exact (ex_ipw 3) (vmake 8 (fun _ => (fofZ 1, fofZ 1))) 3 10 24 1 0) as (F & G & E & _ & _ & _ & A); try lia.
  - reflexivity.
  - split; [lra|]. apply pow_R1_Rle. lra.
  - lra.
  - apply C69_powers_nonvacuous.
  - intros i Hi. rewrite vget_vmake by lia. unfold bounded. cbn [fst snd]. rewrite V1, Rabs_R1. repeat (split; [assumption|]). split; [lra|]. repeat (split; [assumption|]). lra.
  - exists F. split; [exact E|]. destruct (A 23 ltac:(lia)) as (_ & _ & _ & _ & F2 & _). exact F2.
Qed.
(** a Fourier array whose exact data the doubles represent exactly (delta = 0) *)
Definition ex_fourier : mat RN := mmake RN 4 1 (fun p q => if p =? 1 then (0, - / (4 * PI))%R else RtoC 0).
Example C69_exact_nonvacuous : mt_nr RN ex_fourier = 2 * 2 /\ 0 < mt_nc RN ex_fourier /\
  (forall m, Z.abs m <= 0 -> cget ex_fourier 2 (m mod mt_nc RN ex_fourier) = RtoC 0) /\
  close_h ex_fourier 0 0 1 0 (fun _ => [(fofZ 1, fofZ 0)]).
Proof.
  destruct one_double as (D1 & F1 & V1). destruct zero_double as (D0 & F0 & V0). pose proof PI_RGT_0 as HP.
  assert (G : forall i, 0 <= i < 4 -> cget ex_fourier i 0 = if i =? 1 then (0, - / (4 * PI))%R else RtoC 0).
  { intros i Hi. unfold ex_fourier. rewrite cget_mmake by lia. reflexivity. }
  split; [reflexivity|]. split; [reflexivity|].
  assert (Z2 : forall m, Z.abs m <= 0 -> cget ex_fourier 2 (m mod mt_nc RN ex_fourier) = RtoC 0).
  { intros m Hm. assert (m = 0) by lia. subst m. change (0 mod mt_nc RN ex_fourier) with 0. rewrite G by lia. reflexivity. }
  split; [exact Z2|]. intros m Hm. assert (m = 0) by lia. subst m. split; [reflexivity|].
  exists (vmake (0 + 1) (hconv 2 (colf ex_fourier 0))). split.
  { apply exact_h_eq; [reflexivity|lia|lia|change (mt_nc RN ex_fourier) with 1; lia|]. unfold colf. change (2 mod mt_nr RN ex_fourier) with 2. apply Z2. lia. }
  assert (H0 : hconv 2 (colf ex_fourier 0) 0 = RtoC 1).
  { unfold hconv. change (- (2)) with (-2). rewrite (sumC_single _ _ 1) by (first [lia|intros k Hk Nk; unfold colf; change (mt_nr RN ex_fourier) with 4; change (0 mod mt_nc RN ex_fourier) with 0;
      rewrite G by (pose proof (Z.mod_pos_bound k 4 ltac:(lia)); lia); destruct (Z.eqb_spec (k mod 4) 1); [lia|ring]]).
    unfold colf. change (1 mod mt_nr RN ex_fourier) with 1. change (0 mod mt_nc RN ex_fourier) with 0. rewrite G by lia. change (1 =? 1) with true. cbv iota. unfold sig. change (Z.odd (0 - 1)) with true. cbv iota.
    change (0 - 1) with (-1). unfold Cdiv, Cinv, Cmult, Copp, Ci, RtoC. cbn [fst snd]. apply injective_projections; cbn [fst snd]; field; lra. }
  intros k Hk. assert (k = 0) by lia. subst k. rewrite vget_vmake by lia. rewrite H0. change (vget cf0 [(fofZ 1, fofZ 0)] 0) with (fofZ 1, fofZ 0). unfold bounded, within, RtoC. cbn [fst snd]. rewrite V1, V0.
  rewrite !Rminus_eq_0, Rabs_R1, Rabs_R0. split; repeat (split; [first [assumption|lra]|]); lra.
Qed.
