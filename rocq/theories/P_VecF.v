(** * P_VecF: C83, the normalisation of the vector transforms in double precision. *)
From Coq Require Import ZArith List Bool SpecFloat Reals Lia Lra.
From Coquelicot Require Import Coquelicot.
From Flocq Require Import Core.Core IEEE754.BinarySingleNaN.
From Verif Require Import Exact Py PyFacts Num FloatN FloatText MCoefs SpecCoefs Obs CoefsFacts CoefsFacts2 CoefsFacts3 Sums Dft MPysphi PysphiFacts MTrans TransFacts3 P_Coefs
  MDouble FlFacts SeedReal SeedFl SeedFl2 DoubleFacts P_Double FlSigned SbesselFTerm SbesselFRel TabFl P_Table SumFl SumFl2 P_Sums MKissF MTransF P_KissF MOpsF OpsF MVecF.
Import ListNotations.
Open Scope list_scope.
Open Scope Z_scope.

(** ** Specification *)

(** the normalisation factor sqrt (n (n + 1)) *)
Definition harm_norm (n : Z) : R := sqrt (IZR n * (IZR n + 1)).
(** every coefficient is a pair of finite doubles *)
Definition all_finite (c : scoefs FN) : Prop := forall n m x, reads FN c n m x -> double (fst x) /\ finite (fst x) /\ double (snd x) /\ finite (snd x).
(** y is x / sqrt (n (n + 1)) within five units in the last place, or half a unit above underflow;
    zero for n = 0 *)
Definition normalised (n : Z) (x y : f64) : Prop := double y /\ finite y /\
  (n = 0 -> value y = 0%R) /\
  (1 <= n -> (Rabs (value y - value x / harm_norm n) <= 5 / 2 ^ 53 * (Rabs (value x) / harm_norm n) + / 2 ^ 1074)%R).

(** ** Connections *)
Lemma norm_pos n : 1 <= n -> (1 <= harm_norm n)%R.
Proof.
  intros Hn. unfold harm_norm. rewrite <- sqrt_1 at 1. apply sqrt_le_1_alt. assert (1 <= IZR n)%R by (apply IZR_le; lia). 
  replace 1%R with (1 * 1)%R at 1 by ring. apply Rmult_le_compat; lra.
Qed.
Lemma norm_le n : 1 <= n < 2 ^ 26 -> (harm_norm n <= 2 ^ 27)%R.
Proof.
  intros Hn. unfold harm_norm. rewrite <- (sqrt_pow2 (2 ^ 27)) by (apply pow_le; lra). apply sqrt_le_1_alt.
  assert (1 <= IZR n <= 67108864)%R by (split; apply IZR_le; lia).
  replace ((2 ^ 27) ^ 2)%R with (2 ^ 27 * 2 ^ 27)%R by ring. apply Rmult_le_compat; lra.
Qed.
Lemma f_norm_ok n : 1 <= n < 2 ^ 26 -> dbl (f_norm n) /\ fin (f_norm n) /\ rel 3 (V (f_norm n)) (/ harm_norm n).
Proof.
  intros Hn. unfold f_norm. rewrite fadd_int by lia. rewrite fmul_int by nia.
  destruct (fofZ_pos (n * (n + 1)) ltac:(nia)) as [P E]. pose proof (norm_pos n ltac:(lia)) as N1. pose proof (norm_le n Hn) as N2.
  assert (S : sqrt (V (fofZ (n * (n + 1)))) = harm_norm n) by (rewrite E, mult_IZR, plus_IZR; reflexivity).
  assert (T1 : (tiny <= 1)%R) by (change 1%R with (bpow radix2 0); apply bpow_le; lia).
  assert (T2 : (tiny <= / 2 ^ 30)%R) by (replace (/ 2 ^ 30)%R with (bpow radix2 (-30)) by (cbn; lra); apply bpow_le; lia).
  assert (R1 : rel 2 (rnd (harm_norm n)) (harm_norm n)).
  { apply rel_weaken with (0 + 101 / 100)%R; [lra|]. apply rel_rnd; [lra|apply rel_refl; lra|lra]. }
  pose proof (rel_bounds 2 _ _ ltac:(lra) R1) as Q1.
  destruct (fsqrt_pos (fofZ (n * (n + 1))) P) as [P2 E2]; [rewrite S; lra|]. rewrite S in E2.
  assert (R0 : rel (101 / 100) (rnd (harm_norm n)) (harm_norm n)).
  { apply rel_weaken with (0 + 101 / 100)%R; [lra|]. apply rel_rnd; [lra|apply rel_refl; lra|lra]. }
  pose proof (rel_inv (101 / 100) _ _ ltac:(lra) R0) as R2. pose proof (rel_bounds (101 / 100 + / 100) _ _ ltac:(lra) R2) as Q2.
  assert (I1 : (/ 2 ^ 27 <= / harm_norm n <= 1)%R) by (split; [apply Rinv_le_contravar; lra|rewrite <- Rinv_1; apply Rinv_le_contravar; lra]).
  assert (W1 : (tiny <= / rnd (harm_norm n))%R) by lra.
  pose proof (rel_rnd (101 / 100 + / 100) _ _ ltac:(lra) R2 W1) as R3. pose proof (rel_bounds (101 / 100 + / 100 + 101 / 100) _ _ ltac:(lra) R3) as Q3.
  destruct (fofZ_pos 1 ltac:(lia)) as [P1 E1].
  assert (M : (2 < maxb)%R) by (change 2%R with (bpow radix2 1); apply bpow_lt; lia).
  destruct (fdiv_pos (fofZ 1) _ P1 P2) as [P3 E3].
  { rewrite E1, E2. unfold Rdiv. rewrite Rmult_1_l. assert (0 < / 2 ^ 27)%R by (apply Rinv_0_lt_compat, pow_lt; lra). lra. }
  rewrite E1, E2 in E3. unfold Rdiv in E3. rewrite Rmult_1_l in E3.
  split; [destruct P3 as (mm & ee & -> & Hb); exact Hb|]. split; [apply finite_fin, fpos_finite, P3|]. rewrite E3. apply rel_weaken with (101 / 100 + / 100 + 101 / 100)%R; [lra|exact R3].
Qed.
Lemma f_nvec_ok nmax : 0 <= nmax -> f_nvec nmax = Ok (vmake (nmax + 1) (fun n => if n =? 0 then cf0 else cfre (f_norm n))).
Proof.
  intros H. unfold f_nvec. rewrite np_zeros_ok by lia. cbn [bind]. set (g := fun n => if n =? 0 then cf0 else cfre (f_norm n)).
  match goal with |- mfor ?l ?f ?s = _ =>
    destruct (mfor_inv (fun a v => v = vmake (nmax + 1) (fun i => if i <? a then g i else cf0)) 1 (nmax + 1) f s) as (v & E & ->) end.
  - lia.
  - apply vmake_ext. intros i Hi. destruct (Z.ltb_spec i 1); [|reflexivity]. assert (i = 0) by lia. now subst.
  - intros i v Hi ->. exists (vmake (nmax + 1) (fun j => if j <? i + 1 then g j else cf0)). split; auto.
    rewrite py_set_vmake by lia. f_equal. apply vmake_ext. intros j Hj.
    destruct (Z.eqb_spec j i) as [->|].
    + destruct (Z.ltb_spec i (i + 1)); [|lia]. unfold g. destruct (Z.eqb_spec i 0); [lia|reflexivity].
    + destruct (Z.ltb_spec j i), (Z.ltb_spec j (i + 1)); try reflexivity; lia.
  - rewrite E. f_equal. apply vmake_ext. intros i Hi. destruct (Z.ltb_spec i (nmax + 1)); [reflexivity|lia].
Qed.
(** a product by the complex number (w, z) with z a zero *)
Lemma rmul_part x w z : dbl (fst x) -> fin (fst x) -> dbl (snd x) -> fin (snd x) -> dbl w -> fin w -> (0 <= V w <= 1)%R -> dbl z -> fin z -> V z = 0%R ->
  (dbl (fst (cfmul x (w, z))) /\ fin (fst (cfmul x (w, z))) /\ V (fst (cfmul x (w, z))) = rnd (V (fst x) * V w)) /\
  (dbl (snd (cfmul x (w, z))) /\ fin (snd (cfmul x (w, z))) /\ V (snd (cfmul x (w, z))) = rnd (V (snd x) * V w)).
Proof.
  destruct x as [a b]. cbn [fst snd]. intros Da Fa Db Fb Dw Fw Hw Dz Fz Ez. unfold cfmul. cbn [fst snd].
  assert (G : forall a, dbl a -> fin a -> dbl (fmul a w) /\ fin (fmul a w) /\ V (fmul a w) = rnd (V a * V w)).
  { intros y Dy Fy. pose proof (fmul_rnd y w Dy Dw Fy Fw) as R. destruct (is_rnd_fin _ _ R) as [F E]; [|split; [exact (is_rnd_dbl _ _ R)|auto]].
    apply Rle_lt_trans with (Rabs (V y)); [|apply fin_max; auto]. apply rnd_abs_le; [apply generic_format_abs, fin_fmt; auto|].
    rewrite Rabs_mult, (Rabs_pos_eq (V w)) by lra. rewrite <- (Rmult_1_r (Rabs (V y))) at 2. apply Rmult_le_compat_l; [apply Rabs_pos|lra]. }
  assert (Z : forall y, dbl y -> fin y -> dbl (fmul y z) /\ fin (fmul y z) /\ V (fmul y z) = 0%R) by (intros y Dy Fy; rewrite fmul_comm; apply zmul; auto).
  assert (K : forall y, dbl y -> fin y -> rnd (V y) = V y) by (intros y D F; apply rnd_fmt, fin_fmt; auto).
  destruct (G a Da Fa) as (D1 & F1 & E1). destruct (G b Db Fb) as (D2 & F2 & E2). destruct (Z a Da Fa) as (D3 & F3 & E3). destruct (Z b Db Fb) as (D4 & F4 & E4). split.
  - pose proof (fsub_rnd _ _ D1 D4 F1 F4) as R. rewrite E4, Rminus_0_r in R. destruct (is_rnd_fin _ _ R) as [F E]; [rewrite K by auto; apply fin_max; auto|].
    split; [exact (is_rnd_dbl _ _ R)|]. split; [exact F|]. rewrite E, K by auto. exact E1.
  - pose proof (fadd_rnd _ _ D3 D2 F3 F2) as R. rewrite E3, Rplus_0_l in R. destruct (is_rnd_fin _ _ R) as [F E]; [rewrite K by auto; apply fin_max; auto|].
    split; [exact (is_rnd_dbl _ _ R)|]. split; [exact F|]. rewrite E, K by auto. exact E2.
Qed.
Lemma dmin_2 : (dmin / 2 <= / 2 ^ 1074)%R.
Proof. change (-1074) with (- Z.of_nat 1074). rewrite bpow_neg. assert (0 < / 2 ^ 1074)%R by (apply Rinv_0_lt_compat, pow_lt; lra). lra. Qed.
Lemma part_near n x y : 1 <= n < 2 ^ 26 -> V y = rnd (V x * V (f_norm n)) ->
  (Rabs (V y - V x / harm_norm n) <= 5 / 2 ^ 53 * (Rabs (V x) / harm_norm n) + / 2 ^ 1074)%R.
Proof.
  intros Hn ->. destruct (f_norm_ok n Hn) as (_ & _ & R). pose proof R as [P R1]. pose proof (norm_pos n ltac:(lia)) as N1.
  set (w := V (f_norm n)) in *. set (a := V x). change (a / harm_norm n)%R with (a * / harm_norm n)%R. change (Rabs a / harm_norm n)%R with (Rabs a * / harm_norm n)%R. set (i := (/ harm_norm n)%R) in *. clearbody w a i.
  pose proof (rnd_abs_err (a * w)) as H. pose proof dmin_2 as D. pose proof (Rabs_pos a) as A. replace (5 / 2 ^ 53)%R with (5 * uu)%R by (rewrite uu_val; field).
  pose proof uu_pos as U. assert (U1 : (uu <= / 10)%R) by (rewrite uu_val; lra).
  assert (T : (Rabs (a * w - a * i) <= 3 * (uu * (Rabs a * i)))%R).
  { replace (a * w - a * i)%R with (a * (w - i))%R by ring. rewrite Rabs_mult. apply Rle_trans with (Rabs a * (3 * uu * i))%R; [apply Rmult_le_compat_l; auto|right; ring]. }
  assert (S : (0 <= uu * (Rabs a * i))%R) by (apply Rmult_le_pos; [lra|apply Rmult_le_pos; lra]).
  assert (M : (uu * Rabs (a * w) <= uu * (Rabs a * i) + uu * (3 * (uu * (Rabs a * i))))%R).
  { rewrite <- Rmult_plus_distr_l. apply Rmult_le_compat_l; [lra|]. replace (a * w)%R with (a * i + (a * w - a * i))%R by ring. eapply Rle_trans; [apply Rabs_triang|].
    rewrite Rabs_mult, (Rabs_pos_eq i) by lra. lra. }
  set (e := (uu * (Rabs a * i))%R) in *. assert (M2 : (uu * (3 * e) <= / 10 * (3 * e))%R) by (apply Rmult_le_compat_r; lra).
  replace (5 * uu * (Rabs a * i))%R with (5 * e)%R by (unfold e; ring).
  replace (rnd (a * w) - a * i)%R with ((rnd (a * w) - a * w) + (a * w - a * i))%R by ring. eapply Rle_trans; [apply Rabs_triang|]. lra.
Qed.

(** ** C83 *)
(** the vector of factors *)
Theorem C83_nvec_accurate : forall nmax, 0 <= nmax < 2 ^ 26 -> exists v, f_nvec nmax = Ok v /\ zlen v = nmax + 1 /\
  cvalue (vget cf0 v 0) = (0, 0)%R /\
  forall n, 1 <= n <= nmax -> within (3 / 2 ^ 53 / harm_norm n) (vget cf0 v n) (1 / harm_norm n, 0)%R.
Proof.
  intros nmax Hn. rewrite f_nvec_ok by lia. eexists. split; [reflexivity|]. split; [rewrite zlen_vmake; lia|]. destruct (fofZ_small 0 ltac:(lia)) as (D0 & F0 & E0). split.
  - rewrite vget_vmake by lia. cbn [Z.eqb]. unfold cvalue, cf0. cbn [fst snd]. now rewrite E0.
  - intros n H. rewrite vget_vmake by lia. destruct (Z.eqb_spec n 0); [lia|]. destruct (f_norm_ok n ltac:(lia)) as (D & F & [P R]). pose proof (norm_pos n ltac:(lia)).
    unfold within, cfre. cbn [fst snd]. split; [exact D|]. split; [apply fin_finite, F|]. split.
    { unfold Rdiv. rewrite Rmult_1_l. eapply Rle_trans; [exact R|]. rewrite uu_val. right. f_equal. lra. }
    split; [exact D0|]. split; [apply fin_finite, F0|]. change (value (fofZ 0)) with (V (fofZ 0)). rewrite E0, Rminus_0_r, Rabs_R0. unfold Rdiv. apply Rmult_le_pos; [lra|].
    left; apply Rinv_0_lt_compat; lra.
Qed.
Print Assumptions C83_nvec_accurate.

(** window by these factors, for every object with finite coefficients *)
Theorem C83_normalise_accurate : forall c : scoefs FN, valid FN c -> sc_nmax FN c < 2 ^ 26 -> all_finite c ->
  exists c', f_normalise c (sc_nmax FN c) = Ok c' /\ valid FN c' /\ sc_nmax FN c' = sc_nmax FN c /\ sc_mmax FN c' = sc_mmax FN c /\ all_finite c' /\
    forall n m x, reads FN c n m x -> exists y, reads FN c' n m y /\ normalised n (fst x) (fst y) /\ normalised n (snd x) (snd y).
Proof.
  intros c Hv HN Hf. pose proof Hv as Hw. apply valid_wf in Hw. pose proof Hw as [[Hg1 Hg2] _].
  set (N := sc_nmax FN c) in *. set (v := vmake (N + 1) (fun n => if n =? 0 then cf0 else cfre (f_norm n))).
  destruct (sc_window_ok FN c v Hw) as (c' & E & W & E1 & E2 & HV). { unfold v. rewrite zlen_vmake'; lia. }
  assert (Hv' : valid FN c') by now apply valid_wf.
  assert (Main : forall n m x, reads FN c n m x -> exists y, reads FN c' n m y /\ normalised n (fst x) (fst y) /\ normalised n (snd x) (snd y)).
  { intros n m x Hx. pose proof (Hf n m x Hx) as (D1 & F1 & D2 & F2). apply finite_fin in F1, F2. apply reads_inv in Hx; auto. destruct Hx as [Hm Ex].
    exists (cval FN c' n m). split; [apply reads_iff; auto; rewrite E1, E2; auto|]. rewrite (HV n m Hm), <- Ex.
    assert (Hn : 0 <= n <= N) by (destruct Hm as (? & ? & ?); lia).
    change (vget (c0 FN) v n) with (vget cf0 v n). unfold v. rewrite vget_vmake by lia.
    destruct (fofZ_small 0 ltac:(lia)) as (D0 & F0 & E0).
    destruct (Z.eqb_spec n 0) as [->|Hne].
    - destruct (rmul_part x (fofZ 0) (fofZ 0)) as [(A1 & A2 & A3) (B1 & B2 & B3)]; auto; [lra|]. rewrite E0, Rmult_0_r, rnd_0 in A3, B3.
      split; (split; [assumption|]; split; [now apply fin_finite|]; split; [intros _; assumption|lia]).
    - destruct (f_norm_ok n ltac:(lia)) as (D & F & R). pose proof (rel_bounds 3 _ _ ltac:(lra) R) as Q. pose proof (norm_pos n ltac:(lia)) as N1.
      assert (N2 : (1 <= harm_norm n)%R) by lra. assert (I1 : (0 < / harm_norm n)%R) by (apply Rinv_0_lt_compat; lra).
      assert (I2 : (/ harm_norm n <= / (101 / 100))%R).
      { apply Rinv_le_contravar; [lra|]. unfold harm_norm. rewrite <- (sqrt_pow2 (101 / 100)) by lra. apply sqrt_le_1_alt. assert (1 <= IZR n)%R by (apply IZR_le; lia).
        apply Rle_trans with (1 * 2)%R; [lra|]. apply Rmult_le_compat; lra. }
      destruct (rmul_part x (f_norm n) (fofZ 0)) as [(A1 & A2 & A3) (B1 & B2 & B3)]; auto; [lra|].
      split; (split; [assumption|]; split; [now apply fin_finite|]; split; [lia|intros _; apply part_near; [lia|assumption]]). }
  exists c'. split; [unfold f_normalise; rewrite f_nvec_ok by lia; cbn [bind]; fold v; rewrite E; reflexivity|].
  split; [exact Hv'|]. split; [exact E1|]. split; [exact E2|]. split; [|exact Main].
  intros n m y Hy. pose proof (reads_inv _ _ _ _ _ Hv' Hy) as [Hm _]. rewrite E1, E2 in Hm.
  destruct (Main n m (cval FN c n m)) as (y' & Hy' & (A1 & A2 & _) & (B1 & B2 & _)); [apply reads_iff; auto|].
  unfold reads in Hy, Hy'. rewrite Hy' in Hy. apply Ok_inj in Hy. assert (y' = y) by congruence. subst. auto.
Qed.
Print Assumptions C83_normalise_accurate.

(** ** The hypotheses are met: degree 2, order 1 *)
Definition ex_vec : list cf := vmake 7 (fun i => (fofZ (i + 1), fofZ (- i))).
Definition ex_obj : scoefs FN := mkSC FN ex_vec 2 1.
Example C83_nonvacuous : exists c' y, f_normalise ex_obj 2 = Ok c' /\ reads FN c' 2 (-1) y /\
  (Rabs (value (fst y) - 5 / sqrt 6) <= 5 / 2 ^ 53 * (5 / sqrt 6) + / 2 ^ 1074)%R.
Proof.
  assert (Hv : valid FN ex_obj) by (split; [cbn; lia|reflexivity]).
  destruct (C83_normalise_accurate ex_obj Hv) as (c' & E & _ & _ & _ & _ & H).
  - cbn. lia.
  - intros n m x Hx. apply reads_inv in Hx; auto. destruct Hx as [Hm ->]. change (is_mode 2 1 n m) in Hm. change (cval FN ex_obj n m) with (vget cf0 ex_vec (cstart 2 m + n - Z.abs m)).
    assert (Hi : 0 <= cstart 2 m + n - Z.abs m < 7).
    { destruct (cstart_range 2 1 m) as [R1 R2]; [unfold good_size; lia|destruct Hm as (? & ? & ?); lia|]. destruct Hm as (? & ? & ?). change (ncoef 2 1) with 7 in R2. lia. }
    set (k := cstart 2 m + n - Z.abs m) in *. clearbody k. unfold ex_vec. rewrite vget_vmake by lia. cbn [fst snd].
    destruct (fofZ_small (k + 1)) as (D1 & F1 & _); [lia|]. destruct (fofZ_small (- k)) as (D2 & F2 & _); [lia|]. auto 10 using fin_finite.
  - exists c'. destruct (H 2 (-1) (fofZ 5, fofZ (-4))) as (y & Hy & (_ & _ & _ & N) & _); [reflexivity|]. exists y. split; [exact E|]. split; [exact Hy|].
    specialize (N ltac:(lia)). cbn [fst] in N. destruct (fofZ_small 5) as (_ & _ & E5); [lia|]. change (value (fofZ 5)) with (V (fofZ 5)) in N. rewrite E5, (Rabs_pos_eq 5) in N by lra.
    unfold harm_norm in N. replace (2 * (2 + 1))%R with 6%R in N by lra. exact N.
Qed.
