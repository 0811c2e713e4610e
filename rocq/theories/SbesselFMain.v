(** * SbesselFMain: the whole of sbesselj in double precision, 2^-400 <= x <= 1. *)
From Coq Require Import ZArith List Bool SpecFloat Reals Lia Lra Psatz.
From Flocq Require Import Core.Core IEEE754.BinarySingleNaN.
From Flocq Require Import Relative.
From Verif Require Import Py PyFacts Num FloatN FloatText FileFacts2 MPysphi MDouble FlFacts SeedFl SeedFl2 FlSigned MSbesselF SbesselFTerm SbesselFRel SbesselFLoop SbesselFAcc.
From Verif Require Import CoefsFacts PysphiFacts SpecBessel Bessel Bessel2 SbesselFacts SbesselFacts2.
Open Scope R_scope.
#[local] Existing Instance FloatText.prec53.
#[local] Existing Instance FloatText.pe53.

Lemma f_loop_more py k l z n u v w W : (k <= l)%nat -> f_loop py k z n u v w = Ok W -> f_loop py l z n u v w = Ok W.
Proof.
  intros H. induction H as [|l H IH]; auto. intros E. rewrite f_loop_mono; [auto|]. rewrite IH by auto. discriminate.
Qed.

Notation z0 := (fofZ 0).
Section Main.
Variables (sn cs sq : f64 -> f64) (py : bool) (x : f64).
Let X := V x.
Hypothesis Px : fpos x.
Hypothesis X0 : bpow radix2 (-400) <= X.
Hypothesis X1 : X <= 1.
Hypothesis Hs : relf 2 (sn x) (sin X).
Hypothesis Hc : relf 2 (cs x) (cos X).
Hypothesis Hz : relf 2 (sq x) (X ^ 2).

Lemma xp : 0 < X. Proof. exact (fpos_gt _ Px). Qed.
Lemma xdiv_x a : xdiv py a x = Ok (fdiv a x).
Proof. clear - Px. unfold xdiv. destruct Px as (m & e & -> & _). cbn [is_zero]. rewrite andb_false_r. reflexivity. Qed.
Lemma xsq_x : xsq sq py x = Ok (sq x).
Proof.
  clear - Hz. unfold xsq. destruct Hz as (_ & F & _). unfold fin in F. destruct (sq x); cbn [is_inf is_finite_SF] in *; try discriminate; cbn [andb]; rewrite andb_false_r; reflexivity.
Qed.
Definition o0 : f64 := fdiv (sn x) x.
Definition j1f : f64 := fsub (fdiv (sn x) (sq x)) (fdiv (cs x) x).
Lemma Xinv : 1 <= / X <= bpow radix2 400.
Proof.
  pose proof xp. split; [rewrite <- Rinv_1; apply Rinv_le; lra|]. change 400%Z with (- (-400))%Z. rewrite bpow_opp. apply Rinv_le; [apply bpow_gt_0|exact X0].
Qed.
Lemma o0_rel : relf (304 / 100) o0 (sph_j 0 X).
Proof.
  pose proof xp as P. rewrite sph_j_0 by lra. eapply relf_weaken; [|apply (relf_div 2 0 _ _ _ _ ltac:(lra) ltac:(lra) Hs (Rx x Px))]; [lra|].
  fold X. rewrite <- sph_j_0 by lra. pose proof (j0_bounds X P X1). split; [apply Rle_trans with (bpow radix2 (-1)); [apply bpow_le; lia|change (bpow radix2 (-1)) with (/ 2); lra]|].
  apply Rle_trans with (bpow radix2 0); [cbn [bpow]; lra|apply bpow_le; lia].
Qed.
Lemma o0_abs : dbl (SFabs o0) /\ fin (SFabs o0) /\ 83 / 100 <= V (SFabs o0).
Proof.
  destruct o0_rel as (D & F & R). destruct (SFabs_V _ D F) as (D' & F' & E). repeat split; auto. rewrite E. apply rel_bounds in R; [|lra].
  pose proof (j0_bounds X xp X1). rewrite Rabs_pos_eq; lra.
Qed.
Lemma s_z : relf (504 / 100) (fdiv (sn x) (sq x)) (sin X / X ^ 2).
Proof.
  pose proof xp as P. eapply relf_weaken; [|apply (relf_div 2 2 _ _ _ _ ltac:(lra) ltac:(lra) Hs Hz)]; [lra|].
  pose proof (j0_bounds X P X1) as B. rewrite sph_j_0 in B by lra. pose proof Xinv as I.
  replace (sin X / X ^ 2) with (sin X / X * / X) by (field; lra). split.
  - apply Rle_trans with (bpow radix2 (-1)); [apply bpow_le; lia|change (bpow radix2 (-1)) with (/ 2)]. nra.
  - apply Rle_trans with (bpow radix2 400); [nra|apply bpow_le; lia].
Qed.
Lemma cosb : / 2 <= cos X <= 1.
Proof.
  pose proof xp as P. split; [|apply COS_bound]. pose proof PI2_3_2 as P2. pose proof (cos_bound X 0 ltac:(lra) ltac:(lra)) as C.
  unfold cos_approx, cos_term in C. cbn in C. nra.
Qed.
Lemma c_x : relf (304 / 100) (fdiv (cs x) x) (cos X / X).
Proof.
  pose proof xp as P. eapply relf_weaken; [|apply (relf_div 2 0 _ _ _ _ ltac:(lra) ltac:(lra) Hc (Rx x Px))]; [lra|]. fold X.
  pose proof cosb as B. pose proof Xinv as I. unfold Rdiv. split.
  - apply Rle_trans with (bpow radix2 (-1)); [apply bpow_le; lia|change (bpow radix2 (-1)) with (/ 2)]. nra.
  - apply Rle_trans with (bpow radix2 400); [nra|apply bpow_le; lia].
Qed.
Lemma j1_fin : dbl j1f /\ fin j1f /\ V j1f = rnd (V (fdiv (sn x) (sq x)) - V (fdiv (cs x) x)).
Proof.
  pose proof xp as P. destruct s_z as (D1 & F1 & R1). destruct c_x as (D2 & F2 & R2). pose proof (fsub_rnd _ _ D1 D2 F1 F2) as R. fold j1f in R.
  apply rel_bounds in R1; [|lra]. apply rel_bounds in R2; [|lra]. pose proof Xinv as I. pose proof cosb as C.
  pose proof (j0_bounds X P X1) as B. rewrite sph_j_0 in B by lra. 
  assert (E1 : sin X / X ^ 2 = sin X / X * / X) by (field; lra). assert (E2 : cos X / X = cos X * / X) by (field; lra).
  assert (Y1 : 0 <= sin X / X ^ 2 <= bpow radix2 400) by (rewrite E1; nra).
  assert (Y2 : 0 <= cos X / X <= bpow radix2 400) by (rewrite E2; nra).
  assert (bpow radix2 400 * 2 <= bpow radix2 1023) by (replace 2 with (bpow radix2 1) by (cbn; lra); rewrite <- bpow_plus; apply bpow_le; lia).
  destruct (is_rnd_fin _ _ R) as [F E]; [apply rnd_lt; apply Rabs_le; lra|]. split; [exact (is_rnd_dbl _ _ R)|]. auto.
Qed.
Lemma j1_test : bpow radix2 (-46) <= X -> SFleb (SFabs j1f) (SFabs o0) = true.
Proof.
  intros HX. pose proof xp as P. destruct j1_fin as (D & F & E). destruct (SFabs_V _ D F) as (D' & F' & E'). destruct o0_abs as (Do & Fo & Bo).
  rewrite (SFleb_V _ _ D' Do F' Fo). apply Rle_bool_true. rewrite E', E. apply Rle_trans with (/ 2); [|lra].
  apply rnd_abs_le; [change (/ 2) with (bpow radix2 (-1)); apply fmt_bpow; lia|].
  destruct s_z as (_ & _ & (_ & R1)). destruct c_x as (_ & _ & (_ & R2)). pose proof cosb as C.
  pose proof (j0_bounds X P X1) as B. rewrite sph_j_0 in B by lra.
  assert (I : / X <= bpow radix2 46) by (change 46%Z with (- (-46))%Z; rewrite bpow_opp; apply Rinv_le; [apply bpow_gt_0|exact HX]).
  pose proof Xinv as [I1 _]. pose proof uu_pos as U. assert (UI : uu * / X <= / 128).
  { apply Rle_trans with (bpow radix2 (-53) * bpow radix2 46); [apply Rmult_le_compat; try lra; right; rewrite uu_val; cbn; lra|]. rewrite <- bpow_plus. cbn. lra. }
  assert (J1 : sin X / X ^ 2 - cos X / X = sph_j 1 X) by (rewrite sph_j_1 by lra; field; lra).
  pose proof (j_S X P X1 0) as JS. pose proof (rh_le X P X1 1 ltac:(lia)) as R3. pose proof (rh_pos X P X1 1 ltac:(lia)) as R4. pose proof (j0_bounds X P X1) as B'.
  assert (JB : 0 <= sph_j 1 X <= 2 / 5) by (rewrite JS; split; nra).
  assert (E1 : sin X / X ^ 2 = sin X / X * / X) by (field; lra). assert (E2 : cos X / X = cos X * / X) by (field; lra).
  assert (Q1 : uu * (sin X / X ^ 2) <= / 128) by (rewrite E1; nra).
  assert (Q2 : uu * (cos X / X) <= / 128) by (rewrite E2; nra).
  apply Rabs_le_inv in R1. apply Rabs_le_inv in R2. apply Rabs_le. split; nra.
Qed.

(** ** The array *)
Variable N : Z.
Hypothesis HN : (2 <= N <= 2 ^ 23)%Z.
Let nmax := (N - 1)%Z.
Definition Lk (k : Z) : R := if (k =? nmax)%Z then 62 else 9.
Lemma Lk_bounds k : 0 <= Lk k <= 62. Proof. unfold Lk. destruct (k =? nmax)%Z; lra. Qed.
Definition dinv (i : Z) (out : list f64) : Prop :=
  zlen out = N /\ vget z0 out 0 = o0 /\ forall k, (i < k <= nmax)%Z -> relf (Lk k) (vget z0 out k) (rh X (Z.to_nat k)).
Lemma v_init : relf (101 / 100) (fdiv x (fadd (fmul (fofZ 2) (fofZ nmax)) (fofZ 1))) (X / (2 * INR (Z.to_nat nmax) + 1)).
Proof.
  pose proof xp as P. rewrite (fmul_int 2 nmax), (fadd_int (2 * nmax) 1) by (unfold nmax in *; lia).
  assert (Em : IZR (2 * nmax + 1) = 2 * INR (Z.to_nat nmax) + 1) by (rewrite INR_IZR_INZ, Z2Nat.id, plus_IZR, mult_IZR by (unfold nmax in *; lia); reflexivity). rewrite <- Em.
  destruct (Rx x Px) as (Dx & Fx & _). destruct (fofZ_small (2 * nmax + 1) ltac:(unfold nmax in *; lia)) as (Dk & Fk & Vk).
  assert (Kp : 0 < IZR (2 * nmax + 1)) by (apply IZR_lt; unfold nmax in *; lia).
  pose proof (fdiv_rnd x (fofZ (2 * nmax + 1)) Dx Dk Fx Fk ltac:(rewrite Vk; lra)) as R. rewrite Vk in R.
  eapply relf_weaken; [|apply (relf_rnd 0 _ _ _ ltac:(lra) R (rel_refl _ (Rdiv_lt_0_compat _ _ P Kp)))]; [lra|]. fold X.
  assert (B : 1 <= IZR (2 * nmax + 1) <= bpow radix2 25) by (split; [apply IZR_le; unfold nmax in *; lia|change (bpow radix2 25) with (IZR (2 ^ 25)); apply IZR_le; unfold nmax in *; lia]).
  split.
  - apply Rle_trans with (bpow radix2 (-400) * bpow radix2 (-25)); [rewrite <- bpow_plus; apply bpow_le; lia|]. apply Rmult_le_compat; [apply bpow_ge_0|apply bpow_ge_0|exact X0|].
    change (-25)%Z with (- (25))%Z. rewrite bpow_opp. apply Rinv_le; lra.
  - apply Rle_trans with (bpow radix2 0); [|apply bpow_le; lia]. cbn [bpow]. apply Rmult_le_reg_r with (IZR (2 * nmax + 1)); [lra|]. unfold Rdiv. rewrite Rmult_assoc, Rinv_l by lra. lra.
Qed.

Definition pinv (i : Z) (out : list f64) : Prop :=
  zlen out = N /\ (forall k, (0 <= k <= i)%Z -> jerr (11 * IZR k + 4 + (if (k =? nmax)%Z then 53 else 0)) (vget z0 out k) (sph_j (Z.to_nat k) X)) /\
  (forall k, (i < k <= nmax)%Z -> relf (Lk k) (vget z0 out k) (rh X (Z.to_nat k))).
Lemma relf_jerr K L o j : 0 < j -> K <= L -> 0 <= K <= 10 ^ 9 -> relf K o j -> jerr L o j.
Proof.
  intros J KL HK (D & F & R). pose proof (rel_bounds _ _ _ HK R) as B. destruct R as [_ R]. repeat split; auto; [lra|]. pose proof dmin_small. pose proof uu_pos.
  assert (K * uu * j <= L * uu * j) by (apply Rmult_le_compat_r; [lra|apply Rmult_le_compat_r; lra]). lra.
Qed.
Lemma jerr_weaken K L o j : 0 < j -> K <= L -> jerr K o j -> jerr L o j.
Proof.
  intros J KL (D & F & P & R). repeat split; auto. pose proof uu_pos.
  assert (K * uu * j <= L * uu * j) by (apply Rmult_le_compat_r; [lra|apply Rmult_le_compat_r; lra]). lra.
Qed.
Lemma pinv_step i out : (0 <= i < nmax)%Z -> pinv i out -> pinv (i + 1) (vset out (i + 1) (fmul (vget z0 out (i + 1)) (vget z0 out i))).
Proof.
  intros Hi (Hl & Hp & Hr). pose proof xp as P. split; [rewrite zlen_vset; exact Hl|]. split.
  - intros k Hk. destruct (Z.eq_dec k (i + 1)) as [->|D].
    + rewrite vget_vset_eq by (unfold nmax in *; lia). specialize (Hr (i + 1)%Z ltac:(lia)). specialize (Hp i ltac:(lia)).
      replace (Z.to_nat (i + 1)) with (S (Z.to_nat i)) in * by lia. rewrite (j_S X P X1).
      pose proof (j_pos X P X1 (Z.to_nat i)) as Jp. pose proof (rh_pos X P X1 (S (Z.to_nat i)) ltac:(lia)) as R1. pose proof (rh_le X P X1 (S (Z.to_nat i)) ltac:(lia)) as R2.
      assert (0 <= IZR i <= 2 ^ 23) by (split; [apply IZR_le; lia|replace (2 ^ 23) with (IZR (2 ^ 23)) by (cbn; lra); apply IZR_le; unfold nmax in *; lia]).
      replace (i =? nmax)%Z with false in Hp by (symmetry; apply Z.eqb_neq; lia).
      apply (jerr_weaken (11 * IZR i + 4 + 0 + Lk (i + 1) + 11 / 10)); [apply Rmult_lt_0_compat; lra| |].
      * rewrite plus_IZR. unfold Lk. destruct (i + 1 =? nmax)%Z; lra.
      * apply fwd_step; auto; [lra|apply Lk_bounds].
    + rewrite vget_vset_ne by lia. apply Hp. lia.
  - intros k Hk. rewrite vget_vset_ne by lia. apply Hr. lia.
Qed.

Theorem sbesselj_main fuel : (20 <= fuel)%nat -> exists out, f_sbesselj sn cs sq py fuel x N = Ok out /\ zlen out = N /\ vget z0 out 0 = o0 /\
  ((SFleb (SFabs j1f) (SFabs o0) = true /\ pinv nmax out) \/
   (SFleb (SFabs j1f) (SFabs o0) = false /\ vget z0 out 1 = j1f)).
Proof.
  intros Hf. pose proof xp as P. unfold f_sbesselj. fold nmax. rewrite np_zeros_ok by lia. cbn [bind]. rewrite xsq_x. cbn [bind].
  assert (L0 : zlen (vmake N (fun _ => z0)) = N) by (rewrite zlen_vmake; lia).
  rewrite py_set_ok by lia. cbn [bind].
  assert (K1 : xdiv py x (fadd (fmul (fofZ 2) (fofZ nmax)) (fofZ 1)) = Ok (fdiv x (fadd (fmul (fofZ 2) (fofZ nmax)) (fofZ 1)))).
  { rewrite (fmul_int 2 nmax), (fadd_int (2 * nmax) 1) by (unfold nmax in *; lia). destruct (fofZ_pos (2 * nmax + 1) ltac:(unfold nmax in *; lia)) as [(m & e & E & _) _].
    unfold xdiv. rewrite E. cbn [is_zero]. rewrite andb_false_r. reflexivity. }
  rewrite K1. cbn [bind]. destruct v_init as (Dv & Fv & Rv). set (v := fdiv x (fadd (fmul (fofZ 2) (fofZ nmax)) (fofZ 1))) in *.
  set (n0 := Z.to_nat (nmax - 1)). assert (En : Z.to_nat nmax = S n0) by (unfold n0, nmax in *; lia). rewrite En in Rv.
  assert (Enz : nmax = Z.of_nat (S n0)) by (unfold n0, nmax in *; lia).
  destruct (loop_value x (sq x) n0 X0 X1 Hz ltac:(unfold nmax in *; lia) py v Dv Fv Rv) as (W & EW & RW & _).
  rewrite <- Enz in EW. rewrite (f_loop_more _ _ _ _ _ _ _ _ _ Hf EW). cbn [bind]. rewrite py_set_ok by (rewrite zlen_vset; unfold nmax in *; lia). cbn [bind].
  set (s1 := vset (vset (vmake N (fun _ => z0)) 0 (fdiv (sn x) x)) nmax W).
  destruct (mfor_down_inv dinv (nmax - 1) 0 (fun (n : Z) (out : list f64) => q <- xdiv py (fadd (fmul (fofZ 2) (fofZ n)) (fofZ 1)) x;; a <- py_get z0 out (n + 1);; py_set out n (fdiv (fofZ 1) (fsub q a))) s1) as (s2 & E2 & Hl & H0 & Hr).
  - unfold nmax in *; lia.
  - split; [unfold s1; rewrite !zlen_vset; exact L0|]. split; [unfold s1; rewrite vget_vset_ne, vget_vset_eq by (unfold nmax in *; lia); reflexivity|].
    intros k Hk. assert (k = nmax) as -> by lia. unfold s1. rewrite vget_vset_eq by (rewrite zlen_vset; unfold nmax in *; lia). unfold Lk. rewrite Z.eqb_refl.
    unfold rh. rewrite En. exact RW.
  - intros i s Hi (Hl & H0 & Hr). rewrite xdiv_x. cbn [bind]. rewrite py_get_ok by (unfold nmax in *; lia). cbn [bind]. rewrite py_set_ok by (unfold nmax in *; lia).
    eexists. split; [reflexivity|]. split; [rewrite zlen_vset; exact Hl|]. split; [rewrite vget_vset_ne by lia; exact H0|].
    intros k Hk. destruct (Z.eq_dec k i) as [->|D].
    + rewrite vget_vset_eq by (unfold nmax in *; lia). unfold Lk. replace (i =? nmax)%Z with false by (symmetry; apply Z.eqb_neq; lia).
      apply (back_step x Px X0 X1 i _ (Lk (i + 1))); [unfold nmax in *; lia|apply Lk_bounds|]. replace (S (Z.to_nat i)) with (Z.to_nat (i + 1)) by lia. apply Hr. lia.
    + rewrite vget_vset_ne by lia. apply Hr. lia.
  - rewrite E2. cbn [bind]. rewrite py_get_ok by lia. cbn [bind]. rewrite H0. fold j1f.
    destruct (SFleb (SFabs j1f) (SFabs o0)) eqn:ET.
    + rewrite py_get_ok by lia. cbn [bind]. rewrite py_set_ok by lia. cbn [bind].
      assert (P0 : pinv 0 s2).
      { split; [exact Hl|]. split; [|exact Hr]. intros k Hk. assert (k = 0)%Z as -> by lia. rewrite H0. replace (0 =? nmax)%Z with false by (symmetry; apply Z.eqb_neq; unfold nmax in *; lia).
        apply (relf_jerr (304 / 100)); [apply (j_pos X P X1)|lra|lra|exact o0_rel]. }
      pose proof (pinv_step 0 s2 ltac:(unfold nmax in *; lia) P0) as P1. change (0 + 1)%Z with 1%Z in P1. rewrite H0 in P1.
      destruct (mfor_inv (fun i s => pinv i s /\ vget z0 s 0 = o0) 1 nmax (fun (n : Z) (out : list f64) => a <- py_get z0 out (n + 1);; b <- py_get z0 out n;; py_set out (n + 1) (fmul a b)) (vset s2 1 (fmul (vget z0 s2 1) o0))) as (s3 & E3 & Hp & H3).
      * unfold nmax in *; lia.
      * split; [exact P1|]. rewrite vget_vset_ne by lia. exact H0.
      * intros i s Hi (Hp & Hz0). pose proof Hp as (Hls & _). rewrite !py_get_ok by (unfold nmax in *; lia). cbn [bind]. rewrite py_set_ok by (unfold nmax in *; lia).
        eexists. split; [reflexivity|]. split; [apply pinv_step; [unfold nmax in *; lia|exact Hp]|]. rewrite vget_vset_ne by lia. exact Hz0.
      * rewrite E3. exists s3. split; [reflexivity|]. split; [apply Hp|]. split; [exact H3|]. left. auto.
    + rewrite py_set_ok by lia. cbn [bind].
      destruct (mfor_inv (fun i s => zlen s = N /\ vget z0 s 0 = o0 /\ vget z0 s 1 = j1f) 1 nmax (fun (n : Z) (out : list f64) => a <- py_get z0 out (n + 1);; b <- py_get z0 out n;; py_set out (n + 1) (fmul a b)) (vset s2 1 j1f)) as (s3 & E3 & Hl3 & H3 & H4).
      * unfold nmax in *; lia.
      * split; [rewrite zlen_vset; exact Hl|]. split; [rewrite vget_vset_ne by lia; exact H0|]. rewrite vget_vset_eq by lia. reflexivity.
      * intros i s Hi (Hls & Hz0 & Hz1). rewrite !py_get_ok by (unfold nmax in *; lia). cbn [bind]. rewrite py_set_ok by (unfold nmax in *; lia).
        eexists. split; [reflexivity|]. split; [rewrite zlen_vset; exact Hls|]. rewrite !vget_vset_ne by lia. auto.
      * rewrite E3. exists s3. split; [reflexivity|]. split; [exact Hl3|]. split; [exact H3|]. right. auto.
Qed.
End Main.
