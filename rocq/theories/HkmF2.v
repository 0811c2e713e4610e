(** * HkmF2: the accuracy of hkm_fc in double precision. *)
From Coq Require Import ZArith List Bool SpecFloat Reals Lia Lra Psatz Permutation Znumtheory.
From Coquelicot Require Import Complex.
From Flocq Require Import Core.Core IEEE754.BinarySingleNaN.
From Verif Require Import Py PyFacts Num FloatN FloatText Exact MCoefs Sums Smooth MPysphi Dft PysphiFacts TransFacts MKiss KissFacts KissFacts2 MCsphi CsphiFacts MDouble FlFacts SeedReal SeedFl SeedFl2 DoubleFacts FlSigned SbesselFTerm SbesselFRel SbesselFFun TabFl SumFl SumFl2 SumFl3 MKissF KissFl KissFl2 KissFl3 KissFl4 KissFl5 KissFl6 MCsphiF HkmF.
Import ListNotations.
Open Scope list_scope.
Open Scope Z_scope.

Section Hkm.
Variables (delta : R) (cosf sinf : f64 -> f64) (MM Nmax Q : Z) (fw bw : kcfgf).
Hypothesis HT : trig_ok delta cosf sinf.
Hypothesis Hd : (0 <= delta <= / 2 ^ 44)%R.
Hypothesis HM : 1 <= MM.
Hypothesis HN : 0 <= Nmax.
Hypothesis HQ : 2 * MM + Nmax <= Q.
Hypothesis HQ2 : Q <= 2 ^ 20.
Hypothesis Hpr : forall p, prime p -> (p | Q) -> p <= 5.
Hypothesis Efw : ff_alloc cosf sinf Q false = Ok fw.
Hypothesis Ebw : ff_alloc cosf sinf Q true = Ok bw.
Notation lam := (IZR (Z.log2 Q) + 1)%R.
Notation tau := (fft_tol1 delta Q 5).
Let Hn : 1 <= Q <= 2 ^ 20. Proof. lia. Qed.
Lemma lam_rng : (1 <= lam <= 21)%R.
Proof.
  assert (0 <= Z.log2 Q <= 20). { split; [apply Z.log2_nonneg|]. assert (Z.log2 Q < 21) by (apply Z.log2_lt_pow2; lia). lia. }
  assert (0 <= IZR (Z.log2 Q) <= 20)%R by (split; apply IZR_le; lia). lra.
Qed.
Lemma tau_eq : tau = (370 * lam * keps delta)%R. Proof. unfold fft_tol1. ring. Qed.
Lemma keps_rng : (40 * uu <= keps delta <= / 2 ^ 42)%R.
Proof. unfold keps. pose proof uu_small. split; [lra|]. rewrite uu_val. lra. Qed.
Lemma tau_rng : (14800 * uu <= tau <= / 10 ^ 8)%R.
Proof.
  rewrite tau_eq. pose proof lam_rng as L. pose proof keps_rng as K. pose proof uu_small as U. split.
  - apply Rle_trans with (370 * 1 * keps delta)%R; [lra|]. apply Rmult_le_compat_r; lra.
  - apply Rle_trans with (370 * 21 * / 2 ^ 42)%R; [apply Rmult_le_compat; lra|lra].
Qed.
Let T1 : (tau <= 1)%R. Proof. pose proof tau_rng. lra. Qed.
Let Qr : (1 <= IZR Q <= 1048576)%R. Proof. split; apply IZR_le; lia. Qed.
Lemma t_small k : (-1074 <= k <= -900) -> (IZR Q * bpow radix2 k <= / 10 ^ 30)%R.
Proof.
  intros Hk. apply Rle_trans with (bpow radix2 20 * bpow radix2 k)%R.
  - apply Rmult_le_compat_r; [apply bpow_ge_0|]. change (bpow radix2 20) with 1048576%R. lra.
  - rewrite <- bpow_plus. apply Rle_trans with (bpow radix2 (-200)); [apply bpow_le; lia|]. apply Rle_trans with (bpow radix2 (-100)); [apply bpow_le; lia|]. pose proof (bpow_gt_0 radix2 100).
    change (-100) with (- (100)). rewrite bpow_opp. apply Rinv_le_contravar; [lra|]. change (bpow radix2 100) with (IZR (2 ^ 100)). rewrite (pow_IZR 10 30). apply IZR_le. vm_compute. discriminate.
Qed.

(** ** The transform of SData *)
Definition Sh (k : Z) : C := sumC 0 Q (fun j => cs_val MM Nmax Q j * root Q (- (j * k)))%C.
Lemma cs_pos j : (0 <= Cmod (cs_val MM Nmax Q j))%R. Proof. apply Cmod_ge_0. Qed.
Lemma Sh_bound k : (Cmod (Sh k) <= 2 * lam)%R.
Proof.
  unfold Sh. eapply Rle_trans; [apply Cmod_sumC1|]. eapply Rle_trans; [|apply (cs_sum MM Nmax Q); auto]. apply sumR_le. intros j _. unfold root. rewrite Cmod_mult, Cmod_cisR. lra.
Qed.
Lemma ssF_ok junk : exists S, ff_fft_inplace junk fw (vmake Q (fcs MM Nmax Q)) = Ok S /\ zlen S = Q /\
  forall k, 0 <= k < Q -> near (22 / 10 * tau * lam) (vgf S k) (Sh k).
Proof.
  pose proof lam_rng as L. pose proof tau_rng as TR. pose proof uu_small as U. pose proof (cs_sum MM Nmax Q HM HN HQ) as CS.
  assert (FO : forall j, 0 <= j < Q -> finc (fcs MM Nmax Q j) /\ (Cmod (VC (fcs MM Nmax Q j) - cs_val MM Nmax Q j)%C <= uu * Cmod (cs_val MM Nmax Q j) + dmin)%R) by (intros j Hj; apply fcs_ok; auto; lia).
  assert (DS : (sumR 0 Q (fun j => uu * Cmod (cs_val MM Nmax Q j) + dmin) <= uu * (2 * lam) + / 10 ^ 30)%R).
  { rewrite sumR_add, <- sumR_mul, sumR_const by lia. rewrite Z.sub_0_r. pose proof (t_small (-1074) ltac:(lia)). assert (uu * sumR 0 Q (fun j => Cmod (cs_val MM Nmax Q j)) <= uu * (2 * lam))%R by (apply Rmult_le_compat_l; lra). lra. }
  assert (L1 : (l1 (vmake Q (fcs MM Nmax Q)) 1 Q <= 21 / 10 * lam)%R).
  { unfold l1. apply Rle_trans with (sumR 0 Q (fun j => (Cmod (cs_val MM Nmax Q j) + (uu * Cmod (cs_val MM Nmax Q j) + dmin)) + tt))%R.
    - apply sumR_le. intros j Hj. rewrite Z.mul_1_r, vget_vmake by lia. destruct (FO j Hj) as [_ E].
      replace (VC (fcs MM Nmax Q j)) with (cs_val MM Nmax Q j + (VC (fcs MM Nmax Q j) - cs_val MM Nmax Q j))%C by ring.
      pose proof (Cmod_triangle (cs_val MM Nmax Q j) (VC (fcs MM Nmax Q j) - cs_val MM Nmax Q j)%C). lra.
    - rewrite sumR_add, sumR_add, sumR_const by lia. rewrite Z.sub_0_r. pose proof (t_small (-900) ltac:(lia)). assert (uu * (2 * lam) <= / 10 ^ 15 * (2 * 21))%R by (apply Rmult_le_compat; lra). lra. }
  assert (L0 : (0 <= l1 (vmake Q (fcs MM Nmax Q)) 1 Q)%R). { apply sumR_nonneg. intros j _. pose proof (Cmod_ge_0 (VC (vgf (vmake Q (fcs MM Nmax Q)) (j * 1)))). pose proof (bpow_gt_0 radix2 (-900)). lra. }
  destruct (ff_inplace1_ok delta cosf sinf Q 5 false fw HT Hd Hn ltac:(lia) Hpr Efw T1 junk (vmake Q (fcs MM Nmax Q))) as (S & E & LS & NS & _).
  - rewrite zlen_vmake. lia.
  - intros j Hj. rewrite vget_vmake by lia. apply FO. lia.
  - apply Rle_trans with (bpow radix2 40).
    + apply Rle_trans with (400 * 1048576 * (21 / 10 * 21))%R; [apply Rmult_le_compat; lra|]. change (bpow radix2 40) with 1099511627776%R. lra.
    + apply bpow_le. lia.
  - exists S. split; [exact E|]. rewrite zlen_vmake in LS. split; [lia|]. intros k Hk. destruct (NS k Hk) as (F & EE). split; [exact F|].
    match type of EE with (Cmod (_ - ?X)%C <= _)%R => set (X1 := X) in * end.
    replace (VC (vgf S k) - Sh k)%C with ((VC (vgf S k) - X1) + (X1 - Sh k))%C by ring. eapply Rle_trans; [apply Cmod_triangle|].
    assert (D : (Cmod (X1 - Sh k)%C <= uu * (2 * lam) + / 10 ^ 30)%R).
    { eapply Rle_trans; [|exact DS]. unfold X1, Sh.
      replace (sumC 0 Q (fun j => VC (vgf (vmake Q (fcs MM Nmax Q)) j) * root Q (dir false * (j * k)))%C - sumC 0 Q (fun j => cs_val MM Nmax Q j * root Q (- (j * k)))%C)%C
        with (sumC 0 Q (fun j => (VC (fcs MM Nmax Q j) - cs_val MM Nmax Q j) * root Q (- (j * k))%Z)%C).
      - eapply Rle_trans; [apply Cmod_sumC1|]. apply sumR_le. intros j Hj. unfold root. rewrite Cmod_mult, Cmod_cisR, Rmult_1_r. apply FO, Hj.
      - rewrite (sumC_ext 0 Q (fun j => VC (vgf (vmake Q (fcs MM Nmax Q)) j) * root Q (dir false * (j * k)))%C (fun j => (VC (fcs MM Nmax Q j) - cs_val MM Nmax Q j) * root Q (- (j * k))%Z + cs_val MM Nmax Q j * root Q (- (j * k))%Z)%C).
        + rewrite sumC_add. ring.
        + intros j Hj. rewrite vget_vmake by lia. replace (dir false * (j * k)) with (- (j * k)) by (unfold dir; ring). ring. }
    assert (tau * l1 (vmake Q (fcs MM Nmax Q)) 1 Q <= tau * (21 / 10 * lam))%R by (apply Rmult_le_compat_l; lra).
    assert (uu * (2 * lam) <= (tau / 14800) * (2 * lam))%R by (apply Rmult_le_compat_r; lra).
    assert (/ 10 ^ 30 <= tau / 14800 * lam)%R. { apply Rle_trans with (uu * 1)%R; [rewrite uu_val; lra|]. apply Rmult_le_compat; lra. }
    assert (0 <= tau * lam)%R by (apply Rmult_le_pos; lra). lra.
Qed.

(** ** Scaling by 4 pi / Q *)
Lemma fourpi_ok : dbl (fmul (fofZ 4) f_pi) /\ fin (fmul (fofZ 4) f_pi) /\ (Rabs (V (fmul (fofZ 4) f_pi) - 4 * PI) <= 13 * uu)%R /\ (Rabs (V (fmul (fofZ 4) f_pi)) <= 126 / 10)%R.
Proof.
  assert (E : fmul (fofZ 4) f_pi = S754_finite false 7074237752028440 (-49)) by (vm_compute; reflexivity). rewrite E.
  assert (EV : V (S754_finite false 7074237752028440 (-49)) = (7074237752028440 / 562949953421312)%R).
  { cbn [SF2R cond_Zopp]. unfold F2R, Fnum, Fexp. change (bpow radix2 (-49)) with (/ IZR (2 ^ 49))%R. change (2 ^ 49) with 562949953421312. field. }
  rewrite EV. split; [vm_compute; reflexivity|]. split; [reflexivity|]. pose proof PI_bounds as P. rewrite uu_val.
  split; [apply Rabs_le|rewrite Rabs_pos_eq]; lra.
Qed.
Lemma scale_ok x X : dbl x -> fin x -> (Rabs (V x) <= IZR Q * X)%R -> (0 <= X <= bpow radix2 950)%R ->
  dbl (scale4pi Q x) /\ fin (scale4pi Q x) /\ (Rabs (V (scale4pi Q x) - 4 * PI / IZR Q * V x) <= 39 * uu * X + 2 * dmin)%R.
Proof.
  intros Dx Fx Bx HX. pose proof uu_small as U. pose proof dmin_small as DM. destruct fourpi_ok as (D1 & F1 & E1 & B1). unfold scale4pi.
  set (c := fmul (fofZ 4) f_pi) in *. clearbody c. destruct (fofZ_small Q) as (D2 & F2 & E2); [lia|].
  assert (Q0 : (IZR Q <> 0)%R) by lra. assert (QX : (0 <= IZR Q * X)%R) by (apply Rmult_le_pos; lra).
  assert (bx : (Rabs (V c * V x) <= 126 / 10 * (IZR Q * X))%R) by (rewrite Rabs_mult; apply Rmult_le_compat; try apply Rabs_pos; lra).
  assert (BB : (13 * (IZR Q * X) + 1 <= BIG)%R).
  { assert (IZR Q * X <= bpow radix2 20 * bpow radix2 950)%R by (apply Rmult_le_compat; try lra; change (bpow radix2 20) with 1048576%R; lra).
    rewrite <- bpow_plus in H. change (20 + 950) with 970 in H. assert (1 <= bpow radix2 970)%R by (change 1%R with (bpow radix2 0); apply bpow_le; lia).
    apply Rle_trans with (bpow radix2 4 * bpow radix2 970)%R; [change (bpow radix2 4) with 16%R; lra|]. rewrite <- bpow_plus. apply bpow_le. lia. }
  destruct (big_rnd _ _ (fmul_rnd c x D1 Dx F1 Fx)) as (D3 & F3 & E3); [lra|]. pose proof (rnd_ok (V c * V x)) as Q3. rewrite <- E3 in Q3.
  set (y := fmul c x) in *. clearbody y.
  assert (R4 : is_rnd (fdiv y (fofZ Q)) (V y / IZR Q)) by (rewrite <- E2; apply fdiv_rnd; auto; rewrite E2; auto).
  assert (i0 : (0 < / IZR Q <= 1)%R) by (split; [apply Rinv_0_lt_compat; lra|rewrite <- Rinv_1; apply Rinv_le_contravar; lra]).
  assert (e3 : (Rabs (V y / IZR Q - V c * V x / IZR Q) <= 126 / 10 * uu * X + dmin)%R).
  { replace (V y / IZR Q - V c * V x / IZR Q)%R with ((V y - V c * V x) * / IZR Q)%R by (field; auto). rewrite Rabs_mult, (Rabs_pos_eq (/ IZR Q)) by lra.
    apply Rle_trans with ((uu * (126 / 10 * (IZR Q * X)) + dmin / 2) * / IZR Q)%R.
    - apply Rmult_le_compat_r; [lra|]. eapply Rle_trans; [exact Q3|]. apply Rplus_le_compat_r. apply Rmult_le_compat_l; lra.
    - replace ((uu * (126 / 10 * (IZR Q * X)) + dmin / 2) * / IZR Q)%R with (126 / 10 * uu * X + dmin / 2 * / IZR Q)%R by (field; auto). assert (dmin / 2 * / IZR Q <= dmin / 2 * 1)%R by (apply Rmult_le_compat_l; lra). lra. }
  assert (bcx : (Rabs (V c * V x / IZR Q) <= 126 / 10 * X)%R).
  { unfold Rdiv. rewrite Rabs_mult, (Rabs_pos_eq (/ IZR Q)) by lra. apply Rle_trans with (126 / 10 * (IZR Q * X) * / IZR Q)%R; [apply Rmult_le_compat_r; lra|]. right. field. auto. }
  assert (by' : (Rabs (V y / IZR Q) <= 127 / 10 * X + dmin)%R).
  { replace (V y / IZR Q)%R with ((V y / IZR Q - V c * V x / IZR Q) + V c * V x / IZR Q)%R by ring. eapply Rle_trans; [apply Rabs_triang|]. assert (uu * X <= / 1000 * X)%R by (apply Rmult_le_compat_r; lra). lra. }
  assert (X1 : (127 / 10 * X + dmin <= BIG)%R). { assert (1 * X <= IZR Q * X)%R by (apply Rmult_le_compat_r; lra). lra. }
  destruct (big_rnd _ _ R4) as (D4 & F4 & E4); [lra|]. pose proof (rnd_ok (V y / IZR Q)) as Q4. rewrite <- E4 in Q4.
  split; [exact D4|]. split; [exact F4|].
  replace (V (fdiv y (fofZ Q)) - 4 * PI / IZR Q * V x)%R with ((V (fdiv y (fofZ Q)) - V y / IZR Q) + ((V y / IZR Q - V c * V x / IZR Q) + (V c - 4 * PI) * (V x / IZR Q)))%R by (field; auto).
  eapply Rle_trans; [apply Rabs_triang|]. eapply Rle_trans; [apply Rplus_le_compat_l, Rabs_triang|].
  assert (e5 : (Rabs ((V c - 4 * PI) * (V x / IZR Q)) <= 13 * uu * X)%R).
  { rewrite Rabs_mult. apply Rmult_le_compat; try apply Rabs_pos; [exact E1|]. unfold Rdiv. rewrite Rabs_mult, (Rabs_pos_eq (/ IZR Q)) by lra.
    apply Rle_trans with (IZR Q * X * / IZR Q)%R; [apply Rmult_le_compat_r; lra|]. right. field. auto. }
  assert (uu * Rabs (V y / IZR Q) <= uu * (127 / 10 * X + dmin))%R by (apply Rmult_le_compat_l; lra).
  assert (uu * dmin <= / 1000 * dmin)%R by (apply Rmult_le_compat_r; lra). assert (0 <= uu * X)%R by (apply Rmult_le_pos; lra). lra.
Qed.

(** ** hkm_fc *)
Section Column.
Variables (fdata : list cf) (nc m : Z) (F1 : R) (junk : Z -> cf) (S : list cf).
Hypothesis Hlen : zlen fdata = 2 * MM * nc.
Hypothesis Hm : - nc <= m < nc.
Notation x i := (vgf fdata (i * nc + m mod nc)).
Hypothesis Hx : forall i, 0 <= i < 2 * MM -> finc (x i).
Hypothesis Hsum : (sumR 0 (2 * MM) (fun i => Cmod (VC (x i))) <= F1)%R.
Hypothesis HF1 : (bpow radix2 (-800) <= F1 <= bpow radix2 880)%R.
Hypothesis HS : zlen S = Q /\ forall k, 0 <= k < Q -> near (22 / 10 * tau * lam) (vgf S k) (Sh k).
Definition fcol (nu : Z) : C := VC (x (nu mod (2 * MM))).
Definition fgg (p j : Z) : cf := if j <? p then x (MM + j) else if (MM <=? j) && (j <? MM + p) then x (j - MM) else cf0.
Definition hkm_err : R := (61 * (tau * lam * F1))%R.

Let F0 : (0 < F1)%R. Proof. pose proof (bpow_gt_0 radix2 (-800)). lra. Qed.
Lemma tlF : (6 * dmin + IZR Q * tt <= tau * lam * F1 / 1000)%R.
Proof.
  pose proof lam_rng as L. pose proof tau_rng as TR. pose proof uu_small as U.
  assert (A : (uu * bpow radix2 (-800) <= tau * lam * F1 / 1000)%R).
  { assert (X : (1 * F1 <= lam * F1)%R) by (apply Rmult_le_compat_r; lra). apply Rle_trans with (tau / 1000 * (lam * F1))%R; [|right; field].
    apply Rmult_le_compat; try lra; apply bpow_ge_0. }
  eapply Rle_trans; [|exact A]. unfold uu. rewrite <- bpow_plus.
  assert (IZR Q * tt <= bpow radix2 (-880))%R.
  { replace (bpow radix2 (-880)) with (bpow radix2 20 * tt)%R by (rewrite <- bpow_plus; reflexivity). apply Rmult_le_compat_r; [apply bpow_ge_0|]. change (bpow radix2 20) with 1048576%R. lra. }
  assert (dmin <= bpow radix2 (-880))%R by (apply bpow_le; lia).
  apply Rle_trans with (8 * bpow radix2 (-880))%R; [pose proof (bpow_ge_0 radix2 (-880)); lra|].
  change 8%R with (bpow radix2 3). rewrite <- bpow_plus. apply bpow_le. lia.
Qed.
Lemma fgg_fin j : 0 <= j < Q -> finc (fgg MM j).
Proof.
  intros Hj. unfold fgg. destruct (Z.ltb_spec j MM); [apply Hx; lia|]. destruct (Z.leb_spec MM j), (Z.ltb_spec j (MM + MM)); cbn [andb]; try (apply Hx; lia); try lia.
  destruct (fofZ_small 0) as (D3 & F3 & E4); [lia|]. split; split; auto.
Qed.
Lemma fgg_val j : 0 <= j < Q -> VC (fgg MM j) = (if j <? 2 * MM then fcol (j - MM) else RtoC 0).
Proof.
  intros Hj. unfold fgg, fcol. destruct (Z.ltb_spec j MM), (Z.ltb_spec j (2 * MM)); try lia.
  - replace ((j - MM) mod (2 * MM)) with (MM + j); [reflexivity|]. rewrite <- (Z_mod_plus_full (j - MM) 1 (2 * MM)). rewrite Z.mod_small by lia. lia.
  - destruct (Z.leb_spec MM j), (Z.ltb_spec j (MM + MM)); cbn [andb]; try lia. rewrite (Z.mod_small (j - MM)) by lia. reflexivity.
  - destruct (Z.ltb_spec j (MM + MM)); [lia|]. rewrite andb_false_r. unfold VC, cf0. cbn [fst snd]. destruct (fofZ_small 0) as (D3 & F3 & E4); [lia|]. rewrite E4. reflexivity.
Qed.
Lemma fgg_sum : (sumR 0 Q (fun j => Cmod (VC (fgg MM j))) <= F1)%R.
Proof.
  eapply Rle_trans; [|exact Hsum]. right.
  rewrite (sumR_extend 0 (2 * MM) 0 Q); [|lia|lia|lia|intros k Hk Hnk; rewrite fgg_val by lia; destruct (Z.ltb_spec k (2 * MM)); [lia|apply Cmod_0]].
  rewrite (sumR_split 0 MM (2 * MM)), Rplus_comm by lia. rewrite (sumR_split 0 MM (2 * MM)) by lia. f_equal.
  - transitivity (sumR (0 + MM) (MM + MM) (fun j => Cmod (VC (fgg MM j)))); [f_equal; lia|]. rewrite sumR_shift. apply sumR_ext. intros j Hj. do 2 f_equal. unfold fgg.
    destruct (Z.ltb_spec (j + MM) MM); [lia|]. destruct (Z.leb_spec MM (j + MM)), (Z.ltb_spec (j + MM) (MM + MM)); cbn [andb]; try lia. do 3 f_equal. ring.
  - transitivity (sumR (0 + MM) (MM + MM) (fun j => Cmod (VC (x j)))); [|f_equal; lia]. rewrite sumR_shift. apply sumR_ext. intros j Hj. do 2 f_equal. unfold fgg.
    destruct (Z.ltb_spec j MM); [|lia]. do 3 f_equal. ring.
Qed.
Definition Fh (k : Z) : C := sumC 0 Q (fun j => VC (fgg MM j) * root Q (- (j * k)))%C.
Lemma Fh_bound k : (Cmod (Fh k) <= F1)%R.
Proof. unfold Fh. eapply Rle_trans; [apply Cmod_sumC1|]. eapply Rle_trans; [|apply fgg_sum]. apply sumR_le. intros j _. unfold root. rewrite Cmod_mult, Cmod_cisR. lra. Qed.
Lemma ffF_ok : exists F, ff_fft_inplace junk fw (vmake Q (fgg MM)) = Ok F /\ zlen F = Q /\ forall k, 0 <= k < Q -> near (101 / 100 * tau * F1) (vgf F k) (Fh k).
Proof.
  pose proof lam_rng as L. pose proof tau_rng as TR. pose proof tlF as T. pose proof uu_small as U.
  assert (tl : (tau * lam * F1 <= 1 / 1000 * F1)%R). { apply Rmult_le_compat_r; [lra|]. apply Rle_trans with (/ 10 ^ 8 * 21)%R; [apply Rmult_le_compat; lra|lra]. }
  assert (L1 : (l1 (vmake Q (fgg MM)) 1 Q <= 101 / 100 * F1)%R).
  { unfold l1. apply Rle_trans with (sumR 0 Q (fun j => Cmod (VC (fgg MM j)) + tt))%R.
    - apply sumR_le. intros j Hj. rewrite Z.mul_1_r, vget_vmake by lia. lra.
    - rewrite sumR_add, sumR_const by lia. rewrite Z.sub_0_r. pose proof fgg_sum. pose proof dmin_pos. lra. }
  destruct (ff_inplace1_ok delta cosf sinf Q 5 false fw HT Hd Hn ltac:(lia) Hpr Efw T1 junk (vmake Q (fgg MM))) as (F & E & LF & NF & _).
  - rewrite zlen_vmake. lia.
  - intros j Hj. rewrite vget_vmake by lia. apply fgg_fin, Hj.
  - assert (400 * IZR Q * (101 / 100 * F1) <= BIG)%R; [|assert (400 * IZR Q * l1 (vmake Q (fgg MM)) 1 Q <= 400 * IZR Q * (101 / 100 * F1))%R by (apply Rmult_le_compat_l; lra); lra].
    apply Rle_trans with (bpow radix2 40 * bpow radix2 880)%R; [|rewrite <- bpow_plus; apply bpow_le; lia].
    replace (400 * IZR Q * (101 / 100 * F1))%R with ((404 * IZR Q) * F1)%R by field. apply Rmult_le_compat; try lra. change (bpow radix2 40) with 1099511627776%R. lra.
  - exists F. split; [exact E|]. rewrite zlen_vmake in LF. split; [lia|]. intros k Hk. destruct (NF k Hk) as (Ff & EE). split; [exact Ff|].
    match type of EE with (Cmod (_ - ?X)%C <= _)%R => assert (EX : X = Fh k) end.
    { unfold Fh. apply sumC_ext. intros j Hj. rewrite vget_vmake by lia. f_equal. }
    rewrite EX in EE. eapply Rle_trans; [exact EE|]. apply Rle_trans with (tau * (101 / 100 * F1))%R; [apply Rmult_le_compat_l; lra|right; field].
Qed.

(** the product of the transforms *)
Lemma prodF_ok s f k : near (22 / 10 * tau * lam) s (Sh k) -> near (101 / 100 * tau * F1) f (Fh k) ->
  near (43 / 10 * (tau * lam * F1)) (cfmul s f) (Fh k * Sh k)%C /\ (Cmod (VC (cfmul s f)) <= 21 / 10 * (lam * F1))%R.
Proof.
  intros (Fs & Es) (Ff & Ef). pose proof lam_rng as L. pose proof tau_rng as TR. pose proof tlF as T. pose proof uu_small as U. pose proof dmin_pos as DM.
  assert (t0 : (0 <= tau <= / 10 ^ 8)%R) by lra.
  assert (tl1 : (0 <= tau * lam <= / 10 ^ 8 * lam)%R) by (split; [apply Rmult_le_pos; lra|apply Rmult_le_compat_r; lra]).
  assert (tf1 : (0 <= tau * F1 <= / 10 ^ 8 * F1)%R) by (split; [apply Rmult_le_pos; lra|apply Rmult_le_compat_r; lra]).
  assert (lf : (0 <= lam * F1)%R) by (apply Rmult_le_pos; lra).
  assert (tlf1 : (0 <= tau * lam * F1 <= / 10 ^ 8 * (lam * F1))%R) by (split; [apply Rmult_le_pos; lra|rewrite <- Rmult_assoc; apply Rmult_le_compat_r; lra]).
  assert (Bs : (Cmod (VC s) <= 21 / 10 * lam)%R).
  { replace (VC s) with ((VC s - Sh k) + Sh k)%C by ring. eapply Rle_trans; [apply Cmod_triangle|]. pose proof (Sh_bound k). lra. }
  assert (Bf : (Cmod (VC f) <= 102 / 100 * F1)%R).
  { replace (VC f) with ((VC f - Fh k) + Fh k)%C by ring. eapply Rle_trans; [apply Cmod_triangle|]. pose proof (Fh_bound k). lra. }
  assert (qt : (0 <= IZR Q * tt)%R) by (apply Rmult_le_pos; [lra|apply bpow_ge_0]).
  destruct (rv_mul s f Fs Ff (21 / 10 * lam) (102 / 100 * F1) Bs Bf) as (FP & EP).
  { apply Rle_trans with (bpow radix2 10 * bpow radix2 880)%R; [|rewrite <- bpow_plus; apply bpow_le; lia].
    apply Rle_trans with (100 * F1 + 1)%R.
    - assert (lam * F1 <= 21 * F1)%R by (apply Rmult_le_compat_r; lra). lra.
    - assert (1 <= bpow radix2 880)%R by (change 1%R with (bpow radix2 0); apply bpow_le; lia). change (bpow radix2 10) with 1024%R. lra. }
  replace (21 / 10 * lam * (102 / 100 * F1))%R with (2142 / 1000 * (lam * F1))%R in EP by field.
  assert (uL : (14800 * (uu * (lam * F1)) <= tau * lam * F1)%R).
  { replace (14800 * (uu * (lam * F1)))%R with (14800 * uu * (lam * F1))%R by ring. rewrite (Rmult_assoc tau). apply Rmult_le_compat_r; lra. }
  replace (5 * uu * (2142 / 1000 * (lam * F1)))%R with (10710 / 1000 * (uu * (lam * F1)))%R in EP by field.
  assert (EE : (Cmod (VC (cfmul s f) - Fh k * Sh k)%C <= 43 / 10 * (tau * lam * F1))%R).
  { replace (VC (cfmul s f) - Fh k * Sh k)%C with ((VC (cfmul s f) - VC s * VC f) + ((VC s - Sh k) * VC f + Sh k * (VC f - Fh k)))%C by ring.
    eapply Rle_trans; [apply Cmod_triangle|]. eapply Rle_trans; [apply Rplus_le_compat_l, Cmod_triangle|]. rewrite !Cmod_mult.
    assert (Cmod (VC s - Sh k)%C * Cmod (VC f) <= 22 / 10 * tau * lam * (102 / 100 * F1))%R by (apply Rmult_le_compat; auto using Cmod_ge_0).
    assert (Cmod (Sh k) * Cmod (VC f - Fh k)%C <= 2 * lam * (101 / 100 * tau * F1))%R by (apply Rmult_le_compat; auto using Cmod_ge_0; apply Sh_bound).
    replace (22 / 10 * tau * lam * (102 / 100 * F1))%R with (2244 / 1000 * (tau * lam * F1))%R in * by field.
    replace (2 * lam * (101 / 100 * tau * F1))%R with (202 / 100 * (tau * lam * F1))%R in * by field. lra. }
  split; [split; [exact FP|exact EE]|].
  replace (VC (cfmul s f)) with ((VC (cfmul s f) - Fh k * Sh k) + Fh k * Sh k)%C by ring. eapply Rle_trans; [apply Cmod_triangle|]. rewrite Cmod_mult.
  assert (Cmod (Fh k) * Cmod (Sh k) <= F1 * (2 * lam))%R by (apply Rmult_le_compat; auto using Cmod_ge_0; [apply Fh_bound|apply Sh_bound]). lra.
Qed.

(** the inverse transform *)
Definition conv (k : Z) : C := sumC 0 Q (fun a => VC (fgg MM a) * cs_val MM Nmax Q ((k - a) mod Q))%C.
Lemma invF_ok P : zlen P = Q -> (forall k, 0 <= k < Q -> near (43 / 10 * (tau * lam * F1)) (vgf P k) (Fh k * Sh k)%C /\ (Cmod (VC (vgf P k)) <= 21 / 10 * (lam * F1))%R) ->
  exists R, ff_fft_inplace junk bw P = Ok R /\ zlen R = Q /\
    forall k, 0 <= k < Q -> near (IZR Q * (472 / 100 * (tau * lam * F1))) (vgf R k) (RtoC (IZR Q) * conv k)%C /\ (Cmod (conv k) <= 2 * (lam * F1))%R.
Proof.
  intros LP HP. pose proof lam_rng as L. pose proof tau_rng as TR. pose proof uu_small as U.
  assert (lf : (F1 <= lam * F1 <= 21 * F1)%R) by (split; [replace F1 with (1 * F1)%R at 1 by ring|]; apply Rmult_le_compat_r; lra).
  destruct (ff_inplace_ok delta (21 / 10 * (lam * F1)) cosf sinf Q 5 true bw HT Hd Hn) with (junk := junk) (buf := P) as (R & E & LR & NR & _); [|lia|exact Hpr|exact Ebw|lia| |].
  - split; [apply Rle_trans with (bpow radix2 (-800)); [apply bpow_le; lia|lra]|].
    apply Rle_trans with (bpow radix2 10 * bpow radix2 880)%R; [change (bpow radix2 10) with 1024%R; lra|rewrite <- bpow_plus; apply bpow_le; lia].
  - intros j Hj. destruct (HP j Hj) as ((Fp & _) & Bp). split; auto.
  - exists R. split; [exact E|]. split; [lia|]. intros k Hk.
    assert (EC : (RtoC (IZR Q) * conv k)%C = sumC 0 Q (fun p => (Fh p * Sh p) * root Q (p * k))%C).
    { unfold conv. rewrite <- (dft_conv Q ltac:(lia)) by lia. reflexivity. }
    assert (Qn : (IZR Q <> 0)%R) by lra.
    assert (BC : (Cmod (conv k) <= 2 * (lam * F1))%R).
    { apply Rmult_le_reg_l with (IZR Q); [lra|]. replace (IZR Q * Cmod (conv k))%R with (Cmod (RtoC (IZR Q) * conv k)%C) by (rewrite Cmod_mult, Cmod_R, Rabs_pos_eq; lra).
      rewrite EC. eapply Rle_trans; [apply Cmod_sumC1|]. apply Rle_trans with (sumR 0 Q (fun _ => F1 * (2 * lam))%R); [|rewrite sumR_const by lia; rewrite Z.sub_0_r; right; ring].
      apply sumR_le. intros p _. unfold root. rewrite !Cmod_mult, Cmod_cisR, Rmult_1_r. apply Rmult_le_compat; auto using Cmod_ge_0; [apply Fh_bound|apply Sh_bound]. }
    split; [|exact BC]. destruct (NR k Hk) as (FR & ER). split; [exact FR|]. rewrite EC.
    set (T := sumC 0 Q (fun j => VC (vgf P j) * root Q (dir true * (j * k)))%C) in ER.
    assert (ET : (Cmod (T - sumC 0 Q (fun p => (Fh p * Sh p) * root Q (p * k)))%C <= IZR Q * (43 / 10 * (tau * lam * F1)))%R).
    { unfold T. rewrite <- sumC_sub. eapply Rle_trans; [apply Cmod_sumC1|]. apply Rle_trans with (sumR 0 Q (fun _ => 43 / 10 * (tau * lam * F1))%R); [|rewrite sumR_const by lia; rewrite Z.sub_0_r; right; ring].
      apply sumR_le. intros p Hp. destruct (HP p Hp) as ((_ & Ep) & _). replace (dir true * (p * k)) with (p * k) by (unfold dir; lia).
      replace (VC (vgf P p) * root Q (p * k) - Fh p * Sh p * root Q (p * k))%C with ((VC (vgf P p) - Fh p * Sh p) * root Q (p * k))%C by ring.
      unfold root. rewrite Cmod_mult, Cmod_cisR, Rmult_1_r. exact Ep. }
    replace (VC (vgf R k) - sumC 0 Q (fun p => (Fh p * Sh p) * root Q (p * k)))%C with ((VC (vgf R k) - T) + (T - sumC 0 Q (fun p => (Fh p * Sh p) * root Q (p * k))))%C by ring.
    eapply Rle_trans; [apply Cmod_triangle|].
    assert (EF : fft_tol delta (21 / 10 * (lam * F1)) Q 5 = (IZR Q * (42 / 100 * (tau * lam * F1)))%R) by (rewrite tau_eq; unfold fft_tol; field).
    rewrite EF in ER. lra.
Qed.

(** the whole routine *)
Definition hkm_part (x y : R) (v : f64) : Prop := dbl v /\ fin v /\ (Rabs (V v - x) <= hkm_err)%R /\ (Rabs (V v) <= y)%R.
Lemma partF_ok E c X v : dbl v -> fin v -> (Rabs c <= X)%R -> (Rabs (V v - IZR Q * c) <= IZR Q * E)%R ->
  (X = 2 * (lam * F1))%R -> (E = 472 / 100 * (tau * lam * F1))%R ->
  hkm_part (4 * PI * c) (26 * (lam * F1)) (scale4pi Q v).
Proof.
  intros Dv Fv Bc Ev EX EE. pose proof lam_rng as L. pose proof tau_rng as TR. pose proof tlF as T. pose proof uu_small as U. pose proof dmin_pos as DM. pose proof PI_bounds as PB.
  assert (lf : (0 <= lam * F1)%R) by (apply Rmult_le_pos; lra).
  assert (tlf1 : (0 <= tau * lam * F1 <= / 10 ^ 8 * (lam * F1))%R).
  { rewrite (Rmult_assoc tau). split; [apply Rmult_le_pos; lra|apply Rmult_le_compat_r; lra]. }
  assert (uL : (14800 * (uu * (lam * F1)) <= tau * lam * F1)%R).
  { replace (14800 * (uu * (lam * F1)))%R with (14800 * uu * (lam * F1))%R by ring. rewrite (Rmult_assoc tau). apply Rmult_le_compat_r; lra. }
  assert (lf2 : (lam * F1 <= 21 * F1)%R) by (apply Rmult_le_compat_r; lra).
  assert (qt : (0 <= IZR Q * tt)%R) by (apply Rmult_le_pos; [lra|apply bpow_ge_0]).
  destruct (scale_ok v (21 / 10 * (lam * F1)) Dv Fv) as (D2 & F2 & E2).
  - replace (V v) with ((V v - IZR Q * c) + IZR Q * c)%R by ring. eapply Rle_trans; [apply Rabs_triang|]. rewrite Rabs_mult, (Rabs_pos_eq (IZR Q)) by lra.
    apply Rle_trans with (IZR Q * E + IZR Q * X)%R; [apply Rplus_le_compat; [exact Ev|apply Rmult_le_compat_l; lra]|]. rewrite <- Rmult_plus_distr_l. apply Rmult_le_compat_l; lra.
  - split; [lra|]. apply Rle_trans with (bpow radix2 10 * bpow radix2 880)%R; [change (bpow radix2 10) with 1024%R; lra|rewrite <- bpow_plus; apply bpow_le; lia].
  - assert (Ee : (Rabs (4 * PI / IZR Q * V v - 4 * PI * c) <= 126 / 10 * E)%R).
    { replace (4 * PI / IZR Q * V v - 4 * PI * c)%R with (4 * PI * ((V v - IZR Q * c) * / IZR Q))%R by (field; lra).
      rewrite Rabs_mult, (Rabs_pos_eq (4 * PI)) by lra. rewrite Rabs_mult, (Rabs_pos_eq (/ IZR Q)) by (left; apply Rinv_0_lt_compat; lra).
      apply Rmult_le_compat; [lra|apply Rmult_le_pos; [apply Rabs_pos|left; apply Rinv_0_lt_compat; lra]|lra|].
      apply Rle_trans with (IZR Q * E * / IZR Q)%R; [apply Rmult_le_compat_r; [left; apply Rinv_0_lt_compat; lra|exact Ev]|right; field; lra]. }
    assert (A : (Rabs (V (scale4pi Q v) - 4 * PI * c) <= hkm_err)%R).
    { replace (V (scale4pi Q v) - 4 * PI * c)%R with ((V (scale4pi Q v) - 4 * PI / IZR Q * V v) + (4 * PI / IZR Q * V v - 4 * PI * c))%R by ring.
      eapply Rle_trans; [apply Rabs_triang|]. unfold hkm_err.
      replace (39 * uu * (21 / 10 * (lam * F1)))%R with (819 / 10 * (uu * (lam * F1)))%R in E2 by field. lra. }
    split; [exact D2|]. split; [exact F2|]. split; [exact A|].
    replace (V (scale4pi Q v)) with ((V (scale4pi Q v) - 4 * PI * c) + 4 * PI * c)%R by ring. eapply Rle_trans; [apply Rabs_triang|].
    rewrite (Rabs_mult (4 * PI)), (Rabs_pos_eq (4 * PI)) by lra. unfold hkm_err in A.
    assert (4 * PI * Rabs c <= 126 / 10 * (2 * (lam * F1)))%R by (apply Rmult_le_compat; try apply Rabs_pos; lra). lra.
Qed.

Lemma conv_hcirc k : 0 <= k < Q -> hcirc MM Nmax Q fcol k = (RtoC (4 * PI) * conv k)%C.
Proof.
  intros Hk. unfold hcirc, conv. f_equal. apply sumC_ext. intros a Ha. f_equal. rewrite fgg_val by lia. reflexivity.
Qed.
Lemma part_abs (z : C) : (Rabs (fst z) <= Cmod z /\ Rabs (snd z) <= Cmod z)%R.
Proof. pose proof (Rmax_Cmod z) as H. split; eapply Rle_trans; try exact H; [apply Rmax_l|apply Rmax_r]. Qed.
Lemma fbget_vmake n (f : Z -> cf) i : 0 <= i < n -> fbget (vmake n f) i = Ok (f i).
Proof. apply bget_vmake. Qed.
Lemma ff_hkm_ok : exists h, zlen h = Nmax + 1 /\
  (forall hkm ff, zlen hkm = Nmax + 1 -> zlen ff = Q ->
    exists ff', ff_hkm_fc junk fdata (2 * MM) nc Nmax m hkm (Nmax + 1) S Q ff fw bw = Ok (h, ff') /\ zlen ff' = Q) /\
  (forall k, 0 <= k <= Nmax -> hkm_part (fst (hcirc MM Nmax Q fcol k)) (26 * (lam * F1)) (fst (vgf h k)) /\
                               hkm_part (snd (hcirc MM Nmax Q fcol k)) (26 * (lam * F1)) (snd (vgf h k))).
Proof.
  destruct HS as (LS & NS).
  destruct (ffF_ok) as (F & EF & LF & NF).
  set (P := vmake Q (fun k => cfmul (vgf S k) (vgf F k))).
  assert (LP : zlen P = Q) by (unfold P; rewrite zlen_vmake; lia).
  assert (NP : forall k, 0 <= k < Q -> near (43 / 10 * (tau * lam * F1)) (vgf P k) (Fh k * Sh k)%C /\ (Cmod (VC (vgf P k)) <= 21 / 10 * (lam * F1))%R).
  { intros k Hk. unfold P. rewrite vget_vmake by lia. apply prodF_ok; auto. }
  destruct (invF_ok P LP NP) as (R & ER & LR & NR).
  exists (vmake (Nmax + 1) (fun k => (scale4pi Q (fst (vgf R k)), scale4pi Q (snd (vgf R k))))).
  split; [apply zlen_vmake'; lia|]. split.
  - intros hkm ff Hh Hff. unfold ff_hkm_fc. rewrite quot2. rewrite !cfill_ok by auto. cbn [bind].
    set (ind := if 0 <=? m then m else nc + m).
    assert (Hind : ind = m mod nc /\ 0 <= ind < nc).
    { unfold ind. destruct (Z.leb_spec 0 m); [rewrite Z.mod_small by lia; lia|].
      split; [|lia]. rewrite <- (Z_mod_plus_full m 1). rewrite Z.mod_small; lia. }
    destruct Hind as [Hind Hi2].
    assert (Gt : forall i, 0 <= i < 2 * MM -> fbget fdata (nc * i + ind) = Ok (x i)).
    { intros i Hi. unfold fbget. rewrite bget_ok; [rewrite Hind, (Z.mul_comm nc i); reflexivity|]. rewrite Hlen. nia. }
    match goal with |- context [mfor (zrange 0 MM) ?g ?b] =>
      destruct (mfor_inv (fun p s => s = vmake Q (fgg p)) 0 MM g b) as (s1 & -> & ->) end.
    + lia.
    + apply vmake_ext. intros j Hj. unfold fgg. destruct (Z.ltb_spec j 0), (Z.leb_spec MM j), (Z.ltb_spec j (MM + 0)); auto; lia.
    + intros p s Hp ->. rewrite (Gt (MM + p)) by lia. cbn [bind]. rewrite bset_vmake by lia. cbn [bind].
      rewrite Gt by lia. cbn [bind]. rewrite bset_vmake by lia. eexists; split; [reflexivity|].
      apply vmake_ext. intros j Hj. unfold fgg.
      destruct (Z.eqb_spec j (MM + p)), (Z.eqb_spec j p), (Z.ltb_spec j p), (Z.ltb_spec j (p + 1)), (Z.leb_spec MM j),
        (Z.ltb_spec j (MM + p)), (Z.ltb_spec j (MM + (p + 1))); subst; cbn [andb]; try lia; auto; do 3 f_equal; lia.
    + cbn [bind]. rewrite EF. cbn [bind].
      match goal with |- context [mfor (zrange 0 Q) ?g ?b] =>
        destruct (mfor_inv (fun p s => s = vmake Q (fun j => if j <? p then cfmul (vgf S j) (vgf F j) else vgf F j)) 0 Q g b) as (s2 & -> & ->) end.
      * lia.
      * transitivity (vmake (zlen F) (vgf F)); [symmetry; apply (vmake_vget cf0)|]. rewrite LF. apply vmake_ext. intros j Hj. destruct (Z.ltb_spec j 0); [lia|reflexivity].
      * intros p s Hp ->. rewrite fbget_vmake by lia. cbn [bind]. unfold fbget. rewrite bget_ok by lia. cbn [bind].
        rewrite bset_vmake by lia. eexists; split; [reflexivity|]. apply vmake_ext. intros j Hj.
        destruct (Z.ltb_spec p p); [lia|].
        destruct (Z.eqb_spec j p) as [Ejp|], (Z.ltb_spec j p), (Z.ltb_spec j (p + 1)); try lia; auto. subst j. reflexivity.
      * cbn [bind]. rewrite (vmake_ext Q _ (fun k => cfmul (vgf S k) (vgf F k))).
        2:{ intros j Hj. destruct (Z.ltb_spec j Q); [auto|lia]. }
        fold P. rewrite ER. cbn [bind].
        match goal with |- context [mfor (zrange 0 (Nmax + 1)) ?g ?b] =>
          destruct (mfor_inv (fun p s => s = vmake (Nmax + 1) (fun k => if k <? p then (scale4pi Q (fst (vgf R k)), scale4pi Q (snd (vgf R k))) else cf0)) 0 (Nmax + 1) g b) as (s3 & -> & ->) end.
        -- lia.
        -- apply vmake_ext. intros j Hj. destruct (Z.ltb_spec j 0); auto; lia.
        -- intros p s Hp ->. unfold fbget. rewrite bget_ok by lia. cbn [bind].
           rewrite bset_vmake by lia. eexists; split; [reflexivity|]. apply vmake_ext. intros j Hj.
           destruct (Z.eqb_spec j p) as [Ejp|], (Z.ltb_spec j p), (Z.ltb_spec j (p + 1)); try lia; auto. subst j. reflexivity.
        -- cbn [bind]. exists R. split; [|exact LR]. do 2 f_equal. apply vmake_ext. intros j Hj. destruct (Z.ltb_spec j (Nmax + 1)); [auto|lia].
  - intros k Hk. rewrite vget_vmake by lia. cbn [fst snd]. rewrite conv_hcirc by lia.
    destruct (NR k ltac:(lia)) as ((FR & EE) & BC). destruct FR as ((D1 & G1) & (D2 & G2)). destruct (part_abs (conv k)) as (P1 & P2).
    destruct (part_abs (VC (vgf R k) - RtoC (IZR Q) * conv k)%C) as (Q1 & Q2).
    replace (fst (RtoC (4 * PI) * conv k)%C) with (4 * PI * fst (conv k))%R by (unfold Cmult, RtoC; cbn [fst snd]; ring).
    replace (snd (RtoC (4 * PI) * conv k)%C) with (4 * PI * snd (conv k))%R by (unfold Cmult, RtoC; cbn [fst snd]; ring).
    split.
    + eapply (partF_ok _ _ _ _ D1 G1); [eapply Rle_trans; [exact P1|exact BC]| |reflexivity|reflexivity].
      eapply Rle_trans; [|exact EE]. eapply Rle_trans; [|exact Q1]. right. f_equal. unfold VC, Cminus, Cplus, Copp, Cmult, RtoC. cbn [fst snd]. ring.
    + eapply (partF_ok _ _ _ _ D2 G2); [eapply Rle_trans; [exact P2|exact BC]| |reflexivity|reflexivity].
      eapply Rle_trans; [|exact EE]. eapply Rle_trans; [|exact Q2]. right. f_equal. unfold VC, Cminus, Cplus, Copp, Cmult, RtoC. cbn [fst snd]. ring.
Qed.
End Column.
End Hkm.
