(** * SbesselFY: accuracy of sbessely in double precision, 2^-400 <= x <= 1. *)
From Coq Require Import ZArith List Bool SpecFloat Reals Lia Lra Psatz.
From Flocq Require Import Core.Core IEEE754.BinarySingleNaN.
From Flocq Require Import Relative.
From Verif Require Import Py PyFacts Num FloatN FloatText FileFacts2 MPysphi MDouble FlFacts SeedFl SeedFl2 FlSigned MSbesselF SbesselFTerm SbesselFRel SbesselFLoop SbesselFAcc SbesselFMain.
From Verif Require Import CoefsFacts PysphiFacts SpecBessel Bessel Bessel2 SbesselFacts SbesselFacts2.
Open Scope R_scope.
#[local] Existing Instance FloatText.prec53.
#[local] Existing Instance FloatText.pe53.

(** ** Negative numbers *)
Definition nrelf (K : R) (x : f64) (r : R) : Prop := dbl x /\ fin x /\ rel K (- V x) r.
Lemma nrelf_weaken K L x r : K <= L -> nrelf K x r -> nrelf L x r.
Proof. intros H (A & B & C). split; [exact A|]. split; [exact B|]. eapply rel_weaken; eauto. Qed.
Lemma nrelf_rnd K z v r : 0 <= K <= 10 ^ 9 -> is_rnd z (- v) -> rel K v r -> rng r -> nrelf (K + 101 / 100) z r.
Proof.
  intros HK Z R G. destruct (rng_tiny v r G (rel_bounds K v r HK R)) as [T M]. 
  destruct (is_rnd_fin _ _ Z) as [F E]; [rewrite rnd_opp, Rabs_Ropp; exact M|]. split; [exact (is_rnd_dbl _ _ Z)|]. split; [exact F|].
  rewrite E, rnd_opp, Ropp_involutive. apply rel_rnd; auto.
Qed.
Lemma nrelf_opp K x r : relf K x r -> nrelf K (SFopp x) r.
Proof. intros (D & F & R). destruct (SFopp_V x D F) as (D' & F' & E). split; [exact D'|]. split; [exact F'|]. rewrite E, Ropp_involutive. exact R. Qed.
Lemma nrelf_mul K L a r b s : 0 <= K <= 10 ^ 5 -> 0 <= L <= 10 ^ 5 -> relf K a r -> nrelf L b s -> rng (r * s) -> nrelf (K + L + 102 / 100) (fmul a b) (r * s).
Proof.
  intros HK HL (Da & Fa & Ra) (Db & Fb & Rb) G. eapply nrelf_weaken; [|apply (nrelf_rnd (K + L + / 100) _ (V a * - V b)); [lra| | |exact G]]; [lra| |].
  - replace (- (V a * - V b)) with (V a * V b) by ring. now apply fmul_rnd.
  - apply rel_mul; auto; lra.
Qed.
Lemma nrelf_div K L a r b s : 0 <= K <= 10 ^ 5 -> 0 <= L <= 10 ^ 5 -> nrelf K a r -> relf L b s -> rng (r / s) -> nrelf (K + L + 104 / 100) (fdiv a b) (r / s).
Proof.
  intros HK HL (Da & Fa & Ra) (Db & Fb & Rb) G. pose proof (rel_bounds L _ _ ltac:(lra) Rb) as B. assert (0 < s) by apply Rb.
  eapply nrelf_weaken; [|apply (nrelf_rnd (K + L + / 50) _ (- V a / V b)); [lra| | |exact G]]; [lra| |].
  - replace (- (- V a / V b)) with (V a / V b) by (field; lra). apply fdiv_rnd; auto; lra.
  - apply rel_div; auto.
Qed.
Lemma nrelf_sub K L M rho p P b B : 0 <= K -> 0 <= L -> 0 <= rho < 1 -> nrelf K p P -> nrelf L b B -> B <= rho * P -> K + L * rho <= M * (1 - rho) -> M <= 10 ^ 9 ->
  rng (P - B) -> nrelf (M + 101 / 100) (fsub p b) (P - B).
Proof.
  intros HK HL Hr (Dp & Fp & Rp) (Db & Fb & Rb) HB HM HM' G.
  assert (M0 : 0 <= M) by (destruct (Rle_or_lt 0 M); auto; nra).
  apply (nrelf_rnd M _ (- V p - - V b)); [lra| | |exact G].
  - replace (- (- V p - - V b)) with (V p - V b) by ring. now apply fsub_rnd.
  - apply (rel_sub K L M rho); assumption.
Qed.
(** a negative number minus a positive one *)
Lemma nrelf_add K p P b B : 0 <= K <= 10 ^ 9 -> nrelf K p P -> relf K b B -> rng (P + B) -> nrelf (K + 101 / 100) (fsub p b) (P + B).
Proof.
  intros HK (Dp & Fp & Rp) (Db & Fb & Rb) G. apply (nrelf_rnd K _ (- V p + V b)); [lra| | |exact G].
  - replace (- (- V p + V b)) with (V p - V b) by ring. now apply fsub_rnd.
  - destruct Rp as [P0 Rp]. destruct Rb as [B0 Rb]. split; [lra|]. apply Rabs_le_inv in Rp. apply Rabs_le_inv in Rb. apply Rabs_le. lra.
Qed.

(** ** The exact sequence t_n = - y_n(x) *)
Section T.
Variable X : R.
Hypothesis X0 : 0 < X.
Hypothesis X1 : X <= 1.
Definition ty (n : nat) : R := - sph_y n X.
Lemma ty_rec n : ty (S (S n)) = (2 * INR n + 3) / X * ty (S n) - ty n.
Proof. unfold ty. rewrite sph_y_rec. ring. Qed.
Lemma ty_0 : ty 0 = cos X / X. Proof. unfold ty. rewrite sph_y_0. field. lra. Qed.
Lemma ty_1 : ty 1 = cos X / X ^ 2 + sin X / X. Proof. unfold ty. rewrite sph_y_1. field. lra. Qed.
Lemma cosX : / 2 <= cos X <= 1.
Proof.
  split; [|apply COS_bound]. pose proof PI2_3_2 as P2. pose proof (cos_bound X 0 ltac:(lra) ltac:(lra)) as C.
  unfold cos_approx, cos_term in C. cbn in C. nra.
Qed.
Lemma iX : 1 <= / X. Proof. rewrite <- Rinv_1. apply Rinv_le; lra. Qed.
Lemma ty_grow n : / 2 <= ty n /\ (2 * INR n - 1) * ty n <= ty (S n) /\ ty n <= ty (S n).
Proof.
  pose proof iX as I. induction n as [|n (IH1 & IH2 & IH3)].
  - pose proof cosX as C. pose proof (j0_bounds X X0 X1) as J. rewrite sph_j_0 in J by lra.
    assert (E1 : ty 1 = cos X * / X * / X + sin X / X) by (rewrite ty_1; field; lra). assert (E0 : ty 0 = cos X * / X) by (rewrite ty_0; reflexivity).
    assert (L : / 2 <= cos X * / X) by nra. rewrite E1, E0. set (c := cos X * / X) in *. cbn [INR]. repeat split; nra.
  - rewrite ty_rec, S_INR. pose proof (pos_INR n) as Pn.
    assert (Q : 2 * INR n + 3 <= (2 * INR n + 3) / X) by (unfold Rdiv; nra).
    assert (M : (2 * INR n + 3) * ty (S n) <= (2 * INR n + 3) / X * ty (S n)) by (apply Rmult_le_compat_r; lra).
    assert (0 <= INR n * ty (S n)) by (apply Rmult_le_pos; lra).
    repeat split; lra.
Qed.
Lemma ty_mono n m : (n <= m)%nat -> ty n <= ty m.
Proof. induction 1 as [|m H IH]; [lra|]. pose proof (ty_grow m) as (_ & _ & L). lra. Qed.
Lemma ty_big n : (2 <= n)%nat -> 2 ^ n <= 16 * ty n.
Proof.
  induction 1 as [|n H IH].
  - pose proof (ty_grow 1) as (A & B & C). pose proof (ty_grow 0) as (A0 & _). rewrite ty_rec. pose proof (ty_grow 0) as (_ & _ & C0). pose proof iX as I. cbn [INR].
    assert ((2 * 0 + 3) * ty 1 <= (2 * 0 + 3) / X * ty 1) by (apply Rmult_le_compat_r; [lra|unfold Rdiv; nra]).
    pose proof cosX as CX. pose proof (j0_bounds X X0 X1) as J. rewrite sph_j_0 in J by lra. 
    assert (E1 : ty 1 = cos X * / X * / X + sin X / X) by (rewrite ty_1; field; lra). cbn [pow]. nra.
  - pose proof (ty_grow n) as (A & B & C). cbn [pow]. apply le_INR in H. cbn [INR] in H. nra.
Qed.
(** how small t_(n-2) is beside (2n-1)/x t_(n-1) *)
Lemma ratio_2 : ty 0 <= 1 / 3 * ((2 * INR 0 + 3) / X * ty 1).
Proof.
  pose proof (ty_grow 0) as (A & _ & C). pose proof (ty_grow 1) as (A1 & _). pose proof iX as I. cbn [INR]. replace (1 / 3 * ((2 * 0 + 3) / X * ty 1)) with (/ X * ty 1) by (field; lra). nra.
Qed.
Lemma ratio_n n : (1 <= n)%nat -> ty n * ((2 * INR n + 3) * (2 * INR n)) <= (2 * INR n + 3) / X * ty (S n) .
Proof.
  intros H. destruct n as [|k]; [lia|]. pose proof (ty_grow k) as (A & _ & C). pose proof (ty_grow (S k)) as (A1 & _ & C1).
  apply le_INR in H. pose proof iX as I. pose proof (pos_INR k) as Pk.
  assert (G : 2 * INR (S k) * ty (S k) <= ty (S (S k))).
  { rewrite ty_rec, S_INR. assert (Q : 2 * INR k + 3 <= (2 * INR k + 3) / X) by (unfold Rdiv; nra).
    assert (M : (2 * INR k + 3) * ty (S k) <= (2 * INR k + 3) / X * ty (S k)) by (apply Rmult_le_compat_r; lra). lra. }
  cbn [INR] in H. set (m := INR (S k)) in *. assert (m1 : 1 <= m) by (unfold m; rewrite S_INR; lra).
  apply Rle_trans with ((2 * m + 3) * ty (S (S k))); [nra|]. apply Rmult_le_compat_r; [lra|]. unfold Rdiv. nra.
Qed.
End T.

(** ** The array *)
Section SY.
Variables (sn cs sq : f64 -> f64) (py : bool) (x : f64).
Let X := V x.
Hypothesis Px : fpos x.
Hypothesis X0 : bpow radix2 (-400) <= X.
Hypothesis X1 : X <= 1.
Hypothesis Hs : relf 2 (sn x) (sin X).
Hypothesis Hc : relf 2 (cs x) (cos X).
Hypothesis Hz : relf 2 (sq x) (X ^ 2).
Lemma xp' : 0 < X. Proof. exact (fpos_gt _ Px). Qed.
Definition KY (n : nat) : R := match n with O => 304 / 100 | 1%nat => 605 / 100 | _ => 7 * INR n + 1 end.
Lemma KY_low n : 3 <= KY n.
Proof. destruct n as [|[|n]]; cbn [KY]; [lra|lra|]. pose proof (pos_INR (S (S n))). rewrite !S_INR in *. pose proof (pos_INR n). lra. Qed.
Lemma y0_rel : nrelf (304 / 100) (fdiv (SFopp (cs x)) x) (ty X 0).
Proof.
  pose proof xp' as P. rewrite ty_0 by exact P. eapply nrelf_weaken; [|apply (nrelf_div 2 0 _ _ _ _ ltac:(lra) ltac:(lra) (nrelf_opp _ _ _ Hc) (Rx x Px))]; [lra|].
  fold X. pose proof (cosX X P X1) as C. pose proof (Xinv x Px X0 X1) as I. fold X in I. unfold Rdiv. split.
  - apply Rle_trans with (bpow radix2 (-1)); [apply bpow_le; lia|change (bpow radix2 (-1)) with (/ 2)]. nra.
  - apply Rle_trans with (bpow radix2 400); [nra|apply bpow_le; lia].
Qed.
Lemma y1_rel : nrelf (605 / 100) (fsub (fdiv (SFopp (cs x)) (sq x)) (fdiv (sn x) x)) (ty X 1).
Proof.
  pose proof xp' as P. rewrite ty_1 by exact P. pose proof (cosX X P X1) as C. pose proof (Xinv x Px X0 X1) as I. fold X in I.
  pose proof (j0_bounds X P X1) as J. rewrite sph_j_0 in J by lra.
  assert (E1 : cos X / X ^ 2 = cos X * / X * / X) by (field; lra).
  assert (II : / X * / X <= bpow radix2 800) by (change 800%Z with (400 + 400)%Z; rewrite bpow_plus; apply Rmult_le_compat; lra).
  assert (G : 1 / 2 <= cos X / X ^ 2 <= bpow radix2 800) by (rewrite E1; split; nra).
  assert (bpow radix2 800 * 2 <= bpow radix2 1020) by (replace 2 with (bpow radix2 1) by (cbn; lra); rewrite <- bpow_plus; apply bpow_le; lia).
  assert (L : bpow radix2 (-1020) <= / 2) by (change (/ 2) with (bpow radix2 (-1)); apply bpow_le; lia).
  assert (1 <= bpow radix2 800) by (change 1 with (bpow radix2 0); apply bpow_le; lia).
  eapply nrelf_weaken; [|apply (nrelf_add (504 / 100))]; [lra|lra| |eapply relf_weaken; [|apply (relf_div 2 0 _ _ _ _ ltac:(lra) ltac:(lra) Hs (Rx x Px))]; [lra|]|].
  - eapply nrelf_weaken; [|apply (nrelf_div 2 2 _ _ _ _ ltac:(lra) ltac:(lra) (nrelf_opp _ _ _ Hc) Hz)]; [lra|]. split; lra.
  - fold X. split; lra.
  - split; lra.
Qed.
Lemma ty_small n : ty X n <= bpow radix2 1000 -> (n <= 1010)%nat.
Proof.
  intros H. pose proof xp' as P. destruct (le_lt_dec n 1010) as [L|L]; [exact L|]. exfalso. pose proof (ty_big X P X1 n ltac:(lia)) as B.
  assert (E : bpow radix2 (Z.of_nat n) <= 16 * bpow radix2 1000).
  { rewrite bpow_powerRZ, <- pow_powerRZ. change (IZR radix2) with 2. lra. }
  change 16 with (bpow radix2 4) in E. rewrite <- bpow_plus in E. apply le_bpow in E. lia.
Qed.
Lemma y_step n a b : ty X (S (S n)) <= bpow radix2 1000 -> nrelf (KY (S n)) a (ty X (S n)) -> nrelf (KY n) b (ty X n) ->
  nrelf (KY (S (S n))) (fsub (fmul (fdiv (fsub (fmul (fofZ 2) (fofZ (Z.of_nat n + 2))) (fofZ 1)) x) a) b) (ty X (S (S n))).
Proof.
  intros H Ha Hb. pose proof xp' as P. pose proof (ty_small _ H) as Hn. rewrite (fmul_int 2 (Z.of_nat n + 2)), (fsub_int _ 1) by lia.
  replace (2 * (Z.of_nat n + 2) - 1)%Z with (2 * Z.of_nat n + 3)%Z by lia.
  assert (Em : IZR (2 * Z.of_nat n + 3) = 2 * INR n + 3) by (rewrite INR_IZR_INZ, plus_IZR, mult_IZR; reflexivity).
  pose proof (q_rel x Px X0 X1 (2 * Z.of_nat n + 3) ltac:(lia)) as Q. rewrite Em in Q. fold X in Q.
  pose proof (ty_grow X P X1 n) as (A & _ & _). pose proof (ty_grow X P X1 (S n)) as (A1 & _ & C1).
  assert (KB : forall k, (k <= 1010)%nat -> 3 <= KY k <= 10 ^ 4).
  { intros k Hk. split; [apply KY_low|]. apply le_INR in Hk. replace (INR 1010) with 1010 in Hk by (rewrite INR_IZR_INZ; reflexivity). destruct k as [|[|k]]; cbn [KY]; lra. }
  pose proof (KB n ltac:(lia)) as K0. pose proof (KB (S n) ltac:(lia)) as K1. pose proof (KB (S (S n)) ltac:(lia)) as K2.
  set (PP := (2 * INR n + 3) / X * ty X (S n)) in *.
  assert (R : exists rho, 0 <= rho <= 1 / 3 /\ ty X n <= rho * PP /\ 104 / 100 + KY (S n) + 102 / 100 + KY n * rho <= (KY (S (S n)) - 101 / 100) * (1 - rho)).
  { destruct n as [|[|n]].
    - exists (1 / 3). split; [lra|]. split; [exact (ratio_2 X P X1)|]. cbn [KY INR]. lra.
    - exists (1 / 10). split; [lra|]. split; [pose proof (ratio_n X P X1 1 ltac:(lia)) as Rn; fold PP in Rn; cbn [INR] in Rn; lra|]. cbn [KY INR]. lra.
    - set (m := S (S n)) in *. assert (m2 : 2 <= INR m) by (unfold m; rewrite !S_INR; pose proof (pos_INR n); lra).
      exists (/ ((2 * INR m + 3) * (2 * INR m))). assert (D : 28 <= (2 * INR m + 3) * (2 * INR m)) by nra.
      split; [split; [left; apply Rinv_0_lt_compat; lra|apply Rle_trans with (/ 28); [apply Rinv_le; lra|lra]]|]. split.
      + pose proof (ratio_n X P X1 m ltac:(unfold m; lia)) as Rn. fold PP in Rn. apply Rmult_le_reg_r with ((2 * INR m + 3) * (2 * INR m)); [lra|].
        replace (/ ((2 * INR m + 3) * (2 * INR m)) * PP * ((2 * INR m + 3) * (2 * INR m))) with PP by (field; lra). exact Rn.
      + set (d := (2 * INR m + 3) * (2 * INR m)) in *. change (KY m) with (7 * INR m + 1). change (KY (S m)) with (7 * INR (S m) + 1). change (KY (S (S m))) with (7 * INR (S (S m)) + 1). rewrite !S_INR.
        assert (Hd : / d * (14 * INR m + 17) <= 39 / 10). { apply Rmult_le_reg_l with d; [lra|]. rewrite <- Rmult_assoc, Rinv_r, Rmult_1_l by lra. unfold d. nra. }
        nra. }
  destruct R as (rho & Hr & HB & HM).
  assert (TP : ty X (S (S n)) = PP - ty X n) by apply ty_rec.
  assert (PU : PP <= 3 / 2 * bpow radix2 1000) by (pose proof (bpow_gt_0 radix2 1000); nra).
  assert (big : 4 * bpow radix2 1000 <= bpow radix2 1020) by (replace 4 with (bpow radix2 2) by (cbn; lra); rewrite <- bpow_plus; apply bpow_le; lia).
  assert (L : bpow radix2 (-1020) <= / 2) by (change (/ 2) with (bpow radix2 (-1)); apply bpow_le; lia).
  pose proof (pos_INR n) as Pn. pose proof (iX X P X1) as I. assert (PL : 1 <= PP). { unfold PP. apply Rle_trans with (3 * / 2); [lra|]. apply Rmult_le_compat; try lra. unfold Rdiv. nra. }
  assert (Hp : nrelf (104 / 100 + KY (S n) + 102 / 100) (fmul (fdiv (fofZ (2 * Z.of_nat n + 3)) x) a) PP).
  { apply nrelf_mul; auto; try lra. split; fold PP; lra. }
  rewrite TP. replace (KY (S (S n))) with (KY (S (S n)) - 101 / 100 + 101 / 100) by ring.
  apply (nrelf_sub (104 / 100 + KY (S n) + 102 / 100) (KY n) _ rho); auto; try lra. rewrite <- TP. split; lra.
Qed.

Lemma sbessely_acc N : (2 <= N)%Z -> exists out, f_sbessely sn cs sq py x N = Ok out /\ zlen out = N /\
  forall k, (0 <= k < N)%Z -> ty X (Z.to_nat k) <= bpow radix2 1000 -> nrelf (KY (Z.to_nat k)) (vget z0 out k) (ty X (Z.to_nat k)).
Proof.
  intros HN. pose proof xp' as P. unfold f_sbessely. rewrite np_zeros_ok by lia. cbn [bind]. set (o := vmake N _). assert (Lo : zlen o = N) by (unfold o; rewrite zlen_vmake; lia).
  rewrite py_set_ok by lia. cbn [bind]. rewrite (xsq_x sq py x Hz). cbn [bind]. rewrite py_set_ok by (rewrite zlen_vset; lia). cbn [bind].
  apply (mfor_inv (fun i out => zlen out = N /\ forall k, (0 <= k < i)%Z -> ty X (Z.to_nat k) <= bpow radix2 1000 -> nrelf (KY (Z.to_nat k)) (vget z0 out k) (ty X (Z.to_nat k))) 2 N); [lia| |].
  - split; [rewrite !zlen_vset; exact Lo|]. intros k Hk _. assert (k = 0 \/ k = 1)%Z as [-> | ->] by lia.
    + rewrite vget_vset_ne, vget_vset_eq by lia. exact y0_rel.
    + rewrite vget_vset_eq by (rewrite zlen_vset; lia). exact y1_rel.
  - intros i s Hi (Hl & Hk). rewrite (xdiv_x py x Px). cbn [bind]. rewrite !py_get_ok by lia. cbn [bind]. rewrite py_set_ok by lia.
    eexists. split; [reflexivity|]. split; [rewrite zlen_vset; exact Hl|]. intros k Hk' T. destruct (Z.eq_dec k i) as [->|D].
    + rewrite vget_vset_eq by lia. set (n := Z.to_nat (i - 2)). replace (Z.to_nat i) with (S (S n)) in * by (unfold n; lia).
      replace (fofZ i) with (fofZ (Z.of_nat n + 2)) by (f_equal; unfold n; lia).
      pose proof (ty_mono X P X1 (S n) (S (S n)) ltac:(lia)). pose proof (ty_mono X P X1 n (S n) ltac:(lia)).
      apply y_step; [exact T| |].
      * replace (S n) with (Z.to_nat (i - 1)) by (unfold n; lia). apply Hk; [lia|]. replace (Z.to_nat (i - 1)) with (S n) by (unfold n; lia). lra.
      * apply Hk; [lia|]. fold n. lra.
    + rewrite vget_vset_ne by lia. apply Hk; [lia|exact T].
Qed.
End SY.
