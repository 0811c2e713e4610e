(** * P_Sbessel: properties C42-C45 of sbessel.py (exact arithmetic). *)
From Coq Require Import ZArith List String Bool Reals Lra Lia.
From Coquelicot Require Import Coquelicot.
From Verif Require Import Py PyFacts MPysphi PysphiFacts SpecBessel Bessel Bessel2 MSbessel SbesselFacts SbesselFacts2.
Import ListNotations.
Open Scope list_scope.
Open Scope R_scope.

(** ** C42 *)

(** sbessely(x, N) is the list y_0(x), ..., y_(N-1)(x). *)
Theorem C42_values : forall (x : R) (N : nat), x <> 0 -> (2 <= N)%nat ->
  exists out, sbessely x (Z.of_nat N) = Ok out /\ List.length out = N /\
    forall n, (n < N)%nat -> nth n out 0 = sph_y n x.
Proof.
  intros x N Hx HN. rewrite sbessely_ok by (auto; lia). eexists; split; [reflexivity|].
  split; [unfold vmake; rewrite map_length; pose proof (zlen_zrange 0 (Z.of_nat N)) as L; unfold zlen in L; lia|].
  intros n Hn. rewrite nth_vget, vget_vmake, Nat2Z.id by lia. reflexivity.
Qed.
Print Assumptions C42_values.

(** y_n is a solution of the spherical Bessel equation of order n, satisfies
    the recurrence, and y_0, y_1 are the usual closed forms. *)
Theorem C42_solves_equation : forall n : nat,
  solves_bessel n (sph_y n) /\
  (forall x, sph_y 0 x = - cos x / x) /\ (forall x, sph_y 1 x = - cos x / x ^ 2 - sin x / x) /\
  (forall x, sph_y (S (S n)) x = (2 * INR (S n) + 1) / x * sph_y (S n) x - sph_y n x).
Proof.
  intros n. split; [apply sph_y_solves|]. split; [reflexivity|]. split; [reflexivity|].
  intros x. rewrite sph_y_rec, S_INR. do 3 f_equal. ring.
Qed.
Print Assumptions C42_solves_equation.

(** x = 0 raises ZeroDivisionError, N = 0 and N = 1 raise IndexError, and a
    negative N is refused: nothing else can be returned. *)
Theorem C42_errors : forall (x : R) (N : Z),
  ((N < 0)%Z -> sbessely x N = Raise NumpyError) /\
  ((0 <= N)%Z -> x = 0 -> sbessely x N = Raise ZeroDivisionError) /\
  (x <> 0 -> N = 0%Z \/ N = 1%Z -> sbessely x N = Raise IndexError).
Proof.
  intros x N. split; [|split].
  - intros H. unfold sbessely, np_zeros. destruct (Z.ltb_spec N 0); [|lia]. reflexivity.
  - intros H ->. unfold sbessely. rewrite np_zeros_ok by auto. cbn [bind]. unfold divR at 1.
    destruct (Req_EM_T 0 0); [reflexivity|lra].
  - intros Hx [-> | ->]; unfold sbessely; rewrite np_zeros_ok by lia; cbn [bind]; rewrite divR_ok by auto; cbn [bind].
    + reflexivity.
    + rewrite py_set_in by (rewrite zlen_vmake; lia). cbn [bind].
      rewrite !divR_ok by (auto; apply pow_nonzero; auto). reflexivity.
Qed.
Print Assumptions C42_errors.

(** ** C43 *)

(** Whatever sbesselj returns, whatever the number of iterations: N entries,
    the first exact, and the three-term recurrence in the interior (from
    index 1 on when |j_1| <= |j_0|, from index 2 on otherwise, in which case
    entry 1 is exact as well). *)
Theorem C43_recurrence : forall (fuel : nat) (x : R) (N : nat) (out : list R), x <> 0 -> (2 <= N)%nat ->
  sbesselj fuel x (Z.of_nat N) = Ok out ->
  List.length out = N /\ nth 0 out 0 = sin x / x /\
  (Rabs (sph_j 0 x) < Rabs (sph_j 1 x) -> nth 1 out 0 = sin x / x ^ 2 - cos x / x) /\
  forall n, (1 <= n)%nat -> (n + 1 < N)%nat -> (Rabs (sph_j 1 x) <= Rabs (sph_j 0 x) \/ (2 <= n)%nat) ->
    nth (n - 1) out 0 + nth (n + 1) out 0 = (2 * INR n + 1) / x * nth n out 0.
Proof.
  intros fuel x N out Hx HN H. destruct N as [|M]; [lia|].
  destruct (sbesselj_nat fuel x M out Hx ltac:(lia) H) as (w & r & _ & L & Rw & Rr & O0 & O1 & On).
  split; [auto|]. split; [rewrite O0; apply sph_j_0; auto|]. split.
  { intros B. rewrite O1. destruct (Rle_dec _ _); [lra|]. apply sph_j_1; auto. }
  intros n Hn HM Hb. destruct n as [|n]; [lia|].
  replace (S n - 1)%nat with n by lia. replace (S n + 1)%nat with (S (S n)) by lia.
  enough (E : nth (S (S n)) out 0 = (2 * INR n + 3) / x * nth (S n) out 0 - nth n out 0).
  { rewrite E, S_INR. replace (2 * (INR n + 1) + 1) with (2 * INR n + 3) by ring. ring. }
  destruct Hb as [Hb|Hb].
  - apply (out_rec x M r (fun m => nth m out 0) 0 Rr); try lia.
    intros m Hm. destruct m as [|m]; [|apply On; lia]. rewrite O1. destruct (Rle_dec _ _); [auto|lra].
  - apply (out_rec x M r (fun m => nth m out 0) 1 Rr); try lia. intros m Hm. apply On. lia.
Qed.
Print Assumptions C43_recurrence.

(** For 0 < |x| <= 1 and N >= 2 the call succeeds and every entry has relative
    error at most 2e-20 (34 (N-1) passes of the while loop are enough). *)
Theorem C43_accuracy_small_arguments : forall (fuel : nat) (x : R) (N : nat), 0 < Rabs x <= 1 -> (2 <= N)%nat ->
  (34 * (N - 1) <= fuel)%nat ->
  exists out, sbesselj fuel x (Z.of_nat N) = Ok out /\ List.length out = N /\
    forall n, (n < N)%nat -> Rabs (nth n out 0 - sph_j n x) <= 2 / 10 ^ 20 * Rabs (sph_j n x).
Proof.
  intros fuel x N [X0 X1] HN Hf. assert (Hx : x <> 0) by (intros ->; rewrite Rabs_R0 in X0; lra).
  destruct N as [|[|n]]; try lia. 
  assert (Hn : Rabs x <= INR (S n)) by (rewrite S_INR; pose proof (pos_INR n); lra).
  destruct (loop_total x n fuel Hx Hn ltac:(lia)) as (w & W).
  destruct (loop_accuracy x n fuel w Hx Hn W) as [Wn Wa].
  pose proof (rho_half x 0 (fun _ => 0) (fun _ => 0) Hx X1 (S n) ltac:(lia)) as RH. cbv beta in RH; cbn [pred] in RH.
  set (rho := sph_j (S n) x / sph_j n x) in *.
  assert (Wa' : Rabs (w - rho) <= 1 / 10 ^ 20 * Rabs w).
  { eapply Rle_trans; [exact Wa|]. pose proof (Rabs_pos w). nra. }
  assert (TW : Rabs w <= Rabs rho + Rabs (w - rho)).
  { replace w with (rho + (w - rho)) at 1 by ring. apply Rabs_triang. }
  assert (W1 : Rabs w <= 1) by (pose proof (Rabs_pos w); lra).
  assert (Wr : Rabs (w - rho) <= 11 / 10 * (1 / 10 ^ 20) * Rabs rho) by (pose proof (Rabs_pos w); pose proof (Rabs_pos rho); lra).
  destruct (sbesselj_small fuel x (Z.of_nat (S (S n))) w Hx X1 ltac:(lia)) as (out & H).
  { replace (Z.of_nat (S (S n)) - 1)%Z with (Z.of_nat (S n)) by lia. exact W. }
  { exact W1. }
  exists out. split; [exact H|].
  destruct (sbesselj_nat fuel x (S n) out Hx ltac:(lia) H) as (w' & r & W' & L & Rw & Rr & O0 & O1 & On).
  rewrite W in W'. injection W' as <-. split; [auto|]. intros m Hm.
  assert (B : Rabs (sph_j 1 x) <= Rabs (sph_j 0 x)) by (apply j_decreasing; auto; cbn [INR]; lra).
  pose proof (o_close x (S n) r (fun m => nth m out 0) Hx X1 (11 / 10 * (1 / 10 ^ 20))) as OC. cbv beta in OC.
  eapply Rle_trans; [apply OC; auto; try lia|].
  - split; lra.
  - rewrite Rw. exact Wr.
  - intros k Hk. destruct k as [|k]; [|apply On; lia]. rewrite O1. destruct (Rle_dec _ _); [auto|lra].
  - pose proof (Rabs_pos (sph_j m x)). pose proof (q_le1 (S n - m)). pose proof (pow_le (1/4) (S n - m) ltac:(lra)).
    apply Rmult_le_compat_r; auto. nra.
Qed.
Print Assumptions C43_accuracy_small_arguments.

(** For 0 < |x| <= N - 1, with p the index (0 or 1) of the larger of |j_0|,
    |j_1|: a call that succeeds is exact up to index p, and after that its
    error is governed by the stopping tolerance 1e-20, j_(N-2) and y_n. *)
Theorem C43_accuracy : forall (fuel : nat) (x : R) (N : nat) (out : list R),
  0 < Rabs x <= INR (N - 1) -> (2 <= N)%nat -> sbesselj fuel x (Z.of_nat N) = Ok out ->
  let p := if Rle_dec (Rabs (sph_j 1 x)) (Rabs (sph_j 0 x)) then 0%nat else 1%nat in
  sph_j p x <> 0 /\
  (forall n, (n <= p)%nat -> nth n out 0 = sph_j n x) /\
  forall n, (p <= n < N)%nat ->
    Rabs (nth n out 0 - sph_j n x) <=
    1 / 10 ^ 20 * Rabs x ^ 3 * Rabs (nth (N - 1) out 0 * sph_j (N - 2) x) *
      Rabs (sph_y n x - sph_y p x / sph_j p x * sph_j n x).
Proof.
  intros fuel x N out [X0 XN] HN H p. assert (Hx : x <> 0) by (intros ->; rewrite Rabs_R0 in X0; lra).
  destruct N as [|[|n0]]; try lia. replace (S (S n0) - 1)%nat with (S n0) in * by lia. replace (S (S n0) - 2)%nat with n0 by lia.
  destruct (sbesselj_nat fuel x (S n0) out Hx ltac:(lia) H) as (w & r & W & L & Rw & Rr & O0 & O1 & On).
  destruct (loop_accuracy x n0 fuel w Hx XN W) as [Wn Wa].
  destruct (j_decreasing x n0 Hx XN) as (_ & Jn & _).
  assert (Jp : sph_j p x <> 0).
  { unfold p. pose proof (j_not_both 0 x Hx) as NB. destruct (Rle_dec _ _) as [A|A]; intros E.
    - rewrite E, Rabs_R0 in A. pose proof (Rabs_pos (sph_j 1 x)). destruct NB as [NB|NB]; [auto|]. apply Rabs_pos_lt in NB. lra.
    - rewrite E, Rabs_R0 in A. pose proof (Rabs_pos (sph_j 0 x)). lra. }
  split; [exact Jp|].
  assert (EX : forall n, (n <= p)%nat -> nth n out 0 = sph_j n x).
  { intros n Hn. unfold p in Hn. destruct (Rle_dec _ _) as [A|A].
    - replace n with 0%nat by lia. auto.
    - destruct n as [|[|n]]; auto; lia. }
  split; [exact EX|]. intros n Hn.
  destruct (Nat.eq_dec p (S n0)) as [EP|NP].
  { (* N = 2 and p = 1: both entries are exact *)
    assert (n = p) by lia. subst n. rewrite EX by lia. rewrite Rminus_eq_0, Rabs_R0.
    repeat apply Rmult_le_pos; try apply Rabs_pos; try (apply pow_le, Rabs_pos); lra. }
  assert (Hp : (p < S n0)%nat) by lia.
  assert (Hstep : forall m, (p <= m < S n0)%nat -> nth (S m) out 0 = r (S m) * nth m out 0).
  { intros m Hm. destruct m as [|m]; [|apply On; lia]. unfold p in *. rewrite O1. destruct (Rle_dec _ _); [auto|lia]. }
  assert (Hrec := out_rec x (S n0) r (fun m => nth m out 0) p Rr Hstep). cbv beta in Hrec.
  pose proof (err_formula x (S n0) p (fun m => nth m out 0) Hx Hp Hrec (EX p (le_n _)) (n - p) ltac:(lia)) as EF. cbv beta in EF.
  replace (p + (n - p))%nat with n in EF by lia.
  pose proof (K_const x (S n0) p (fun m => nth m out 0) Hx Hp Hrec (n0 - p) ltac:(lia)) as KC. cbv beta in KC.
  replace (p + (n0 - p))%nat with n0 in KC by lia. rewrite <- KC in EF. clear KC.
  assert (KV : nth n0 out 0 * sph_j (S n0) x - nth (S n0) out 0 * sph_j n0 x
             = - (nth n0 out 0 * sph_j n0 x * (w - sph_j (S n0) x / sph_j n0 x))).
  { rewrite (Hstep n0) by lia. rewrite Rw. field. auto. }
  rewrite KV in EF.
  set (D := nth n0 out 0 * sph_j n0 x * (w - sph_j (S n0) x / sph_j n0 x)) in *.
  set (G := sph_y n x - sph_y p x / sph_j p x * sph_j n x).
  assert (EE : nth n out 0 - sph_j n x = - (x ^ 2 * D * G)).
  { apply (Rmult_eq_reg_l (sph_j p x)); auto. rewrite EF. unfold G. field. auto. }
  assert (DB : Rabs D <= 1 / 10 ^ 20 * Rabs x * Rabs (nth (S n0) out 0 * sph_j n0 x)).
  { unfold D. rewrite (Hstep n0) by lia. rewrite Rw, !Rabs_mult.
    pose proof (Rabs_pos (nth n0 out 0)). pose proof (Rabs_pos (sph_j n0 x)).
    set (a := Rabs (nth n0 out 0)) in *. set (b := Rabs (sph_j n0 x)) in *.
    apply Rle_trans with (a * b * (1 / 10 ^ 20 * Rabs x * Rabs w)); [|right; ring].
    apply Rmult_le_compat_l; auto. nra. }
  rewrite EE, Rabs_Ropp, Rabs_mult. apply Rmult_le_compat_r; [apply Rabs_pos|].
  rewrite Rabs_mult, <- RPow_abs.
  apply Rle_trans with (Rabs x ^ 2 * (1 / 10 ^ 20 * Rabs x * Rabs (nth (S n0) out 0 * sph_j n0 x))); [|right; ring].
  apply Rmult_le_compat_l; auto. apply pow_le, Rabs_pos.
Qed.
Print Assumptions C43_accuracy.

(** No call with x = 0 or N < 2 succeeds. *)
Theorem C43_errors : forall (fuel : nat) (x : R) (N : Z) (out : list R),
  sbesselj fuel x N = Ok out -> x <> 0 /\ (2 <= N)%Z.
Proof.
  intros fuel x N out H. unfold sbesselj in H.
  destruct (np_zeros N 0) as [s0|] eqn:Z0; [|discriminate]. cbn [bind] in H.
  unfold divR at 1 in H. destruct (Req_EM_T x 0) as [|Hx]; [discriminate|]. split; [auto|]. cbn [bind] in H.
  unfold np_zeros in Z0. destruct (Z.ltb_spec N 0); [discriminate|]. injection Z0 as <-.
  assert (L : zlen (vmake N (fun _ : Z => 0)) = N) by (rewrite zlen_vmake; lia).
  assert (N = 0 \/ N = 1 \/ 2 <= N)%Z as [->|[->|?]] by lia; [discriminate| |auto].
  exfalso. rewrite py_set_in in H by lia. cbn [bind] in H.
  rewrite !divR_ok in H by (auto; apply pow_nonzero; auto). cbn [bind] in H.
  rewrite divR_ok in H by (change (1 - 1)%Z with 0%Z; lra). cbn [bind] in H.
  destruct (sbesselj_loop _ _ _ _ _ _) as [w|]; [|discriminate]. cbn [bind] in H.
  rewrite py_set_in in H by (rewrite zlen_vset; lia). cbn [bind] in H.
  rewrite zrange_down_nil in H by lia. cbn [mfor bind] in H.
  rewrite py_get_in in H by (rewrite !zlen_vset; lia). cbn [bind] in H.
  assert (G : py_get 0 (vset (vset (vmake 1 (fun _ : Z => 0)) 0 (sin x / x)) (1 - 1) w) 1 = Raise IndexError) by reflexivity.
  rewrite G in H. cbn [bind] in H.
  assert (G2 : forall v, py_set (vset (vset (vmake 1 (fun _ : Z => 0)) 0 (sin x / x)) (1 - 1) w) 1 v = Raise IndexError) by reflexivity.
  rewrite G2 in H. destruct (Rle_dec _ _); discriminate.
Qed.
Print Assumptions C43_errors.

(** What sbessel_test_cross_product measures: with |j_1| <= |j_0| the error of
    j[1] alone, times |x cos x|, whatever N. *)
Lemma fold_max_const c l : (forall a, In a l -> a = c) -> fold_left Rmax l c = c.
Proof.
  induction l as [|a l IH]; intros H; cbn [fold_left]; auto.
  rewrite (H a (or_introl eq_refl)), Rmax_left by lra. apply IH. intros; apply H; right; auto.
Qed.
Theorem C43_cross_product_test : forall (fuel : nat) (z : R) (N : nat) (out : list R), z <> 0 -> (1 <= N)%nat ->
  sbesselj fuel z (Z.of_nat N + 1) = Ok out -> Rabs (sph_j 1 z) <= Rabs (sph_j 0 z) ->
  sbessel_test_cross_product fuel z (Z.of_nat N) = Ok (Rabs (z * cos z) * Rabs (nth 1 out 0 - sph_j 1 z)) /\
  forall n, (n < N)%nat ->
    nth (n + 1) out 0 * sph_y n z - nth n out 0 * sph_y (n + 1) z = 1 / z ^ 2 + sph_y 0 z * (nth 1 out 0 - sph_j 1 z).
Proof.
  intros fuel z N out Hz HN H B.
  assert (H' : sbesselj fuel z (Z.of_nat (S N)) = Ok out) by (replace (Z.of_nat (S N)) with (Z.of_nat N + 1)%Z by lia; exact H).
  destruct (C43_recurrence fuel z (S N) out Hz ltac:(lia) H') as (L & O0 & _ & RC).
  set (o := fun m => nth m out 0).
  assert (CS : forall n, (n < N)%nat -> o (S n) * sph_y n z - o n * sph_y (S n) z = 1 / z ^ 2 + sph_y 0 z * (o 1%nat - sph_j 1 z)).
  { intros n Hn. rewrite (casoratian z o (fun n => sph_y n z) (S N) n).
    - rewrite <- (cross_product 0 z Hz). unfold o at 2. rewrite O0, (sph_j_0 z) by auto. ring.
    - intros k Hk. pose proof (RC (S k) ltac:(lia) ltac:(lia) (or_introl B)) as E.
      replace (S k - 1)%nat with k in E by lia. replace (S k + 1)%nat with (S (S k)) in E by lia. fold (o k) (o (S k)) (o (S (S k))) in E.
      rewrite S_INR in E. replace (2 * (INR k + 1) + 1) with (2 * INR k + 3) in E by ring. lra.
    - intros k _. apply sph_y_rec.
    - lia. }
  split.
  2:{ intros n Hn. replace (n + 1)%nat with (S n) by lia. apply CS; auto. }
  unfold sbessel_test_cross_product. rewrite sbessely_ok by (auto; lia). cbn [bind]. rewrite H. cbn [bind].
  assert (Z2 : z ^ 2 <> 0) by (apply pow_nonzero; auto).
  assert (PZ : 0 < z ^ 2) by (rewrite <- pow2_abs; pose proof (Rabs_pos_lt z Hz); nra).
  rewrite divR_ok by auto. cbn [bind].
  assert (Z3 : 1 / z ^ 2 <> 0) by (unfold Rdiv; rewrite Rmult_1_l; apply Rinv_neq_0_compat; auto).
  assert (P3 : 0 < 1 / z ^ 2) by (apply Rdiv_lt_0_compat; lra).
  set (c := Rabs (z * cos z) * Rabs (nth 1 out 0 - sph_j 1 z)).
  rewrite (mmap_ok _ (fun _ => c)).
  2:{ intros n Hn. apply In_zrange in Hn. rewrite divR_ok by auto. f_equal. rewrite vget_vmake by lia.
      rewrite !vget_vmake by lia.
      replace (vget 0 out n) with (o (Z.to_nat n)) by (unfold o; rewrite nth_vget, Z2Nat.id by lia; auto).
      replace (vget 0 out (n + 1)) with (o (S (Z.to_nat n))) by (unfold o; rewrite nth_vget; f_equal; lia).
      replace (Z.to_nat (n + 1)) with (S (Z.to_nat n)) by lia.
      pose proof (CS (Z.to_nat n) ltac:(lia)) as E.
      replace (sph_y (Z.to_nat n) z * o (S (Z.to_nat n)) - o (Z.to_nat n) * sph_y (S (Z.to_nat n)) z - 1 / z ^ 2)
        with (sph_y 0 z * (o 1%nat - sph_j 1 z)) by lra.
      rewrite sph_y_0. unfold c. rewrite !Rabs_mult. fold (o 1%nat).
      unfold Rdiv at 1 2. rewrite !Rabs_mult, Rabs_Ropp, Rabs_inv.
      assert (0 < Rabs z) by (apply Rabs_pos_lt; auto).
      replace (z ^ 2) with (Rabs z ^ 2) by (apply pow2_abs). field. lra. }
  cbn [bind]. destruct (zrange 0 (Z.of_nat N)) as [|a l] eqn:ZR.
  { pose proof (zlen_zrange 0 (Z.of_nat N)) as LZ. rewrite ZR in LZ. unfold zlen in LZ. cbn in LZ. lia. }
  cbn [map]. f_equal. apply fold_max_const. intros b Hb. apply in_map_iff in Hb as (? & <- & _). reflexivity.
Qed.
Print Assumptions C43_cross_product_test.

(** ** C44 *)

(** When the while loop stops after k passes, w is the k-th convergent of
      x / (2n+1 - x^2 / (2n+3 - x^2 / (2n+5 - ...))),  n = nmax. *)
Theorem C44_loop_convergent : forall (fuel : nat) (x : R) (nmax : nat) (w : R),
  sbesselj_loop fuel (x ^ 2) (Z.of_nat nmax) 1 (x / (2 * INR nmax + 1)) (x / (2 * INR nmax + 1)) = Ok w ->
  exists k, (k <= fuel)%nat /\ snd (cf_den x nmax k) <> 0 /\ w = cf_convergent x nmax k.
Proof.
  intros fuel x n w H. rewrite INR_IZR_INZ in H. destruct (loop_call x n fuel w H) as (k & Hk & B & _ & Wk & _). exists k. auto.
Qed.
Print Assumptions C44_loop_convergent.

(** The convergents are those of j_nmax / j_(nmax-1), with this exact error. *)
Theorem C44_convergent_error : forall (x : R) (n k : nat), x <> 0 -> sph_j n x <> 0 -> snd (cf_den x (S n) k) <> 0 ->
  cf_convergent x (S n) k - sph_j (S n) x / sph_j n x =
  - (x ^ (k + 1) * sph_j (n + k + 2) x) / (snd (cf_den x (S n) k) * sph_j n x).
Proof.
  intros x n k Hx J D. destruct (cf_tail x n k Hx) as [T _].
  replace (k + 1)%nat with (S k) by lia. replace (n + k + 2)%nat with (S (S n) + k)%nat by lia. rewrite <- T.
  unfold cf_convergent. change (snd (cf_den x (S n) k)) with (cB x (S n) k) in *. change (snd (cf_num x (S n) k)) with (cA x (S n) k).
  field. auto.
Qed.
Print Assumptions C44_convergent_error.

(** For 0 < |x| <= nmax the loop stops within 34 nmax passes, without a
    division by zero, and w is j_nmax / j_(nmax-1) to within 1e-20 |x w|. *)
Theorem C44_loop_terminates_accurate : forall (fuel : nat) (x : R) (nmax : nat), (1 <= nmax)%nat -> 0 < Rabs x <= INR nmax ->
  (34 * nmax <= fuel)%nat ->
  exists w, sbesselj_loop fuel (x ^ 2) (Z.of_nat nmax) 1 (x / (2 * INR nmax + 1)) (x / (2 * INR nmax + 1)) = Ok w /\
    sph_j (nmax - 1) x <> 0 /\
    Rabs (w - sph_j nmax x / sph_j (nmax - 1) x) <= 1 / 10 ^ 20 * Rabs x * Rabs w.
Proof.
  intros fuel x nmax Hm [X0 X1] Hf. assert (Hx : x <> 0) by (intros ->; rewrite Rabs_R0 in X0; lra).
  destruct nmax as [|n]; [lia|]. replace (S n - 1)%nat with n by lia.
  destruct (loop_total x n fuel Hx X1 Hf) as (w & W). exists w. rewrite INR_IZR_INZ. split; [exact W|].
  split; [apply j_decreasing; auto|]. eapply loop_accuracy; eauto.
Qed.
Print Assumptions C44_loop_terminates_accurate.

(** j_n solves the spherical Bessel equation; j_0 and j_1 are the closed forms. *)
Theorem C44_target_is_bessel : forall n : nat, solves_bessel n (sph_j n) /\
  (forall x, x <> 0 -> sph_j 0 x = sin x / x) /\ (forall x, x <> 0 -> sph_j 1 x = sin x / x ^ 2 - cos x / x) /\
  (forall x, x <> 0 -> sph_j (S (S n)) x = (2 * INR (S n) + 1) / x * sph_j (S n) x - sph_j n x) /\
  (forall x, x <> 0 -> sph_j (S n) x * sph_y n x - sph_j n x * sph_y (S n) x = 1 / x ^ 2).
Proof.
  intros n. split; [apply sph_j_solves|]. split; [apply sph_j_0|]. split; [apply sph_j_1|].
  split; [|intros; apply cross_product; auto].
  intros x Hx. rewrite sph_j_rec, S_INR by auto. do 3 f_equal. ring.
Qed.
Print Assumptions C44_target_is_bessel.

(** ** C45 *)
Theorem C45_hankel : forall (fuel : nat) (x : R) (N : nat) (jn : list R), x <> 0 -> (2 <= N)%nat ->
  sbesselj fuel x (Z.of_nat N) = Ok jn ->
  exists h1 h2, sbesselh1 fuel x (Z.of_nat N) = Ok h1 /\ sbesselh2 fuel x (Z.of_nat N) = Ok h2 /\
    List.length h1 = N /\ List.length h2 = N /\
    forall n, (n < N)%nat -> nth n h1 (RtoC 0) = (nth n jn 0, sph_y n x) /\ nth n h2 (RtoC 0) = (nth n jn 0, - sph_y n x).
Proof.
  intros fuel x N jn Hx HN H.
  destruct (C43_recurrence fuel x N jn Hx HN H) as (L & _).
  destruct (C42_values x N Hx HN) as (yn & Y & LY & YV).
  unfold sbesselh1, sbesselh2. rewrite H, Y. cbn [bind]. unfold np_broadcast.
  assert (E : zlen jn = zlen yn) by (unfold zlen; lia). rewrite E, Z.eqb_refl.
  eexists _, _. split; [reflexivity|]. split; [reflexivity|].
  assert (LZ : forall A B D (f : A -> B -> D) u v, List.length u = List.length v -> List.length (zip_with f u v) = List.length u).
  { intros A B D f u v Huv. pose proof (zlen_zip_with f u v ltac:(unfold zlen; lia)) as Q. unfold zlen in Q. lia. }
  split; [rewrite LZ; lia|]. split; [rewrite LZ; lia|].
  intros n Hn. rewrite !(nth_zip_with _ _ _ _ 0 0) by lia. rewrite YV by auto.
  split; apply injective_projections; unfold Cplus, Cminus, Cmult, Ci, RtoC, Copp, Cplus; cbn [fst snd]; try ring.
  all: unfold Cplus; cbn [fst snd]; ring.
Qed.
Print Assumptions C45_hankel.

Lemma rows_of_ok f xs : forall acc, List.Forall (fun x => exists a, f x = Ok a) xs ->
  exists rows, List.Forall2 (fun x a => f x = Ok a) xs rows /\
    rows_of f xs (Some acc) = Ok (Some (acc ++ rows)).
Proof.
  induction xs as [|x xs IH]; intros acc H; [exists []; split; [constructor|cbn [rows_of]; now rewrite app_nil_r]|].
  inversion_clear H as [|? ? (a & A) H']. destruct (IH (acc ++ [a]) H') as (rows & F & E).
  exists (a :: rows). split; [constructor; auto|]. cbn [rows_of]. rewrite A. cbn [bind]. rewrite E, <- app_assoc. reflexivity.
Qed.
Lemma array_ok f N xs : (0 <= N)%Z -> xs <> [] -> List.Forall (fun x => exists a, f x = Ok a) xs ->
  exists A, array_of f N xs = Ok A /\ List.length A = Z.to_nat N /\
    forall k n, (k < List.length xs)%nat -> (n < Z.to_nat N)%nat ->
      List.length (nth n A []) = List.length xs /\
      exists a, f (nth k xs 0) = Ok a /\ nth k (nth n A []) 0 = nth n a 0.
Proof.
  intros HN Hne H. destruct xs as [|x xs]; [congruence|].
  inversion_clear H as [|? ? (a & A) H']. destruct (rows_of_ok f xs [a] H') as (rows & F & E).
  unfold array_of. cbn [rows_of]. rewrite A. cbn [bind]. rewrite E. cbn [bind].
  eexists; split; [reflexivity|].
  set (rw := [a] ++ rows). assert (F' : List.Forall2 (fun x a => f x = Ok a) (x :: xs) rw) by (constructor; auto).
  assert (LF : List.length (x :: xs) = List.length rw) by (clear -F'; induction F'; cbn; auto).
  assert (LV : forall A n (g : Z -> A), List.length (vmake n g) = Z.to_nat n).
  { intros. pose proof (zlen_vmake n g). unfold zlen in *. lia. }
  unfold transpose. split; [apply LV|]. intros k n Hk Hn.
  assert (NV : nth n (vmake N (fun i => vmake (zlen rw) (fun k => vget 0 (vget [] rw k) i))) [] =
               vmake (zlen rw) (fun k => vget 0 (vget [] rw k) (Z.of_nat n))).
  { pose proof (vget_vmake [] N (fun i => vmake (zlen rw) (fun k => vget 0 (vget [] rw k) i)) (Z.of_nat n) ltac:(lia)) as G.
    unfold vget at 1 in G. destruct (Z.ltb_spec (Z.of_nat n) 0); [lia|]. rewrite Nat2Z.id in G. exact G. }
  rewrite NV. split; [rewrite LV; unfold zlen; lia|].
  assert (FK : forall k, (k < List.length (x :: xs))%nat -> f (nth k (x :: xs) 0) = Ok (nth k rw [])).
  { clear -F'. induction F' as [|? ? ? ? ? ? IH]; intros k Hk; [cbn in Hk; lia|]. destruct k as [|k]; [auto|]. apply IH. cbn in Hk. lia. }
  exists (nth k rw []). split; [apply FK; auto|].
  rewrite nth_vget, vget_vmake by (unfold zlen; lia). rewrite nth_vget. f_equal.
  unfold vget. destruct (Z.ltb_spec (Z.of_nat k) 0); [lia|]. now rewrite Nat2Z.id.
Qed.
Lemma array_inv f N xs A : array_of f N xs = Ok A -> xs <> [] /\ List.Forall (fun x => exists a, f x = Ok a) xs.
Proof.
  unfold array_of. intros H. destruct (rows_of f xs None) as [o|] eqn:E; [|discriminate].
  split. { intros ->. cbn in E. injection E as <-. discriminate. }
  clear H. revert E. generalize (@None (list (list R))). revert o.
  induction xs as [|x xs IH]; intros o acc E; constructor; cbn [rows_of] in E; destruct (f x) as [a|] eqn:F; try discriminate; eauto.
Qed.

(** The arrays have N rows and one column per x, column k being the values
    at xvec[k]; they exist exactly when xvec is not empty and every single
    call succeeds. *)
Theorem C45_arrays : forall (fuel : nat) (xs : list R) (N : Z),
  (forall A, sbesselj_array fuel xs N = Ok A ->
     xs <> [] /\ List.length A = Z.to_nat N /\
     forall k n, (k < List.length xs)%nat -> (n < Z.to_nat N)%nat -> List.length (nth n A []) = List.length xs /\
       exists a, sbesselj fuel (nth k xs 0) N = Ok a /\ nth k (nth n A []) 0 = nth n a 0) /\
  (forall A, sbessely_array xs N = Ok A ->
     xs <> [] /\ List.length A = Z.to_nat N /\
     forall k n, (k < List.length xs)%nat -> (n < Z.to_nat N)%nat -> List.length (nth n A []) = List.length xs /\
       exists a, sbessely (nth k xs 0) N = Ok a /\ nth k (nth n A []) 0 = nth n a 0) /\
  (xs <> [] -> (forall x, In x xs -> exists a, sbesselj fuel x N = Ok a) -> exists A, sbesselj_array fuel xs N = Ok A) /\
  (xs <> [] -> (forall x, In x xs -> exists a, sbessely x N = Ok a) -> exists A, sbessely_array xs N = Ok A).
Proof.
  intros fuel xs N.
  assert (PJ : forall x a, sbesselj fuel x N = Ok a -> (0 <= N)%Z) by (intros x a E; apply C43_errors in E; lia).
  assert (PY : forall x a, sbessely x N = Ok a -> (0 <= N)%Z).
  { intros x a E. destruct (C42_errors x N) as (Q & _). destruct (Z_lt_ge_dec N 0); [|lia]. specialize (Q l). congruence. }
  assert (NE : xs <> [] -> exists x, In x xs) by (destruct xs; [congruence|intros _; eexists; left; auto]).
  split; [|split; [|split]].
  - intros A H. destruct (array_inv _ _ _ _ H) as [H0 H1]. split; [auto|].
    destruct (NE H0) as (x & Hx). pose proof (proj1 (Forall_forall _ _) H1 x Hx) as (a & E). apply PJ in E.
    destruct (array_ok _ N xs E H0 H1) as (A' & H' & G). unfold sbesselj_array in H. rewrite H' in H. injection H as <-. exact G.
  - intros A H. destruct (array_inv _ _ _ _ H) as [H0 H1]. split; [auto|].
    destruct (NE H0) as (x & Hx). pose proof (proj1 (Forall_forall _ _) H1 x Hx) as (a & E). apply PY in E.
    destruct (array_ok _ N xs E H0 H1) as (A' & H' & G). unfold sbessely_array in H. rewrite H' in H. injection H as <-. exact G.
  - intros H0 H1. destruct (NE H0) as (x & Hx). destruct (H1 x Hx) as (a & E). apply PJ in E.
    destruct (array_ok (fun x => sbesselj fuel x N) N xs E H0 (proj2 (Forall_forall _ _) H1)) as (A & H' & _). exists A; auto.
  - intros H0 H1. destruct (NE H0) as (x & Hx). destruct (H1 x Hx) as (a & E). apply PY in E.
    destruct (array_ok (fun x => sbessely x N) N xs E H0 (proj2 (Forall_forall _ _) H1)) as (A & H' & _). exists A; auto.
Qed.
Print Assumptions C45_arrays.

(** ** The hypotheses are met *)

(** x = 1/2, N = 40: y and j both exist, and so do the Hankel functions. *)
Example half_regime : 0 < Rabs (1 / 2) <= 1 /\ 0 < Rabs (1 / 2) <= INR 39 /\ (34 * (40 - 1) <= 2000)%nat.
Proof. rewrite Rabs_right by lra. split; [lra|]. split; [|lia]. rewrite INR_IZR_INZ. cbn [Z.of_nat Pos.of_succ_nat Pos.succ]. lra. Qed.
Example half_runs : exists jn h1 h2, sbesselj 2000 (1 / 2) (Z.of_nat 40) = Ok jn /\
  sbesselh1 2000 (1 / 2) (Z.of_nat 40) = Ok h1 /\ sbesselh2 2000 (1 / 2) (Z.of_nat 40) = Ok h2.
Proof.
  destruct half_regime as (A & B & C).
  destruct (C43_accuracy_small_arguments 2000 (1 / 2) 40 A ltac:(lia) C) as (jn & J & _).
  destruct (C45_hankel 2000 (1 / 2) 40 jn ltac:(lra) ltac:(lia) J) as (h1 & h2 & H1 & H2 & _). eauto 8.
Qed.
(** a 2-column array *)
Example array_runs : exists A, sbesselj_array 2000 [1 / 2; - 1 / 3] (Z.of_nat 40) = Ok A.
Proof.
  apply C45_arrays; [congruence|]. destruct half_regime as (A & _ & C).
  intros x [<-|[<-|[]]].
  - destruct (C43_accuracy_small_arguments 2000 (1 / 2) 40 A ltac:(lia) C) as (jn & J & _). eauto.
  - destruct (C43_accuracy_small_arguments 2000 (- 1 / 3) 40) as (jn & J & _); eauto; try lia. rewrite Rabs_left by lra. lra.
Qed.
(** an empty argument leaves the result unbound *)
Example array_empty fuel N : sbesselj_array fuel [] N = Raise (PlainException "UnboundLocalError: out").
Proof. reflexivity. Qed.
