(** * BesselSum: sum_n (2 n + 1) j_n(z)^2 = 1, with a remainder. *)
From Coq Require Import Reals Lra Lia Factorial.
From Coquelicot Require Import Coquelicot.
From Verif Require Import SpecBessel Bessel.
Open Scope R_scope.

Lemma sph_j_derive n : forall x, x <> 0 ->
  is_derive (sph_j n) x (INR n / x * sph_j n x - sph_j (S n) x).
Proof.
  intros x Hx. apply (f_derive sph_j).
  - intros y Hy. rewrite sph_j_1 by auto.
    apply (is_derive_ext_loc (fun y => sin y / y)).
    { apply (filter_imp (fun y : R => y <> 0)); [|apply near_nonzero; auto]. intros t Ht. rewrite sph_j_0; auto. }
    auto_derive; auto. field; auto.
  - intros y Hy. rewrite sph_j_1, sph_j_0 by auto.
    apply (is_derive_ext_loc (fun y => sin y / y ^ 2 - cos y / y)).
    { apply (filter_imp (fun y : R => y <> 0)); [|apply near_nonzero; auto]. intros t Ht. rewrite sph_j_1; auto. }
    auto_derive; [repeat split; auto; intros E; apply Hy; nra|]. field; auto.
  - intros k y Hy. apply sph_j_rec; auto.
  - auto.
Qed.

(** The partial sum over n < N. *)
Fixpoint jsum (N : nat) (x : R) : R :=
  match N with O => 0 | S n => jsum n x + (2 * INR n + 1) * sph_j n x ^ 2 end.

Definition jsum_d (N : nat) (x : R) : R := - 2 * INR N * sph_j (N - 1) x * sph_j N x.

Lemma jsum_derive N x : x <> 0 -> is_derive (jsum N) x (jsum_d N x).
Proof.
  intros Hx. induction N as [|N IH].
  - apply (is_derive_ext (fun _ : R => 0)); [reflexivity|]. evar_last; [apply is_derive_const|].
    unfold jsum_d, zero. cbn. ring.
  - pose proof (sph_j_derive N x Hx) as D.
    pose proof (is_derive_pow (sph_j N) 2 x _ D) as D2.
    pose proof (is_derive_scal (fun y => sph_j N y ^ 2) x (2 * INR N + 1) _ D2) as D3.
    pose proof (is_derive_plus _ _ _ _ _ IH D3) as D4. cbn [jsum].
    evar_last; [exact D4|]. 
    change (jsum_d N x + (2 * INR N + 1) * (INR 2 * (INR N / x * sph_j N x - sph_j (S N) x) * sph_j N x ^ 1) = jsum_d (S N) x).
    replace (INR 2) with 2 by (cbn; ring). rewrite pow_1. unfold jsum_d.
    destruct N as [|n].
    + cbn [INR Nat.sub]. field. auto.
    + replace (S n - 1)%nat with n by lia. replace (S (S n) - 1)%nat with (S n) by lia. rewrite (sph_j_rec n x Hx).
      rewrite (S_INR (S n)), (S_INR n). field. auto.
Qed.

Lemma sph_j_bound' n x : Rabs (sph_j n x) <= exp (x ^ 2 / 2) * (Rabs x ^ n / odd_fact (S n)).
Proof.
  rewrite sph_j_PS, Rabs_mult, <- RPow_abs. pose proof (PS_bound (n + 1) (x ^ 2)) as B.
  replace (Rabs (x ^ 2 / 2)) with (x ^ 2 / 2) in B by (rewrite Rabs_right; [reflexivity|nra]).
  replace (n + 1)%nat with (S n) in * by lia.
  unfold Rdiv in *. pose proof (pow_le (Rabs x) n (Rabs_pos _)).
  replace (exp (x ^ 2 * / 2) * (Rabs x ^ n * / odd_fact (S n))) with (Rabs x ^ n * (exp (x ^ 2 * / 2) * / odd_fact (S n))) by ring.
  apply Rmult_le_compat_l; auto.
Qed.

(** The size of the derivative on 0 < t <= z. *)
Definition jrem (N : nat) (z : R) : R := 2 * INR N * z ^ (2 * N) * exp (z ^ 2) / (odd_fact N * odd_fact (S N)).

Lemma jsum_d_bound N z t : (1 <= N)%nat -> 0 < t <= z ->
  Rabs (jsum_d N t) * z <= jrem N z.
Proof.
  intros HN [T0 Tz]. unfold jsum_d, jrem. destruct N as [|n]; [lia|]. replace (S n - 1)%nat with n by lia.
  pose proof (sph_j_bound' n t) as B1. pose proof (sph_j_bound' (S n) t) as B2.
  rewrite (Rabs_right t) in B1, B2 by lra.
  pose proof (odd_fact_pos (S n)) as O1. pose proof (odd_fact_pos (S (S n))) as O2.
  assert (E : exp (t ^ 2 / 2) <= exp (z ^ 2 / 2)).
  { destruct (Req_dec t z) as [->|]; [lra|]. left. apply exp_increasing. nra. }
  pose proof (exp_pos (t ^ 2 / 2)) as E0.
  assert (P1 : t ^ n <= z ^ n) by (apply pow_incr; lra).
  assert (P2 : t ^ (S n) <= z ^ (S n)) by (apply pow_incr; lra).
  pose proof (pow_le t n ltac:(lra)) as Q1. pose proof (pow_le t (S n) ltac:(lra)) as Q2.
  assert (C1 : Rabs (sph_j n t) <= exp (z ^ 2 / 2) * (z ^ n / odd_fact (S n))).
  { eapply Rle_trans; [exact B1|]. apply Rmult_le_compat; [lra| |lra|].
    - apply Rmult_le_pos; [lra|]. left. apply Rinv_0_lt_compat; auto.
    - apply Rmult_le_compat_r; [left; apply Rinv_0_lt_compat; auto|auto]. }
  assert (C2 : Rabs (sph_j (S n) t) <= exp (z ^ 2 / 2) * (z ^ (S n) / odd_fact (S (S n)))).
  { eapply Rle_trans; [exact B2|]. apply Rmult_le_compat; [lra| |lra|].
    - apply Rmult_le_pos; [lra|]. left. apply Rinv_0_lt_compat; auto.
    - apply Rmult_le_compat_r; [left; apply Rinv_0_lt_compat; auto|auto]. }
  pose proof (Rmult_le_compat _ _ _ _ (Rabs_pos _) (Rabs_pos _) C1 C2) as C.
  rewrite !Rabs_mult. rewrite (Rabs_left (-2)) by lra. pose proof (pos_INR (S n)) as IN. rewrite (Rabs_right (INR (S n))) by lra.
  replace (exp (z ^ 2)) with (exp (z ^ 2 / 2) * exp (z ^ 2 / 2)) by (rewrite <- exp_plus; f_equal; field).
  replace (2 * S n)%nat with (S (n + S n)) by lia. 
  replace (2 * INR (S n) * z ^ S (n + S n) * (exp (z ^ 2 / 2) * exp (z ^ 2 / 2)) / (odd_fact (S n) * odd_fact (S (S n))))
    with (2 * INR (S n) * z * ((exp (z ^ 2 / 2) * (z ^ n / odd_fact (S n))) * (exp (z ^ 2 / 2) * (z ^ (S n) / odd_fact (S (S n)))))).
  2:{ rewrite <- (tech_pow_Rmult z (n + S n)), pow_add. field. split; lra. }
  replace (- -2 * INR (S n) * Rabs (sph_j n t) * Rabs (sph_j (S n) t) * z) with (2 * INR (S n) * z * (Rabs (sph_j n t) * Rabs (sph_j (S n) t))) by ring.
  apply Rmult_le_compat_l; [|exact C]. apply Rmult_le_pos; lra.
Qed.

Lemma jsum_mvt N z e : (1 <= N)%nat -> 0 < e < z -> Rabs (jsum N z - jsum N e) <= jrem N z.
Proof.
  intros HN [E0 Ez].
  destruct (MVT_gen (jsum N) e z (jsum_d N)) as (c & Hc & Heq).
  - intros x [X1 X2]. rewrite Rmin_left in X1 by lra. rewrite Rmax_right in X2 by lra. apply jsum_derive. lra.
  - intros x [X1 X2]. rewrite Rmin_left in X1 by lra. rewrite Rmax_right in X2 by lra.
    apply continuity_pt_filterlim. apply (ex_derive_continuous (jsum N) x). exists (jsum_d N x). apply jsum_derive. lra.
  - rewrite Rmin_left, Rmax_right in Hc by lra. rewrite Heq, Rabs_mult.
    eapply Rle_trans; [|apply (jsum_d_bound N z c HN); lra].
    apply Rmult_le_compat_l; [apply Rabs_pos|]. rewrite Rabs_right; lra.
Qed.

(** j_n near 0 *)
Lemma sph_j_near0 n e : (1 <= n)%nat -> 0 < e <= 1 -> sph_j n e ^ 2 <= exp 1 * e.
Proof.
  intros Hn [E0 E1]. pose proof (sph_j_bound n e) as B. rewrite (Rabs_right e) in B by lra.
  assert (F1 : 1 <= INR (fact n)) by (apply (le_INR 1), lt_O_fact).
  assert (P : e ^ n <= e).
  { destruct n as [|m]; [lia|]. cbn [pow]. rewrite <- (Rmult_1_r e) at 3. apply Rmult_le_compat_l; [lra|].
    rewrite <- (pow1 m). apply pow_incr; lra. }
  pose proof (pow_le e n ltac:(lra)) as P0.
  assert (Q : e ^ n / INR (fact n) <= e).
  { apply Rle_trans with (e ^ n); [|exact P]. apply (Rmult_le_reg_r (INR (fact n))); [lra|].
    unfold Rdiv. rewrite Rmult_assoc, Rinv_l, Rmult_1_r by lra. nra. }
  assert (Q0 : 0 <= e ^ n / INR (fact n)) by (apply Rmult_le_pos; [auto|left; apply Rinv_0_lt_compat; lra]).
  pose proof (exp_pos (e ^ 2 / 2)) as X0.
  assert (X1 : exp (e ^ 2 / 2) <= exp (1 / 2)).
  { assert (e ^ 2 / 2 < 1 / 2 \/ e ^ 2 / 2 = 1 / 2) as [L|L] by nra; [left; apply exp_increasing; auto|rewrite L; lra]. }
  assert (XX : exp (1 / 2) * exp (1 / 2) = exp 1) by (rewrite <- exp_plus; f_equal; field).
  assert (B' : Rabs (sph_j n e) <= exp (1 / 2) * e).
  { eapply Rle_trans; [exact B|]. apply Rmult_le_compat; lra. }
  rewrite <- (pow2_abs (sph_j n e)). pose proof (Rabs_pos (sph_j n e)) as A0.
  apply Rle_trans with ((exp (1 / 2) * e) ^ 2); [apply pow_incr; split; auto|].
  replace ((exp (1 / 2) * e) ^ 2) with (exp (1 / 2) * exp (1 / 2) * (e * e)) by ring. rewrite XX.
  apply Rmult_le_compat_l; [left; apply exp_pos|]. nra.
Qed.

Lemma jsum_near0 N e : (1 <= N)%nat -> 0 < e <= 1 ->
  Rabs (jsum N e - sph_j 0 e ^ 2) <= INR N * (2 * INR N + 1) * exp 1 * e.
Proof.
  intros HN He. induction N as [|N IH]; [lia|]. destruct N as [|n].
  - cbn [jsum INR]. replace (0 + (2 * 0 + 1) * sph_j 0 e ^ 2 - sph_j 0 e ^ 2) with 0 by ring. rewrite Rabs_R0.
    pose proof (exp_pos 1). nra.
  - cbn [jsum] in *. fold (jsum (S n) e) in *. specialize (IH ltac:(lia)).
    pose proof (sph_j_near0 (S n) e ltac:(lia) He) as J. pose proof (pow2_ge_0 (sph_j (S n) e)) as J0.
    set (a := jsum n e + (2 * INR n + 1) * sph_j n e ^ 2) in *. set (b := sph_j (S n) e ^ 2) in *. clearbody a b.
    pose proof (pos_INR (S n)) as IN. rewrite (S_INR (S n)). set (k := INR (S n)) in *. clearbody k.
    set (c := exp 1 * e) in *. assert (C0 : 0 < c) by (unfold c; pose proof (exp_pos 1); nra).
    replace (k * (2 * k + 1) * exp 1 * e) with (k * (2 * k + 1) * c) in IH by (unfold c; ring).
    replace ((k + 1) * (2 * (k + 1) + 1) * exp 1 * e) with ((k + 1) * (2 * (k + 1) + 1) * c) by (unfold c; ring).
    clearbody c.
    replace (a + (2 * k + 1) * b - sph_j 0 e ^ 2) with ((a - sph_j 0 e ^ 2) + (2 * k + 1) * b) by ring.
    eapply Rle_trans; [apply Rabs_triang|]. rewrite (Rabs_right ((2 * k + 1) * b)) by nra.
    assert ((2 * k + 1) * b <= (2 * k + 1) * c) by (apply Rmult_le_compat_l; lra).
    assert (0 <= k * c) by (apply Rmult_le_pos; lra). nra.
Qed.

Lemma j0_near0 e : 0 < e <= 1 -> Rabs (sph_j 0 e ^ 2 - 1) <= 2 * e.
Proof.
  intros He. rewrite sph_j_0 by lra.
  assert (U : sin e <= e) by (left; apply sin_lt_x; lra).
  assert (L : e - e ^ 3 / 6 <= sin e).
  { pose proof (SIN_bound e). destruct (pre_sin_bound e 0 ltac:(lra) ltac:(lra)) as [L _].
    cbn in L. unfold sin_approx, sin_term in L. cbn in L. lra. }
  assert (Q1 : sin e / e <= 1) by (apply (Rmult_le_reg_r e); [lra|]; unfold Rdiv; rewrite Rmult_assoc, Rinv_l by lra; lra).
  assert (Q2 : 1 - e ^ 2 / 6 <= sin e / e).
  { apply (Rmult_le_reg_r e); [lra|]. unfold Rdiv at 2. rewrite Rmult_assoc, Rinv_l by lra. nra. }
  set (q := sin e / e) in *. clearbody q. assert (e ^ 2 <= e) by nra. assert (0 <= q) by nra. rewrite Rabs_left1 by nra. nra.
Qed.

(** The remainder, first for z > 0. *)
Lemma jsum_rem_pos N z : (1 <= N)%nat -> 0 < z -> Rabs (jsum N z - 1) <= jrem N z.
Proof.
  intros HN Hz. set (K := INR N * (2 * INR N + 1) * exp 1 + 2).
  assert (IN : 1 <= INR N) by (apply (le_INR 1); auto).
  assert (K0 : 0 < K) by (unfold K; pose proof (exp_pos 1); assert (0 < INR N * (2 * INR N + 1)) by nra; nra).
  apply le_epsilon. intros d Hd.
  set (e := Rmin (Rmin (z / 2) 1) (d / K)).
  assert (DK : 0 < d / K) by (apply Rdiv_lt_0_compat; auto).
  assert (E : 0 < e <= 1 /\ e < z /\ K * e <= d).
  { unfold e. pose proof (Rmin_l (Rmin (z / 2) 1) (d / K)). pose proof (Rmin_r (Rmin (z / 2) 1) (d / K)).
    pose proof (Rmin_l (z / 2) 1). pose proof (Rmin_r (z / 2) 1).
    assert (0 < Rmin (Rmin (z / 2) 1) (d / K)) by (repeat apply Rmin_glb_lt; lra).
    split; [lra|]. split; [lra|]. replace d with (K * (d / K)) at 2 by (field; lra). apply Rmult_le_compat_l; lra. }
  destruct E as (E & Ez & Ed).
  pose proof (jsum_mvt N z e HN ltac:(lra)) as A. pose proof (jsum_near0 N e HN E) as B. pose proof (j0_near0 e E) as C.
  replace (jsum N z - 1) with ((jsum N z - jsum N e) + ((jsum N e - sph_j 0 e ^ 2) + (sph_j 0 e ^ 2 - 1))) by ring.
  eapply Rle_trans; [apply Rabs_triang|]. apply Rplus_le_compat; [exact A|].
  eapply Rle_trans; [apply Rabs_triang|]. unfold K in Ed. lra.
Qed.

Lemma sph_j_even n x : sph_j n (- x) ^ 2 = sph_j n x ^ 2.
Proof.
  rewrite !sph_j_PS. replace ((- x) ^ 2) with (x ^ 2) by ring. rewrite !Rpow_mult_distr. f_equal.
  rewrite <- !pow_mult, !(Nat.mul_comm n 2), !pow_mult. f_equal. ring.
Qed.
Lemma jsum_even N x : jsum N (- x) = jsum N x.
Proof. induction N as [|N IH]; cbn [jsum]; [reflexivity|]. rewrite IH, sph_j_even. reflexivity. Qed.

Theorem jsum_rem N z : (1 <= N)%nat -> z <> 0 -> Rabs (jsum N z - 1) <= jrem N z.
Proof.
  intros HN Hz. destruct (Rlt_dec 0 z); [apply jsum_rem_pos; auto|].
  rewrite <- jsum_even. replace (jrem N z) with (jrem N (- z)).
  - apply jsum_rem_pos; auto. lra.
  - unfold jrem. replace ((- z) ^ 2) with (z ^ 2) by ring. do 3 f_equal. rewrite !pow_mult. f_equal. ring.
Qed.

Lemma jsum_incr N k x : jsum N x <= jsum (k + N) x.
Proof.
  induction k as [|k IH]; cbn [jsum Nat.add]; [lra|]. pose proof (pow2_ge_0 (sph_j (k + N) x)). pose proof (pos_INR (k + N)). nra.
Qed.

Lemma jrem_bound n z : jrem (S n) z <= z ^ 2 * exp (z ^ 2) * ((z ^ 2) ^ n / INR (fact n)).
Proof.
  unfold jrem. rewrite pow_mult. cbn [odd_fact]. fold (odd_fact (S n)).
  change ((2 * INR n + 1) * odd_fact n) with (odd_fact (S n)).
  pose proof (odd_fact_pos (S n)) as O1. pose proof (exp_pos (z ^ 2)) as E. pose proof (odd_fact_ge n) as G.
  assert (F1 : 1 <= INR (fact n)) by (apply (le_INR 1), lt_O_fact).
  assert (P : 0 <= (z ^ 2) ^ n) by (apply pow_le, pow2_ge_0). pose proof (pow2_ge_0 z) as Z. pose proof (pos_INR (S n)) as I.
  set (o := odd_fact (S n)) in *. set (q := (z ^ 2) ^ n) in *. 
  replace ((z ^ 2) ^ S n) with (z ^ 2 * q) by reflexivity. set (y := z ^ 2) in *. set (k := INR (S n)) in *. set (f := INR (fact n)) in *.
  set (x := exp y) in *. clearbody o q k f x y.
  replace (2 * k * (y * q) * x / (o * ((2 * k + 1) * o))) with (y * x * (q * (2 * k / ((2 * k + 1) * o * o)))) by (field; lra).
  apply Rmult_le_compat_l; [apply Rmult_le_pos; lra|]. apply Rmult_le_compat_l; [lra|].
  apply (Rmult_le_reg_r ((2 * k + 1) * o * o * f)).
  { apply Rmult_lt_0_compat; [|lra]. apply Rmult_lt_0_compat; [|lra]. apply Rmult_lt_0_compat; lra. }
  replace (2 * k / ((2 * k + 1) * o * o) * ((2 * k + 1) * o * o * f)) with (2 * k * f) by (field; lra).
  replace (/ f * ((2 * k + 1) * o * o * f)) with ((2 * k + 1) * (o * o)) by (field; lra).
  apply Rmult_le_compat; [lra|lra|lra|]. nra.
Qed.
Lemma jrem_pos N z : 0 <= jrem N z.
Proof.
  unfold jrem. pose proof (odd_fact_pos N). pose proof (odd_fact_pos (S N)). pose proof (exp_pos (z ^ 2)). pose proof (pos_INR N).
  apply Rmult_le_pos; [|left; apply Rinv_0_lt_compat, Rmult_lt_0_compat; auto].
  apply Rmult_le_pos; [|lra]. apply Rmult_le_pos; [lra|]. rewrite pow_mult. apply pow_le, pow2_ge_0.
Qed.
Lemma jrem_lim z : is_lim_seq (fun N => jrem N z) 0.
Proof.
  apply is_lim_seq_incr_1.
  apply (is_lim_seq_le_le (fun _ => 0) _ (fun n => z ^ 2 * exp (z ^ 2) * ((z ^ 2) ^ n / INR (fact n)))).
  - intros n. split; [apply jrem_pos|apply jrem_bound].
  - apply is_lim_seq_const.
  - replace (Finite 0) with (Rbar_mult (z ^ 2 * exp (z ^ 2)) 0) by (cbn; f_equal; ring).
    apply is_lim_seq_scal_l. apply is_lim_seq_Reals. apply cv_speed_pow_fact.
Qed.

Lemma jsum_lim z : z <> 0 -> is_lim_seq (fun N => jsum N z) 1.
Proof.
  intros Hz. apply (is_lim_seq_ext (fun N => (jsum N z - 1) + 1)); [intros; ring|].
  replace (Finite 1) with (Finite (0 + 1)) by (f_equal; ring). apply is_lim_seq_plus'; [|apply is_lim_seq_const].
  apply is_lim_seq_abs_0. apply (is_lim_seq_le_le_loc (fun _ => 0) _ (fun N => jrem N z)).
  - exists 1%nat. intros N HN. split; [apply Rabs_pos|apply jsum_rem; auto].
  - apply is_lim_seq_const.
  - apply jrem_lim.
Qed.
Lemma jsum_le1 N z : z <> 0 -> jsum N z <= 1.
Proof.
  intros Hz. apply (is_lim_seq_le (fun _ => jsum N z) (fun k => jsum (k + N) z) (jsum N z) 1).
  - intros k. apply jsum_incr.
  - apply is_lim_seq_const.
  - apply (is_lim_seq_incr_n (fun k => jsum k z) N). apply jsum_lim; auto.
Qed.
