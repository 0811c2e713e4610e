(** * Bessel: facts about the spherical Bessel functions of SpecBessel. *)
From Coq Require Import Reals Lra Lia Factorial.
From Coquelicot Require Import Coquelicot.
From Verif Require Import SpecBessel.
Open Scope R_scope.

Lemma odd_fact_pos m : 0 < odd_fact m.
Proof.
  induction m as [|m IH]; cbn [odd_fact]; [lra|]. pose proof (pos_INR m). apply Rmult_lt_0_compat; lra.
Qed.
Lemma odd_fact_ge m : INR (fact m) <= odd_fact (S m).
Proof.
  induction m as [|m IH]; [cbn; lra|].
  change (odd_fact (S (S m))) with ((2 * INR (S m) + 1) * odd_fact (S m)).
  change (fact (S m)) with ((S m * fact m)%nat). rewrite mult_INR. pose proof (pos_INR m).
  rewrite !S_INR in *. pose proof (INR_fact_lt_0 m). 
  apply Rmult_le_compat; try lra.
Qed.

(** ** The series *)

(** c m z k: the k-th term of PS m z = sum_k (-z/2)^k / (k! (2(m+k)-1)!!) *)
Definition ct (m : nat) (z : R) (k : nat) : R := (- (z / 2)) ^ k / (INR (fact k) * odd_fact (m + k)).
Definition PS (m : nat) (z : R) : R := Series (ct m z).

Lemma odd_fact_mono m k : odd_fact m <= odd_fact (m + k).
Proof.
  induction k as [|k IH]; [rewrite Nat.add_0_r; lra|].
  rewrite Nat.add_succ_r. cbn [odd_fact]. pose proof (pos_INR (m + k)). pose proof (odd_fact_pos (m + k)). nra.
Qed.

Lemma ct_bound m z k : Rabs (ct m z k) <= / odd_fact m * (Rabs (z / 2) ^ k / INR (fact k)).
Proof.
  unfold ct. pose proof (INR_fact_lt_0 k). pose proof (odd_fact_pos (m + k)). pose proof (odd_fact_pos m).
  pose proof (odd_fact_mono m k).
  rewrite Rabs_div by (apply Rgt_not_eq, Rmult_lt_0_compat; auto).
  rewrite <- RPow_abs, Rabs_Ropp, (Rabs_right (_ * _)) by (left; apply Rmult_lt_0_compat; auto).
  unfold Rdiv. rewrite Rinv_mult.
  pose proof (pow_le (Rabs (z * / 2)) k (Rabs_pos _)).
  assert (/ odd_fact (m + k) <= / odd_fact m) by (apply Rinv_le_contravar; auto).
  assert (0 < / INR (fact k)) by (apply Rinv_0_lt_compat; auto).
  rewrite (Rmult_comm (/ odd_fact m)). rewrite Rmult_assoc.
  apply Rmult_le_compat_l; auto. apply Rmult_le_compat_l; lra.
Qed.
Lemma exp_terms y : is_series (fun k => y ^ k / INR (fact k)) (exp y).
Proof.
  apply (is_series_ext (fun k => scal (y ^ k) (/ INR (fact k)))); [reflexivity|].
  apply is_exp_Reals.
Qed.
Lemma ct_ex m z : ex_series (fun k => Rabs (ct m z k)).
Proof.
  apply (ex_series_le (K := R_AbsRing) (V := R_CompleteNormedModule)) with (b := fun k => / odd_fact m * (Rabs (z / 2) ^ k / INR (fact k))).
  - intros k. change (Rabs (Rabs (ct m z k)) <= / odd_fact m * (Rabs (z / 2) ^ k / INR (fact k))).
    rewrite Rabs_Rabsolu. apply ct_bound.
  - apply (ex_series_scal (V := R_NormedModule) (/ odd_fact m)). eexists. apply exp_terms.
Qed.
Lemma PS_is m z : is_series (ct m z) (PS m z).
Proof. apply Series_correct, ex_series_Rabs, ct_ex. Qed.

Lemma PS_bound m z : Rabs (PS m z) <= exp (Rabs (z / 2)) / odd_fact m.
Proof.
  unfold PS. eapply Rle_trans; [apply Series_Rabs, ct_ex|].
  replace (exp (Rabs (z / 2)) / odd_fact m) with (Series (fun k => / odd_fact m * (Rabs (z / 2) ^ k / INR (fact k)))).
  - apply Series_le; [intros k; split; [apply Rabs_pos|apply ct_bound]|].
    apply (ex_series_scal (V := R_NormedModule) (/ odd_fact m)). eexists. apply exp_terms.
  - rewrite Series_scal_l. rewrite (is_series_unique _ _ (exp_terms (Rabs (z / 2)))). unfold Rdiv. ring.
Qed.

(** PS m + z PS (m+2) = (2 m + 1) PS (m+1) *)
Lemma PS_rec m z : PS m z + z * PS (S (S m)) z = (2 * INR m + 1) * PS (S m) z.
Proof.
  assert (A : is_series (fun k => ct m z k + match k with O => 0 | S k => z * ct (S (S m)) z k end)
                (PS m z + z * PS (S (S m)) z)).
  { apply (is_series_plus (K := R_AbsRing) (V := R_NormedModule) (ct m z) _ (PS m z) (z * PS (S (S m)) z)); [apply PS_is|].
    apply is_series_decr_1.
    match goal with |- is_series ?f ?l => replace l with (z * PS (S (S m)) z) end.
    - apply (is_series_scal (K := R_AbsRing) (V := R_NormedModule) z), PS_is.
    - change (z * PS (S (S m)) z = z * PS (S (S m)) z + - 0). ring. }
  assert (B : is_series (fun k => (2 * INR m + 1) * ct (S m) z k) ((2 * INR m + 1) * PS (S m) z)).
  { apply (is_series_scal (K := R_AbsRing) (V := R_NormedModule) (2 * INR m + 1)), PS_is. }
  rewrite <- (is_series_unique _ _ A), <- (is_series_unique _ _ B).
  apply Series_ext. intros k. unfold ct. destruct k as [|k].
  - rewrite !Nat.add_0_r. cbn [odd_fact fact pow]. pose proof (odd_fact_pos m). pose proof (pos_INR m).
    change (INR 1) with 1. field. split; lra.
  - replace (S (S m) + k)%nat with (S (S (m + k))) by lia.
    replace (m + S k)%nat with (S (m + k)) by lia. replace (S m + S k)%nat with (S (S (m + k))) by lia.
    change (fact (S k)) with ((S k * fact k)%nat). rewrite mult_INR, !S_INR.
    cbn [pow odd_fact]. rewrite !S_INR, plus_INR. pose proof (pos_INR m). pose proof (pos_INR k).
    pose proof (INR_fact_lt_0 k). pose proof (odd_fact_pos (m + k)). field. repeat split; lra.
Qed.

(** Values at m = 0, 1 *)
Lemma fact_2k k : INR (fact (2 * k)) = 2 ^ k * (INR (fact k) * odd_fact k).
Proof.
  induction k as [|k IH]; [cbn; ring|].
  replace (2 * S k)%nat with (S (S (2 * k))) by lia.
  change (fact (S (S (2 * k)))) with ((S (S (2 * k)) * (S (2 * k) * fact (2 * k)))%nat).
  rewrite !mult_INR, IH. change (fact (S k)) with ((S k * fact k)%nat). rewrite mult_INR.
  cbn [pow odd_fact]. rewrite !S_INR, mult_INR. cbn [INR]. ring.
Qed.
Lemma PS_0 x : PS 0 (x ^ 2) = cos x.
Proof.
  apply is_series_unique.
  unfold cos. destruct (exist_cos (Rsqr x)) as [a H]. unfold cos_in in H. apply is_series_Reals in H.
  eapply is_series_ext; [|exact H]. intros k. match goal with |- ?a = ?b => change (@eq R a b) end. cbn beta. unfold cos_n, ct. rewrite Nat.add_0_l, fact_2k.
  replace (- (x ^ 2 / 2)) with ((-1) * Rsqr x * / 2) by (unfold Rsqr; field).
  rewrite !Rpow_mult_distr, pow_inv.
  pose proof (INR_fact_lt_0 k). pose proof (odd_fact_pos k). pose proof (pow_lt 2 k ltac:(lra)). field. repeat split; lra.
Qed.
Lemma PS_1 x : x <> 0 -> PS 1 (x ^ 2) = sin x / x.
Proof.
  intros Hx. apply is_series_unique.
  unfold sin. destruct (exist_sin (Rsqr x)) as [a H]. unfold sin_in in H. apply is_series_Reals in H.
  replace (x * a / x) with a by (field; auto).
  eapply is_series_ext; [|exact H]. intros k. match goal with |- ?a = ?b => change (@eq R a b) end. cbn beta. unfold sin_n, ct.
  replace (2 * k + 1)%nat with (S (2 * k)) by lia. change (fact (S (2 * k))) with ((S (2 * k) * fact (2 * k))%nat).
  rewrite mult_INR, S_INR, mult_INR, fact_2k. change (1 + k)%nat with (S k). cbn [odd_fact]. change (INR 2) with 2.
  replace (- (x ^ 2 / 2)) with ((-1) * Rsqr x * / 2) by (unfold Rsqr; field).
  rewrite !Rpow_mult_distr, pow_inv. pose proof (pos_INR k).
  pose proof (INR_fact_lt_0 k). pose proof (odd_fact_pos k). pose proof (pow_lt 2 k ltac:(lra)). field. repeat split; lra.
Qed.

(** ** j_n *)

Lemma sph_j_PS n x : sph_j n x = x ^ n * PS (n + 1) (x ^ 2).
Proof. reflexivity. Qed.
Lemma sph_j_0 x : x <> 0 -> sph_j 0 x = sin x / x.
Proof. intros H. rewrite sph_j_PS. change (0 + 1)%nat with 1%nat. rewrite PS_1 by auto. cbn [pow]. ring. Qed.
Lemma sph_j_1 x : x <> 0 -> sph_j 1 x = sin x / x ^ 2 - cos x / x.
Proof.
  intros H. rewrite sph_j_PS. pose proof (PS_rec 0 (x ^ 2)) as E. rewrite PS_0, PS_1 in E by auto.
  change (INR 0) with 0 in E. change (1 + 1)%nat with 2%nat.
  assert (F : x ^ 2 * PS 2 (x ^ 2) = sin x / x - cos x) by lra.
  apply (Rmult_eq_reg_l x); auto. transitivity (x ^ 2 * PS 2 (x ^ 2)); [ring|]. rewrite F. field; auto.
Qed.
Lemma sph_j_rec n x : x <> 0 -> sph_j (S (S n)) x = (2 * INR n + 3) / x * sph_j (S n) x - sph_j n x.
Proof.
  intros H. rewrite !sph_j_PS. pose proof (PS_rec (n + 1) (x ^ 2)) as E.
  change (S (S n) + 1)%nat with (S (S (n + 1))). change (S n + 1)%nat with (S (n + 1)).
  rewrite plus_INR in E. change (INR 1) with 1 in E. cbn [pow].
  transitivity (x ^ n * (x ^ 2 * PS (S (S (n + 1))) (x ^ 2))); [cbn [pow]; ring|].
  replace (x ^ 2 * PS (S (S (n + 1))) (x ^ 2)) with ((2 * (INR n + 1) + 1) * PS (S (n + 1)) (x ^ 2) - PS (n + 1) (x ^ 2)) by lra.
  cbn [pow]. field; auto.
Qed.

(** j_n(x) -> 0 as n grows. *)
Lemma sph_j_bound n x : Rabs (sph_j n x) <= exp (x ^ 2 / 2) * (Rabs x ^ n / INR (fact n)).
Proof.
  rewrite sph_j_PS, Rabs_mult, <- RPow_abs. pose proof (PS_bound (n + 1) (x ^ 2)) as B.
  replace (Rabs (x ^ 2 / 2)) with (x ^ 2 / 2) in B by (rewrite Rabs_right; [reflexivity|nra]).
  pose proof (odd_fact_ge n) as O. replace (n + 1)%nat with (S n) in * by lia.
  pose proof (INR_fact_lt_0 n). pose proof (exp_pos (x ^ 2 / 2)).
  assert (/ odd_fact (S n) <= / INR (fact n)) by (apply Rinv_le_contravar; auto).
  unfold Rdiv in *. pose proof (pow_le (Rabs x) n (Rabs_pos _)).
  apply Rle_trans with (Rabs x ^ n * (exp (x ^ 2 * / 2) * / odd_fact (S n))); [apply Rmult_le_compat_l; auto|].
  replace (exp (x ^ 2 * / 2) * (Rabs x ^ n * / INR (fact n))) with (Rabs x ^ n * (exp (x ^ 2 * / 2) * / INR (fact n))) by ring.
  apply Rmult_le_compat_l; auto. apply Rmult_le_compat_l; lra.
Qed.
Lemma sph_j_lim x : is_lim_seq (fun n => sph_j n x) 0.
Proof.
  apply is_lim_seq_abs_0.
  apply (is_lim_seq_le_le (fun _ => 0) _ (fun n => exp (x ^ 2 / 2) * (Rabs x ^ n / INR (fact n)))).
  - intros n. split; [apply Rabs_pos|apply sph_j_bound].
  - apply is_lim_seq_const.
  - replace (Finite 0) with (Rbar_mult (exp (x ^ 2 / 2)) 0) by (cbn; f_equal; ring).
    apply is_lim_seq_scal_l. apply is_lim_seq_Reals. apply cv_speed_pow_fact.
Qed.

(** ** Two-term sequences with the recurrence *)

Definition brec (x : R) (f : nat -> R) (N : nat) : Prop :=
  forall n, (S (S n) < N)%nat -> f (S (S n)) = (2 * INR n + 3) / x * f (S n) - f n.

Lemma sph_y_rec n x : sph_y (S (S n)) x = (2 * INR n + 3) / x * sph_y (S n) x - sph_y n x.
Proof. unfold sph_y. cbn [sph_y2]. destruct (sph_y2 n x). reflexivity. Qed.
Lemma sph_y_0 x : sph_y 0 x = - cos x / x. Proof. reflexivity. Qed.
Lemma sph_y_1 x : sph_y 1 x = - cos x / x ^ 2 - sin x / x. Proof. reflexivity. Qed.

(** The Casoratian of two solutions is constant. *)
Lemma casoratian x f g N n : brec x f N -> brec x g N -> (S n < N)%nat ->
  f (S n) * g n - f n * g (S n) = f 1%nat * g 0%nat - f 0%nat * g 1%nat.
Proof.
  intros F G. induction n as [|n IH]; intros H; auto.
  rewrite <- IH by lia. rewrite F, G by lia. ring.
Qed.

Lemma cross_product n x : x <> 0 ->
  sph_j (S n) x * sph_y n x - sph_j n x * sph_y (S n) x = 1 / x ^ 2.
Proof.
  intros H.
  rewrite (casoratian x (fun n => sph_j n x) (fun n => sph_y n x) (S (S n)) n).
  - rewrite sph_j_0, sph_j_1, sph_y_0, sph_y_1 by auto.
    pose proof (sin2_cos2 x) as E. unfold Rsqr in E.
    replace ((sin x / x ^ 2 - cos x / x) * (- cos x / x) - sin x / x * (- cos x / x ^ 2 - sin x / x))
      with ((sin x * sin x + cos x * cos x) / x ^ 2) by (field; auto).
    rewrite E. reflexivity.
  - intros k _. apply sph_j_rec; auto.
  - intros k _. apply sph_y_rec.
  - lia.
Qed.

(** ** The differential equation *)

Section Ode.
Variable f : nat -> R -> R.
Hypothesis f0 : forall x, x <> 0 -> is_derive (f 0) x (- f 1 x).
Hypothesis f1 : forall x, x <> 0 -> is_derive (f 1) x (f 0%nat x - 2 / x * f 1%nat x).
Hypothesis fr : forall n x, x <> 0 -> f (S (S n)) x = (2 * INR n + 3) / x * f (S n) x - f n x.

Lemma near_nonzero (x : R) : x <> 0 -> locally x (fun y : R => y <> 0).
Proof.
  intros H. assert (P : 0 < Rabs x) by (apply Rabs_pos_lt; auto).
  exists (mkposreal _ P). intros y B E. subst y. unfold ball in B. cbn in B. unfold AbsRing_ball, abs, minus, plus, opp in B. cbn in B.
  rewrite Rplus_0_l, Rabs_Ropp in B. lra.
Qed.

Lemma f_derive n : forall x, x <> 0 ->
  is_derive (f n) x (INR n / x * f n x - f (S n) x) /\
  is_derive (f (S n)) x (f n x - (INR n + 2) / x * f (S n) x).
Proof.
  induction n as [|n IH]; intros x Hx.
  - split.
    + replace (INR 0 / x * f 0 x - f 1 x) with (- f 1%nat x) by (cbn [INR]; field; auto). apply f0; auto.
    + replace (f 0 x - (INR 0 + 2) / x * f 1 x) with (f 0%nat x - 2 / x * f 1%nat x) by (cbn [INR]; field; auto). apply f1; auto.
  - destruct (IH x Hx) as [A B]. split.
    + replace (INR (S n) / x * f (S n) x - f (S (S n)) x) with (f n x - (INR n + 2) / x * f (S n) x); auto.
      rewrite fr by auto. rewrite S_INR. field; auto.
    + apply (is_derive_ext_loc (fun y => (2 * INR n + 3) / y * f (S n) y - f n y)).
      { apply (filter_imp (fun y : R => y <> 0)); [|apply near_nonzero; auto]. intros y Hy. rewrite fr by auto. reflexivity. }
      replace (f (S n) x - (INR (S n) + 2) / x * f (S (S n)) x) with
        (minus (plus (mult (- (2 * INR n + 3) / x ^ 2) (f (S n) x)) (mult ((2 * INR n + 3) / x) (f n x - (INR n + 2) / x * f (S n) x)))
               (INR n / x * f n x - f (S n) x)).
      2:{ rewrite fr by auto. rewrite S_INR. unfold minus, plus, mult, opp. cbn. field; auto. }
      apply (is_derive_minus (fun y => (2 * INR n + 3) / y * f (S n) y) (f n)); auto.
      apply (is_derive_mult (fun y => (2 * INR n + 3) / y) (f (S n))); auto.
      { evar_last; [apply (is_derive_scal (fun y => / y) x (2 * INR n + 3)), is_derive_inv; [apply is_derive_id|auto]|].
        unfold one. cbn. field; auto. }
      intros; apply Rmult_comm.
Qed.

Lemma f_solves n : solves_bessel n (f n).
Proof.
  exists (fun x => INR n / x * f n x - f (S n) x).
  exists (fun x => - INR n / x ^ 2 * f n x + INR n / x * (INR n / x * f n x - f (S n) x) - (f n x - (INR n + 2) / x * f (S n) x)).
  intros x Hx. destruct (f_derive n x Hx) as [A B]. split; [exact A|]. split.
  - apply (is_derive_minus (fun y => INR n / y * f n y) (f (S n))); auto.
    apply (is_derive_mult (fun y => INR n / y) (f n)); auto.
    { evar_last; [apply (is_derive_scal (fun y => / y) x (INR n)), is_derive_inv; [apply is_derive_id|auto]|].
      unfold one. cbn. field; auto. }
    intros; apply Rmult_comm.
  - field; auto.
Qed.
End Ode.

Lemma sph_y_solves n : solves_bessel n (sph_y n).
Proof.
  apply (f_solves sph_y).
  - intros x Hx. rewrite sph_y_1. unfold sph_y, sph_y2, fst. auto_derive; auto. field; auto.
  - intros x Hx. rewrite sph_y_0, sph_y_1. unfold sph_y, sph_y2, fst. auto_derive.
    { repeat split; auto; intros E; apply Hx; nra. } field; auto.
  - intros n' x _. apply sph_y_rec.
Qed.
Lemma sph_j_solves n : solves_bessel n (sph_j n).
Proof.
  apply (f_solves sph_j).
  - intros x Hx. rewrite sph_j_1 by auto.
    apply (is_derive_ext_loc (fun y => sin y / y)).
    { apply (filter_imp (fun y : R => y <> 0)); [|apply near_nonzero; auto]. intros y Hy. rewrite sph_j_0; auto. }
    auto_derive; auto. field; auto.
  - intros x Hx. rewrite sph_j_1, sph_j_0 by auto.
    apply (is_derive_ext_loc (fun y => sin y / y ^ 2 - cos y / y)).
    { apply (filter_imp (fun y : R => y <> 0)); [|apply near_nonzero; auto]. intros y Hy. rewrite sph_j_1; auto. }
    auto_derive; [repeat split; auto; intros E; apply Hx; nra|]. field; auto.
  - intros n' x Hx. apply sph_j_rec; auto.
Qed.
