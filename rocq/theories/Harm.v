(** * Harm: Fourier sequences of the spherical harmonics in theta.

    Pure mathematics (exact reals), no model content.  A trigonometric
    polynomial sum_k a_k e^{ik theta} is the finitely supported sequence a.
    [Sq a]: multiplication by 2i sin; [Cq a]: by 2 cos; [Dq a]: -i d/dtheta. *)
From Coq Require Import ZArith List Lia Reals Lra FunctionalExtensionality.
From Verif Require Import Py PyFacts Sums.
Open Scope R_scope.

Definition seq := Z -> R.
Definition Sq (a : seq) : seq := fun k => a (k - 1)%Z - a (k + 1)%Z.
Definition Cq (a : seq) : seq := fun k => a (k - 1)%Z + a (k + 1)%Z.
Definition Dq (a : seq) : seq := fun k => IZR k * a k.
Definition cosq (a : seq) : seq := fun k => Cq a k / 2.
Definition sinDq (a : seq) : seq := fun k => Sq (Dq a) k / 2.
Definition e0 : seq := fun k => if (k =? 0)%Z then 1 else 0.
Definition supp (P : Z) (a : seq) : Prop := forall k, (P < Z.abs k)%Z -> a k = 0.

Fixpoint Spow (j : nat) (a : seq) : seq := match j with O => a | S j => Sq (Spow j a) end.

Lemma supp_mono P Q a : (P <= Q)%Z -> supp P a -> supp Q a.
Proof. intros H Ha k Hk; apply Ha; lia. Qed.
Lemma supp_S P a : supp P a -> supp (P + 1) (Sq a).
Proof. intros Ha k Hk. unfold Sq. rewrite !Ha by lia. ring. Qed.
Lemma supp_C P a : supp P a -> supp (P + 1) (Cq a).
Proof. intros Ha k Hk. unfold Cq. rewrite !Ha by lia. ring. Qed.
Lemma supp_D P a : supp P a -> supp P (Dq a).
Proof. intros Ha k Hk. unfold Dq. rewrite !Ha by lia. ring. Qed.
Lemma supp_cos P a : supp P a -> supp (P + 1) (cosq a).
Proof. intros Ha k Hk. unfold cosq. rewrite (supp_C P a) by auto. lra. Qed.
Lemma supp_sinD P a : supp P a -> supp (P + 1) (sinDq a).
Proof. intros Ha k Hk. unfold sinDq. rewrite (supp_S P (Dq a)) by (auto using supp_D). lra. Qed.
Lemma supp_e0 : supp 0 e0.
Proof. intros k Hk. unfold e0. destruct (Z.eqb_spec k 0); [lia|auto]. Qed.
Lemma supp_Spow j a P : supp P a -> supp (P + Z.of_nat j) (Spow j a).
Proof.
  induction j as [|j IH]; intros H; cbn [Spow].
  - eapply supp_mono; [|exact H]; lia.
  - eapply supp_mono; [|apply supp_S, IH, H]; lia.
Qed.

(** ** The bilinear form B(a,b) = sum a_k b_nu tau(k-nu), tau(j) = 1/j for odd j *)
Definition tau (j : Z) : R := if Z.odd j then / IZR j else 0.
Lemma tau_opp j : tau (- j) = - tau j.
Proof.
  unfold tau. rewrite Z.odd_opp. destruct (Z.odd j) eqn:E; [|ring].
  assert (j <> 0)%Z by (intros ->; discriminate). rewrite opp_IZR. field. now apply not_0_IZR.
Qed.
Lemma tau_mul j : IZR j * tau j = if Z.odd j then 1 else 0.
Proof.
  unfold tau. destruct (Z.odd j) eqn:E; [|ring].
  assert (j <> 0)%Z by (intros ->; discriminate). field. now apply not_0_IZR.
Qed.

Definition BF (N : Z) (a b : seq) : R :=
  sumR (- N) (N + 1) (fun k => sumR (- N) (N + 1) (fun v => a k * b v * tau (k - v))).
Definition oddF (N : Z) (a b : seq) : R :=
  sumR (- N) (N + 1) (fun k => sumR (- N) (N + 1) (fun v => a k * b v * (if Z.odd (k - v) then 1 else 0))).

Lemma BF_ext N a a' b b' : (forall k, a k = a' k) -> (forall k, b k = b' k) -> BF N a b = BF N a' b'.
Proof. intros Ha Hb. apply sumR_ext; intros k _. apply sumR_ext; intros v _. now rewrite Ha, Hb. Qed.

Lemma BF_anti N a b : BF N a b = - BF N b a.
Proof.
  unfold BF. rewrite sumR_exch, sumR_opp. apply sumR_ext; intros k _.
  rewrite sumR_opp. apply sumR_ext; intros v _.
  replace (v - k)%Z with (- (k - v))%Z by lia. rewrite tau_opp. ring.
Qed.

Lemma BF_lin_l N a b x y c : BF N (fun k => x * a k + y * b k) c = x * BF N a c + y * BF N b c.
Proof.
  unfold BF. rewrite !sumR_mul, <- sumR_add. apply sumR_ext; intros k _.
  rewrite !sumR_mul, <- sumR_add. apply sumR_ext; intros v _. ring.
Qed.
Lemma BF_lin_r N a b x y c : BF N c (fun k => x * a k + y * b k) = x * BF N c a + y * BF N c b.
Proof. rewrite BF_anti, BF_lin_l, (BF_anti N a c), (BF_anti N b c). ring. Qed.

(** Moving a shift across the form. *)
Lemma sum_win N f : f (N + 1)%Z = 0 -> f (- N)%Z = 0 -> (0 <= N)%Z ->
  sumR (- N) (N + 1) (fun k => f (k + 1)%Z) = sumR (- N) (N + 1) f.
Proof.
  intros H1 H2 HN. rewrite <- (sumR_shift (- N) (N + 1) 1 f).
  rewrite (sumR_snoc (- N + 1) (N + 1)) by lia. rewrite (sumR_cons (- N) (N + 1)) by lia.
  rewrite H1, H2. ring.
Qed.

Lemma BF_shift N a b : (1 <= N)%Z -> supp (N - 1) a -> supp (N - 1) b ->
  BF N (fun k => a (k - 1)%Z) b = BF N a (fun k => b (k + 1)%Z).
Proof.
  intros HN Ha Hb. unfold BF.
  rewrite <- (sum_win N (fun k => sumR (- N) (N + 1) (fun v => a (k - 1)%Z * b v * tau (k - v)))).
  - apply sumR_ext; intros k Hk.
    rewrite <- (sum_win N (fun v => a (k + 1 - 1)%Z * b v * tau (k + 1 - v))).
    + apply sumR_ext; intros v Hv. replace (k + 1 - 1)%Z with k by lia.
      replace (k + 1 - (v + 1))%Z with (k - v)%Z by lia. reflexivity.
    + rewrite (Hb (N + 1)%Z) by lia. ring.
    + rewrite (Hb (- N)%Z) by lia. ring.
    + lia.
  - apply sumR_zero; intros v Hv. rewrite (Ha (N + 1 - 1)%Z) by lia. ring.
  - apply sumR_zero; intros v Hv. rewrite (Ha (- N - 1)%Z) by lia. ring.
  - lia.
Qed.
Lemma BF_shift' N a b : (1 <= N)%Z -> supp (N - 1) a -> supp (N - 1) b ->
  BF N (fun k => a (k + 1)%Z) b = BF N a (fun k => b (k - 1)%Z).
Proof.
  intros HN Ha Hb. rewrite BF_anti. rewrite (BF_anti N a). f_equal. symmetry. now apply BF_shift.
Qed.

Lemma BF_S N a b : (1 <= N)%Z -> supp (N - 1) a -> supp (N - 1) b -> BF N (Sq a) b = - BF N a (Sq b).
Proof.
  intros HN Ha Hb.
  transitivity (1 * BF N (fun k => a (k - 1)%Z) b + (-1) * BF N (fun k => a (k + 1)%Z) b).
  { rewrite <- BF_lin_l. apply BF_ext; intros; unfold Sq; ring. }
  rewrite BF_shift, BF_shift' by auto.
  rewrite <- BF_lin_r. transitivity (BF N a (fun k => -1 * Sq b k + 0 * b k)).
  { apply BF_ext; intros; unfold Sq; ring. }
  rewrite BF_lin_r. ring.
Qed.
Lemma BF_C N a b : (1 <= N)%Z -> supp (N - 1) a -> supp (N - 1) b -> BF N (Cq a) b = BF N a (Cq b).
Proof.
  intros HN Ha Hb.
  transitivity (1 * BF N (fun k => a (k - 1)%Z) b + 1 * BF N (fun k => a (k + 1)%Z) b).
  { rewrite <- BF_lin_l. apply BF_ext; intros; unfold Cq; ring. }
  rewrite BF_shift, BF_shift' by auto.
  rewrite <- BF_lin_r. apply BF_ext; intros; unfold Cq; ring.
Qed.
Lemma BF_D N a b : BF N (Dq a) b = BF N a (Dq b) + oddF N a b.
Proof.
  unfold BF, oddF. rewrite <- sumR_add. apply sumR_ext; intros k _.
  rewrite <- sumR_add. apply sumR_ext; intros v _. rewrite <- tau_mul, minus_IZR. unfold Dq. ring.
Qed.

Lemma odd_minus k v : Z.odd (k - v) = xorb (Z.odd k) (Z.odd v).
Proof. unfold Z.sub. now rewrite Z.odd_add, Z.odd_opp. Qed.

Lemma oddF_S N a b : (1 <= N)%Z -> supp (N - 1) b -> oddF N a (Sq b) = 0.
Proof.
  intros HN Hb. unfold oddF. apply sumR_zero; intros k _.
  set (w := fun v => b v * (if Z.odd (k - v - 1) then 1 else 0)).
  set (w' := fun v => b v * (if Z.odd (k - v + 1) then 1 else 0)).
  transitivity (a k * (sumR (- N) (N + 1) (fun v => w (v - 1)%Z)
                     - sumR (- N) (N + 1) (fun v => w' (v + 1)%Z))).
  { rewrite <- sumR_sub, sumR_mul. apply sumR_ext; intros v _. unfold Sq, w, w'.
    replace (k - (v - 1) - 1)%Z with (k - v)%Z by lia.
    replace (k - (v + 1) + 1)%Z with (k - v)%Z by lia. ring. }
  rewrite (sum_win N w').
  - rewrite <- (sum_win N (fun v => w (v - 1)%Z)).
    + rewrite (sumR_ext _ _ _ w').
      * ring.
      * intros v _. unfold w, w'. replace (v + 1 - 1)%Z with v by lia.
        replace (k - v + 1)%Z with (k - v - 1 + 2)%Z by lia.
        rewrite (Z.odd_add (k - v - 1) 2). cbn [Z.odd]. now rewrite Bool.xorb_false_r.
    + unfold w. rewrite Hb by lia. ring.
    + unfold w. rewrite Hb by lia. ring.
    + lia.
  - unfold w'. rewrite Hb by lia. ring.
  - unfold w'. rewrite Hb by lia. ring.
  - lia.
Qed.

(** ** Operator identities *)
Ltac zn k := try replace (k - 1 + 1)%Z with k by lia; try replace (k + 1 - 1)%Z with k by lia.

Lemma DS a k : Dq (Sq a) k = Sq (Dq a) k + Cq a k.
Proof. unfold Dq, Sq, Cq. rewrite minus_IZR, plus_IZR. ring. Qed.
Lemma DC a k : Dq (Cq a) k = Cq (Dq a) k + Sq a k.
Proof. unfold Dq, Sq, Cq. rewrite minus_IZR, plus_IZR. ring. Qed.
Lemma SC a k : Sq (Cq a) k = Cq (Sq a) k.
Proof. unfold Sq, Cq. zn k. ring. Qed.
Lemma CC4 a k : Cq (Cq a) k = Sq (Sq a) k + 4 * a k.
Proof.
  unfold Sq, Cq. replace (k - 1 + 1)%Z with k by lia. replace (k + 1 - 1)%Z with k by lia. ring.
Qed.
Lemma Sq_ext a b : (forall k, a k = b k) -> forall k, Sq a k = Sq b k.
Proof. intros H k; unfold Sq; now rewrite !H. Qed.
Lemma Cq_ext a b : (forall k, a k = b k) -> forall k, Cq a k = Cq b k.
Proof. intros H k; unfold Cq; now rewrite !H. Qed.
Lemma Dq_ext a b : (forall k, a k = b k) -> forall k, Dq a k = Dq b k.
Proof. intros H k; unfold Dq; now rewrite !H. Qed.
Lemma cosq_ext a b : (forall k, a k = b k) -> forall k, cosq a k = cosq b k.
Proof. intros H k; unfold cosq; now rewrite (Cq_ext a b). Qed.
Lemma sinDq_ext a b : (forall k, a k = b k) -> forall k, sinDq a k = sinDq b k.
Proof. intros H k; unfold sinDq; f_equal. apply Sq_ext, Dq_ext, H. Qed.
Lemma Spow_ext j a b : (forall k, a k = b k) -> forall k, Spow j a k = Spow j b k.
Proof. intros H; induction j; cbn [Spow]; auto using Sq_ext. Qed.
Lemma Sq_lin a b x y k : Sq (fun k => x * a k + y * b k) k = x * Sq a k + y * Sq b k.
Proof. unfold Sq; ring. Qed.
Lemma Cq_lin a b x y k : Cq (fun k => x * a k + y * b k) k = x * Cq a k + y * Cq b k.
Proof. unfold Cq; ring. Qed.
Lemma Dq_lin a b x y k : Dq (fun k => x * a k + y * b k) k = x * Dq a k + y * Dq b k.
Proof. unfold Dq; ring. Qed.
Lemma cosq_lin a b x y k : cosq (fun k => x * a k + y * b k) k = x * cosq a k + y * cosq b k.
Proof. unfold cosq; rewrite Cq_lin; field. Qed.
Lemma sinDq_lin a b x y k : sinDq (fun k => x * a k + y * b k) k = x * sinDq a k + y * sinDq b k.
Proof. unfold sinDq, Sq, Dq; field. Qed.
Lemma Spow_comm j a k : Spow j (Sq a) k = Spow (S j) a k.
Proof. revert k; induction j as [|j IH]; intros k; cbn [Spow]; [auto|]. apply Sq_ext, IH. Qed.
Lemma Spow_add i j a k : Spow i (Spow j a) k = Spow (i + j) a k.
Proof. revert k; induction i as [|i IH]; intros k; cbn [Spow Nat.add]; [auto|]. apply Sq_ext, IH. Qed.
Lemma Spow_C j a k : Spow j (Cq a) k = Cq (Spow j a) k.
Proof.
  revert k; induction j as [|j IH]; intros k; cbn [Spow]; auto.
  rewrite (Sq_ext _ _ IH). apply SC.
Qed.
Lemma sinD_cos a k : sinDq (cosq a) k = Sq (Sq a) k / 4 + cosq (sinDq a) k.
Proof.
  unfold sinDq, cosq, Sq, Dq, Cq.
  replace (k - 1 + 1)%Z with k by lia. replace (k + 1 - 1)%Z with k by lia.
  rewrite !minus_IZR, !plus_IZR. replace (IZR (k - 1 - 1)) with (IZR k - 2) by (rewrite !minus_IZR; ring).
  replace (IZR (k + 1 + 1)) with (IZR k + 2) by (rewrite !plus_IZR; ring). field.
Qed.
(** sin^2 + cos^2 = 1 *)
Lemma cos_cos a k : cosq (cosq a) k = Sq (Sq a) k / 4 + a k.
Proof.
  transitivity (Cq (Cq a) k / 4); [|rewrite CC4; field].
  unfold cosq, Cq. field.
Qed.

(** ** The harmonic tables *)
Definition al (m j : nat) : R :=
  sqrt ((INR (m + j) ^ 2 - INR m ^ 2) / (4 * INR (m + j) ^ 2 - 1)).
Fixpoint ymm (m : nat) : R :=
  match m with O => 1 / sqrt (4 * PI) | S k => ymm k * sqrt ((2 * INR (S k) + 1) / 8 / INR (S k)) end.

Fixpoint Zp (m j : nat) : seq * seq :=
  match j with
  | O => ((fun _ => 0), fun k => ymm m * Spow m e0 k)
  | S j' => let p := Zp m j' in
            (snd p, fun k => (cosq (snd p) k - al m j' * fst p k) / al m j)
  end.
(** [Zt m j] is the Fourier table of the harmonic of order m and degree n = m + j. *)
Definition Zt (m j : nat) : seq := snd (Zp m j).
(** previous degree (zero for j = 0) *)
Definition Zprev (m j : nat) : seq := fst (Zp m j).

Lemma Zprev_S m j : Zprev m (S j) = Zt m j. Proof. reflexivity. Qed.
Lemma Zprev_0 m k : Zprev m 0 k = 0. Proof. reflexivity. Qed.
Lemma al_0 m : al m 0 = 0.
Proof.
  unfold al. rewrite Nat.add_0_r. replace (INR m ^ 2 - INR m ^ 2) with 0 by ring.
  unfold Rdiv. rewrite Rmult_0_l. apply sqrt_0.
Qed.
Lemma al_arg m j : 0 < (INR (m + S j) ^ 2 - INR m ^ 2) / (4 * INR (m + S j) ^ 2 - 1).
Proof.
  pose proof (pos_INR m). pose proof (pos_INR j). rewrite plus_INR, S_INR.
  apply Rdiv_lt_0_compat; nra.
Qed.
Lemma al_pos m j : 0 < al m (S j).
Proof. apply sqrt_lt_R0, al_arg. Qed.
Lemma al_sq m j : (4 * INR (m + j) ^ 2 - 1) * (al m j * al m j) = INR (m + j) ^ 2 - INR m ^ 2.
Proof.
  destruct j as [|j]; [rewrite al_0, Nat.add_0_r; ring|].
  unfold al. rewrite sqrt_sqrt by (left; apply al_arg). field.
  pose proof (pos_INR m). pose proof (pos_INR j). rewrite plus_INR, S_INR. nra.
Qed.
Lemma al_step m j : 1 + (2 * INR (m + j) - 1) * (al m j * al m j)
                    = (2 * INR (m + j) + 3) * (al m (S j) * al m (S j)).
Proof.
  pose proof (al_sq m j) as H1. pose proof (al_sq m (S j)) as H2.
  pose proof (pos_INR m) as Pm. pose proof (pos_INR j) as Pj.
  assert (E : INR (m + S j) = INR (m + j) + 1) by (rewrite !plus_INR, S_INR; ring).
  rewrite E in H2. assert (Pn : 0 <= INR (m + j)) by apply pos_INR.
  set (n := INR (m + j)) in *. set (x := al m j * al m j) in *. set (y := al m (S j) * al m (S j)) in *.
  assert (K : 2 * n + 1 <> 0) by lra.
  apply Rmult_eq_reg_l with (2 * n + 1); auto.
  transitivity (2 * n + 1 + (4 * n ^ 2 - 1) * x); [ring|]. rewrite H1.
  transitivity ((4 * (n + 1) ^ 2 - 1) * y); [|ring]. rewrite H2. ring.
Qed.

Lemma Zrec m j k : cosq (Zt m j) k = al m (S j) * Zt m (S j) k + al m j * Zprev m j k.
Proof.
  unfold Zt at 2. cbn [Zp snd]. fold (Zt m j). fold (Zprev m j). field. apply Rgt_not_eq, al_pos.
Qed.
Lemma Zt_S m j k : Zt m (S j) k = / al m (S j) * cosq (Zt m j) k + (- al m j / al m (S j)) * Zprev m j k.
Proof.
  unfold Zt at 1. cbn [Zp snd]. fold (Zt m j). fold (Zprev m j). field. apply Rgt_not_eq, al_pos.
Qed.

(** sin d/dtheta of sin^m *)
Lemma sinD_Spow m k : sinDq (Spow m e0) k = INR m * cosq (Spow m e0) k.
Proof.
  revert k; induction m as [|m IH]; intros k.
  - cbn [Spow INR]. unfold sinDq, Sq, Dq, e0.
    destruct (Z.eqb_spec (k - 1) 0) as [E|E]; destruct (Z.eqb_spec (k + 1) 0) as [E'|E'];
      rewrite ?E, ?E'; try lra; try lia.
  - rewrite S_INR. cbn [Spow].
    transitivity (Sq (sinDq (Spow m e0)) k + cosq (Sq (Spow m e0)) k).
    + unfold sinDq at 1. rewrite (Sq_ext _ _ (DS (Spow m e0))).
      unfold sinDq, cosq, Sq, Cq. zn k. field.
    + rewrite (Sq_ext _ _ IH). unfold Sq, cosq, Cq. zn k. field.
Qed.

Lemma sinDq_scal x a k : sinDq (fun k => x * a k) k = x * sinDq a k.
Proof. unfold sinDq, Sq, Dq. field. Qed.
Lemma cosq_scal x a k : cosq (fun k => x * a k) k = x * cosq a k.
Proof. unfold cosq, Cq. field. Qed.

(** First-order relations (A) and (B). *)
Lemma Z_AB m j :
  (forall k, sinDq (Zt m j) k = INR (m + j) * cosq (Zt m j) k - (2 * INR (m + j) + 1) * al m j * Zprev m j k) /\
  (forall k, sinDq (Zprev m j) k = - INR (m + j) * cosq (Zprev m j) k + (2 * INR (m + j) - 1) * al m j * Zt m j k).
Proof.
  induction j as [|j [IA IB]].
  - split; intros k.
    + rewrite al_0, Nat.add_0_r.
      change (Zt m 0) with (fun k => ymm m * Spow m e0 k). rewrite sinDq_scal, cosq_scal, sinD_Spow. ring.
    + rewrite al_0. unfold sinDq, cosq, Sq, Dq, Cq. rewrite !Zprev_0. lra.
  - assert (E : INR (m + S j) = INR (m + j) + 1) by (rewrite !plus_INR, S_INR; ring). rewrite !E.
    pose proof (al_pos m j) as Ha. assert (Hb : forall k, sinDq (Zt m j) k = - (INR (m + j) + 1) * cosq (Zt m j) k
       + (2 * (INR (m + j) + 1) - 1) * al m (S j) * Zt m (S j) k).
    { intros k. rewrite IA, Zrec. ring. }
    split; [|exact Hb]. intros k. rewrite Zprev_S. set (n := INR (m + j)) in *.
    rewrite (sinDq_ext _ _ (Zt_S m j)), (cosq_ext _ _ (Zt_S m j)).
    rewrite sinDq_lin, cosq_lin, sinD_cos, (cosq_ext _ _ IA), IB.
    assert (X : cosq (fun k => n * cosq (Zt m j) k - (2 * n + 1) * al m j * Zprev m j k) k =
       n * cosq (cosq (Zt m j)) k - (2 * n + 1) * al m j * cosq (Zprev m j) k).
    { unfold cosq, Cq; field. }
    rewrite X, cos_cos. pose proof (al_step m j) as HS. fold n in HS.
    apply Rmult_eq_reg_l with (al m (S j)); [|lra].
    transitivity (Sq (Sq (Zt m j)) k / 4 + n * (Sq (Sq (Zt m j)) k / 4 + Zt m j k)
      - (n + 1) * al m j * cosq (Zprev m j) k + Zt m j k - (1 + (2 * n - 1) * (al m j * al m j)) * Zt m j k).
    + field. lra.
    + rewrite HS. field. lra.
Qed.
Lemma Z_A m j k : sinDq (Zt m j) k = INR (m + j) * cosq (Zt m j) k - (2 * INR (m + j) + 1) * al m j * Zprev m j k.
Proof. apply Z_AB. Qed.
Lemma Z_B m j k : sinDq (Zprev m j) k = - INR (m + j) * cosq (Zprev m j) k + (2 * INR (m + j) - 1) * al m j * Zt m j k.
Proof. apply Z_AB. Qed.

(** The Legendre equation: (sin d)^2 Z = (m^2 - n(n+1) sin^2) Z. *)
Lemma Z_ode m j k : sinDq (sinDq (Zt m j)) k =
  INR m ^ 2 * Zt m j k + INR (m + j) * (INR (m + j) + 1) * (Sq (Sq (Zt m j)) k / 4).
Proof.
  rewrite (sinDq_ext _ _ (Z_A m j)). set (n := INR (m + j)).
  assert (X : sinDq (fun k => n * cosq (Zt m j) k - (2 * n + 1) * al m j * Zprev m j k) k =
     n * sinDq (cosq (Zt m j)) k - (2 * n + 1) * al m j * sinDq (Zprev m j) k).
  { unfold sinDq, Sq, Dq; field. }
  rewrite X, sinD_cos, (cosq_ext _ _ (Z_A m j)), Z_B. fold n.
  assert (Y : cosq (fun k => n * cosq (Zt m j) k - (2 * n + 1) * al m j * Zprev m j k) k =
     n * cosq (cosq (Zt m j)) k - (2 * n + 1) * al m j * cosq (Zprev m j) k).
  { unfold cosq, Cq; field. }
  rewrite Y, cos_cos. pose proof (al_sq m j) as H. fold n in H.
  transitivity (n * (n + 1) * (Sq (Sq (Zt m j)) k / 4) + n ^ 2 * Zt m j k - ((4 * n ^ 2 - 1) * (al m j * al m j)) * Zt m j k).
  - field.
  - rewrite H. field.
Qed.

(** The coefficient recursion used by [ynunm]. *)
Definition Bc (n v : R) : R := (n - v) * (n + v + 1).
Lemma Z_coef m j (k : Z) : let n := INR (m + j) in
  Bc n (IZR k) * Zt m j k = (Bc n (IZR k + 1) + Bc n (IZR k + 2) - 4 * INR m ^ 2) * Zt m j (k + 2)%Z
                        - Bc n (IZR k + 3) * Zt m j (k + 4)%Z.
Proof.
  intros n. pose proof (Z_ode m j (k + 2)) as H. fold n in H.
  unfold sinDq, Sq, Dq in H.
  replace (k + 2 - 1 - 1)%Z with k in H by lia.
  replace (k + 2 - 1 + 1)%Z with (k + 2)%Z in H by lia.
  replace (k + 2 + 1 - 1)%Z with (k + 2)%Z in H by lia.
  replace (k + 2 + 1 + 1)%Z with (k + 4)%Z in H by lia.
  replace (k + 2 - 1)%Z with (k + 1)%Z in H by lia.
  replace (k + 2 + 1)%Z with (k + 3)%Z in H by lia.
  rewrite !plus_IZR in H. unfold Bc.
  apply Rminus_diag_uniq. apply Rminus_diag_eq in H.
  match type of H with ?l = 0 => transitivity (- 4 * l); [field|rewrite H; ring] end.
Qed.

(** ** Support, parity, leading coefficient *)
Lemma Zt_supp m j : supp (Z.of_nat (m + j)) (Zt m j) /\ supp (Z.of_nat (m + j)) (Zprev m j).
Proof.
  induction j as [|j [I1 I2]].
  - split.
    + intros k Hk. change (ymm m * Spow m e0 k = 0). rewrite (supp_Spow m e0 0 supp_e0) by lia. ring.
    + intros k Hk. reflexivity.
  - split.
    + intros k Hk. rewrite Zt_S, I2, (supp_cos _ _ I1) by lia. ring.
    + eapply supp_mono; [|exact I1]. lia.
Qed.
Lemma Zt_supp1 m j : supp (Z.of_nat (m + j)) (Zt m j). Proof. apply Zt_supp. Qed.
Lemma Zprev_supp m j : supp (Z.of_nat (m + j)) (Zprev m j). Proof. apply Zt_supp. Qed.

Definition psign (m : nat) : R := (-1) ^ m.
Lemma Spow_par m k : Spow m e0 (- k)%Z = (-1) ^ m * Spow m e0 k.
Proof.
  revert k; induction m as [|m IH]; intros k.
  - cbn [Spow pow]. unfold e0. destruct (Z.eqb_spec (- k) 0), (Z.eqb_spec k 0); try lia; lra.
  - cbn [Spow pow]. unfold Sq. replace (- k - 1)%Z with (- (k + 1))%Z by lia.
    replace (- k + 1)%Z with (- (k - 1))%Z by lia. rewrite !IH. ring.
Qed.
Lemma Zt_par m j : (forall k, Zt m j (- k)%Z = (-1) ^ m * Zt m j k) /\ (forall k, Zprev m j (- k)%Z = (-1) ^ m * Zprev m j k).
Proof.
  induction j as [|j [I1 I2]].
  - split; intros k.
    + change (ymm m * Spow m e0 (- k)%Z = (-1) ^ m * (ymm m * Spow m e0 k)). rewrite Spow_par. ring.
    + rewrite !Zprev_0. ring.
  - split; [|exact I1]. intros k. rewrite !Zt_S, I2. unfold cosq, Cq.
    replace (- k - 1)%Z with (- (k + 1))%Z by lia.
    replace (- k + 1)%Z with (- (k - 1))%Z by lia. rewrite !I1. unfold Rdiv. ring.
Qed.
Lemma Zt_neg m j k : Zt m j (- k)%Z = (-1) ^ m * Zt m j k. Proof. apply Zt_par. Qed.


Lemma odd_eq2 x y d : (x = y + 2 * d)%Z -> Z.odd x = Z.odd y.
Proof. intros ->. apply Z.odd_add_mul_2. Qed.
Lemma Spow_odd m k : Z.odd (Z.of_nat m + k) = true -> Spow m e0 k = 0.
Proof.
  revert k; induction m as [|m IH]; intros k H.
  - cbn [Spow]. unfold e0. destruct (Z.eqb_spec k 0); [subst; discriminate|auto].
  - cbn [Spow]. unfold Sq. rewrite !IH; [ring| |].
    + rewrite <- H. apply (odd_eq2 _ _ 0). lia.
    + rewrite <- H. apply (odd_eq2 _ _ (-1)). lia.
Qed.
Lemma Zt_odd2 m j : (forall k, Z.odd (Z.of_nat (m + j) + k) = true -> Zt m j k = 0) /\
  (forall k, Z.odd (Z.of_nat (m + j) + k) = false -> Zprev m j k = 0).
Proof.
  induction j as [|j [I1 I2]].
  - split; intros k H; [|apply Zprev_0]. rewrite Nat.add_0_r in H.
    change (ymm m * Spow m e0 k = 0). rewrite Spow_odd by auto. ring.
  - split; intros k H.
    + rewrite Zt_S. unfold cosq, Cq.
      rewrite (I1 (k - 1)%Z), (I1 (k + 1)%Z), I2; [unfold Rdiv; ring| | |].
      * replace (Z.of_nat (m + S j) + k)%Z with (Z.of_nat (m + j) + k + 1)%Z in H by lia.
        rewrite Z.odd_add in H. cbn [Z.odd] in H. destruct (Z.odd (Z.of_nat (m + j) + k)); auto.
      * rewrite <- H. apply (odd_eq2 _ _ 0). lia.
      * rewrite <- H. apply (odd_eq2 _ _ (-1)). lia.
    + rewrite Zprev_S. apply I1.
      replace (Z.of_nat (m + S j) + k)%Z with (Z.of_nat (m + j) + k + 1)%Z in H by lia.
      rewrite Z.odd_add in H. cbn [Z.odd] in H. destruct (Z.odd (Z.of_nat (m + j) + k)); auto.
Qed.
Lemma Zt_odd m j k : Z.odd (Z.of_nat (m + j) + k) = true -> Zt m j k = 0.
Proof. apply Zt_odd2. Qed.

Lemma Spow_lead m : Spow m e0 (Z.of_nat m) = 1.
Proof.
  induction m as [|m IH]; [reflexivity|]. cbn [Spow]. unfold Sq.
  rewrite (supp_Spow m e0 0 supp_e0 (Z.of_nat (S m) + 1)%Z) by lia.
  replace (Z.of_nat (S m) - 1)%Z with (Z.of_nat m) by lia. rewrite IH. ring.
Qed.
Lemma Zt_lead0 m : Zt m 0 (Z.of_nat (m + 0)) = ymm m.
Proof. rewrite Nat.add_0_r. change (ymm m * Spow m e0 (Z.of_nat m) = ymm m). rewrite Spow_lead. ring. Qed.
Lemma Zprev_top m j : Zprev m j (Z.of_nat (m + j)) = 0.
Proof.
  destruct j; [apply Zprev_0|]. rewrite Zprev_S. apply Zt_supp1. lia.
Qed.
Lemma Zprev_top1 m j : Zprev m j (Z.of_nat (m + S j)) = 0.
Proof. apply Zprev_supp; lia. Qed.
Lemma Zt_leadS m j : Zt m (S j) (Z.of_nat (m + S j)) = Zt m j (Z.of_nat (m + j)) / (2 * al m (S j)).
Proof.
  rewrite Zt_S, Zprev_top1. unfold cosq, Cq. rewrite (Zt_supp1 m j (Z.of_nat (m + S j) + 1)%Z) by lia.
  replace (Z.of_nat (m + S j) - 1)%Z with (Z.of_nat (m + j)) by lia. field.
  apply Rgt_not_eq, al_pos.
Qed.

(** ** Orthonormality *)
Section Orth.
Variable N : Z.
Definition G (a b : seq) : R := BF N a (Sq b).

Lemma G_ext a a' b b' : (forall k, a k = a' k) -> (forall k, b k = b' k) -> G a b = G a' b'.
Proof. intros Ha Hb. apply BF_ext; auto using Sq_ext. Qed.
Lemma G_sym a b : (1 <= N)%Z -> supp (N - 1) a -> supp (N - 1) b -> G a b = G b a.
Proof. intros HN Ha Hb. unfold G. rewrite BF_anti, BF_S by auto. ring. Qed.
Lemma G_lin_r a b x y c : G c (fun k => x * a k + y * b k) = x * G c a + y * G c b.
Proof.
  unfold G. rewrite <- BF_lin_r. apply BF_ext; intros; auto. apply Sq_lin.
Qed.
Lemma G_lin_l a b x y c : G (fun k => x * a k + y * b k) c = x * G a c + y * G b c.
Proof. apply BF_lin_l. Qed.
Lemma G_cos a b : (2 <= N)%Z -> supp (N - 2) a -> supp (N - 2) b -> G (cosq a) b = G a (cosq b).
Proof.
  intros HN Ha Hb. unfold G.
  assert (Hb' : supp (N - 1) (Sq b)) by (replace (N - 1)%Z with (N - 2 + 1)%Z by lia; apply supp_S, Hb).
  assert (Ha' : supp (N - 1) a) by (eapply supp_mono; [|exact Ha]; lia).
  transitivity (/ 2 * BF N (Cq a) (Sq b) + 0 * BF N a (Sq b)).
  { rewrite <- BF_lin_l. apply BF_ext; intros; auto. unfold cosq; field. }
  rewrite BF_C by (auto; lia).
  transitivity (/ 2 * BF N a (Cq (Sq b)) + 0 * BF N a (Cq (Sq b))); [ring|].
  rewrite <- BF_lin_r. apply BF_ext; intros k; auto. rewrite <- SC. unfold cosq, Sq. field.
Qed.
(** D moves across G *)
Lemma G_sinD a b : (3 <= N)%Z -> supp (N - 3) a -> supp (N - 3) b ->
  G a (sinDq b) = - G (sinDq a) b - 2 * G (cosq a) b.
Proof.
  intros HN Ha Hb. unfold G.
  assert (W : forall x, supp (N - 3) x -> supp (N - 1) x) by (intros; eapply supp_mono; [|eassumption]; lia).
  assert (W2 : forall x, supp (N - 3) x -> supp (N - 2) x) by (intros; eapply supp_mono; [|eassumption]; lia).
  assert (WS : forall x, supp (N - 3) x -> supp (N - 2) (Sq x)) by (intros; replace (N - 2)%Z with (N - 3 + 1)%Z by lia; now apply supp_S).
  assert (WS2 : forall x, supp (N - 2) x -> supp (N - 1) (Sq x)) by (intros; replace (N - 1)%Z with (N - 2 + 1)%Z by lia; now apply supp_S).
  assert (M21 : forall x, supp (N - 2) x -> supp (N - 1) x) by (intros; eapply supp_mono; [|eassumption]; lia).
  (* BF a (S S D b)/2 = - BF (S a) (S D b) / 2 = BF (S S a) (D b) / 2 *)
  transitivity (/ 2 * BF N (Sq (Sq a)) (Dq b)).
  { rewrite BF_S by (auto using supp_D; lia).
    rewrite BF_S by (auto using supp_D; lia).
    transitivity (/ 2 * BF N a (Sq (Sq (Dq b))) + 0 * BF N a (Sq (Sq (Dq b)))); [|ring].
    rewrite <- BF_lin_r. apply BF_ext; intros; auto. unfold Sq, sinDq, Sq. field. }
  (* BF (D x) b = BF x (D b) + oddF x b, oddF (S S a) b = 0 *)
  pose proof (BF_D N (Sq (Sq a)) b) as HD.
  assert (H0 : oddF N (Sq (Sq a)) b = 0).
  { transitivity (oddF N b (Sq (Sq a))).
    - unfold oddF. rewrite sumR_exch. apply sumR_ext; intros k _. apply sumR_ext; intros v _.
      replace (Z.odd (v - k)) with (Z.odd (k - v)); [ring|]. rewrite !odd_minus. apply Bool.xorb_comm.
    - apply oddF_S; [lia|]. auto. }
  rewrite H0, Rplus_0_r in HD. rewrite <- HD.
  (* D S S a = S S D a + 2 S C a *)
  assert (X : forall k, Dq (Sq (Sq a)) k = Sq (fun k => 2 * sinDq a k + 4 * cosq a k) k).
  { intros k. unfold Sq at 3, sinDq, cosq, Sq, Dq, Cq. zn k.
    replace (k - 1 + 1)%Z with k by lia. 
    rewrite !minus_IZR, !plus_IZR, ?minus_IZR. field. }
  rewrite (BF_ext N _ _ b b X) by auto.
  rewrite BF_S.
  - rewrite BF_lin_l. field.
  - lia.
  - intros k Hk. rewrite (supp_sinD (N - 3) a), (supp_cos (N - 3) a) by (auto; lia). ring.
  - auto.
Qed.
End Orth.

Lemma Zt0_cos m k : sinDq (Zt m 0) k = INR m * cosq (Zt m 0) k.
Proof. rewrite Z_A, al_0, Nat.add_0_r. ring. Qed.

Lemma G_zero_r N a b : (forall k, b k = 0) -> G N a b = 0.
Proof.
  intros H. unfold G, BF. apply sumR_zero; intros k _. apply sumR_zero; intros v _. unfold Sq. rewrite !H. ring.
Qed.

Lemma G_base_rec N m k : (Z.of_nat (m + k) + 4 <= N)%Z ->
  (INR (m + k) + INR m + 2) * al m (S k) * G N (Zt m 0) (Zt m (S k)) =
  (INR k - 1) * al m k * G N (Zt m 0) (Zprev m k).
Proof.
  intros HN.
  assert (S0 : supp (N - 3) (Zt m 0)) by (eapply supp_mono; [|apply Zt_supp1]; lia).
  assert (Sk : supp (N - 3) (Zt m k)) by (eapply supp_mono; [|apply Zt_supp1]; lia).
  assert (W2 : forall x, supp (N - 3) x -> supp (N - 2) x) by (intros; eapply supp_mono; [|eassumption]; lia).
  pose proof (G_sinD N (Zt m 0) (Zt m k) ltac:(lia) S0 Sk) as H.
  assert (H1 : G N (sinDq (Zt m 0)) (Zt m k) = INR m * G N (cosq (Zt m 0)) (Zt m k)).
  { transitivity (G N (fun k => INR m * cosq (Zt m 0) k + 0 * cosq (Zt m 0) k) (Zt m k)).
    - apply G_ext; auto. intros; rewrite Zt0_cos; ring.
    - rewrite G_lin_l. ring. }
  assert (H2 : G N (Zt m 0) (sinDq (Zt m k)) =
     INR (m + k) * G N (Zt m 0) (cosq (Zt m k)) + (- (2 * INR (m + k) + 1) * al m k) * G N (Zt m 0) (Zprev m k)).
  { rewrite <- G_lin_r. apply G_ext; auto. intros; rewrite Z_A. ring. }
  assert (H3 : G N (Zt m 0) (cosq (Zt m k)) = al m (S k) * G N (Zt m 0) (Zt m (S k)) + al m k * G N (Zt m 0) (Zprev m k)).
  { rewrite <- G_lin_r. apply G_ext; auto. intros. apply Zrec. }
  rewrite H1, H2 in H. rewrite (G_cos N (Zt m 0) (Zt m k)) in H by (auto; lia).
  assert (E : INR (m + k) = INR m + INR k) by apply plus_INR.
  rewrite H3, E in H. rewrite E. lra.
Qed.

Lemma G_base N m k : (Z.of_nat (m + k) + 4 <= N)%Z ->
  G N (Zt m 0) (Zt m (S k)) = 0.
Proof.
  revert k. fix IH 1. intros k HN.
  pose proof (G_base_rec N m k HN) as H.
  assert (Hc : (INR (m + k) + INR m + 2) * al m (S k) <> 0).
  { pose proof (al_pos m k). pose proof (pos_INR (m + k)). pose proof (pos_INR m).
    apply Rgt_not_eq. apply Rmult_lt_0_compat; lra. }
  assert (H0 : (INR k - 1) * al m k * G N (Zt m 0) (Zprev m k) = 0).
  { destruct k as [|[|k]].
    - rewrite al_0; ring.
    - cbn [INR]. ring.
    - rewrite Zprev_S, (IH k) by lia. ring. }
  rewrite H0 in H. destruct (Rmult_integral _ _ H); tauto.
Qed.

(** Norm of the sectoral harmonics. *)
Definition bj (N : Z) (j : nat) : R := BF N e0 (Spow j e0).
Lemma D_Spow j a k : Dq (Spow j a) k = Spow j (Dq a) k + INR j * (match j with O => 0 | S i => Spow i (Cq a) k end).
Proof.
  revert k; induction j as [|j IH]; intros k.
  - cbn [Spow INR]. ring.
  - rewrite S_INR. cbn [Spow]. rewrite DS, (Sq_ext _ _ IH), <- Spow_C.
    destruct j as [|j].
    + cbn [Spow INR]. unfold Sq. ring.
    + cbn [Spow]. unfold Sq. ring.
Qed.
Lemma bj_rec N j : (Z.of_nat j + 4 <= N)%Z -> (INR j + 2) * bj N (S (S j)) + 4 * (INR j + 1) * bj N j = 0.
Proof.
  intros HN.
  assert (De : forall k, Dq e0 k = 0).
  { intros k; unfold Dq, e0. destruct (Z.eqb_spec k 0) as [->|]; lra. }
  assert (X : forall k, Dq (Spow (S j) (Cq e0)) k = (INR j + 2) * Spow (S (S j)) e0 k + (4 * (INR j + 1)) * Spow j e0 k).
  { intros k. rewrite D_Spow, S_INR.
    rewrite (Spow_ext (S j) (Dq (Cq e0)) (Sq e0)), Spow_comm.
    - rewrite (Spow_ext j (Cq (Cq e0)) (fun k => 1 * Sq (Sq e0) k + 4 * e0 k)).
      + assert (L : forall i x y a b k, Spow i (fun k => x * a k + y * b k) k = x * Spow i a k + y * Spow i b k).
        { induction i as [|i IHi]; intros; cbn [Spow]; auto. rewrite (Sq_ext _ _ (IHi x y a b)). apply Sq_lin. }
        rewrite L. rewrite Spow_comm. rewrite <- (Spow_comm (S j)). cbn [Spow].
        rewrite (Sq_ext _ _ (Spow_comm j e0)). cbn [Spow]. 
        ring.
      + intros. rewrite CC4. ring.
    - intros i. rewrite DC. rewrite (Cq_ext _ (fun _ => 0) De). unfold Cq. ring. }
  unfold bj. rewrite <- BF_lin_r.
  transitivity (BF N e0 (Dq (Spow (S j) (Cq e0)))).
  { apply BF_ext; auto. }
  pose proof (BF_D N e0 (Spow (S j) (Cq e0))) as HD.
  cbn [Spow] in HD. rewrite oddF_S in HD.
  - rewrite Rplus_0_r in HD. cbn [Spow]. rewrite <- HD.
    unfold BF. apply sumR_zero; intros k _. apply sumR_zero; intros v _. rewrite De. ring.
  - lia.
  - eapply supp_mono; [|apply supp_Spow, supp_C, supp_e0]. lia.
Qed.
Lemma bj_1 N : (1 <= N)%Z -> bj N 1 = -2.
Proof.
  intros HN. unfold bj, BF.
  rewrite (sumR_single _ _ 0); [|lia|].
  2:{ intros k _ Hk. apply sumR_zero; intros v _. rewrite (supp_e0 k) by lia. ring. }
  rewrite (sumR_extend (-1) 2); try lia.
  2:{ intros k _ Hk. cbn [Spow]. unfold Sq. rewrite (supp_e0 (k - 1)%Z), (supp_e0 (k + 1)%Z) by lia. ring. }
  rewrite !sumR_cons, sumR_nil by lia.
  cbn [Spow]. unfold Sq, e0, tau. cbn. lra.
Qed.
Lemma ymm_pos m : 0 < ymm m.
Proof.
  induction m as [|m IH]; cbn [ymm].
  - apply Rdiv_lt_0_compat; [lra|]. apply sqrt_lt_R0. pose proof PI_RGT_0. lra.
  - apply Rmult_lt_0_compat; auto. apply sqrt_lt_R0. pose proof (pos_INR m). rewrite S_INR.
    apply Rdiv_lt_0_compat; [|lra]. apply Rdiv_lt_0_compat; lra.
Qed.
Lemma ymm_sq_S m : ymm (S m) ^ 2 = ymm m ^ 2 * ((2 * INR m + 3) / (8 * (INR m + 1))).
Proof.
  cbn [ymm]. pose proof (pos_INR m). rewrite Rpow_mult_distr. f_equal.
  cbn [pow]. rewrite Rmult_1_r, sqrt_sqrt.
  - rewrite S_INR. field. lra.
  - rewrite S_INR. left. apply Rdiv_lt_0_compat; [|lra]. apply Rdiv_lt_0_compat; lra.
Qed.
Lemma ymm_sq_0 : ymm 0 ^ 2 = 1 / (4 * PI).
Proof.
  cbn [ymm]. pose proof PI_RGT_0. assert (0 < sqrt (4 * PI)) by (apply sqrt_lt_R0; lra).
  unfold Rdiv. rewrite Rpow_mult_distr. rewrite pow_inv.
  replace (sqrt (4 * PI) ^ 2) with (4 * PI); [ring|].
  cbn [pow]. rewrite Rmult_1_r, sqrt_sqrt; lra.
Qed.
Lemma norm_b N m : (2 * Z.of_nat m + 4 <= N)%Z -> - (2 * PI) * (ymm m ^ 2 * (-1) ^ m * bj N (2 * m + 1)) = 1.
Proof.
  induction m as [|m IH]; intros HN.
  - rewrite ymm_sq_0. change (2 * 0 + 1)%nat with 1%nat. rewrite bj_1 by lia.
    cbn [pow]. pose proof PI_RGT_0. field. lra.
  - etransitivity; [|apply IH; lia]. rewrite ymm_sq_S.
    pose proof (bj_rec N (2 * m + 1) ltac:(lia)) as H.
    replace (2 * S m + 1)%nat with (S (S (2 * m + 1))) by lia.
    pose proof (pos_INR m) as P.
    assert (E : INR (2 * m + 1) = 2 * INR m + 1) by (rewrite plus_INR, mult_INR; cbn [INR]; ring).
    rewrite E in H.
    assert (Hb : bj N (S (S (2 * m + 1))) = - (8 * (INR m + 1) / (2 * INR m + 3)) * bj N (2 * m + 1)).
    { apply Rmult_eq_reg_l with (2 * INR m + 3); [|lra].
      transitivity (- (4 * (2 * INR m + 1 + 1)) * bj N (2 * m + 1)); [lra|]. field. lra. }
    rewrite Hb. change ((-1) ^ S m) with (-1 * (-1) ^ m). field. lra.
Qed.

Lemma BF_Spow N i a b P : supp P a -> supp P b -> (P + Z.of_nat i + 1 <= N)%Z -> (0 <= P)%Z ->
  BF N (Spow i a) b = (-1) ^ i * BF N a (Spow i b).
Proof.
  intros Ha Hb. revert b P Ha Hb. induction i as [|i IH]; intros b P Ha Hb HN HP; [cbn [Spow pow]; ring|].
  cbn [Spow pow]. rewrite BF_S.
  - rewrite (IH (Sq b) (P + 1)%Z); [| |now apply supp_S|lia|lia].
    + rewrite (BF_ext N a a (Spow i (Sq b)) (Sq (Spow i b))); [ring|auto|]. intros; apply Spow_comm.
    + eapply supp_mono; [|exact Ha]. lia.
  - lia.
  - eapply supp_mono; [|apply supp_Spow, Ha]. lia.
  - eapply supp_mono; [|exact Hb]. lia.
Qed.

Lemma G_norm0 N m : (2 * Z.of_nat m + 4 <= N)%Z -> - (2 * PI) * G N (Zt m 0) (Zt m 0) = 1.
Proof.
  intros HN. rewrite <- (norm_b N m HN). f_equal.
  transitivity (G N (fun k => ymm m * Spow m e0 k + 0 * Spow m e0 k) (fun k => ymm m * Spow m e0 k + 0 * Spow m e0 k)).
  { apply G_ext; intros; change (Zt m 0) with (fun k => ymm m * Spow m e0 k); cbn beta; ring. }
  rewrite G_lin_l, !G_lin_r.
  assert (X : G N (Spow m e0) (Spow m e0) = (-1) ^ m * bj N (2 * m + 1)).
  { unfold G. rewrite (BF_Spow N m e0 (Sq (Spow m e0)) (Z.of_nat m + 1)%Z).
    - f_equal. unfold bj. apply BF_ext; auto. intros k.
      change (Sq (Spow m e0)) with (Spow (S m) e0). rewrite Spow_add. f_equal. lia.
    - eapply supp_mono; [|apply supp_e0]. lia.
    - change (Sq (Spow m e0)) with (Spow (S m) e0). eapply supp_mono; [|apply supp_Spow, supp_e0]. lia.
    - lia.
    - lia. }
  rewrite X. ring.
Qed.

Lemma G_orth N m j k : (Z.of_nat (2 * m + j + k) + 5 <= N)%Z ->
  - (2 * PI) * G N (Zt m j) (Zt m k) = if Nat.eqb j k then 1 else 0.
Proof.
  assert (SU : forall m i, (Z.of_nat (m + i) + 2 <= N)%Z -> supp (N - 2) (Zt m i)).
  { intros; eapply supp_mono; [|apply Zt_supp1]; lia. }
  (* strong statement on consecutive pairs *)
  revert k. revert j.
  assert (Main : forall j,
     (forall k, (Z.of_nat (2 * m + j + k) + 5 <= N)%Z -> - (2 * PI) * G N (Zt m j) (Zt m k) = if Nat.eqb j k then 1 else 0) /\
     (forall k, (Z.of_nat (2 * m + S j + k) + 5 <= N)%Z -> - (2 * PI) * G N (Zt m (S j)) (Zt m k) = if Nat.eqb (S j) k then 1 else 0)).
  { assert (B0 : forall k, (Z.of_nat (2 * m + 0 + k) + 5 <= N)%Z -> - (2 * PI) * G N (Zt m 0) (Zt m k) = if Nat.eqb 0 k then 1 else 0).
    { intros k HN. destruct k as [|k].
      - cbn [Nat.eqb]. apply G_norm0. lia.
      - cbn [Nat.eqb]. rewrite G_base by lia. ring. }
    (* al_{j+1} G(j+1,k) = al_{k+1} G(j,k+1) + al_k G(j,k-1) - al_j G(j-1,k) *)
    assert (St : forall j k, (Z.of_nat (2 * m + S j + k) + 5 <= N)%Z ->
       al m (S j) * G N (Zt m (S j)) (Zt m k) =
       al m (S k) * G N (Zt m j) (Zt m (S k)) + al m k * G N (Zt m j) (Zprev m k) - al m j * G N (Zprev m j) (Zt m k)).
    { intros j k HN.
      assert (H1 : G N (cosq (Zt m j)) (Zt m k) = al m (S j) * G N (Zt m (S j)) (Zt m k) + al m j * G N (Zprev m j) (Zt m k)).
      { rewrite <- G_lin_l. apply G_ext; auto. intros; apply Zrec. }
      assert (H2 : G N (Zt m j) (cosq (Zt m k)) = al m (S k) * G N (Zt m j) (Zt m (S k)) + al m k * G N (Zt m j) (Zprev m k)).
      { rewrite <- G_lin_r. apply G_ext; auto. intros; apply Zrec. }
      rewrite G_cos in H1 by (auto; try (apply SU); lia). lra. }
    assert (Step : forall j, 
       (forall k, (Z.of_nat (2 * m + j + k) + 5 <= N)%Z -> - (2 * PI) * G N (Zt m j) (Zt m k) = if Nat.eqb j k then 1 else 0) ->
       (forall k, (Z.of_nat (2 * m + S j + k) + 5 <= N)%Z -> - (2 * PI) * (al m j * G N (Zprev m j) (Zt m k)) = if Nat.eqb j (S k) then al m j else 0) ->
       (forall k, (Z.of_nat (2 * m + S j + k) + 5 <= N)%Z -> - (2 * PI) * G N (Zt m (S j)) (Zt m k) = if Nat.eqb (S j) k then 1 else 0)).
    { intros i Hi Hp k HN. pose proof (al_pos m i) as Pa.
      apply Rmult_eq_reg_l with (al m (S i)); [|lra].
      transitivity (- (2 * PI) * (al m (S i) * G N (Zt m (S i)) (Zt m k))); [ring|].
      rewrite St by lia.
      transitivity (al m (S k) * (- (2 * PI) * G N (Zt m i) (Zt m (S k))) + al m k * (- (2 * PI) * G N (Zt m i) (Zprev m k))
        - (- (2 * PI) * (al m i * G N (Zprev m i) (Zt m k)))); [ring|].
      rewrite Hi, Hp by lia.
      assert (Hk : al m k * (- (2 * PI) * G N (Zt m i) (Zprev m k)) = if Nat.eqb (S i) k then al m k else 0).
      { destruct k as [|k].
        - rewrite al_0. cbn [Nat.eqb]. ring.
        - rewrite Zprev_S, Hi by lia. cbn [Nat.eqb]. destruct (Nat.eqb i k); ring. }
      rewrite Hk.
      destruct (Nat.eqb_spec i (S k)), (Nat.eqb_spec (S i) k); try lia; subst; ring. }
    induction j as [|i [I1 I2]].
    - split; auto. apply Step; auto. intros k HN. rewrite al_0. cbn [Nat.eqb]. ring.
    - split; auto. apply Step; auto. intros k HN. rewrite Zprev_S.
      transitivity (al m (S i) * (- (2 * PI) * G N (Zt m i) (Zt m k))); [ring|].
      rewrite I1 by lia. cbn [Nat.eqb]. destruct (Nat.eqb i k); ring. }
  intros j k; apply (Main j).
Qed.
