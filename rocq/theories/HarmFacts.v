(** * HarmFacts: the Fourier tables are those of the classical spherical harmonics. *)
From Coq Require Import ZArith List Bool Lia Reals Lra.
From Coquelicot Require Import Coquelicot.
From Verif Require Import Py PyFacts Num Exact Sums Harm SpecHarm MPysphi Dft PysphiFacts TransFacts TransFacts2.
Open Scope R_scope.

(** ** Derivatives of the Legendre polynomials *)
Fixpoint DL (n m : nat) (x : R) : R :=
  match n with
  | O => match m with O => 1 | _ => 0 end
  | S n' => match n' with
            | O => match m with O => x | S O => 1 | _ => 0 end
            | S n'' => ((2 * INR n'' + 3) * (x * DL n' m x + match m with O => 0 | S m' => INR m * DL n' m' x end)
                        - (INR n'' + 1) * DL n'' m x) / (INR n'' + 2)
            end
  end.

Lemma DL_SS n m x : DL (S (S n)) m x =
  ((2 * INR n + 3) * (x * DL (S n) m x + match m with O => 0 | S m' => INR m * DL (S n) m' x end) - (INR n + 1) * DL n m x) / (INR n + 2).
Proof. reflexivity. Qed.

Lemma nat_ind2 (P : nat -> Prop) : P O -> P 1%nat -> (forall n, P n -> P (S n) -> P (S (S n))) -> forall n, P n.
Proof. intros H0 H1 Hs. assert (H : forall n, P n /\ P (S n)) by (induction n as [|n [A B]]; auto). intros n; apply H. Qed.

Lemma DL_0 n x : DL n 0 x = legendre n x.
Proof.
  revert n. apply nat_ind2; [reflexivity|reflexivity|]. intros n A B. rewrite DL_SS, A, B. cbn [legendre]. 
  unfold Rdiv. rewrite Rplus_0_r. f_equal. ring.
Qed.

Lemma n2_ne (n : nat) : INR n + 2 <> 0. Proof. pose proof (pos_INR n). lra. Qed.

Lemma DL_derive_step n m x :
  (forall m x, is_derive (DL n m) x (DL n (S m) x)) -> (forall m x, is_derive (DL (S n) m) x (DL (S n) (S m) x)) ->
  is_derive (DL (S (S n)) m) x (DL (S (S n)) (S m) x).
Proof.
  intros A B.
  apply (is_derive_ext (fun x => ((2 * INR n + 3) * (x * DL (S n) m x + match m with O => 0 | S m' => INR m * DL (S n) m' x end) - (INR n + 1) * DL n m x) / (INR n + 2))).
  { intros t. now rewrite DL_SS. }
  rewrite DL_SS. set (f := DL n) in *. set (g := DL (S n)) in *. clearbody f g.
  pose proof (fun m x => is_derive_unique _ _ _ (A m x)) as DA. pose proof (fun m x => is_derive_unique _ _ _ (B m x)) as DB.
  assert (EA : forall m x, ex_derive (f m) x) by (intros; eexists; apply A).
  assert (EB : forall m x, ex_derive (g m) x) by (intros; eexists; apply B).
  destruct m as [|m'].
  - auto_derive; [repeat split; auto|]. 
    change (fun x0 => g 0%nat x0) with (g 0%nat). change (fun x0 => f 0%nat x0) with (f 0%nat).
    rewrite DA, DB. cbn [INR]. field. apply n2_ne.
  - auto_derive; [repeat split; auto|]. 
    change (fun x0 => g (S m') x0) with (g (S m')). change (fun x0 => g m' x0) with (g m'). change (fun x0 => f (S m') x0) with (f (S m')).
    rewrite DA, !DB. change (match m' with O => 1 | S _ => INR m' + 1 end) with (INR (S m')). rewrite !S_INR. field. apply n2_ne.
Qed.

Lemma DL_derive n : forall m x, is_derive (DL n m) x (DL n (S m) x).
Proof.
  apply (nat_ind2 (fun n => forall m x, is_derive (DL n m) x (DL n (S m) x))); clear n.
  - intros [|m] x; apply (is_derive_const (V := R_NormedModule)).
  - intros [|[|m]] x.
    + apply (is_derive_id (K := R_AbsRing)).
    + apply (is_derive_const (V := R_NormedModule)).
    + apply (is_derive_const (V := R_NormedModule)).
  - intros n A B m x. apply DL_derive_step; auto.
Qed.

Lemma DL_Derive_n n m x : Derive_n (legendre n) m x = DL n m x.
Proof.
  revert x. induction m as [|m IH]; intros x.
  - cbn [Derive_n]. now rewrite DL_0.
  - cbn [Derive_n]. rewrite (Derive_ext _ (DL n m)) by auto. apply is_derive_unique, DL_derive.
Qed.

Lemma DL_AB n : forall x, DL (S n) 1 x = x * DL n 1 x + (INR n + 1) * DL n 0 x /\
                          x * DL (S n) 1 x = DL n 1 x + (INR n + 1) * DL (S n) 0 x.
Proof.
  induction n as [|n IH]; intros x.
  - cbn [DL INR]. split; ring.
  - destruct (IH x) as [A B].
    assert (A' : DL (S (S n)) 1 x = x * DL (S n) 1 x + (INR n + 2) * DL (S n) 0 x).
    { rewrite DL_SS. cbn [INR]. apply (Rmult_eq_reg_l (INR n + 2)); [|apply n2_ne].
      field_simplify; [|apply n2_ne]. 
      replace (DL n 1 x) with (x * DL (S n) 1 x - (INR n + 1) * DL (S n) 0 x) by lra. ring. }
    rewrite S_INR. split; [rewrite A'; ring|].
    assert (Bn : (INR n + 2) * DL (S (S n)) 0 x = (2 * INR n + 3) * x * DL (S n) 0 x - (INR n + 1) * DL n 0 x).
    { rewrite DL_SS. field. apply n2_ne. }
    rewrite A'. replace (INR n + 1 + 1) with (INR n + 2) by ring. rewrite Bn.
    assert (Q : x * (x * DL (S n) 1 x) = x * (DL n 1 x + (INR n + 1) * DL (S n) 0 x)) by (now rewrite B). nra.
Qed.

(** (2n+3) P_{n+1}^(m) = P_{n+2}^(m+1) - P_n^(m+1) *)
Lemma DL_2n1 n m : forall x, (2 * INR n + 3) * DL (S n) m x = DL (S (S n)) (S m) x - DL n (S m) x.
Proof.
  induction m as [|m IH]; intros x.
  - destruct (DL_AB n x) as [_ B]. destruct (DL_AB (S n) x) as [A _]. rewrite A, S_INR. lra.
  - assert (D1 : is_derive (fun x => (2 * INR n + 3) * DL (S n) m x) x ((2 * INR n + 3) * DL (S n) (S m) x)).
    { apply is_derive_scal. apply DL_derive. }
    assert (D2 : is_derive (fun x => DL (S (S n)) (S m) x - DL n (S m) x) x (DL (S (S n)) (S (S m)) x - DL n (S (S m)) x)).
    { apply (is_derive_minus (K := R_AbsRing) (V := R_NormedModule)); apply DL_derive. }
    apply (is_derive_ext _ _ _ _ IH) in D1. apply is_derive_unique in D1. apply is_derive_unique in D2. exact (eq_trans (eq_sym D1) D2).
Qed.

Lemma DL_high n : forall m x, (n < m)%nat -> DL n m x = 0.
Proof.
  apply (nat_ind2 (fun n => forall m x, (n < m)%nat -> DL n m x = 0)); clear n.
  - intros [|m] x H; [lia|reflexivity].
  - intros [|[|m]] x H; [lia|lia|reflexivity].
  - intros n A B [|m] x H; [lia|]. pose proof (DL_2n1 n m x) as E. rewrite (B m), (A (S m)) in E by lia. lra.
Qed.

(** (n-m+1) P_{n+1}^(m) = (2n+1) x P_n^(m) - (n+m) P_{n-1}^(m), n >= 1 *)
Lemma DL_rec n m x : (INR n + 2 - INR m) * DL (S (S n)) m x =
  (2 * INR n + 3) * x * DL (S n) m x - (INR n + 1 + INR m) * DL n m x.
Proof.
  assert (E : (INR n + 2) * DL (S (S n)) m x = (2 * INR n + 3) * (x * DL (S n) m x + match m with O => 0 | S m' => INR m * DL (S n) m' x end) - (INR n + 1) * DL n m x).
  { rewrite DL_SS. field. apply n2_ne. }
  destruct m as [|m].
  - cbn [INR]. lra.
  - pose proof (DL_2n1 n m x) as Q.
    assert (Q' : INR (S m) * ((2 * INR n + 3) * DL (S n) m x) = INR (S m) * (DL (S (S n)) (S m) x - DL n (S m) x)) by (now rewrite Q).
    lra.
Qed.

(** ** Normalisation *)
Definition nf (m j : nat) : R := norm_factor (m + j) m.
Definition pt (m j : nat) (x : R) : R := nf m j * DL (m + j) m x.

Lemma nf_sq m j : nf m j * nf m j = (2 * INR (m + j) + 1) / (4 * PI) * (INR (fact j) / INR (fact (2 * m + j))).
Proof.
  unfold nf, norm_factor. replace (m + j - m)%nat with j by lia. replace (m + j + m)%nat with (2 * m + j)%nat by lia.
  apply sqrt_sqrt. pose proof PI_RGT_0. pose proof (pos_INR (m + j)). pose proof (INR_fact_lt_0 j). pose proof (INR_fact_lt_0 (2 * m + j)).
  apply Rmult_le_pos; apply Rlt_le, Rdiv_lt_0_compat; lra.
Qed.
Lemma nf_pos m j : 0 < nf m j.
Proof.
  unfold nf, norm_factor. apply sqrt_lt_R0. pose proof PI_RGT_0. pose proof (pos_INR (m + j)).
  pose proof (INR_fact_lt_0 (m + j - m)). pose proof (INR_fact_lt_0 (m + j + m)).
  apply Rmult_lt_0_compat; apply Rdiv_lt_0_compat; lra.
Qed.
Lemma al_nonneg m j : 0 <= al m j. Proof. apply sqrt_pos. Qed.
Lemma al_sq' m j : al m (S j) * al m (S j) = (INR j + 1) * (2 * INR m + INR j + 1) / ((2 * INR m + 2 * INR j + 1) * (2 * INR m + 2 * INR j + 3)).
Proof.
  unfold al. rewrite sqrt_sqrt.
  - rewrite plus_INR, S_INR. pose proof (pos_INR m). pose proof (pos_INR j). field. split; nra.
  - rewrite plus_INR, S_INR. pose proof (pos_INR m). pose proof (pos_INR j).
    apply Rmult_le_pos; [nra|]. apply Rlt_le, Rinv_0_lt_compat. nra.
Qed.
Lemma nf_sq_S m j : nf m (S j) * nf m (S j) = nf m j * nf m j * ((2 * INR m + 2 * INR j + 3) * (INR j + 1)) / ((2 * INR m + 2 * INR j + 1) * (2 * INR m + INR j + 1)).
Proof.
  rewrite !nf_sq. replace (2 * m + S j)%nat with (S (2 * m + j)) by lia. rewrite !fact_simpl, !mult_INR.
  replace (m + S j)%nat with (S (m + j)) by lia. rewrite !S_INR, !plus_INR, !mult_INR. cbn [INR].
  pose proof PI_RGT_0. pose proof (pos_INR m). pose proof (pos_INR j). pose proof (INR_fact_lt_0 j). pose proof (INR_fact_lt_0 (2 * m + j)).
  field. repeat split; nra.
Qed.
Lemma sq_eq a b : 0 <= a -> 0 <= b -> a * a = b * b -> a = b.
Proof. intros. nra. Qed.

Lemma nf_L1 m j : al m (S j) * nf m (S j) * (2 * INR m + 2 * INR j + 1) = (INR j + 1) * nf m j.
Proof.
  pose proof (pos_INR m). pose proof (pos_INR j). pose proof (al_nonneg m (S j)). pose proof (nf_pos m j). pose proof (nf_pos m (S j)).
  apply sq_eq.
  - apply Rmult_le_pos; [apply Rmult_le_pos|]; lra.
  - apply Rmult_le_pos; lra.
  - replace (al m (S j) * nf m (S j) * (2 * INR m + 2 * INR j + 1) * (al m (S j) * nf m (S j) * (2 * INR m + 2 * INR j + 1)))
      with ((al m (S j) * al m (S j)) * (nf m (S j) * nf m (S j)) * (2 * INR m + 2 * INR j + 1) ^ 2) by ring.
    rewrite al_sq', nf_sq_S. field. repeat split; lra.
Qed.
Lemma nf_L2 m j : (2 * INR m + INR j + 1) * nf m (S j) = (2 * INR m + 2 * INR j + 3) * al m (S j) * nf m j.
Proof.
  pose proof (pos_INR m). pose proof (pos_INR j). pose proof (al_nonneg m (S j)). pose proof (nf_pos m j). pose proof (nf_pos m (S j)).
  apply sq_eq.
  - apply Rmult_le_pos; lra.
  - apply Rmult_le_pos; [apply Rmult_le_pos|]; lra.
  - replace ((2 * INR m + 2 * INR j + 3) * al m (S j) * nf m j * ((2 * INR m + 2 * INR j + 3) * al m (S j) * nf m j))
      with ((al m (S j) * al m (S j)) * (nf m j * nf m j) * (2 * INR m + 2 * INR j + 3) ^ 2) by ring.
    replace ((2 * INR m + INR j + 1) * nf m (S j) * ((2 * INR m + INR j + 1) * nf m (S j))) with
      ((2 * INR m + INR j + 1) ^ 2 * (nf m (S j) * nf m (S j))) by ring.
    rewrite al_sq', nf_sq_S. field. repeat split; lra.
Qed.

Lemma pt_rec m j x : al m (S (S j)) * pt m (S (S j)) x = x * pt m (S j) x - al m (S j) * pt m j x.
Proof.
  pose proof (nf_L1 m (S j)) as L1. pose proof (nf_L2 m j) as L2. pose proof (DL_rec (m + j) m x) as D.
  unfold pt. replace (m + S (S j))%nat with (S (S (m + j))) by lia. replace (m + S j)%nat with (S (m + j)) by lia.
  rewrite plus_INR in D. rewrite S_INR in L1.
  pose proof (pos_INR m). pose proof (pos_INR j). 
  set (D2 := DL (S (S (m + j))) m x) in *. set (D1 := DL (S (m + j)) m x) in *. set (D0 := DL (m + j) m x) in *.
  replace (INR m + INR j + 2 - INR m) with (INR j + 2) in D by ring.
  apply (Rmult_eq_reg_l ((INR j + 2) * (2 * INR m + 2 * INR j + 3))); [|nra].
  set (A := al m (S (S j))) in *. set (B := al m (S j)) in *.
  transitivity ((A * nf m (S (S j)) * (2 * INR m + 2 * (INR j + 1) + 1)) * ((INR j + 2) * D2)); [ring|].
  rewrite D, L1.
  transitivity ((INR j + 2) * (nf m (S j) * (2 * INR m + 2 * INR j + 3) * x * D1 - ((2 * INR m + INR j + 1) * nf m (S j)) * D0)); [ring|].
  rewrite L2. ring.
Qed.

Lemma pt_rec0 m x : al m 1 * pt m 1 x = x * pt m 0 x.
Proof.
  pose proof (nf_L1 m 0) as L1. cbn [INR] in L1.
  unfold pt. rewrite Nat.add_0_r. pose proof (pos_INR m).
  assert (D : DL (m + 1) m x = (2 * INR m + 1) * x * DL m m x).
  { destruct m as [|m]; [cbn [DL Nat.add INR]; ring|].
    pose proof (DL_rec m (S m) x) as D. rewrite (DL_high m (S m)) in D by lia.
    replace (S m + 1)%nat with (S (S m)) by lia. rewrite S_INR in *. lra. }
  rewrite D. transitivity (al m 1 * nf m 1 * (2 * INR m + 2 * 0 + 1) * x * DL m m x); [ring|]. rewrite L1. ring.
Qed.

Lemma DL_diag_S m x : DL (S m) (S m) x = (2 * INR m + 1) * DL m m x.
Proof.
  destruct m as [|m]; [cbn [DL INR]; ring|].
  pose proof (DL_2n1 m (S m) x) as E. rewrite (DL_high m (S (S m))) in E by lia. rewrite S_INR. lra.
Qed.

Lemma pt_0 m x : pt m 0 x = 2 ^ m * ymm m.
Proof.
  unfold pt. rewrite Nat.add_0_r. induction m as [|m IH].
  - pose proof (nf_pos 0 0). pose proof (ymm_pos 0). cbn [DL pow]. rewrite Rmult_1_r, Rmult_1_l.
    apply sq_eq; [lra|lra|]. rewrite nf_sq. replace (ymm 0 * ymm 0) with (ymm 0 ^ 2) by ring.
    rewrite ymm_sq_0. cbn [Nat.add Nat.mul fact INR]. field. apply PI_neq0.
  - rewrite DL_diag_S. cbn [ymm pow]. 
    transitivity (nf (S m) 0 * (2 * INR m + 1) / nf m 0 * (nf m 0 * DL m m x)).
    { field. apply Rgt_not_eq, nf_pos. }
    rewrite IH.
    assert (E : nf (S m) 0 * (2 * INR m + 1) = nf m 0 * (2 * sqrt ((2 * INR (S m) + 1) / 8 / INR (S m)))).
    { pose proof (pos_INR m). pose proof (nf_pos m 0). pose proof (nf_pos (S m) 0).
      assert (P : 0 < (2 * INR (S m) + 1) / 8 / INR (S m)) by (rewrite S_INR; apply Rdiv_lt_0_compat; [|lra]; apply Rdiv_lt_0_compat; lra).
      apply sq_eq.
      - apply Rmult_le_pos; lra.
      - apply Rmult_le_pos; [lra|]. apply Rmult_le_pos; [lra|apply sqrt_pos].
      - replace (nf m 0 * (2 * sqrt ((2 * INR (S m) + 1) / 8 / INR (S m))) * (nf m 0 * (2 * sqrt ((2 * INR (S m) + 1) / 8 / INR (S m)))))
          with (4 * (nf m 0 * nf m 0) * (sqrt ((2 * INR (S m) + 1) / 8 / INR (S m)) * sqrt ((2 * INR (S m) + 1) / 8 / INR (S m)))) by ring.
        rewrite (sqrt_sqrt _ (Rlt_le _ _ P)).
        replace (nf (S m) 0 * (2 * INR m + 1) * (nf (S m) 0 * (2 * INR m + 1))) with ((2 * INR m + 1) ^ 2 * (nf (S m) 0 * nf (S m) 0)) by ring.
        rewrite !nf_sq. replace (2 * S m + 0)%nat with (S (S (2 * m + 0))) by lia. rewrite !fact_simpl, !mult_INR.
        rewrite !Nat.add_0_r, !S_INR, !mult_INR. cbn [INR fact]. pose proof PI_RGT_0. pose proof (INR_fact_lt_0 (2 * m)).
        field. repeat split; nra. }
    rewrite E. field. apply Rgt_not_eq, nf_pos.
Qed.

(** ** Evaluation of Fourier tables *)
Definition Ev (N : Z) (a : seq) (t : R) : C := sumC (- N) (N + 1) (fun k => RtoC (a k) * cisR (IZR k * t))%C.

Lemma Ev_ext N a b t : (forall k, a k = b k) -> Ev N a t = Ev N b t.
Proof. intros H. apply sumC_ext. intros k _. now rewrite H. Qed.
Lemma Ev_lin N a b x y t : Ev N (fun k => x * a k + y * b k) t = (RtoC x * Ev N a t + RtoC y * Ev N b t)%C.
Proof.
  unfold Ev. rewrite !sumC_mul, <- sumC_add. apply sumC_ext. intros k _. rewrite RtoC_plus, !RtoC_mult. ring.
Qed.
Lemma Ev_shift N a t d : (Z.abs d <= 1)%Z -> (0 <= N)%Z -> supp (N - 1) a ->
  sumC (- N) (N + 1) (fun k => RtoC (a (k - d)%Z) * cisR (IZR k * t))%C = (cisR (IZR d * t) * Ev N a t)%C.
Proof.
  intros Hd HN Ha. unfold Ev. rewrite sumC_mul.
  transitivity (sumC (- N - d + d) (N + 1 - d + d) (fun k => RtoC (a (k - d)%Z) * cisR (IZR k * t))%C).
  { f_equal; lia. }
  rewrite sumC_shift.
  transitivity (sumC (- N - d) (N + 1 - d) (fun k => cisR (IZR d * t) * (RtoC (a k) * cisR (IZR k * t)))%C).
  { apply sumC_ext. intros k _. replace (k + d - d)%Z with k by lia. rewrite plus_IZR.
    replace ((IZR k + IZR d) * t) with (IZR d * t + IZR k * t) by ring. rewrite cisR_add. ring. }
  set (f := fun k : Z => (cisR (IZR d * t) * (RtoC (a k) * cisR (IZR k * t)))%C).
  assert (Hf : forall k, (N - 1 < Z.abs k)%Z -> f k = RtoC 0).
  { intros k Hk. unfold f. rewrite Ha by auto. ring. }
  transitivity (sumC (- N - 1) (N + 2) f).
  - symmetry. apply sumC_extend; try lia. intros; apply Hf; lia.
  - apply sumC_extend; try lia. intros; apply Hf; lia.
Qed.
Lemma cis1 t : cisR (IZR 1 * t) = (cos t, sin t). Proof. unfold cisR. now rewrite Rmult_1_l. Qed.
Lemma cism1 t : cisR (IZR (-1) * t) = (cos t, - sin t).
Proof. unfold cisR. replace (-1 * t) with (- t) by ring. now rewrite cos_neg, sin_neg. Qed.
Lemma Ev_Sq N a t : (0 <= N)%Z -> supp (N - 1) a -> Ev N (Sq a) t = (Ci * RtoC (2 * sin t) * Ev N a t)%C.
Proof.
  intros HN Ha.
  transitivity (sumC (- N) (N + 1) (fun k => RtoC (a (k - 1)%Z) * cisR (IZR k * t))%C - sumC (- N) (N + 1) (fun k => RtoC (a (k - (-1))%Z) * cisR (IZR k * t))%C)%C.
  { rewrite <- sumC_sub. apply sumC_ext. intros k _. unfold Sq. replace (k - -1)%Z with (k + 1)%Z by lia. rewrite RtoC_minus. ring. }
  rewrite !Ev_shift, cis1, cism1 by (auto; lia).
  replace (Ci * RtoC (2 * sin t))%C with ((cos t, sin t) - (cos t, (- sin t)%R))%C; [ring|].
  apply injective_projections; cbn; ring.
Qed.
Lemma Ev_cosq N a t : (0 <= N)%Z -> supp (N - 1) a -> Ev N (cosq a) t = (RtoC (cos t) * Ev N a t)%C.
Proof.
  intros HN Ha.
  transitivity (RtoC (/ 2) * (sumC (- N) (N + 1) (fun k => RtoC (a (k - 1)%Z) * cisR (IZR k * t))%C + sumC (- N) (N + 1) (fun k => RtoC (a (k - (-1))%Z) * cisR (IZR k * t))%C))%C.
  { rewrite <- sumC_add, sumC_mul. apply sumC_ext. intros k _. unfold cosq, Cq, Rdiv. replace (k - -1)%Z with (k + 1)%Z by lia.
    rewrite RtoC_mult, RtoC_plus. ring. }
  rewrite !Ev_shift, cis1, cism1 by (auto; lia).
  replace (RtoC (cos t)) with (RtoC (/ 2) * ((cos t, sin t) + (cos t, (- sin t)%R)))%C; [ring|].
  apply injective_projections; cbn; field.
Qed.
Lemma ipow_S m : ipow (m + 1) = (ipow m * Ci)%C.
Proof.
  unfold ipow, cipow. assert (H : (0 <= m mod 4 < 4)%Z) by (apply Z.mod_pos_bound; lia).
  rewrite <- (Zplus_mod_idemp_l m 1 4).
  assert (m mod 4 = 0 \/ m mod 4 = 1 \/ m mod 4 = 2 \/ m mod 4 = 3)%Z as [->|[->|[->| ->]]] by lia; apply injective_projections; cbn; ring.
Qed.
Lemma Ev_Spow m : forall N t, (Z.of_nat m <= N)%Z -> Ev N (Spow m e0) t = (ipow (Z.of_nat m) * RtoC ((2 * sin t) ^ m))%C.
Proof.
  induction m as [|m IH]; intros N t HN.
  - cbn [Spow pow]. unfold Ev. rewrite (sumC_single _ _ 0); [|lia|].
    + change (e0 0%Z) with 1. replace (IZR 0 * t) with 0 by ring. rewrite cisR_0. apply injective_projections; cbn; ring.
    + intros k _ Hk. unfold e0. destruct (Z.eqb_spec k 0); [lia|]. ring.
  - cbn [Spow]. rewrite Ev_Sq; [|lia|].
    + rewrite IH by lia. rewrite Nat2Z.inj_succ. unfold Z.succ. rewrite ipow_S. cbn [pow]. rewrite !RtoC_mult. ring.
    + eapply supp_mono; [|apply supp_Spow, supp_e0]. lia.
Qed.

Lemma Zt_supp' m j : supp (Z.of_nat (m + j)) (Zt m j).
Proof. intros k Hk. apply Zt_supp1. lia. Qed.

Lemma Ev_Zt m j : forall N t, (Z.of_nat (m + j) <= N)%Z ->
  Ev N (Zt m j) t = (ipow (Z.of_nat m) * RtoC (sin t ^ m * pt m j (cos t)))%C.
Proof.
  apply (nat_ind2 (fun j => forall N t, (Z.of_nat (m + j) <= N)%Z ->
    Ev N (Zt m j) t = (ipow (Z.of_nat m) * RtoC (sin t ^ m * pt m j (cos t)))%C)); clear j.
  - intros N t HN.
    rewrite (Ev_ext N _ (fun k => ymm m * Spow m e0 k + 0 * Spow m e0 k)).
    2:{ intros k. change (ymm m * Spow m e0 k = ymm m * Spow m e0 k + 0 * Spow m e0 k). ring. }
    rewrite Ev_lin, Ev_Spow by lia. rewrite pt_0, Rpow_mult_distr, !RtoC_mult. ring.
  - intros N t HN.
    rewrite (Ev_ext N _ (fun k => / al m 1 * cosq (Zt m 0) k + 0 * Zprev m 0 k)).
    2:{ intros k. rewrite Zt_S, Zprev_0. ring. }
    rewrite Ev_lin, Ev_cosq; [|lia|eapply supp_mono; [|apply Zt_supp']; lia].
    rewrite (Ev_ext N (Zt m 0) (fun k => ymm m * Spow m e0 k + 0 * Spow m e0 k)).
    2:{ intros k. change (ymm m * Spow m e0 k = ymm m * Spow m e0 k + 0 * Spow m e0 k). ring. }
    rewrite Ev_lin, Ev_Spow by lia.
    replace (pt m 1 (cos t)) with (/ al m 1 * (cos t * pt m 0 (cos t))).
    2:{ rewrite <- pt_rec0. field. apply Rgt_not_eq, al_pos. }
    rewrite pt_0, Rpow_mult_distr, !RtoC_mult. ring.
  - intros j I0 I1 N t HN.
    rewrite (Ev_ext N _ (fun k => / al m (S (S j)) * cosq (Zt m (S j)) k + (- al m (S j) / al m (S (S j))) * Zt m j k)).
    2:{ intros k. rewrite Zt_S. reflexivity. }
    rewrite Ev_lin, Ev_cosq; [|lia|eapply supp_mono; [|apply Zt_supp']; lia].
    rewrite I0, I1 by lia.
    replace (pt m (S (S j)) (cos t)) with (/ al m (S (S j)) * (cos t * pt m (S j) (cos t)) + - al m (S j) / al m (S (S j)) * pt m j (cos t)).
    2:{ assert (al m (S (S j)) <> 0) by (apply Rgt_not_eq, al_pos).
        apply (Rmult_eq_reg_l (al m (S (S j)))); [|auto]. rewrite pt_rec. field. auto. }
    rewrite Rmult_plus_distr_l, RtoC_plus, !RtoC_mult. ring.
Qed.

Lemma ipow_sq m : (ipow (Z.of_nat m) * ipow (Z.of_nat m))%C = RtoC ((-1) ^ m).
Proof.
  induction m as [|m IH]; [apply injective_projections; cbn; ring|].
  rewrite Nat2Z.inj_succ. unfold Z.succ. rewrite ipow_S. cbn [pow].
  transitivity (ipow (Z.of_nat m) * ipow (Z.of_nat m) * (Ci * Ci))%C; [ring|]. rewrite IH, RtoC_mult.
  replace (Ci * Ci)%C with (RtoC (-1)) by (apply injective_projections; cbn; ring). ring.
Qed.

(** The functions synthesised by the code are the classical spherical harmonics. *)
Lemma Yc_sph_harm n m theta phi : (Z.abs m <= n)%Z -> Yc n m theta phi = sph_harm n m theta phi.
Proof.
  intros Hn. unfold Yc, Yt.
  set (M := Z.to_nat (Z.abs m)). set (J := Z.to_nat (n - Z.abs m)).
  change (sumC (- n) (n + 1) (fun k => RtoC (Zt M J k) * cisR (IZR k * theta))%C) with (Ev n (Zt M J) theta).
  rewrite Ev_Zt by lia. unfold sph_harm, sph_harm_pos, assoc_legendre_cos. rewrite !DL_Derive_n.
  unfold pt, nf. replace (M + J)%nat with (Z.to_nat n) by lia.
  destruct (Z.leb_spec 0 m).
  - replace (Z.to_nat m) with M by lia. replace (IZR m) with (INR M) by (rewrite INR_IZR_INZ; f_equal; lia).
    change (cos (INR M * phi), sin (INR M * phi)) with (cisR (INR M * phi)).
    replace m with (Z.of_nat M) by lia.
    transitivity (ipow (Z.of_nat M) * ipow (Z.of_nat M) * cisR (INR M * phi) * RtoC (sin theta ^ M * (norm_factor (Z.to_nat n) M * DL (Z.to_nat n) M (cos theta))))%C; [ring|].
    rewrite ipow_sq, !RtoC_mult. ring.
  - replace (Z.to_nat (- m)) with M by lia. replace m with (- Z.of_nat M)%Z by lia.
    transitivity (ipow (- Z.of_nat M) * ipow (Z.of_nat M) * cisR (IZR (- Z.of_nat M) * phi) * RtoC (sin theta ^ M * (norm_factor (Z.to_nat n) M * DL (Z.to_nat n) M (cos theta))))%C; [ring|].
    rewrite ipow_cancel, opp_IZR, <- INR_IZR_INZ. unfold cisR. replace (- INR M * phi) with (- (INR M * phi)) by ring. rewrite cos_neg, sin_neg.
    set (a := INR M * phi). set (D := DL (Z.to_nat n) M (cos theta)). set (f := norm_factor (Z.to_nat n) M).
    assert (S1 : (-1) ^ M * (-1) ^ M = 1) by (rewrite <- Rpow_mult_distr; replace (-1 * -1) with 1 by ring; apply pow1).
    set (e := (-1) ^ M) in *. set (s := sin theta ^ M).
    apply injective_projections; cbn;
      [transitivity ((e * e) * (s * (f * D)) * cos a); [rewrite S1; ring|ring]
      |transitivity (- (e * e) * (s * (f * D)) * sin a); [rewrite S1; ring|ring]].
Qed.
