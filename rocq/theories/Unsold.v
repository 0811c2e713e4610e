(** * Unsold: the spherical harmonics of degree n are bounded by
    sqrt((2n+1)/(4 pi)) (Unsoeld's theorem), and so are their Fourier
    coefficients. *)
From Coq Require Import ZArith List Bool Lia Reals Lra Psatz.
From Coquelicot Require Import Coquelicot.
From Verif Require Import Py PyFacts Num Exact Sums Harm SpecHarm MPysphi Dft PysphiFacts TransFacts TransFacts2 HarmFacts SpecInt P_Double.
Open Scope R_scope.

(** The Legendre equation, differentiated m times. *)
Lemma DL_one p x : (1 - x ^ 2) * DL (S p) 1 x = (INR p + 1) * DL p 0 x - (INR p + 1) * (x * DL (S p) 0 x).
Proof. destruct (DL_AB p x) as [A B]. assert (x * (x * DL (S p) 1 x) = x * (DL p 1 x + (INR p + 1) * DL (S p) 0 x)) by now rewrite B. nra. Qed.

Lemma DL_ode n m : forall x, (1 - x ^ 2) * DL n (S (S m)) x - 2 * (INR m + 1) * x * DL n (S m) x + (INR n - INR m) * (INR n + INR m + 1) * DL n m x = 0.
Proof.
  induction m as [|m IH]; intros x.
  - destruct n as [|p].
    + cbn [DL INR]. ring.
    + assert (D1 : is_derive (fun x => (1 - x ^ 2) * DL (S p) 1 x) x (- (2 * x) * DL (S p) 1 x + (1 - x ^ 2) * DL (S p) 2 x)).
      { pose proof (DL_derive (S p) 1 x) as D. set (f := DL (S p) 1) in *. set (l := DL (S p) 2 x) in *. clearbody f l.
        assert (ex_derive f x) by (eexists; exact D). auto_derive; auto. change (fun x0 => f x0) with f. rewrite (is_derive_unique f x l D). ring. }
      assert (D2 : is_derive (fun x => (INR p + 1) * DL p 0 x - (INR p + 1) * (x * DL (S p) 0 x)) x
                     ((INR p + 1) * DL p 1 x - (INR p + 1) * (DL (S p) 0 x + x * DL (S p) 1 x))).
      { pose proof (DL_derive (S p) 0 x) as D. pose proof (DL_derive p 0 x) as D'. set (f := DL (S p) 0) in *. set (l := DL (S p) 1 x) in *.
        set (g := DL p 0) in *. set (k := DL p 1 x) in *. clearbody f l g k.
        assert (ex_derive f x) by (eexists; exact D). assert (ex_derive g x) by (eexists; exact D').
        auto_derive; auto. change (fun x0 => f x0) with f. change (fun x0 => g x0) with g. rewrite (is_derive_unique f x l D), (is_derive_unique g x k D'). ring. }
      apply (is_derive_ext _ _ _ _ (fun t => DL_one p t)) in D1. apply is_derive_unique in D1. apply is_derive_unique in D2.
      assert (E : - (2 * x) * DL (S p) 1 x + (1 - x ^ 2) * DL (S p) 2 x = (INR p + 1) * DL p 1 x - (INR p + 1) * (DL (S p) 0 x + x * DL (S p) 1 x)).
      { rewrite <- D1, <- D2. reflexivity. }
      destruct (DL_AB p x) as [_ B]. rewrite S_INR. cbn [INR]. 
      assert (Q : (INR p + 1) * (x * DL (S p) 1 x) = (INR p + 1) * (DL p 1 x + (INR p + 1) * DL (S p) 0 x)) by now rewrite B.
      nra.
  - set (c := (INR n - INR m) * (INR n + INR m + 1)) in *.
    assert (D : is_derive (fun x => (1 - x ^ 2) * DL n (S (S m)) x - 2 * (INR m + 1) * x * DL n (S m) x + c * DL n m x) x
      (- (2 * x) * DL n (S (S m)) x + (1 - x ^ 2) * DL n (S (S (S m))) x - 2 * (INR m + 1) * (DL n (S m) x + x * DL n (S (S m)) x) + c * DL n (S m) x)).
    { pose proof (DL_derive n m x) as D0. pose proof (DL_derive n (S m) x) as D1. pose proof (DL_derive n (S (S m)) x) as D2.
      set (v1 := DL n (S m) x) in *. set (v2 := DL n (S (S m)) x) in *. set (v3 := DL n (S (S (S m))) x) in *.
      set (f0 := DL n m) in *. set (f1 := DL n (S m)) in *. set (f2 := DL n (S (S m))) in *. 
      assert (E1 : v1 = f1 x) by reflexivity. assert (E2 : v2 = f2 x) by reflexivity. clearbody v1 v2 v3 f0 f1 f2.
      assert (ex_derive f0 x) by (eexists; exact D0). assert (ex_derive f1 x) by (eexists; exact D1). assert (ex_derive f2 x) by (eexists; exact D2).
      auto_derive; auto. change (fun x0 => f0 x0) with f0. change (fun x0 => f1 x0) with f1. change (fun x0 => f2 x0) with f2.
      rewrite (is_derive_unique f0 x v1 D0), (is_derive_unique f1 x v2 D1), (is_derive_unique f2 x v3 D2), E1, E2. ring. }
    apply (is_derive_ext _ (fun _ => 0) _ _ IH) in D. apply is_derive_unique in D. rewrite Derive_const in D.
    rewrite S_INR. unfold c in D. symmetry in D. etransitivity; [|exact D]. ring.
Qed.

Lemma leg_1 n : DL n 0 1 = 1.
Proof.
  rewrite DL_0. revert n. apply nat_ind2; [reflexivity|reflexivity|]. intros n A B. cbn [legendre]. cbn [legendre] in B. rewrite B, A. field. apply n2_ne.
Qed.

(** ** The sum of squares *)
Definition zw (n m : nat) : R := 2 * (INR (fact (n - m)) / INR (fact (n + m))).
Fixpoint US (n M : nat) (x : R) : R :=
  match M with
  | O => DL n 0 x ^ 2
  | S M' => US n M' x + zw n (S M') * ((1 - x ^ 2) ^ S M' * DL n (S M') x ^ 2)
  end.
Lemma zw_pos n m : 0 < zw n m.
Proof. unfold zw. pose proof (INR_fact_lt_0 (n - m)). pose proof (INR_fact_lt_0 (n + m)). apply Rmult_lt_0_compat; [lra|]. apply Rdiv_lt_0_compat; auto. Qed.
Lemma zw_S n m : (S m <= n)%nat -> zw n m = zw n (S m) * ((INR n - INR m) * (INR n + INR m + 1)).
Proof.
  intros H. unfold zw. replace (n - m)%nat with (S (n - S m)) by lia. replace (n + S m)%nat with (S (n + m)) by lia.
  rewrite !fact_simpl, !mult_INR. replace (S (n - S m)) with (n - m)%nat by lia. rewrite S_INR, plus_INR, minus_INR by lia.
  pose proof (INR_fact_lt_0 (n - S m)). pose proof (INR_fact_lt_0 (n + m)). pose proof (pos_INR n). pose proof (pos_INR m). field. lra.
Qed.
Lemma US_derive n M x : (M <= n)%nat -> is_derive (US n M) x (zw n M * ((1 - x ^ 2) ^ M * (DL n M x * DL n (S M) x))).
Proof.
  induction M as [|M IH]; intros H.
  - cbn [US pow]. assert (E : zw n 0 = 2). { unfold zw. rewrite Nat.sub_0_r, Nat.add_0_r. field. pose proof (INR_fact_lt_0 n). lra. }
    rewrite E. pose proof (DL_derive n 0 x) as D. set (f := DL n 0) in *. set (l := DL n 1 x) in *. clearbody f l.
    assert (ex_derive f x) by (eexists; exact D). auto_derive; auto. change (fun x0 => f x0) with f. rewrite (is_derive_unique f x l D). ring.
  - specialize (IH ltac:(lia)). cbn [US].
    assert (D : is_derive (fun x => zw n (S M) * ((1 - x ^ 2) ^ S M * DL n (S M) x ^ 2)) x
      (zw n (S M) * (INR (S M) * - (2 * x) * (1 - x ^ 2) ^ M * DL n (S M) x ^ 2 + (1 - x ^ 2) ^ S M * (2 * DL n (S M) x * DL n (S (S M)) x)))).
    { pose proof (DL_derive n (S M) x) as D. set (f := DL n (S M)) in *. set (l := DL n (S (S M)) x) in *. clearbody f l.
      assert (ex_derive f x) by (eexists; exact D). auto_derive; auto. change (fun x0 => f x0) with f. rewrite (is_derive_unique f x l D).
      change (Init.Nat.pred (S M)) with M. change (match M with O => 1 | S _ => INR M + 1 end) with (INR (S M)). replace (1 + - (x * (x * 1))) with (1 - x ^ 2) by ring. cbn [pow]. ring. }
    pose proof (is_derive_plus _ _ _ _ _ IH D) as K. eapply is_derive_ext; [|match type of K with is_derive _ _ ?v => match goal with |- is_derive _ _ ?w => replace w with v end end; [exact K|]].
    { intros t. reflexivity. }
    unfold plus; cbn -[DL zw INR pow]. rewrite (zw_S n M) by auto. pose proof (DL_ode n M x) as O. rewrite S_INR.
    set (s := 1 - x ^ 2) in *. set (d0 := DL n M x) in *. set (d1 := DL n (S M) x) in *. set (d2 := DL n (S (S M)) x) in *. set (z := zw n (S M)).
    cbn [pow]. transitivity (z * (s * s ^ M * (d1 * d2)) + z * s ^ M * d1 * (s * d2 - 2 * (INR M + 1) * x * d1 + (INR n - INR M) * (INR n + INR M + 1) * d0)).
    + ring.
    + rewrite O. ring.
Qed.
Lemma US_1 n M : US n M 1 = 1.
Proof. induction M as [|M IH]; cbn [US]; [rewrite leg_1; ring|]. rewrite IH. replace (1 - 1 ^ 2) with 0 by ring. cbn [pow]. ring. Qed.
Lemma US_one n x : -1 <= x <= 1 -> US n n x = 1.
Proof.
  intros [H1 H2]. destruct (Rle_lt_or_eq_dec x 1 H2) as [L| ->]; [|apply US_1].
  rewrite <- (US_1 n n). apply (eq_is_derive (US n n) x 1); auto. intros t _.
  pose proof (US_derive n n t (le_n n)) as D. rewrite (DL_high n (S n)) in D by lia. rewrite !Rmult_0_r in D. exact D.
Qed.
Lemma US_mono n M x : 0 <= 1 - x ^ 2 -> forall K, (M <= K)%nat -> US n M x <= US n K x.
Proof.
  intros H K HK. induction HK as [|K HK IH]; [lra|]. cbn [US]. pose proof (zw_pos n (S K)).
  assert (0 <= zw n (S K) * ((1 - x ^ 2) ^ S K * DL n (S K) x ^ 2)). { apply Rmult_le_pos; [lra|]. apply Rmult_le_pos; [apply pow_le; auto|apply pow2_ge_0]. }
  lra.
Qed.
Lemma US_nonneg n M x : 0 <= 1 - x ^ 2 -> 0 <= US n M x.
Proof. intros H. apply Rle_trans with (US n 0 x); [apply pow2_ge_0|apply US_mono; auto; lia]. Qed.
Lemma unsold_term n m x : (m <= n)%nat -> -1 <= x <= 1 ->
  INR (fact (n - m)) / INR (fact (n + m)) * ((1 - x ^ 2) ^ m * DL n m x ^ 2) <= 1.
Proof.
  intros Hm Hx. assert (Hs : 0 <= 1 - x ^ 2) by nra. apply Rle_trans with (US n n x); [|rewrite (US_one n x Hx); lra].
  eapply Rle_trans; [|apply (US_mono n m x Hs n Hm)].
  assert (P : 0 <= INR (fact (n - m)) / INR (fact (n + m)) * ((1 - x ^ 2) ^ m * DL n m x ^ 2)).
  { apply Rmult_le_pos; [pose proof (zw_pos n m); unfold zw in *; lra|]. apply Rmult_le_pos; [apply pow_le; auto|apply pow2_ge_0]. }
  destruct m as [|m].
  - cbn [US pow]. rewrite Nat.sub_0_r, Nat.add_0_r in *. pose proof (INR_fact_lt_0 n). replace (INR (fact n) / INR (fact n)) with 1 by (field; lra). lra.
  - cbn [US]. pose proof (US_nonneg n m x Hs). unfold zw. set (r := INR (fact (n - S m)) / INR (fact (n + S m))) in *. set (w := (1 - x ^ 2) ^ S m * DL n (S m) x ^ 2) in *. clearbody r w. lra.
Qed.

Lemma nf_term n m t : (m <= n)%nat -> (norm_factor n m * (sin t ^ m * DL n m (cos t))) ^ 2 <= (2 * INR n + 1) / (4 * PI).
Proof.
  intros H. pose proof PI_RGT_0 as HP. pose proof (pos_INR n) as Hn. pose proof (INR_fact_lt_0 (n - m)). pose proof (INR_fact_lt_0 (n + m)).
  assert (K : 0 < (2 * INR n + 1) / (4 * PI)) by (apply Rdiv_lt_0_compat; lra).
  assert (N : norm_factor n m ^ 2 = (2 * INR n + 1) / (4 * PI) * (INR (fact (n - m)) / INR (fact (n + m)))).
  { unfold norm_factor. cbn [pow]. rewrite Rmult_1_r, sqrt_sqrt; auto. apply Rmult_le_pos; [lra|]. apply Rlt_le, Rdiv_lt_0_compat; auto. }
  pose proof (unsold_term n m (cos t) H (COS_bound t)) as U.
  assert (S2 : 1 - cos t ^ 2 = sin t ^ 2). { pose proof (sin2_cos2 t) as Q. unfold Rsqr in Q. nra. }
  rewrite S2 in U. replace ((norm_factor n m * (sin t ^ m * DL n m (cos t))) ^ 2) with (norm_factor n m ^ 2 * ((sin t ^ 2) ^ m * DL n m (cos t) ^ 2)).
  - rewrite N, Rmult_assoc. rewrite <- (Rmult_1_r ((2 * INR n + 1) / (4 * PI))) at 2. apply Rmult_le_compat_l; lra.
  - rewrite <- pow_mult, Nat.mul_comm, pow_mult. ring.
Qed.

Definition ymax (n : Z) : R := sqrt ((2 * IZR n + 1) / (4 * PI)).

Lemma Cmod_cis t : Cmod (cos t, sin t) = 1.
Proof. unfold Cmod. cbn [fst snd]. pose proof (sin2_cos2 t) as Q. unfold Rsqr in Q. replace (cos t ^ 2 + sin t ^ 2) with 1 by nra. apply sqrt_1. Qed.
Lemma Cmod_conj z : Cmod (Cconj z) = Cmod z.
Proof. unfold Cmod, Cconj. cbn [fst snd]. f_equal. ring. Qed.

Theorem harm_bound n m theta phi : (Z.abs m <= n)%Z -> Cmod (sph_harm n m theta phi) <= ymax n.
Proof.
  intros H.
  assert (P : forall k, (Z.of_nat k <= n)%Z -> Cmod (sph_harm_pos (Z.to_nat n) k theta phi) <= ymax n).
  { intros k Hk. unfold sph_harm_pos. rewrite Cmod_mult, Cmod_cis, Rmult_1_r, Cmod_R. unfold assoc_legendre_cos. rewrite DL_Derive_n.
    replace (Rabs (norm_factor (Z.to_nat n) k * ((-1) ^ k * sin theta ^ k * DL (Z.to_nat n) k (cos theta)))) with
            (Rabs (norm_factor (Z.to_nat n) k * (sin theta ^ k * DL (Z.to_nat n) k (cos theta)))).
    - rewrite <- sqrt_Rsqr_abs. unfold ymax. apply sqrt_le_1_alt. unfold Rsqr. pose proof (nf_term (Z.to_nat n) k theta ltac:(lia)) as U.
      rewrite INR_IZR_INZ, Z2Nat.id in U by lia. lra.
    - rewrite !Rabs_mult. rewrite <- (RPow_abs (-1)), Rabs_m1, pow1. ring. }
  unfold sph_harm. destruct (Z.leb_spec 0 m).
  - apply P. lia.
  - rewrite Cmod_mult, Cmod_R, Cmod_conj, <- RPow_abs, Rabs_m1, pow1, Rmult_1_l. apply P. lia.
Qed.

Lemma Cmod_sum lo hi f B : (lo <= hi)%Z -> (forall k, (lo <= k < hi)%Z -> Cmod (f k) <= B) -> Cmod (sumC lo hi f) <= IZR (hi - lo) * B.
Proof.
  revert lo hi. apply (gsum_ind (fun lo hi => (lo <= hi)%Z -> (forall k, (lo <= k < hi)%Z -> Cmod (f k) <= B) -> Cmod (sumC lo hi f) <= IZR (hi - lo) * B)).
  - intros lo hi H H' _. rewrite sumC_nil by lia. rewrite Cmod_0. replace (hi - lo)%Z with 0%Z by lia. lra.
  - intros lo hi H IH _ HB. rewrite sumC_cons by lia. eapply Rle_trans; [apply Cmod_triangle|].
    specialize (IH ltac:(lia) ltac:(intros; apply HB; lia)). specialize (HB lo ltac:(lia)).
    replace (hi - lo)%Z with (hi - (lo + 1) + 1)%Z by lia. rewrite plus_IZR. lra.
Qed.

(** A trigonometric polynomial bounded by B has coefficients bounded by B. *)
Lemma fourier_bound n (y : Z -> R) B : (0 <= n)%Z ->
  (forall t, Cmod (sumC (- n) (n + 1) (fun k => RtoC (y k) * cisR (IZR k * t))%C) <= B) ->
  forall k, (Z.abs k <= n)%Z -> Rabs (y k) <= B.
Proof.
  intros Hn HB k Hk. set (L := (2 * n + 1)%Z).
  set (T := fun t => sumC (- n) (n + 1) (fun k => RtoC (y k) * cisR (IZR k * t))%C).
  assert (E : sumC 0 L (fun p => T (2 * PI * IZR p / IZR L)%R * root L (- k * p)%Z)%C = (RtoC (IZR L) * RtoC (y k))%C).
  { rewrite (sumC_ext _ _ _ (fun p => sumC (- n) (n + 1) (fun j => RtoC (y j) * root L ((j - k) * p)%Z)%C)).
    2:{ intros p _. unfold T. rewrite sumC_mulr. apply sumC_ext. intros j _. rewrite <- root_cis by (unfold L; lia).
        rewrite <- Cmult_assoc, <- root_add by (unfold L; lia). do 2 f_equal. ring. }
    rewrite sumC_exch, (sumC_single _ _ k); [|lia|].
    2:{ intros j Hj Hne. rewrite <- sumC_mul, root_pow_sum by (unfold L; lia). destruct (Z.eqb_spec ((j - k) mod L) 0) as [Q|Q]; [exfalso|ring].
        apply Z.mod_divide in Q; [|unfold L; lia]. destruct Q as [q Q]. unfold L in Q. assert (q = 0)%Z by nia. subst q. lia. }
    rewrite <- sumC_mul, root_pow_sum by (unfold L; lia). rewrite Z.sub_diag, Z.mod_0_l by (unfold L; lia). cbn [Z.eqb]. ring. }
  assert (Hb : Cmod (sumC 0 L (fun p => T (2 * PI * IZR p / IZR L)%R * root L (- k * p)%Z)%C) <= IZR (L - 0) * B).
  { apply Cmod_sum; [unfold L; lia|]. intros p _. rewrite Cmod_mult. unfold root, cisR. rewrite Cmod_cis, Rmult_1_r. apply HB. }
  rewrite E, Cmod_mult, !Cmod_R, Z.sub_0_r in Hb. assert (HL : 0 < IZR L) by (apply IZR_lt; unfold L; lia).
  rewrite (Rabs_pos_eq (IZR L)) in Hb by lra. apply Rmult_le_reg_l with (IZR L); auto.
Qed.

Lemma Yt_bound n m k : (Z.abs m <= n)%Z -> Rabs (Yt n m k) <= ymax n.
Proof.
  intros H. destruct (Z.le_gt_cases (Z.abs k) n) as [Hk|Hk].
  - apply (fourier_bound n); auto; [lia|]. intros t. pose proof (harm_bound n m t 0 H) as B. rewrite (harm_fourier_Yt n m H) in B.
    rewrite Cmod_mult in B. unfold e_i at 1 in B. rewrite Cmod_cis, Rmult_1_l in B. exact B.
  - rewrite Yt_supp by lia. rewrite Rabs_R0. apply sqrt_pos.
Qed.
