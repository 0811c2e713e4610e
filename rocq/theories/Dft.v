(** * Dft: roots of unity, orthogonality and circular convolution (mathematics
    about the DFT sums of MPysphi.v). *)
From Coq Require Import ZArith List Lia Reals Lra Bool.
From Coquelicot Require Import Complex.
From Verif Require Import Py PyFacts Num Exact MCoefs Sums MPysphi.
Import ListNotations.
Open Scope Z_scope.

Lemma C_ext (a b c d : R) : a = c -> b = d -> (a, b) = (c, d) :> C.
Proof. intros -> ->; reflexivity. Qed.
Lemma cisR_add s t : cisR (s + t) = (cisR s * cisR t)%C.
Proof. unfold cisR, Cmult; cbn [fst snd]. rewrite cos_plus, sin_plus. apply C_ext; ring. Qed.
Lemma cisR_0 : cisR 0 = RtoC 1.
Proof. unfold cisR. rewrite cos_0, sin_0. reflexivity. Qed.
Lemma cisR_2PIk (k : Z) : cisR (2 * PI * IZR k) = RtoC 1.
Proof.
  unfold cisR.
  assert (H : forall n, cos (2 * PI * INR n) = 1%R /\ sin (2 * PI * INR n) = 0%R).
  { intros n. replace (2 * PI * INR n)%R with (0 + 2 * INR n * PI)%R by ring.
    rewrite cos_period, sin_period, cos_0, sin_0. auto. }
  destruct (Z_lt_le_dec k 0) as [L|L].
  - destruct (H (Z.to_nat (- k))) as [Hc Hs]. rewrite INR_IZR_INZ, Z2Nat.id in Hc, Hs by lia.
    rewrite opp_IZR in Hc, Hs. replace (2 * PI * - IZR k)%R with (- (2 * PI * IZR k))%R in Hc, Hs by ring.
    rewrite cos_neg in Hc. rewrite sin_neg in Hs. rewrite Hc. apply C_ext; lra.
  - destruct (H (Z.to_nat k)) as [Hc Hs]. rewrite INR_IZR_INZ, Z2Nat.id in Hc, Hs by lia. now rewrite Hc, Hs.
Qed.

Lemma mod_zero_small n d : 0 < n -> - n < d < n -> d mod n = 0 -> d = 0.
Proof.
  intros Hn Hd E. destruct (Z_lt_le_dec d 0) as [L|L].
  - assert (H : (d + 1 * n) mod n = 0) by (now rewrite Z_mod_plus_full). rewrite Z.mod_small in H; lia.
  - rewrite Z.mod_small in E; lia.
Qed.

Section Roots.
Variable n : Z.
Hypothesis Hn : 0 < n.
Lemma IZRn : IZR n <> 0%R. Proof. apply not_0_IZR; lia. Qed.
Lemma root_add a b : root n (a + b) = (root n a * root n b)%C.
Proof.
  unfold root. rewrite <- cisR_add. f_equal. rewrite plus_IZR. field. apply IZRn.
Qed.
Lemma root_0 : root n 0 = RtoC 1.
Proof. unfold root. rewrite <- cisR_0. f_equal. field. apply IZRn. Qed.
Lemma root_n k : root n (n * k) = RtoC 1.
Proof.
  unfold root. rewrite <- (cisR_2PIk k). f_equal. rewrite mult_IZR. field. apply IZRn.
Qed.
Lemma root_period a k : root n (a + n * k) = root n a.
Proof. rewrite root_add, root_n. ring. Qed.
Lemma root_mod a : root n (a mod n) = root n a.
Proof.
  rewrite (Z.div_mod a n) at 2 by lia. rewrite Z.add_comm, root_period. reflexivity.
Qed.
Lemma root_inv a : (root n a * root n (- a))%C = RtoC 1.
Proof. rewrite <- root_add. replace (a + - a) with 0 by lia. apply root_0. Qed.
Lemma root_ne1 r : 0 < r < n -> root n r <> RtoC 1.
Proof.
  intros Hr E. unfold root, cisR in E. apply (f_equal fst) in E. cbn in E.
  set (t := (PI * IZR r / IZR n)%R). 
  assert (Et : (2 * PI * IZR r / IZR n = 2 * t)%R) by (unfold t; field; apply IZRn).
  rewrite Et in E. rewrite cos_2a_sin in E.
  assert (H0 : (0 < IZR n)%R) by (apply IZR_lt; lia).
  assert (H1 : (0 < IZR r)%R) by (apply IZR_lt; lia).
  assert (H2 : (IZR r < IZR n)%R) by (apply IZR_lt; lia).
  pose proof PI_RGT_0 as HP.
  assert (Hs : (0 < sin t)%R).
  { apply sin_gt_0; unfold t.
    - apply Rdiv_lt_0_compat; auto. apply Rmult_lt_0_compat; auto.
    - apply Rmult_lt_reg_r with (IZR n); auto. unfold Rdiv. rewrite Rmult_assoc, Rinv_l by lra.
      rewrite Rmult_1_r. apply Rmult_lt_compat_l; auto. }
  nra.
Qed.
Lemma root_pow_sum (x : Z) : sumC 0 n (fun p => root n (x * p)) = if x mod n =? 0 then RtoC (IZR n) else RtoC 0.
Proof.
  destruct (Z.eqb_spec (x mod n) 0) as [E|E].
  - rewrite (sumC_ext _ _ _ (fun _ => RtoC 1)).
    + assert (H : forall lo hi, lo <= hi -> sumC lo hi (fun _ => RtoC 1) = RtoC (IZR (hi - lo))).
      { intros lo hi. revert lo hi. apply (gsum_ind (fun lo hi => lo <= hi -> sumC lo hi (fun _ => RtoC 1) = RtoC (IZR (hi - lo)))).
        - intros lo hi H1 H2. rewrite sumC_nil by lia. replace (hi - lo) with 0 by lia. reflexivity.
        - intros lo hi H1 IH _. rewrite sumC_cons, IH by lia. rewrite <- RtoC_plus. f_equal.
          rewrite <- plus_IZR. f_equal. lia. }
      rewrite H by lia. f_equal. f_equal. lia.
    + intros p _. apply Z.mod_divide in E; [|lia]. destruct E as [q ->].
      replace (q * n * p) with (n * (q * p)) by ring. apply root_n.
  - set (r := x mod n) in *. assert (Hr : 0 < r < n) by (pose proof (Z.mod_pos_bound x n Hn); unfold r in *; lia).
    set (s := sumC 0 n (fun p => root n (x * p))).
    assert (Hs : (root n x * s)%C = s).
    { unfold s. rewrite sumC_mul.
      transitivity (sumC (0 + 1) (n + 1) (fun p => root n (x * p))).
      { rewrite sumC_shift. apply sumC_ext. intros p _. rewrite <- root_add. f_equal. ring. }
      rewrite sumC_snoc by lia. rewrite (sumC_cons 0 n) by lia.
      replace (x * n) with (n * x) by ring. rewrite root_n. replace (x * 0) with 0 by lia. rewrite root_0. ring. }
    assert (Hx : root n x <> RtoC 1) by (rewrite <- root_mod; fold r; apply root_ne1; auto).
    assert (Hm : (root n x - RtoC 1 <> RtoC 0)%C).
    { intros H. apply Hx. replace (root n x) with (root n x - RtoC 1 + RtoC 1)%C by ring. rewrite H. ring. }
    assert (Hz : ((root n x - RtoC 1) * s = RtoC 0)%C).
    { transitivity (root n x * s - s)%C; [ring|]. rewrite Hs. ring. }
    transitivity (/ (root n x - RtoC 1) * ((root n x - RtoC 1) * s))%C.
    + rewrite Cmult_assoc, Cinv_l by auto. ring.
    + rewrite Hz. ring.
Qed.

(** Inversion: sum_p (sum_j f_j w^{-jp}) w^{pk} = n f_k *)
Lemma dft_inv f k : 0 <= k < n ->
  sumC 0 n (fun p => sumC 0 n (fun j => f j * root n (- (j * p))) * root n (p * k))%C = (RtoC (IZR n) * f k)%C.
Proof.
  intros Hk.
  rewrite (sumC_ext _ _ _ (fun p => sumC 0 n (fun j => f j * root n ((k - j) * p)))%C).
  - rewrite sumC_exch.
    rewrite (sumC_single _ _ k); auto.
    + rewrite <- (sumC_mul (f k)). rewrite root_pow_sum. replace (k - k) with 0 by lia.
      rewrite Z.mod_0_l by lia. cbn [Z.eqb]. ring.
    + intros j Hj Hne. rewrite <- (sumC_mul (f j)). rewrite root_pow_sum.
      destruct (Z.eqb_spec ((k - j) mod n) 0) as [E|E]; [|ring].
      exfalso. apply mod_zero_small in E; lia.
  - intros p _. rewrite sumC_mulr. apply sumC_ext. intros j _.
    rewrite <- Cmult_assoc, <- root_add. do 2 f_equal. ring.
Qed.
Lemma dft_inv' f k : 0 <= k < n ->
  sumC 0 n (fun p => sumC 0 n (fun j => f j * root n (j * p)) * root n (- (p * k)))%C = (RtoC (IZR n) * f k)%C.
Proof.
  intros Hk.
  rewrite (sumC_ext _ _ _ (fun p => sumC 0 n (fun j => f j * root n ((j - k) * p)))%C).
  - rewrite sumC_exch.
    rewrite (sumC_single _ _ k); auto.
    + rewrite <- (sumC_mul (f k)). rewrite root_pow_sum. replace (k - k) with 0 by lia.
      rewrite Z.mod_0_l by lia. cbn [Z.eqb]. ring.
    + intros j Hj Hne. rewrite <- (sumC_mul (f j)). rewrite root_pow_sum.
      destruct (Z.eqb_spec ((j - k) mod n) 0) as [E|E]; [|ring].
      exfalso. apply mod_zero_small in E; lia.
  - intros p _. rewrite sumC_mulr. apply sumC_ext. intros j _.
    rewrite <- Cmult_assoc, <- root_add. do 2 f_equal. ring.
Qed.

(** Circular convolution theorem. *)
Lemma dft_conv f g k : 0 <= k < n ->
  sumC 0 n (fun p => (sumC 0 n (fun j => f j * root n (- (j * p))) * sumC 0 n (fun j => g j * root n (- (j * p))))
                     * root n (p * k))%C
  = (RtoC (IZR n) * sumC 0 n (fun a => f a * g ((k - a) mod n)))%C.
Proof.
  intros Hk.
  rewrite <- (dft_inv (fun k => sumC 0 n (fun a => f a * g ((k - a) mod n)))%C k Hk).
  apply sumC_ext. intros p _. f_equal.
  (* sum_j (sum_a f a g((j-a) mod n)) w^{-jp} = F(p) G(p) *)
  symmetry.
  rewrite (sumC_ext _ _ _ (fun j => sumC 0 n (fun a => f a * g ((j - a) mod n) * root n (- (j * p))))%C)
    by (intros; apply sumC_mulr).
  rewrite sumC_exch. rewrite sumC_mulr. apply sumC_ext. intros a _.
  rewrite (sumC_ext _ _ _ (fun j => f a * root n (- (a * p)) * (fun i => g i * root n (- (i * p))) ((j + - a) mod n))%C).
  - rewrite <- sumC_mul. f_equal. apply (sumC_mod n (- a) (fun i => g i * root n (- (i * p)))%C); auto.
  - intros j _. cbv beta. replace (j + - a) with (j - a) by lia.
    transitivity (f a * g ((j - a) mod n)%Z * (root n (- (a * p)) * root n (- ((j - a) mod n * p))))%C; [|ring].
    f_equal. rewrite <- root_add. rewrite <- root_mod. symmetry. rewrite <- root_mod. f_equal.
    replace (- (a * p) + - ((j - a) mod n * p)) with ((- p) * (a + (j - a) mod n)) by ring.
    replace (- (j * p)) with ((- p) * j) by ring.
    rewrite Z.mul_mod by lia. rewrite (Z.mul_mod (- p) j) by lia. f_equal. f_equal.
    rewrite Zplus_mod_idemp_r. f_equal. lia.
Qed.
End Roots.
