(** * Sums: finite sums over integer ranges (no model content). *)
From Coq Require Import ZArith List Lia Reals Lra.
From Coquelicot Require Import Complex.
From Verif Require Import Py PyFacts.
Import ListNotations.
Open Scope Z_scope.

Lemma gsum_ind (P : Z -> Z -> Prop) : (forall lo hi, hi <= lo -> P lo hi) ->
  (forall lo hi, lo < hi -> P (lo + 1) hi -> P lo hi) -> forall lo hi, P lo hi.
Proof.
  intros H0 Hs lo hi. remember (Z.to_nat (hi - lo)) as s eqn:E. revert lo E.
  induction s as [|s IH]; intros lo E; [apply H0; lia|]. apply Hs; [lia|]. apply IH; lia.
Qed.

Section Gen.
Context {T : Type} (zero : T) (add : T -> T -> T).

Definition gsum (lo hi : Z) (f : Z -> T) : T := fold_right add zero (map f (zrange lo hi)).

Lemma gsum_nil lo hi f : hi <= lo -> gsum lo hi f = zero.
Proof. intros; unfold gsum; rewrite zrange_nil by lia; reflexivity. Qed.
Lemma gsum_cons lo hi f : lo < hi -> gsum lo hi f = add (f lo) (gsum (lo + 1) hi f).
Proof. intros; unfold gsum. rewrite zrange_cons by lia. reflexivity. Qed.
Lemma gsum_ext lo hi f g : (forall k, lo <= k < hi -> f k = g k) -> gsum lo hi f = gsum lo hi g.
Proof.
  intros H; unfold gsum. f_equal. apply map_ext_in. intros k Hk; apply In_zrange in Hk; auto.
Qed.
Lemma gsum_hom (h : T -> T) lo hi f : h zero = zero -> (forall x y, h (add x y) = add (h x) (h y)) ->
  h (gsum lo hi f) = gsum lo hi (fun k => h (f k)).
Proof.
  intros H0 H1. revert lo hi. apply gsum_ind.
  - intros. now rewrite !gsum_nil by lia.
  - intros lo hi Hl IH. rewrite !(gsum_cons lo hi) by lia. now rewrite H1, IH.
Qed.
Hypothesis add0 : forall x, add zero x = x.
Hypothesis addC : forall x y, add x y = add y x.
Hypothesis addA : forall x y z, add x (add y z) = add (add x y) z.

Lemma gsum_zero lo hi f : (forall k, lo <= k < hi -> f k = zero) -> gsum lo hi f = zero.
Proof.
  revert lo hi. apply (gsum_ind (fun lo hi => (forall k, lo <= k < hi -> f k = zero) -> gsum lo hi f = zero)).
  - intros; now apply gsum_nil.
  - intros lo hi Hl IH Hf. rewrite gsum_cons, IH, Hf by (try lia; intros; apply Hf; lia). apply add0.
Qed.
Lemma gsum_split lo mid hi f : lo <= mid <= hi -> gsum lo hi f = add (gsum lo mid f) (gsum mid hi f).
Proof.
  intros [H1 H2]. revert H1. revert lo.
  assert (G : forall s lo, s = Z.to_nat (mid - lo) -> lo <= mid -> gsum lo hi f = add (gsum lo mid f) (gsum mid hi f)).
  { induction s as [|s IH]; intros lo Es Hl.
    - assert (lo = mid) by lia. subst. rewrite (gsum_nil mid mid) by lia. now rewrite add0.
    - rewrite (gsum_cons lo hi), (gsum_cons lo mid) by lia. rewrite (IH (lo + 1)) by lia. apply addA. }
  intros lo Hl. eapply G; eauto.
Qed.
Lemma gsum_snoc lo hi f : lo <= hi -> gsum lo (hi + 1) f = add (gsum lo hi f) (f hi).
Proof.
  intros H. rewrite (gsum_split lo hi) by lia. f_equal. rewrite gsum_cons by lia. rewrite gsum_nil by lia.
  rewrite addC; apply add0.
Qed.
Lemma gsum_add lo hi f g : gsum lo hi (fun k => add (f k) (g k)) = add (gsum lo hi f) (gsum lo hi g).
Proof.
  revert lo hi. apply gsum_ind.
  - intros. rewrite !gsum_nil by lia. now rewrite add0.
  - intros lo hi Hl IH. rewrite !(gsum_cons lo hi) by lia. rewrite IH.
    rewrite <- !addA. f_equal. rewrite !addA. f_equal. apply addC.
Qed.
Lemma gsum_exch lo hi lo' hi' (f : Z -> Z -> T) :
  gsum lo hi (fun i => gsum lo' hi' (f i)) = gsum lo' hi' (fun j => gsum lo hi (fun i => f i j)).
Proof.
  revert lo hi. apply gsum_ind.
  - intros. rewrite gsum_nil by lia. symmetry. apply gsum_zero. intros. apply gsum_nil; lia.
  - intros lo hi Hl IH. rewrite gsum_cons by lia. rewrite IH. rewrite <- gsum_add.
    apply gsum_ext. intros j _. symmetry. apply (gsum_cons lo hi (fun i => f i j)); lia.
Qed.
Lemma gsum_shift lo hi d f : gsum (lo + d) (hi + d) f = gsum lo hi (fun k => f (k + d)).
Proof. unfold gsum. rewrite zrange_shift, map_map. reflexivity. Qed.
Lemma gsum_shift' lo hi d f : gsum lo hi (fun k => f (k + d)) = gsum (lo + d) (hi + d) f.
Proof. symmetry; apply gsum_shift. Qed.
Lemma gsum_rev lo hi f : gsum lo hi f = gsum (1 - hi) (1 - lo) (fun k => f (- k)).
Proof.
  revert lo hi. apply gsum_ind.
  - intros. now rewrite !gsum_nil by lia.
  - intros lo hi Hl IH. rewrite gsum_cons by lia. rewrite IH.
    replace (1 - lo) with (- lo + 1) by lia. replace (1 - (lo + 1)) with (- lo) by lia.
    rewrite gsum_snoc by lia. rewrite Z.opp_involutive. apply addC.
Qed.
Lemma gsum_single lo hi j f : lo <= j < hi -> (forall k, lo <= k < hi -> k <> j -> f k = zero) ->
  gsum lo hi f = f j.
Proof.
  intros Hj H. rewrite (gsum_split lo j hi) by lia. rewrite (gsum_cons j hi) by lia.
  rewrite !gsum_zero by (intros; apply H; lia). rewrite add0, addC. apply add0.
Qed.
(** Enlarging the range when the summand vanishes outside. *)
Lemma gsum_extend lo hi lo' hi' f : lo' <= lo -> hi <= hi' -> lo <= hi ->
  (forall k, lo' <= k < hi' -> ~ (lo <= k < hi) -> f k = zero) -> gsum lo' hi' f = gsum lo hi f.
Proof.
  intros H1 H2 H3 H. rewrite (gsum_split lo' lo hi') by lia. rewrite (gsum_split lo hi hi') by lia.
  rewrite (gsum_zero lo' lo), (gsum_zero hi hi') by (intros; apply H; lia).
  rewrite add0, addC. apply add0.
Qed.
Lemma gsum_window f lo hi lo' hi' : lo <= hi -> lo' <= hi' ->
  (forall k, f k <> zero -> lo <= k < hi) -> (forall k, f k <> zero -> lo' <= k < hi') ->
  (forall k, f k = zero \/ f k <> zero) -> gsum lo hi f = gsum lo' hi' f.
Proof.
  intros H1 H2 Ha Hb Hd.
  transitivity (gsum (Z.min lo lo') (Z.max hi hi') f).
  - symmetry; apply gsum_extend; try lia. intros k _ Hk. destruct (Hd k); auto. exfalso; auto.
  - apply gsum_extend; try lia. intros k _ Hk. destruct (Hd k); auto. exfalso; auto.
Qed.
Lemma gsum_mod n d f : 0 < n -> gsum 0 n (fun k => f ((k + d) mod n)) = gsum 0 n f.
Proof.
  intros Hn. set (r := d mod n). assert (Hr : 0 <= r < n) by (apply Z.mod_pos_bound; lia).
  transitivity (gsum 0 n (fun k => f ((k + r) mod n))).
  { apply gsum_ext. intros k _. f_equal. unfold r. rewrite Zplus_mod_idemp_r. auto. }
  rewrite (gsum_shift' 0 n r (fun k => f (k mod n))).
  rewrite (gsum_split (0 + r) n (n + r)) by lia.
  replace (n + r) with (r + n) by lia. rewrite (gsum_split 0 r n f) by lia.
  rewrite addC. f_equal.
  - transitivity (gsum (0 + n) (r + n) (fun k => f (k mod n))); [f_equal; lia|].
    rewrite gsum_shift. apply gsum_ext. intros k Hk. f_equal.
    replace (k + n) with (k + 1 * n) by lia. rewrite Z_mod_plus_full. apply Z.mod_small; lia.
  - apply gsum_ext. intros k Hk. f_equal. apply Z.mod_small; lia.
Qed.
End Gen.

(** ** Instances *)
Definition sumC : Z -> Z -> (Z -> C) -> C := gsum (RtoC 0) Cplus.
Definition sumR : Z -> Z -> (Z -> R) -> R := gsum 0%R Rplus.

Section InstC.
Lemma C0 : forall x : C, (RtoC 0 + x)%C = x. Proof. intros; ring. Qed.
Lemma CC : forall x y : C, (x + y)%C = (y + x)%C. Proof. intros; ring. Qed.
Lemma CA : forall x y z : C, (x + (y + z))%C = (x + y + z)%C. Proof. intros; ring. Qed.
Lemma sumC_nil lo hi f : hi <= lo -> sumC lo hi f = RtoC 0. Proof. apply gsum_nil. Qed.
Lemma sumC_cons lo hi f : lo < hi -> sumC lo hi f = (f lo + sumC (lo + 1) hi f)%C. Proof. apply gsum_cons. Qed.
Lemma sumC_ext lo hi f g : (forall k, lo <= k < hi -> f k = g k) -> sumC lo hi f = sumC lo hi g. Proof. apply gsum_ext. Qed.
Lemma sumC_zero lo hi f : (forall k, lo <= k < hi -> f k = RtoC 0) -> sumC lo hi f = RtoC 0. Proof. intros; apply gsum_zero; auto using C0, CC, CA. Qed.
Lemma sumC_split lo mid hi f : lo <= mid <= hi -> sumC lo hi f = (sumC lo mid f + sumC mid hi f)%C.
Proof. intros; apply gsum_split; auto using C0, CC, CA. Qed.
Lemma sumC_snoc lo hi f : lo <= hi -> sumC lo (hi + 1) f = (sumC lo hi f + f hi)%C.
Proof. intros; apply gsum_snoc; auto using C0, CC, CA. Qed.
Lemma sumC_add lo hi f g : sumC lo hi (fun k => f k + g k)%C = (sumC lo hi f + sumC lo hi g)%C.
Proof. intros; apply gsum_add; auto using C0, CC, CA. Qed.
Lemma sumC_mul c lo hi f : (c * sumC lo hi f)%C = sumC lo hi (fun k => c * f k)%C.
Proof. apply (gsum_hom (RtoC 0) Cplus (fun x => c * x)%C); intros; ring. Qed.
Lemma sumC_mulr c lo hi f : (sumC lo hi f * c)%C = sumC lo hi (fun k => f k * c)%C.
Proof. apply (gsum_hom (RtoC 0) Cplus (fun x => x * c)%C); intros; ring. Qed.
Lemma sumC_opp lo hi f : (- sumC lo hi f)%C = sumC lo hi (fun k => - f k)%C.
Proof. apply (gsum_hom (RtoC 0) Cplus Copp); intros; ring. Qed.
Lemma sumC_sub lo hi f g : sumC lo hi (fun k => f k - g k)%C = (sumC lo hi f - sumC lo hi g)%C.
Proof. unfold Cminus. rewrite sumC_opp, <- sumC_add. reflexivity. Qed.
Lemma sumC_exch lo hi lo' hi' f : sumC lo hi (fun i => sumC lo' hi' (f i)) = sumC lo' hi' (fun j => sumC lo hi (fun i => f i j)).
Proof. intros; apply gsum_exch; auto using C0, CC, CA. Qed.
Lemma sumC_shift lo hi d f : sumC (lo + d) (hi + d) f = sumC lo hi (fun k => f (k + d)). Proof. apply gsum_shift. Qed.
Lemma sumC_rev lo hi f : sumC lo hi f = sumC (1 - hi) (1 - lo) (fun k => f (- k)).
Proof. intros; apply gsum_rev; auto using C0, CC, CA. Qed.
Lemma sumC_single lo hi j f : lo <= j < hi -> (forall k, lo <= k < hi -> k <> j -> f k = RtoC 0) -> sumC lo hi f = f j.
Proof. intros; apply gsum_single; auto using C0, CC, CA. Qed.
Lemma sumC_extend lo hi lo' hi' f : lo' <= lo -> hi <= hi' -> lo <= hi ->
  (forall k, lo' <= k < hi' -> ~ (lo <= k < hi) -> f k = RtoC 0) -> sumC lo' hi' f = sumC lo hi f.
Proof. intros; apply gsum_extend; auto using C0, CC, CA. Qed.
Lemma sumC_mod n d f : 0 < n -> sumC 0 n (fun k => f ((k + d) mod n)) = sumC 0 n f.
Proof. intros; apply gsum_mod; auto using C0, CC, CA. Qed.
End InstC.

Section InstR.
Open Scope R_scope.
Lemma R0' : forall x : R, 0 + x = x. Proof. intros; ring. Qed.
Lemma RC' : forall x y : R, x + y = y + x. Proof. intros; ring. Qed.
Lemma RA' : forall x y z : R, x + (y + z) = x + y + z. Proof. intros; ring. Qed.
Open Scope Z_scope.
Lemma sumR_nil lo hi f : hi <= lo -> sumR lo hi f = 0%R. Proof. apply gsum_nil. Qed.
Lemma sumR_cons lo hi f : lo < hi -> sumR lo hi f = (f lo + sumR (lo + 1) hi f)%R. Proof. apply gsum_cons. Qed.
Lemma sumR_ext lo hi f g : (forall k, lo <= k < hi -> f k = g k) -> sumR lo hi f = sumR lo hi g. Proof. apply gsum_ext. Qed.
Lemma sumR_zero lo hi f : (forall k, lo <= k < hi -> f k = 0%R) -> sumR lo hi f = 0%R. Proof. intros; apply gsum_zero; auto using R0', RC', RA'. Qed.
Lemma sumR_split lo mid hi f : lo <= mid <= hi -> sumR lo hi f = (sumR lo mid f + sumR mid hi f)%R.
Proof. intros; apply gsum_split; auto using R0', RC', RA'. Qed.
Lemma sumR_snoc lo hi f : lo <= hi -> sumR lo (hi + 1) f = (sumR lo hi f + f hi)%R.
Proof. intros; apply gsum_snoc; auto using R0', RC', RA'. Qed.
Lemma sumR_add lo hi f g : sumR lo hi (fun k => f k + g k)%R = (sumR lo hi f + sumR lo hi g)%R.
Proof. intros; apply gsum_add; auto using R0', RC', RA'. Qed.
Lemma sumR_mul c lo hi f : (c * sumR lo hi f)%R = sumR lo hi (fun k => c * f k)%R.
Proof. apply (gsum_hom 0%R Rplus (fun x => c * x)%R); intros; ring. Qed.
Lemma sumR_mulr c lo hi f : (sumR lo hi f * c)%R = sumR lo hi (fun k => f k * c)%R.
Proof. apply (gsum_hom 0%R Rplus (fun x => x * c)%R); intros; ring. Qed.
Lemma sumR_opp lo hi f : (- sumR lo hi f)%R = sumR lo hi (fun k => - f k)%R.
Proof. apply (gsum_hom 0%R Rplus Ropp); intros; ring. Qed.
Lemma sumR_sub lo hi f g : sumR lo hi (fun k => f k - g k)%R = (sumR lo hi f - sumR lo hi g)%R.
Proof. unfold Rminus. rewrite sumR_opp, <- sumR_add. reflexivity. Qed.
Lemma sumR_exch lo hi lo' hi' f : sumR lo hi (fun i => sumR lo' hi' (f i)) = sumR lo' hi' (fun j => sumR lo hi (fun i => f i j)).
Proof. intros; apply gsum_exch; auto using R0', RC', RA'. Qed.
Lemma sumR_shift lo hi d f : sumR (lo + d) (hi + d) f = sumR lo hi (fun k => f (k + d)). Proof. apply gsum_shift. Qed.
Lemma sumR_rev lo hi f : sumR lo hi f = sumR (1 - hi) (1 - lo) (fun k => f (- k)).
Proof. intros; apply gsum_rev; auto using R0', RC', RA'. Qed.
Lemma sumR_single lo hi j f : lo <= j < hi -> (forall k, lo <= k < hi -> k <> j -> f k = 0%R) -> sumR lo hi f = f j.
Proof. intros; apply gsum_single; auto using R0', RC', RA'. Qed.
Lemma sumR_extend lo hi lo' hi' f : lo' <= lo -> hi <= hi' -> lo <= hi ->
  (forall k, lo' <= k < hi' -> ~ (lo <= k < hi) -> f k = 0%R) -> sumR lo' hi' f = sumR lo hi f.
Proof. intros; apply gsum_extend; auto using R0', RC', RA'. Qed.
End InstR.

Lemma sumC_RtoC lo hi f : sumC lo hi (fun k => RtoC (f k)) = RtoC (sumR lo hi f).
Proof.
  revert lo hi. apply gsum_ind.
  - intros. now rewrite sumC_nil, sumR_nil by lia.
  - intros lo hi Hl IH. rewrite sumC_cons, sumR_cons by lia. rewrite IH. symmetry; apply RtoC_plus.
Qed.
