(** * P_Table: C67, accuracy of the whole harmonic table in double precision. *)
From Coq Require Import ZArith List Bool SpecFloat Reals Lia Lra.
From Coquelicot Require Import Coquelicot.
From Flocq Require Import Core.Core IEEE754.BinarySingleNaN.
From Verif Require Import Py PyFacts Num FloatN MCoefs CoefsFacts Sums Harm MPysphi PysphiFacts MDouble FlFacts SeedReal SeedFl SeedFl2
  DoubleFacts TableEq FlSigned SbesselFTerm SbesselFRel Unsold TabFl P_Double.
Open Scope Z_scope.

(** ** Specification: [harm_fourier], [value], [finite] of P_Double, and *)

(** an absolute error bound for the entries of degree n *)
Definition table_tol (n : Z) : R := (16 * (IZR n + 1) ^ 3 * (1 + sqrt ((2 * IZR n + 1) / (4 * PI))) / 2 ^ 53)%R.

(** The table [t] of length L is right for y_0 ... y_n: every entry is a finite double
    within [table_tol n] of the exact coefficient; an entry whose exact value vanishes
    for parity reasons, and every entry beyond n, is exactly zero. *)
Definition table_right (n L : Z) (y : Z -> R) (t : list f64) : Prop :=
  zlen t = L /\
  (forall k, 0 <= k <= n -> finite (vget (fofZ 0) t k) /\ (Rabs (value (vget (fofZ 0) t k) - y k) <= table_tol n)%R) /\
  (forall k, 0 <= k <= n -> (n - k) mod 2 = 1 -> vget (fofZ 0) t k = fofZ 0 /\ y k = 0%R) /\
  (forall k, n < k < L -> vget (fofZ 0) t k = fofZ 0).

Lemma fin_finite x : fin x -> finite x.
Proof. destruct x; intros H; try discriminate H; exact I. Qed.
Lemma tol_eq n : table_tol n = tab_err n.
Proof. unfold table_tol, tab_err, ymax. rewrite uu_val. set (s := sqrt _). set (c := ((IZR n + 1) ^ 3)%R). lra. Qed.

(** ** Theorems *)

(** The table ynunm computes, pure Python version. *)
Theorem C67_table_accurate : forall n m L y, Z.abs m <= n -> n <= 1022 -> n < L -> harm_fourier n m y ->
  exists t, f_ynunm n m L = Ok t /\ table_right n L y t.
Proof.
  intros n m L y Hm Hn HL Hy. destruct (table_accurate n m L Hm Hn HL) as (t & E & Lt & T). exists t. split; [exact E|].
  assert (Q : forall k, 0 <= k <= n -> y k = Yt n m k).
  { intros k Hk. apply (harm_fourier_unique n m); auto using harm_fourier_Yt. lia. }
  split; [exact Lt|]. split; [|split].
  - intros k Hk. rewrite Q, tol_eq by auto. destruct (T k ltac:(lia)) as (_ & F & B & _). split; [apply fin_finite; exact F|exact B].
  - intros k Hk Od. rewrite Q by auto. apply (T k); [lia|auto].
  - intros k Hk. apply (T k); [lia|left; lia].
Qed.
Print Assumptions C67_table_accurate.

(** The same table from the C extension, whatever the work array contained. *)
Theorem C67_table_accurate_c : forall n m L work y, Z.abs m <= n -> n <= 1022 -> n < L -> zlen work = L -> harm_fourier n m y ->
  exists t, fc_ynunm n m work L = Ok t /\ table_right n L y t.
Proof.
  intros n m L work y Hm Hn HL Lw Hy. destruct (C67_table_accurate n m L y Hm Hn HL Hy) as (t & E & T). exists t. split; [|exact T].
  rewrite table_eq by (auto; lia). exact E.
Qed.
Print Assumptions C67_table_accurate_c.

(** For comparison, the size of the exact entries; the tolerance stays below 3e-5
    at degree 1022 and below 2e-8 at degree 100, so no entry is off by more. *)
Theorem C67_size : forall n m y, Z.abs m <= n -> harm_fourier n m y ->
  forall k, Z.abs k <= n -> (Rabs (y k) <= sqrt ((2 * IZR n + 1) / (4 * PI)))%R.
Proof.
  intros n m y Hm Hy k Hk. rewrite (harm_fourier_unique n m y (Yt n m)); auto using harm_fourier_Yt. apply Yt_bound. auto.
Qed.
Print Assumptions C67_size.
Theorem C67_tolerance : forall n, 0 <= n -> (n <= 1022 -> (table_tol n <= 3 / 10 ^ 5)%R) /\ (n <= 100 -> (table_tol n <= 2 / 10 ^ 8)%R).
Proof.
  assert (G : forall n N s, 0 <= n <= N -> (0 <= s)%R -> (2 * IZR N + 1 <= 12 * s ^ 2)%R -> (table_tol n <= 16 * (IZR N + 1) ^ 3 * (1 + s) / 2 ^ 53)%R).
  { intros n N s [H0 H1] Hs HQ. assert (0 <= IZR n <= IZR N)%R by (split; apply IZR_le; lia). pose proof PI_bounds as [P1 P2].
    assert (S : (0 <= sqrt ((2 * IZR n + 1) / (4 * PI)) <= s)%R).
    { split; [apply sqrt_pos|]. rewrite <- (sqrt_square s) by auto. apply sqrt_le_1_alt. apply Rmult_le_reg_r with (4 * PI)%R; [lra|].
      unfold Rdiv. rewrite Rmult_assoc, Rinv_l, Rmult_1_r by lra. assert (0 <= s * s)%R by (apply Rmult_le_pos; auto). nra. }
    unfold table_tol. apply Rmult_le_compat_r; [lra|]. rewrite !Rmult_assoc. apply Rmult_le_compat_l; [lra|].
    apply Rmult_le_compat; try lra; [apply pow_le; lra|apply pow_incr; lra]. }
  intros n Hn. split; intros H.
  - eapply Rle_trans; [apply (G n 1022 14%R); [lia|lra|lra]|]. lra.
  - eapply Rle_trans; [apply (G n 100 5%R); [lia|lra|lra]|]. lra.
Qed.
Print Assumptions C67_tolerance.

(** ** Non-vacuity *)
Example C67_nonvacuous : harm_fourier 1022 5 (Yt 1022 5) /\ (exists t, f_ynunm 1022 5 1023 = Ok t /\ finite (vget (fofZ 0) t 0)).
Proof.
  assert (H : harm_fourier 1022 5 (Yt 1022 5)) by (apply harm_fourier_Yt; lia). split; [exact H|].
  destruct (C67_table_accurate 1022 5 1023 _ ltac:(lia) ltac:(lia) ltac:(lia) H) as (t & E & _ & T & _). exists t. split; [exact E|]. apply T. lia.
Qed.
