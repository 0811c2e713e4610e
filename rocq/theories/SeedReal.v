(** * SeedReal: the exact value of the leading Fourier coefficient y(n|n,m) and
    its size. *)
From Coq Require Import ZArith List Bool Reals Lia Lra Psatz.
From Coquelicot Require Import Coquelicot.
From Verif Require Import Py PyFacts Num Sums Harm MPysphi PysphiFacts.
Import ListNotations.
Open Scope Z_scope.

Lemma zrange_down_snoc hi lo : lo <= hi -> zrange_down hi (lo - 1) = zrange_down hi lo ++ [lo].
Proof.
  intros. rewrite !zrange_down_rev. replace (lo - 1 + 1) with lo by lia.
  rewrite (zrange_cons lo) by lia. reflexivity.
Qed.

Lemma ynnm_top n : 0 <= n -> ynnm n n = ymm (Z.to_nat n).
Proof.
  intros H. unfold ynnm. rewrite Z.abs_eq by auto. rewrite Z.ltb_irrefl, Z.eqb_refl.
  destruct (Z.eqb_spec n 0) as [->|]; [reflexivity|]. rewrite ymm_loop by auto. reflexivity.
Qed.

Lemma ynnm_step n k : 0 <= k < n ->
  ynnm n k = (ynnm n (k + 1) * sqrt ((IZR n + IZR k + 1) / (IZR n - IZR k)))%R.
Proof.
  intros H. unfold ynnm. rewrite !Z.abs_eq by lia.
  destruct (Z.ltb_spec n k); [lia|]. destruct (Z.ltb_spec n (k + 1)); [lia|].
  destruct (Z.eqb_spec n 0); [lia|]. destruct (Z.eqb_spec n k); [lia|].
  rewrite zrange_down_snoc by lia. rewrite pfor_app. cbn [pfor fold_left]. f_equal.
  destruct (Z.eqb_spec n (k + 1)).
  - rewrite zrange_down_nil by lia. reflexivity.
  - replace (k + 1 - 1) with k by lia. reflexivity.
Qed.

Lemma ynnm_abs n m : ynnm n (Z.abs m) = ynnm n m.
Proof. unfold ynnm. now rewrite Z.abs_involutive. Qed.

Lemma ratio_ge1 n k : 0 <= k < n -> (1 <= (IZR n + IZR k + 1) / (IZR n - IZR k))%R.
Proof.
  intros H. assert (0 < IZR n - IZR k)%R by (rewrite <- minus_IZR; apply IZR_lt; lia).
  assert (0 <= IZR k)%R by (apply IZR_le; lia).
  apply Rmult_le_reg_r with (IZR n - IZR k)%R; auto. unfold Rdiv. rewrite Rmult_assoc, Rinv_l by lra. lra.
Qed.

Lemma ynnm_pos n m : Z.abs m <= n -> (0 < ynnm n m)%R.
Proof.
  intros H. rewrite ynnm_eq by auto. unfold Yt.
  replace n with (Z.of_nat (Z.to_nat (Z.abs m) + Z.to_nat (n - Z.abs m))) at 2 by lia. apply lead_pos.
Qed.

Lemma ynnm_mono n k : 0 <= k < n -> (ynnm n (k + 1) <= ynnm n k)%R.
Proof.
  intros H. rewrite (ynnm_step n k) by auto. pose proof (ynnm_pos n (k + 1) ltac:(lia)) as P.
  rewrite <- (Rmult_1_r (ynnm n (k + 1))) at 1. apply Rmult_le_compat_l; [lra|].
  rewrite <- sqrt_1 at 1. apply sqrt_le_1_alt. apply ratio_ge1. auto.
Qed.

Lemma ynnm_le0 n k : 0 <= k <= n -> (ynnm n k <= ynnm n 0)%R.
Proof.
  intros [H1 H2]. revert k H1 H2. apply (natlike_ind (fun k => k <= n -> (ynnm n k <= ynnm n 0)%R)); [lra|].
  intros k Hk IH H. unfold Z.succ in *. apply Rle_trans with (ynnm n k); [apply ynnm_mono; lia|apply IH; lia].
Qed.

Definition aR : R := (1 / sqrt (4 * PI))%R.
Lemma aR_pos : (0 < aR)%R.
Proof. unfold aR. apply Rdiv_lt_0_compat; [lra|]. apply sqrt_lt_R0. pose proof PI_RGT_0. lra. Qed.

(** y(n|n,0)^2 = a^2 prod (1 - 1/(2k)^2) *)
Lemma y0_sq_S j : (ynnm (Z.of_nat (S j)) 0 ^ 2 = ynnm (Z.of_nat j) 0 ^ 2 * ((2 * INR j + 3) * (2 * INR j + 1) / (4 * (INR j + 1) ^ 2)))%R.
Proof.
  assert (L : forall j, (ynnm (Z.of_nat j) 0 ^ 2 * (INR (fact j) * INR (fact j)) = ymm j ^ 2 * INR (fact (2 * j)))%R).
  { intros i. rewrite ynnm_eq by (cbn; lia). unfold Yt. pose proof (lead_sq 0 i) as H. cbn [Z.abs Z.to_nat] in *.
    rewrite Z.sub_0_r, Nat2Z.id. cbn [Nat.mul Nat.add] in H. cbn [Nat.mul Nat.add]. exact H. }
  pose proof (L j) as L1. pose proof (L (S j)) as L2. rewrite ymm_sq_S in L2.
  replace (2 * S j)%nat with (S (S (2 * j))) in L2 by lia.
  rewrite !fact_simpl, !mult_INR in L2.
  pose proof (INR_fact_lt_0 j) as F1. pose proof (INR_fact_lt_0 (2 * j)) as F2.
  set (f := INR (fact j)) in *. set (g := INR (fact (2 * j))) in *.
  set (y := ynnm (Z.of_nat j) 0) in *. set (z := ynnm (Z.of_nat (S j)) 0) in *.
  rewrite !S_INR, !mult_INR in *. cbn [INR] in *. pose proof (pos_INR j) as Pj. set (J := INR j) in *.
  assert (H : ((J + 1) ^ 2 * f ^ 2 <> 0)%R) by nra.
  apply Rmult_eq_reg_r with ((J + 1) ^ 2 * f ^ 2)%R; auto.
  transitivity (z ^ 2 * ((J + 1) * f * ((J + 1) * f)))%R; [ring|]. rewrite L2.
  transitivity (y ^ 2 * (f * f) * ((2 * J + 3) * (2 * J + 1) / 4))%R; [|field; nra].
  rewrite L1. field. nra.
Qed.

Lemma y0_bounds n : 0 <= n -> (aR ^ 2 / 2 <= ynnm n 0 ^ 2 <= aR ^ 2)%R.
Proof.
  intros Hn. rewrite <- (Z2Nat.id n) by auto. set (j := Z.to_nat n). clearbody j. clear.
  assert (H : (aR ^ 2 * ((INR j + 1) / (2 * INR j + 1)) <= ynnm (Z.of_nat j) 0 ^ 2 <= aR ^ 2)%R).
  { pose proof aR_pos as Pa. induction j as [|j IH].
    - cbn [INR]. change (ynnm (Z.of_nat 0) 0) with aR. split; [|lra]. right. field.
    - rewrite y0_sq_S. rewrite S_INR. pose proof (pos_INR j) as Pj. set (J := INR j) in *. set (y := ynnm (Z.of_nat j) 0) in *.
      assert (0 < aR ^ 2)%R by nra. set (b := (aR ^ 2)%R) in *. set (y2 := (y ^ 2)%R) in *. destruct IH as [I1 I2].
      assert (P4 : (0 < 4 * (J + 1) ^ 2)%R) by nra.
      split.
      + apply Rle_trans with (b * ((J + 1) / (2 * J + 1)) * ((2 * J + 3) * (2 * J + 1) / (4 * (J + 1) ^ 2)))%R.
        * replace (b * ((J + 1) / (2 * J + 1)) * ((2 * J + 3) * (2 * J + 1) / (4 * (J + 1) ^ 2)))%R
            with (b * ((2 * J + 3) / (4 * (J + 1))))%R by (field; split; lra).
          apply Rmult_le_compat_l; [lra|].
          apply Rmult_le_reg_r with (4 * (J + 1) * (2 * J + 3))%R; [nra|].
          replace ((J + 1 + 1) / (2 * (J + 1) + 1) * (4 * (J + 1) * (2 * J + 3)))%R with ((J + 2) * 4 * (J + 1))%R by (field; lra).
          replace ((2 * J + 3) / (4 * (J + 1)) * (4 * (J + 1) * (2 * J + 3)))%R with ((2 * J + 3) * (2 * J + 3))%R by (field; lra).
          nra.
        * apply Rmult_le_compat_r; auto. apply Rlt_le. apply Rdiv_lt_0_compat; nra.
      + apply Rle_trans with (y2 * 1)%R; [|lra]. apply Rmult_le_compat_l; [unfold y2; nra|].
        apply Rmult_le_reg_r with (4 * (J + 1) ^ 2)%R; auto. unfold Rdiv. rewrite Rmult_assoc, Rinv_l by lra. nra. }
  destruct H as [H1 H2]. split; auto. eapply Rle_trans; [|exact H1].
  pose proof (pos_INR j) as Pj. pose proof aR_pos as Pa. unfold Rdiv at 1. apply Rmult_le_compat_l; [nra|].
  apply Rmult_le_reg_r with (2 * (2 * INR j + 1))%R; [lra|].
  replace (/ 2 * (2 * (2 * INR j + 1)))%R with (2 * INR j + 1)%R by field.
  replace ((INR j + 1) / (2 * INR j + 1) * (2 * (2 * INR j + 1)))%R with (2 * INR j + 2)%R by (field; lra). lra.
Qed.

Lemma ynnm_le_a n k : 0 <= k <= n -> (ynnm n k <= aR)%R.
Proof.
  intros H. apply Rle_trans with (ynnm n 0); [apply ynnm_le0; auto|].
  destruct (y0_bounds n ltac:(lia)) as [_ H1]. pose proof (ynnm_pos n 0 ltac:(cbn; lia)). pose proof aR_pos.
  nra.
Qed.
