(** * TabFl: the whole table of [f_ynunm] against the exact one. *)
From Coq Require Import ZArith List Bool SpecFloat Reals Lia Lra Psatz.
From Coquelicot Require Import Coquelicot.
From Flocq Require Import Core.Core IEEE754.BinarySingleNaN.
From Verif Require Import Py PyFacts Num FloatN MCoefs CoefsFacts Sums Harm MPysphi PysphiFacts MDouble FlFacts SeedReal SeedFl SeedFl2
  DoubleFacts TableEq FlSigned SbesselFTerm SbesselFRel TabPert Unsold.
Open Scope Z_scope.

(** ** The float recurrence *)
Definition fS (n m k : Z) : Z := (n - k - 1) * (n + k + 2) + ((n - k - 2) * (n + k + 3) - 4 * m ^ 2).
Definition fF3 (n k : Z) : Z := (n - k - 3) * (n + k + 4).
Definition fF4 (n k : Z) : Z := (n - k) * (n + k + 1).
Definition kk (n : Z) (i : nat) : Z := n + 2 - 2 * Z.of_nat i.

(** entries n+2, n, n-2, ... *)
Fixpoint tb2 (n m : Z) (i : nat) : f64 * f64 :=
  match i with
  | O => (S754_zero false, f_ynnm n m)
  | S O => (f_ynnm n m, fdiv (fmul (fofZ (fS n m (n - 2))) (f_ynnm n m)) (fofZ (fF4 n (n - 2))))
  | S j => let (x4, x2) := tb2 n m j in let k := kk n (S i) in
      (x2, fdiv (fsub (fmul (fofZ (fS n m k)) x2) (fmul (fofZ (fF3 n k)) x4)) (fofZ (fF4 n k)))
  end.
Definition tb (n m : Z) (i : nat) : f64 := fst (tb2 n m i).

Lemma tb2_S n m i : tb2 n m i = (tb n m i, tb n m (S i)).
Proof.
  unfold tb. destruct i as [|[|i]]; [reflexivity| |].
  - cbn [tb2]. reflexivity.
  - cbn [tb2]. destruct (match i with O => _ | _ => _ end) as [a b]. reflexivity.
Qed.
Lemma tb_0 n m : tb n m 0 = S754_zero false. Proof. reflexivity. Qed.
Lemma tb_1 n m : tb n m 1 = f_ynnm n m. Proof. reflexivity. Qed.
Lemma tb_2 n m : tb n m 2 = fdiv (fmul (fofZ (fS n m (n - 2))) (f_ynnm n m)) (fofZ (fF4 n (n - 2))). Proof. reflexivity. Qed.
Lemma tb_SS n m i : (1 <= i)%nat -> tb n m (i + 2) =
  fdiv (fsub (fmul (fofZ (fS n m (kk n (i + 2)))) (tb n m (i + 1))) (fmul (fofZ (fF3 n (kk n (i + 2)))) (tb n m i))) (fofZ (fF4 n (kk n (i + 2)))).
Proof.
  intros H. destruct i as [|i]; [lia|]. replace (S i + 2)%nat with (S (S (S i))) by lia. replace (S i + 1)%nat with (S (S i)) by lia.
  pose proof (tb2_S n m (S i)) as E. unfold tb at 1. 
  change (tb2 n m (S (S (S i)))) with (let (x4, x2) := tb2 n m (S (S i)) in let k := kk n (S (S (S (S i)))) in
      (x2, fdiv (fsub (fmul (fofZ (fS n m k)) x2) (fmul (fofZ (fF3 n k)) x4)) (fofZ (fF4 n k)))).
  rewrite tb2_S. cbn [fst]. 
  assert (E2 : snd (tb2 n m (S (S i))) = tb n m (S (S (S i)))) by now rewrite tb2_S.
  rewrite <- E2. change (tb2 n m (S (S i))) with (let (x4, x2) := tb2 n m (S i) in let k := kk n (S (S (S i))) in
      (x2, fdiv (fsub (fmul (fofZ (fS n m k)) x2) (fmul (fofZ (fF3 n k)) x4)) (fofZ (fF4 n k)))).
  rewrite E. reflexivity.
Qed.

(** ** f_ynunm computes it *)
Lemma p4_eq n k : 0 <= k <= n - 2 -> n < 2 ^ 25 -> p4 n k = fofZ (fF4 n k).
Proof. intros Hk Hn. unfold p4, fF4. rewrite fadd_int by lia. apply fmul_int; nia. Qed.
Lemma p3_eqZ n k : 0 <= k <= n - 4 -> n < 2 ^ 25 -> p3 n k = fofZ (fF3 n k).
Proof. intros Hk Hn. unfold p3, fF3. rewrite fadd_int, fsub_int by lia. apply fmul_int; nia. Qed.

Lemma f_ynunm_tb n m L : Z.abs m <= n -> n < L -> n < 2 ^ 25 ->
  exists v, f_ynunm n m L = Ok v /\ zlen v = L /\
    (forall i, 2 * Z.of_nat i <= n -> vget fz v (n - 2 * Z.of_nat i) = tb n m (S i)) /\
    (forall k, 0 <= k < L -> n < k \/ (n - k) mod 2 = 1 -> vget fz v k = fz).
Proof.
  intros Hm HL Hn. unfold f_ynunm. rewrite np_zeros_ok by lia. cbn [bind].
  set (z0 := vmake L (fun _ => fz)). assert (Lz : zlen z0 = L) by (unfold z0; apply zlen_vmake'; lia).
  assert (Zz : forall k, 0 <= k < L -> vget fz z0 k = fz) by (intros; unfold z0; now rewrite vget_vmake by lia).
  destruct (Z.leb_spec (Z.abs m) n) as [_|]; [|lia].
  rewrite py_set_ok by lia. cbn [bind].
  destruct (Z.leb_spec 0 (n - 2)) as [Hk|Hk].
  2:{ eexists. split; [reflexivity|]. rewrite zlen_vset. split; auto. split.
      - intros i Hi. assert (i = O) by lia. subst i. replace (n - 2 * Z.of_nat 0) with n by lia. rewrite vget_vset_eq by lia. reflexivity.
      - intros k Hk' Hc. rewrite vget_vset_ne; [apply Zz; auto|]. intros ->. rewrite Z.sub_diag in Hc. cbn in Hc. lia. }
  rewrite py_get_ok by (rewrite zlen_vset; lia). cbn [bind].
  rewrite py_set_ok by (rewrite zlen_vset; lia). cbn [bind].
  replace (n - 2 + 2) with n by lia. rewrite vget_vset_eq by lia.
  fold (p1 n (n - 2)) (p2 n m (n - 2)) (p4 n (n - 2)). rewrite py_b, p4_eq by lia. fold (fS n m (n - 2)). rewrite <- tb_2.
  set (s0 := vset (vset z0 n (f_ynnm n m)) (n - 2) _).
  pose (P := fun (c : Z) (v : list f64) => zlen v = L /\
    (forall i, 2 * Z.of_nat i <= n -> c < n - 2 * Z.of_nat i -> vget fz v (n - 2 * Z.of_nat i) = tb n m (S i)) /\
    (forall k, 0 <= k < L -> n < k \/ (n - k) mod 2 = 1 -> vget fz v k = fz)).
  edestruct (mfor_down2_inv P (n - 4) (-1)) as (e & v & E1 & E2 & E3 & E4 & E5).
  3:{ rewrite E4. destruct E5 as (Lv & V1 & V2). exists v. split; [reflexivity|]. split; [exact Lv|]. split; [|exact V2].
      intros i Hi. apply V1; lia. }
  - unfold P, s0. rewrite !zlen_vset. split; auto. split.
    + intros i Hi Hc. assert (i = 0%nat \/ i = 1%nat) as [->| ->] by lia.
      * replace (n - 2 * Z.of_nat 0) with n by lia. rewrite vget_vset_ne by lia. rewrite vget_vset_eq by lia. reflexivity.
      * replace (n - 2 * Z.of_nat 1) with (n - 2) by lia. rewrite vget_vset_eq by (rewrite zlen_vset; lia). reflexivity.
    + intros k Hk' Hc. rewrite !vget_vset_ne; [apply Zz; auto| |]; intros ->.
      * rewrite Z.sub_diag in Hc. cbn in Hc. lia.
      * replace (n - (n - 2)) with 2 in Hc by lia. cbn in Hc. lia.
  - intros i s Hi Hmod (Ls & V1 & V2). rewrite !py_get_ok by lia. cbn [bind]. rewrite py_set_ok by lia.
    eexists. split; [reflexivity|]. unfold P. rewrite zlen_vset. split; auto.
    assert (exists j : nat, i = n - 2 * Z.of_nat j) as [j ->].
    { exists (Z.to_nat ((n - i) / 2)). assert (D := Z.div_mod (n - 4 - i) 2 ltac:(lia)). rewrite Hmod in D.
      replace ((n - i) / 2) with ((n - 4 - i) / 2 + 2) by (replace (n - i) with (n - 4 - i + 2 * 2) by lia; rewrite Z.div_add; lia). lia. }
    split.
    + intros i Hi' Hc. destruct (Nat.eq_dec i j) as [->|Ne].
      * rewrite vget_vset_eq by lia. fold (p1 n (n - 2 * Z.of_nat j)) (p2 n m (n - 2 * Z.of_nat j)) (p3 n (n - 2 * Z.of_nat j)) (p4 n (n - 2 * Z.of_nat j)).
        rewrite py_b, p4_eq, p3_eqZ by lia. fold (fS n m (n - 2 * Z.of_nat j)).
        destruct j as [|[|j]]; [lia|lia|].
        replace (n - 2 * Z.of_nat (S (S j)) + 2) with (n - 2 * Z.of_nat (S j)) by lia.
        replace (n - 2 * Z.of_nat (S (S j)) + 4) with (n - 2 * Z.of_nat j) by lia.
        rewrite !V1 by lia. replace (S (S (S j))) with (S j + 2)%nat by lia. rewrite tb_SS by lia.
        replace (kk n (S j + 2)) with (n - 2 * Z.of_nat (S (S j))) by (unfold kk; lia). replace (S j + 1)%nat with (S (S j)) by lia. reflexivity.
      * rewrite vget_vset_ne by lia. apply V1; lia.
    + intros k Hk' Hc. rewrite vget_vset_ne; [apply V2; auto|]. intros ->. replace (n - (n - 2 * Z.of_nat j)) with (0 + Z.of_nat j * 2) in Hc by lia.
      rewrite Z_mod_plus_full, Z.mod_0_l in Hc by lia. lia.
Qed.

(** ** One step *)
Lemma bpow1023_big : (10 ^ 20 <= bpow radix2 1023)%R.
Proof. apply Rle_trans with (bpow radix2 100); [|apply bpow_le; lia]. change (bpow radix2 100) with (IZR (2 ^ 100)). change (2 ^ 100) with 1267650600228229401496703205376. lra. Qed.
Lemma ok_rnd z y : is_rnd z y -> (Rabs y <= 10 ^ 20)%R -> dbl z /\ fin z /\ V z = rnd y.
Proof.
  intros H Hy. split; [exact (proj1 H)|]. apply is_rnd_fin; auto. apply rnd_lt. pose proof bpow1023_big. lra.
Qed.
Lemma rnd_ok y : (Rabs (rnd y - y) <= uu * Rabs y + dmin / 2)%R. Proof. apply rnd_abs_err. Qed.
Lemma uu_small : (0 < uu <= / 10 ^ 15)%R. Proof. rewrite uu_val. lra. Qed.

Lemma alg3 u d X : (0 < u <= / 10 ^ 15 -> 0 < d -> 0 <= X ->
  u * ((1 + u) * ((1 + u) * X + d) + d / 2) + u * ((1 + u) * X + d) <= 3 * u * X + d / 2)%R.
Proof.
  intros [U0 U1] D HX. assert (P : (0 <= u * X)%R) by (apply Rmult_le_pos; lra). assert (Q : (0 <= u * d)%R) by (apply Rmult_le_pos; lra).
  assert (A1 : (u * (u * X) <= / 10 * (u * X))%R) by (apply Rmult_le_compat_r; lra).
  assert (A0 : (0 <= u * (u * X))%R) by (apply Rmult_le_pos; lra).
  assert (A2 : (u * (u * (u * X)) <= / 10 * (u * (u * X)))%R) by (apply Rmult_le_compat_r; lra).
  assert (A3 : (u * d <= / 10 * d)%R) by (apply Rmult_le_compat_r; lra).
  assert (A4 : (u * (u * d) <= / 10 * (u * d))%R) by (apply Rmult_le_compat_r; lra). lra.
Qed.
Lemma alg_pq u d X : (0 < u <= / 10 ^ 15 -> d <= / 10 ^ 30 -> 0 <= X <= 2 * 10 ^ 11 -> (1 + u) * X + d <= 10 ^ 12)%R.
Proof. intros [U0 U1] D [HX HX']. assert (u * X <= 1 * X)%R by (apply Rmult_le_compat_r; lra). lra. Qed.
Lemma alg_dd u d P : (0 < u <= / 10 ^ 15 -> d <= / 10 ^ 30 -> 0 <= P <= 10 ^ 12 -> (1 + u) * P + d / 2 <= 10 ^ 13)%R.
Proof. intros [U0 U1] D [HX HX']. assert (u * P <= 1 * P)%R by (apply Rmult_le_compat_r; lra). lra. Qed.
Lemma prod_bound a b A B : (Rabs a <= A -> Rabs b <= B -> Rabs (a * b) <= A * B)%R.
Proof. intros. rewrite Rabs_mult. apply Rmult_le_compat; auto using Rabs_pos. Qed.

Lemma ten9 : (10 ^ 9)%R = IZR (10 ^ 9). Proof. change (IZR (10 ^ 9)) with 1000000000%R. ring. Qed.

Lemma fl_step S F3 F4 x2 x4 (s f3 f4 : Z) : S = fofZ s -> F3 = fofZ f3 -> F4 = fofZ f4 -> Z.abs s <= 10 ^ 9 -> 0 <= f3 <= 10 ^ 9 -> 6 <= f4 <= 10 ^ 9 ->
  dbl x2 -> fin x2 -> dbl x4 -> fin x4 -> (Rabs (V x2) <= 100)%R -> (Rabs (V x4) <= 100)%R ->
  let r := fdiv (fsub (fmul S x2) (fmul F3 x4)) F4 in
  dbl r /\ fin r /\ (Rabs (IZR f4 * V r - (IZR s * V x2 - IZR f3 * V x4)) <= 4 * uu * (Rabs (IZR s * V x2) + Rabs (IZR f3 * V x4)) + dmin * IZR f4)%R.
Proof.
  intros -> -> -> Hs H3 H4 D2 F2 D4 F4' B2 B4 r.
  destruct (fofZ_small s ltac:(lia)) as (Ds & Fs & Vs). destruct (fofZ_small f3 ltac:(lia)) as (D3 & F3 & V3). destruct (fofZ_small f4 ltac:(lia)) as (Df & Ff & Vf).
  assert (Rs : (Rabs (IZR s) <= 10 ^ 9)%R). { rewrite <- abs_IZR. rewrite ten9. apply IZR_le. lia. }
  assert (R3 : (0 <= IZR f3 <= 10 ^ 9)%R). { rewrite ten9. split; apply IZR_le; lia. }
  assert (R4 : (6 <= IZR f4 <= 10 ^ 9)%R). { rewrite ten9. split; apply IZR_le; lia. }
  assert (P2 : (Rabs (IZR s * V x2) <= 10 ^ 11)%R) by (replace (10 ^ 11)%R with (10 ^ 9 * 100)%R by ring; apply prod_bound; auto).
  assert (P4 : (Rabs (IZR f3 * V x4) <= 10 ^ 11)%R) by (replace (10 ^ 11)%R with (10 ^ 9 * 100)%R by ring; apply prod_bound; auto; rewrite Rabs_pos_eq; lra).
  destruct (ok_rnd _ _ (fmul_rnd (fofZ s) x2 Ds D2 Fs F2)) as (Dp & Fp & Vp); [rewrite Vs; lra|].
  destruct (ok_rnd _ _ (fmul_rnd (fofZ f3) x4 D3 D4 F3 F4')) as (Dq & Fq & Vq); [rewrite V3; lra|].
  rewrite Vs in Vp. rewrite V3 in Vq.
  pose proof (rnd_ok (IZR s * V x2)) as E1. pose proof (rnd_ok (IZR f3 * V x4)) as E2. rewrite <- Vp in E1. rewrite <- Vq in E2.
  set (p := V (fmul (fofZ s) x2)) in *. set (q := V (fmul (fofZ f3) x4)) in *. set (a := (IZR s * V x2)%R) in *. set (b := (IZR f3 * V x4)%R) in *.
  pose proof uu_small as [U0 U1]. pose proof dmin_small as [M0 M1]. set (u := uu) in *. set (d := dmin) in *.
  assert (Hpq : (Rabs (p - q) <= (1 + u) * (Rabs a + Rabs b) + d)%R).
  { replace (p - q)%R with ((p - a) + a - ((q - b) + b))%R by ring. eapply Rle_trans; [apply Rabs_triang|]. rewrite Rabs_Ropp.
    pose proof (Rabs_triang (p - a) a). pose proof (Rabs_triang (q - b) b). lra. }
  assert (Bpq : (Rabs (p - q) <= 10 ^ 12)%R) by (eapply Rle_trans; [exact Hpq|]; apply alg_pq; [split; assumption|exact M1|pose proof (Rabs_pos a); pose proof (Rabs_pos b); lra]).
  destruct (ok_rnd _ _ (fsub_rnd _ _ Dp Dq Fp Fq)) as (Dd & Fd & Vd); [fold p q; lra|].
  fold p q in Vd. pose proof (rnd_ok (p - q)) as E3. rewrite <- Vd in E3. set (dd := V (fsub (fmul (fofZ s) x2) (fmul (fofZ f3) x4))) in *.
  fold u d in E3.
  assert (Hdd : (Rabs dd <= (1 + u) * Rabs (p - q) + d / 2)%R).
  { replace dd with ((dd - (p - q)) + (p - q))%R by ring. eapply Rle_trans; [apply Rabs_triang|]. lra. }
  assert (Bd : (Rabs (dd / IZR f4) <= Rabs dd)%R).
  { unfold Rdiv. rewrite Rabs_mult, Rabs_inv, (Rabs_pos_eq (IZR f4)) by lra. pose proof (Rabs_pos dd).
    assert (I4 : (/ IZR f4 <= 1)%R) by (rewrite <- Rinv_1; apply Rinv_le_contravar; lra). rewrite <- (Rmult_1_r (Rabs dd)) at 2. apply Rmult_le_compat_l; auto. }
  destruct (ok_rnd _ _ (fdiv_rnd _ _ Dd Df Fd Ff ltac:(rewrite Vf; lra))) as (Dr & Fr & Vr).
  { rewrite Vf. fold dd. eapply Rle_trans; [exact Bd|]. eapply Rle_trans; [exact Hdd|]. apply Rle_trans with (10 ^ 13)%R; [|lra]. apply alg_dd; [split; assumption|exact M1|split; [apply Rabs_pos|exact Bpq]]. }
  fold r in Dr, Fr, Vr. split; auto. split; auto. rewrite Vf in Vr. fold dd in Vr. pose proof (rnd_ok (dd / IZR f4)) as E4. rewrite <- Vr in E4. fold u d in E4.
  assert (E5 : (Rabs (IZR f4 * V r - dd) <= u * Rabs dd + IZR f4 * d / 2)%R).
  { replace (IZR f4 * V r - dd)%R with (IZR f4 * (V r - dd / IZR f4))%R by (field; lra). rewrite Rabs_mult, (Rabs_pos_eq (IZR f4)) by lra.
    apply (Rmult_le_compat_l (IZR f4)) in E4; [|lra]. replace (Rabs dd) with (IZR f4 * Rabs (dd / IZR f4))%R; [lra|].
    unfold Rdiv. rewrite Rabs_mult, Rabs_inv, (Rabs_pos_eq (IZR f4)) by lra. field. lra. }
  replace (IZR f4 * V r - (a - b))%R with ((IZR f4 * V r - dd) + (dd - (p - q)) + ((p - a) - (q - b)))%R by ring.
  eapply Rle_trans; [apply Rabs_triang|]. pose proof (Rabs_triang (IZR f4 * V r - dd) (dd - (p - q))). pose proof (Rabs_triang (p - a) (- (q - b))) as E6. rewrite Rabs_Ropp in E6.
  change ((p - a) - (q - b))%R with ((p - a) + - (q - b))%R.
  pose proof (Rabs_pos a). pose proof (Rabs_pos b). set (X := (Rabs a + Rabs b)%R) in *.
  assert (X0 : (0 <= X)%R) by (unfold X; lra).
  assert (T : (u * Rabs dd <= u * ((1 + u) * ((1 + u) * X + d) + d / 2))%R).
  { apply Rmult_le_compat_l; [lra|]. eapply Rle_trans; [exact Hdd|]. apply Rplus_le_compat_r, Rmult_le_compat_l; [lra|exact Hpq]. }
  assert (T2 : (u * Rabs (p - q) <= u * ((1 + u) * X + d))%R) by (apply Rmult_le_compat_l; [lra|exact Hpq]).
  pose proof (alg3 u d X (conj U0 U1) M0 X0) as T3.
  assert (T4 : (6 * d <= IZR f4 * d)%R) by (apply Rmult_le_compat_r; lra).
  replace (u * Rabs a)%R with (u * X - u * Rabs b)%R in E1 by (unfold X; ring). lra.
Qed.
Lemma fl_step0 S F4 x2 (s f4 : Z) : S = fofZ s -> F4 = fofZ f4 -> Z.abs s <= 10 ^ 9 -> 6 <= f4 <= 10 ^ 9 ->
  dbl x2 -> fin x2 -> (Rabs (V x2) <= 100)%R ->
  let r := fdiv (fmul S x2) F4 in
  dbl r /\ fin r /\ (Rabs (IZR f4 * V r - IZR s * V x2) <= 4 * uu * Rabs (IZR s * V x2) + dmin * IZR f4)%R.
Proof.
  intros -> -> Hs H4 D2 F2 B2 r.
  destruct (fofZ_small s ltac:(lia)) as (Ds & Fs & Vs). destruct (fofZ_small f4 ltac:(lia)) as (Df & Ff & Vf).
  assert (Rs : (Rabs (IZR s) <= 10 ^ 9)%R). { rewrite <- abs_IZR. rewrite ten9. apply IZR_le. lia. }
  assert (R4 : (6 <= IZR f4 <= 10 ^ 9)%R). { rewrite ten9. split; apply IZR_le; lia. }
  assert (P2 : (Rabs (IZR s * V x2) <= 10 ^ 11)%R) by (replace (10 ^ 11)%R with (10 ^ 9 * 100)%R by ring; apply prod_bound; auto).
  destruct (ok_rnd _ _ (fmul_rnd (fofZ s) x2 Ds D2 Fs F2)) as (Dp & Fp & Vp); [rewrite Vs; lra|].
  rewrite Vs in Vp. pose proof (rnd_ok (IZR s * V x2)) as E1. rewrite <- Vp in E1.
  set (dd := V (fmul (fofZ s) x2)) in *. set (a := (IZR s * V x2)%R) in *.
  pose proof uu_small as [U0 U1]. pose proof dmin_small as [M0 M1]. set (u := uu) in *. set (d := dmin) in *.
  assert (Hdd : (Rabs dd <= (1 + u) * Rabs a + d / 2)%R).
  { replace dd with ((dd - a) + a)%R by ring. eapply Rle_trans; [apply Rabs_triang|]. lra. }
  assert (Bd : (Rabs (dd / IZR f4) <= Rabs dd)%R).
  { unfold Rdiv. rewrite Rabs_mult, Rabs_inv, (Rabs_pos_eq (IZR f4)) by lra. pose proof (Rabs_pos dd).
    assert (I4 : (/ IZR f4 <= 1)%R) by (rewrite <- Rinv_1; apply Rinv_le_contravar; lra). rewrite <- (Rmult_1_r (Rabs dd)) at 2. apply Rmult_le_compat_l; auto. }
  destruct (ok_rnd _ _ (fdiv_rnd _ _ Dp Df Fp Ff ltac:(rewrite Vf; lra))) as (Dr & Fr & Vr).
  { rewrite Vf. fold dd. eapply Rle_trans; [exact Bd|]. eapply Rle_trans; [exact Hdd|]. apply Rle_trans with (10 ^ 13)%R; [|lra]. apply alg_dd; [split; assumption|exact M1|split; [apply Rabs_pos|lra]]. }
  fold r in Dr, Fr, Vr. split; auto. split; auto. rewrite Vf in Vr. fold dd in Vr. pose proof (rnd_ok (dd / IZR f4)) as E4. rewrite <- Vr in E4. fold u d in E4.
  assert (E5 : (Rabs (IZR f4 * V r - dd) <= u * Rabs dd + IZR f4 * d / 2)%R).
  { replace (IZR f4 * V r - dd)%R with (IZR f4 * (V r - dd / IZR f4))%R by (field; lra). rewrite Rabs_mult, (Rabs_pos_eq (IZR f4)) by lra.
    apply (Rmult_le_compat_l (IZR f4)) in E4; [|lra]. replace (Rabs dd) with (IZR f4 * Rabs (dd / IZR f4))%R; [lra|].
    unfold Rdiv. rewrite Rabs_mult, Rabs_inv, (Rabs_pos_eq (IZR f4)) by lra. field. lra. }
  replace (IZR f4 * V r - a)%R with ((IZR f4 * V r - dd) + (dd - a))%R by ring.
  eapply Rle_trans; [apply Rabs_triang|]. pose proof (Rabs_pos a) as A0.
  assert (T : (u * Rabs dd <= u * ((1 + u) * Rabs a + d / 2))%R) by (apply Rmult_le_compat_l; [lra|exact Hdd]).
  assert (T1 : (u * (u * Rabs a) <= 1 * (u * Rabs a))%R) by (apply Rmult_le_compat_r; [apply Rmult_le_pos|]; lra).
  assert (T2 : (u * d <= 1 * d)%R) by (apply Rmult_le_compat_r; lra).
  assert (T4 : (6 * d <= IZR f4 * d)%R) by (apply Rmult_le_compat_r; lra).
  assert (T5 : (0 <= u * Rabs a)%R) by (apply Rmult_le_pos; lra).
  lra.
Qed.

(** ** The whole table *)
Lemma ymax_14 n : 0 <= n <= 1022 -> (0 <= ymax n <= 14)%R.
Proof.
  intros H. split; [apply sqrt_pos|]. unfold ymax. rewrite <- (sqrt_square 14) by lra. apply sqrt_le_1_alt.
  pose proof PI_bounds as [P1 P2]. assert (0 <= IZR n <= 1022)%R by (split; apply IZR_le; lia).
  apply Rmult_le_reg_r with (4 * PI)%R; [lra|]. unfold Rdiv. rewrite Rmult_assoc, Rinv_l, Rmult_1_r by lra. lra.
Qed.
Lemma ynnm_Yt_pos n m : Z.abs m <= n -> (0 < Yt n m n)%R.
Proof. intros H. rewrite <- ynnm_eq by auto. apply ynnm_pos. auto. Qed.

Section Tab.
Variables n m : Z.
Hypothesis Hm : Z.abs m <= n.
Hypothesis H1 : 1 <= n.
Hypothesis Hn : n <= 1022.
Let a (i : nat) : R := Yt n m (kk n i).
Let b (i : nat) : R := V (tb n m i).

Lemma F_4 i : F (IZR n) (xi (IZR n) i) = IZR (fF4 n (kk n (i + 2))).
Proof. unfold F, xi, fF4, kk. rewrite INR_IZR_INZ. rewrite <- !minus_IZR || idtac. repeat rewrite ?mult_IZR, ?plus_IZR, ?minus_IZR, ?Nat2Z.inj_add. ring. Qed.
Lemma F_3 i : F (IZR n) (xi (IZR n) i + 3) = IZR (fF3 n (kk n (i + 2))).
Proof. unfold F, xi, fF3, kk. rewrite INR_IZR_INZ. repeat rewrite ?mult_IZR, ?plus_IZR, ?minus_IZR, ?Nat2Z.inj_add. ring. Qed.
Lemma S_S i : Si (IZR n) (IZR (m ^ 2)) i = IZR (fS n m (kk n (i + 2))).
Proof. unfold Si, F, xi, fS, kk. rewrite INR_IZR_INZ. repeat rewrite ?mult_IZR, ?plus_IZR, ?minus_IZR, ?Nat2Z.inj_add. ring. Qed.

Lemma exact_rec i : (F (IZR n) (xi (IZR n) i) * a (i + 2) = Si (IZR n) (IZR (m ^ 2)) i * a (i + 1) - F (IZR n) (xi (IZR n) i + 3) * a i)%R.
Proof.
  pose proof (Yt_coef n m (kk n (i + 2)) Hm) as E. unfold a. replace (kk n (i + 2) + 2) with (kk n (i + 1)) in E by (unfold kk; lia).
  replace (kk n (i + 2) + 4) with (kk n i) in E by (unfold kk; lia).
  assert (X : IZR (kk n (i + 2)) = xi (IZR n) i). { unfold kk, xi. rewrite INR_IZR_INZ. repeat rewrite ?mult_IZR, ?plus_IZR, ?minus_IZR, ?Nat2Z.inj_add. ring. }
  rewrite X in E. unfold Si. unfold Bc in E. unfold F. lra.
Qed.

Lemma tb_step I : 2 * Z.of_nat I + 2 <= n -> (forall i, (i <= I + 1)%nat -> dbl (tb n m i) /\ fin (tb n m i) /\ (Rabs (b i) <= 100)%R) ->
  dbl (tb n m (I + 2)) /\ fin (tb n m (I + 2)) /\
  (Rabs (rho (IZR n) (IZR (m ^ 2)) b I) <= 4 * uu * (Rabs (Si (IZR n) (IZR (m ^ 2)) I * b (I + 1)) + Rabs (F (IZR n) (xi (IZR n) I + 3) * b I)) + dmin * F (IZR n) (xi (IZR n) I))%R.
Proof.
  intros HI IH. unfold rho. rewrite F_4, F_3, S_S.
  set (k := kk n (I + 2)). assert (Hk : 0 <= k <= n - 2) by (unfold k, kk; lia).
  assert (M2 : 0 <= m ^ 2 <= n ^ 2) by (rewrite !Z.pow_2_r; nia). rewrite Z.pow_2_r in M2 at 2.
  assert (Bs : Z.abs (fS n m k) <= 10 ^ 9) by (unfold fS; nia).
  assert (B4 : 6 <= fF4 n k <= 10 ^ 9) by (unfold fF4; nia).
  destruct (IH (I + 1)%nat ltac:(lia)) as (D2 & F2 & V2). destruct (IH I ltac:(lia)) as (D4 & F4 & V4).
  destruct I as [|I].
  - assert (k = n - 2) by (unfold k, kk; lia). change (0 + 2)%nat with 2%nat. change (0 + 1)%nat with 1%nat in *.
    destruct (fl_step0 _ _ (tb n m 1) (fS n m k) (fF4 n k) eq_refl eq_refl Bs B4 D2 F2 V2) as (D & Fi & E).
    assert (T : tb n m 2 = fdiv (fmul (fofZ (fS n m k)) (tb n m 1)) (fofZ (fF4 n k))) by (rewrite H; reflexivity).
    rewrite <- T in *. split; [exact D|]. split; [exact Fi|].
    assert (Z0 : b 0%nat = 0%R) by reflexivity. rewrite Z0, Rmult_0_r, Rminus_0_r, Rabs_R0, Rplus_0_r. exact E.
  - assert (B3 : 0 <= fF3 n k <= 10 ^ 9) by (unfold fF3; assert (k <= n - 4) by (unfold k, kk; lia); nia).
    pose proof (fl_step _ _ _ _ _ _ _ _ eq_refl eq_refl eq_refl Bs B3 B4 D2 F2 D4 F4 V2 V4) as (D & Fi & E).
    rewrite tb_SS by lia. fold k. split; [exact D|]. split; [exact Fi|]. unfold b. rewrite tb_SS by lia. exact E.
Qed.

Lemma seed_lo : (dmin <= 4 * uu * a 1)%R.
Proof.
  unfold a. replace (kk n 1) with n by (unfold kk; lia). rewrite <- ynnm_eq by auto. 
  destruct (seed_accurate n m Hm Hn) as [P E]. pose proof (ynnm_pos n m Hm) as Y.
  assert (T : (tiny <= V (f_ynnm n m))%R). { rewrite <- f_ynnm_abs. apply seed_approx; lia. }
  assert (K : (IZR (6 * n - 3 * Z.abs m + 4) * uu <= 1)%R).
  { assert (IZR (6 * n - 3 * Z.abs m + 4) <= 10000)%R by (apply IZR_le; lia). assert (0 <= IZR (6 * n - 3 * Z.abs m + 4))%R by (apply IZR_le; lia). rewrite uu_val. lra. }
  set (y := ynnm n m) in *. assert (U : (V (f_ynnm n m) <= 2 * y)%R).
  { assert (Rabs (V (f_ynnm n m) - y) <= 1 * y)%R by (eapply Rle_trans; [exact E|]; apply Rmult_le_compat_r; lra).
    pose proof (Rle_abs (V (f_ynnm n m) - y)). lra. }
  assert (Q : dmin = (2 * uu * tiny)%R). { replace uu with (bpow radix2 (-53)) by reflexivity. change 2%R with (bpow radix2 1). rewrite <- !bpow_plus. reflexivity. }
  rewrite Q. pose proof uu_small as [U0 _]. replace (4 * uu * y)%R with (2 * uu * (2 * y))%R by ring. apply Rmult_le_compat_l; lra.
Qed.

Lemma small : (4 * (IZR n + 1) ^ 3 * (ymax n + 1) * (4 * uu) <= 1)%R.
Proof.
  assert (R : (1 <= IZR n <= 1022)%R) by (split; apply IZR_le; lia). pose proof (ymax_14 n ltac:(lia)) as [Y0 Y1]. pose proof uu_small as [U0 U1].
  assert (C : ((IZR n + 1) ^ 3 <= 1023 ^ 3)%R) by (apply pow_incr; lra). assert (C0 : (0 <= (IZR n + 1) ^ 3)%R) by (apply pow_le; lra).
  assert (D : ((IZR n + 1) ^ 3 * (ymax n + 1) <= 1023 ^ 3 * 15)%R) by (apply Rmult_le_compat; lra).
  assert (E : (((IZR n + 1) ^ 3 * (ymax n + 1)) * uu <= (1023 ^ 3 * 15) * / 10 ^ 15)%R) by (apply Rmult_le_compat; try lra; apply Rmult_le_pos; lra). lra.
Qed.

Lemma tab_all I : 2 * Z.of_nat I <= n -> forall i, (i <= I + 1)%nat -> dbl (tb n m i) /\ fin (tb n m i) /\ (Rabs (b i - a i) <= bound (IZR n) (4 * uu) (ymax n))%R.
Proof.
  assert (R1 : (1 <= IZR n)%R) by (apply IZR_le; lia). pose proof uu_small as [U0 U1]. pose proof dmin_small as [M0 _].
  assert (A0 : a 0%nat = 0%R) by (unfold a, kk; apply Yt_supp; auto; lia).
  assert (A1 : a 1%nat = ynnm n m) by (unfold a; replace (kk n 1) with n by (unfold kk; lia); now rewrite <- ynnm_eq by auto).
  pose proof (ynnm_pos n m Hm) as Y.
  destruct (seed_accurate n m Hm Hn) as [P1 E1].
  assert (TE : forall I : nat, 2 * Z.of_nat I <= n ->
     (forall i, (i < I)%nat -> (Rabs (rho (IZR n) (IZR (m ^ 2)) b i) <= 4 * uu * (Rabs (Si (IZR n) (IZR (m ^ 2)) i * b (i + 1)) + Rabs (F (IZR n) (xi (IZR n) i + 3) * b i)) + dmin * F (IZR n) (xi (IZR n) i))%R) ->
     forall i, (i <= I + 1)%nat -> (Rabs (b i - a i) <= bound (IZR n) (4 * uu) (ymax n))%R).
  { intros J HJ Hrho. apply (table_err (IZR n) (IZR (m ^ 2)) (IZR (Z.abs m)) (4 * uu) dmin (ymax n) a b J); auto; try lra.
    - rewrite INR_IZR_INZ, <- mult_IZR. apply IZR_le. lia.
    - intros i _. apply exact_rec.
    - intros i _. apply Yt_bound. auto.
    - apply seed_lo.
    - unfold ep, b. rewrite A1, tb_1. eapply Rle_trans; [exact E1|]. apply Rmult_le_compat_r; [lra|].
      assert (IZR (6 * n - 3 * Z.abs m + 4) <= 6 * IZR n + 4)%R. { rewrite <- mult_IZR, <- plus_IZR. apply IZR_le. lia. }
      apply Rle_trans with ((6 * IZR n + 4) * uu)%R; [apply Rmult_le_compat_r; lra|lra].
    - apply small.
    - rewrite <- mult_IZR. f_equal. rewrite Z.pow_2_r. nia.
    - destruct (Z.eq_dec m 0) as [->|]; [left; reflexivity|right]. split; apply IZR_le; lia. }
  assert (BB : forall i, (Rabs (b i - a i) <= bound (IZR n) (4 * uu) (ymax n))%R -> (Rabs (b i) <= 100)%R).
  { intros i Hi. pose proof small as S. fold (bound (IZR n) (4 * uu) (ymax n)) in S. pose proof (Yt_bound n m (kk n i) Hm) as Q. fold (a i) in Q.
    pose proof (ymax_14 n ltac:(lia)). pose proof (Rabs_triang (b i - a i) (a i)) as T. replace (b i - a i + a i)%R with (b i) in T by ring. lra. }
  assert (All : forall I : nat, 2 * Z.of_nat I <= n -> (forall i, (i < I)%nat -> (Rabs (rho (IZR n) (IZR (m ^ 2)) b i) <= 4 * uu * (Rabs (Si (IZR n) (IZR (m ^ 2)) i * b (i + 1)) + Rabs (F (IZR n) (xi (IZR n) i + 3) * b i)) + dmin * F (IZR n) (xi (IZR n) i))%R) /\
     (forall i, (i <= I + 1)%nat -> dbl (tb n m i) /\ fin (tb n m i))).
  { clear I. induction I as [|I IH]; intros HI.
    - split; [intros; lia|]. intros i Hi. assert (i = 0%nat \/ i = 1%nat) as [->| ->] by lia; [split; reflexivity|]. rewrite tb_1.
      destruct P1 as (q & e & Q1 & Q2). rewrite Q1. split; [exact Q2|reflexivity].
    - destruct (IH ltac:(lia)) as [IH1 IH2]. pose proof (TE I ltac:(lia) IH1) as IH3.
      destruct (tb_step I ltac:(lia)) as (D & Fi & E).
      { intros i Hi. destruct (IH2 i Hi). split; auto. }
      split.
      + intros i Hi. destruct (Nat.eq_dec i I) as [->|]; [exact E|apply IH1; lia].
      + intros i Hi. destruct (Nat.eq_dec i (I + 2)) as [->|]; [split; auto|apply IH2; lia]. }
  intros HI i Hi. destruct (All I HI) as [Q1 Q2]. destruct (Q2 i Hi). split; auto. split; auto. apply (TE I HI Q1 i Hi).
Qed.
End Tab.

Definition tab_err (n : Z) : R := (16 * (IZR n + 1) ^ 3 * (ymax n + 1) * uu)%R.

Lemma table_accurate n m L : Z.abs m <= n -> n <= 1022 -> n < L ->
  exists v, f_ynunm n m L = Ok v /\ zlen v = L /\
    forall k, 0 <= k < L -> dbl (vget fz v k) /\ fin (vget fz v k) /\ (Rabs (V (vget fz v k) - Yt n m k) <= tab_err n)%R /\
      (n < k \/ (n - k) mod 2 = 1 -> vget fz v k = fz /\ Yt n m k = 0%R).
Proof.
  intros Hm Hn HL. destruct (f_ynunm_tb n m L Hm HL ltac:(lia)) as (v & E & Lv & V1 & V2). exists v. split; [exact E|]. split; [exact Lv|].
  assert (T0 : (0 <= tab_err n)%R).
  { unfold tab_err. assert (0 <= IZR n)%R by (apply IZR_le; lia). pose proof (ymax_14 n ltac:(lia)). pose proof uu_small.
    repeat apply Rmult_le_pos; try lra. }
  intros k Hk. destruct (Z.le_gt_cases k n) as [Hkn|Hkn].
  - destruct (Z.eq_dec ((n - k) mod 2) 1) as [Od|Ev].
    + assert (Y : Yt n m k = 0%R). { apply Yt_odd; auto. rewrite Zodd_mod. replace (n + k) with (n - k + k * 2) by ring. rewrite Z_mod_plus_full. now rewrite Od. }
      rewrite V2, Y by auto. split; [reflexivity|]. split; [reflexivity|]. split; [change (V fz) with 0%R; rewrite Rminus_0_r, Rabs_R0; auto|auto].
    + assert (exists i : nat, k = n - 2 * Z.of_nat i) as [i ->].
      { pose proof (Z.mod_pos_bound (n - k) 2 ltac:(lia)). assert (D := Z.div_mod (n - k) 2 ltac:(lia)). exists (Z.to_nat ((n - k) / 2)).
        rewrite Z2Nat.id by (apply Z.div_pos; lia). lia. }
      rewrite V1 by lia. destruct (Z.eq_dec n 0) as [->|N0].
      * assert (i = 0%nat) by lia. subst i. rewrite tb_1. change (0 - 2 * Z.of_nat 0) with 0.
        destruct (seed_accurate 0 m Hm Hn) as [P B]. destruct P as (q & e & Q1 & Q2). split; [rewrite Q1; exact Q2|]. split; [now rewrite Q1|]. split; [|intros [|Q]; [lia|discriminate Q]].
        rewrite <- (ynnm_eq 0 m Hm). eapply Rle_trans; [exact B|]. pose proof (Yt_bound 0 m 0 Hm) as YB. rewrite <- (ynnm_eq 0 m Hm) in YB. pose proof (ynnm_pos 0 m Hm). rewrite Rabs_pos_eq in YB by lra.
        replace (6 * 0 - 3 * Z.abs m + 4) with 4 by lia. unfold tab_err. pose proof uu_small. assert (uu * ynnm 0 m <= uu * ymax 0)%R by (apply Rmult_le_compat_l; lra).
        assert (0 <= uu * ymax 0)%R by (apply Rmult_le_pos; [lra|apply sqrt_pos]). cbn [pow]. lra.
      * destruct (tab_all n m Hm ltac:(lia) Hn i ltac:(lia) (i + 1)%nat ltac:(lia)) as (D & Fi & B).
        replace (kk n (i + 1)) with (n - 2 * Z.of_nat i) in B by (unfold kk; lia). replace (i + 1)%nat with (S i) in * by lia.
        split; auto. split; auto. split; [eapply Rle_trans; [exact B|]; unfold bound, tab_err; lra|].
        intros [|Q]; [lia|]. exfalso. apply Ev. exact Q.
  - rewrite V2, Yt_supp by (auto; lia). split; [reflexivity|]. split; [reflexivity|]. split; [change (V fz) with 0%R; rewrite Rminus_0_r, Rabs_R0; auto|auto].
Qed.
