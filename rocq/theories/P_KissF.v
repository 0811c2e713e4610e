(** * P_KissF: C72, how accurate kiss_fft is in double precision. *)
From Coq Require Import ZArith List Bool SpecFloat Reals Lia Lra Psatz Znumtheory.
From Coquelicot Require Import Coquelicot.
From Flocq Require Import Core.Core IEEE754.BinarySingleNaN.
From Verif Require Import Exact Py PyFacts Num FloatN FloatText MCoefs Sums Dft MPysphi MKiss SpecDft KissFacts KissFacts2 MDouble FlFacts SeedReal SeedFl SeedFl2 DoubleFacts P_Double FlSigned SbesselFTerm SbesselFRel SbesselFFun TabFl P_Table SumFl SumFl2 SumFl3 P_Sums MKissF KissFl KissFl2 KissFl3 KissFl4.
Import ListNotations.
Open Scope list_scope.
Open Scope Z_scope.

(** ** Specification ([value], [finite] as in P_Double; [double], [cvalue] as in P_Sums) *)

(** a math library's cos and sin: at every finite double of absolute value at most 7
    they return finite doubles that are off by at most delta *)
Definition trig_accurate (delta : R) (cosf sinf : f64 -> f64) : Prop := forall x, double x -> finite x -> (Rabs (value x) <= 7)%R ->
  double (cosf x) /\ finite (cosf x) /\ (Rabs (value (cosf x) - cos (value x)) <= delta)%R /\
  double (sinf x) /\ finite (sinf x) /\ (Rabs (value (sinf x) - sin (value x)) <= delta)%R.

(** both parts are finite doubles, and the modulus is at most B *)
Definition cbounded (B : R) (z : cf) : Prop :=
  double (fst z) /\ finite (fst z) /\ double (snd z) /\ finite (snd z) /\ (Cmod (cvalue z) <= B)%R.
(** both parts are finite doubles, and z is within e of c in the plane *)
Definition cnear (e : R) (z : cf) (c : C) : Prop :=
  double (fst z) /\ finite (fst z) /\ double (snd z) /\ finite (snd z) /\ (Cmod (cvalue z - c)%C <= e)%R.

(** Error bound for a transform of length n all prime factors of which are at most P, of
    data of modulus at most B: no output can exceed n B, and the error is at most that
    times a constant, the number of bits of n, and the error of a twiddle factor. *)
Definition fft_error (delta : R) (n P : Z) (B : R) : R :=
  (2 * (32 + IZR P) * (IZR (Z.log2 n) + 1) * (2 * delta + 40 / 2 ^ 53) * (IZR n * B))%R.

(** ** Connections *)
Lemma trig_acc_ok delta cosf sinf : trig_accurate delta cosf sinf -> trig_ok delta cosf sinf.
Proof.
  intros H x D F B. destruct (H x D (fin_finite x F) B) as (D1 & F1 & E1 & D2 & F2 & E2).
  split; (split; [split; [assumption|now apply finite_fin]|assumption]).
Qed.
Lemma cbounded_small B z : cbounded B z -> small B z.
Proof. intros (D1 & F1 & D2 & F2 & H). split; [|exact H]. split; split; auto using finite_fin. Qed.
Lemma near_cnear E E' z c c' : near E z c -> E = E' -> c = c' -> cnear E' z c'.
Proof. intros (((D1 & F1) & (D2 & F2)) & H) <- <-. unfold cnear. auto 10 using fin_finite. Qed.
Lemma fft_tol_eq delta B n P : fft_tol delta B n P = fft_error delta n P B.
Proof. unfold fft_tol, fft_error, keps. rewrite uu_val. set (s := (2 * (32 + IZR P) * (IZR (Z.log2 n) + 1))%R). set (t := (IZR n * B)%R). lra. Qed.
Lemma bpow_neg n : bpow radix2 (- Z.of_nat n) = (/ 2 ^ n)%R.
Proof. now rewrite bpow_opp, bpow2_pow. Qed.
Lemma size_range B : (/ 2 ^ 900 <= B <= 2 ^ 900)%R -> (bpow radix2 (-900) <= B <= bpow radix2 900)%R.
Proof. change 900%Z with (Z.of_nat 900). change (-900) with (- Z.of_nat 900). now rewrite bpow_neg, bpow2_pow. Qed.
Lemma root_dft inv n x k : 0 < n -> sumC 0 n (fun j => x j * root n (dir inv * (j * k)))%C = dft (if inv then 1 else -1)%R n x k.
Proof.
  intros Hn. apply sumC_ext. intros j _. f_equal. unfold root, cisR.
  assert (E : (2 * PI * IZR (dir inv * (j * k)) / IZR n = (if inv then 1 else -1) * (2 * PI * IZR j * IZR k / IZR n))%R).
  { rewrite !mult_IZR. destruct inv; unfold dir; field; apply not_0_IZR; lia. }
  rewrite E. reflexivity.
Qed.

(** ** Theorems *)

(** kiss_fft (and kiss_fft_stride), distinct buffers: whatever the scratch memory holds, it returns, every output is a
    pair of finite doubles within [fft_error] of the exact transform of the input doubles,
    and nothing behind the first n cells is touched. *)
Theorem C72_fft_accurate : forall delta B cosf sinf n P (inverse : bool) (junk : Z -> cf) (x y : list cf) stride,
  trig_accurate delta cosf sinf -> (0 <= delta <= / 2 ^ 44)%R -> (/ 2 ^ 900 <= B <= 2 ^ 900)%R ->
  1 <= n <= 2 ^ 20 -> 4 <= P -> (forall p, prime p -> (p | n) -> p <= P) ->
  1 <= stride -> (n - 1) * stride < zlen x -> n <= zlen y ->
  (forall j, 0 <= j < n -> cbounded B (vget cf0 x (j * stride))) ->
  exists cfg out, ff_alloc cosf sinf n inverse = Ok cfg /\ ff_fft_stride junk cfg x y stride = Ok out /\ zlen out = zlen y /\
    (forall k, 0 <= k < n ->
       cnear (fft_error delta n P B) (vget cf0 out k) (dft (if inverse then 1 else -1) n (fun j => cvalue (vget cf0 x (j * stride)%Z)) k)) /\
    (forall k, n <= k -> vget cf0 out k = vget cf0 y k).
Proof.
  intros delta B cosf sinf n P inv junk x y s HT Hd HB Hn HP Hpr Hs Hx Hy Hin.
  apply trig_acc_ok in HT. apply size_range in HB. destruct (ff_alloc_ok cosf sinf delta n inv HT Hn) as (st & E & _).
  destruct (ff_stride_ok delta B cosf sinf n P inv st HT Hd Hn HB HP Hpr E junk s x y Hs Hx Hy) as (out & Eo & L1 & L2 & L3).
  { intros j Hj. apply cbounded_small. auto. }
  exists st, out. split; [exact E|]. split; [exact Eo|]. split; [exact L1|]. split; [|exact L3].
  intros k Hk. apply (near_cnear _ _ _ _ _ (L2 k Hk)); [apply fft_tol_eq|]. apply root_dft. lia.
Qed.
Print Assumptions C72_fft_accurate.

(** In place (fin == fout), the way csphi.c uses it. *)
Theorem C72_in_place_accurate : forall delta B cosf sinf n P (inverse : bool) (junk : Z -> cf) (x : list cf),
  trig_accurate delta cosf sinf -> (0 <= delta <= / 2 ^ 44)%R -> (/ 2 ^ 900 <= B <= 2 ^ 900)%R ->
  1 <= n <= 2 ^ 20 -> 4 <= P -> (forall p, prime p -> (p | n) -> p <= P) -> zlen x = n ->
  (forall j, 0 <= j < n -> cbounded B (vget cf0 x j)) ->
  exists cfg out, ff_alloc cosf sinf n inverse = Ok cfg /\ ff_fft_inplace junk cfg x = Ok out /\ zlen out = n /\
    forall k, 0 <= k < n ->
      cnear (fft_error delta n P B) (vget cf0 out k) (dft (if inverse then 1 else -1) n (fun j => cvalue (vget cf0 x j)) k).
Proof.
  intros delta B cosf sinf n P inv junk x HT Hd HB Hn HP Hpr Hx Hin.
  apply trig_acc_ok in HT. apply size_range in HB. destruct (ff_alloc_ok cosf sinf delta n inv HT Hn) as (st & E & _).
  destruct (ff_inplace_ok delta B cosf sinf n P inv st HT Hd Hn HB HP Hpr E junk x ltac:(lia)) as (out & Eo & L1 & L2 & _).
  { intros j Hj. apply cbounded_small. auto. }
  exists st, out. split; [exact E|]. split; [exact Eo|]. split; [lia|].
  intros k Hk. apply (near_cnear _ _ _ _ _ (L2 k Hk)); [apply fft_tol_eq|]. apply root_dft. lia.
Qed.
Print Assumptions C72_in_place_accurate.

(** The lengths kiss_fft_next_fast_size returns have no prime factor above 5. *)
Theorem C72_fast_sizes : forall delta B cosf sinf n (inverse : bool) (junk : Z -> cf) (x : list cf),
  trig_accurate delta cosf sinf -> (0 <= delta <= / 2 ^ 44)%R -> (/ 2 ^ 900 <= B <= 2 ^ 900)%R ->
  1 <= n <= 2 ^ 20 -> (forall p, prime p -> (p | n) -> p = 2 \/ p = 3 \/ p = 5) -> zlen x = n ->
  (forall j, 0 <= j < n -> cbounded B (vget cf0 x j)) ->
  exists cfg out, ff_alloc cosf sinf n inverse = Ok cfg /\ ff_fft_inplace junk cfg x = Ok out /\ zlen out = n /\
    forall k, 0 <= k < n ->
      cnear (74 * (IZR (Z.log2 n) + 1) * (2 * delta + 40 / 2 ^ 53) * (IZR n * B)) (vget cf0 out k)
        (dft (if inverse then 1 else -1) n (fun j => cvalue (vget cf0 x j)) k).
Proof.
  intros delta B cosf sinf n inv junk x HT Hd HB Hn Hpr Hx Hin.
  destruct (C72_in_place_accurate delta B cosf sinf n 5 inv junk x HT Hd HB Hn ltac:(lia)) as (st & out & E & Eo & L & H); auto.
  { intros p Hp Hpn. destruct (Hpr p Hp Hpn) as [->|[->| ->]]; lia. }
  exists st, out. split; [exact E|]. split; [exact Eo|]. split; [exact L|]. intros k Hk. specialize (H k Hk).
  unfold fft_error in H. replace (2 * (32 + 5))%R with 74%R in H by lra. exact H.
Qed.
Print Assumptions C72_fast_sizes.

(** A library good to 1 ulp, n = 360: relative to the largest possible
    output n B the error is below 4e-12. *)
Theorem C72_size_360 : forall delta B cosf sinf (inverse : bool) (junk : Z -> cf) (x : list cf),
  trig_accurate delta cosf sinf -> (0 <= delta <= / 2 ^ 52)%R -> (/ 2 ^ 900 <= B <= 2 ^ 900)%R -> zlen x = 360 ->
  (forall j, 0 <= j < 360 -> cbounded B (vget cf0 x j)) ->
  exists cfg out, ff_alloc cosf sinf 360 inverse = Ok cfg /\ ff_fft_inplace junk cfg x = Ok out /\ zlen out = 360 /\
    forall k, 0 <= k < 360 ->
      cnear (4 / 10 ^ 12 * (360 * B)) (vget cf0 out k) (dft (if inverse then 1 else -1) 360 (fun j => cvalue (vget cf0 x j)) k).
Proof.
  intros delta B cosf sinf inv junk x HT Hd HB Hx Hin.
  destruct (C72_fast_sizes delta B cosf sinf 360 inv junk x HT) as (st & out & E & Eo & L & H); auto.
  { lra. }
  { lia. }
  { intros p Hp Hpn. change 360 with (2 * (2 * (2 * (3 * (3 * 5))))) in Hpn.
    assert (S : forall a b, prime a -> (p | a * b) -> p = a \/ (p | b)).
    { intros a b Ha Hab. destruct (prime_mult p Hp _ _ Hab) as [Q|Q]; [left; now apply prime_div_prime|auto]. }
    assert (P2 : prime 2) by exact prime_2. assert (P3 : prime 3) by exact prime_3.
    apply S in Hpn; auto. destruct Hpn as [->|Hpn]; [auto|]. apply S in Hpn; auto. destruct Hpn as [->|Hpn]; [auto|].
    apply S in Hpn; auto. destruct Hpn as [->|Hpn]; [auto|]. apply S in Hpn; auto. destruct Hpn as [->|Hpn]; [auto|].
    apply S in Hpn; auto. destruct Hpn as [->|Hpn]; [auto|]. right; right.
    assert (p <= 5) by (apply Z.divide_pos_le in Hpn; lia). pose proof (prime_ge_2 p Hp). assert (C : p = 2 \/ p = 3 \/ p = 4 \/ p = 5) by lia.
    destruct C as [->|[->|[->| ->]]]; auto; exfalso; apply Z.mod_divide in Hpn; try lia; discriminate Hpn. }
  exists st, out. split; [exact E|]. split; [exact Eo|]. split; [exact L|]. intros k Hk. destruct (H k Hk) as (D1 & F1 & D2 & F2 & Q).
  repeat (split; [assumption|]). eapply Rle_trans; [exact Q|]. change (Z.log2 360) with 8.
  assert (0 < B)%R. { destruct HB as [HB _]. eapply Rlt_le_trans; [|exact HB]. apply Rinv_0_lt_compat, pow_lt. lra. }
  apply Rmult_le_compat_r; [lra|]. lra.
Qed.
Print Assumptions C72_size_360.

(** Forward, then inverse, in place: n times the data, up to 3 n times the error of one transform. *)
Theorem C72_roundtrip : forall delta B cosf sinf n P (junk1 junk2 : Z -> cf) (x : list cf),
  trig_accurate delta cosf sinf -> (0 <= delta <= / 2 ^ 44)%R -> (/ 2 ^ 900 <= B <= 2 ^ 870)%R ->
  1 <= n <= 2 ^ 20 -> 4 <= P -> (forall p, prime p -> (p | n) -> p <= P) -> zlen x = n ->
  (forall j, 0 <= j < n -> cbounded B (vget cf0 x j)) ->
  exists fw bw y z, ff_alloc cosf sinf n false = Ok fw /\ ff_alloc cosf sinf n true = Ok bw /\
    ff_fft_inplace junk1 fw x = Ok y /\ ff_fft_inplace junk2 bw y = Ok z /\ zlen z = n /\
    forall j, 0 <= j < n -> cnear (3 * IZR n * fft_error delta n P B) (vget cf0 z j) (RtoC (IZR n) * cvalue (vget cf0 x j))%C.
Proof.
  intros delta B cosf sinf n P j1 j2 x HT Hd HB Hn HP Hpr Hx Hin.
  assert (HB9 : (/ 2 ^ 900 <= B <= 2 ^ 900)%R). { split; [lra|]. apply Rle_trans with (2 ^ 870)%R; [lra|]. apply Rle_pow; [lra|lia]. }
  assert (B0 : (0 < B)%R). { destruct HB as [HB _]. eapply Rlt_le_trans; [|exact HB]. apply Rinv_0_lt_compat, pow_lt. lra. }
  assert (n1 : (1 <= IZR n)%R) by (apply IZR_le; lia). assert (n2 : (IZR n <= 1048576)%R) by (apply IZR_le; lia).
  assert (HP' : forall p, prime p -> (p | n) -> p <= Z.min P (Z.max 4 n)). { intros p Hp Hpn. pose proof (Hpr p Hp Hpn). apply Z.divide_pos_le in Hpn; lia. }
  set (P' := Z.min P (Z.max 4 n)) in *. assert (H4 : 4 <= P' <= 2 ^ 20) by (unfold P'; lia).
  destruct (C72_in_place_accurate delta B cosf sinf n P' false j1 x HT Hd HB9 Hn ltac:(lia) HP' Hx Hin) as (fw & y & E1 & E2 & Ly & Hy).
  assert (pr : (4 <= IZR P' <= 1048576)%R) by (split; apply IZR_le; lia).
  assert (lr : (0 <= IZR (Z.log2 n) <= 20)%R). { split; apply IZR_le; [apply Z.log2_nonneg|]. assert (Z.log2 n < 21) by (apply Z.log2_lt_pow2; lia). lia. }
  assert (small1 : (0 <= 2 * (32 + IZR P') * (IZR (Z.log2 n) + 1) * (2 * delta + 40 / 2 ^ 53) <= 1)%R).
  { assert (a : (0 <= 2 * (32 + IZR P') <= 2 * (32 + 1048576))%R) by lra.
    assert (b : (0 <= 2 * (32 + IZR P') * (IZR (Z.log2 n) + 1) <= 2 * (32 + 1048576) * 21)%R) by (split; [apply Rmult_le_pos|apply Rmult_le_compat]; lra).
    assert (c : (0 <= 2 * delta + 40 / 2 ^ 53 <= / 2 ^ 42)%R) by lra. split; [apply Rmult_le_pos; lra|].
    apply Rle_trans with ((2 * (32 + 1048576) * 21) * / 2 ^ 42)%R; [apply Rmult_le_compat; lra|lra]. }
  set (c1 := (2 * (32 + IZR P') * (IZR (Z.log2 n) + 1) * (2 * delta + 40 / 2 ^ 53))%R) in *.
  assert (EE : forall b, fft_error delta n P' b = (c1 * (IZR n * b))%R) by reflexivity.
  assert (nB : (0 < IZR n * B)%R) by (apply Rmult_lt_0_compat; lra).
  set (xv := fun j => cvalue (vget cf0 x j)) in *.
  assert (dy : forall k, 0 <= k < n -> (Cmod (dft (-1) n xv k) <= IZR n * B)%R).
  { intros k Hk. rewrite <- (root_dft false) by lia. replace (IZR n) with (IZR (n - 0)) by (f_equal; lia). apply Cmod_sumC; [lia|]. intros j Hj.
    unfold root. rewrite Cmod_mult, Cmod_cisR, Rmult_1_r. apply (Hin j Hj). }
  assert (By : forall k, 0 <= k < n -> cbounded (2 * (IZR n * B)) (vget cf0 y k)).
  { intros k Hk. destruct (Hy k Hk) as (D1 & F1 & D2 & F2 & Q). repeat (split; [assumption|]).
    replace (cvalue (vget cf0 y k)) with ((cvalue (vget cf0 y k) - dft (-1) n xv k) + dft (-1) n xv k)%C by ring.
    eapply Rle_trans; [apply Cmod_triangle|]. pose proof (dy k Hk). rewrite EE in Q. assert (c1 * (IZR n * B) <= 1 * (IZR n * B))%R by (apply Rmult_le_compat_r; lra). lra. }
  assert (HB2 : (/ 2 ^ 900 <= 2 * (IZR n * B) <= 2 ^ 900)%R).
  { split; [apply Rle_trans with B; [lra|nra]|]. replace (2 ^ 900)%R with (2 ^ 30 * 2 ^ 870)%R by (rewrite <- pow_add; reflexivity).
    replace (2 * (IZR n * B))%R with ((2 * IZR n) * B)%R by ring. apply Rmult_le_compat; lra. }
  destruct (C72_in_place_accurate delta (2 * (IZR n * B)) cosf sinf n P' true j2 y HT Hd HB2 Hn ltac:(lia) HP' Ly By) as (bw & z & E3 & E4 & Lz & Hz).
  exists fw, bw, y, z. split; [exact E1|]. split; [exact E3|]. split; [exact E2|]. split; [exact E4|]. split; [exact Lz|].
  intros j Hj. destruct (Hz j Hj) as (D1 & F1 & D2 & F2 & Q). repeat (split; [assumption|]).
  set (yv := fun k => cvalue (vget cf0 y k)) in *.
  assert (I : dft 1 n (dft (-1) n xv) j = (RtoC (IZR n) * xv j)%C).
  { rewrite <- (root_dft true) by lia. rewrite <- (dft_inv n ltac:(lia) xv j Hj). apply sumC_ext. intros k Hk. rewrite <- (root_dft false) by lia. 
    change (dir true) with 1. change (dir false) with (-1). rewrite Z.mul_1_l. reflexivity. }
  assert (D : (Cmod (dft 1 n yv j - RtoC (IZR n) * xv j)%C <= IZR n * (c1 * (IZR n * B)))%R).
  { rewrite <- I, <- !(root_dft true) by lia.
    replace (sumC 0 n (fun k => yv k * root n (dir true * (k * j)))%C - sumC 0 n (fun k => dft (-1) n xv k * root n (dir true * (k * j)))%C)%C
      with (sumC 0 n (fun k => (yv k - dft (-1) n xv k) * root n (dir true * (k * j)))%C).
    - replace (IZR n) with (IZR (n - 0)) at 1 by (f_equal; lia). apply Cmod_sumC; [lia|]. intros k Hk. unfold root. rewrite Cmod_mult, Cmod_cisR, Rmult_1_r. apply (Hy k Hk).
    - rewrite (sumC_ext 0 n (fun k => yv k * root n (dir true * (k * j)))%C (fun k => (yv k - dft (-1) n xv k) * root n (dir true * (k * j)) + dft (-1) n xv k * root n (dir true * (k * j)))%C) by (intros; ring).
      rewrite sumC_add. ring. }
  replace (cvalue (vget cf0 z j) - RtoC (IZR n) * cvalue (vget cf0 x j))%C with ((cvalue (vget cf0 z j) - dft 1 n yv j) + (dft 1 n yv j - RtoC (IZR n) * xv j))%C by (unfold xv; ring).
  eapply Rle_trans; [apply Cmod_triangle|]. eapply Rle_trans; [apply Rplus_le_compat; [exact Q|exact D]|]. rewrite EE.
  apply Rle_trans with (3 * IZR n * fft_error delta n P' B)%R; [rewrite EE; right; ring|].
  apply Rmult_le_compat_l; [lra|]. unfold fft_error. apply Rmult_le_compat_r; [lra|]. apply Rmult_le_compat_r; [lra|]. apply Rmult_le_compat_r; [lra|].
  assert (IZR P' <= IZR P)%R by (apply IZR_le; unfold P'; lia). lra.
Qed.
Print Assumptions C72_roundtrip.

(** ** The hypotheses are met *)

(** correctly rounded to multiples of 2^-52 *)
Definition grid (r : R) : f64 := fdiv (fofZ (ZnearestE (r * 2 ^ 52))) (fofZ (2 ^ 52)).
Lemma grid_ok r : (-1 <= r <= 1)%R -> double (grid r) /\ finite (grid r) /\ (Rabs (value (grid r) - r) <= / 2 ^ 51)%R.
Proof.
  intros Hr. set (k := ZnearestE (r * 2 ^ 52)). assert (K : (Rabs (IZR k - r * 2 ^ 52) <= / 2)%R). { unfold k. rewrite Rabs_minus_sym. apply Znearest_half. }
  apply Rabs_le_inv in K. assert (Kb : Z.abs k < 2 ^ 53). { assert (- 2 ^ 53 < k < 2 ^ 53); [|lia]. split; apply lt_IZR; [change (IZR (- 2 ^ 53)) with (- 9007199254740992)%R|change (IZR (2 ^ 53)) with 9007199254740992%R]; lra. }
  destruct (fofZ_small k Kb) as (D1 & F1 & E1). destruct (fofZ_small (2 ^ 52)) as (D2 & F2 & E2); [lia|].
  pose proof (fdiv_rnd (fofZ k) (fofZ (2 ^ 52)) D1 D2 F1 F2) as R. rewrite E1, E2 in R. change (IZR (2 ^ 52)) with 4503599627370496%R in R. specialize (R ltac:(lra)).
  assert (Q : (-2 <= IZR k / 4503599627370496 <= 2)%R) by lra. assert (Qa : (Rabs (IZR k / 4503599627370496) <= 2)%R) by (apply Rabs_le; lra).
  assert (BB : (2 <= BIG)%R) by (change 2%R with (bpow radix2 1); apply bpow_le; lia).
  destruct (big_rnd _ _ R) as (D & F & E); [lra|]. unfold grid. fold k. split; [exact D|]. split; [now apply fin_finite|]. rewrite E.
  pose proof (rnd_ok (IZR k / 4503599627370496)) as RO. pose proof dmin_small as Dm. rewrite uu_val in RO. apply Rabs_le_inv in RO. 
  assert (0 <= Rabs (IZR k / 4503599627370496))%R by apply Rabs_pos.
  apply Rabs_le. lra.
Qed.
Definition cos_grid (x : f64) : f64 := grid (cos (value x)).
Definition sin_grid (x : f64) : f64 := grid (sin (value x)).
Lemma trig_grid : trig_accurate (/ 2 ^ 51) cos_grid sin_grid.
Proof.
  intros x _ _ _. destruct (grid_ok (cos (value x)) (COS_bound _)) as (A & B & C). destruct (grid_ok (sin (value x)) (SIN_bound _)) as (D & E & F).
  unfold cos_grid, sin_grid. auto 10.
Qed.
(** length 14 = 2 * 7 uses a special and the general butterfly *)
Example C72_nonvacuous : exists cfg out,
  ff_alloc cos_grid sin_grid 14 true = Ok cfg /\ ff_fft_inplace (fun _ => (S754_nan, S754_nan)) cfg (vmake 14 (fun i => (fofZ i, fofZ 1))) = Ok out /\
  cnear (fft_error (/ 2 ^ 51) 14 7 14) (vget cf0 out 3) (dft 1 14 (fun j => cvalue (vget cf0 (vmake 14 (fun i => (fofZ i, fofZ 1))) j)) 3).
Proof.
  destruct (C72_in_place_accurate (/ 2 ^ 51) 14 cos_grid sin_grid 14 7 true (fun _ => (S754_nan, S754_nan)) (vmake 14 (fun i => (fofZ i, fofZ 1)))) as (cfg & out & E & Eo & _ & H).
  - apply trig_grid.
  - split; [left; apply Rinv_0_lt_compat, pow_lt; lra|]. apply Rinv_le_contravar; [apply pow_lt; lra|]. apply Rle_pow; [lra|lia].
  - split; [apply Rle_trans with 1%R; [|lra]; rewrite <- Rinv_1; apply Rinv_le_contravar; [lra|apply pow_R1_Rle; lra]|].
    apply Rle_trans with (2 ^ 4)%R; [lra|apply Rle_pow; [lra|lia]].
  - lia.
  - lia.
  - intros p Hp Hd. change 14 with (2 * 7) in Hd. destruct (prime_mult p Hp _ _ Hd) as [Q|Q]; apply Z.divide_pos_le in Q; lia.
  - reflexivity.
  - intros j Hj. rewrite vget_vmake by auto. destruct (fofZ_small j) as (D1 & F1 & E1); [lia|]. destruct (fofZ_small 1) as (D2 & F2 & E2); [lia|].
    split; [exact D1|]. split; [now apply fin_finite|]. split; [exact D2|]. split; [now apply fin_finite|].
    eapply Rle_trans; [apply Cmod_sum1|]. unfold cvalue. cbn [fst snd]. rewrite E1, E2, Rabs_R1.
    assert (0 <= IZR j <= 13)%R by (split; apply IZR_le; lia). rewrite Rabs_pos_eq; lra.
  - exists cfg, out. split; [exact E|]. split; [exact Eo|]. apply H. lia.
Qed.
