(** * P_Kiss: properties C33, C34 and C35 (kiss_fft_next_fast_size). *)
From Coq Require Import ZArith Znumtheory List String Bool Lia Reals Lra.
From Coquelicot Require Import Complex.
From Verif Require Import Py PyFacts Num Exact MCoefs Sums MPysphi Dft Smooth MKiss SpecDft KissFacts KissFacts2.
Import ListNotations.
Open Scope list_scope.
Open Scope Z_scope.

Lemma dftv_spec inv n x k : 0 < n -> dftv inv n x k = dft (IZR (dir inv)) n (vget (RtoC 0) x) k.
Proof.
  intros Hn. apply sumC_ext. intros j _. f_equal. unfold root, cisR.
  assert (E : (2 * PI * IZR (dir inv * (j * k)) / IZR n = IZR (dir inv) * (2 * PI * IZR j * IZR k / IZR n))%R).
  { rewrite !mult_IZR. field. apply not_0_IZR; lia. }
  rewrite E. reflexivity.
Qed.

(** ** C33: kiss_fft computes the DFT *)

(** Separate input and output buffers, any input stride; the output buffer may
    be longer than n, its tail is untouched, whatever the scratch memory
    contained. *)
Theorem C33_kiss_fft_is_dft : forall (junk : Z -> C) n (inverse : bool) (x y : list C) stride,
  1 <= n < 2 ^ 31 -> 1 <= stride -> (n - 1) * stride < zlen x -> n <= zlen y ->
  exists cfg out, kiss_fft_alloc n inverse = Ok cfg /\ kiss_fft_stride junk cfg x y stride = Ok out /\
    zlen out = zlen y /\
    (forall k, 0 <= k < n ->
       vget (RtoC 0) out k = dft (if inverse then 1 else -1) n (fun j => vget (RtoC 0) x (j * stride)%Z) k) /\
    (forall k, n <= k -> vget (RtoC 0) out k = vget (RtoC 0) y k).
Proof.
  intros junk n inv x y s Hn Hs Hx Hy.
  destruct (kiss_fft_alloc_ok n inv) as (cfg & E & En & Hc & Hg); [lia|].
  exists cfg. unfold kiss_fft_stride.
  destruct (kf_work_ok cfg (dir inv) Hc junk x s (k_factors cfg) n y 0 0 1) as (out & Eo & L1 & L2 & L3); auto; try lia.
  { intros j Hj. nia. }
  exists out. split; auto. split; auto. split; auto. split.
  - intros k Hk. replace k with (0 + k) at 1 by lia. rewrite L2 by auto. apply sumC_ext. intros j Hj.
    unfold W. rewrite En. replace (0 + j * (1 * s)) with (j * s) by ring. f_equal. unfold root, cisR.
    assert (Ea : (2 * PI * IZR (dir inv * (1 * (j * k))) / IZR n = (if inv then 1 else -1) * (2 * PI * IZR j * IZR k / IZR n))%R).
    { rewrite !mult_IZR. destruct inv; unfold dir; field; apply not_0_IZR; lia. }
    rewrite Ea. reflexivity.
  - intros k Hk. apply L3. lia.
Qed.
Print Assumptions C33_kiss_fft_is_dft.

(** In place (fin == fout), the way csphi.c uses it. *)
Theorem C33_in_place_is_dft : forall (junk : Z -> C) n (inverse : bool) (x : list C),
  1 <= n < 2 ^ 31 -> zlen x = n ->
  exists cfg out, kiss_fft_alloc n inverse = Ok cfg /\ kiss_fft_inplace junk cfg x = Ok out /\ zlen out = n /\
    forall k, 0 <= k < n -> vget (RtoC 0) out k = dft (if inverse then 1 else -1) n (vget (RtoC 0) x) k.
Proof.
  intros junk n inv x Hn Hx.
  destruct (kiss_fft_alloc_ok n inv) as (cfg & E & En & Hc & Hg); [lia|].
  exists cfg. rewrite (kiss_fft_inplace_ok junk cfg inv x); auto; [|rewrite En; auto|lia].
  eexists; split; [exact E|]. split; [reflexivity|]. rewrite En. split; [rewrite zlen_vmake; lia|].
  intros k Hk. rewrite vget_vmake by auto. rewrite dftv_spec by lia. f_equal. unfold dir. destruct inv; auto.
Qed.
Print Assumptions C33_in_place_is_dft.

(** kiss_fft(cfg, fin, fout) itself: contiguous input. *)
Theorem C33_kiss_fft_contiguous : forall (junk : Z -> C) n (inverse : bool) (x y : list C),
  1 <= n < 2 ^ 31 -> zlen x = n -> zlen y = n ->
  exists cfg out, kiss_fft_alloc n inverse = Ok cfg /\ kiss_fft junk cfg x y = Ok out /\ zlen out = n /\
    forall k, 0 <= k < n -> vget (RtoC 0) out k = dft (if inverse then 1 else -1) n (vget (RtoC 0) x) k.
Proof.
  intros junk n inv x y Hn Hx Hy.
  destruct (C33_kiss_fft_is_dft junk n inv x y 1 Hn ltac:(lia) ltac:(lia) ltac:(lia)) as (cfg & out & E & Eo & L & V & _).
  exists cfg, out. split; [exact E|]. split; [exact Eo|]. split; [lia|]. intros k Hk. rewrite (V k Hk).
  f_equal. apply FunctionalExtensionality.functional_extensionality. intros j. rewrite Z.mul_1_r. reflexivity.
Qed.
Print Assumptions C33_kiss_fft_contiguous.

(** Inverse after forward multiplies by n. *)
Theorem C33_roundtrip : forall (junk : Z -> C) n (x y z : list C) fw bw,
  1 <= n < 2 ^ 31 -> zlen x = n ->
  kiss_fft_alloc n false = Ok fw -> kiss_fft_alloc n true = Ok bw ->
  kiss_fft_inplace junk fw x = Ok y -> kiss_fft_inplace junk bw y = Ok z ->
  forall j, 0 <= j < n -> vget (RtoC 0) z j = (RtoC (IZR n) * vget (RtoC 0) x j)%C.
Proof.
  intros junk n x y z fw bw Hn Hx Ef Eb Ey Ez j Hj.
  destruct (kiss_fft_alloc_ok n false) as (cf & E1 & N1 & Hc1 & Hg1); [lia|].
  destruct (kiss_fft_alloc_ok n true) as (cb & E2 & N2 & Hc2 & Hg2); [lia|].
  rewrite E1 in Ef. injection Ef as <-. rewrite E2 in Eb. injection Eb as <-.
  rewrite (kiss_fft_inplace_ok junk cf false x) in Ey by (first [assumption | rewrite N1; assumption | lia]). injection Ey as <-.
  rewrite N1 in Ez. rewrite (kiss_fft_inplace_ok junk cb true) in Ez by (first [assumption | rewrite N2; assumption | rewrite zlen_vmake; lia]).
  injection Ez as <-. rewrite N2. rewrite vget_vmake by auto. unfold dftv.
  rewrite <- (dft_inv n ltac:(lia) (vget (RtoC 0) x) j Hj). apply sumC_ext. intros p Hp.
  rewrite vget_vmake by auto. f_equal. f_equal. unfold dir. ring.
Qed.
Print Assumptions C33_roundtrip.

(** Non-trivial instance: length 14 = 2 * 7 uses a special and the general
    butterfly. *)
Example C33_nonvacuous : kf_factor 14 = Ok [(2, 7); (7, 1)] /\ zlen (vmake 14 (fun i => RtoC (IZR i))) = 14.
Proof. split; reflexivity. Qed.

(** ** C34: kf_factor terminates, factors n and fits its buffer *)

(** The pairs (radix, remaining length): each remaining length is the previous
    one divided by the radix, exactly, and the last one is 1; every radix is 4
    or prime (for n >= 2); the buffer of 32 pairs suffices for every int n. *)
Theorem C34_factorisation : forall n, 1 <= n ->
  exists stages, kf_factor n = Ok stages /\
    fold_right Z.mul 1 (map fst stages) = n /\
    (forall i p m, nth_error stages i = Some (p, m) ->
       fold_right Z.mul 1 (map fst (firstn (S i) stages)) * m = n) /\
    last (map snd stages) 0 = 1 /\
    (2 <= n -> Forall (fun s => fst s = 4 \/ prime (fst s)) stages) /\
    (n < 2 ^ 31 -> zlen stages <= 32).
Proof.
  intros n Hn. destruct (kf_factor_ok n Hn) as (l & E & G & L). exists l. split; auto.
  assert (HC : chain n l /\ l <> [] /\ (2 <= n -> Forall (fun r => fst r = 4 \/ prime (fst r)) l)).
  { destruct (Z.eq_dec n 1) as [->|].
    - rewrite kf_factor_1 in E. injection E as <-. cbn. repeat split; auto. discriminate. intros; lia.
    - destruct (kf_factor_inv n l) as [H1 H2]; auto; [lia|]. split; auto. split; auto. intros ->. destruct G. }
  destruct HC as (HC & Hne & HF).
  assert (HL : n < 2 ^ 31 -> zlen l <= 32).
  { intros H. assert (Z.log2 n < 31) by (apply Z.log2_lt_pow2; lia). lia. }
  clear E G L Hn. split; [|split; [|split; [|split]]]; auto.
  - clear -HC. revert n HC. induction l as [|(p & m) l IH]; intros n HC; cbn in *; auto.
    destruct HC as (-> & HC). rewrite (IH m HC). auto.
  - clear -HC. intros i. revert n l HC. induction i as [|i IH]; intros n [|(p & m) l] HC p' m' H; cbn [nth_error] in H; try discriminate.
    + injection H as <- <-. cbn. destruct HC as (-> & _). ring.
    + destruct HC as (-> & HC). cbn [firstn map fst fold_right]. specialize (IH m l HC p' m' H).
      cbn [firstn map fst fold_right] in IH. rewrite <- IH. destruct l as [|x l]; ring.
  - clear -HC Hne. revert n HC Hne. induction l as [|(p & m) l IH]; intros n HC Hne; [congruence|].
    destruct HC as (-> & HC). destruct l as [|x l]; [cbn in *; auto|].
    change (last (map snd (x :: l)) 0 = 1). apply (IH m); auto. discriminate.
Qed.
Print Assumptions C34_factorisation.

Example C34_nonvacuous : kf_factor 360 = Ok [(4, 90); (2, 45); (3, 15); (3, 5); (5, 1)].
Proof. reflexivity. Qed.

(** ** C35: kiss_fft_next_fast_size *)
Theorem C35_kiss_next_fast_size : forall n, 1 <= n ->
  exists q, kiss_fft_next_fast_size n = Ok q /\ n <= q < 2 * n /\
    (forall p, prime p -> (p | q) -> p = 2 \/ p = 3 \/ p = 5) /\
    forall k, n <= k < q -> exists p, prime p /\ (p | k) /\ p <> 2 /\ p <> 3 /\ p <> 5.
Proof.
  intros Q HQ. destruct (next_fast_ok Q HQ) as (q & E & (H1 & [H2 H3] & H4) & H5). exists q. split; [exact E|].
  split; [lia|]. split.
  - intros p Hp Hd. specialize (H3 p Hp Hd). cbn in H3. lia.
  - intros k Hk. specialize (H4 k Hk).
    destruct (Classical_Prop.classic (exists p, prime p /\ (p | k) /\ p <> 2 /\ p <> 3 /\ p <> 5)) as [X|X]; auto.
    exfalso. apply H4. split; [lia|]. intros p Hp Hd.
    destruct (Z.eq_dec p 2) as [->|]; [cbn; tauto|]. destruct (Z.eq_dec p 3) as [->|]; [cbn; tauto|].
    destruct (Z.eq_dec p 5) as [->|]; [cbn; tauto|].
    exfalso. apply X. exists p. auto 10.
Qed.
Print Assumptions C35_kiss_next_fast_size.
(** At 0 its first inner loop (m % 2 == 0, m /= 2) never ends. *)
Theorem C35_kiss_zero_diverges : forall fuel, strip fuel 2 0 = Raise OutOfFuel.
Proof. intros. apply strip_0. Qed.
Print Assumptions C35_kiss_zero_diverges.
Example C35_kiss_nonvacuous : kiss_fft_next_fast_size 131 = Ok 135.
Proof. reflexivity. Qed.
