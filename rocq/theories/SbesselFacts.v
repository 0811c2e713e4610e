(** * SbesselFacts: the loops of sbessel.py. *)
From Coq Require Import ZArith List String Bool Reals Lra Lia.
From Coquelicot Require Import Coquelicot.
From Verif Require Import Py PyFacts MPysphi PysphiFacts SpecBessel Bessel Bessel2 MSbessel.
Import ListNotations.
Open Scope list_scope.
Open Scope Z_scope.

Lemma divR_ok a b : b <> 0%R -> divR a b = Ok (a / b)%R.
Proof. intros. unfold divR. destruct (Req_EM_T b 0); tauto. Qed.
Lemma divR_inv a b q : divR a b = Ok q -> b <> 0%R /\ q = (a / b)%R.
Proof. unfold divR. destruct (Req_EM_T b 0); [discriminate|]. intros [= <-]; auto. Qed.
Lemma py_get_in {A} (d : A) v i : 0 <= i < zlen v -> py_get d v i = Ok (vget d v i).
Proof.
  intros H. unfold py_get, py_index. destruct (Z.ltb_spec i 0); [lia|].
  destruct (Z.leb_spec 0 i); [|lia]. destruct (Z.ltb_spec i (zlen v)); [|lia]. reflexivity.
Qed.
Lemma py_set_in {A} (v : list A) i x : 0 <= i < zlen v -> py_set v i x = Ok (vset v i x).
Proof.
  intros H. unfold py_set, py_index. destruct (Z.ltb_spec i 0); [lia|].
  destruct (Z.leb_spec 0 i); [|lia]. destruct (Z.ltb_spec i (zlen v)); [|lia]. reflexivity.
Qed.

(** partial correctness of the downward loop *)
Lemma mfor_down_partial {S} (P : Z -> S -> Prop) hi lo f s s' :
  lo <= hi -> P hi s ->
  (forall i s s', lo < i <= hi -> P i s -> f i s = Ok s' -> P (i - 1) s') ->
  mfor (zrange_down hi lo) f s = Ok s' -> P lo s'.
Proof.
  intros Hle. remember (Z.to_nat (hi - lo)) as n eqn:Hn.
  revert hi s Hle Hn; induction n as [|n IH]; intros hi s Hle Hn H0 Hs.
  - assert (hi = lo) by lia; subst; rewrite zrange_down_nil by lia. cbn [mfor]. intros [= <-]. auto.
  - rewrite zrange_down_cons by lia. cbn [mfor].
    destruct (f hi s) as [s1|] eqn:E; [|discriminate]. cbn [bind].
    apply IH; try lia.
    + eapply Hs; eauto; lia.
    + intros i a b Hi. apply Hs. lia.
Qed.

(** ** sbessely *)
Lemma sbessely_ok x N : x <> 0%R -> 2 <= N ->
  sbessely x N = Ok (vmake N (fun n => sph_y (Z.to_nat n) x)).
Proof.
  intros Hx HN. unfold sbessely. rewrite np_zeros_ok by lia. cbn [bind].
  rewrite divR_ok by auto. cbn [bind].
  assert (L0 : zlen (vmake N (fun _ : Z => 0%R)) = N) by (rewrite zlen_vmake; lia).
  rewrite py_set_in by lia. cbn [bind]. rewrite !divR_ok by (auto; apply pow_nonzero; auto). cbn [bind].
  rewrite py_set_in by (rewrite zlen_vset; lia). cbn [bind].
  destruct (mfor_inv (fun i s => zlen s = N /\ forall k, 0 <= k < i -> vget 0%R s k = sph_y (Z.to_nat k) x) 2 N
    (fun n out => q <- divR (2 * IZR n - 1) x;; a <- py_get 0%R out (n - 1);; b <- py_get 0%R out (n - 2);; py_set out n (q * a - b)%R)
    (vset (vset (vmake N (fun _ : Z => 0%R)) 0 (- cos x / x)%R) 1 (- cos x / x ^ 2 - sin x / x)%R)) as (s & E & Hl & Hs).
  - lia.
  - split; [rewrite !zlen_vset; lia|]. intros k Hk. assert (k = 0 \/ k = 1) as [->| ->] by lia.
    + rewrite vget_vset_ne, vget_vset_eq by (rewrite ?zlen_vset; lia). reflexivity.
    + rewrite vget_vset_eq by (rewrite ?zlen_vset; lia). reflexivity.
  - intros i s Hi (Hl & Hs). rewrite divR_ok by auto. cbn [bind]. rewrite !py_get_in by lia. cbn [bind].
    rewrite py_set_in by lia. eexists; split; [reflexivity|]. split; [rewrite zlen_vset; lia|].
    intros k Hk. destruct (Z.eq_dec k i) as [->|D].
    + rewrite vget_vset_eq by lia. rewrite !Hs by lia.
      replace (Z.to_nat i) with (S (S (Z.to_nat (i - 2)))) by lia. rewrite sph_y_rec.
      replace (Z.to_nat (i - 1)) with (S (Z.to_nat (i - 2))) by lia.
      replace (2 * INR (Z.to_nat (i - 2)) + 3)%R with (2 * IZR i - 1)%R; auto.
      rewrite INR_IZR_INZ, Z2Nat.id, minus_IZR by lia. ring.
    + rewrite vget_vset_ne by auto. apply Hs. lia.
  - rewrite E. f_equal. apply (vget_ext 0%R); [rewrite zlen_vmake; lia|].
    intros k Hk. rewrite Hs, vget_vmake by lia. reflexivity.
Qed.

(** ** The continued fraction loop *)
Open Scope R_scope.

Definition loop_state (x : R) (n k : nat) (u v w : R) : Prop :=
  cB x n k <> 0 /\ cB' x n k <> 0 /\ u = bb n k * cB' x n k / cB x n k /\
  v = x * x ^ (2 * k) / (cB x n k * cB' x n k) /\ w = cA x n k / cB x n k.

Lemma loop_state_0 x n : loop_state x n 0 1 (x / (2 * INR n + 1)) (x / (2 * INR n + 1)).
Proof.
  pose proof (pos_INR n).
  unfold loop_state. change (cB x n 0) with (2 * INR n + 1). change (cB' x n 0) with 1. change (cA x n 0) with x.
  unfold bb. rewrite Nat.add_0_r. change (x ^ (2 * 0)) with 1. repeat split; try lra; field; lra.
Qed.
Lemma den_bb n k : 4 * IZR ((Z.of_nat (n + k) + 1) ^ 2)%Z - 1 = bb n k * bb n (S k).
Proof.
  rewrite bb_S. unfold bb. rewrite INR_IZR_INZ. rewrite Z.pow_2_r, mult_IZR, plus_IZR. ring.
Qed.
(** one iteration: it fails exactly when the next denominator vanishes *)
Lemma loop_step x n k u v w : loop_state x n k u v w ->
  let d := 1 - x ^ 2 * u / (4 * IZR ((Z.of_nat (n + k) + 1) ^ 2)%Z - 1) in
  4 * IZR ((Z.of_nat (n + k) + 1) ^ 2)%Z - 1 <> 0 /\
  (d <> 0 <-> cB x n (S k) <> 0) /\
  (d <> 0 -> loop_state x n (S k) (1 / d) (v * (1 / d - 1)) (w + v * (1 / d - 1))).
Proof.
  intros (B & B1 & -> & -> & ->). rewrite den_bb.
  assert (b0 : bb n k <> 0) by (pose proof (bb_pos n k); lra).
  assert (b1 : bb n (S k) <> 0) by (pose proof (bb_pos n (S k)); lra).
  assert (E : 1 - x ^ 2 * (bb n k * cB' x n k / cB x n k) / (bb n k * bb n (S k)) = cB x n (S k) / (bb n (S k) * cB x n k)).
  { rewrite cB_S. field. repeat split; auto. }
  cbv zeta. rewrite E. split; [apply Rmult_integral_contrapositive; auto|]. 
  assert (I : cB x n (S k) / (bb n (S k) * cB x n k) <> 0 <-> cB x n (S k) <> 0).
  { split; intros H C; apply H; [rewrite C; unfold Rdiv; ring|].
    unfold Rdiv in C. apply Rmult_integral in C as [C|C]; auto. exfalso. revert C. apply Rinv_neq_0_compat, Rmult_integral_contrapositive; auto. }
  split; auto. intros D. apply I in D.
  assert (U : 1 / (cB x n (S k) / (bb n (S k) * cB x n k)) = bb n (S k) * cB x n k / cB x n (S k)) by (field; auto).
  rewrite U. 
  assert (V : x * x ^ (2 * k) / (cB x n k * cB' x n k) * (bb n (S k) * cB x n k / cB x n (S k) - 1)
              = x * x ^ (2 * S k) / (cB x n (S k) * cB x n k)).
  { replace (2 * S k)%nat with (S (S (2 * k))) by lia. cbn [pow].
    replace (bb n (S k) * cB x n k / cB x n (S k) - 1) with (x ^ 2 * cB' x n k / cB x n (S k)).
    - field. auto.
    - assert (BS := cB_S x n k). replace (x ^ 2 * cB' x n k) with (bb n (S k) * cB x n k - cB x n (S k)) by (rewrite BS; ring). field; auto. }
  rewrite V. unfold loop_state. rewrite cB'_S. repeat split; auto.
  pose proof (cf_det x n (S k)) as DT. rewrite <- DT, cA'_S, cB'_S. field. auto.
Qed.

Lemma loop_inv x n fuel : forall k u v w r, loop_state x n k u v w ->
  sbesselj_loop fuel (x ^ 2) (Z.of_nat (n + k)) u v w = Ok r ->
  exists k', (k <= k' <= k + fuel)%nat /\ cB x n k' <> 0 /\ cB' x n k' <> 0 /\ r = cA x n k' / cB x n k' /\ r <> 0 /\
    Rabs (x * x ^ (2 * k') / (cB x n k' * cB' x n k') / r) <= 1 / 10 ^ 20.
Proof.
  induction fuel as [|fuel IH]; intros k u v w r L; cbn [sbesselj_loop];
    unfold divR at 1; destruct (Req_EM_T w 0) as [|W]; try discriminate; cbn [bind];
    (destruct (Rlt_dec _ _) as [_|Q]; [|intros [= <-]; exists k; destruct L as (B & B1 & _ & V & W'); rewrite <- V;
       split; [lia|]; split; [auto|]; split; [auto|]; split; [auto|]; split; [auto|lra]]); try discriminate.
  destruct (loop_step x n k u v w L) as (D0 & _ & D2).
  rewrite divR_ok by auto. cbn [bind].
  unfold divR at 1. destruct (Req_EM_T _ 0) as [|D]; [discriminate|]. cbn [bind].
  specialize (D2 D). replace (Z.of_nat (n + k) + 1)%Z with (Z.of_nat (n + S k)) in * by lia.
  intros H. destruct (IH _ _ _ _ _ D2 H) as (k' & Hk & G). exists k'. split; [lia|exact G].
Qed.
Lemma loop_regime x n fuel : x <> 0 -> Rabs x <= INR (S n) ->
  forall k u v w, loop_state x (S n) k u v w -> (34 * S n <= k + fuel)%nat ->
  exists r, sbesselj_loop fuel (x ^ 2) (Z.of_nat (S n + k)) u v w = Ok r.
Proof.
  intros Hx Hn. induction fuel as [|fuel IH]; intros k u v w L Hf; cbn [sbesselj_loop];
    (assert (V : v = vk x n k) by apply L); (assert (W : w = wk x n k) by apply L); subst v w;
    rewrite divR_ok by (apply wk_nz; auto); cbn [bind].
  - destruct (Rlt_dec _ _) as [Q|]; [|eexists; reflexivity]. exfalso.
    pose proof (ratio_small x n Hx Hn k) as RS. pose proof (rho_pow x n Hx Hn) as RP. cbv zeta in *.
    pose proof (rho_bd x n Hx Hn) as RB. 
    assert (M : (INR (S n) / (INR (S n) + 1)) ^ (2 * k) <= (INR (S n) / (INR (S n) + 1)) ^ (2 * (34 * S n))).
    { replace (2 * k)%nat with (2 * (34 * S n) + (2 * k - 2 * (34 * S n)))%nat by lia. rewrite pow_add.
      pose proof (pow_le (INR (S n) / (INR (S n) + 1)) (2 * (34 * S n)) ltac:(lra)).
      pose proof (pow_incr (INR (S n) / (INR (S n) + 1)) 1 (2 * k - 2 * (34 * S n)) ltac:(lra)) as Q1. rewrite pow1 in Q1.
      pose proof (pow_le (INR (S n) / (INR (S n) + 1)) (2 * k - 2 * (34 * S n)) ltac:(lra)). nra. }
    lra.
  - destruct (Rlt_dec _ _) as [Q|]; [|eexists; reflexivity].
    destruct (loop_step x (S n) k u _ _ L) as (D0 & D1 & D2).
    rewrite divR_ok by auto. cbn [bind].
    assert (D : 1 - x ^ 2 * u / (4 * IZR ((Z.of_nat (S n + k) + 1) ^ 2)%Z - 1) <> 0).
    { apply D1. pose proof (cB_pos' x n Hx Hn (S k)). lra. }
    rewrite divR_ok by auto. cbn [bind]. specialize (D2 D).
    replace (Z.of_nat (S n + k) + 1)%Z with (Z.of_nat (S n + S k)) in * by lia. apply IH; auto. lia.
Qed.

(** ** sbesselj *)
Open Scope Z_scope.

(** the state after the downward loop: out[0] and the ratios r *)
Definition ratios (x : R) (N i : Z) (w : R) (s : list R) : Prop :=
  zlen s = N /\ vget 0%R s 0 = (sin x / x)%R /\ vget 0%R s (N - 1) = w /\
  forall n, i < n < N - 1 ->
    ((2 * IZR n + 1) / x - vget 0 s (n + 1) <> 0)%R /\
    vget 0%R s n = (1 / ((2 * IZR n + 1) / x - vget 0 s (n + 1)))%R.

Definition down_body (x : R) (n : Z) (out : list R) : res (list R) :=
  q <- divR (2 * IZR n + 1) x ;; a <- py_get 0%R out (n + 1) ;; r <- divR 1 (q - a) ;; py_set out n r.

Lemma down_step x N w i s : x <> 0%R -> 0 < i < N - 1 -> ratios x N i w s ->
  ((2 * IZR i + 1) / x - vget 0 s (i + 1) <> 0)%R ->
  down_body x i s = Ok (vset s i (1 / ((2 * IZR i + 1) / x - vget 0 s (i + 1)))%R) /\
  ratios x N (i - 1) w (vset s i (1 / ((2 * IZR i + 1) / x - vget 0 s (i + 1)))%R).
Proof.
  intros Hx Hi (L & S0 & Sw & Sr) D. unfold down_body.
  rewrite divR_ok by auto. cbn [bind]. rewrite py_get_in by lia. cbn [bind]. rewrite divR_ok by auto. cbn [bind].
  rewrite py_set_in by lia. split; [reflexivity|]. unfold ratios. rewrite zlen_vset.
  rewrite !vget_vset_ne by lia. repeat split; auto.
  - destruct (Z.eq_dec n i) as [->|]; [rewrite vget_vset_ne by lia; auto|]. rewrite vget_vset_ne by lia. apply Sr. lia.
  - destruct (Z.eq_dec n i) as [->|]; [rewrite vget_vset_eq, vget_vset_ne by lia; auto|].
    rewrite !vget_vset_ne by lia. apply Sr. lia.
Qed.
Lemma down_fail x N w i s s' : x <> 0%R -> 0 < i < N - 1 -> ratios x N i w s -> down_body x i s = Ok s' ->
  ((2 * IZR i + 1) / x - vget 0 s (i + 1) <> 0)%R.
Proof.
  intros Hx Hi (L & _) H. unfold down_body in H. rewrite divR_ok in H by auto. cbn [bind] in H.
  rewrite py_get_in in H by lia. cbn [bind] in H. unfold divR in H. destruct (Req_EM_T _ _); [discriminate|auto].
Qed.

(** the state before the multiplications, and the result *)
Definition jj1 x := (sin x / x ^ 2 - cos x / x)%R.
Definition finish (x : R) (N : Z) (out : list R) : res (list R) :=
  o0 <- py_get 0%R out 0 ;;
  out <- (if Rle_dec (Rabs (jj1 x)) (Rabs o0) then
            o1 <- py_get 0%R out 1 ;; py_set out 1 (o1 * o0)%R
          else py_set out 1 (jj1 x)) ;;
  mfor (zrange 1 (N - 1)) (fun n out =>
    a <- py_get 0%R out (n + 1) ;;
    b <- py_get 0%R out n ;;
    py_set out (n + 1) (a * b)%R) out.

Lemma finish_ok x N w r : 2 <= N -> ratios x N 0 w r ->
  exists out, finish x N r = Ok out /\ zlen out = N /\ vget 0%R out 0 = (sin x / x)%R /\
    vget 0%R out 1 = (if Rle_dec (Rabs (jj1 x)) (Rabs (sin x / x)) then vget 0%R r 1 * vget 0%R out 0 else jj1 x)%R /\
    forall n, 1 <= n < N - 1 -> vget 0%R out (n + 1) = (vget 0%R r (n + 1) * vget 0%R out n)%R.
Proof.
  intros HN (L & S0 & Sw & Sr). unfold finish. rewrite py_get_in by lia. cbn [bind]. rewrite S0.
  set (o1 := (if Rle_dec (Rabs (jj1 x)) (Rabs (sin x / x)) then vget 0%R r 1 * (sin x / x) else jj1 x)%R).
  replace (if Rle_dec (Rabs (jj1 x)) (Rabs (sin x / x)) then o0 <- py_get 0%R r 1;; py_set r 1 (o0 * (sin x / x))%R else py_set r 1 (jj1 x))
    with (Ok (vset r 1 o1)).
  2:{ unfold o1. destruct (Rle_dec _ _); rewrite ?py_get_in by lia; cbn [bind]; rewrite py_set_in by lia; reflexivity. }
  cbn [bind].
  destruct (mfor_inv (fun i s => zlen s = N /\ vget 0%R s 0 = (sin x / x)%R /\ vget 0%R s 1 = o1 /\
      (forall n, 1 <= n < i -> vget 0%R s (n + 1) = (vget 0%R r (n + 1) * vget 0%R s n)%R) /\
      (forall n, i < n -> vget 0%R s n = vget 0%R r n)) 1 (N - 1)
    (fun n out => a <- py_get 0%R out (n + 1) ;; b <- py_get 0%R out n ;; py_set out (n + 1) (a * b)%R)
    (vset r 1 o1)) as (s & E & Hl & H0 & H1 & H2 & _).
  - lia.
  - rewrite zlen_vset. repeat split; auto.
    + rewrite vget_vset_ne by lia; auto.
    + rewrite vget_vset_eq by lia; auto.
    + intros; lia.
    + intros. rewrite vget_vset_ne by lia; auto.
  - intros i s Hi (Hl & H0 & H1 & H2 & H3). rewrite !py_get_in by lia. cbn [bind].
    rewrite py_set_in by lia. eexists; split; [reflexivity|]. rewrite zlen_vset. repeat split; auto.
    + rewrite vget_vset_ne by lia; auto.
    + rewrite vget_vset_ne by lia; auto.
    + intros n Hn. destruct (Z.eq_dec n i) as [->|].
      * rewrite vget_vset_eq, vget_vset_ne by lia. rewrite H3 by lia. auto.
      * rewrite !vget_vset_ne by lia. apply H2. lia.
    + intros n Hn. rewrite vget_vset_ne by lia. apply H3. lia.
  - exists s. split; [exact E|]. split; [auto|]. split; [auto|]. split; [rewrite H1, H0; reflexivity|]. intros. apply H2. lia.
Qed.

Lemma sbesselj_unfold fuel x N : x <> 0%R -> 2 <= N ->
  exists s0, ratios x N (N - 2) 0 s0 /\
  sbesselj fuel x N =
  (w <- sbesselj_loop fuel (x ^ 2) (N - 1) 1 (x / (2 * IZR (N - 1) + 1)) (x / (2 * IZR (N - 1) + 1)) ;;
   out <- mfor (zrange_down (N - 2) 0) (down_body x) (vset s0 (N - 1) w) ;;
   finish x N out).
Proof.
  intros Hx HN. exists (vset (vmake N (fun _ => 0%R)) 0 (sin x / x)%R).
  assert (L0 : zlen (vmake N (fun _ : Z => 0%R)) = N) by (rewrite zlen_vmake; lia).
  split.
  { unfold ratios. rewrite zlen_vset, vget_vset_eq, vget_vset_ne, vget_vmake by lia. repeat split; auto; lia. }
  unfold sbesselj. rewrite np_zeros_ok by lia. cbn [bind]. rewrite divR_ok by auto. cbn [bind].
  rewrite py_set_in by lia. cbn [bind].
  rewrite !divR_ok by (auto; apply pow_nonzero; auto). cbn [bind].
  rewrite divR_ok.
  2:{ assert (0 <= IZR (N - 1))%R by (apply IZR_le; lia). lra. }
  cbn [bind]. destruct (sbesselj_loop _ _ _ _ _ _) as [w|]; [|reflexivity]. cbn [bind].
  rewrite py_set_in by (rewrite zlen_vset; lia). cbn [bind].
  replace (N - 1 - 1) with (N - 2) by lia. reflexivity.
Qed.
Lemma ratios_start x N w s0 : 2 <= N -> ratios x N (N - 2) 0 s0 -> ratios x N (N - 2) w (vset s0 (N - 1) w).
Proof.
  intros HN (L & S0 & Sw & Sr). unfold ratios. rewrite zlen_vset, vget_vset_eq, vget_vset_ne by lia.
  split; [auto|]. split; [auto|]. split; [auto|]. intros; lia.
Qed.

(** Everything a successful call tells. *)
Lemma sbesselj_inv fuel x N out : x <> 0%R -> 2 <= N -> sbesselj fuel x N = Ok out ->
  exists w r,
    sbesselj_loop fuel (x ^ 2) (N - 1) 1 (x / (2 * IZR (N - 1) + 1)) (x / (2 * IZR (N - 1) + 1)) = Ok w /\
    ratios x N 0 w r /\ zlen out = N /\ vget 0%R out 0 = (sin x / x)%R /\
    vget 0%R out 1 = (if Rle_dec (Rabs (jj1 x)) (Rabs (sin x / x)) then vget 0%R r 1 * vget 0%R out 0 else jj1 x)%R /\
    forall n, 1 <= n < N - 1 -> vget 0%R out (n + 1) = (vget 0%R r (n + 1) * vget 0%R out n)%R.
Proof.
  intros Hx HN H. destruct (sbesselj_unfold fuel x N Hx HN) as (s0 & R0 & E). rewrite E in H.
  destruct (sbesselj_loop _ _ _ _ _ _) as [w|] eqn:W; [|discriminate]. cbn [bind] in H.
  destruct (mfor _ _ _) as [r|] eqn:M; [|discriminate]. cbn [bind] in H.
  assert (R : ratios x N 0 w r).
  { eapply (mfor_down_partial (fun i s => ratios x N i w s)); [| | |exact M].
    - lia.
    - apply ratios_start; auto.
    - intros i s s' Hi Hr Hs. pose proof (down_fail x N w i s s' Hx ltac:(lia) Hr Hs) as D.
      destruct (down_step x N w i s Hx ltac:(lia) Hr D) as [D1 D2]. rewrite D1 in Hs. injection Hs as <-. exact D2. }
  destruct (finish_ok x N w r HN R) as (o & F & G). rewrite F in H. injection H as ->.
  exists w, r. auto.
Qed.

(** With |x| <= 1 nothing can fail: every ratio is at most 1/2 in absolute value. *)
Lemma sbesselj_small fuel x N w : x <> 0%R -> (Rabs x <= 1)%R -> 2 <= N ->
  sbesselj_loop fuel (x ^ 2) (N - 1) 1 (x / (2 * IZR (N - 1) + 1)) (x / (2 * IZR (N - 1) + 1)) = Ok w ->
  (Rabs w <= 1)%R -> exists out, sbesselj fuel x N = Ok out.
Proof.
  intros Hx X1 HN W W1. destruct (sbesselj_unfold fuel x N Hx HN) as (s0 & R0 & E). rewrite E, W. cbn [bind].
  destruct (mfor_down_inv (fun i s => ratios x N i w s /\ (Rabs (vget 0 s (i + 1)) <= 1)%R) (N - 2) 0 (down_body x) (vset s0 (N - 1) w))
    as (r & M & R & _).
  - lia.
  - split; [apply ratios_start; auto|]. replace (N - 2 + 1) with (N - 1) by lia.
    destruct R0 as (L & _). rewrite vget_vset_eq by lia. auto.
  - intros i s Hi (Hr & B).
    assert (I1 : (1 <= IZR i)%R) by (apply IZR_le; lia).
    assert (P : (0 < Rabs x)%R) by (apply Rabs_pos_lt; auto).
    assert (Q : (3 <= Rabs ((2 * IZR i + 1) / x))%R).
    { rewrite Rabs_div by auto. rewrite (Rabs_right (2 * IZR i + 1)) by lra.
      apply (Rmult_le_reg_r (Rabs x)); auto. unfold Rdiv. rewrite Rmult_assoc, Rinv_l by lra. nra. }
    assert (Q2 : (2 <= Rabs ((2 * IZR i + 1) / x - vget 0 s (i + 1)))%R).
    { pose proof (Rabs_triang_inv ((2 * IZR i + 1) / x) (vget 0 s (i + 1)))%R. lra. }
    assert (D : ((2 * IZR i + 1) / x - vget 0 s (i + 1) <> 0)%R).
    { intros C. rewrite C, Rabs_R0 in Q2. lra. }
    destruct (down_step x N w i s Hx ltac:(lia) Hr D) as [D1 D2]. eexists; split; [exact D1|]. split; [exact D2|].
    replace (i - 1 + 1) with i by lia. destruct Hr as (L & _). rewrite vget_vset_eq by lia.
    rewrite Rabs_div by auto. rewrite Rabs_R1. apply (Rmult_le_reg_r (Rabs ((2 * IZR i + 1) / x - vget 0%R s (i + 1))%R)); [lra|].
    unfold Rdiv at 1. rewrite Rmult_assoc, Rinv_l by lra. lra.
  - rewrite M. cbn [bind]. destruct (finish_ok x N w r HN R) as (o & F & _). exists o; auto.
Qed.

(** The loop as called by sbesselj, nmax = N - 1 = n + 1. *)
Open Scope R_scope.
Lemma loop_call x n fuel w :
  sbesselj_loop fuel (x ^ 2) (Z.of_nat n) 1 (x / (2 * IZR (Z.of_nat n) + 1)) (x / (2 * IZR (Z.of_nat n) + 1)) = Ok w ->
  exists k, (k <= fuel)%nat /\ cB x n k <> 0 /\ cB' x n k <> 0 /\ w = cA x n k / cB x n k /\ w <> 0 /\
    Rabs (x * x ^ (2 * k) / (cB x n k * cB' x n k) / w) <= 1 / 10 ^ 20.
Proof.
  intros H. rewrite <- INR_IZR_INZ in H. replace (Z.of_nat n) with (Z.of_nat (n + 0)) in H by lia.
  destruct (loop_inv x n fuel 0 1 _ _ w (loop_state_0 x n) H) as (k & Hk & G). exists k. split; [lia|exact G].
Qed.
Lemma loop_accuracy x n fuel w : x <> 0 -> Rabs x <= INR (S n) ->
  sbesselj_loop fuel (x ^ 2) (Z.of_nat (S n)) 1 (x / (2 * IZR (Z.of_nat (S n)) + 1)) (x / (2 * IZR (Z.of_nat (S n)) + 1)) = Ok w ->
  w <> 0 /\ Rabs (w - sph_j (S n) x / sph_j n x) <= 1 / 10 ^ 20 * Rabs x * Rabs w.
Proof.
  intros Hx Hn H. destruct (loop_call x (S n) fuel w H) as (k & _ & _ & _ & -> & W & Q). split; auto.
  eapply Rle_trans; [apply (cf_error x n Hx Hn k)|].
  change (x * x ^ (2 * k) / (cB x (S n) k * cB' x (S n) k)) with (vk x n k) in Q.
  rewrite Rabs_div in Q by auto. pose proof (Rabs_pos x).
  apply Rle_trans with (Rabs x * (1 / 10 ^ 20 * Rabs (cA x (S n) k / cB x (S n) k))); [|right; ring].
  apply Rmult_le_compat_l; auto. pose proof (Rabs_pos_lt _ W).
  apply (Rmult_le_reg_r (/ Rabs (cA x (S n) k / cB x (S n) k))); [apply Rinv_0_lt_compat; auto|].
  rewrite (Rmult_assoc (1 / 10 ^ 20)), Rinv_r by lra. unfold Rdiv in *. lra.
Qed.
Lemma loop_total x n fuel : x <> 0 -> Rabs x <= INR (S n) -> (34 * S n <= fuel)%nat ->
  exists w, sbesselj_loop fuel (x ^ 2) (Z.of_nat (S n)) 1 (x / (2 * IZR (Z.of_nat (S n)) + 1)) (x / (2 * IZR (Z.of_nat (S n)) + 1)) = Ok w.
Proof.
  intros Hx Hn Hf. destruct (loop_regime x n fuel Hx Hn 0 1 _ _ (loop_state_0 x (S n)) ltac:(lia)) as (w & H).
  exists w. rewrite <- INR_IZR_INZ. replace (S n + 0)%nat with (S n) in H by lia. exact H.
Qed.
