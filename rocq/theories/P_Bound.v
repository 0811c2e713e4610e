(** * P_Bound: C68, the size of a synthesised pattern. *)
From Coq Require Import ZArith List Bool Reals Lia Lra Psatz Permutation.
From Coquelicot Require Import Coquelicot.
From Verif Require Import Py PyFacts Num MCoefs SpecCoefs CoefsFacts Obs CoefsFacts3 MPatt SpecPatt PattFacts Exact P_Coefs P_Patt Sums Harm SpecHarm MPysphi MTrans PysphiFacts
  TransFacts2 TransFacts3 HarmFacts SpecInt Integ Integ2 P_Trans P_Integral P_Both Unsold.
Import ListNotations.
Open Scope Z_scope.

(** ** The sum over the orders *)
Lemma harm_sq_pos n k t p : (k <= n)%nat -> (Cmod (sph_harm_pos n k t p) ^ 2 = (norm_factor n k * (sin t ^ k * DL n k (cos t))) ^ 2)%R.
Proof.
  intros H. unfold sph_harm_pos. rewrite Cmod_mult, Cmod_cis, Rmult_1_r, Cmod_R, pow2_abs. unfold assoc_legendre_cos. rewrite DL_Derive_n.
  replace ((norm_factor n k * ((-1) ^ k * sin t ^ k * DL n k (cos t))) ^ 2)%R with (((-1) ^ k) ^ 2 * (norm_factor n k * (sin t ^ k * DL n k (cos t))) ^ 2)%R by ring.
  rewrite <- pow_mult, Nat.mul_comm, pow_mult. replace ((-1) ^ 2)%R with 1%R by ring. rewrite pow1. ring.
Qed.
Lemma harm_sq_neg n m t p : (Cmod (sph_harm n (- m) t p) = Cmod (sph_harm n m t p))%R.
Proof.
  assert (E : forall m, (0 < m) -> Cmod (sph_harm n (- m) t p) = Cmod (sph_harm n m t p)).
  { intros k Hk. unfold sph_harm. destruct (Z.leb_spec 0 (- k)); [lia|]. destruct (Z.leb_spec 0 k); [|lia].
    rewrite Cmod_mult, Cmod_conj, Cmod_R, <- RPow_abs, Rabs_m1, pow1, Rmult_1_l, Z.opp_involutive. reflexivity. }
  destruct (Z.lt_trichotomy m 0) as [L|[->|L]]; [|reflexivity|apply E; auto].
  rewrite <- (Z.opp_involutive m) at 2. symmetry. apply E. lia.
Qed.

Lemma zw_sq n k t : (k <= n)%nat -> (2 * (norm_factor n k * (sin t ^ k * DL n k (cos t))) ^ 2 =
  (2 * INR n + 1) / (4 * PI) * (zw n k * ((1 - cos t ^ 2) ^ k * DL n k (cos t) ^ 2)))%R.
Proof.
  intros H. pose proof PI_RGT_0 as HP. pose proof (pos_INR n) as Hn. pose proof (INR_fact_lt_0 (n - k)). pose proof (INR_fact_lt_0 (n + k)).
  assert (K : (0 < (2 * INR n + 1) / (4 * PI))%R) by (apply Rdiv_lt_0_compat; lra).
  assert (N : (norm_factor n k ^ 2 = (2 * INR n + 1) / (4 * PI) * (INR (fact (n - k)) / INR (fact (n + k))))%R).
  { unfold norm_factor. cbn [pow]. rewrite Rmult_1_r, sqrt_sqrt; auto. apply Rmult_le_pos; [lra|]. apply Rlt_le, Rdiv_lt_0_compat; auto. }
  assert (S2 : (1 - cos t ^ 2 = sin t ^ 2)%R). { pose proof (sin2_cos2 t) as Q. unfold Rsqr in Q. nra. }
  rewrite S2. unfold zw. replace ((norm_factor n k * (sin t ^ k * DL n k (cos t))) ^ 2)%R with (norm_factor n k ^ 2 * ((sin t ^ k) ^ 2 * DL n k (cos t) ^ 2))%R by ring.
  rewrite N, <- !pow_mult, (Nat.mul_comm k 2). ring.
Qed.

Lemma orders_partial n t p (M : nat) : 0 <= n -> Z.of_nat M <= n ->
  sumR (- Z.of_nat M) (Z.of_nat M + 1) (fun m => Cmod (sph_harm n m t p) ^ 2)%R = ((2 * IZR n + 1) / (4 * PI) * US (Z.to_nat n) M (cos t))%R.
Proof.
  intros H0. induction M as [|M IH]; intros H.
  - change (- Z.of_nat 0) with 0. change (Z.of_nat 0 + 1) with 1. rewrite sumR_cons, sumR_nil by lia. rewrite Rplus_0_r.
    unfold sph_harm. cbn [Z.leb Z.compare]. change (Z.to_nat 0) with 0%nat. rewrite harm_sq_pos by lia.
    pose proof (zw_sq (Z.to_nat n) 0 t ltac:(lia)) as E. rewrite INR_IZR_INZ, Z2Nat.id in E by lia. cbn [US].
    assert (Q : zw (Z.to_nat n) 0 = 2%R). { unfold zw. rewrite Nat.sub_0_r, Nat.add_0_r. field. pose proof (INR_fact_lt_0 (Z.to_nat n)). lra. }
    rewrite Q in E. rewrite !pow_O in *. lra.
  - rewrite sumR_cons by lia. replace (Z.of_nat (S M) + 1) with ((Z.of_nat M + 1) + 1) by lia. rewrite sumR_snoc by lia.
    replace (- Z.of_nat (S M) + 1) with (- Z.of_nat M) by lia. rewrite IH by lia.
    replace (Z.of_nat M + 1) with (Z.of_nat (S M)) by lia. rewrite harm_sq_neg.
    assert (E : sph_harm n (Z.of_nat (S M)) t p = sph_harm_pos (Z.to_nat n) (S M) t p). { unfold sph_harm. destruct (Z.leb_spec 0 (Z.of_nat (S M))); [|lia]. now rewrite Nat2Z.id. }
    rewrite E, harm_sq_pos by lia. pose proof (zw_sq (Z.to_nat n) (S M) t ltac:(lia)) as Z. rewrite INR_IZR_INZ, Z2Nat.id in Z by lia. cbn [US]. lra.
Qed.
Lemma orders_sum n t p : 0 <= n -> sumR (- n) (n + 1) (fun m => Cmod (sph_harm n m t p) ^ 2)%R = ((2 * IZR n + 1) / (4 * PI))%R.
Proof.
  intros H. pose proof (orders_partial n t p (Z.to_nat n) H ltac:(lia)) as E. rewrite Z2Nat.id in E by lia. rewrite E, US_one by apply COS_bound. ring.
Qed.

(** ** The sum over all modes *)
Lemma sumR_le lo hi f g : (forall k, (lo <= k < hi)%Z -> (f k <= g k)%R) -> (sumR lo hi f <= sumR lo hi g)%R.
Proof.
  revert lo hi. apply (gsum_ind (fun lo hi => (forall k, (lo <= k < hi)%Z -> (f k <= g k)%R) -> (sumR lo hi f <= sumR lo hi g)%R)).
  - intros lo hi H _. rewrite !sumR_nil by lia. lra.
  - intros lo hi H IH HB. rewrite (sumR_cons lo hi f), (sumR_cons lo hi g) by lia. apply Rplus_le_compat; [apply HB; lia|apply IH; intros; apply HB; lia].
Qed.
Lemma sum_odd N : 0 <= N -> sumR 0 (N + 1) (fun n => (2 * IZR n + 1) / (4 * PI))%R = ((IZR N + 1) ^ 2 / (4 * PI))%R.
Proof.
  revert N. apply natlike_ind; [rewrite sumR_cons, sumR_nil by lia; cbn; pose proof PI_RGT_0; field; lra|].
  intros N HN IH. unfold Z.succ. rewrite sumR_snoc, IH by lia. rewrite plus_IZR. pose proof PI_RGT_0. field. lra.
Qed.
Lemma modes_sum N M (g : Z -> Z -> R) : 0 <= M -> (forall n m, 0 <= g n m)%R ->
  (sumR (- M) (M + 1) (fun m => sumR (Z.abs m) (N + 1) (fun n => g n m)) <= sumR 0 (N + 1) (fun n => sumR (- n) (n + 1) (fun m => g n m)))%R.
Proof.
  intros HM Hg.
  set (h := fun n m => if (Z.abs m <=? n) && (Z.abs m <=? M) then g n m else 0%R).
  set (K := Z.max N M).
  assert (E : sumR (- M) (M + 1) (fun m => sumR (Z.abs m) (N + 1) (fun n => g n m)) = sumR (- K) (K + 1) (fun m => sumR 0 (N + 1) (fun n => h n m))).
  { transitivity (sumR (- M) (M + 1) (fun m => sumR 0 (N + 1) (fun n => h n m))).
    - apply sumR_ext. intros m Hm. destruct (Z.le_gt_cases (Z.abs m) (N + 1)) as [L|L].
      + rewrite (sumR_extend (Z.abs m) (N + 1) 0 (N + 1) (fun n => h n m)) by (solve [lia|intros n H1 H2; unfold h; destruct (Z.leb_spec (Z.abs m) n); [lia|reflexivity]]).
        apply sumR_ext. intros n Hn. unfold h. destruct (Z.leb_spec (Z.abs m) n), (Z.leb_spec (Z.abs m) M); try lia. reflexivity.
      + rewrite sumR_nil by lia. rewrite sumR_zero; auto. intros n Hn. unfold h. destruct (Z.leb_spec (Z.abs m) n); [lia|reflexivity].
    - symmetry. apply sumR_extend; try lia. intros m H1 H2. apply sumR_zero. intros n Hn. unfold h. destruct (Z.leb_spec (Z.abs m) M); [lia|]. now rewrite andb_false_r. }
  rewrite E, sumR_exch. apply sumR_le. intros n Hn.
  apply Rle_trans with (sumR (- K) (K + 1) (fun m => if Z.abs m <=? n then g n m else 0%R)).
  - apply sumR_le. intros m Hm. unfold h. specialize (Hg n m). destruct (Z.leb_spec (Z.abs m) n), (Z.leb_spec (Z.abs m) M); cbn [andb]; lra.
  - rewrite (sumR_extend (- n) (n + 1)) by (solve [lia|intros m H1 H2; destruct (Z.leb_spec (Z.abs m) n); [lia|reflexivity]]).
    apply Req_le, sumR_ext. intros m Hm. destruct (Z.leb_spec (Z.abs m) n); [reflexivity|lia].
Qed.

(** Cauchy-Schwarz over a list of pairs. *)

Lemma sum_sq_pos l : (0 <= sum_sq l)%R.
Proof. induction l as [|x l IH]; cbn [sum_sq fold_right]; [lra|]. fold (sum_sq l). pose proof (pow2_ge_0 (Cmod x)). lra. Qed.
Lemma cauchy {A} (l : list A) (f g : A -> C) :
  (Cmod (csumC (map (fun x => f x * g x)%C l)) <= sqrt (sum_sq (map f l)) * sqrt (sum_sq (map g l)))%R.
Proof.
  induction l as [|x l IH]; [cbn; rewrite Cmod_0, sqrt_0; lra|].
  cbn [map]. change (csumC ((f x * g x)%C :: map (fun x => f x * g x)%C l)) with (f x * g x + csumC (map (fun x => f x * g x)%C l))%C.
  eapply Rle_trans; [apply Cmod_triangle|]. rewrite Cmod_mult.
  change (sum_sq (f x :: map f l)) with (Cmod (f x) ^ 2 + sum_sq (map f l))%R. change (sum_sq (g x :: map g l)) with (Cmod (g x) ^ 2 + sum_sq (map g l))%R.
  pose proof (sum_sq_pos (map f l)) as SF. pose proof (sum_sq_pos (map g l)) as SG. pose proof (Cmod_ge_0 (f x)) as a0. pose proof (Cmod_ge_0 (g x)) as b0.
  set (s := sqrt (sum_sq (map f l))) in *. set (r := sqrt (sum_sq (map g l))) in *.
  assert (s0 : (0 <= s)%R) by apply sqrt_pos. assert (r0 : (0 <= r)%R) by apply sqrt_pos.
  rewrite <- (sqrt_def _ SF), <- (sqrt_def _ SG). fold s r. rewrite <- sqrt_mult by (pose proof (pow2_ge_0 (Cmod (f x))); pose proof (pow2_ge_0 (Cmod (g x))); nra).
  set (a := Cmod (f x)) in *. set (b := Cmod (g x)) in *. eapply Rle_trans; [apply Rplus_le_compat_l; exact IH|].
  rewrite <- (sqrt_square (a * b + s * r)) by nra. apply sqrt_le_1_alt.
  replace ((a ^ 2 + s * s) * (b ^ 2 + r * r))%R with ((a * b + s * r) * (a * b + s * r) + (a * r - s * b) ^ 2)%R by ring.
  pose proof (pow2_ge_0 (a * r - s * b)). lra.
Qed.

Definition sup_const (nmax : Z) : R := ((IZR nmax + 1) / sqrt (4 * PI))%R.

Lemma harm_sum_sq N M t p : 0 <= M -> 0 <= N -> (sqrt (sum_sq (map (fun q => sph_harm (fst q) (snd q) t p) (all_modes N M))) <= sup_const N)%R.
Proof.
  intros HM HN. pose proof PI_RGT_0 as HP.
  assert (E : RtoC (sum_sq (map (fun q => sph_harm (fst q) (snd q) t p) (all_modes N M))) =
              RtoC (sumR (- M) (M + 1) (fun m => sumR (Z.abs m) (N + 1) (fun n => Cmod (sph_harm n m t p) ^ 2)%R))).
  { rewrite <- sumC_RtoC. rewrite (sumC_ext _ _ _ (fun m => sumC (Z.abs m) (N + 1) (fun n => RtoC (Cmod (sph_harm n m t p) ^ 2)))) by (intros; now rewrite sumC_RtoC).
    rewrite (sum_modes N M (fun n m => RtoC (Cmod (sph_harm n m t p) ^ 2))) by auto. rewrite csum_RtoC. f_equal.
    induction (all_modes N M) as [|q l IH]; [reflexivity|]. cbn [map]. change (sum_sq (?x :: ?l)) with (Cmod x ^ 2 + sum_sq l)%R. rewrite IH. reflexivity. }
  apply (f_equal fst) in E. cbn [RtoC fst] in E. rewrite E.
  assert (B : (sumR (- M) (M + 1) (fun m => sumR (Z.abs m) (N + 1) (fun n => Cmod (sph_harm n m t p) ^ 2)) <= (IZR N + 1) ^ 2 / (4 * PI))%R).
  { eapply Rle_trans; [apply (modes_sum N M (fun n m => Cmod (sph_harm n m t p) ^ 2)%R HM); intros; apply pow2_ge_0|].
    rewrite <- sum_odd by auto. apply Req_le, sumR_ext. intros n Hn. apply orders_sum. lia. }
  eapply Rle_trans; [apply sqrt_le_1_alt; exact B|]. unfold sup_const.
  assert (0 <= IZR N)%R by (apply IZR_le; lia). rewrite sqrt_div_alt by lra. replace ((IZR N + 1) ^ 2)%R with ((IZR N + 1) * (IZR N + 1))%R by ring. rewrite sqrt_square by lra. lra.
Qed.
Lemma series_bound N M f t p : 0 <= M -> 0 <= N ->
  (Cmod (harm_series N M f t p) <= sup_const N * sqrt (sum_sq (map (fun q => f (fst q) (snd q)) (all_modes N M))))%R.
Proof.
  intros HM HN. unfold harm_series. rewrite (sum_modes N M (fun n m => f n m * sph_harm n m t p)%C) by auto.
  eapply Rle_trans; [apply (cauchy (all_modes N M) (fun q => f (fst q) (snd q)) (fun q => sph_harm (fst q) (snd q) t p))|].
  rewrite Rmult_comm. apply Rmult_le_compat_r; [apply sqrt_pos|]. apply harm_sum_sq; auto.
Qed.

Lemma L2_val c f : valid RN c -> holds c f -> L2_coef_s RN c = sqrt (sum_sq (mode_values c f)).
Proof.
  intros Hv Hh. destruct (C22_L2_coef c f Hv Hh) as (P & E & _). rewrite <- E. symmetry. apply sqrt_lem_1; [apply pow2_ge_0|exact P|]. ring.
Qed.
Lemma mode_size c : valid RN c -> 0 <= sc_mmax RN c <= sc_nmax RN c.
Proof. intros Hv. pose proof (proj1 (valid_wf RN c) Hv) as [[Hg1 Hg2] _]. lia. Qed.

(** ** Theorems *)

(** No value of a synthesised pattern exceeds (nmax+1)/sqrt(4 pi) times the L2
    norm of the coefficients. *)
Theorem C68_pattern_bound : forall be c nrows ncols, either_backend be nrows -> valid RN c ->
  sc_nmax RN c + 2 <= nrows -> 2 * sc_mmax RN c + 2 <= ncols -> ncols mod 2 = 0 ->
  exists p, ispht be c (Some nrows) (Some ncols) = Ok p /\
    forall i j, 0 <= i < nrows -> 0 <= j < ncols ->
      (Cmod (mget RN (p_array RN p) i j) <= (IZR (sc_nmax RN c) + 1) / sqrt (4 * PI) * L2_coef_s RN c)%R.
Proof.
  intros be c nrows ncols Hb Hv H1 H2 H3. pose proof (holds_self c Hv) as Hh. pose proof (mode_size c Hv) as Hs.
  destruct (C24_either_backend be c _ nrows ncols Hb Hv Hh H1 H2 H3) as (p & E & _ & _ & _ & _ & V). exists p. split; [exact E|].
  intros i j Hi Hj. rewrite (V i j Hi Hj), (L2_val c _ Hv Hh). apply series_bound; lia.
Qed.
Print Assumptions C68_pattern_bound.

(** Nearby coefficients give nearby patterns: the distance of the patterns in every
    point is at most (nmax+1)/sqrt(4 pi) times the L2 norm of the difference. *)
Theorem C68_stable : forall be c c' nrows ncols, either_backend be nrows -> valid RN c -> valid RN c' ->
  sc_nmax RN c' = sc_nmax RN c -> sc_mmax RN c' = sc_mmax RN c ->
  sc_nmax RN c + 2 <= nrows -> 2 * sc_mmax RN c + 2 <= ncols -> ncols mod 2 = 0 ->
  exists p p' d, ispht be c (Some nrows) (Some ncols) = Ok p /\ ispht be c' (Some nrows) (Some ncols) = Ok p' /\
    sc_op_left RN OpSub c (OpndSC RN c') = Ok d /\
    forall i j, 0 <= i < nrows -> 0 <= j < ncols ->
      (Cmod (mget RN (p_array RN p) i j - mget RN (p_array RN p') i j)%C <= (IZR (sc_nmax RN c) + 1) / sqrt (4 * PI) * L2_coef_s RN d)%R.
Proof.
  intros be c c' nrows ncols Hb Hv Hv' EN EM H1 H2 H3.
  pose proof (holds_self c Hv) as Hh. pose proof (holds_self c' Hv') as Hh'. pose proof (mode_size c Hv) as Hs.
  set (f := cval RN c) in *. set (g := cval RN c') in *.
  destruct (C24_either_backend be c f nrows ncols Hb Hv Hh H1 H2 H3) as (p & E & _ & _ & _ & _ & V).
  destruct (C24_either_backend be c' g nrows ncols Hb Hv' Hh' ltac:(lia) ltac:(lia) H3) as (p' & E' & _ & _ & _ & _ & V').
  destruct (C08_binary_modewise RN OpSub c c' Hv Hv' (eq_sym EN) (eq_sym EM)) as (d & Ed & Wd & N1 & N2 & R).
  exists p, p', d. split; [exact E|]. split; [exact E'|]. split; [exact Ed|]. intros i j Hi Hj.
  assert (Hd : holds d (fun n m => f n m - g n m)%C).
  { intros n m Hm. rewrite N1, N2 in Hm. apply (R n m (f n m) (g n m)); [apply Hh; auto|apply Hh'; now rewrite EN, EM]. }
  rewrite (V i j Hi Hj), (V' i j Hi Hj), (L2_val d _ Wd Hd). unfold mode_values. rewrite N1, N2, EN, EM.
  eapply Rle_trans; [|apply (series_bound (sc_nmax RN c) (sc_mmax RN c) (fun n m => f n m - g n m)%C (PI * IZR i / IZR (nrows - 1)) (2 * PI * IZR j / IZR ncols)); lia].
  apply Req_le. f_equal. unfold harm_series. rewrite <- sumC_sub. apply sumC_ext. intros m _. rewrite <- sumC_sub. apply sumC_ext. intros n _. ring.
Qed.
Print Assumptions C68_stable.

(** The bound cannot be improved: for every nmax there are coefficients, not all
    zero, for which it is attained (at the north pole, row 0). *)
Lemma pole_value n phi : 0 <= n -> sph_harm n 0 0 phi = RtoC (sqrt ((2 * IZR n + 1) / (4 * PI))).
Proof.
  intros H. unfold sph_harm. cbn [Z.leb Z.compare]. change (Z.to_nat 0) with 0%nat. unfold sph_harm_pos, assoc_legendre_cos. rewrite DL_Derive_n, cos_0, leg_1.
  rewrite Rmult_0_l, cos_0, sin_0, !pow_O. unfold norm_factor. rewrite Nat.sub_0_r, Nat.add_0_r.
  pose proof (INR_fact_lt_0 (Z.to_nat n)). rewrite INR_IZR_INZ, Z2Nat.id by lia.
  replace (INR (fact (Z.to_nat n)) / INR (fact (Z.to_nat n)))%R with 1%R by (field; lra). rewrite !Rmult_1_r.
  apply injective_projections; cbn; ring.
Qed.
Definition peak (N : Z) : scoefs RN := mkSC RN (vmake (N + 1) (fun n => RtoC (sqrt (2 * IZR n + 1)))) N 0.
Lemma peak_valid N : 0 <= N -> valid RN (peak N).
Proof. intros H. apply valid_wf. split; [split; cbn; lia|]. cbn [sc_vec sc_nmax sc_mmax peak]. rewrite ncoef_0. apply zlen_vmake'. lia. Qed.
Lemma peak_holds N : 0 <= N -> holds (peak N) (fun n _ => RtoC (sqrt (2 * IZR n + 1))).
Proof.
  intros H n m Hm. unfold is_mode in Hm. cbn [sc_nmax sc_mmax peak] in Hm. assert (m = 0) by lia. subst m.
  pose proof (reads_cval RN (peak N) n 0 (peak_valid N H)) as R. 
  assert (E : cval RN (peak N) n 0 = RtoC (sqrt (2 * IZR n + 1))).
  { unfold cval, pos. cbn [sc_nmax sc_vec peak]. rewrite cstart_0. replace (0 + n - Z.abs 0) with n by (cbn [Z.abs]; lia). rewrite vget_vmake by lia. reflexivity. }
  rewrite E in R. apply R. unfold is_mode. cbn [sc_nmax sc_mmax peak]. lia.
Qed.
Theorem C68_attained : forall be N nrows ncols, either_backend be nrows -> 0 <= N -> N + 2 <= nrows -> 2 <= ncols -> ncols mod 2 = 0 ->
  exists c p, valid RN c /\ sc_nmax RN c = N /\ (0 < L2_coef_s RN c)%R /\ ispht be c (Some nrows) (Some ncols) = Ok p /\
    forall j, 0 <= j < ncols -> Cmod (mget RN (p_array RN p) 0 j) = ((IZR N + 1) / sqrt (4 * PI) * L2_coef_s RN c)%R.
Proof.
  intros be N nrows ncols Hb HN H1 H2 H3. exists (peak N).
  pose proof (peak_valid N HN) as Hv. pose proof (peak_holds N HN) as Hh.
  destruct (C24_either_backend be (peak N) _ nrows ncols Hb Hv Hh) as (p & E & _ & _ & _ & _ & V); [cbn; lia|cbn; lia|auto|]. exists p.
  split; [exact Hv|]. split; [reflexivity|]. pose proof PI_RGT_0 as HP.
  assert (S : RtoC (sum_sq (mode_values (peak N) (fun n _ => RtoC (sqrt (2 * IZR n + 1))))) = RtoC ((IZR N + 1) ^ 2)).
  { transitivity (csumC (map (fun q => RtoC (2 * IZR (fst q) + 1)) (all_modes N 0))).
    - unfold mode_values. cbn [sc_nmax sc_mmax peak].
      assert (P : forall q, In q (all_modes N 0) -> (0 <= IZR (fst q))%R) by (intros [n m] Hq; apply In_all_modes in Hq; unfold is_mode in Hq; apply IZR_le; cbn [fst]; lia).
      induction (all_modes N 0) as [|q l IH]; [reflexivity|]. cbn [map]. change (sum_sq (?x :: ?l)) with (Cmod x ^ 2 + sum_sq l)%R.
      change (csumC (?x :: ?l)) with (x + csumC l)%C. rewrite RtoC_plus. rewrite IH by (intros; apply P; right; auto). f_equal. f_equal.
      rewrite Cmod_R, pow2_abs. pose proof (P q (or_introl eq_refl)). cbn [pow]. rewrite Rmult_1_r. apply sqrt_sqrt. lra.
    - rewrite <- (sum_modes N 0 (fun n _ => RtoC (2 * IZR n + 1))) by lia. rewrite (sumC_single _ _ 0) by lia.
      change (Z.abs 0) with 0. rewrite sumC_RtoC. f_equal.
      pose proof (sum_odd N HN) as Q. rewrite (sumR_ext _ _ _ (fun n => / (4 * PI) * (2 * IZR n + 1))%R) in Q by (intros; unfold Rdiv; ring).
      rewrite <- sumR_mul in Q. apply (Rmult_eq_reg_l (/ (4 * PI))); [|apply Rinv_neq_0_compat; lra]. rewrite Q. field. lra. }
  apply (f_equal fst) in S. cbn [RtoC fst] in S. pose proof (L2_val _ _ Hv Hh) as L. rewrite S in L.
  assert (N0 : (0 <= IZR N)%R) by (apply IZR_le; lia).
  replace ((IZR N + 1) ^ 2)%R with ((IZR N + 1) * (IZR N + 1))%R in L by ring. rewrite sqrt_square in L by lra.
  split; [rewrite L; lra|]. split; [exact E|]. intros j Hj. rewrite V by lia. rewrite L.
  replace (PI * IZR 0 / IZR (nrows - 1))%R with 0%R by (unfold Rdiv; ring). cbn [sc_nmax sc_mmax peak]. unfold harm_series.
  rewrite (sumC_single _ _ 0) by lia. change (Z.abs 0) with 0.
  rewrite (sumC_ext _ _ _ (fun n => RtoC (sqrt (4 * PI) * ((2 * IZR n + 1) / (4 * PI))))).
  - rewrite sumC_RtoC, <- sumR_mul, sum_odd by auto. rewrite Cmod_R. assert (Q : (0 < sqrt (4 * PI))%R) by (apply sqrt_lt_R0; lra).
    assert (Q2 : (sqrt (4 * PI) * sqrt (4 * PI) = 4 * PI)%R) by (apply sqrt_sqrt; lra). rewrite Rabs_pos_eq.
    + set (s := sqrt (4 * PI)) in *. clearbody s. rewrite <- Q2. field. lra.
    + apply Rmult_le_pos; [lra|]. apply Rmult_le_pos; [apply pow2_ge_0|]. apply Rlt_le, Rinv_0_lt_compat. lra.
  - intros n Hn. rewrite pole_value by lia. rewrite <- RtoC_mult. f_equal. assert (P : (0 <= IZR n)%R) by (apply IZR_le; lia).
    rewrite sqrt_div_alt by lra. assert (Q : (0 < sqrt (4 * PI))%R) by (apply sqrt_lt_R0; lra).
    assert (Q2 : (sqrt (4 * PI) * sqrt (4 * PI) = 4 * PI)%R) by (apply sqrt_sqrt; lra).
    assert (Q3 : (sqrt (2 * IZR n + 1) * sqrt (2 * IZR n + 1) = 2 * IZR n + 1)%R) by (apply sqrt_sqrt; lra).
    set (s := sqrt (4 * PI)) in *. set (r := sqrt (2 * IZR n + 1)) in *. clearbody s r. rewrite <- Q2, <- Q3. field. lra.
Qed.
Print Assumptions C68_attained.

(** ** Non-vacuity *)
Example C68_nonvacuous : either_backend py_backend 5 /\ valid RN (peak 3) /\ sc_nmax RN (peak 3) + 2 <= 5.
Proof. split; [left; reflexivity|]. split; [apply peak_valid; lia|cbn; lia]. Qed.
