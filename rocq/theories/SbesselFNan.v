(** * SbesselFNan: sbessely overflows, then is NaN, in double precision. *)
From Coq Require Import ZArith List Bool SpecFloat Reals Lia Lra Psatz.
From Flocq Require Import Core.Core IEEE754.BinarySingleNaN.
From Flocq Require Import Relative.
From Verif Require Import Py PyFacts Num FloatN FloatText FileFacts2 MPysphi MDouble FlFacts SeedFl SeedFl2 FlSigned MSbesselF SbesselFTerm.
From Verif Require Import CoefsFacts PysphiFacts.
Import ListNotations.
Open Scope Z_scope.
#[local] Existing Instance FloatText.prec53.
#[local] Existing Instance FloatText.pe53.

Notation minf := (S754_infinity true).
Notation nan := S754_nan.

(** a, b = out[n-1], out[n-2]; [g] a bound *)
Inductive pst (g : R) (b a : f64) : Prop :=
| pA : dbl a -> fin a -> dbl b -> fin b -> (V a <= V b)%R -> (V b <= 0)%R -> (V a <= - g)%R -> pst g b a
| pB : fin b -> a = minf -> pst g b a
| pC : b = minf -> a = minf -> pst g b a
| pD : a = nan -> pst g b a.

Lemma pos_div_shape x y : is_rnd x y -> (1 <= y)%R -> x = S754_infinity false \/ (fin x /\ (1 <= V x)%R).
Proof.
  intros [_ [[F E]|[E _]]] H.
  - right. split; [exact F|]. rewrite E. apply rnd_ge; [|exact H]. change 1%R with (bpow radix2 0). apply fmt_bpow. lia.
  - left. rewrite E. f_equal. apply Rlt_bool_false. lra.
Qed.

(** a product of at least 3/2 in size loses at most a relative 1/100 *)
Lemma rnd_neg y g : (1 <= g -> y <= - g -> rnd y <= - (9 / 10 * g))%R.
Proof.
  intros Hg H. replace y with (- (- y))%R by ring. rewrite rnd_opp. pose proof (rnd_lo (- y) ltac:(lra)). lra.
Qed.

Lemma rnd_neg_t y g : (/ 4 <= g -> y <= - g -> rnd y <= - (g * ww))%R.
Proof.
  intros Hg H. replace y with (- (- y))%R by ring. rewrite rnd_opp.
  destruct (rnd_rel (- y)) as [E _].
  - apply Rle_trans with (bpow radix2 (-2)); [apply bpow_le; lia|]. change (bpow radix2 (-2)) with (/ 4)%R. lra.
  - pose proof ww_bounds. assert (g * ww <= - y * ww)%R by (apply Rmult_le_compat_r; lra). lra.
Qed.

Lemma rnd_neg_cases x y g : is_rnd x y -> (/ 4 <= g -> y <= - g -> x = minf \/ (dbl x /\ fin x /\ V x <= - (g * ww)))%R.
Proof.
  intros [Dx [[F E]|[E _]]] Hg H.
  - right. split; [exact Dx|]. split; [exact F|]. rewrite E. now apply rnd_neg_t.
  - left. rewrite E. f_equal. apply Rlt_bool_true. lra.
Qed.
Lemma growth n g : 2 <= n <= 2 ^ 40 -> (/ 2 <= g -> IZR (2 * n - 3) * g <= ((IZR (2 * n - 1) * g * ww) - g) * ww)%R.
Proof.
  intros [H1 H2] Hg. rewrite !minus_IZR, mult_IZR. apply IZR_le in H1, H2. change (IZR (2 ^ 40)) with 1099511627776%R in H2.
  set (r := IZR n) in *. assert (U : (1 - / 4503599627370496 <= ww <= 1)%R) by (unfold ww; rewrite uu_val; lra).
  assert (A : (2 * r - 5 / 4 <= (2 * r - 1) * ww)%R) by nra. assert (B : (2 * r - 3 <= ((2 * r - 1) * ww - 1) * ww)%R) by nra.
  replace (((2 * r - 1) * g * ww - g) * ww)%R with (((2 * r - 1) * ww - 1) * ww * g)%R by ring. apply Rmult_le_compat_r; lra.
Qed.

Section Y.
Variable x : f64.
Hypothesis Px : fpos x.
Hypothesis X1 : (V x <= 1)%R.
Definition qn (n : Z) : f64 := fdiv (fsub (fmul (fofZ 2) (fofZ n)) (fofZ 1)) x.
Lemma Dx : dbl x. Proof. destruct Px as (m & e & -> & H). exact H. Qed.
Lemma Fx : fin x. Proof. destruct Px as (m & e & -> & H). reflexivity. Qed.
Lemma qn_spec n : 2 <= n < 2 ^ 50 -> qn n = S754_infinity false \/ (dbl (qn n) /\ fin (qn n) /\ (IZR (2 * n - 1) <= V (qn n))%R).
Proof.
  intros Hn. unfold qn. rewrite (fmul_int 2 n), (fsub_int (2 * n) 1) by lia.
  destruct (fofZ_small (2 * n - 1) ltac:(lia)) as (D & F & E). pose proof (fpos_gt _ Px) as P.
  pose proof (fdiv_rnd _ _ D Dx F Fx ltac:(lra)) as R. rewrite E in R.
  assert (N1 : (3 <= IZR (2 * n - 1))%R) by (apply IZR_le; lia).
  assert (L : (IZR (2 * n - 1) <= IZR (2 * n - 1) / V x)%R).
  { apply Rmult_le_reg_r with (V x); [exact P|]. unfold Rdiv. rewrite Rmult_assoc, Rinv_l by lra. nra. }
  destruct R as [Dq [[Fq Eq]|[Eq _]]].
  - right. split; [exact Dq|]. split; [exact Fq|]. rewrite Eq. apply rnd_ge; [|exact L]. apply fmt_int. lia.
  - left. rewrite Eq. f_equal. apply Rlt_bool_false. lra.
Qed.

Lemma pst_step n g b a : 2 <= n < 2 ^ 50 -> (n <= 2 ^ 40)%Z -> (/ 2 <= g)%R -> pst g b a ->
  pst (IZR (2 * n - 3) * g) a (fsub (fmul (qn n) a) b).
Proof.
  intros Hn Hn' Hg H. set (q := qn n). assert (N1 : (3 <= IZR (2 * n - 1))%R) by (apply IZR_le; lia).
  assert (N3 : (1 <= IZR (2 * n - 3))%R) by (apply IZR_le; lia).
  pose proof ww_bounds as W.
  assert (QS : q = S754_infinity false \/ (dbl q /\ fin q /\ (IZR (2 * n - 1) <= V q)%R)) by (apply qn_spec; exact Hn).
  destruct H as [Da Fa Db Fb Hab Hb Hg'|Fb Ea|Eb Ea|Ea].
  - assert (PM : fmul q a = minf \/ (dbl (fmul q a) /\ fin (fmul q a) /\ (V (fmul q a) <= IZR (2 * n - 1) * V a * ww)%R)).
    { destruct QS as [-> |(Dq & Fq & Bq)].
      - left. destruct a as [s|s| |s m e]; try discriminate Fa; cbn [SF2R] in Hg'; [lra|]. destruct s; [reflexivity|].
        pose proof (sgn_cases false m e) as G. cbv zeta beta iota in G. lra.
      - pose proof (fmul_rnd _ _ Dq Da Fq Fa) as R. destruct (rnd_neg_cases _ _ (IZR (2 * n - 1) * - V a)%R R) as [->|(D & F & B)]; [nra|nra|now left|].
        right. split; [exact D|]. split; [exact F|]. lra. }
    destruct PM as [->|(Dp & Fp & Bp)].
    + apply pB; [exact Fa|]. destruct b; try discriminate Fb; reflexivity.
    + pose proof (fsub_rnd _ _ Dp Db Fp Fb) as R. pose proof (growth n (- V a) ltac:(lia) ltac:(lra)) as G.
      assert (W2 : (1 - / 4503599627370496 <= ww)%R) by (unfold ww; rewrite uu_val; lra).
      destruct (rnd_neg_cases _ _ (IZR (2 * n - 1) * - V a * ww - - V a)%R R) as [->|(D & F & B)]; [nra|nra|now apply pB|].
      apply pA; auto; nra.
  - rewrite Ea. apply pC; [reflexivity|]. assert (E : fmul q minf = minf).
    { destruct QS as [-> |(Dq & Fq & Bq)]; [reflexivity|]. destruct (fin_pos_shape q Fq ltac:(lra)) as (m & e & ->). reflexivity. }
    rewrite E. destruct b; try discriminate Fb; reflexivity.
  - rewrite Ea, Eb. apply pD. assert (E : fmul q minf = minf).
    { destruct QS as [-> |(Dq & Fq & Bq)]; [reflexivity|]. destruct (fin_pos_shape q Fq ltac:(lra)) as (m & e & ->). reflexivity. }
    rewrite E. reflexivity.
  - rewrite Ea. apply pD. destruct q, b; reflexivity.
Qed.
End Y.

(** ** The loop of sbessely *)
Fixpoint gz (k : nat) : Z := match k with O => 1 | S k => (2 * Z.of_nat k + 1) * gz k end.
Lemma gz_pos k : 1 <= gz k. Proof. induction k; cbn [gz]; nia. Qed.
Definition gk (k : nat) : R := (IZR (gz k) / 2)%R.
Lemma gk_half k : (/ 2 <= gk k)%R.
Proof. unfold gk. pose proof (IZR_le _ _ (gz_pos k)). lra. Qed.
Lemma gk_S k : gk (S k) = (IZR (2 * (Z.of_nat k + 2) - 3) * gk k)%R.
Proof. unfold gk. cbn [gz]. rewrite mult_IZR. replace (2 * (Z.of_nat k + 2) - 3) with (2 * Z.of_nat k + 1) by lia. field. Qed.
Lemma gz_mono k l : (k <= l)%nat -> gz k <= gz l.
Proof. intros H. induction H; [lia|]. cbn [gz]. pose proof (gz_pos m). nia. Qed.
Lemma gk_big : (maxb <= gk 151)%R.
Proof.
  unfold gk. apply Rmult_le_reg_r with 2%R; [lra|]. unfold Rdiv. rewrite Rmult_assoc, Rinv_l, Rmult_1_r by lra.
  change 2%R with (bpow radix2 1). rewrite <- bpow_plus. change (1024 + 1) with 1025. rewrite <- IZR_Zpower by lia.
  apply IZR_le. vm_compute. discriminate.
Qed.
Lemma pst_over g b a : (maxb <= g)%R -> pst g b a -> (fin b /\ a = minf) \/ (b = minf /\ a = minf) \/ a = nan.
Proof.
  intros Hg [Da Fa Db Fb Hab Hb Hg'|Fb Ea|Eb Ea|Ea]; auto. exfalso. pose proof (fin_max _ Da Fa) as M. apply Rabs_lt_inv in M. lra.
Qed.

Definition ovf (a : f64) : Prop := a = minf \/ a = nan.
Definition yinv (N i : Z) (out : list f64) : Prop :=
  zlen out = N /\
  (i <= 153 -> pst (gk (Z.to_nat (i - 2))) (vget (fofZ 0) out (i - 2)) (vget (fofZ 0) out (i - 1))) /\
  (forall k, 152 <= k < i -> ovf (vget (fofZ 0) out k)) /\
  (154 <= i -> (vget (fofZ 0) out (i - 2) = minf /\ vget (fofZ 0) out (i - 1) = minf) \/ vget (fofZ 0) out (i - 1) = nan) /\
  (forall k, 154 <= k < i -> vget (fofZ 0) out k = nan).

Section Loop.
Variable x : f64.
Hypothesis Px : fpos x.
Hypothesis X1 : (V x <= 1)%R.
Lemma yinv_step N i out : 2 <= i < N -> N <= 2 ^ 50 -> yinv N i out ->
  yinv N (i + 1) (vset out i (fsub (fmul (qn x i) (vget (fofZ 0) out (i - 1))) (vget (fofZ 0) out (i - 2)))).
Proof.
  intros Hi HN (L & A & B & C & D). set (a := vget (fofZ 0) out (i - 1)) in *. set (b := vget (fofZ 0) out (i - 2)) in *.
  set (c := fsub (fmul (qn x i) a) b). set (out' := vset out i c). replace (i + 1 - 1) with i by lia. replace (i + 1 - 2) with (i - 1) by lia.
  assert (E : vget (fofZ 0) out' i = c) by (apply vget_vset_eq; lia).
  assert (E1 : vget (fofZ 0) out' (i - 1) = a) by (apply vget_vset_ne; lia).
  assert (E2 : forall k, k < i -> vget (fofZ 0) out' k = vget (fofZ 0) out k) by (intros; apply vget_vset_ne; lia).
  assert (Q : fmul (qn x i) minf = minf).
  { destruct (qn_spec x Px X1 i ltac:(lia)) as [-> |(Dq & Fq & Bq)]; [reflexivity|].
    assert (3 <= IZR (2 * i - 1))%R by (apply IZR_le; lia). destruct (fin_pos_shape _ Fq ltac:(lra)) as (m & e & ->). reflexivity. }
  assert (Cn : a = nan -> c = nan) by (intros En; unfold c; rewrite En; destruct (qn x i), b; reflexivity).
  assert (Cm : a = minf -> b = minf -> c = nan) by (intros Ea Eb; unfold c; rewrite Ea, Eb, Q; reflexivity).
  assert (Cf : a = minf -> fin b -> c = minf) by (intros Ea Fb; unfold c; rewrite Ea, Q; destruct b; try discriminate Fb; reflexivity).
  assert (ST : i <= 153 -> pst (gk (Z.to_nat (i - 1))) a c).
  { intros H. replace (Z.to_nat (i - 1)) with (S (Z.to_nat (i - 2))) by lia. rewrite gk_S. replace (Z.of_nat (Z.to_nat (i - 2)) + 2) with i by lia.
    apply pst_step; auto; try lia. apply gk_half. }
  unfold yinv. replace (i + 1 - 1) with i by lia. replace (i + 1 - 2) with (i - 1) by lia. rewrite E, E1.
  split; [unfold out'; rewrite zlen_vset; exact L|]. split; [intros H; apply ST; lia|].
  split; [|split].
  - intros k Hk. destruct (Z.eq_dec k i) as [->|Nk]; [|rewrite E2 by lia; apply B; lia]. rewrite E.
    destruct (Z.le_gt_cases i 152) as [Hs|Hs].
    + assert (G : (maxb <= gk (Z.to_nat (i - 1)))%R) by (replace (Z.to_nat (i - 1)) with 151%nat by lia; apply gk_big).
      destruct (pst_over _ _ _ G (ST ltac:(lia))) as [[_ H]|[[_ H]|H]]; [left|left|right]; exact H.
    + destruct (Z.le_gt_cases 154 i) as [H4|H4].
      * destruct (C H4) as [[Hb Ha]|Ha]; right; auto.
      * assert (G : (maxb <= gk (Z.to_nat (i - 2)))%R) by (replace (Z.to_nat (i - 2)) with 151%nat by lia; apply gk_big).
        destruct (pst_over _ _ _ G (A ltac:(lia))) as [[Hb Ha]|[[Hb Ha]|Ha]]; [left|right|right]; auto.
  - intros H. destruct (Z.le_gt_cases 154 i) as [H4|H4].
    + right. destruct (C H4) as [[Hb Ha]|Ha]; auto.
    + assert (G : (maxb <= gk (Z.to_nat (i - 2)))%R) by (replace (Z.to_nat (i - 2)) with 151%nat by lia; apply gk_big).
      destruct (pst_over _ _ _ G (A ltac:(lia))) as [[Hb Ha]|[[Hb Ha]|Ha]]; [left|right|right]; auto.
  - intros k Hk. destruct (Z.eq_dec k i) as [->|Nk]; [|rewrite E2 by lia; apply D; lia]. rewrite E.
    destruct (C ltac:(lia)) as [[Hb Ha]|Ha]; auto.
Qed.
End Loop.

(** the first two entries *)
Section First.
Variables (x c s z : f64).
Hypothesis Px : fpos x.
Hypothesis X1 : (V x <= 1)%R.
Hypothesis Dc : dbl c.
Hypothesis Fc : fin c.
Hypothesis Bc : (/ 2 <= V c <= 1)%R.
Hypothesis Ds : dbl s.
Hypothesis Fs : fin s.
Hypothesis Bs : (0 <= V s <= V x)%R.
Hypothesis Dz : dbl z.
Hypothesis Fz : fin z.
Hypothesis Bz : (0 <= V z <= V x)%R.
Hypothesis Zz : is_zero z = true -> z = S754_zero false.
Lemma opp_c : dbl (SFopp c) /\ fin (SFopp c) /\ V (SFopp c) = (- V c)%R.
Proof.
  clear - Dc Fc Bc. destruct (fin_pos_shape c Fc ltac:(lra)) as (m & e & ->). split; [exact Dc|]. split; [reflexivity|]. cbn [SFopp negb SF2R].
  now rewrite !cond_F2R.
Qed.
Lemma first_two : pst (gk 0) (fdiv (SFopp c) x) (fsub (fdiv (SFopp c) z) (fdiv s x)).
Proof.
  destruct opp_c as (Do & Fo & Eo). pose proof (fpos_gt _ Px) as P. pose proof (Dx x Px X1) as Dx'. pose proof (Fx x Px X1) as Fx'.
  pose proof (fdiv_rnd _ _ Do Dx' Fo Fx' ltac:(lra)) as R0. rewrite Eo in R0.
  pose proof (fdiv_rnd _ _ Ds Dx' Fs Fx' ltac:(lra)) as Rs.
  assert (Ss : (0 <= V s / V x <= 1)%R).
  { split; [apply Rmult_le_pos; [lra|left; apply Rinv_0_lt_compat; lra]|]. apply Rmult_le_reg_r with (V x); [lra|]. unfold Rdiv. rewrite Rmult_assoc, Rinv_l by lra. lra. }
  assert (F1 : generic_format radix2 fx 1) by (change 1%R with (bpow radix2 0); apply fmt_bpow; lia).
  assert (Sr : (0 <= rnd (V s / V x) <= 1)%R) by (split; [apply rnd_ge_0; lra|apply rnd_le_g; [exact F1|lra]]).
  destruct (is_rnd_fin _ _ Rs) as [Fsx Esx].
  { rewrite Rabs_pos_eq by lra. apply Rle_lt_trans with 1%R; [lra|]. change 1%R with (bpow radix2 0). apply bpow_lt; lia. }
  pose proof (is_rnd_dbl _ _ Rs) as Dsx. rewrite <- Esx in Sr. set (sx := fdiv s x) in *.
  assert (I0 : (- V c / V x <= - / 2)%R).
  { apply Rmult_le_reg_r with (V x); [lra|]. unfold Rdiv. rewrite Rmult_assoc, Rinv_l by lra. nra. }
  assert (Fh : generic_format radix2 fx (- / 2)) by (apply generic_format_opp; change (/ 2)%R with (bpow radix2 (-1)); apply fmt_bpow; lia).
  change (gk 0) with (1 / 2)%R.
  assert (Y0 : fdiv (SFopp c) x = minf \/ (fin (fdiv (SFopp c) x) /\ V (fdiv (SFopp c) x) = rnd (- V c / V x))).
  { destruct R0 as [_ [H|[H _]]]; [now right|left; rewrite H; f_equal; apply Rlt_bool_true; lra]. }
  (* the second entry is -inf whenever -c/z is *)
  assert (Sub : fsub minf sx = minf) by (destruct sx; try discriminate Fsx; reflexivity).
  assert (Case : fdiv (SFopp c) z = minf -> pst (1 / 2) (fdiv (SFopp c) x) (fsub (fdiv (SFopp c) z) sx)).
  { intros ->. rewrite Sub. destruct Y0 as [->|[F _]]; [now apply pC|now apply pB]. }
  destruct (Req_dec (V z) 0) as [Z0|Z0].
  { apply Case. destruct (fin_0 z Fz Z0) as [sg E]. rewrite E in Zz. specialize (Zz eq_refl). rewrite E, Zz.
    destruct (fin_pos_shape c Fc ltac:(lra)) as (m & e & ->). reflexivity. }
  pose proof (fdiv_rnd _ _ Do Dz Fo Fz Z0) as R1. rewrite Eo in R1.
  assert (I1 : (- V c / V z <= - V c / V x)%R).
  { unfold Rdiv. assert (/ V x <= / V z)%R by (apply Rinv_le; lra). nra. }
  destruct R1 as [Dq [[Fq Eq]|[Eq _]]].
  2: { apply Case. rewrite Eq. f_equal. apply Rlt_bool_true. lra. }
  set (q := fdiv (SFopp c) z) in *. pose proof (fsub_rnd _ _ Dq Dsx Fq Fsx) as R2.
  assert (M1 : (rnd (- V c / V x) <= - / 2)%R) by (apply rnd_le_g; [exact Fh|lra]).
  assert (M2 : (V q <= rnd (- V c / V x))%R) by (rewrite Eq; apply rnd_le; lra).
  destruct R2 as [D2 [[F2 E2]|[E2 _]]].
  - assert (Y0' : fin (fdiv (SFopp c) x) /\ V (fdiv (SFopp c) x) = rnd (- V c / V x)).
    { destruct Y0 as [H|H]; auto. exfalso. destruct R0 as [_ [[H0 _]|[_ H0]]]; [rewrite H in H0; discriminate H0|].
      pose proof (fin_max _ Dq Fq) as M. rewrite Rabs_left in M by lra. rewrite Rabs_left in H0 by lra. lra. }
    destruct Y0' as [F0 E0].
    assert (M3 : (rnd (V q - V sx) <= V (fdiv (SFopp c) x))%R).
    { rewrite E0. apply rnd_le_g; [apply generic_format_round; auto with typeclass_instances|lra]. }
    apply pA; auto; [exact (is_rnd_dbl _ _ R0)|rewrite E2; exact M3|rewrite E0; lra|rewrite E2; lra].
  - rewrite E2. replace (Rlt_bool (V q - V sx) 0) with true by (symmetry; apply Rlt_bool_true; lra).
    destruct Y0 as [->|[F _]]; [now apply pC|now apply pB].
Qed.
End First.

(** ** sbessely *)
Section SY.
Variables (sn cs sq : f64 -> f64) (py : bool) (x : f64).
Hypothesis Px : fpos x.
Hypothesis X1 : (V x <= 1)%R.
Hypothesis Hc : dbl (cs x) /\ fin (cs x) /\ (/ 2 <= V (cs x) <= 1)%R.
Hypothesis Hs : dbl (sn x) /\ fin (sn x) /\ (0 <= V (sn x) <= V x)%R.
Hypothesis Hz : dbl (sq x) /\ fin (sq x) /\ (0 <= V (sq x) <= V x)%R /\ (is_zero (sq x) = true -> sq x = S754_zero false).

Lemma x_nz : is_zero x = false. Proof. clear - Px. destruct Px as (m & e & -> & _). reflexivity. Qed.
Lemma xsq_ok : xsq sq py x = Ok (sq x).
Proof. clear - Hz. destruct Hz as (_ & F & _). unfold xsq. replace (is_inf (sq x)) with false by (destruct (sq x); try discriminate F; reflexivity). cbn [andb]. now rewrite andb_false_r. Qed.
Lemma sbessely_inv N : 2 <= N <= 2 ^ 50 -> exists out, f_sbessely sn cs sq py x N = Ok out /\ yinv N N out.
Proof.
  intros HN. unfold f_sbessely. rewrite np_zeros_ok by lia. cbn [bind]. set (o := vmake N _). assert (Lo : zlen o = N) by (unfold o; rewrite zlen_vmake; lia).
  rewrite py_set_ok by lia. cbn [bind]. rewrite xsq_ok. cbn [bind]. rewrite py_set_ok by (rewrite zlen_vset; lia). cbn [bind].
  set (y0 := fdiv (SFopp (cs x)) x). set (y1 := fsub _ _). set (o' := vset (vset o 0 y0) 1 y1).
  assert (Lo' : zlen o' = N) by (unfold o'; rewrite !zlen_vset; exact Lo).
  apply (mfor_inv (yinv N) 2 N); [lia| |].
  - assert (G0 : vget (fofZ 0) o' 0 = y0) by (unfold o'; rewrite vget_vset_ne by lia; apply vget_vset_eq; lia).
    assert (G1 : vget (fofZ 0) o' 1 = y1) by (unfold o'; apply vget_vset_eq; rewrite zlen_vset; lia).
    split; [exact Lo'|]. split; [intros _; change (2 - 2) with 0; change (2 - 1) with 1; rewrite G0, G1; destruct Hc as (? & ? & ?), Hs as (? & ? & ?), Hz as (? & ? & ? & ?); apply first_two; auto|].
    split; [intros; lia|]. split; [lia|intros; lia].
  - intros i s Hi I. assert (Ls : zlen s = N) by apply I. unfold xdiv. rewrite x_nz, andb_false_r. cbn [bind].
    rewrite !py_get_ok by lia. cbn [bind]. rewrite py_set_ok by lia. eexists. split; [reflexivity|]. apply yinv_step; auto; lia.
Qed.
End SY.
