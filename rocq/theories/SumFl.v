(** * SumFl: error bounds for sums of products in binary64. *)
From Coq Require Import ZArith List Bool SpecFloat Reals Lia Lra Psatz Permutation.
From Flocq Require Import Core.Core IEEE754.BinarySingleNaN.
From Flocq Require Import Plus_error Relative.
From Verif Require Import Py PyFacts Num FloatN FloatText MDouble FlFacts SeedReal SeedFl SeedFl2 DoubleFacts FlSigned SbesselFTerm SbesselFRel TabFl.
Import ListNotations.
Open Scope R_scope.
#[local] Existing Instance FloatText.prec53.

(** [x] is a finite double within e of r, and abs r <= M *)
Definition ap (M e : R) (x : f64) (r : R) : Prop := dbl x /\ fin x /\ Rabs r <= M /\ Rabs (V x - r) <= e.
Notation BIG := (bpow radix2 1020).

Lemma ap_le M e M' e' x r : ap M e x r -> M <= M' -> e <= e' -> ap M' e' x r.
Proof. intros (D & F & A & B) H1 H2. repeat split; auto; lra. Qed.
Lemma ap_pos M e x r : ap M e x r -> 0 <= M /\ 0 <= e.
Proof. intros (_ & _ & A & B). pose proof (Rabs_pos r). pose proof (Rabs_pos (V x - r)). lra. Qed.
Lemma ap_self x : dbl x -> fin x -> ap (Rabs (V x)) 0 x (V x).
Proof. intros D F. repeat split; auto; [lra|]. rewrite Rminus_diag_eq, Rabs_R0 by reflexivity. lra. Qed.
Lemma ap_exact M x : dbl x -> fin x -> Rabs (V x) <= M -> ap M 0 x (V x).
Proof. intros D F H. eapply ap_le; [apply ap_self; auto|auto|lra]. Qed.
Lemma ap_abs M e x r : ap M e x r -> Rabs (V x) <= M + e.
Proof. intros (_ & _ & A & B). replace (V x) with ((V x - r) + r) by ring. eapply Rle_trans; [apply Rabs_triang|]. lra. Qed.
Lemma ap_zero : ap 0 0 fz 0.
Proof. repeat split; change (V fz) with 0; rewrite ?Rminus_0_r, ?Rabs_R0; lra. Qed.

Lemma big_rnd z y : is_rnd z y -> Rabs y <= BIG -> dbl z /\ fin z /\ V z = rnd y.
Proof.
  intros H Hy. split; [exact (proj1 H)|]. apply is_rnd_fin; auto. apply rnd_lt. eapply Rle_trans; [exact Hy|]. apply bpow_le. lia.
Qed.

Lemma rnd_add_err x y : dbl x -> fin x -> dbl y -> fin y -> Rabs (rnd (V x + V y) - (V x + V y)) <= uu * Rabs (V x + V y).
Proof.
  intros Dx Fx Dy Fy.
  destruct (FLT_plus_error_N_ex radix2 (-1074) 53 (fun z => negb (Z.even z)) (V x) (V y)) as (eps & He & E); try (apply fin_fmt; auto).
  change (FLT_exp (-1074) 53) with fx in E. fold ZnearestE in E. rewrite E. replace ((V x + V y) * (1 + eps) - (V x + V y)) with (eps * (V x + V y)) by ring.
  rewrite Rabs_mult. apply Rmult_le_compat_r; [apply Rabs_pos|]. eapply Rle_trans; [exact He|].
  assert (U : u_ro radix2 53 = uu). { unfold u_ro, uu. change (Z.opp 53 + 1)%Z with (-52)%Z. cbn [bpow]. cbn. lra. }
  rewrite U. pose proof uu_small as [U0 U1]. apply Rmult_le_reg_r with (1 + uu); [lra|]. unfold Rdiv. rewrite Rmult_assoc, Rinv_l by lra.
  assert (0 <= uu * uu) by (apply Rmult_le_pos; lra). lra.
Qed.
Lemma rnd_sub_err x y : dbl x -> fin x -> dbl y -> fin y -> Rabs (rnd (V x - V y) - (V x - V y)) <= uu * Rabs (V x - V y).
Proof.
  intros Dx Fx Dy Fy. assert (V (SFopp y) = - V y) as E.
  { destruct y as [b|b| |b m e]; try discriminate Fy; cbn [SFopp SF2R]; [lra|]. destruct b; cbn [negb cond_Zopp]; rewrite <- F2R_Zopp; [rewrite Z.opp_involutive|]; reflexivity. }
  unfold Rminus. rewrite <- E. apply rnd_add_err; auto; [unfold dbl in *; destruct y; auto|unfold fin in *; destruct y; auto].
Qed.

Lemma ap_fadd M1 e1 M2 e2 x r y s : ap M1 e1 x r -> ap M2 e2 y s -> M1 + M2 + e1 + e2 <= BIG ->
  ap (M1 + M2) (e1 + e2 + uu * (M1 + M2 + e1 + e2)) (fadd x y) (r + s).
Proof.
  intros Hx Hy HB. pose proof (ap_abs _ _ _ _ Hx) as Ax. pose proof (ap_abs _ _ _ _ Hy) as Ay. destruct Hx as (Dx & Fx & A1 & B1). destruct Hy as (Dy & Fy & A2 & B2).
  assert (Q : Rabs (V x + V y) <= M1 + M2 + e1 + e2) by (eapply Rle_trans; [apply Rabs_triang|lra]).
  destruct (big_rnd _ _ (fadd_rnd x y Dx Dy Fx Fy)) as (D & F & E); [lra|].
  split; [exact D|]. split; [exact F|]. split; [eapply Rle_trans; [apply Rabs_triang|lra]|]. rewrite E.
  replace (rnd (V x + V y) - (r + s)) with ((rnd (V x + V y) - (V x + V y)) + ((V x - r) + (V y - s))) by ring.
  eapply Rle_trans; [apply Rabs_triang|]. pose proof (rnd_add_err x y Dx Fx Dy Fy) as R. pose proof (Rabs_triang (V x - r) (V y - s)).
  assert (uu * Rabs (V x + V y) <= uu * (M1 + M2 + e1 + e2)) by (apply Rmult_le_compat_l; [pose proof uu_small; lra|auto]). lra.
Qed.
Lemma ap_fsub M1 e1 M2 e2 x r y s : ap M1 e1 x r -> ap M2 e2 y s -> M1 + M2 + e1 + e2 <= BIG ->
  ap (M1 + M2) (e1 + e2 + uu * (M1 + M2 + e1 + e2)) (fsub x y) (r - s).
Proof.
  intros Hx Hy HB. pose proof (ap_abs _ _ _ _ Hx) as Ax. pose proof (ap_abs _ _ _ _ Hy) as Ay. destruct Hx as (Dx & Fx & A1 & B1). destruct Hy as (Dy & Fy & A2 & B2).
  assert (T : forall a b, Rabs (a - b) <= Rabs a + Rabs b) by (intros; unfold Rminus; rewrite <- (Rabs_Ropp b); apply Rabs_triang).
  assert (Q : Rabs (V x - V y) <= M1 + M2 + e1 + e2) by (eapply Rle_trans; [apply T|lra]).
  destruct (big_rnd _ _ (fsub_rnd x y Dx Dy Fx Fy)) as (D & F & E); [lra|].
  split; [exact D|]. split; [exact F|]. split; [eapply Rle_trans; [apply T|lra]|]. rewrite E.
  replace (rnd (V x - V y) - (r - s)) with ((rnd (V x - V y) - (V x - V y)) + ((V x - r) - (V y - s))) by ring.
  eapply Rle_trans; [apply Rabs_triang|]. pose proof (rnd_sub_err x y Dx Fx Dy Fy) as R. pose proof (T (V x - r) (V y - s)).
  assert (uu * Rabs (V x - V y) <= uu * (M1 + M2 + e1 + e2)) by (apply Rmult_le_compat_l; [pose proof uu_small; lra|auto]). lra.
Qed.
Lemma ap_fmul M1 e1 M2 e2 x r y s : ap M1 e1 x r -> ap M2 e2 y s -> (M1 + e1) * (M2 + e2) <= BIG ->
  ap (M1 * M2) (M1 * e2 + e1 * (M2 + e2) + uu * ((M1 + e1) * (M2 + e2)) + dmin / 2) (fmul x y) (r * s).
Proof.
  intros Hx Hy HB. pose proof (ap_abs _ _ _ _ Hx) as Ax. pose proof (ap_abs _ _ _ _ Hy) as Ay. destruct Hx as (Dx & Fx & A1 & B1). destruct Hy as (Dy & Fy & A2 & B2).
  assert (Q : Rabs (V x * V y) <= (M1 + e1) * (M2 + e2)) by (apply prod_bound; auto).
  destruct (big_rnd _ _ (fmul_rnd x y Dx Dy Fx Fy)) as (D & F & E); [lra|].
  split; [exact D|]. split; [exact F|]. split; [apply prod_bound; auto|]. rewrite E.
  replace (rnd (V x * V y) - r * s) with ((rnd (V x * V y) - V x * V y) + ((V x - r) * V y + r * (V y - s))) by ring.
  eapply Rle_trans; [apply Rabs_triang|]. pose proof (rnd_ok (V x * V y)) as R. pose proof (Rabs_triang ((V x - r) * V y) (r * (V y - s))).
  pose proof (prod_bound _ _ _ _ B1 Ay). pose proof (prod_bound _ _ _ _ A1 B2).
  assert (uu * Rabs (V x * V y) <= uu * ((M1 + e1) * (M2 + e2))) by (apply Rmult_le_compat_l; [pose proof uu_small; lra|auto]). lra.
Qed.
(** products with zero, sums with zero and products with one are exact *)
Lemma ap_fmul_0 x z : dbl x -> fin x -> ap 0 0 z 0 -> ap 0 0 (fmul x z) 0.
Proof.
  intros Dx Fx (Dz & Fz & _ & B). assert (E0 : V z = 0) by (rewrite Rminus_0_r in B; pose proof (Rabs_pos (V z)); destruct (Req_dec (V z) 0); auto; pose proof (Rabs_pos_lt (V z)); lra).
  pose proof (fmul_rnd x z Dx Dz Fx Fz) as R. rewrite E0, Rmult_0_r in R. destruct (big_rnd _ _ R) as (D & F & E); [rewrite Rabs_R0; apply bpow_ge_0|].
  rewrite rnd_0 in E. repeat split; auto; rewrite ?E, ?Rminus_0_r, ?Rabs_R0; lra.
Qed.
Lemma V_ap0 z : ap 0 0 z 0 -> V z = 0.
Proof. intros (_ & _ & _ & B). rewrite Rminus_0_r in B. pose proof (Rabs_pos (V z)). destruct (Req_dec (V z) 0); auto. pose proof (Rabs_pos_lt (V z)). lra. Qed.
Lemma ap_same M e x r z : ap M e x r -> is_rnd z (V x) -> M + e <= BIG -> ap M e z r.
Proof.
  intros H R HB. pose proof (ap_abs _ _ _ _ H) as A. destruct H as (D & F & H1 & H2). destruct (big_rnd _ _ R) as (Dz & Fz & E); [lra|].
  rewrite rnd_fmt in E by (apply fin_fmt; auto). repeat split; auto. rewrite E. exact H2.
Qed.
Lemma ap_fadd_0r M e x r z : ap M e x r -> ap 0 0 z 0 -> M + e <= BIG -> ap M e (fadd x z) r.
Proof.
  intros H Hz HB. apply (ap_same M e x r); auto. destruct H as (D & F & _). pose proof (V_ap0 z Hz) as E. destruct Hz as (Dz & Fz & _).
  rewrite <- (Rplus_0_r (V x)), <- E. apply fadd_rnd; auto.
Qed.
Lemma ap_fadd_0l M e x r z : ap M e x r -> ap 0 0 z 0 -> M + e <= BIG -> ap M e (fadd z x) r.
Proof.
  intros H Hz HB. apply (ap_same M e x r); auto. destruct H as (D & F & _). pose proof (V_ap0 z Hz) as E. destruct Hz as (Dz & Fz & _).
  rewrite <- (Rplus_0_l (V x)), <- E. apply fadd_rnd; auto.
Qed.
Lemma ap_fsub_0r M e x r z : ap M e x r -> ap 0 0 z 0 -> M + e <= BIG -> ap M e (fsub x z) r.
Proof.
  intros H Hz HB. apply (ap_same M e x r); auto. destruct H as (D & F & _). pose proof (V_ap0 z Hz) as E. destruct Hz as (Dz & Fz & _).
  rewrite <- (Rminus_0_r (V x)), <- E. apply fsub_rnd; auto.
Qed.
Lemma ap_sign M e x r s : ap M e x r -> M + e <= BIG -> dbl s -> fin s -> V s = 1 \/ V s = -1 -> ap M e (fmul s x) (V s * r).
Proof.
  intros H HB Ds Fs E. pose proof (ap_abs _ _ _ _ H) as A. destruct H as (D & F & H1 & H2).
  assert (Q : Rabs (V s) = 1) by (destruct E as [-> | ->]; [apply Rabs_R1|rewrite Rabs_left; lra]).
  destruct (big_rnd _ _ (fmul_rnd s x Ds D Fs F)) as (Dz & Fz & Ez); [rewrite Rabs_mult, Q; lra|].
  assert (G : generic_format radix2 fx (V s * V x)).
  { destruct E as [-> | ->]; [rewrite Rmult_1_l|replace (-1 * V x) with (- V x) by ring; apply generic_format_opp]; apply fin_fmt; auto. }
  rewrite rnd_fmt in Ez by exact G. repeat split; auto; [rewrite Rabs_mult, Q; lra|]. rewrite Ez.
  replace (V s * V x - V s * r) with (V s * (V x - r)) by ring. rewrite Rabs_mult, Q. lra.
Qed.

(** ** Sums in any order *)
Inductive rsums : list f64 -> f64 -> Prop :=
| rs_nil z : V z = 0 -> dbl z -> fin z -> rsums [] z
| rs_one x : rsums [x] x
| rs_add l1 l2 l x y : rsums l1 x -> rsums l2 y -> Permutation (l1 ++ l2) l -> rsums l (fadd x y).

Lemma sums_fst l x : sums l x -> rsums (map fst l) (fst x).
Proof.
  induction 1 as [|x|l1 l2 l x y H1 IH1 H2 IH2 P]; [apply rs_nil; reflexivity|apply rs_one|]. cbn [cfadd fst].
  apply (rs_add (map fst l1) (map fst l2)); auto. rewrite <- map_app. apply Permutation_map, P.
Qed.
Lemma sums_snd l x : sums l x -> rsums (map snd l) (snd x).
Proof.
  induction 1 as [|x|l1 l2 l x y H1 IH1 H2 IH2 P]; [apply rs_nil; reflexivity|apply rs_one|]. cbn [cfadd snd].
  apply (rs_add (map snd l1) (map snd l2)); auto. rewrite <- map_app. apply Permutation_map, P.
Qed.

Fixpoint rsumR (l : list R) : R := match l with [] => 0 | x :: l => x + rsumR l end.
Lemma rsumR_app l k : rsumR (l ++ k) = rsumR l + rsumR k.
Proof. induction l as [|x l IH]; cbn [app rsumR]; [ring|rewrite IH; ring]. Qed.
Lemma rsumR_perm l k : Permutation l k -> rsumR l = rsumR k.
Proof. induction 1; cbn [rsumR]; try lra. Qed.

Definition se (T t : R) (N : nat) : R := INR N * t + 2 * uu * (INR N * INR N) * (T + t).
Lemma se_step T t (a b : nat) : 0 <= T -> 0 <= t -> (1 <= a)%nat -> (1 <= b)%nat -> INR (a + b) <= 10 ^ 9 ->
  se T t a + se T t b + uu * (INR a * T + INR b * T + se T t a + se T t b) <= se T t (a + b).
Proof.
  intros HT Ht Ha Hb HN. pose proof uu_small as [U0 U1]. unfold se. rewrite plus_INR in *.
  apply le_INR in Ha, Hb. change (INR 1) with 1 in *. set (x := INR a) in *. set (y := INR b) in *. clearbody x y. set (u := uu) in *. clearbody u.
  assert (P : x + y <= 2 * (x * y)) by nra. assert (S : u * (x * x + y * y) <= (x + y) / 2).
  { assert (x * x + y * y <= (x + y) * (x + y)) by nra. assert (u * (x + y) <= / 2) by (apply Rle_trans with (/ 10 ^ 15 * (10 ^ 9)); [apply Rmult_le_compat; lra|lra]).
    apply Rle_trans with (u * ((x + y) * (x + y))); [apply Rmult_le_compat_l; lra|]. replace (u * ((x + y) * (x + y))) with (u * (x + y) * (x + y)) by ring.
    replace ((x + y) / 2) with (/ 2 * (x + y)) by field. apply Rmult_le_compat_r; lra. }
  apply Rle_trans with ((x + y) * t + 2 * u * (x * x + y * y) * (T + t) + u * ((x + y) * (T + t)) + 2 * u * (u * (x * x + y * y)) * (T + t)); [right; ring|].
  assert (Q : 0 <= u * (T + t)) by (apply Rmult_le_pos; lra).
  assert (u * (T + t) * (u * (x * x + y * y)) <= u * (T + t) * ((x + y) / 2)) by (apply Rmult_le_compat_l; lra).
  assert (u * (T + t) * (x + y) <= u * (T + t) * (2 * (x * y))) by (apply Rmult_le_compat_l; lra). nra.
Qed.
Lemma se_pos T t N : 0 <= T -> 0 <= t -> 0 <= se T t N.
Proof.
  intros. pose proof (pos_INR N). pose proof uu_small. unfold se. assert (0 <= INR N * t) by (apply Rmult_le_pos; lra).
  assert (0 <= INR N * INR N) by (apply Rmult_le_pos; lra). assert (0 <= 2 * uu * (INR N * INR N)) by (apply Rmult_le_pos; lra).
  assert (0 <= 2 * uu * (INR N * INR N) * (T + t)) by (apply Rmult_le_pos; lra). lra.
Qed.
Lemma se_mono T t a b : 0 <= T -> 0 <= t -> (a <= b)%nat -> se T t a <= se T t b.
Proof.
  intros HT Ht H. apply le_INR in H. pose proof (pos_INR a). pose proof uu_small. unfold se. apply Rplus_le_compat; [apply Rmult_le_compat_r; auto|].
  apply Rmult_le_compat_r; [lra|]. apply Rmult_le_compat_l; [lra|]. apply Rmult_le_compat; lra.
Qed.

Lemma rsums_ap T t (p : list (f64 * R)) s : rsums (map fst p) s -> 0 <= T -> 0 <= t -> (forall q, In q p -> ap T t (fst q) (snd q)) ->
  INR (length p) <= 10 ^ 9 -> INR (length p) * T + 2 * se T t (length p) <= BIG / 2 ->
  ap (INR (length p) * T) (se T t (length p)) s (rsumR (map snd p)).
Proof.
  intros H. remember (map fst p) as l eqn:El. revert p El. induction H as [z Ez Dz Fz|x|l1 l2 l x y H1 IH1 H2 IH2 P]; intros p El HT Ht Hp HN HB.
  - destruct p; [|discriminate]. cbn [length map rsumR]. repeat split; auto; unfold se; change (INR 0) with 0; rewrite ?Ez, ?Rminus_0_r, ?Rabs_R0; lra.
  - destruct p as [|[x' r] [|? ?]]; try discriminate. injection El as ->. cbn [length map rsumR snd]. rewrite Rplus_0_r. change (INR 1) with 1.
    eapply ap_le; [apply (Hp (x', r)); left; reflexivity|lra|]. unfold se. change (INR 1) with 1. pose proof uu_small. assert (0 <= uu * (T + t)) by (apply Rmult_le_pos; lra). lra.
  - subst l. destruct (Permutation_map_inv _ _ P) as (p3 & E3 & P3). apply Permutation_sym in P3. symmetry in E3. apply map_eq_app in E3. destruct E3 as (p1 & p2 & -> & E1 & E2).
    assert (Ll : length p = (length p1 + length p2)%nat) by (rewrite <- (Permutation_length P3); apply app_length).
    assert (Es : rsumR (map snd p) = rsumR (map snd p1) + rsumR (map snd p2)) by (rewrite <- (rsumR_perm _ _ (Permutation_map snd P3)), map_app; apply rsumR_app).
    assert (I1 : forall q, In q p1 -> ap T t (fst q) (snd q)) by (intros q Hq; apply Hp, (Permutation_in q P3), in_or_app; auto).
    assert (I2 : forall q, In q p2 -> ap T t (fst q) (snd q)) by (intros q Hq; apply Hp, (Permutation_in q P3), in_or_app; auto).
    pose proof (se_mono T t (length p1) (length p) HT Ht ltac:(lia)) as M1. pose proof (se_mono T t (length p2) (length p) HT Ht ltac:(lia)) as M2.
    assert (N1 : INR (length p1) <= INR (length p)) by (apply le_INR; lia). assert (N2 : INR (length p2) <= INR (length p)) by (apply le_INR; lia).
    assert (NT1 : INR (length p1) * T <= INR (length p) * T) by (apply Rmult_le_compat_r; auto).
    assert (NT2 : INR (length p2) * T <= INR (length p) * T) by (apply Rmult_le_compat_r; auto).
    specialize (IH1 p1 (eq_sym E1) HT Ht I1 ltac:(lra) ltac:(lra)). specialize (IH2 p2 (eq_sym E2) HT Ht I2 ltac:(lra) ltac:(lra)).
    pose proof (bpow_gt_0 radix2 1020) as PB. pose proof (se_pos T t (length p) HT Ht) as SP.
    rewrite Es. rewrite Ll in *. clear Ll. destruct p1 as [|q1 p1].
    { cbn [length Nat.add map rsumR] in *. unfold se in IH1 at 1. change (INR 0) with 0 in IH1. rewrite Rplus_0_l. replace (0 * t + 2 * uu * (0 * 0) * (T + t)) with 0 in IH1 by ring.
      rewrite Rmult_0_l in IH1. apply ap_fadd_0l; auto. lra. }
    destruct p2 as [|q2 p2].
    { cbn [length map rsumR] in *. rewrite Nat.add_0_r in *. unfold se in IH2 at 1. change (INR 0) with 0 in IH2. rewrite Rplus_0_r. replace (0 * t + 2 * uu * (0 * 0) * (T + t)) with 0 in IH2 by ring.
      rewrite Rmult_0_l in IH2. apply ap_fadd_0r; auto. lra. }
    set (a := length (q1 :: p1)) in *. set (b := length (q2 :: p2)) in *. assert (1 <= a)%nat by (unfold a; cbn [length]; lia). assert (1 <= b)%nat by (unfold b; cbn [length]; lia).
    assert (St := se_step T t a b HT Ht ltac:(auto) ltac:(auto) HN).
    eapply ap_le; [apply (ap_fadd _ _ _ _ _ _ _ _ IH1 IH2)| |exact St].
    + lra.
    + right. rewrite plus_INR. ring.
Qed.
