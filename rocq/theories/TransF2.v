(** * TransF2: spht with the C backend in double precision. *)
From Coq Require Import ZArith List Bool SpecFloat Reals Lia Lra Psatz.
From Coquelicot Require Import Coquelicot.
From Flocq Require Import Core.Core IEEE754.BinarySingleNaN.
From Verif Require Import Exact Py PyFacts Num FloatN FloatText MCoefs SpecCoefs CoefsFacts Sums Harm Smooth Dft MOps MPysphi PysphiFacts MTrans TransFacts TransFacts2 SpecHarm MKiss KissFacts KissFacts2 MCsphi CsphiFacts
  MDouble FlFacts SeedReal SeedFl SeedFl2 DoubleFacts P_Double FlSigned SbesselFTerm TabPert Unsold TabFl P_Table SumFl SumFl2 SumFl3 SumFl4 P_Sums
  MKissF KissFl KissFl2 KissFl5 P_KissF MCsphiF HkmF P_CsphiF MTransF TransF.
Import ListNotations.
Open Scope list_scope.
Open Scope Z_scope.

(** ** Index bookkeeping *)
Lemma fmake_ext nr nc f g : 0 <= nr -> 0 <= nc -> (forall p q, 0 <= p < nr -> 0 <= q < nc -> f p q = g p q) -> fmake nr nc f = fmake nr nc g.
Proof.
  intros Hr Hc H. unfold fmake. apply vmake_ext. intros j Hj. assert (0 < nc) by nia. apply H; [|apply Z.mod_pos_bound; lia].
  split; [apply Z.div_pos; lia|apply Z.div_lt_upper_bound; lia].
Qed.
Lemma fget_fmake nr nc f p q : 0 <= p < nr -> 0 <= q < nc -> fget nc (fmake nr nc f) p q = f p q.
Proof.
  intros Hp Hq. unfold fget, fmake. rewrite vget_vmake by nia. rewrite Z.div_add_l, Z.div_small, Z.add_0_r by lia. f_equal. rewrite Z.add_comm, Z.mod_add, Z.mod_small by lia. reflexivity.
Qed.
Lemma f_row_zero_eq nr nc a i : 0 <= i < nr -> f_row_zero nr nc a i = Ok (fmake nr nc (fun p q => if p =? i then cf0 else fget nc a p q)).
Proof. intros Hi. unfold f_row_zero. rewrite py_index_mod by lia. cbn [bind]. now rewrite Z.mod_small by lia. Qed.
Lemma f_fix_even_eq L nc a : 1 <= L -> f_fix_even (2 * L) nc a = Ok (fmake (2 * L) nc (fun p q => if p =? L then cf0 else fget nc a p q)).
Proof.
  intros HL. unfold f_fix_even. replace ((2 * L) mod 2) with 0 by lia. cbn [Z.eqb]. replace (2 * L / 2) with L by lia. apply f_row_zero_eq. lia.
Qed.
Lemma f_pad_rows_eq R nc f : 2 <= R -> 0 <= nc ->
  f_pad_rows (2 * R - 2) (2 * R) nc (fmake (2 * R - 2) nc f) =
  Ok (fmake (2 * R) nc (fun p q => if p <? R - 1 then f p q else if R + 1 <? p then f (p - 2) q else cf0)).
Proof.
  intros HR Hc. unfold f_pad_rows.
  destruct (Z.ltb_spec (2 * R) (2 * R - 2)); [lia|].
  replace ((2 * R - 2) / 2) with (R - 1) by lia.
  assert (N : forall Le, R - 1 <= Le -> neg_slice Le (R - 1) = zrange_down (Le - 1) (Le - (R - 1))).
  { intros Le HLe. unfold neg_slice. destruct (Z.ltb_spec (Le - 1) 0); [lia|].
    destruct (Z.ltb_spec (- (R - 1)) 0); [|lia]. f_equal. lia. }
  rewrite !N by lia.
  replace (zlen (zrange_down (2 * R - 1) (2 * R - (R - 1))) =? zlen (zrange_down (2 * R - 2 - 1) (2 * R - 2 - (R - 1)))) with true.
  2:{ symmetry. apply Z.eqb_eq. unfold zlen, zrange_down. rewrite !map_length, !seq_length. lia. }
  cbn [negb]. f_equal.
  replace (2 * R - 2 - 1) with (2 * R - 1 - 2) by lia. replace (2 * R - 2 - (R - 1)) with (2 * R - (R - 1) - 2) by lia.
  rewrite combine_down, fold_left_map. cbn [fst snd].
  pose (I := fun (i : Z) (e : list cf) => e = fmake (2 * R) nc (fun p q =>
     if p <? R - 1 then f p q else if i <? p then f (p - 2) q else cf0)).
  change (fold_left _ _ _) with (pfor (zrange_down (2 * R - 1) (2 * R - (R - 1)))
    (fun x e => fmake (2 * R) nc (fun p q => if p =? x then fget nc (fmake (2 * R - 2) nc f) (x - 2) q else fget nc e p q))
    (fmake (2 * R) nc (fun p q => if p <? R - 1 then fget nc (fmake (2 * R - 2) nc f) p q else cf0))).
  assert (HI : I (2 * R - (R - 1)) (pfor (zrange_down (2 * R - 1) (2 * R - (R - 1)))
    (fun x e => fmake (2 * R) nc (fun p q => if p =? x then fget nc (fmake (2 * R - 2) nc f) (x - 2) q else fget nc e p q))
    (fmake (2 * R) nc (fun p q => if p <? R - 1 then fget nc (fmake (2 * R - 2) nc f) p q else cf0)))).
  { apply (pfor_down_inv I); [lia| |].
    - unfold I. apply fmake_ext; try lia. intros p q Hp Hq.
      destruct (Z.ltb_spec p (R - 1)); [apply fget_fmake; lia|]. destruct (Z.ltb_spec (2 * R - 1) p); [lia|auto].
    - intros i e Hi ->. unfold I. apply fmake_ext; try lia. intros p q Hp Hq.
      rewrite fget_fmake by lia. rewrite (fget_fmake (2 * R)) by lia.
      destruct (Z.eqb_spec p i), (Z.ltb_spec p (R - 1)), (Z.ltb_spec i p), (Z.ltb_spec (i - 1) p); subst; try lia; auto. }
  rewrite HI. apply fmake_ext; try lia. intros p q Hp Hq. now replace (2 * R - (R - 1)) with (R + 1) by lia.
Qed.
(** the rows [e] of the padded array: zero around the middle row *)
Lemma f_sin_fc_eq R nc f : 2 <= R -> 0 <= nc -> (forall q, f (R - 1) q = cf0) -> (forall q, f (R + 1) q = cf0) ->
  f_sin_fc (2 * R) nc (fmake (2 * R) nc f) =
  Ok (fmake (2 * R) nc (fun p q => cfmul f_inv2i (cfsubk (f (if p =? 0 then 2 * R - 1 else p - 1) q) (f (if p =? 2 * R - 1 then 0 else p + 1) q)))).
Proof.
  intros HR Hc Z1 Z2. unfold f_sin_fc. replace (2 * R / 2) with R by lia.
  rewrite f_row_zero_eq by lia. cbn [bind]. rewrite f_row_zero_eq by lia. cbn [bind]. f_equal. apply fmake_ext; try lia. intros p q Hp Hq.
  assert (G : forall p, 0 <= p < 2 * R -> fget nc (fmake (2 * R) nc (fun p q => if p =? R + 1 then cf0 else fget nc (fmake (2 * R) nc (fun p q => if p =? R - 1 then cf0 else fget nc (fmake (2 * R) nc f) p q)) p q)) p q = f p q).
  { intros u Hu. rewrite !fget_fmake by lia. destruct (Z.eqb_spec u (R + 1)) as [->|]; [symmetry; apply Z2|]. destruct (Z.eqb_spec u (R - 1)) as [->|]; [symmetry; apply Z1|reflexivity]. }
  f_equal. f_equal; [destruct (Z.eqb_spec p 0)|destruct (Z.eqb_spec p (2 * R - 1))]; apply G; lia.
Qed.

(** ** One entry *)
Open Scope R_scope.
Lemma mul_zero x z : dbl x -> fin x -> ap 0 0 z 0 -> ap 0 0 (fmul x z) 0.
Proof.
  intros D F Hz. pose proof (V_ap0 z Hz) as E. destruct Hz as (Dz & Fz & _).
  pose proof (fmul_rnd x z D Dz F Fz) as R. rewrite E, Rmult_0_r in R.
  destruct (big_rnd _ _ R) as (D1 & F1 & E1); [rewrite Rabs_R0; apply bpow_ge_0|]. rewrite round_0 in E1 by auto with typeclass_instances.
  split; [exact D1|]. split; [exact F1|]. rewrite E1, Rminus_0_r, Rabs_R0. lra.
Qed.
Lemma ap_value M x r : ap M 0 x r -> V x = r.
Proof. intros (_ & _ & _ & E). assert (H : Rabs (V x - r) = 0) by (apply Rle_antisym; [exact E|apply Rabs_pos]). apply Rabs_eq_0 in H. lra. Qed.

(** NumPy's division by a positive integer *)
Lemma npdiv_ok x k a : finc x -> Cmod (VC x) <= a -> a <= bpow radix2 1000 -> (1 <= k < 2 ^ 53)%Z ->
  near (6 * uu * (a / IZR k) + dmin) (npdiv x (fofZ k)) (VC x * RtoC (/ IZR k))%C.
Proof.
  intros ((D1 & F1) & (D2 & F2)) Ha HB Hk. assert (K1 : 1 <= IZR k) by (apply IZR_le; lia).
  destruct (fofZ_small k ltac:(lia)) as (Dk & Fk & Ek). destruct (fofZ_small 0 ltac:(lia)) as (D0 & F0 & E0). destruct (fofZ_small 1 ltac:(lia)) as (Do & Fo & Eo).
  pose proof uu_small as [U0 U1]. pose proof dmin_pos as Dm. pose proof dmin_small as Ds.
  assert (K2 : IZR k <= bpow radix2 53). { change (bpow radix2 53) with (IZR (2 ^ 53)). apply IZR_le. lia. }
  assert (B53 : bpow radix2 53 <= BIG) by (apply bpow_le; lia). assert (B1000 : bpow radix2 1000 <= BIG) by (apply bpow_le; lia).
  assert (Z0 : ap 0 0 (fofZ 0) 0) by (split; [exact D0|]; split; [exact F0|]; rewrite E0, Rminus_0_r, Rabs_R0; lra).
  unfold npdiv. set (rat := fdiv (fofZ 0) (fofZ k)).
  assert (Zr : ap 0 0 rat 0).
  { pose proof (fdiv_rnd (fofZ 0) (fofZ k) D0 Dk F0 Fk) as R. rewrite E0, Ek in R. specialize (R ltac:(lra)). unfold Rdiv in R. rewrite Rmult_0_l in R.
    destruct (big_rnd _ _ R) as (Dr & Fr & Er); [rewrite Rabs_R0; apply bpow_ge_0|]. rewrite round_0 in Er by auto with typeclass_instances.
    change (fdiv (fofZ 0) (fofZ k)) with rat in Dr, Fr, Er. split; [exact Dr|]. split; [exact Fr|]. rewrite Er, Rminus_0_r, Rabs_R0. lra. }
  assert (PL : forall y w, dbl y -> fin y -> Rabs (V y) <= BIG -> dbl w -> fin w -> (dbl (fadd y (fmul w rat)) /\ fin (fadd y (fmul w rat)) /\ V (fadd y (fmul w rat)) = V y) /\ (dbl (fsub y (fmul w rat)) /\ fin (fsub y (fmul w rat)) /\ V (fsub y (fmul w rat)) = V y)).
  { intros y w Dy Fy By Dw Fw. pose proof (mul_zero w rat Dw Fw Zr) as M.
    pose proof (ap_fadd_0r _ _ _ _ _ (ap_self y Dy Fy) M ltac:(lra)) as P1. pose proof (ap_fsub_0r _ _ _ _ _ (ap_self y Dy Fy) M ltac:(lra)) as P2.
    pose proof (ap_value _ _ _ P1) as W1. pose proof (ap_value _ _ _ P2) as W2. destruct P1 as (P1 & P3 & _). destruct P2 as (P2 & P4 & _). auto 10. }
  pose proof (Cmod_fst (VC x)) as C1. pose proof (Cmod_snd (VC x)) as C2. unfold VC in C1, C2. cbn [fst snd] in C1, C2.
  destruct (PL (fofZ k) (fofZ 0) Dk Fk) as ((Dq & Fq & Eq) & _); auto. { rewrite Ek, Rabs_pos_eq; lra. }
  destruct (PL (fst x) (snd x) D1 F1) as ((Da & Fa & Ea) & _); auto. { unfold VC in Ha. lra. }
  destruct (PL (snd x) (fst x) D2 F2) as (_ & (Db & Fb & Eb)); auto. { unfold VC in Ha. lra. }
  set (q := fadd (fofZ k) (fmul (fofZ 0) rat)) in *.
  pose proof (fdiv_rnd (fofZ 1) q Do Dq Fo Fq) as R. rewrite Eq, Ek, Eo in R. specialize (R ltac:(lra)). unfold Rdiv in R. rewrite Rmult_1_l in R.
  assert (I : 0 < / IZR k <= 1) by (split; [apply Rinv_0_lt_compat; lra|rewrite <- Rinv_1; apply Rinv_le_contravar; lra]).
  assert (I2 : bpow radix2 (-53) <= / IZR k). { pose proof (bpow_opp radix2 53) as Q. cbn [Z.opp] in Q. rewrite Q. apply Rinv_le_contravar; lra. }
  assert (A : Rabs (/ IZR k) = / IZR k) by (apply Rabs_pos_eq; lra).
  assert (B1 : 1 <= BIG) by (change 1 with (bpow radix2 0); apply bpow_le; lia).
  destruct (big_rnd _ _ R) as (Dc & Fc & Ec); [rewrite A; lra|].
  set (scl := fdiv (fofZ 1) q) in *. pose proof (rnd_ok (/ IZR k)) as Q. rewrite <- Ec, A in Q.
  assert (T : dmin <= uu * / IZR k).
  { apply Rle_trans with (uu * bpow radix2 (-53)); [|apply Rmult_le_compat_l; lra]. unfold uu. rewrite <- bpow_plus. apply bpow_le. lia. }
  assert (Q2 : Rabs (V scl - / IZR k) <= 2 * (uu * / IZR k)) by lra.
  assert (Q3 : Rabs (V scl) <= 2 * / IZR k).
  { replace (V scl) with ((V scl - / IZR k) + / IZR k) by ring. eapply Rle_trans; [apply Rabs_triang|]. rewrite A. assert (uu * / IZR k <= / 4 * / IZR k) by (apply Rmult_le_compat_r; lra). lra. }
  set (x1 := (fadd (fst x) (fmul (snd x) rat), fsub (snd x) (fmul (fst x) rat)) : cf).
  assert (Fx1 : finc x1) by (split; split; assumption). assert (E1 : VC x1 = VC x) by (unfold VC, x1; cbn [fst snd]; now rewrite Ea, Eb).
  assert (a0 : 0 <= a) by (pose proof (Cmod_ge_0 (VC x)); lra).
  assert (aI : a * / IZR k <= a * 1) by (apply Rmult_le_compat_l; lra). assert (aI0 : 0 <= a * / IZR k) by (apply Rmult_le_pos; lra).
  destruct (rv_scale x1 scl a (2 * / IZR k) Fx1 Dc Fc ltac:(now rewrite E1) Q3) as (Fy & Ey).
  { replace (a * (2 * / IZR k)) with (2 * (a * / IZR k)) by ring. apply Rle_trans with (bpow radix2 1 * bpow radix2 1000); [change (bpow radix2 1) with 2; lra|]. rewrite <- bpow_plus. apply bpow_le. lia. }
  split; [exact Fy|]. rewrite E1 in Ey. change (fmul (fadd (fst x) (fmul (snd x) rat)) scl, fmul (fsub (snd x) (fmul (fst x) rat)) scl) with (cfscale x1 scl).
  replace (VC (cfscale x1 scl) - VC x * RtoC (/ IZR k))%C with ((VC (cfscale x1 scl) - VC x * RtoC (V scl)) + VC x * (RtoC (V scl) - RtoC (/ IZR k)))%C by ring.
  eapply Rle_trans; [apply Cmod_triangle|]. rewrite Cmod_mult, <- RtoC_minus, Cmod_R.
  assert (Cmod (VC x) * Rabs (V scl - / IZR k) <= a * (2 * (uu * / IZR k))) by (apply Rmult_le_compat; auto using Cmod_ge_0, Rabs_pos).
  unfold Rdiv. replace (6 * uu * (a * / IZR k)) with (2 * uu * (a * (2 * / IZR k)) + a * (2 * (uu * / IZR k))) by ring. lra.
Qed.

(** one entry after the sine step *)
Lemma inv2i_ok : finc f_inv2i /\ VC f_inv2i = (RtoC 1 / (RtoC 2 * Ci))%C.
Proof.
  assert (E2 : V (snd f_inv2i) = - / 2) by (vm_compute; lra). assert (E1 : V (fst f_inv2i) = 0) by (vm_compute; lra).
  split; [split; split; reflexivity|]. unfold VC. rewrite E1, E2. apply C_ext.
  - unfold Ci, RtoC, Cdiv, Cmult, Cinv. cbn [fst snd]. field.
  - unfold Ci, RtoC, Cdiv, Cmult, Cinv. cbn [fst snd]. field.
Qed.
Lemma sin_entry x y X Y E D : near E x X -> near E y Y -> Cmod X <= D -> Cmod Y <= D -> 0 <= E <= D -> bpow radix2 (-960) <= D -> D <= bpow radix2 1000 ->
  near (E + 16 * uu * D) (cfmul f_inv2i (cfsubk x y)) (RtoC 1 / (RtoC 2 * Ci) * (X - Y))%C.
Proof.
  intros (Fx & Ex) (Fy & Ey) HX HY HE HD HB. destruct inv2i_ok as (Fi & Ei). pose proof uu_small as [U0 U1]. pose proof (bpow_gt_0 radix2 (-960)) as G0.
  assert (MI : Cmod (RtoC 1 / (RtoC 2 * Ci))%C = / 2).
  { rewrite Cmod_div by apply two_Ci_ne. rewrite Cmod_mult, Cmod_Ci, !Cmod_R, !Rabs_pos_eq by lra. field. }
  assert (S : forall z Z, Cmod (VC z - Z)%C <= E -> Cmod Z <= D -> Cmod (VC z) <= 2 * D).
  { intros z Z H1 H2. replace (VC z) with ((VC z - Z) + Z)%C by ring. eapply Rle_trans; [apply Cmod_triangle|]. lra. }
  pose proof (S x X Ex HX) as Sx. pose proof (S y Y Ey HY) as Sy.
  assert (B4 : bpow radix2 1000 * 16 <= BIG). { change 16 with (bpow radix2 4). rewrite <- bpow_plus. apply bpow_le. lia. }
  destruct (rv_sub x y Fx Fy (2 * D) (2 * D) Sx Sy) as (Fz & Ez); [lra|]. set (z := cfsubk x y) in *.
  assert (UD : uu * (2 * D + 2 * D) <= D). { apply Rle_trans with (/ 4 * (2 * D + 2 * D)); [apply Rmult_le_compat_r; lra|lra]. }
  assert (Sz : Cmod (VC z) <= 5 * D).
  { replace (VC z) with ((VC z - (VC x - VC y)) + (VC x - VC y))%C by ring. eapply Rle_trans; [apply Cmod_triangle|].
    assert (Cmod (VC x - VC y)%C <= 4 * D) by (eapply Rle_trans; [apply Cmod_minus_triangle|lra]). lra. }
  destruct (rv_mul f_inv2i z Fi Fz (/ 2) (5 * D)) as (Fw & Ew); [rewrite Ei, MI; lra|exact Sz| |].
  { assert (1 <= bpow radix2 1000) by (change 1 with (bpow radix2 0); apply bpow_le; lia). lra. }
  split; [exact Fw|]. rewrite Ei in Ew. set (w := cfmul f_inv2i z) in *. set (c := (RtoC 1 / (RtoC 2 * Ci))%C) in *.
  replace (VC w - c * (X - Y))%C with ((VC w - c * VC z) + c * ((VC z - (VC x - VC y)) + ((VC x - X) - (VC y - Y))))%C by ring.
  eapply Rle_trans; [apply Cmod_triangle|]. rewrite Cmod_mult, MI.
  assert (T1 : Cmod ((VC z - (VC x - VC y)) + ((VC x - X) - (VC y - Y)))%C <= uu * (2 * D + 2 * D) + (E + E)).
  { eapply Rle_trans; [apply Cmod_triangle|]. apply Rplus_le_compat; [exact Ez|]. eapply Rle_trans; [apply Cmod_minus_triangle|]. lra. }
  pose proof (tiny_le D HD) as T. assert (0 <= uu * D) by (apply Rmult_le_pos; lra).
  replace (5 * uu * (/ 2 * (5 * D))) with (25 / 2 * (uu * D)) in Ew by field. replace (uu * (2 * D + 2 * D)) with (4 * (uu * D)) in T1 by ring. lra.
Qed.

(** ** The exact side *)
Lemma Xhat_le d d' L nc m k e : mt_nr RN d = L -> mt_nr RN d' = L -> mt_nc RN d = nc -> mt_nc RN d' = nc -> (1 <= L)%Z -> (1 <= nc)%Z ->
  (forall p q, (0 <= p < L)%Z -> (0 <= q < nc)%Z -> Cmod (cget d p q - cget d' p q)%C <= e) -> Cmod (Xhat d m k - Xhat d' m k)%C <= e.
Proof.
  intros E1 E2 E3 E4 HL Hc He. unfold Xhat. rewrite E1, E2, E3, E4. set (w := fun i j => (root L (- (i * k)) * root nc (- (j * m)))%C).
  assert (LC : 1 <= IZR (L * nc)) by (apply IZR_le; nia).
  apply Rle_trans with (Cmod (RtoC (/ IZR (L * nc)) * sumC 0 L (fun i => sumC 0 nc (fun j => (cget d i j - cget d' i j) * w i j)))%C).
  { right. f_equal. unfold w. rewrite (sumC_ext 0 L (fun i => sumC 0 nc (fun j => (cget d i j - cget d' i j) * (root L (- (i * k)) * root nc (- (j * m)))))%C
      (fun i => sumC 0 nc (fun j => cget d i j * root L (- (i * k)) * root nc (- (j * m))) - sumC 0 nc (fun j => cget d' i j * root L (- (i * k)) * root nc (- (j * m))))%C).
    - rewrite sumC_sub. ring.
    - intros i _. rewrite <- sumC_sub. apply sumC_ext. intros j _. ring. }
  rewrite Cmod_mult, Cmod_R, Rabs_pos_eq by (left; apply Rinv_0_lt_compat; lra).
  apply Rmult_le_reg_l with (IZR (L * nc)); [lra|]. rewrite <- Rmult_assoc, Rinv_r, Rmult_1_l by lra.
  eapply Rle_trans; [apply Cmod_sum2|]. unfold tot2. rewrite mult_IZR, Rmult_assoc. rewrite <- (Z.sub_0_r L) at 2. rewrite <- sumR_const by lia. apply sumR_le. intros i Hi.
  rewrite <- (Z.sub_0_r nc). rewrite <- sumR_const by lia. rewrite Z.sub_0_r. apply sumR_le. intros j Hj. unfold w. rewrite Cmod_mult, Cmod_mult, !Cmod_root. rewrite !Rmult_1_r. apply He; lia.
Qed.
Lemma Xhat_size d L nc m k D : mt_nr RN d = L -> mt_nc RN d = nc -> (1 <= L)%Z -> (1 <= nc)%Z ->
  (forall p q, (0 <= p < L)%Z -> (0 <= q < nc)%Z -> Cmod (cget d p q) <= D) -> Cmod (Xhat d m k) <= D.
Proof.
  intros E1 E2 HL Hc HD. set (z := mmake RN L nc (fun _ _ => RtoC 0)).
  assert (Z0 : Xhat z m k = RtoC 0).
  { unfold Xhat. change (mt_nr RN z) with L. change (mt_nc RN z) with nc. rewrite sumC_zero; [ring|]. intros i Hi. apply sumC_zero. intros j Hj. unfold z. rewrite cget_mmake by lia. ring. }
  replace (Xhat d m k) with (Xhat d m k - Xhat z m k)%C by (rewrite Z0; ring).
  apply (Xhat_le d z L nc); auto. intros p q Hp Hq. unfold z. rewrite cget_mmake by lia. replace (cget d p q - RtoC 0)%C with (cget d p q) by ring. auto.
Qed.

(** the sum of the moduli of the weights of one number of the convolution *)
Lemma sig_sum MM n k : (1 <= MM)%Z -> (0 <= k <= n)%Z -> sumR (- MM) MM (fun nu => Cmod (sig (k - nu))) <= 2 * (IZR (Z.log2 (2 * MM + n)) + 1).
Proof.
  intros HM Hk. pose (g := fun j => if Z.odd j then / Rabs (IZR j) else 0).
  assert (g0 : forall j, 0 <= g j). { intros j. unfold g. destruct (Z.odd j) eqn:O; [|lra]. left. apply Rinv_0_lt_compat, Rabs_pos_lt, not_0_IZR. intros ->. discriminate. }
  assert (gs : forall j, Cmod (sig j) = g j). { intros j. unfold g. destruct (Z.odd j) eqn:O; [now apply sig_mod|]. unfold sig. rewrite O. apply Cmod_0. }
  assert (ge : forall j, g (- j)%Z = g j). { intros j. unfold g. rewrite Z.odd_opp, opp_IZR, Rabs_Ropp. reflexivity. }
  assert (gh : forall j, (1 <= j)%Z -> g j <= / IZR j). { intros j Hj. assert (1 <= IZR j) by (apply IZR_le; lia). unfold g. rewrite Rabs_pos_eq by lra. destruct (Z.odd j); [lra|]. left. apply Rinv_0_lt_compat. lra. }
  assert (HH : forall N, (0 <= N <= 2 * MM + n)%Z -> sumR 1 (N + 1) g <= IZR (Z.log2 (2 * MM + n)) + 1).
  { intros N HN. assert (L0 : 0 <= IZR (Z.log2 (2 * MM + n))) by (apply IZR_le, Z.log2_nonneg). destruct (Z.eq_dec N 0) as [->|]; [change (0 + 1)%Z with 1%Z; rewrite sumR_nil by lia; lra|].
    eapply Rle_trans; [apply (sumR_le 1 (N + 1) g (fun j => / IZR j)); intros j Hj; apply gh; lia|].
    eapply Rle_trans; [apply harmonic; lia|]. apply Rplus_le_compat_r, IZR_le, Z.log2_le_mono. lia. }
  rewrite (sumR_ext _ _ _ (fun nu => g (nu - k)%Z)) by (intros; rewrite gs, <- ge; f_equal; ring).
  apply Rle_trans with (sumR (- (MM + n)) (MM + n + 1) g).
  { change (sumR (- MM) MM (fun nu => g (nu + - k)%Z) <= sumR (- (MM + n)) (MM + n + 1) g). rewrite <- sumR_shift.
    rewrite (sumR_split (- (MM + n)) (- MM + - k) (MM + n + 1)) by lia. rewrite (sumR_split (- MM + - k) (MM + - k) (MM + n + 1)) by lia.
    assert (0 <= sumR (- (MM + n)) (- MM + - k) g) by (apply sumR_nonneg; intros; apply g0). assert (0 <= sumR (MM + - k) (MM + n + 1) g) by (apply sumR_nonneg; intros; apply g0). lra. }
  rewrite (sumR_split (- (MM + n)) 0) by lia. rewrite (sumR_cons 0) by lia. replace (g 0%Z) with 0 by reflexivity. 
  rewrite sumR_rev. replace (1 - 0)%Z with 1%Z by ring. replace (1 - - (MM + n))%Z with (MM + n + 1)%Z by ring. rewrite (sumR_ext 1 _ (fun j => g (- j)%Z) g) by (intros; apply ge).
  pose proof (HH (MM + n)%Z ltac:(lia)). change (0 + 1)%Z with 1%Z. lra.
Qed.

Lemma An_pert R f g m n nmax E : (1 <= R)%Z -> (Z.abs m <= n <= nmax)%Z -> (forall nu, (- R <= nu < R)%Z -> Cmod (f nu - g nu)%C <= E) ->
  Rabs (fst (An R f m n) - fst (An R g m n)) <= exact_tol n (data_bound (2 * R + nmax) E) /\
  Rabs (snd (An R f m n) - snd (An R g m n)) <= exact_tol n (data_bound (2 * R + nmax) E).
Proof.
  intros HR Hm HE. unfold An. apply bval_pert; [lia|]. intros k Hk.
  assert (E0 : 0 <= E) by (eapply Rle_trans; [apply Cmod_ge_0|]; apply (HE 0%Z); lia).
  assert (H : Cmod (hconv R f k - hconv R g k)%C <= data_bound (2 * R + nmax) E).
  { replace (hconv R f k - hconv R g k)%C with (RtoC (4 * PI) * sumC (- R) R (fun nu => (f nu - g nu) * sig (k - nu)))%C.
    2:{ unfold hconv. rewrite (sumC_ext (- R) R (fun nu => (f nu - g nu) * sig (k - nu))%C (fun nu => f nu * sig (k - nu) - g nu * sig (k - nu))%C) by (intros; ring). rewrite sumC_sub. ring. }
    pose proof PI_RGT_0 as P0. assert (P1 : PI <= 16 / 5) by (pose proof PI_bounds; lra). rewrite Cmod_mult, Cmod_R, Rabs_pos_eq by lra.
    pose proof (sig_sum R nmax k HR ltac:(lia)) as S. set (l := IZR (Z.log2 (2 * R + nmax))) in *.
    assert (l0 : 0 <= l) by (apply IZR_le, Z.log2_nonneg).
    assert (T : Cmod (sumC (- R) R (fun nu => (f nu - g nu) * sig (k - nu)))%C <= E * (2 * (l + 1))).
    { eapply Rle_trans; [apply Cmod_sumC1|]. apply Rle_trans with (sumR (- R) R (fun nu => E * Cmod (sig (k - nu)))).
      - apply sumR_le. intros nu Hnu. rewrite Cmod_mult. apply Rmult_le_compat_r; [apply Cmod_ge_0|auto].
      - rewrite <- sumR_mul. apply Rmult_le_compat_l; auto. }
    unfold data_bound, bits. fold l. apply Rle_trans with (4 * (16 / 5) * (E * (2 * (l + 1)))).
    - apply Rmult_le_compat; [lra|apply Cmod_ge_0|lra|exact T].
    - assert (0 <= E * l) by (apply Rmult_le_pos; lra). replace (E * (2 * (l + 1))) with (2 * (E * l) + 2 * E) by ring. replace (26 * (l + 2) * E) with (26 * (E * l) + 52 * E) by ring. lra. }
  assert (EF : forall a b : C, (fst a - fst b = fst (a - b)%C)%R /\ (snd a - snd b = snd (a - b)%C)%R) by (intros [] []; split; reflexivity).
  destruct (EF (hconv R f k) (hconv R g k)) as [-> ->]. split; (eapply Rle_trans; [|exact H]); [apply Cmod_fst|apply Cmod_snd].
Qed.

Definition fft_acc (eps : R) (fft2 : Z -> Z -> list cf -> list cf) : Prop := forall nr nc a F, (1 <= nr <= 2 ^ 30)%Z -> (1 <= nc <= 2 ^ 30)%Z -> zlen a = (nr * nc)%Z ->
  (forall p q, (0 <= p < nr)%Z -> (0 <= q < nc)%Z -> finc (fget nc a p q)) -> tot2 nr nc (fun p q => Cmod (VC (fget nc a p q))) <= F -> bpow radix2 (-800) <= F <= bpow radix2 900 ->
  zlen (fft2 nr nc a) = (nr * nc)%Z /\ forall p q, (0 <= p < nr)%Z -> (0 <= q < nc)%Z ->
    near (eps * F) (fget nc (fft2 nr nc a) p q) (sumC 0 nr (fun i => sumC 0 nc (fun j => VC (fget nc a i j) * root nr (- (i * p)) * root nc (- (j * q)))))%C.

Lemma trunc_eq P F m k k' : k = k' \/ (P < Z.abs k /\ P < Z.abs k')%Z -> trunc P F m k = trunc P F m k'.
Proof. intros [->|[H1 H2]]; [reflexivity|]. unfold trunc. destruct (Z.leb_spec (Z.abs k) P), (Z.leb_spec (Z.abs k') P); try lia. reflexivity. Qed.
Lemma trunc_size P F m k D : 0 <= D -> (forall a b, Cmod (F a b) <= D) -> Cmod (trunc P F m k) <= D.
Proof. intros HD H. unfold trunc. destruct (_ <=? _)%Z; [apply H|rewrite Cmod_0; exact HD]. Qed.

(** the normalised transform, one entry *)
Definition vals (L nc : Z) (d : list cf) : mat RN := mmake RN L nc (fun p q => VC (fget nc d p q)).
Lemma fft_entry eps fft2 L nc d D : fft_acc eps fft2 -> 0 <= eps <= / 4 -> (1 <= L <= 2 ^ 20)%Z -> (1 <= nc <= 2 ^ 30)%Z -> zlen d = (L * nc)%Z ->
  bpow radix2 (-700) <= D <= bpow radix2 800 ->
  (forall p q, (0 <= p < L)%Z -> (0 <= q < nc)%Z -> finc (fget nc d p q) /\ Cmod (VC (fget nc d p q)) <= D) ->
  let fd := map (fun x => npdiv x (fofZ (L * nc))) (fft2 L nc d) in zlen fd = (L * nc)%Z /\
  forall p q k, (0 <= p < L)%Z -> (0 <= q < nc)%Z -> (k - p) mod L = 0%Z -> near ((eps + 13 * uu) * D) (fget nc fd p q) (Xhat (vals L nc d) (freqc nc q) k).
Proof.
  intros HF He HL Hc Ld HD Hd fd. pose proof (bpow_gt_0 radix2 (-700)) as B0. pose proof uu_small as [U0 U1].
  assert (n1 : 1 <= IZR (L * nc)) by (apply IZR_le; nia).
  assert (n2 : IZR (L * nc) <= bpow radix2 50). { change (bpow radix2 50) with (IZR (2 ^ 50)). apply IZR_le. replace (2 ^ 50)%Z with (2 ^ 20 * 2 ^ 30)%Z by reflexivity. apply Z.mul_le_mono_nonneg; lia. }
  set (F := IZR (L * nc) * D).
  assert (FD : D <= F) by (unfold F; rewrite <- (Rmult_1_l D) at 1; apply Rmult_le_compat_r; lra).
  assert (F9 : F <= bpow radix2 850). { unfold F. replace 850%Z with (50 + 800)%Z by reflexivity. rewrite bpow_plus. apply Rmult_le_compat; lra. }
  assert (B9 : bpow radix2 850 <= bpow radix2 900) by (apply bpow_le; lia). assert (B8 : bpow radix2 (-800) <= bpow radix2 (-700)) by (apply bpow_le; lia).
  assert (TD : forall (w : Z -> Z -> C), (forall i j, Cmod (w i j) = 1) -> tot2 L nc (fun p q => Cmod (VC (fget nc d p q) * w p q)%C) <= F).
  { intros w Hw. unfold F, tot2. rewrite mult_IZR, Rmult_assoc. rewrite <- (Z.sub_0_r L) at 2. rewrite <- sumR_const by lia. apply sumR_le. intros i Hi.
    rewrite <- (Z.sub_0_r nc). rewrite <- sumR_const by lia. rewrite Z.sub_0_r. apply sumR_le. intros j Hj. rewrite Cmod_mult, Hw, Rmult_1_r. apply Hd; lia. }
  destruct (HF L nc d F ltac:(lia) Hc Ld) as (Lf & A); [intros; now apply Hd| |lra|].
  { pose proof (TD (fun _ _ => RtoC 1) (fun _ _ => Cmod_1)) as T. eapply Rle_trans; [|exact T]. right. unfold tot2. apply sumR_ext. intros i _. apply sumR_ext. intros j _. f_equal. ring. }
  split; [unfold fd; now rewrite zlen_map|]. intros p q k Hp Hq Hk. unfold fd. rewrite (fget_map _ L) by auto.
  specialize (A p q Hp Hq). set (x := fget nc (fft2 L nc d) p q) in *. set (X := sumC 0 L _) in A.
  assert (EX : Xhat (vals L nc d) (freqc nc q) k = (X * RtoC (/ IZR (L * nc)))%C).
  { unfold Xhat. change (mt_nr RN (vals L nc d)) with L. change (mt_nc RN (vals L nc d)) with nc. rewrite Cmult_comm. f_equal. unfold X. apply sumC_ext. intros i Hi. apply sumC_ext. intros j Hj.
    unfold vals. rewrite cget_mmake by lia. f_equal.
    - f_equal. apply Z.mod_divide in Hk; [|lia]. destruct Hk as (u & Hu). replace (- (i * k))%Z with (- (i * p) + L * (- (i * u)))%Z by nia. rewrite root_period by lia. reflexivity.
    - replace (- (j * freqc nc q))%Z with (freqc nc q * - j)%Z by ring. rewrite root_freqc by lia. f_equal. ring. }
  assert (MX : Cmod X <= F).
  { unfold X. eapply Rle_trans; [apply Cmod_sum2|]. eapply Rle_trans; [|apply (TD (fun i j => root L (- (i * p)) * root nc (- (j * q)))%C)]; [|intros; rewrite Cmod_mult, !Cmod_root; ring].
    right. unfold tot2. apply sumR_ext. intros i _. apply sumR_ext. intros j _. f_equal. ring. }
  destruct A as (Fx & Ex). assert (eF : 0 <= eps * F <= / 4 * F) by (split; [apply Rmult_le_pos; lra|apply Rmult_le_compat_r; lra]).
  assert (Mx : Cmod (VC x) <= 2 * F). { replace (VC x) with ((VC x - X) + X)%C by ring. eapply Rle_trans; [apply Cmod_triangle|]. lra. }
  assert (B10 : 2 * bpow radix2 850 <= bpow radix2 1000). { change 2 with (bpow radix2 1) at 1. rewrite <- bpow_plus. apply bpow_le. lia. }
  assert (LN : (1 <= L * nc < 2 ^ 53)%Z). { split; [nia|]. apply lt_IZR. apply Rle_lt_trans with (bpow radix2 50); [exact n2|]. change (bpow radix2 50) with (IZR (2 ^ 50)). apply IZR_lt. reflexivity. }
  destruct (npdiv_ok x (L * nc) (2 * F) Fx Mx ltac:(lra) LN) as (Fy & Ey). split; [exact Fy|]. rewrite EX. set (y := npdiv x (fofZ (L * nc))) in *.
  replace (VC y - X * RtoC (/ IZR (L * nc)))%C with ((VC y - VC x * RtoC (/ IZR (L * nc))) + (VC x - X) * RtoC (/ IZR (L * nc)))%C by ring.
  eapply Rle_trans; [apply Cmod_triangle|]. assert (I0 : 0 < / IZR (L * nc)) by (apply Rinv_0_lt_compat; lra).
  rewrite Cmod_mult, Cmod_R, (Rabs_pos_eq (/ _)) by lra.
  assert (FE : F * / IZR (L * nc) = D) by (unfold F; field; lra).
  replace (6 * uu * (2 * F / IZR (L * nc))) with (12 * (uu * D)) in Ey by (rewrite <- FE; unfold Rdiv; ring).
  assert (T2 : Cmod (VC x - X)%C * / IZR (L * nc) <= eps * D). { rewrite <- FE, <- Rmult_assoc. apply Rmult_le_compat_r; lra. }
  pose proof (tiny_le D) as T. assert (B7 : bpow radix2 (-960) <= bpow radix2 (-700)) by (apply bpow_le; lia). specialize (T ltac:(lra)). pose proof dmin_pos. 
  replace ((eps + 13 * uu) * D) with (eps * D + 13 * (uu * D)) by ring. lra.
Qed.

(** the padded array, as the code stores it *)
Definition padf (R : Z) (nc : Z) (fd : list cf) (p q : Z) : cf :=
  if (p <? R - 1)%Z then fget nc fd p q else if (R + 1 <? p)%Z then fget nc fd (p - 2) q else cf0.
Definition sinf_at (R : Z) (nc : Z) (fd : list cf) (p q : Z) : cf :=
  cfmul f_inv2i (cfsubk (padf R nc fd (if p =? 0 then 2 * R - 1 else p - 1)%Z q) (padf R nc fd (if p =? 2 * R - 1 then 0 else p + 1)%Z q)).
Lemma near_zero E : 0 <= E -> near E cf0 (RtoC 0).
Proof.
  intros HE. split; [split; split; reflexivity|]. replace (VC cf0) with (RtoC 0) by reflexivity. replace (RtoC 0 - RtoC 0)%C with (RtoC 0) by ring. rewrite Cmod_0. exact HE.
Qed.

(** what spht does between the two-dimensional transform and fc_to_sc *)
Definition f_front (L nc : Z) (fd : list cf) : res (list cf) :=
  fdata <- f_fix_even L nc fd ;; ext <- f_pad_rows L (L + 2) nc fdata ;; f_sin_fc (L + 2) nc ext.
Lemma front_bind {A} L nc fd ext (K : list cf -> res A) : f_front L nc fd = Ok ext ->
  (fdata <- f_fix_even L nc fd ;; x <- f_pad_rows L (L + 2) nc fdata ;; x <- f_sin_fc (L + 2) nc x ;; K x) = K ext.
Proof.
  unfold f_front. destruct (f_fix_even L nc fd) as [x|e]; cbn [bind]; [|discriminate]. destruct (f_pad_rows L (L + 2) nc x) as [y|e]; cbn [bind]; [|discriminate]. intros ->. reflexivity.
Qed.
Lemma f_spht_front eps fft2 R nc d d' N M D e :
  fft_acc eps fft2 -> 0 <= eps <= / 4 ->
  (0 <= M <= N)%Z -> (N <= R - 2)%Z -> (N <= 1022)%Z -> (2 * M < nc <= 2 ^ 30)%Z -> (nc mod 2 = 0)%Z -> (2 * R + N <= 2 ^ 19)%Z ->
  zlen d = ((2 * R - 2) * nc)%Z -> bpow radix2 (-700) <= D <= bpow radix2 800 ->
  (forall p q, (0 <= p < 2 * R - 2)%Z -> (0 <= q < nc)%Z -> finc (fget nc d p q) /\ Cmod (VC (fget nc d p q)) <= D) ->
  mt_nr RN d' = (2 * R - 2)%Z -> mt_nc RN d' = nc ->
  (forall p q, (0 <= p < 2 * R - 2)%Z -> (0 <= q < nc)%Z -> Cmod (VC (fget nc d p q) - cget d' p q)%C <= e) ->
  exists ext a, f_front (2 * R - 2) nc (map (fun x => npdiv x (fofZ ((2 * R - 2) * nc))) (fft2 (2 * R - 2) nc d)%Z) = Ok ext /\
    zlen ext = (2 * R * nc)%Z /\ mt_nr RN a = (2 * R)%Z /\ mt_nc RN a = nc /\ / 2 ^ 800 <= 4 * IZR R * D <= 2 ^ 860 /\
    (forall m, (Z.abs m <= M)%Z -> holds_column ext a m /\ col_total a m <= 4 * IZR R * D /\ cget a R (m mod mt_nc RN a) = RtoC 0) /\
    forall v, py_fc_to_sc a N M = Ok v -> zlen v = ncoef N M /\ forall n m tol z, is_mode N M n m -> within tol z (vget (RtoC 0) v (pos N n m)) ->
      within (tol + exact_tol n (data_bound (2 * R + N) ((eps + 30 * uu) * D + e))) z (spht_val d' R n m).
Proof.
  intros HF He HM HN1 HN HM2 Hc2 HRN Ld HD Hd Dr Dc He'. pose proof (bpow_gt_0 radix2 (-700)) as B0. pose proof uu_small as [U0 U1].
  assert (HR : (2 <= R)%Z) by lia. set (L := (2 * R - 2)%Z) in *.
  destruct (fft_entry eps fft2 L nc d D HF He ltac:(unfold L; lia) ltac:(lia) Ld HD Hd) as (Lf & A).
  set (fd := map (fun x => npdiv x (fofZ (L * nc))) (fft2 L nc d)) in *.
  set (X := Xhat (vals L nc d)) in *. set (T := trunc (R - 2) X).
  assert (XD : forall m k, Cmod (X m k) <= D).
  { intros m k. unfold X. apply (Xhat_size _ L nc); try reflexivity; try lia. intros p q Hp Hq. unfold vals. rewrite cget_mmake by lia. now apply Hd. }
  assert (TD : forall m k, Cmod (T m k) <= D) by (intros; unfold T; apply trunc_size; [lra|apply XD]).
  set (E0 := (eps + 13 * uu) * D) in *. 
  assert (E0r : 0 <= E0 <= / 3 * D) by (unfold E0; split; [apply Rmult_le_pos; lra|apply Rmult_le_compat_r; lra]).
  assert (PF : forall p q, (0 <= p < 2 * R)%Z -> (0 <= q < nc)%Z -> near E0 (padf R nc fd p q) (T (freqc nc q) (freqc (2 * R) p))).
  { intros p q Hp Hq. unfold padf, freqc at 2. replace (2 * R / 2)%Z with R by lia.
    destruct (Z.ltb_spec p (R - 1)).
    - destruct (Z.leb_spec p R); [|lia]. unfold T, trunc. destruct (Z.leb_spec (Z.abs p) (R - 2)); [|lia]. apply A; try (unfold L; lia). rewrite Z.sub_diag. apply Z.mod_0_l. unfold L. lia.
    - destruct (Z.ltb_spec (R + 1) p).
      + destruct (Z.leb_spec p R); [lia|]. unfold T, trunc. destruct (Z.leb_spec (Z.abs (p - 2 * R)) (R - 2)); [|lia]. apply A; try (unfold L; lia).
        replace (p - 2 * R - (p - 2))%Z with (-1 * L)%Z by (unfold L; lia). apply Z.mod_mul. unfold L. lia.
      + assert (Q : T (freqc nc q) (if (p <=? R)%Z then p else (p - 2 * R)%Z) = RtoC 0). { unfold T. apply fsupp_trunc. destruct (Z.leb_spec p R); lia. }
        rewrite Q. apply near_zero. lra. }
  assert (B960 : bpow radix2 (-960) <= bpow radix2 (-700)) by (apply bpow_le; lia). assert (B1000 : bpow radix2 800 <= bpow radix2 1000) by (apply bpow_le; lia).
  set (E1 := (eps + 30 * uu) * D).
  assert (E1r : E0 + 16 * uu * D <= E1 <= / 2 * D).
  { split; [unfold E0, E1; assert (0 <= uu * D) by (apply Rmult_le_pos; lra); lra|]. unfold E1. apply Rmult_le_compat_r; lra. }
  set (a := mmake RN (2 * R) nc (fun p q => VC (sinf_at R nc fd p q))).
  assert (SF : forall m nu, (- R <= nu < R)%Z -> (2 * Z.abs m < nc)%Z -> near E1 (sinf_at R nc fd (nu mod (2 * R)) (m mod nc)) (sin1 (T m) nu)).
  { intros m nu Hnu Hm. pose proof (Z.mod_pos_bound m nc ltac:(lia)) as Bq. set (q := (m mod nc)%Z) in *. pose proof (Z.mod_pos_bound nu (2 * R) ltac:(lia)) as Bp.
    assert (Fq : freqc nc q = m) by (unfold q; apply freqc_of_mod; lia).
    apply near_le with (E0 + 16 * uu * D); [|apply E1r]. unfold sinf_at, sin1. set (p := (nu mod (2 * R))%Z) in *.
    assert (Ep : p = (if (nu <? 0)%Z then nu + 2 * R else nu)%Z).
    { unfold p. destruct (Z.ltb_spec nu 0); [|apply Z.mod_small; lia]. rewrite <- (Z_mod_plus_full nu 1). rewrite Z.mul_1_l. apply Z.mod_small. lia. }
    clearbody p. set (p1 := (if p =? 0 then 2 * R - 1 else p - 1)%Z). set (p2 := (if p =? 2 * R - 1 then 0 else p + 1)%Z).
    assert (P1 : (0 <= p1 < 2 * R)%Z) by (unfold p1; destruct (Z.eqb_spec p 0); lia). assert (P2 : (0 <= p2 < 2 * R)%Z) by (unfold p2; destruct (Z.eqb_spec p (2 * R - 1)); lia).
    assert (T1 : T m (nu - 1)%Z = T (freqc nc q) (freqc (2 * R) p1)).
    { rewrite Fq. unfold T. apply trunc_eq. unfold freqc, p1. replace (2 * R / 2)%Z with R by lia. destruct (Z.ltb_spec nu 0), (Z.eqb_spec p 0); subst p; match goal with |- context [(?u <=? R)%Z] => destruct (Z.leb_spec u R) end; lia. }
    assert (T2 : T m (nu + 1)%Z = T (freqc nc q) (freqc (2 * R) p2)).
    { rewrite Fq. unfold T. apply trunc_eq. unfold freqc, p2. replace (2 * R / 2)%Z with R by lia. destruct (Z.ltb_spec nu 0), (Z.eqb_spec p (2 * R - 1)); subst p; match goal with |- context [(?u <=? R)%Z] => destruct (Z.leb_spec u R) end; lia. }
    rewrite T1, T2. apply sin_entry; auto; lra. }
  assert (CA : forall m nu, (- R <= nu < R)%Z -> (2 * Z.abs m < nc)%Z -> colf a m nu = VC (sinf_at R nc fd (nu mod (2 * R)) (m mod nc))).
  { intros m nu Hnu Hm. unfold a. rewrite colf_mmake by lia. reflexivity. }
  assert (SZ : forall q, sinf_at R nc fd R q = cfmul f_inv2i (cfsubk cf0 cf0)).
  { intros q. unfold sinf_at, padf. destruct (Z.eqb_spec R 0); [lia|]. destruct (Z.eqb_spec R (2 * R - 1)); [lia|].
    destruct (Z.ltb_spec (R - 1) (R - 1)); [lia|]. destruct (Z.ltb_spec (R + 1) (R - 1)); [lia|]. destruct (Z.ltb_spec (R + 1) (R - 1)); [lia|]. destruct (Z.ltb_spec (R + 1) (R + 1)); [lia|reflexivity]. }
  assert (HZ : forall q, (0 <= q < nc)%Z -> cget a R q = RtoC 0).
  { intros q Hq. unfold a. rewrite cget_mmake by lia. rewrite SZ. vm_compute. reflexivity. }
  set (F := 4 * IZR R * D).
  assert (R0 : 2 <= IZR R) by (apply IZR_le; lia).
  assert (R1 : IZR R <= bpow radix2 19). { change (bpow radix2 19) with (IZR (2 ^ 19)). apply IZR_le. lia. }
  assert (HFr : / 2 ^ 800 <= F <= 2 ^ 860).
  { assert (/ 2 ^ 800 <= bpow radix2 (-700)). { rewrite <- (bpow_neg 800). apply bpow_le. lia. }
    assert (Q8 : 4 * IZR R <= bpow radix2 60). { apply Rle_trans with (bpow radix2 2 * bpow radix2 19); [change (bpow radix2 2) with 4; lra|]. rewrite <- bpow_plus. apply bpow_le. lia. }
    split; [apply Rle_trans with D; [lra|]; unfold F; rewrite <- (Rmult_1_l D) at 1; apply Rmult_le_compat_r; lra|].
    unfold F. rewrite <- (bpow2_pow 860). change (Z.of_nat 860) with (60 + 800)%Z. rewrite bpow_plus. apply Rmult_le_compat; lra. }
  assert (COL : forall m, (Z.abs m <= M)%Z -> holds_column (fmake (2 * R) nc (sinf_at R nc fd)) a m /\ col_total a m <= F /\ cget a R (m mod mt_nc RN a) = RtoC 0).
  { intros m Hm. pose proof (Z.mod_pos_bound m nc ltac:(lia)) as Bq. assert (Hmm : (2 * Z.abs m < nc)%Z) by lia.
    assert (SI : forall i, (0 <= i < 2 * R)%Z -> finc (sinf_at R nc fd i (m mod nc)) /\ Cmod (VC (sinf_at R nc fd i (m mod nc))) <= 2 * D).
    { intros i Hi. set (nu := (if R <=? i then i - 2 * R else i)%Z).
      assert (En : (nu mod (2 * R))%Z = i /\ (- R <= nu < R)%Z).
      { unfold nu. destruct (Z.leb_spec R i); [|split; [apply Z.mod_small; lia|lia]]. split; [|lia]. rewrite <- (Z_mod_plus_full (i - 2 * R) 1). rewrite Z.mul_1_l. replace (i - 2 * R + 2 * R)%Z with i by ring. apply Z.mod_small. lia. }
      destruct En as [En Rn]. destruct (SF m nu Rn Hmm) as (G1 & G2). rewrite En in G1, G2. split; [exact G1|]. 
      set (z := sinf_at R nc fd i (m mod nc)) in *. set (Z := sin1 (T m) nu) in *.
      assert (ZD : Cmod Z <= D).
      { unfold Z, sin1. rewrite Cmod_mult. replace (Cmod (RtoC 1 / (RtoC 2 * Ci))%C) with (/ 2).
        2:{ rewrite Cmod_div by apply two_Ci_ne. rewrite Cmod_mult, Cmod_Ci, !Cmod_R, !Rabs_pos_eq by lra. field. }
        pose proof (Cmod_minus_triangle (T m (nu - 1)%Z) (T m (nu + 1)%Z)) as Q. pose proof (TD m (nu - 1)%Z). pose proof (TD m (nu + 1)%Z). lra. }
      replace (VC z) with ((VC z - Z) + Z)%C by ring. eapply Rle_trans; [apply Cmod_triangle|]. lra. }
    split; [|split].
    - intros i Hi. change (mt_nr RN a) with (2 * R)%Z in Hi. change (mt_nc RN a) with nc. cbv zeta.
      change (vget cf0 (fmake (2 * R) nc (sinf_at R nc fd)) (i * nc + m mod nc)) with (fget nc (fmake (2 * R) nc (sinf_at R nc fd)) i (m mod nc)).
      rewrite fget_fmake by lia. destruct (SI i Hi) as (((D1 & F1) & (D2 & F2)) & _). split; [exact D1|]. split; [apply fin_finite, F1|]. split; [exact D2|]. split; [apply fin_finite, F2|].
      unfold a. rewrite cget_mmake by lia. reflexivity.
    - unfold col_total. change (mt_nr RN a) with (2 * R)%Z. change (mt_nc RN a) with nc. apply Rle_trans with (sumR 0 (2 * R) (fun _ => 2 * D)).
      + apply sumR_le. intros i Hi. unfold a. rewrite cget_mmake by lia. apply SI. lia.
      + rewrite sumR_const by lia. rewrite Z.sub_0_r, mult_IZR. unfold F. right. ring.
    - apply HZ. exact Bq. }
  destruct (py_fc_to_sc_ok a N M R) as (v' & Ev' & Lv' & Vv'); try reflexivity; try lia.
  { change (mt_nc RN a) with nc. lia. }
  { intros m Hm. unfold colf. change (mt_nr RN a) with (2 * R)%Z. rewrite Z.mod_small by lia. apply COL, Hm. }
  exists (fmake (2 * R) nc (sinf_at R nc fd)), a. split; [|split; [unfold fmake; apply zlen_vmake'; nia|split; [reflexivity|split; [reflexivity|split; [exact HFr|split; [exact COL|]]]]]].
  - unfold f_front. replace L with (2 * (R - 1))%Z by (unfold L; ring). rewrite f_fix_even_eq by lia. cbn [bind].
    replace (2 * (R - 1) + 2)%Z with (2 * R)%Z by ring. replace (2 * (R - 1))%Z with (2 * R - 2)%Z by ring. rewrite f_pad_rows_eq by lia. cbn [bind].
    rewrite (fmake_ext (2 * R) nc _ (padf R nc fd)); try lia.
    2:{ intros p q Hp Hq. unfold padf. destruct (Z.ltb_spec p (R - 1)); [destruct (Z.eqb_spec p (R - 1)); [lia|reflexivity]|]. destruct (Z.ltb_spec (R + 1) p); [|reflexivity]. destruct (Z.eqb_spec (p - 2) (R - 1)); [lia|reflexivity]. }
    rewrite f_sin_fc_eq; try lia.
    2:{ intros q. unfold padf. destruct (Z.ltb_spec (R - 1) (R - 1)); [lia|]. destruct (Z.ltb_spec (R + 1) (R - 1)); [lia|reflexivity]. }
    2:{ intros q. unfold padf. destruct (Z.ltb_spec (R + 1) (R - 1)); [lia|]. destruct (Z.ltb_spec (R + 1) (R + 1)); [lia|reflexivity]. }
    change (fun p q : Z => cfmul f_inv2i (cfsubk (padf R nc fd (if (p =? 0)%Z then (2 * R - 1)%Z else (p - 1)%Z) q) (padf R nc fd (if (p =? 2 * R - 1)%Z then 0%Z else (p + 1)%Z) q))) with (sinf_at R nc fd).
    reflexivity.
  - intros v Ev. assert (Evv : v' = v) by congruence. subst v'. split; [exact Lv'|].
    intros n m tol zz Hm Wn. rewrite Vv' in Wn by exact Hm. pose proof Hm as (M1 & M2 & M3).
    assert (He0 : 0 <= e). { eapply Rle_trans; [apply Cmod_ge_0|]. apply (He' 0%Z 0%Z); unfold L; lia. }
    destruct (An_pert R (colf a m) (sin1 (trunc (R - 2) (Xhat d') m)) m n N (E1 + e) ltac:(lia) ltac:(lia)) as [P1 P2].
    + intros nu Hnu. rewrite CA by (auto; lia). destruct (SF m nu Hnu ltac:(lia)) as (_ & G). set (z := VC (sinf_at R nc fd (nu mod (2 * R)) (m mod nc))) in *.
      replace (z - sin1 (trunc (R - 2) (Xhat d') m) nu)%C with ((z - sin1 (T m) nu) + (sin1 (T m) nu - sin1 (trunc (R - 2) (Xhat d') m) nu))%C by ring.
      eapply Rle_trans; [apply Cmod_triangle|]. apply Rplus_le_compat; [exact G|].
      assert (TE : forall k, Cmod (T m k - trunc (R - 2) (Xhat d') m k)%C <= e).
      { intros k. unfold T, trunc. destruct (_ <=? _)%Z; [|replace (RtoC 0 - RtoC 0)%C with (RtoC 0) by ring; rewrite Cmod_0; exact He0].
        unfold X. apply (Xhat_le _ _ L nc); try reflexivity; auto; try lia. intros p q Hp Hq. unfold vals. rewrite cget_mmake by lia. now apply He'. }
      unfold sin1. match goal with |- Cmod (?c * ?x - ?c * ?y)%C <= _ => replace (c * x - c * y)%C with (c * (x - y))%C by ring end. rewrite Cmod_mult.
      replace (Cmod (RtoC 1 / (RtoC 2 * Ci))%C) with (/ 2).
      2:{ rewrite Cmod_div by apply two_Ci_ne. rewrite Cmod_mult, Cmod_Ci, !Cmod_R, !Rabs_pos_eq by lra. field. }
      match goal with |- _ * Cmod (?x1 - ?x2 - (?y1 - ?y2))%C <= _ => replace (x1 - x2 - (y1 - y2))%C with ((x1 - y1) - (x2 - y2))%C by ring; pose proof (Cmod_minus_triangle (x1 - y1)%C (x2 - y2)%C) as Q end.
      pose proof (TE (nu - 1)%Z). pose proof (TE (nu + 1)%Z). lra.
    + exact (within_shift _ _ _ _ _ Wn P1 P2).
Qed.
Lemma spht_guard_ok R nc N M : (M <= N)%Z -> (N < R - 1)%Z -> (2 * M < nc)%Z -> (nc mod 2 = 0)%Z -> spht_guard R nc N M = Ok Datatypes.tt.
Proof. intros H1 H2 H3 H4. unfold spht_guard. destruct (Z.gtb_spec M N); [lia|]. destruct (Z.geb_spec N (R - 1)); [lia|]. destruct (Z.geb_spec (2 * M) nc); [lia|]. rewrite H4. reflexivity. Qed.
Lemma f_spht_core delta eps fft2 cosf sinf junk junkr junki R nc d d' onmax ommax N M D e :
  trig_accurate delta cosf sinf -> 0 <= delta <= / 2 ^ 44 -> fft_acc eps fft2 -> 0 <= eps <= / 4 ->
  spht_sizes R nc onmax ommax = (N, M) -> (0 <= M <= N)%Z -> (N <= R - 2)%Z -> (N <= 1022)%Z -> (2 * M < nc <= 2 ^ 30)%Z -> (nc mod 2 = 0)%Z -> (2 * R + N <= 2 ^ 19)%Z ->
  zlen d = ((2 * R - 2) * nc)%Z -> bpow radix2 (-700) <= D <= bpow radix2 800 ->
  (forall p q, (0 <= p < 2 * R - 2)%Z -> (0 <= q < nc)%Z -> finc (fget nc d p q) /\ Cmod (VC (fget nc d p q)) <= D) ->
  mt_nr RN d' = (2 * R - 2)%Z -> mt_nc RN d' = nc ->
  (forall p q, (0 <= p < 2 * R - 2)%Z -> (0 <= q < nc)%Z -> Cmod (VC (fget nc d p q) - cget d' p q)%C <= e) ->
  exists sc, f_spht fft2 cosf sinf junk junkr junki (2 * R - 2) nc d onmax ommax = Ok (N, M, sc) /\ zlen sc = ncoef N M /\
    forall n m, is_mode N M n m ->
      within (sum_tol n (data_bound (2 * R + N) (4 * IZR R * D)) 0 + exact_tol n (data_error delta (2 * R + N) (4 * IZR R * D)) +
              exact_tol n (data_bound (2 * R + N) ((eps + 30 * uu) * D + e))) (vget cf0 sc (pos N n m)) (spht_val d' R n m).
Proof.
  intros HT Hdl HF He HS HM HN1 HN HM2 Hc2 HRN Ld HD Hd Dr Dc He'.
  assert (HR : (2 <= R)%Z) by lia. set (L := (2 * R - 2)%Z) in *.
  destruct (f_spht_front eps fft2 R nc d d' N M D e) as (ext & a & Ef & Le & Ar & Ac & HFr & COL & PT); auto. fold L in Ef.
  set (F := 4 * IZR R * D) in *.
  assert (HFr' : / 2 ^ 800 <= F <= 2 ^ 880) by (split; [apply HFr|apply Rle_trans with (2 ^ 860); [apply HFr|apply Rle_pow; [lra|lia]]]).
  assert (Lz : zlen (vmake (ncoef N M) (fun _ : Z => cf0)) = ncoef N M) by (apply zlen_vmake'; unfold ncoef; nia).
  destruct (C73_spht_c_accurate delta cosf sinf junk junkr junki ext (vmake (ncoef N M) (fun _ => cf0)) a R N M F HT Hdl HM HN Lz) as (c & v & Ec & Ev & Lcv & W); try assumption; try lia.

  destruct (PT v Ev) as (Lv & PT').
  exists c. split; [|split; [congruence|]].
  - unfold f_spht. replace (L / 2 + 1)%Z with R by (unfold L; lia). rewrite HS.
    rewrite spht_guard_ok by (auto; lia). cbn [bind]. destruct (Z.ltb_spec L 1); [lia|]. destruct (Z.ltb_spec nc 1); [lia|]. cbn [orb].
    rewrite (front_bind _ _ _ _ _ Ef).
    unfold np_zeros. destruct (Z.ltb_spec (ncoef N M) 0); [unfold ncoef in *; nia|]. cbn [bind].
    replace (L + 2)%Z with (2 * R)%Z by (unfold L; ring). rewrite <- Ac at 1. rewrite Ec. reflexivity.
  - intros n m Hm. apply PT'; auto.
Qed.
