(** * HkmP: the accuracy of pysphi.py's hkm_fc in double precision. *)
From Coq Require Import ZArith List Bool SpecFloat Reals Lia Lra Psatz Permutation Znumtheory.
From Coquelicot Require Import Complex.
From Flocq Require Import Core.Core IEEE754.BinarySingleNaN.
From Verif Require Import Py PyFacts Num FloatN FloatText Exact MCoefs Sums Smooth MOps MPysphi Dft PysphiFacts TransFacts MKiss KissFacts KissFacts2 MCsphi CsphiFacts MDouble FlFacts SeedReal SeedFl SeedFl2 DoubleFacts FlSigned SbesselFTerm SbesselFRel SbesselFFun TabFl SumFl SumFl2 SumFl3 MKissF KissFl KissFl2 KissFl3 KissFl4 KissFl5 KissFl6 MCsphiF HkmF HkmF2 MTransF TransF TransF2 MHkmP.
Import ListNotations.
Open Scope list_scope.
Open Scope Z_scope.

(** ** s_data *)
Lemma div_zero b z : dbl b -> fin b -> V b <> 0%R -> ap 0 0 z 0 -> ap 0 0 (fdiv z b) 0.
Proof.
  intros D F Hb Hz. pose proof (V_ap0 z Hz) as E. destruct Hz as (Dz & Fz & _).
  pose proof (fdiv_rnd z b Dz D Fz F Hb) as R. rewrite E in R. unfold Rdiv in R. rewrite Rmult_0_l in R.
  destruct (big_rnd _ _ R) as (D3 & F3 & E3); [rewrite Rabs_R0; apply bpow_ge_0|]. rewrite round_0 in E3 by auto with typeclass_instances.
  unfold ap. rewrite E3, Rabs_R0, Rminus_0_r, Rabs_R0. repeat split; auto; lra.
Qed.
Lemma add_zero x z : dbl x -> fin x -> (Rabs (V x) <= BIG)%R -> generic_format radix2 FloatText.fx (V x) -> ap 0 0 z 0 ->
  (dbl (fadd x z) /\ fin (fadd x z) /\ V (fadd x z) = V x) /\ (dbl (fsub x z) /\ fin (fsub x z) /\ V (fsub x z) = V x) /\ (dbl (fadd z x) /\ fin (fadd z x) /\ V (fadd z x) = V x).
Proof.
  intros D F Hb G Hz. pose proof (V_ap0 z Hz) as E. destruct Hz as (Dz & Fz & _).
  pose proof (fadd_rnd x z D Dz F Fz) as R1. pose proof (fsub_rnd x z D Dz F Fz) as R2. pose proof (fadd_rnd z x Dz D Fz F) as R3.
  rewrite E, Rplus_0_r in R1. rewrite E, Rminus_0_r in R2. rewrite E, Rplus_0_l in R3.
  destruct (big_rnd _ _ R1 Hb) as (? & ? & E1). destruct (big_rnd _ _ R2 Hb) as (? & ? & E2). destruct (big_rnd _ _ R3 Hb) as (? & ? & E3).
  rewrite round_generic in E1, E2, E3 by auto with typeclass_instances. auto 10.
Qed.
Lemma fsig_py_ok k : Z.odd k = true -> Z.abs k < 2 ^ 53 ->
  finc (fsig_py k) /\ (Cmod (VC (fsig_py k) - sig k)%C <= uu * Cmod (sig k) + dmin)%R.
Proof.
  intros H Hk. destruct (fsig_ok k H Hk) as (((DA & FA) & (DB & FB)) & E & _).
  assert (K0 : k <> 0) by (intros ->; discriminate). assert (K : IZR k <> 0%R) by (apply not_0_IZR; auto).
  destruct (fofZ_small k Hk) as (D1 & F1 & E1). destruct (fofZ_small (-1)) as (D2 & F2 & E2); [lia|]. destruct (fofZ_small 0) as (D3 & F3 & E3); [lia|].
  assert (Kv : V (fofZ k) <> 0%R) by now rewrite E1.
  assert (Z0 : ap 0 0 (fofZ 0) 0) by (unfold ap; rewrite E3, Rminus_0_r, Rabs_R0; repeat split; auto; lra).
  assert (ZM : ap 0 0 (S754_zero true) 0) by (unfold ap; cbn [SF2R]; rewrite Rminus_0_r, Rabs_R0; repeat split; auto; lra).
  unfold fsig_py. cbv zeta. set (ratio := fdiv (fofZ 0) (fofZ k)).
  assert (ZR : ap 0 0 ratio 0) by (apply div_zero; auto).
  assert (ZP : ap 0 0 (fmul (fofZ 0) ratio) 0) by (apply mul_zero; auto).
  assert (GF : forall j, Z.abs j < 2 ^ 53 -> generic_format radix2 FloatText.fx (IZR j)).
  { intros j Hj. apply generic_format_FLT. exists (Float radix2 j 0); [unfold F2R; cbn; ring|exact Hj|cbn; lia]. }
  assert (BG : forall j, Z.abs j < 2 ^ 53 -> (Rabs (IZR j) <= BIG)%R).
  { intros j Hj. rewrite <- abs_IZR. apply Rle_trans with (IZR (2 ^ 53)); [apply IZR_le; lia|]. change (IZR (2 ^ 53)) with (bpow radix2 53). apply bpow_le. lia. }
  destruct (add_zero (fofZ k) _ D1 F1 ltac:(rewrite E1; apply BG, Hk) ltac:(rewrite E1; apply GF, Hk) ZP) as ((D4 & F4 & E4) & _). rewrite E1 in E4.
  set (den := fadd (fofZ k) (fmul (fofZ 0) ratio)) in *. assert (Dv : V den <> 0%R) by now rewrite E4.
  assert (ZQ : ap 0 0 (fmul (fofZ (-1)) ratio) 0) by (apply mul_zero; auto).
  assert (ZS : ap 0 0 (fadd (S754_zero true) (fmul (fofZ (-1)) ratio)) 0).
  { destruct ZM as (A & B & _). destruct (add_zero (S754_zero true) _ A B ltac:(cbn [SF2R]; rewrite Rabs_R0; apply bpow_ge_0) ltac:(cbn [SF2R]; apply generic_format_0) ZQ) as ((D5 & F5 & E5) & _).
    unfold ap. rewrite E5. cbn [SF2R]. rewrite Rminus_0_r, Rabs_R0. repeat split; auto; lra. }
  pose proof (div_zero den _ D4 F4 Dv ZS) as ZT. pose proof (V_ap0 _ ZT) as VT. destruct ZT as (DT & FT & _).
  assert (ZN : ap 0 0 (fmul (S754_zero true) ratio) 0) by (apply mul_zero; auto; apply ZM).
  destruct (add_zero (fofZ (-1)) _ D2 F2 ltac:(rewrite E2; apply BG; lia) ltac:(rewrite E2; apply GF; lia) ZN) as (_ & (D6 & F6 & E6) & _). rewrite E2 in E6.
  pose proof (fdiv_rnd _ den D6 D4 F6 F4 Dv) as R7. rewrite E6, E4 in R7.
  pose proof (fdiv_rnd (fofZ (-1)) (fofZ k) D2 D1 F2 F1 Kv) as R8. rewrite E1, E2 in R8.
  assert (K1 : (1 <= Rabs (IZR k))%R) by (rewrite <- abs_IZR; apply IZR_le; lia).
  assert (B7 : (Rabs (-1 / IZR k) <= BIG)%R).
  { unfold Rdiv. rewrite Rabs_mult, Rabs_inv. replace (Rabs (-1)) with 1%R by (rewrite Rabs_left; lra). rewrite Rmult_1_l. apply Rle_trans with 1%R; [rewrite <- Rinv_1; apply Rinv_le_contravar; lra|]. change 1%R with (bpow radix2 0). apply bpow_le. lia. }
  destruct (big_rnd _ _ R7 B7) as (D7 & F7 & E7). destruct (big_rnd _ _ R8 B7) as (D8 & F8 & E8).
  split; [split; split; assumption|].
  match goal with |- (Cmod (VC (?u, ?v) - _)%C <= _)%R => replace (VC (u, v)) with (VC (fsig k)); [exact E|] end.
  unfold VC, fsig. cbn [fst snd]. rewrite VT, E7, E8, E3. reflexivity.
Qed.
Definition fs_val (MM Nmax Q : Z) (j : Z) : cf :=
  if (j <=? Nmax) && Z.odd (j + MM) then fsig_py (j + MM)
  else if (Q - 2 * MM <=? j) && Z.odd (j - Q + MM) then fsig_py (j - Q + MM) else cf0.
Lemma fp_s_data_eq MM Nmax Q : 1 <= MM -> 0 <= Nmax -> 2 * MM + Nmax <= Q ->
  fp_s_data (2 * MM) Nmax Q = Ok (vmake Q (fs_val MM Nmax Q)).
Proof.
  intros H1 H2 H3. unfold fp_s_data.
  replace (2 * MM) with (0 + MM * 2) at 1 by lia. rewrite Z_mod_plus_full. cbn [Z.modulo Z.div_eucl Z.eqb].
  rewrite np_zeros_ok by lia. cbn [bind].
  replace (2 * MM / 2) with MM by (rewrite Z.mul_comm, Z.div_mul; lia).
  set (sg := fun k => if Z.odd k then fsig_py k else cf0).
  set (inv := fun p => vmake Q (fun j =>
     if (j <=? Nmax) && Z.odd (j + MM) && (j + MM <? p) then sg (j + MM)
     else if (Q - 2 * MM <=? j) && (j - Q + MM <? p) then sg (j - Q + MM) else cf0)).
  destruct (mfor_inv (fun p s => s = inv p) (- MM) (MM + Nmax + 1)
    (fun nu s => if nu mod 2 =? 1 then py_set s (nu - MM) (fsig_py nu) else Ok s)
    (vmake Q (fun _ => cf0))) as (s' & E & ->).
  - lia.
  - apply vmake_ext. intros j Hj.
    destruct (Z.ltb_spec (j + MM) (- MM)); [lia|]. rewrite andb_false_r.
    destruct (Z.leb_spec (Q - 2 * MM) j), (Z.ltb_spec (j - Q + MM) (- MM)); cbn [andb]; auto; lia.
  - intros p s Hp ->. rewrite odd_mod2. destruct (Z.odd p) eqn:Ep.
    + assert (Es : sg p = fsig_py p) by (unfold sg; now rewrite Ep).
      exists (inv (p + 1)). split; auto. rewrite <- Es.
      destruct (Z_lt_le_dec p MM) as [L|L].
      * unfold inv. rewrite py_set_vmake_neg by lia. f_equal. apply vmake_ext. intros j Hj.
        destruct (Z.eqb_spec j (p - MM + Q)) as [->|Hne].
        -- destruct (Z.leb_spec (p - MM + Q) Nmax).
           ++ destruct (Z.ltb_spec (p - MM + Q + MM) (p + 1)); [lia|]. rewrite andb_false_r.
              destruct (Z.leb_spec (Q - 2 * MM) (p - MM + Q)); [|lia].
              destruct (Z.ltb_spec (p - MM + Q - Q + MM) (p + 1)); [|lia]. cbn [andb]. f_equal. lia.
           ++ cbn [andb]. destruct (Z.leb_spec (Q - 2 * MM) (p - MM + Q)); [|lia].
              destruct (Z.ltb_spec (p - MM + Q - Q + MM) (p + 1)); [|lia]. cbn [andb]. f_equal. lia.
        -- destruct (Z.ltb_spec (j + MM) p), (Z.ltb_spec (j + MM) (p + 1)); try lia.
           destruct (Z.ltb_spec (j - Q + MM) p), (Z.ltb_spec (j - Q + MM) (p + 1)); try lia; auto.
      * unfold inv. rewrite py_set_vmake by lia. f_equal. apply vmake_ext. intros j Hj.
        destruct (Z.eqb_spec j (p - MM)) as [->|Hne].
        -- destruct (Z.leb_spec (p - MM) Nmax); [|lia].
           replace (p - MM + MM) with p by lia. rewrite Ep. destruct (Z.ltb_spec p (p + 1)); [|lia]. reflexivity.
        -- destruct (Z.ltb_spec (j + MM) p), (Z.ltb_spec (j + MM) (p + 1)); try lia;
           destruct (Z.ltb_spec (j - Q + MM) p), (Z.ltb_spec (j - Q + MM) (p + 1)); try lia; auto.
    + exists (inv p). split; auto. apply vmake_ext. intros j Hj.
      destruct (Z.ltb_spec (j + MM) p), (Z.ltb_spec (j + MM) (p + 1)); try lia.
      * rewrite !andb_true_r.
        destruct (Z.ltb_spec (j - Q + MM) p), (Z.ltb_spec (j - Q + MM) (p + 1)); try lia; auto.
      * assert (j + MM = p) as -> by lia. rewrite Ep, !andb_false_r. cbn [andb].
        destruct (Z.ltb_spec (j - Q + MM) p), (Z.ltb_spec (j - Q + MM) (p + 1)); try lia; auto.
      * rewrite !andb_false_r.
        destruct (Z.leb_spec (Q - 2 * MM) j); cbn [andb]; auto.
        destruct (Z.ltb_spec (j - Q + MM) p), (Z.ltb_spec (j - Q + MM) (p + 1)); try lia; auto.
        assert (j - Q + MM = p) as -> by lia. unfold sg. now rewrite Ep.
  - rewrite E. f_equal. apply vmake_ext. intros j Hj. unfold fs_val, sg.
    destruct (Z.leb_spec j Nmax).
    + destruct (Z.ltb_spec (j + MM) (MM + Nmax + 1)); [|lia]. rewrite andb_true_r. cbn [andb].
      destruct (Z.odd (j + MM)); [reflexivity|].
      destruct (Z.ltb_spec (j - Q + MM) (MM + Nmax + 1)); [|lia]. rewrite andb_true_r. destruct (_ <=? j), (Z.odd _); reflexivity.
    + cbn [andb]. destruct (Z.ltb_spec (j - Q + MM) (MM + Nmax + 1)); [|lia]. rewrite andb_true_r. destruct (_ <=? j), (Z.odd _); reflexivity.
Qed.
Lemma fs_val_ok MM Nmax Q j : 1 <= MM -> 0 <= Nmax -> 2 * MM + Nmax <= Q -> Q < 2 ^ 52 -> 0 <= j < Q ->
  finc (fs_val MM Nmax Q j) /\ (Cmod (VC (fs_val MM Nmax Q j) - s_val MM Nmax Q j)%C <= uu * Cmod (s_val MM Nmax Q j) + dmin)%R.
Proof.
  intros HM HN HQ HB Hj.
  assert (ZZ : finc cf0 /\ (Cmod (VC cf0 - RtoC 0)%C <= uu * Cmod (RtoC 0) + dmin)%R).
  { destruct (fofZ_small 0) as (D3 & F3 & E4); [lia|]. split; [split; split; auto|]. unfold VC, cf0. cbn [fst snd]. rewrite E4.
    replace ((0, 0)%R - RtoC 0)%C with (RtoC 0) by (unfold RtoC, Cminus, Cplus, Copp; cbn [fst snd]; apply C_ext; cbn; ring). rewrite Cmod_0. pose proof dmin_pos. lra. }
  unfold fs_val, s_val.
  destruct ((j <=? Nmax) && Z.odd (j + MM)) eqn:E1.
  - apply andb_prop in E1. destruct E1 as [E1 E2]. apply Z.leb_le in E1. apply fsig_py_ok; auto. lia.
  - destruct (Z.leb_spec (Q - 2 * MM) j); cbn [andb]; [|exact ZZ]. destruct (Z.odd (j - Q + MM)) eqn:E3; [apply fsig_py_ok; auto; lia|].
    unfold sig. rewrite E3. exact ZZ.
Qed.
Lemma s_val_le MM Nmax Q j : 1 <= MM -> 0 <= Nmax -> 2 * MM + Nmax <= Q -> 0 <= j < Q -> (Cmod (s_val MM Nmax Q j) <= Cmod (cs_val MM Nmax Q j))%R.
Proof.
  intros HM HN HQ Hj. unfold s_val, cs_val.
  destruct (Z.leb_spec j Nmax), (Z.leb_spec (Q - 2 * MM) j), (Z.odd (j + MM)) eqn:O1, (Z.odd (j - Q + MM)) eqn:O2; cbn [andb]; try lra; try (unfold sig at 1; rewrite O2, Cmod_0; first [lra | apply Cmod_ge_0]).
  rewrite !sig_mod by auto. assert (j = Nmax /\ Q = 2 * MM + Nmax) as (-> & ->) by lia.
  replace (Nmax - (2 * MM + Nmax) + MM) with (- MM) by ring. rewrite <- !abs_IZR. apply Rinv_le_contravar; [apply IZR_lt; lia|apply IZR_le; lia].
Qed.

(** ** Accuracy of one-dimensional transforms *)
Definition fft1_acc (eps : R) (fft : list cf -> list cf) : Prop := forall n x F, 1 <= n <= 2 ^ 30 -> zlen x = n -> (forall j, 0 <= j < n -> finc (vgf x j)) ->
  (sumR 0 n (fun j => Cmod (VC (vgf x j))) <= F)%R -> (bpow radix2 (-800) <= F <= bpow radix2 900)%R ->
  zlen (fft x) = n /\ forall k, 0 <= k < n -> near (eps * F) (vgf (fft x) k) (sumC 0 n (fun j => VC (vgf x j) * root n (- (j * k)))%C).
Definition ifft1_acc (eps : R) (ifft : list cf -> list cf) : Prop := forall n x F, 1 <= n <= 2 ^ 30 -> zlen x = n -> (forall j, 0 <= j < n -> finc (vgf x j)) ->
  (sumR 0 n (fun j => Cmod (VC (vgf x j))) <= F)%R -> (bpow radix2 (-800) <= F <= bpow radix2 900)%R ->
  zlen (ifft x) = n /\ forall k, 0 <= k < n -> near (eps * F / IZR n) (vgf (ifft x) k) (RtoC (/ IZR n) * sumC 0 n (fun j => VC (vgf x j) * root n (j * k)))%C.

Section HkmP.
Variables (eps : R) (fft ifft : list cf -> list cf) (MM Nmax Q : Z).
Hypothesis Hfft : fft1_acc eps fft.
Hypothesis Hifft : ifft1_acc eps ifft.
Hypothesis He : (0 <= eps <= / 2 ^ 30)%R.
Hypothesis HM : 1 <= MM.
Hypothesis HN : 0 <= Nmax.
Hypothesis HQ : 2 * MM + Nmax <= Q.
Hypothesis HQ2 : Q <= 2 ^ 20.
Notation lam := (IZR (Z.log2 Q) + 1)%R.
Notation ee := (eps + 40 * uu)%R.
Let Qr : (1 <= IZR Q <= 1048576)%R. Proof. split; apply IZR_le; lia. Qed.
Lemma plam_rng : (1 <= lam <= 21)%R.
Proof.
  assert (0 <= Z.log2 Q <= 20). { split; [apply Z.log2_nonneg|]. assert (Z.log2 Q < 21) by (apply Z.log2_lt_pow2; lia). lia. }
  assert (0 <= IZR (Z.log2 Q) <= 20)%R by (split; apply IZR_le; lia). lra.
Qed.
Lemma ee_rng : (40 * uu <= ee <= / 10 ^ 8)%R.
Proof. pose proof uu_small. split; [lra|]. rewrite uu_val. lra. Qed.
Lemma pt_small k : (-1074 <= k <= -880) -> (IZR Q * bpow radix2 k <= / 10 ^ 30)%R.
Proof.
  intros Hk. apply Rle_trans with (bpow radix2 20 * bpow radix2 k)%R.
  - apply Rmult_le_compat_r; [apply bpow_ge_0|]. change (bpow radix2 20) with 1048576%R. lra.
  - rewrite <- bpow_plus. apply Rle_trans with (bpow radix2 (-200)); [apply bpow_le; lia|]. apply Rle_trans with (bpow radix2 (-100)); [apply bpow_le; lia|]. pose proof (bpow_gt_0 radix2 100).
    change (-100) with (- (100)). rewrite bpow_opp. apply Rinv_le_contravar; [lra|]. change (bpow radix2 100) with (IZR (2 ^ 100)). rewrite (pow_IZR 10 30). apply IZR_le. vm_compute. discriminate.
Qed.

(** the transform of s_data *)
Definition pSh (k : Z) : C := sumC 0 Q (fun j => s_val MM Nmax Q j * root Q (- (j * k)))%C.
Lemma s_sum : (sumR 0 Q (fun j => Cmod (s_val MM Nmax Q j)) <= 2 * lam)%R.
Proof. eapply Rle_trans; [|apply (cs_sum MM Nmax Q HM HN HQ)]. apply sumR_le. intros j Hj. apply s_val_le; auto. Qed.
Lemma pSh_bound k : (Cmod (pSh k) <= 2 * lam)%R.
Proof. unfold pSh. eapply Rle_trans; [apply Cmod_sumC1; lia|]. eapply Rle_trans; [|exact s_sum]. apply sumR_le. intros j _. rewrite Cmod_mult, Cmod_root. lra. Qed.
Let sv := vmake Q (fs_val MM Nmax Q).
Lemma sfft_ok : zlen (fft sv) = Q /\ forall k, 0 <= k < Q -> near (22 / 10 * ee * lam) (vgf (fft sv) k) (pSh k).
Proof.
  pose proof plam_rng as L. pose proof ee_rng as TR. pose proof uu_small as U. pose proof s_sum as CS.
  assert (FO : forall j, 0 <= j < Q -> finc (fs_val MM Nmax Q j) /\ (Cmod (VC (fs_val MM Nmax Q j) - s_val MM Nmax Q j)%C <= uu * Cmod (s_val MM Nmax Q j) + dmin)%R) by (intros j Hj; apply fs_val_ok; auto; lia).
  assert (DS : (sumR 0 Q (fun j => uu * Cmod (s_val MM Nmax Q j) + dmin) <= uu * (2 * lam) + / 10 ^ 30)%R).
  { rewrite sumR_add, <- sumR_mul, sumR_const by lia. rewrite Z.sub_0_r. pose proof (pt_small (-1074) ltac:(lia)). assert (uu * sumR 0 Q (fun j => Cmod (s_val MM Nmax Q j)) <= uu * (2 * lam))%R by (apply Rmult_le_compat_l; lra). lra. }
  assert (ul : (uu * (2 * lam) <= / 10 ^ 15 * (2 * 21))%R) by (apply Rmult_le_compat; lra).
  destruct (Hfft Q sv (21 / 10 * lam)%R ltac:(lia)) as (LS & NS).
  - apply zlen_vmake'. lia.
  - intros j Hj. unfold sv. rewrite vget_vmake by lia. apply FO, Hj.
  - apply Rle_trans with (sumR 0 Q (fun j => Cmod (s_val MM Nmax Q j) + (uu * Cmod (s_val MM Nmax Q j) + dmin)))%R.
    + apply sumR_le. intros j Hj. unfold sv. rewrite vget_vmake by lia. destruct (FO j Hj) as [_ E].
      replace (VC (fs_val MM Nmax Q j)) with (s_val MM Nmax Q j + (VC (fs_val MM Nmax Q j) - s_val MM Nmax Q j))%C by ring.
      eapply Rle_trans; [apply Cmod_triangle|]. lra.
    + rewrite sumR_add. lra.
  - split; [apply Rle_trans with (bpow radix2 0); [apply bpow_le; lia|change (bpow radix2 0) with 1%R; lra]|]. apply Rle_trans with (bpow radix2 10); [change (bpow radix2 10) with 1024%R; lra|apply bpow_le; lia].
  - split; [exact LS|]. intros k Hk. destruct (NS k Hk) as (F & EE). split; [exact F|].
    match type of EE with (Cmod (_ - ?X)%C <= _)%R => set (X1 := X) in * end.
    replace (VC (vgf (fft sv) k) - pSh k)%C with ((VC (vgf (fft sv) k) - X1) + (X1 - pSh k))%C by ring. eapply Rle_trans; [apply Cmod_triangle|].
    assert (D : (Cmod (X1 - pSh k)%C <= uu * (2 * lam) + / 10 ^ 30)%R).
    { eapply Rle_trans; [|exact DS]. unfold X1, pSh. rewrite <- sumC_sub. eapply Rle_trans; [apply Cmod_sumC1; lia|]. apply sumR_le. intros j Hj. unfold sv. rewrite vget_vmake by lia.
      replace (VC (fs_val MM Nmax Q j) * root Q (- (j * k)) - s_val MM Nmax Q j * root Q (- (j * k)))%C with ((VC (fs_val MM Nmax Q j) - s_val MM Nmax Q j) * root Q (- (j * k)))%C by ring.
      rewrite Cmod_mult, Cmod_root, Rmult_1_r. apply FO, Hj. }
    assert (/ 10 ^ 30 <= uu * lam)%R. { apply Rle_trans with (uu * 1)%R; [rewrite uu_val; lra|]. apply Rmult_le_compat_l; lra. }
    assert (0 <= eps * lam)%R by (apply Rmult_le_pos; lra).
    replace (22 / 10 * ee * lam)%R with (22 / 10 * (eps * lam) + 88 * (uu * lam))%R by field.
    replace (eps * (21 / 10 * lam))%R with (21 / 10 * (eps * lam))%R in EE by field. replace (uu * (2 * lam))%R with (2 * (uu * lam))%R in * by ring. lra.
Qed.

Section Column.
Variables (x : Z -> cf) (F1 : R).
Hypothesis Hx : forall i, 0 <= i < 2 * MM -> finc (x i).
Hypothesis Hsum : (sumR 0 (2 * MM) (fun i => Cmod (VC (x i))) <= F1)%R.
Hypothesis HF1 : (bpow radix2 (-800) <= F1 <= bpow radix2 860)%R.
Definition pff (j : Z) : cf := if j <? MM then x (j + MM) else if (MM <=? j) && (j <? 2 * MM) then x (j - MM) else cf0.
Definition phkm_err : R := (90 * (ee * lam * F1))%R.
Lemma F1_pos : (0 < F1)%R. Proof. pose proof (bpow_gt_0 radix2 (-800)). lra. Qed.
Lemma ptlF : (6 * dmin <= / 10 ^ 25 * (uu * (lam * F1)))%R.
Proof.
  pose proof plam_rng as L. pose proof F1_pos as P.
  apply Rle_trans with (/ 10 ^ 25 * (uu * (1 * bpow radix2 (-800))))%R.
  - rewrite Rmult_1_l. apply Rle_trans with (bpow radix2 (-100) * (uu * bpow radix2 (-800)))%R.
    + unfold uu. rewrite <- !bpow_plus. apply Rle_trans with (bpow radix2 3 * dmin)%R; [change (bpow radix2 3) with 8%R; pose proof dmin_pos; lra|]. rewrite <- bpow_plus. apply bpow_le. lia.
    + apply Rmult_le_compat_r; [apply Rmult_le_pos; apply bpow_ge_0|]. change (-100) with (- (100)). rewrite bpow_opp. apply Rinv_le_contravar; [apply pow_lt; lra|]. change (bpow radix2 100) with (IZR (2 ^ 100)). rewrite (pow_IZR 10 25). apply IZR_le. vm_compute. discriminate.
  - apply Rmult_le_compat_l; [left; apply Rinv_0_lt_compat, pow_lt; lra|]. apply Rmult_le_compat_l; [pose proof uu_small; lra|]. apply Rmult_le_compat; try lra. apply bpow_ge_0.
Qed.
Lemma pff_fin j : 0 <= j < Q -> finc (pff j).
Proof.
  intros Hj. unfold pff. destruct (Z.ltb_spec j MM); [apply Hx; lia|]. destruct (Z.leb_spec MM j), (Z.ltb_spec j (2 * MM)); cbn [andb]; try (apply Hx; lia); try lia.
  destruct (fofZ_small 0) as (D3 & F3 & E4); [lia|]. split; split; auto.
Qed.
Lemma pff_sum : (sumR 0 Q (fun j => Cmod (VC (pff j))) <= F1)%R.
Proof.
  eapply Rle_trans; [|exact Hsum]. right.
  assert (Z0 : Cmod (VC cf0) = 0%R). { replace (VC cf0) with (RtoC 0) by reflexivity. apply Cmod_0. }
  rewrite (sumR_extend 0 (2 * MM) 0 Q); [|lia|lia|lia|intros k Hk Hnk; unfold pff; destruct (Z.ltb_spec k MM); [lia|]; destruct (Z.ltb_spec k (2 * MM)); [lia|]; rewrite andb_false_r; exact Z0].
  rewrite (sumR_split 0 MM (2 * MM)), Rplus_comm by lia. rewrite (sumR_split 0 MM (2 * MM)) by lia. f_equal.
  - transitivity (sumR (0 + MM) (MM + MM) (fun j => Cmod (VC (pff j)))); [f_equal; lia|]. rewrite sumR_shift. apply sumR_ext. intros j Hj. do 2 f_equal. unfold pff.
    destruct (Z.ltb_spec (j + MM) MM); [lia|]. destruct (Z.leb_spec MM (j + MM)), (Z.ltb_spec (j + MM) (2 * MM)); cbn [andb]; try lia. f_equal. ring.
  - transitivity (sumR (0 + MM) (MM + MM) (fun j => Cmod (VC (x j)))); [|f_equal; lia]. rewrite sumR_shift. apply sumR_ext. intros j Hj. do 2 f_equal. unfold pff.
    destruct (Z.ltb_spec j MM); [|lia]. reflexivity.
Qed.
Definition pFh (k : Z) : C := sumC 0 Q (fun j => VC (pff j) * root Q (- (j * k)))%C.
Lemma pFh_bound k : (Cmod (pFh k) <= F1)%R.
Proof. unfold pFh. eapply Rle_trans; [apply Cmod_sumC1; lia|]. eapply Rle_trans; [|apply pff_sum]. apply sumR_le. intros j _. rewrite Cmod_mult, Cmod_root. lra. Qed.
Let fv := vmake Q pff.
Lemma ffft_ok : zlen (fft fv) = Q /\ forall k, 0 <= k < Q -> near (eps * F1) (vgf (fft fv) k) (pFh k).
Proof.
  destruct (Hfft Q fv F1 ltac:(lia)) as (LS & NS).
  - apply zlen_vmake'. lia.
  - intros j Hj. unfold fv. rewrite vget_vmake by lia. apply pff_fin, Hj.
  - eapply Rle_trans; [|exact pff_sum]. right. apply sumR_ext. intros j Hj. unfold fv. rewrite vget_vmake by lia. reflexivity.
  - split; [apply HF1|]. apply Rle_trans with (bpow radix2 860); [apply HF1|apply bpow_le; lia].
  - split; [exact LS|]. intros k Hk. destruct (NS k Hk) as (F & EE). split; [exact F|].
    replace (pFh k) with (sumC 0 Q (fun j => VC (vgf fv j) * root Q (- (j * k)))%C); [exact EE|]. apply sumC_ext. intros j Hj. unfold fv. rewrite vget_vmake by lia. reflexivity.
Qed.

(** the product *)
Lemma pprod_ok f s k : near (eps * F1) f (pFh k) -> near (22 / 10 * ee * lam) s (pSh k) ->
  near (47 / 10 * (ee * lam * F1)) (cfmul f s) (pFh k * pSh k)%C /\ (Cmod (VC (cfmul f s)) <= 21 / 10 * (lam * F1))%R.
Proof.
  intros (Ff & Ef) (Fs & Es). pose proof plam_rng as L. pose proof ee_rng as TR. pose proof ptlF as T. pose proof uu_small as U. pose proof dmin_pos as DM. pose proof F1_pos as P.
  assert (lf : (F1 <= lam * F1 <= 21 * F1)%R) by (split; [replace F1 with (1 * F1)%R at 1 by ring|]; apply Rmult_le_compat_r; lra).
  assert (el : (0 <= ee * lam <= / 10 ^ 8 * lam)%R) by (split; [apply Rmult_le_pos; lra|apply Rmult_le_compat_r; lra]).
  assert (ef : (0 <= eps * F1 <= / 10 ^ 8 * F1)%R) by (split; [apply Rmult_le_pos; lra|apply Rmult_le_compat_r; lra]).
  assert (elf : (0 <= ee * lam * F1 <= / 10 ^ 8 * (lam * F1))%R) by (split; [apply Rmult_le_pos; lra|rewrite <- Rmult_assoc; apply Rmult_le_compat_r; lra]).
  assert (Bs : (Cmod (VC s) <= 21 / 10 * lam)%R).
  { replace (VC s) with ((VC s - pSh k) + pSh k)%C by ring. eapply Rle_trans; [apply Cmod_triangle|]. pose proof (pSh_bound k). lra. }
  assert (Bf : (Cmod (VC f) <= 102 / 100 * F1)%R).
  { replace (VC f) with ((VC f - pFh k) + pFh k)%C by ring. eapply Rle_trans; [apply Cmod_triangle|]. pose proof (pFh_bound k). lra. }
  destruct (rv_mul f s Ff Fs (102 / 100 * F1) (21 / 10 * lam) Bf Bs) as (FP & EP).
  { apply Rle_trans with (bpow radix2 10 * bpow radix2 860)%R; [|rewrite <- bpow_plus; apply bpow_le; lia].
    apply Rle_trans with (100 * F1 + 1)%R; [lra|].
    assert (1 <= bpow radix2 860)%R by (change 1%R with (bpow radix2 0); apply bpow_le; lia). change (bpow radix2 10) with 1024%R. lra. }
  replace (5 * uu * (102 / 100 * F1 * (21 / 10 * lam)))%R with (10710 / 1000 * (uu * (lam * F1)))%R in EP by field.
  assert (uL : (40 * (uu * (lam * F1)) <= ee * lam * F1)%R).
  { replace (40 * (uu * (lam * F1)))%R with (40 * uu * (lam * F1))%R by ring. rewrite (Rmult_assoc ee). apply Rmult_le_compat_r; lra. }
  assert (u0 : (0 <= uu * (lam * F1))%R) by (apply Rmult_le_pos; lra).
  assert (EE : (Cmod (VC (cfmul f s) - pFh k * pSh k)%C <= 47 / 10 * (ee * lam * F1))%R).
  { replace (VC (cfmul f s) - pFh k * pSh k)%C with ((VC (cfmul f s) - VC f * VC s) + ((VC f - pFh k) * pSh k + VC f * (VC s - pSh k)))%C by ring.
    eapply Rle_trans; [apply Cmod_triangle|]. eapply Rle_trans; [apply Rplus_le_compat_l, Cmod_triangle|]. rewrite !Cmod_mult.
    assert (Cmod (VC f) * Cmod (VC s - pSh k)%C <= 102 / 100 * F1 * (22 / 10 * ee * lam))%R by (apply Rmult_le_compat; auto using Cmod_ge_0).
    assert (Cmod (VC f - pFh k)%C * Cmod (pSh k) <= eps * F1 * (2 * lam))%R by (apply Rmult_le_compat; auto using Cmod_ge_0; apply pSh_bound).
    assert (eps * F1 * (2 * lam) <= 2 * (ee * lam * F1))%R.
    { replace (eps * F1 * (2 * lam))%R with (2 * (eps * (lam * F1)))%R by ring. rewrite (Rmult_assoc ee). apply Rmult_le_compat_l; [lra|]. apply Rmult_le_compat_r; lra. }
    replace (102 / 100 * F1 * (22 / 10 * ee * lam))%R with (2244 / 1000 * (ee * lam * F1))%R in * by field. lra. }
  split; [split; [exact FP|exact EE]|].
  replace (VC (cfmul f s)) with ((VC (cfmul f s) - pFh k * pSh k) + pFh k * pSh k)%C by ring. eapply Rle_trans; [apply Cmod_triangle|]. rewrite Cmod_mult.
  assert (Cmod (pFh k) * Cmod (pSh k) <= F1 * (2 * lam))%R by (apply Rmult_le_compat; auto using Cmod_ge_0; [apply pFh_bound|apply pSh_bound]). lra.
Qed.

(** the inverse transform *)
Definition pconv (k : Z) : C := sumC 0 Q (fun a => VC (pff a) * s_val MM Nmax Q ((k - a) mod Q))%C.
Lemma pinv_ok P : zlen P = Q -> (forall k, 0 <= k < Q -> near (47 / 10 * (ee * lam * F1)) (vgf P k) (pFh k * pSh k)%C /\ (Cmod (VC (vgf P k)) <= 21 / 10 * (lam * F1))%R) ->
  zlen (ifft P) = Q /\ forall k, 0 <= k < Q -> near (68 / 10 * (ee * lam * F1)) (vgf (ifft P) k) (pconv k) /\ (Cmod (pconv k) <= 2 * (lam * F1))%R.
Proof.
  intros LP HP. pose proof plam_rng as L. pose proof ee_rng as TR. pose proof uu_small as U. pose proof F1_pos as P0.
  assert (lf : (F1 <= lam * F1 <= 21 * F1)%R) by (split; [replace F1 with (1 * F1)%R at 1 by ring|]; apply Rmult_le_compat_r; lra).
  assert (qlf : (1 * (lam * F1) <= IZR Q * (lam * F1) <= 1048576 * (lam * F1))%R) by (split; apply Rmult_le_compat_r; lra).
  destruct (Hifft Q P (21 / 10 * (IZR Q * (lam * F1)))%R ltac:(lia) LP) as (LR & NR).
  - intros j Hj. apply HP, Hj.
  - apply Rle_trans with (sumR 0 Q (fun _ => 21 / 10 * (lam * F1))%R); [|rewrite sumR_const by lia; rewrite Z.sub_0_r; right; ring]. apply sumR_le. intros j Hj. apply HP, Hj.
  - split; [lra|]. apply Rle_trans with (bpow radix2 40 * bpow radix2 860)%R; [|rewrite <- bpow_plus; apply bpow_le; lia].
    apply Rle_trans with (bpow radix2 40 * F1)%R; [change (bpow radix2 40) with 1099511627776%R; lra|]. apply Rmult_le_compat_l; [apply bpow_ge_0|apply HF1].
  - split; [exact LR|]. intros k Hk.
    assert (EC : (RtoC (IZR Q) * pconv k)%C = sumC 0 Q (fun p => (pFh p * pSh p) * root Q (p * k))%C).
    { unfold pconv. rewrite <- (dft_conv Q ltac:(lia)) by lia. reflexivity. }
    assert (Qn : (IZR Q <> 0)%R) by lra. assert (Qi : (0 < / IZR Q)%R) by (apply Rinv_0_lt_compat; lra).
    assert (BC : (Cmod (pconv k) <= 2 * (lam * F1))%R).
    { apply Rmult_le_reg_l with (IZR Q); [lra|]. replace (IZR Q * Cmod (pconv k))%R with (Cmod (RtoC (IZR Q) * pconv k)%C) by (rewrite Cmod_mult, Cmod_R, Rabs_pos_eq; lra).
      rewrite EC. eapply Rle_trans; [apply Cmod_sumC1; lia|]. apply Rle_trans with (sumR 0 Q (fun _ => F1 * (2 * lam))%R); [|rewrite sumR_const by lia; rewrite Z.sub_0_r; right; ring].
      apply sumR_le. intros p _. rewrite !Cmod_mult, Cmod_root, Rmult_1_r. apply Rmult_le_compat; auto using Cmod_ge_0; [apply pFh_bound|apply pSh_bound]. }
    split; [|exact BC]. destruct (NR k Hk) as (FR & ER). split; [exact FR|].
    set (T := (RtoC (/ IZR Q) * sumC 0 Q (fun j => VC (vgf P j) * root Q (j * k)))%C) in ER.
    assert (ET : (Cmod (T - pconv k)%C <= 47 / 10 * (ee * lam * F1))%R).
    { replace (pconv k) with (RtoC (/ IZR Q) * (RtoC (IZR Q) * pconv k))%C by (rewrite Cmult_assoc, <- RtoC_mult, Rinv_l by exact Qn; ring).
      rewrite EC. unfold T. replace (RtoC (/ IZR Q) * sumC 0 Q (fun j => VC (vgf P j) * root Q (j * k)) - RtoC (/ IZR Q) * sumC 0 Q (fun p => pFh p * pSh p * root Q (p * k)))%C
        with (RtoC (/ IZR Q) * (sumC 0 Q (fun j => VC (vgf P j) * root Q (j * k)) - sumC 0 Q (fun p => pFh p * pSh p * root Q (p * k))))%C by ring.
      rewrite Cmod_mult, Cmod_R, (Rabs_pos_eq (/ IZR Q)) by lra. rewrite <- sumC_sub.
      apply Rle_trans with (/ IZR Q * (IZR Q * (47 / 10 * (ee * lam * F1))))%R; [|right; field; exact Qn]. apply Rmult_le_compat_l; [lra|].
      eapply Rle_trans; [apply Cmod_sumC1; lia|]. apply Rle_trans with (sumR 0 Q (fun _ => 47 / 10 * (ee * lam * F1))%R); [|rewrite sumR_const by lia; rewrite Z.sub_0_r; right; ring].
      apply sumR_le. intros p Hp. destruct (HP p Hp) as ((_ & Ep) & _).
      replace (VC (vgf P p) * root Q (p * k) - pFh p * pSh p * root Q (p * k))%C with ((VC (vgf P p) - pFh p * pSh p) * root Q (p * k))%C by ring.
      rewrite Cmod_mult, Cmod_root, Rmult_1_r. exact Ep. }
    replace (VC (vgf (ifft P) k) - pconv k)%C with ((VC (vgf (ifft P) k) - T) + (T - pconv k))%C by ring.
    eapply Rle_trans; [apply Cmod_triangle|].
    assert (EF : (eps * (21 / 10 * (IZR Q * (lam * F1))) / IZR Q = 21 / 10 * (eps * (lam * F1)))%R) by (field; exact Qn).
    rewrite EF in ER. assert (eps * (lam * F1) <= ee * lam * F1)%R by (rewrite (Rmult_assoc ee); apply Rmult_le_compat_r; lra). lra.
Qed.

(** the factor 4 pi *)
Lemma pscale_ok r c : near (68 / 10 * (ee * lam * F1)) r c -> (Cmod c <= 2 * (lam * F1))%R ->
  near phkm_err (cfmul (cfre (fmul (fofZ 4) f_pi)) r) (RtoC (4 * PI) * c)%C /\ (Cmod (VC (cfmul (cfre (fmul (fofZ 4) f_pi)) r)) <= 26 * (lam * F1))%R.
Proof.
  intros (Fr & Er) Bc. pose proof plam_rng as L. pose proof ee_rng as TR. pose proof ptlF as T. pose proof uu_small as U. pose proof dmin_pos as DM. pose proof F1_pos as P. pose proof PI_bounds as PB.
  assert (lf : (F1 <= lam * F1 <= 21 * F1)%R) by (split; [replace F1 with (1 * F1)%R at 1 by ring|]; apply Rmult_le_compat_r; lra).
  assert (elf : (0 <= ee * lam * F1 <= / 10 ^ 8 * (lam * F1))%R) by (rewrite (Rmult_assoc ee); split; [apply Rmult_le_pos; lra|apply Rmult_le_compat_r; lra]).
  assert (uL : (40 * (uu * (lam * F1)) <= ee * lam * F1)%R).
  { replace (40 * (uu * (lam * F1)))%R with (40 * uu * (lam * F1))%R by ring. rewrite (Rmult_assoc ee). apply Rmult_le_compat_r; lra. }
  assert (u0 : (0 <= uu * (lam * F1))%R) by (apply Rmult_le_pos; lra).
  destruct fourpi_ok as (D1 & F1' & E1 & B1). set (q := fmul (fofZ 4) f_pi) in *. clearbody q. destruct (fofZ_small 0) as (D3 & F3 & E3); [lia|].
  assert (Fq : finc (cfre q)) by (split; split; assumption).
  assert (Vq : VC (cfre q) = RtoC (V q)) by (unfold VC, cfre, RtoC; cbn [fst snd]; rewrite E3; reflexivity).
  assert (Mq : (Cmod (VC (cfre q)) <= 126 / 10)%R) by (rewrite Vq, Cmod_R; exact B1).
  assert (Mr : (Cmod (VC r) <= 21 / 10 * (lam * F1))%R).
  { replace (VC r) with ((VC r - c) + c)%C by ring. eapply Rle_trans; [apply Cmod_triangle|]. lra. }
  destruct (rv_mul (cfre q) r Fq Fr (126 / 10) (21 / 10 * (lam * F1)) Mq Mr) as (FP & EP).
  { apply Rle_trans with (bpow radix2 20 * bpow radix2 860)%R; [|rewrite <- bpow_plus; apply bpow_le; lia].
    apply Rle_trans with (100000 * F1 + 1)%R; [lra|].
    assert (1 <= bpow radix2 860)%R by (change 1%R with (bpow radix2 0); apply bpow_le; lia). change (bpow radix2 20) with 1048576%R. lra. }
  replace (5 * uu * (126 / 10 * (21 / 10 * (lam * F1))))%R with (1323 / 10 * (uu * (lam * F1)))%R in EP by field.
  set (y := cfmul (cfre q) r) in *.
  assert (EE : (Cmod (VC y - RtoC (4 * PI) * c)%C <= phkm_err)%R).
  { replace (VC y - RtoC (4 * PI) * c)%C with ((VC y - VC (cfre q) * VC r) + (VC (cfre q) * (VC r - c) + (VC (cfre q) - RtoC (4 * PI)) * c))%C by ring.
    eapply Rle_trans; [apply Cmod_triangle|]. eapply Rle_trans; [apply Rplus_le_compat_l, Cmod_triangle|]. rewrite !Cmod_mult.
    assert (Cmod (VC (cfre q)) * Cmod (VC r - c)%C <= 126 / 10 * (68 / 10 * (ee * lam * F1)))%R by (apply Rmult_le_compat; auto using Cmod_ge_0).
    assert (Cmod (VC (cfre q) - RtoC (4 * PI))%C * Cmod c <= 13 * uu * (2 * (lam * F1)))%R.
    { apply Rmult_le_compat; auto using Cmod_ge_0. rewrite Vq, <- RtoC_minus, Cmod_R. exact E1. }
    unfold phkm_err. replace (13 * uu * (2 * (lam * F1)))%R with (26 * (uu * (lam * F1)))%R in * by ring. lra. }
  split; [split; [exact FP|exact EE]|].
  replace (VC y) with ((VC y - RtoC (4 * PI) * c) + RtoC (4 * PI) * c)%C by ring. eapply Rle_trans; [apply Cmod_triangle|]. rewrite Cmod_mult, Cmod_R, (Rabs_pos_eq (4 * PI)) by lra.
  assert (4 * PI * Cmod c <= 126 / 10 * (2 * (lam * F1)))%R by (apply Rmult_le_compat; auto using Cmod_ge_0; lra). unfold phkm_err in EE. lra.
Qed.

(** the convolution is the linear one when the half row is zero *)
Lemma pconv_hconv k : VC (x MM) = RtoC 0 -> 0 <= k <= Nmax -> (RtoC (4 * PI) * pconv k)%C = hconv MM (fun nu => VC (x (nu mod (2 * MM)))) k.
Proof.
  intros Hz Hk. unfold pconv, hconv. f_equal.
  assert (V0 : VC cf0 = RtoC 0) by reflexivity.
  rewrite (sumC_extend 0 (2 * MM)); try lia.
  2:{ intros j Hj Hn. unfold pff. destruct (Z.ltb_spec j MM); [lia|].
      destruct (Z.ltb_spec j (2 * MM)); [lia|]. rewrite andb_false_r, V0. ring. }
  transitivity (sumC (- MM + MM) (MM + MM) (fun a => VC (pff a) * s_val MM Nmax Q ((k - a) mod Q)))%C; [f_equal; lia|].
  rewrite sumC_shift. apply sumC_ext. intros nu Hnu.
  assert (Hf : VC (pff (nu + MM)) = VC (x (nu mod (2 * MM)))).
  { unfold pff. destruct (Z.ltb_spec (nu + MM) MM).
    - do 2 f_equal. rewrite <- (Z_mod_plus_full nu 1). symmetry. rewrite Z.mod_small by lia. lia.
    - destruct (Z.leb_spec MM (nu + MM)); [|lia]. destruct (Z.ltb_spec (nu + MM) (2 * MM)); [|lia]. cbn [andb].
      do 2 f_equal. rewrite Z.mod_small by lia. lia. }
  rewrite Hf.
  destruct (Z.eq_dec nu (- MM)) as [->|Hn].
  { replace (- MM mod (2 * MM)) with MM.
    - rewrite Hz. ring.
    - rewrite <- (Z_mod_plus_full (- MM) 1). rewrite Z.mod_small; lia. }
      f_equal. unfold s_val. destruct (Z_lt_le_dec (k - (nu + MM)) 0) as [L|L].
      -- assert (Em : (k - (nu + MM)) mod Q = k - (nu + MM) + Q). { rewrite <- (Z_mod_plus_full _ 1). rewrite Z.mod_small; lia. }
         rewrite Em. destruct (Z.leb_spec (k - (nu + MM) + Q) Nmax); [lia|]. cbn [andb].
         destruct (Z.leb_spec (Q - 2 * MM) (k - (nu + MM) + Q)); [|lia]. f_equal. lia.
      -- rewrite Z.mod_small by lia. destruct (Z.leb_spec (k - (nu + MM)) Nmax); [|lia]. cbn [andb].
         replace (k - (nu + MM) + MM) with (k - nu) by lia.
         destruct (Z.odd (k - nu)) eqn:Eo; auto.
         destruct (Z.leb_spec (Q - 2 * MM) (k - (nu + MM))); [lia|]. unfold sig. now rewrite Eo.
Qed.

(** hkm_fc *)
Lemma fp_hkm_ok nc fdata m : - nc <= m < nc -> (forall i, 0 <= i < 2 * MM -> fget nc fdata i (m mod nc) = x i) -> VC (x MM) = RtoC 0 ->
  exists h, fp_hkm_fc fft ifft (2 * MM) nc fdata Nmax m sv = Ok h /\ zlen h = Nmax + 1 /\
    forall k, 0 <= k <= Nmax -> near phkm_err (vgf h k) (hconv MM (fun nu => VC (x (nu mod (2 * MM)))) k) /\ (Cmod (VC (vgf h k)) <= 26 * (lam * F1))%R.
Proof.
  intros Hm Hg Hz. unfold fp_hkm_fc.
  assert (EI : py_index nc m = Ok (m mod nc)).
  { destruct (Z_lt_le_dec m 0).
    - rewrite py_index_wrap by lia. f_equal. rewrite <- (Z_mod_plus_full m 1). symmetry. rewrite Z.mod_small; lia.
    - rewrite py_index_in by lia. now rewrite Z.mod_small by lia. }
  rewrite EI. cbn [bind].
  assert (EX : vmake (2 * MM) (fun i => fget nc fdata i (m mod nc)) = vmake (2 * MM) x) by (apply vmake_ext; exact Hg). rewrite EX. clear EX EI.
  assert (Lsv : zlen sv = Q) by (apply zlen_vmake'; lia).
  rewrite (zlen_vmake' (2 * MM)) by lia. rewrite Lsv.
  replace (2 * MM / 2) with MM by (rewrite Z.mul_comm, Z.div_mul; lia).
  rewrite np_zeros_ok by lia. cbn [bind].
  destruct (mfor_inv (fun p s => s = vmake Q (fun j => if (MM <=? j) && (j <? p) then x (j - MM) else cf0)) MM (2 * MM)
    (fun n ff => y <- py_get cf0 (vmake (2 * MM) x) (n - MM) ;; py_set ff n y) (vmake Q (fun _ => cf0))) as (s1 & -> & ->).
  - lia.
  - apply vmake_ext. intros j Hj. destruct (Z.leb_spec MM j), (Z.ltb_spec j MM); auto; lia.
  - intros p s Hp ->. rewrite py_get_vmake by lia. cbn [bind]. rewrite py_set_vmake by lia.
    eexists; split; [reflexivity|]. apply vmake_ext. intros j Hj.
    destruct (Z.eqb_spec j p), (Z.leb_spec MM j), (Z.ltb_spec j p), (Z.ltb_spec j (p + 1)); try subst j; auto; lia.
  - cbn [bind].
    destruct (mfor_inv (fun p s => s = vmake Q (fun j => if j <? p then x (j + MM) else
        if (MM <=? j) && (j <? 2 * MM) then x (j - MM) else cf0)) 0 MM
      (fun n ff => y <- py_get cf0 (vmake (2 * MM) x) (n + MM) ;; py_set ff n y)
      (vmake Q (fun j => if (MM <=? j) && (j <? 2 * MM) then x (j - MM) else cf0))) as (s2 & -> & ->).
    + lia.
    + apply vmake_ext. intros j Hj. destruct (Z.ltb_spec j 0); auto; lia.
    + intros p s Hp ->. rewrite py_get_vmake by lia. cbn [bind]. rewrite py_set_vmake by lia.
      eexists; split; [reflexivity|]. apply vmake_ext. intros j Hj.
      destruct (Z.eqb_spec j p), (Z.ltb_spec j p), (Z.ltb_spec j (p + 1)); try subst j; auto; lia.
    + cbn [bind]. change (vmake Q (fun j => if j <? MM then x (j + MM) else if (MM <=? j) && (j <? 2 * MM) then x (j - MM) else cf0)) with fv.
      assert (Lfv : zlen fv = Q) by (apply zlen_vmake'; lia). rewrite Lfv. destruct (Z.ltb_spec Q 1); [lia|]. cbv zeta.
      destruct ffft_ok as (L1 & N1). destruct sfft_ok as (L2 & N2).
      assert (E1 : fft fv = vmake Q (vgf (fft fv))) by (rewrite <- L1 at 1; symmetry; apply vmake_vget).
      assert (E2 : fft sv = vmake Q (vgf (fft sv))) by (rewrite <- L2 at 1; symmetry; apply vmake_vget).
      rewrite E1, E2, np_broadcast_vmake. cbn [bind]. set (P := vmake Q _).
      assert (LP : zlen P = Q) by (apply zlen_vmake'; lia).
      destruct (pinv_ok P LP) as (L3 & N3).
      { intros k Hk. unfold P. rewrite vget_vmake by lia. apply pprod_ok; auto. }
      eexists. split; [reflexivity|].
      assert (Lm : zlen (map (cfmul (cfre (fmul (fofZ 4) f_pi))) (ifft P)) = Q) by (rewrite zlen_map; exact L3).
      split; [rewrite zlen_py_slice by lia; lia|]. intros k Hk.
      rewrite vget_py_slice by lia. rewrite (vget_map _ cf0) by lia. rewrite <- pconv_hconv by auto. replace (0 + k) with k by lia.
      destruct (N3 k ltac:(lia)) as (A & B). apply pscale_ok; assumption.
Qed.
End Column.
End HkmP.
