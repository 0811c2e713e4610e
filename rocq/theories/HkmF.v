(** * HkmF: SData and hkm_fc in double precision. *)
From Coq Require Import ZArith List Bool SpecFloat Reals Lia Lra Psatz Permutation Znumtheory.
From Coquelicot Require Import Complex.
From Flocq Require Import Core.Core IEEE754.BinarySingleNaN.
From Verif Require Import Py PyFacts Num FloatN FloatText Exact MCoefs Sums Smooth MPysphi Dft PysphiFacts TransFacts MKiss KissFacts KissFacts2 MCsphi CsphiFacts MDouble FlFacts SeedReal SeedFl SeedFl2 DoubleFacts FlSigned SbesselFTerm SbesselFRel SbesselFFun TabFl SumFl SumFl2 SumFl3 MKissF KissFl KissFl2 KissFl3 KissFl4 KissFl5 KissFl6 MCsphiF.
Import ListNotations.
Open Scope list_scope.
Open Scope Z_scope.

Lemma fbget_vmake n f i : 0 <= i < n -> fbget (vmake n f) i = Ok (f i).
Proof. apply bget_vmake. Qed.

(** ** SData *)
Definition fsig (k : Z) : cf := (fofZ 0, fdiv (fofZ (-1)) (fofZ k)).
Definition fcs (MM Nmax Q : Z) (j : Z) : cf :=
  if (Q - 2 * MM <=? j) && Z.odd (j - Q + MM) then fsig (j - Q + MM)
  else if (j <=? Nmax) && Z.odd (j + MM) then fsig (j + MM) else cf0.
Lemma SDataF_ok s MM Nmax Q : 1 <= MM -> 0 <= Nmax -> 2 * MM + Nmax <= Q -> zlen s = Q ->
  SDataF s Q (2 * MM) Nmax = Ok (vmake Q (fcs MM Nmax Q)).
Proof.
  intros HM HN HQ Hs. unfold SDataF. rewrite cfill_ok by auto. cbn [bind].
  replace (Z.quot (2 * MM) 2) with MM by (rewrite Z.mul_comm, Z.quot_mul; lia).
  set (v1 := fun k j => if (j + MM <? k) && Z.odd (j + MM) then fsig (j + MM) else cf0).
  assert (V1 : forall k j, fst (v1 k j) = fofZ 0).
  { intros. unfold v1. destruct (_ && Z.odd (j + MM)) eqn:E2; [|reflexivity]. apply andb_prop in E2. reflexivity. }
  match goal with |- context [mfor (zrange MM (MM + (Nmax + 1) - 1 + 1)) ?f ?b] =>
    destruct (mfor_inv (fun k s => s = vmake Q (v1 k)) MM (MM + (Nmax + 1) - 1 + 1) f b) as (s1 & -> & ->) end.
  - lia.
  - apply vmake_ext. intros j Hj. unfold v1. destruct (Z.ltb_spec (j + MM) MM); [lia|auto].
  - intros k s' Hk ->. rewrite rem_odd by lia. destruct (Z.odd k) eqn:Eo.
    + unfold set_imf. rewrite fbget_vmake by lia. cbn [bind]. rewrite bset_vmake by lia. eexists; split; [reflexivity|].
      apply vmake_ext. intros j Hj. rewrite V1. unfold v1.
      destruct (Z.eqb_spec j (k - MM)) as [->|Hne].
      * replace (k - MM + MM) with k by lia. destruct (Z.ltb_spec k (k + 1)); [|lia]. rewrite Eo. cbn [andb].
        reflexivity.
      * destruct (Z.ltb_spec (j + MM) k), (Z.ltb_spec (j + MM) (k + 1)); auto; lia.
    + eexists; split; [reflexivity|]. apply vmake_ext. intros j Hj. unfold v1.
      destruct (Z.ltb_spec (j + MM) k), (Z.ltb_spec (j + MM) (k + 1)); auto; try lia.
      replace (j + MM) with k by lia. rewrite Eo. reflexivity.
  - cbn [bind].
    set (v2 := fun k j => if (Q - 2 * MM <=? j) && (j - Q + MM <? k) && Z.odd (j - Q + MM) then fsig (j - Q + MM)
       else v1 (MM + (Nmax + 1) - 1 + 1) j).
    assert (V2 : forall k j, fst (v2 k j) = fofZ 0).
    { intros. unfold v2. destruct (_ && Z.odd (j - Q + MM)) eqn:E2; [|apply V1]. apply andb_prop in E2. reflexivity. }
    match goal with |- mfor (zrange (- MM) MM) ?f ?b = _ =>
      destruct (mfor_inv (fun k s => s = vmake Q (v2 k)) (- MM) MM f b) as (s2 & -> & ->) end.
    + lia.
    + apply vmake_ext. intros j Hj. unfold v2. destruct (Z.leb_spec (Q - 2 * MM) j), (Z.ltb_spec (j - Q + MM) (- MM)); auto; lia.
    + intros k s' Hk ->. rewrite rem_odd by lia.
      assert (Eab : Z.odd (Z.abs k) = Z.odd k) by (destruct (Z.abs_eq_or_opp k) as [-> | ->]; auto; apply Z.odd_opp).
      rewrite Eab. destruct (Z.odd k) eqn:Eo.
      * unfold set_imf. rewrite fbget_vmake by lia. cbn [bind]. rewrite bset_vmake by lia. eexists; split; [reflexivity|].
        apply vmake_ext. intros j Hj. rewrite V2. unfold v2.
        destruct (Z.eqb_spec j (Q + k - MM)) as [->|Hne].
        -- replace (Q + k - MM - Q + MM) with k by lia. destruct (Z.ltb_spec k (k + 1)); [|lia].
           destruct (Z.leb_spec (Q - 2 * MM) (Q + k - MM)); [|lia]. rewrite Eo. cbn [andb].
           reflexivity.
        -- destruct (Z.ltb_spec (j - Q + MM) k), (Z.ltb_spec (j - Q + MM) (k + 1)); auto; lia.
      * eexists; split; [reflexivity|]. apply vmake_ext. intros j Hj. unfold v2.
        destruct (Z.ltb_spec (j - Q + MM) k), (Z.ltb_spec (j - Q + MM) (k + 1)); auto; try lia.
        replace (j - Q + MM) with k by lia. rewrite Eo. rewrite !andb_false_r. reflexivity.
    + f_equal. apply vmake_ext. intros j Hj. unfold v2, fcs, v1.
      destruct (Z.leb_spec (Q - 2 * MM) j), (Z.ltb_spec (j - Q + MM) MM); cbn [andb]; auto; try lia;
      destruct (Z.odd (j - Q + MM)); auto;
      destruct (Z.ltb_spec (j + MM) (MM + (Nmax + 1) - 1 + 1)), (Z.leb_spec j Nmax); cbn [andb]; auto; lia.
Qed.


Lemma sig_mod k : Z.odd k = true -> Cmod (sig k) = (/ Rabs (IZR k))%R.
Proof.
  intros H. rewrite sig_odd by auto. assert (K : IZR k <> 0%R) by (apply not_0_IZR; intros ->; discriminate).
  unfold Cmod. cbn [fst snd]. replace (0 ^ 2 + (-1 / IZR k) ^ 2)%R with ((/ IZR k) ^ 2)%R by (field; auto).
  rewrite <- Rsqr_pow2, sqrt_Rsqr_abs. apply Rabs_inv.
Qed.
Lemma fsig_ok k : Z.odd k = true -> Z.abs k < 2 ^ 53 ->
  finc (fsig k) /\ (Cmod (VC (fsig k) - sig k)%C <= uu * Cmod (sig k) + dmin)%R /\ (Cmod (sig k) <= 1)%R.
Proof.
  intros H Hk. rewrite sig_mod by auto. assert (K0 : k <> 0) by (intros ->; discriminate). assert (K : IZR k <> 0%R) by (apply not_0_IZR; auto).
  assert (K1 : (1 <= Rabs (IZR k))%R) by (rewrite <- abs_IZR; apply IZR_le; lia).
  assert (I1 : (/ Rabs (IZR k) <= 1)%R) by (rewrite <- Rinv_1; apply Rinv_le_contravar; lra).
  destruct (fofZ_small k Hk) as (D1 & F1 & E1). destruct (fofZ_small (-1)) as (D2 & F2 & E2); [lia|]. destruct (fofZ_small 0) as (D3 & F3 & E3); [lia|].
  assert (K' : V (fofZ k) <> 0%R) by (rewrite E1; auto).
  pose proof (fdiv_rnd (fofZ (-1)) (fofZ k) D2 D1 F2 F1 K') as R. rewrite E1, E2 in R.
  assert (A : (Rabs (-1 / IZR k) = / Rabs (IZR k))%R). { unfold Rdiv. rewrite Rabs_mult, Rabs_inv. replace (Rabs (-1)) with 1%R by (rewrite Rabs_left; lra). ring. }
  destruct (big_rnd _ _ R) as (D & F & E). { rewrite A. apply Rle_trans with 1%R; [exact I1|]. change 1%R with (bpow radix2 0). apply bpow_le. lia. }
  split; [split; split; auto|]. split; [|exact I1]. rewrite sig_odd by auto. unfold VC, fsig. cbn [fst snd]. rewrite E, E3.
  eapply Rle_trans; [apply Cmod_sum1|]. unfold Cminus, Cplus, Copp. cbn [fst snd]. pose proof (rnd_ok (-1 / IZR k)) as Q. rewrite A in Q.
  replace (0 + - 0)%R with 0%R by ring. rewrite Rabs_R0. unfold Rminus in Q. pose proof dmin_pos. lra.
Qed.
Lemma fcs_ok MM Nmax Q j : 1 <= MM -> 0 <= Nmax -> 2 * MM + Nmax <= Q -> Q < 2 ^ 52 -> 0 <= j < Q ->
  finc (fcs MM Nmax Q j) /\ (Cmod (VC (fcs MM Nmax Q j) - cs_val MM Nmax Q j)%C <= uu * Cmod (cs_val MM Nmax Q j) + dmin)%R.
Proof.
  intros HM HN HQ HB Hj. unfold fcs, cs_val.
  destruct ((Q - 2 * MM <=? j) && Z.odd (j - Q + MM)) eqn:E1.
  - apply andb_prop in E1. destruct E1 as [E1 E2]. apply Z.leb_le in E1. destruct (fsig_ok (j - Q + MM) E2 ltac:(lia)) as (A & B & _). auto.
  - destruct ((j <=? Nmax) && Z.odd (j + MM)) eqn:E3.
    + apply andb_prop in E3. destruct E3 as [E3 E4]. apply Z.leb_le in E3. destruct (fsig_ok (j + MM) E4 ltac:(lia)) as (A & B & _). auto.
    + destruct (fofZ_small 0) as (D3 & F3 & E4); [lia|]. split; [split; split; auto|]. unfold VC, cf0. cbn [fst snd]. rewrite E4.
      replace ((0, 0)%R - RtoC 0)%C with (RtoC 0) by (unfold RtoC, Cminus, Cplus, Copp; cbn [fst snd]; apply C_ext; cbn; ring). rewrite Cmod_0. pose proof dmin_pos. lra.
Qed.

(** ** The sum of their moduli *)
Lemma harmonic N : 1 <= N -> (sumR 1 (N + 1) (fun k => / IZR k) <= IZR (Z.log2 N) + 1)%R.
Proof.
  revert N. assert (P : forall j, 0 <= j -> forall N, 1 <= N -> Z.log2 N = j -> (sumR 1 (N + 1) (fun k => / IZR k) <= IZR j + 1)%R).
  { apply (natlike_ind (fun j => forall N, 1 <= N -> Z.log2 N = j -> (sumR 1 (N + 1) (fun k => / IZR k) <= IZR j + 1)%R)).
    - intros N HN H. assert (N < 2) by (apply Z.log2_lt_cancel; rewrite H; cbn; lia). replace N with 1 by lia. change (1 + 1) with 2. rewrite sumR_cons, sumR_nil by lia. lra.
    - intros j Hj IH N HN H. assert (N2 : 2 <= N) by (destruct (Z.eq_dec N 1) as [->|]; [cbn in H; lia|lia]).
      set (M := N / 2). assert (HM : 1 <= M /\ N <= 2 * M + 1) by (unfold M; pose proof (Z.div_mod N 2); pose proof (Z.mod_pos_bound N 2); lia). destruct HM as [HM HM2].
      assert (HMN : M < N) by (unfold M; apply Z.div_lt; lia).
      assert (LM : Z.log2 M = j). { unfold M. rewrite <- Z.div2_div, Z.div2_spec, Z.log2_shiftr by lia. lia. }
      rewrite (sumR_split 1 (M + 1)) by lia. specialize (IH M HM LM).
      assert (T : (sumR (M + 1) (N + 1) (fun k => / IZR k) <= 1)%R).
      { apply Rle_trans with (sumR (M + 1) (N + 1) (fun _ => / IZR (M + 1))%R).
        - apply sumR_le. intros k Hk. apply Rinv_le_contravar; [apply IZR_lt; lia|apply IZR_le; lia].
        - rewrite sumR_const by lia. replace (N + 1 - (M + 1)) with (N - M) by ring. assert (0 < IZR (M + 1))%R by (apply IZR_lt; lia).
          apply Rmult_le_reg_r with (IZR (M + 1)); auto. rewrite Rmult_assoc, Rinv_l, Rmult_1_r, Rmult_1_l by lra. apply IZR_le. lia. }
      unfold Z.succ. rewrite plus_IZR. lra. }
  intros N HN. apply P; auto. apply Z.log2_nonneg.
Qed.
Lemma cs_sum MM Nmax Q : 1 <= MM -> 0 <= Nmax -> 2 * MM + Nmax <= Q ->
  (sumR 0 Q (fun j => Cmod (cs_val MM Nmax Q j)) <= 2 * (IZR (Z.log2 Q) + 1))%R.
Proof.
  intros HM HN HQ. set (g := fun k => if Z.odd k then (/ Rabs (IZR k))%R else 0%R).
  assert (g0 : forall k, (0 <= g k)%R). { intros k. unfold g. destruct (Z.odd k) eqn:E; [|lra]. left. apply Rinv_0_lt_compat. apply Rabs_pos_lt. apply not_0_IZR. intros ->. discriminate. }
  assert (gs : forall k, Z.odd k = true -> Cmod (sig k) = g k) by (intros k Hk; unfold g; rewrite Hk; now apply sig_mod).
  assert (ge : forall k, g (- k) = g k). { intros k. unfold g. rewrite Z.odd_opp, opp_IZR, Rabs_Ropp. reflexivity. }
  assert (gh : forall k, 1 <= k -> (g k <= / IZR k)%R). { intros k Hk. assert (1 <= IZR k)%R by (apply IZR_le; lia). unfold g. rewrite Rabs_pos_eq by lra. destruct (Z.odd k); [lra|]. left. apply Rinv_0_lt_compat. lra. }
  assert (S1 : (sumR 0 Q (fun j => Cmod (cs_val MM Nmax Q j)) <= sumR 0 Q (fun j => (if Z.leb (Q - 2 * MM) j then g (j - Q + MM)%Z else 0) + (if Z.leb j Nmax then g (j + MM)%Z else 0)))%R).
  { apply sumR_le. intros j Hj. unfold cs_val. pose proof (g0 (j - Q + MM)%Z). pose proof (g0 (j + MM)%Z).
    destruct (Z.leb_spec (Q - 2 * MM) j), (Z.odd (j - Q + MM)) eqn:O1; cbn [andb]; try (rewrite gs by auto);
    destruct (Z.leb_spec j Nmax), (Z.odd (j + MM)) eqn:O2; cbn [andb]; try (rewrite gs by auto); rewrite ?Cmod_0; lra. }
  rewrite sumR_add in S1.
  assert (A : sumR 0 Q (fun j => if Z.leb (Q - 2 * MM) j then g (j - Q + MM)%Z else 0%R) = sumR (- MM) MM g).
  { rewrite (sumR_extend (Q - 2 * MM) Q 0 Q); [|lia|lia|lia|intros k Hk Hn; destruct (Z.leb_spec (Q - 2 * MM) k); [lia|reflexivity]].
    replace (Q - 2 * MM) with (- MM + (Q - MM)) at 1 by ring. replace Q with (MM + (Q - MM)) at 2 by ring. rewrite sumR_shift. apply sumR_ext. intros k Hk.
    destruct (Z.leb_spec (Q - 2 * MM) (k + (Q - MM))); [|lia]. f_equal. ring. }
  assert (B : sumR 0 Q (fun j => if Z.leb j Nmax then g (j + MM)%Z else 0%R) = sumR MM (MM + Nmax + 1) g).
  { rewrite (sumR_extend 0 (Nmax + 1) 0 Q); [|lia|lia|lia|intros k Hk Hn; destruct (Z.leb_spec k Nmax); [lia|reflexivity]].
    transitivity (sumR (0 + MM) (Nmax + 1 + MM) g); [|f_equal; ring]. rewrite sumR_shift. apply sumR_ext. intros k Hk.
    destruct (Z.leb_spec k Nmax); [reflexivity|lia]. }
  rewrite A, B in S1. clear A B. eapply Rle_trans; [exact S1|].
  (* -MM..MM-1 = (1..MM) mirrored, 0, 1..MM-1 *)
  assert (C1 : sumR (- MM) MM g = (sumR 1 (MM + 1) g + sumR 1 MM g)%R).
  { rewrite (sumR_split (- MM) 0) by lia. rewrite (sumR_cons 0) by lia. replace (g 0) with 0%R by reflexivity. rewrite Rplus_0_l. f_equal.
    rewrite sumR_rev. replace (1 - 0) with 1 by ring. replace (1 - - MM) with (MM + 1) by ring. apply sumR_ext. intros k _. apply ge. }
  assert (C2 : (sumR 1 MM g + sumR MM (MM + Nmax + 1) g)%R = sumR 1 (MM + Nmax + 1) g) by (symmetry; apply sumR_split; lia).
  rewrite C1. replace (sumR 1 (MM + 1) g + sumR 1 MM g + sumR MM (MM + Nmax + 1) g)%R with (sumR 1 (MM + 1) g + (sumR 1 MM g + sumR MM (MM + Nmax + 1) g))%R by ring. rewrite C2.
  assert (HH : forall N, 1 <= N <= Q -> (sumR 1 (N + 1) g <= IZR (Z.log2 Q) + 1)%R).
  { intros N HNN. eapply Rle_trans; [apply (sumR_le 1 (N + 1) g (fun k => / IZR k)%R); intros k Hk; apply gh; lia|].
    eapply Rle_trans; [apply harmonic; lia|]. apply Rplus_le_compat_r. apply IZR_le. apply Z.log2_le_mono. lia. }
  pose proof (HH MM ltac:(lia)). pose proof (HH (MM + Nmax) ltac:(lia)). lra.
Qed.
