(** * SumFl3: the sums of fc_to_sc over the tables, in binary64. *)
From Coq Require Import ZArith List Bool SpecFloat Reals Lia Lra Psatz Permutation.
From Coquelicot Require Import Coquelicot.
From Flocq Require Import Core.Core IEEE754.BinarySingleNaN.
From Verif Require Import Py PyFacts Num FloatN FloatText MCoefs SpecCoefs CoefsFacts Sums Harm MPysphi PysphiFacts TransFacts MKiss KissFacts MCsphi CsphiFacts MDouble FlFacts SeedReal SeedFl SeedFl2
  DoubleFacts TableEq FlSigned SbesselFTerm SbesselFRel Unsold TabFl SumFl SumFl2.
Import ListNotations.
Open Scope Z_scope.

(** the complex number a pair of doubles denotes *)
Definition VC (z : cf) : C := (V (fst z), V (snd z)).
Definition eacc (n : Z) (B ew : R) : R := acc (IZR n + 1) (ymax n + 1) B ew.

Lemma tab_ap n m v k : (forall k, 0 <= k < zlen v -> dbl (vget fz v k) /\ fin (vget fz v k) /\ (Rabs (V (vget fz v k) - Yt n m k) <= tab_err n)%R /\
    (n < k \/ (n - k) mod 2 = 1 -> vget fz v k = fz /\ Yt n m k = 0%R)) -> Z.abs m <= n -> 0 <= k < zlen v ->
  ap (ymax n) (tab_err n) (vget fz v k) (Yt n m k).
Proof.
  intros H Hm Hk. destruct (H k Hk) as (D & F & E & _). split; [exact D|]. split; [exact F|]. split; [|exact E]. apply Yt_bound. exact Hm.
Qed.
Lemma slice_zip (h : list cf) (v : list f64) a b : 0 <= a <= b -> b <= zlen h -> b <= zlen v ->
  zip_with (fun x y => cfmul x (cfre y)) (py_slice h a b) (py_slice v a b) = map (fun k => cfmul (vget cf0 h k) (cfre (vget fz v k))) (zrange a b).
Proof.
  intros H1 H2 H3. apply (vget_ext cf0).
  - rewrite zlen_zip_with by (rewrite !zlen_py_slice; lia). rewrite zlen_py_slice, zlen_map, zlen_zrange by lia. lia.
  - intros i Hi. rewrite zlen_zip_with in Hi by (rewrite !zlen_py_slice; lia). rewrite zlen_py_slice in Hi by lia.
    rewrite (vget_zip_with _ _ _ _ cf0 fz) by (rewrite !zlen_py_slice; lia). rewrite !vget_py_slice by lia.
    rewrite (vget_map _ 0) by (rewrite zlen_zrange; lia). rewrite vget_zrange by lia. reflexivity.
Qed.

(** ** Python *)
Lemma f_bnm_acc sum w h Nmax m B ew : (forall l, sums l (sum l)) -> Z.abs m <= Nmax -> Nmax <= 1022 -> zlen h = Nmax + 1 ->
  (0 <= B <= bpow radix2 1000)%R -> (0 <= ew <= / 64)%R -> wap 1 ew w (ipow (- m)) ->
  (forall k, 0 <= k <= Nmax -> cap B 0 (vget cf0 h k) (VC (vget cf0 h k))) ->
  exists out, f_bnm_vec sum w h Nmax m = Ok out /\ zlen out = Nmax - Z.abs m + 1 /\
    forall n, Z.abs m <= n <= Nmax -> exists M, cap M (eacc n B ew) (vget cf0 out (n - Z.abs m)) (bval (fun k => VC (vget cf0 h k)) m n).
Proof.
  intros HS Hm HN Lh HB Hew Hw Hh. unfold f_bnm_vec. rewrite np_zeros_ok by lia. cbn [bind].
  pose (P := fun (i : Z) (v : list cf) => zlen v = Nmax - Z.abs m + 1 /\
     forall n, Z.abs m <= n < i -> exists M, cap M (eacc n B ew) (vget cf0 v (n - Z.abs m)) (bval (fun k => VC (vget cf0 h k)) m n)).
  edestruct (mfor_inv P (Z.abs m) (Nmax + 1)) as (out & E & Lo & Vo); [lia| | |rewrite E; exists out; split; [reflexivity|]; split; [exact Lo|intros n Hn; apply Vo; lia]].
  { split; [apply zlen_vmake'; lia|]. intros n Hn. lia. }
  intros n s Hn (Ls & Vs).
  destruct (table_accurate n m (n + 1) ltac:(lia) ltac:(lia) ltac:(lia)) as (v & -> & Lv & Tv). cbn [bind].
  rewrite !py_get_ok by lia. cbn [bind]. rewrite py_set_ok by lia. cbn [bind].
  pose proof (coef_py n B ew ltac:(lia) HB Hew (fun k => vget cf0 h k) (fun k => VC (vget cf0 h k)) (fun k => vget fz v k) (Yt n m) w (ipow (- m))
    (sum (map (fun k => cfmul (vget cf0 h k) (cfre (vget fz v k))) (zrange 1 (n + 1)))) Hw ltac:(intros; apply Hh; lia)
    ltac:(intros; apply tab_ap; [rewrite Lv; exact Tv|lia|lia]) (HS _)) as (M & HM).
  destruct (Z.eqb_spec n 0) as [N0|N0]; cbn [negb] in *.
  { eexists. split; [reflexivity|]. split; [rewrite zlen_vset; auto|]. intros j Hj. destruct (Z.eq_dec j n) as [->|Ne].
    - rewrite vget_vset_eq by lia. exists M. exact HM.
    - rewrite vget_vset_ne by lia. apply Vs. lia. }
  rewrite py_get_ok by (rewrite zlen_vset; lia). cbn [bind].
  unfold np_broadcast. rewrite !zlen_py_slice by lia. rewrite Z.eqb_refl. cbn [bind].
  rewrite slice_zip by lia. rewrite vget_vset_eq by lia.
  rewrite py_set_ok by (rewrite zlen_vset; lia). eexists. split; [reflexivity|]. split; [rewrite !zlen_vset; auto|].
  intros j Hj. destruct (Z.eq_dec j n) as [->|Ne].
  - rewrite vget_vset_eq by (rewrite zlen_vset; lia). exists M. exact HM.
  - rewrite !vget_vset_ne by lia. apply Vs. lia.
Qed.

Lemma f_fc_to_sc_acc sum ipw hk Nmax Mmax B ew : (forall l, sums l (sum l)) -> 0 <= Mmax <= Nmax -> Nmax <= 1022 ->
  (0 <= B <= bpow radix2 1000)%R -> (0 <= ew <= / 64)%R -> (forall m, Z.abs m <= Mmax -> wap 1 ew (ipw m) (ipow m)) ->
  (forall m, Z.abs m <= Mmax -> zlen (hk m) = Nmax + 1 /\ forall k, 0 <= k <= Nmax -> cap B 0 (vget cf0 (hk m) k) (VC (vget cf0 (hk m) k))) ->
  exists c, f_fc_to_sc sum ipw hk Nmax Mmax = Ok c /\ zlen c = ncoef Nmax Mmax /\
    forall n m, is_mode Nmax Mmax n m -> exists M, cap M (eacc n B ew) (vget cf0 c (pos Nmax n m)) (bval (fun k => VC (vget cf0 (hk m) k)) m n).
Proof.
  intros HS HM HN HB Hew Hw Hh. unfold f_fc_to_sc.
  assert (G : forall m w, Z.abs m <= Mmax -> wap 1 ew w (ipow (- m)) -> exists out, f_bnm_vec sum w (hk m) Nmax m = Ok out /\ zlen out = Nmax - Z.abs m + 1 /\
    forall n, Z.abs m <= n <= Nmax -> exists M, cap M (eacc n B ew) (vget cf0 out (n - Z.abs m)) (bval (fun k => VC (vget cf0 (hk m) k)) m n)).
  { intros m w Hm W. destruct (Hh m Hm) as [L K]. apply f_bnm_acc; auto. lia. }
  destruct (G 0 (ipw 0) ltac:(lia) (Hw 0 ltac:(lia))) as (c0 & -> & L0 & V0). cbn [bind].
  set (I := fun p (v : list cf) => zlen v = ncoef Nmax (p - 1) /\
    forall n m, Z.abs m <= p - 1 -> Z.abs m <= n <= Nmax -> exists M, cap M (eacc n B ew) (vget cf0 v (pos Nmax n m)) (bval (fun k => VC (vget cf0 (hk m) k)) m n)).
  edestruct (mfor_inv I 1 (Mmax + 1)) as (v & E & H1 & H2); [lia| | |rewrite E; exists v; split; [reflexivity|]].
  - split.
    + replace (1 - 1) with 0 by lia; rewrite ?ncoef_0. change (Z.abs 0) with 0 in L0. lia.
    + intros n m Hm Hn. assert (m = 0) by lia. subst m. unfold pos. rewrite cstart_0. replace (0 + n - Z.abs 0) with (n - Z.abs 0) by lia. apply V0. lia.
  - intros p s Hp [I1 I2].
    destruct (G (- p) (ipw p) ltac:(lia)) as (a & -> & La & Va); [rewrite Z.opp_involutive; apply Hw; lia|]. cbn [bind].
    destruct (G p (ipw (- p)) ltac:(lia)) as (b & -> & Lb & Vb); [apply Hw; lia|]. cbn [bind].
    eexists; split; [reflexivity|].
    rewrite Z.abs_opp, (Z.abs_eq p) in * by lia.
    pose proof (ncoef_step Nmax (p - 1)) as Hst. replace (p - 1 + 1) with p in Hst by lia.
    split.
    + rewrite !zlen_app, La, Lb, I1 by lia. replace (p + 1 - 1) with p by lia. lia.
    + intros n m Hm Hn. replace (p + 1 - 1) with p in Hm by lia.
      assert (Hpos : 0 <= pos Nmax n m).
      { apply (pos_range Nmax p); [unfold good_size; lia|unfold is_mode; lia]. }
      rewrite <- app_assoc, vget_app by auto. rewrite I1.
      destruct (Z.ltb_spec (pos Nmax n m) (ncoef Nmax (p - 1))) as [L|L].
      * apply I2; auto. destruct (Z.eq_dec (Z.abs m) p); [|lia]. exfalso.
        pose proof (cstart_block Nmax m ltac:(lia)) as [B' _]. unfold pos in L. rewrite e in *. lia.
      * assert (Z.abs m = p) as Ea.
        { destruct (Z.eq_dec (Z.abs m) p); auto. exfalso.
          pose proof (cstart_range Nmax (p - 1) m ltac:(unfold good_size; lia) ltac:(lia)).
          unfold pos in L. lia. }
        rewrite vget_app by lia. rewrite La by lia.
        destruct (Z_lt_le_dec m 0) as [Lm|Lm].
        -- assert (m = - p) by lia. subst m. unfold pos in *. rewrite cstart_neg in * by lia.
           destruct (Z.ltb_spec (ncoef Nmax (p - 1) + n - Z.abs (- p) - ncoef Nmax (p - 1)) (Nmax - p + 1)); [|lia].
           replace (ncoef Nmax (p - 1) + n - Z.abs (- p) - ncoef Nmax (p - 1)) with (n - p) by lia. apply Va. lia.
        -- assert (m = p) by lia. subst m. unfold pos in *. rewrite cstart_pos in * by lia.
           destruct (Z.ltb_spec (ncoef Nmax (p - 1) + (Nmax + 1 - p) + n - Z.abs p - ncoef Nmax (p - 1)) (Nmax - p + 1)); [lia|].
           replace (ncoef Nmax (p - 1) + (Nmax + 1 - p) + n - Z.abs p - ncoef Nmax (p - 1) - (Nmax - p + 1)) with (n - p) by lia. apply Vb. lia.
  - replace (Mmax + 1 - 1) with Mmax in * by lia. split; auto.
    intros n m (M1 & M2 & M3). apply H2; lia.
Qed.

(** ** C *)
Lemma unit_powm1 e : powm1 e = 1 \/ powm1 e = -1.
Proof. unfold powm1. destruct (Z.even e); auto. Qed.
Lemma unit_f e : dbl (fofZ (powm1 e)) /\ fin (fofZ (powm1 e)) /\ V (fofZ (powm1 e)) = IZR (powm1 e) /\ (V (fofZ (powm1 e)) = 1 \/ V (fofZ (powm1 e)) = -1)%R.
Proof.
  assert (P : Z.abs (powm1 e) < 2 ^ 53) by (destruct (unit_powm1 e) as [-> | ->]; reflexivity).
  destruct (fofZ_small _ P) as (D & F & E). rewrite E. repeat split; auto. destruct (unit_powm1 e) as [-> | ->]; auto.
Qed.
Lemma opp_f x : dbl x -> fin x -> dbl (SFopp x) /\ fin (SFopp x) /\ V (SFopp x) = (- V x)%R.
Proof.
  intros D F. destruct x as [b|b| |b q e]; try discriminate F; cbn [SFopp]; split; auto; split; auto; cbn [SF2R]; [lra|].
  destruct b; cbn [negb cond_Zopp]; rewrite <- F2R_Zopp; [rewrite Z.opp_involutive|]; reflexivity.
Qed.
Lemma ap_unit M E x r e : ap M E x r -> (M + E <= BIG)%R -> ap M E (fmul (fofZ (powm1 e)) x) (IZR (powm1 e) * r).
Proof. intros H HB. destruct (unit_f e) as (D & F & V1 & V2). rewrite <- V1. apply ap_sign; auto. Qed.
Lemma ap_unit_opp M E x r e : ap M E x r -> (M + E <= BIG)%R -> ap M E (fmul (SFopp (fofZ (powm1 e))) x) (- IZR (powm1 e) * r).
Proof.
  intros H HB. destruct (unit_f e) as (D & F & V1 & V2). destruct (opp_f _ D F) as (D' & F' & V'). rewrite <- V1, <- V'. apply ap_sign; auto.
  rewrite V'. destruct V2 as [-> | ->]; lra.
Qed.
Lemma phase_neg_cap M E v c m : cap M E v c -> (M + E <= BIG)%R ->
  cap M E (if Z.rem (Z.abs m) 2 =? 1 then (fmul (fofZ (powm1 (Z.quot (m - 1) 2))) (snd v), fmul (SFopp (fofZ (powm1 (Z.quot (m - 1) 2)))) (fst v))
           else (fmul (fofZ (powm1 (Z.quot m 2))) (fst v), fmul (fofZ (powm1 (Z.quot m 2))) (snd v))) (ipow (- m) * c)%C.
Proof.
  intros [A B] HB. rewrite <- c_phase_neg. destruct (Z.rem (Z.abs m) 2 =? 1); split; cbn [fst snd]; first [apply ap_unit|apply ap_unit_opp]; auto.
Qed.
Lemma phase_pos_cap M E v c m : cap M E v c -> (M + E <= BIG)%R ->
  cap M E (if Z.rem (Z.abs m) 2 =? 1 then (fmul (SFopp (fofZ (powm1 (Z.quot (m - 1) 2)))) (snd v), fmul (fofZ (powm1 (Z.quot (m - 1) 2))) (fst v))
           else (fmul (fofZ (powm1 (Z.quot m 2))) (fst v), fmul (fofZ (powm1 (Z.quot m 2))) (snd v))) (ipow m * c)%C.
Proof.
  intros [A B] HB. rewrite <- c_phase_pos. destruct (Z.rem (Z.abs m) 2 =? 1); split; cbn [fst snd]; first [apply ap_unit|apply ap_unit_opp]; auto.
Qed.
Lemma rs_snoc (x : Z -> f64) lo k s : lo <= k -> rsums (map x (zrange lo k)) s -> rsums (map x (zrange lo (k + 1))) (fadd s (x k)).
Proof.
  intros H R. rewrite zrange_snoc, map_app by lia. apply (rs_add _ _ _ _ _ R (rs_one (x k))). apply Permutation_refl.
Qed.

Lemma fc_bnm_acc hkm Nmax m off Ly sc y B : Z.abs m <= Nmax -> Nmax <= 1022 -> Nmax < Ly -> zlen hkm = Nmax + 1 -> zlen y = Ly ->
  0 <= off -> off + (Nmax - Z.abs m + 1) <= zlen sc -> (0 <= B <= bpow radix2 1000)%R ->
  (forall k, 0 <= k <= Nmax -> cap B 0 (vget cf0 hkm k) (VC (vget cf0 hkm k))) ->
  exists sc' y', fc_bnm hkm Nmax m off Ly (sc, y) = Ok (sc', y') /\ zlen sc' = zlen sc /\ zlen y' = Ly /\
    (forall i, ~ off <= i < off + (Nmax - Z.abs m + 1) -> vget cf0 sc' i = vget cf0 sc i) /\
    forall n, Z.abs m <= n <= Nmax -> exists M, cap M (eacc n B 0) (vget cf0 sc' (off + (n - Z.abs m))) (bval (fun k => VC (vget cf0 hkm k)) m n).
Proof.
  intros Hm HN HL Lh Ly0 H0 Hs HB Hh. unfold fc_bnm.
  pose (P := fun (i : Z) (r : list cf * list f64) => zlen (fst r) = zlen sc /\ zlen (snd r) = Ly /\
     (forall i, ~ off <= i < off + (Nmax - Z.abs m + 1) -> vget cf0 (fst r) i = vget cf0 sc i) /\
     forall n, Z.abs m <= n < i -> exists M, cap M (eacc n B 0) (vget cf0 (fst r) (off + (n - Z.abs m))) (bval (fun k => VC (vget cf0 hkm k)) m n)).
  edestruct (mfor_inv P (Z.abs m) (Nmax + 1)) as ([sc' y'] & E & Q1 & Q2 & Q3 & Q4); [lia| | |rewrite E; exists sc', y'; split; [reflexivity|]; cbn [fst snd] in *].
  { split; [reflexivity|]. split; [exact Ly0|]. split; [reflexivity|]. intros n Hn. lia. }
  2:{ split; [exact Q1|]. split; [exact Q2|]. split; [exact Q3|]. intros n Hn. apply Q4. lia. }
  intros n [s v] Hn (Ls & Lv & Vlo & Vn). cbn [fst snd] in *.
  rewrite table_eq by (auto; lia). destruct (table_accurate n m Ly ltac:(lia) ltac:(lia) ltac:(lia)) as (t & -> & Lt & Tt). cbn [bind].
  rewrite !bget_ok by lia. cbn [bind]. rewrite bset_ok by lia. cbn [bind].
  set (p0 := off + (n - Z.abs m)). set (s0 := vset s p0 _).
  assert (L0 : zlen s0 = zlen sc) by (unfold s0; rewrite zlen_vset; auto).
  pose (hr := fun k => fst (vget cf0 hkm k)). pose (hi := fun k => snd (vget cf0 hkm k)). pose (yt := fun k => vget fz t k).
  edestruct (mfor_inv (fun (k : Z) (u : list cf) => zlen u = zlen sc /\ (forall i, i <> p0 -> vget cf0 u i = vget cf0 s i) /\
      rsums (map (cterm hr yt) (zrange 0 k)) (fst (vget cf0 u p0)) /\ rsums (map (cterm hi yt) (zrange 0 k)) (snd (vget cf0 u p0))) 1 (n + 1))
    as (u & E & Lu & Vu & Rr & Ri); [lia| | |rewrite E; cbn [bind]].
  { split; auto. split; [intros i Ne; unfold s0; rewrite vget_vset_ne by auto; auto|]. unfold s0. rewrite vget_vset_eq by (unfold p0; lia). cbn [fst snd].
    change (zrange 0 1) with [0]. cbn [map]. split; apply rs_one. }
  { intros k u Hk (Lu & Vu & Rr & Ri). rewrite !bget_ok by (unfold p0; lia). cbn [bind]. rewrite bset_ok by (unfold p0; lia).
    eexists. split; [reflexivity|]. rewrite zlen_vset. split; auto.
    split; [intros i Ne; rewrite vget_vset_ne by auto; auto|]. rewrite vget_vset_eq by (unfold p0; lia). cbn [fst snd].
    apply rs_snoc in Rr; [|lia]. apply rs_snoc in Ri; [|lia]. unfold cterm at 2 in Rr. unfold cterm at 2 in Ri. destruct (Z.eqb_spec k 0); [lia|]. split; assumption. }
  rewrite bget_ok by (unfold p0; lia). cbn [bind].
  assert (Cr : exists M, (M + eacc n B 0 <= BIG)%R /\ cap M (eacc n B 0) (vget cf0 u p0)
     (VC (vget cf0 hkm 0) * RtoC (Yt n m 0) + RtoC 2 * sumC 1 (n + 1) (fun k => VC (vget cf0 hkm k) * RtoC (Yt n m k)))%C).
  { destruct (coef_c n B ltac:(lia) HB hr (fun k => V (hr k)) yt (Yt n m) _ ltac:(intros; apply Hh; lia) ltac:(intros; apply tab_ap; [rewrite Lt; exact Tt|lia|lia]) Rr) as (M1 & B1 & C1).
    destruct (coef_c n B ltac:(lia) HB hi (fun k => V (hi k)) yt (Yt n m) _ ltac:(intros; apply Hh; lia) ltac:(intros; apply tab_ap; [rewrite Lt; exact Tt|lia|lia]) Ri) as (M2 & B2 & C2).
    exists (Rmax M1 M2). fold (eacc n B 0) in *. split; [apply Rmax_case; assumption|]. split.
    - replace (fst _) with (V (hr 0%Z) * Yt n m 0 + 2 * sumR 1 (n + 1) (fun k => V (hr k) * Yt n m k))%R; [eapply ap_le; [exact C1|apply Rmax_l|apply Rle_refl]|].
      unfold Cplus, Cmult. cbn [fst snd]. rewrite fst_sumC. rewrite snd_sumC. unfold VC, RtoC. cbn [fst snd]. rewrite (sumR_ext 1 (n + 1) (fun k => V (hr k) * Yt n m k)%R (fun k => (V (fst (vget cf0 hkm k)) * Yt n m k - V (snd (vget cf0 hkm k)) * 0)%R)) by (intros; unfold hr; ring). unfold hr. ring.
    - replace (snd _) with (V (hi 0%Z) * Yt n m 0 + 2 * sumR 1 (n + 1) (fun k => V (hi k) * Yt n m k))%R; [eapply ap_le; [exact C2|apply Rmax_r|apply Rle_refl]|].
      unfold Cplus, Cmult. cbn [fst snd]. rewrite fst_sumC. rewrite snd_sumC. unfold VC, RtoC. cbn [fst snd]. rewrite (sumR_ext 1 (n + 1) (fun k => V (hi k) * Yt n m k)%R (fun k => (V (fst (vget cf0 hkm k)) * 0 + V (snd (vget cf0 hkm k)) * Yt n m k)%R)) by (intros; unfold hi; ring). unfold hi. ring. }
  destruct Cr as (M & BM & CM). pose proof (phase_neg_cap _ _ _ _ m CM BM) as PM.
  match type of PM with cap _ _ ?x _ => set (xx := x) in * end.
  match goal with |- exists s', bind ?X _ = Ok s' /\ _ => assert (HW : X = Ok (vset u p0 xx)) end.
  { unfold xx. destruct (Z.rem (Z.abs m) 2 =? 1); cbv zeta; apply bset_ok; unfold p0; lia. }
  rewrite HW. cbn [bind]. eexists. split; [reflexivity|]. unfold P. cbn [fst snd].
  rewrite zlen_vset. split; auto. split; auto. split.
  - intros i Hi. rewrite vget_vset_ne by (unfold p0; lia). rewrite Vu by (unfold p0; lia). auto.
  - intros j Hj. destruct (Z.eq_dec j n) as [->|Ne].
    + fold p0. rewrite vget_vset_eq by (unfold p0; lia). exists M. replace (bval _ m n) with (ipow (- m) * (VC (vget cf0 hkm 0) * RtoC (Yt n m 0) + RtoC 2 * sumC 1 (n + 1) (fun k => VC (vget cf0 hkm k) * RtoC (Yt n m k))))%C; [exact PM|].
      unfold bval. ring.
    + assert (off + (j - Z.abs m) <> p0) by (unfold p0; lia). rewrite vget_vset_ne by auto. rewrite Vu by auto. apply Vn; lia.
Qed.
