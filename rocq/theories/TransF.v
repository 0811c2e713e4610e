(** * TransF: csphi.c's sc_to_fc as a whole, and ispht, in double precision. *)
From Coq Require Import ZArith List Bool SpecFloat Reals Lia Lra Psatz.
From Coquelicot Require Import Coquelicot.
From Flocq Require Import Core.Core IEEE754.BinarySingleNaN.
From Verif Require Import Exact Py PyFacts Num FloatN FloatText MCoefs SpecCoefs CoefsFacts Sums Harm Smooth Dft MOps MPysphi PysphiFacts MTrans TransFacts TransFacts2 SpecHarm MKiss MCsphi CsphiFacts
  MDouble FlFacts SeedReal SeedFl SeedFl2 DoubleFacts P_Double FlSigned SbesselFTerm TabPert Unsold TabFl P_Table SumFl SumFl2 SumFl3 SumFl4 P_Sums
  MKissF KissFl KissFl2 KissFl5 MCsphiF MTransF.
Import ListNotations.
Open Scope list_scope.
Open Scope Z_scope.

(** the coefficients of order m in the vector sc *)
Definition ordv (sc : list cf) (N m : Z) (n : Z) : cf := vget cf0 sc (cstart N m + (n - Z.abs m)).
(** the exact entry of order m, frequency k *)
Definition FscV (sc : list cf) (N Mx m k : Z) : C := if Z.abs m <=? Mx then FcolV (ordv sc N m) N m k else RtoC 0.

Lemma ff_sc_to_fc_acc junkr junki sc nr nc N Mx B : 0 <= Mx <= N -> N <= 1022 -> N + 1 <= nr -> 2 * Mx + 2 <= nc -> zlen sc = ncoef N Mx ->
  (0 <= B <= bpow radix2 1000)%R -> (forall i, 0 <= i < zlen sc -> cap B 0 (vget cf0 sc i) (VC (vget cf0 sc i))) ->
  exists fd, ff_sc_to_fc junkr junki (vmake (nr * nc) (fun _ => cf0)) nr nc sc N Mx = Ok fd /\ zlen fd = nr * nc /\
    forall p q, 0 <= p < nr -> 0 <= q < nc -> col_ok N B 0 (fget nc fd p q) (FscV sc N Mx (freqc nc q) (freqc nr p)) /\
      (Mx < Z.abs (freqc nc q) \/ N < Z.abs (freqc nr p) -> cap 0 0 (fget nc fd p q) (RtoC 0)).
Proof.
  intros HM HN Hr Hc Ls HB Hx. unfold ff_sc_to_fc. rewrite c_inds_ok by lia. cbn [bind].
  assert (Hg : good_size N Mx) by (unfold good_size; lia).
  assert (Hrg : forall m, Z.abs m <= Mx -> 0 <= cstart N m /\ cstart N m + (N + 1 - Z.abs m) <= zlen sc)
    by (intros; rewrite Ls; apply cstart_range; auto).
  set (OK := fun m p z => col_ok N B 0 z (FcolV (ordv sc N m) N m (freqc nr p)) /\ zrow N (freqc nr p) z).
  assert (Hix : forall p q, 0 <= p < nr -> 0 <= q < nc -> 0 <= p * nc + q < nr * nc) by (intros; nia).
  assert (Col : forall m M f y, Z.abs m <= Mx -> 0 <= M < nc -> zlen f = nr * nc -> zlen y = N + 1 -> (forall p, 0 <= p < nr -> fget nc f p M = cf0) ->
    exists f' y', fc_fcvec_m_sc sc (cstart N m) m N nr nc M (N + 1) (f, y) = Ok (f', y') /\ zlen f' = nr * nc /\ zlen y' = N + 1 /\
      (forall p q, 0 <= p < nr -> 0 <= q < nc -> q <> M -> fget nc f' p q = fget nc f p q) /\ forall p, 0 <= p < nr -> OK m p (fget nc f' p M)).
  { intros m M f y Hm HMc Lf Ly Hz. destruct (Hrg m Hm) as [R1 R2].
    destruct (fc_fcvec_acc sc (cstart N m) m N nr nc M (N + 1) f y B) as (f' & y' & E & L1 & L2 & O & A); auto; try lia.
    { intros i Hi. apply Hx. lia. }
    exists f', y'. split; [exact E|]. split; [lia|]. split; [exact L2|]. split; [|exact A].
    intros p q Hp Hq Ne. unfold fget. apply O; [rewrite Lf; auto|]. intros k Hk Q. assert (K : (p - k) * nc = M - q) by lia. 
    destruct (Z.lt_trichotomy p k) as [Lt|[->|Gt]]; [assert (0 <= (k - p - 1) * nc) by (apply Z.mul_nonneg_nonneg; lia); lia|lia|assert (0 <= (p - k - 1) * nc) by (apply Z.mul_nonneg_nonneg; lia); lia]. }
  set (st := fun k p q z => if q <? Z.min k (Mx + 1) then OK q p z else if nc - Z.min k Mx <=? q then OK (q - nc) p z else z = cf0).
  rewrite Z.quot_div_nonneg by lia.
  match goal with |- context [mfor (zrange 0 (nc / 2 + 1)) ?g ?b] =>
    destruct (mfor_inv (fun k (r : list cf * list f64) => zlen (snd r) = N + 1 /\ zlen (fst r) = nr * nc /\
       forall p q, 0 <= p < nr -> 0 <= q < nc -> st k p q (fget nc (fst r) p q)) 0 (nc / 2 + 1) g b)
      as ([s1 y1] & -> & Hy1 & Lf1 & Hs1) end.
  - lia.
  - cbn [fst snd]. split; [apply zlen_vmake'; lia|]. split; [apply zlen_vmake'; nia|]. intros p q Hp Hq. unfold st. rewrite !Z.min_l by lia.
    destruct (Z.ltb_spec q 0); [lia|]. destruct (Z.leb_spec (nc - 0) q); [lia|]. unfold fget. apply vget_vmake. apply Hix; auto.
  - intros k [s y] Hk (Hy & Lf & Hs). cbn [fst snd] in Hy, Lf, Hs.
    destruct (Z.ltb_spec k Mx) as [L|L].
    + rewrite inds_pos by lia. cbn [bind].
      destruct (Col k k s y) as (f2 & y2 & E2 & L2 & Hy2 & O2 & A2); auto; try lia.
      { intros p Hp. pose proof (Hs p k Hp ltac:(lia)) as Q. unfold st in Q. rewrite !Z.min_l in Q by lia. destruct (Z.ltb_spec k k); [lia|]. destruct (Z.leb_spec (nc - k) k); [lia|exact Q]. }
      rewrite E2. cbn [bind]. rewrite inds_neg by lia. cbn [bind].
      destruct (Col (- (k + 1)) (nc - 1 - k) f2 y2) as (f3 & y3 & E3 & L3 & Hy3 & O3 & A3); auto; try lia.
      { intros p Hp. rewrite O2 by lia. pose proof (Hs p (nc - 1 - k) Hp ltac:(lia)) as Q. unfold st in Q. rewrite !Z.min_l in Q by lia.
        destruct (Z.ltb_spec (nc - 1 - k) k); [lia|]. destruct (Z.leb_spec (nc - k) (nc - 1 - k)); [lia|exact Q]. }
      rewrite E3. eexists; split; [reflexivity|]. cbn [fst snd]. split; auto. split; auto. intros p q Hp Hq.
      destruct (Z.eq_dec q (nc - 1 - k)) as [->|N1]; [|rewrite O3 by auto; destruct (Z.eq_dec q k) as [->|N2]].
      * unfold st. rewrite !Z.min_l by lia. destruct (Z.ltb_spec (nc - 1 - k) (k + 1)); [lia|]. destruct (Z.leb_spec (nc - (k + 1)) (nc - 1 - k)); [|lia].
        replace (nc - 1 - k - nc) with (- (k + 1)) by lia. apply A3, Hp.
      * unfold st. rewrite !Z.min_l by lia. destruct (Z.ltb_spec k (k + 1)); [|lia]. apply A2, Hp.
      * rewrite O2 by auto. pose proof (Hs p q Hp Hq) as Q. unfold st in *. rewrite !Z.min_l in * by lia.
        destruct (Z.ltb_spec q k), (Z.ltb_spec q (k + 1)), (Z.leb_spec (nc - k) q), (Z.leb_spec (nc - (k + 1)) q); try lia; exact Q.
    + destruct (Z.eqb_spec k Mx) as [E|Hne].
      * rewrite inds_pos by lia. cbn [bind].
        destruct (Col k k s y) as (f2 & y2 & E2 & L2 & Hy2 & O2 & A2); auto; try lia.
        { intros p Hp. pose proof (Hs p k Hp ltac:(lia)) as Q. unfold st in Q. rewrite !Z.min_l in Q by lia. destruct (Z.ltb_spec k k); [lia|]. destruct (Z.leb_spec (nc - k) k); [lia|exact Q]. }
        rewrite E2. eexists; split; [reflexivity|]. cbn [fst snd]. split; auto. split; auto. intros p q Hp Hq. unfold st.
        rewrite (Z.min_l (k + 1) (Mx + 1)), (Z.min_r (k + 1) Mx) by lia.
        destruct (Z.eq_dec q k) as [->|N1]; [destruct (Z.ltb_spec k (k + 1)); [apply A2, Hp|lia]|].
        rewrite O2 by auto. pose proof (Hs p q Hp Hq) as Q. unfold st in Q. rewrite (Z.min_l k (Mx + 1)), (Z.min_l k Mx) in Q by lia. rewrite <- E.
        destruct (Z.ltb_spec q k), (Z.ltb_spec q (k + 1)); try lia; exact Q.
      * eexists; split; [reflexivity|]. cbn [fst snd]. split; auto. split; auto. intros p q Hp Hq. pose proof (Hs p q Hp Hq) as Q. unfold st in *.
        rewrite !Z.min_r in * by lia. exact Q.
  - cbn [bind fst snd] in *. exists s1. split; [reflexivity|]. split; [exact Lf1|]. intros p q Hp Hq. pose proof (Hs1 p q Hp Hq) as Q. unfold st in Q.
    rewrite !Z.min_r in Q by lia. unfold FscV.
    assert (Z0 : fget nc s1 p q = cf0 -> Mx < Z.abs (freqc nc q) -> col_ok N B 0 (fget nc s1 p q) (if Z.abs (freqc nc q) <=? Mx then FcolV (ordv sc N (freqc nc q)) N (freqc nc q) (freqc nr p) else RtoC 0) /\
      (Mx < Z.abs (freqc nc q) \/ N < Z.abs (freqc nr p) -> cap 0 0 (fget nc s1 p q) (RtoC 0))).
    { intros -> Hq2. destruct (Z.leb_spec (Z.abs (freqc nc q)) Mx); [lia|]. split; [apply col_ok_zero; auto; lra || lia|]. intros _. apply cap_zero; apply Rle_refl. }
    assert (F0 : freqc nc q = if q <=? nc / 2 then q else q - nc) by reflexivity.
    assert (OKOK : forall m, freqc nc q = m -> Z.abs m <= Mx -> OK m p (fget nc s1 p q) -> col_ok N B 0 (fget nc s1 p q) (if Z.abs (freqc nc q) <=? Mx then FcolV (ordv sc N (freqc nc q)) N (freqc nc q) (freqc nr p) else RtoC 0) /\
      (Mx < Z.abs (freqc nc q) \/ N < Z.abs (freqc nr p) -> cap 0 0 (fget nc s1 p q) (RtoC 0))).
    { intros m -> Hm [G1 G2]. destruct (Z.leb_spec (Z.abs m) Mx); [|lia]. split; [exact G1|]. intros [Hk|Hk]; [lia|]. apply G2, Hk. }
    destruct (Z.ltb_spec q (Mx + 1)).
    + apply (OKOK q); [rewrite F0; destruct (Z.leb_spec q (nc / 2)); lia|lia|exact Q].
    + destruct (Z.leb_spec (nc - Mx) q).
      * apply (OKOK (q - nc)); [rewrite F0; destruct (Z.leb_spec q (nc / 2)); lia|lia|exact Q].
      * apply Z0; [exact Q|]. rewrite F0. destruct (Z.leb_spec q (nc / 2)); lia.
Qed.

(** ** Sums over the rows and columns of an array *)
Open Scope R_scope.
Definition tot2 (nr nc : Z) (g : Z -> Z -> R) : R := sumR 0 nr (fun p => sumR 0 nc (fun q => g p q)).
Lemma tot2_le nr nc f g : (forall p q, (0 <= p < nr)%Z -> (0 <= q < nc)%Z -> f p q <= g p q) -> tot2 nr nc f <= tot2 nr nc g.
Proof. intros H. apply sumR_le. intros p Hp. apply sumR_le. intros q Hq. apply H; auto. Qed.
Lemma sum_support P L c : (0 <= P)%Z -> (0 <= L)%Z -> 0 <= c -> sumR 0 L (fun i => if (Z.abs (freqc L i) <=? P)%Z then c else 0) <= IZR (2 * P + 1) * c.
Proof.
  intros HP HL Hc. destruct (Z.le_gt_cases L (2 * P + 1)).
  - eapply Rle_trans; [apply (sumR_le 0 L _ (fun _ => c)); intros i _; destruct (_ <=? _)%Z; lra|]. rewrite sumR_const by lia.
    apply Rmult_le_compat_r; [exact Hc|]. apply IZR_le. lia.
  - rewrite (sumR_split 0 (P + 1) L) by lia. rewrite (sumR_split (P + 1) (L - P) L) by lia.
    rewrite (sumR_ext (P + 1) (L - P) _ (fun _ => 0)).
    2:{ intros i Hi. unfold freqc. assert (L - 1 <= 2 * (L / 2) <= L)%Z by (pose proof (Z.div_mod L 2 ltac:(lia)); pose proof (Z.mod_pos_bound L 2 ltac:(lia)); lia).
        destruct (Z.leb_spec i (L / 2)); match goal with |- context [(Z.abs ?x <=? P)%Z] => destruct (Z.leb_spec (Z.abs x) P) end; auto; exfalso; lia. }
    rewrite sumR_const by lia. rewrite Rmult_0_r, Rplus_0_l.
    assert (A : sumR 0 (P + 1) (fun i => if (Z.abs (freqc L i) <=? P)%Z then c else 0) <= IZR (P + 1) * c).
    { eapply Rle_trans; [apply (sumR_le 0 (P + 1) _ (fun _ => c)); intros i _; destruct (_ <=? _)%Z; lra|]. rewrite sumR_const by lia. rewrite Z.sub_0_r. lra. }
    assert (B : sumR (L - P) L (fun i => if (Z.abs (freqc L i) <=? P)%Z then c else 0) <= IZR P * c).
    { eapply Rle_trans; [apply (sumR_le (L - P) L _ (fun _ => c)); intros i _; destruct (_ <=? _)%Z; lra|]. rewrite sumR_const by lia. replace (L - (L - P))%Z with P by lia. lra. }
    rewrite plus_IZR in *. rewrite mult_IZR in *. lra.
Qed.
(** entries that vanish off the centre block *)
Lemma tot2_support N Mx nr nc c g : (0 <= N)%Z -> (0 <= Mx)%Z -> (0 <= nr)%Z -> (0 <= nc)%Z -> 0 <= c ->
  (forall p q, (0 <= p < nr)%Z -> (0 <= q < nc)%Z -> g p q <= c) ->
  (forall p q, (0 <= p < nr)%Z -> (0 <= q < nc)%Z -> (Mx < Z.abs (freqc nc q) \/ N < Z.abs (freqc nr p))%Z -> g p q <= 0) ->
  tot2 nr nc g <= IZR (2 * N + 1) * (IZR (2 * Mx + 1) * c).
Proof.
  intros H1 H2 H3 H4 Hc Hg Hz.
  apply Rle_trans with (tot2 nr nc (fun p q => if (Z.abs (freqc nr p) <=? N)%Z then if (Z.abs (freqc nc q) <=? Mx)%Z then c else 0 else 0)).
  - apply tot2_le. intros p q Hp Hq. destruct (Z.leb_spec (Z.abs (freqc nr p)) N); [|apply Hz; auto]. destruct (Z.leb_spec (Z.abs (freqc nc q)) Mx); [apply Hg; auto|apply Hz; auto].
  - assert (C0 : 0 <= IZR (2 * Mx + 1) * c) by (apply Rmult_le_pos; [apply IZR_le; lia|exact Hc]).
    eapply Rle_trans; [|apply (sum_support N nr (IZR (2 * Mx + 1) * c)); auto]. apply sumR_le. intros p _.
    destruct (Z.leb_spec (Z.abs (freqc nr p)) N).
    + apply sum_support; auto.
    + rewrite sumR_const by lia. lra.
Qed.
Lemma Cmod_sum2 nr nc (f : Z -> Z -> C) : Cmod (sumC 0 nr (fun p => sumC 0 nc (fun q => f p q))) <= tot2 nr nc (fun p q => Cmod (f p q)).
Proof. eapply Rle_trans; [apply Cmod_sumC1|]. apply sumR_le. intros p _. apply Cmod_sumC1. Qed.
Lemma Cmod_root L k : Cmod (root L k) = 1.
Proof. unfold root, cisR. unfold Cmod. cbn [fst snd]. rewrite <- sqrt_1. f_equal. pose proof (sin2_cos2 (2 * PI * IZR k / IZR L)) as Q. unfold Rsqr in Q. rewrite <- Q. ring. Qed.

(** ** Sizes of the exact entries *)
Lemma Cmod_VC B z : cap B 0 z (VC z) -> Cmod (VC z) <= 2 * B.
Proof. intros [(_ & _ & A & _) (_ & _ & A2 & _)]. eapply Rle_trans; [apply Cmod_sum1|]. lra. Qed.
Lemma cap_near M e z c : cap M e z c -> finc z /\ Cmod (VC z - c)%C <= 2 * e.
Proof.
  intros [(D1 & F1 & _ & E1) (D2 & F2 & _ & E2)]. split; [repeat split; auto|]. eapply Rle_trans; [apply Cmod_sum1|]. unfold VC, Cminus, Cplus, Copp. cbn [fst snd]. unfold Rminus in *. lra.
Qed.
Lemma ymax_mono n N : (0 <= n <= N)%Z -> ymax n <= ymax N.
Proof.
  intros H. unfold ymax. apply sqrt_le_1_alt. apply Rmult_le_compat_r; [left; apply Rinv_0_lt_compat; pose proof PI_RGT_0; lra|].
  assert (IZR n <= IZR N) by (apply IZR_le; lia). lra.
Qed.
Definition entry_bound (N : Z) (B : R) : R := 2 * (IZR N + 1) * ymax N * B.
Lemma FcolV_size x N m k B : (Z.abs m <= N)%Z -> (forall n, (Z.abs m <= n <= N)%Z -> cap B 0 (x n) (VC (x n))) -> Cmod (FcolV x N m k) <= entry_bound N B.
Proof.
  intros Hm Hx. pose proof (sqrt_pos ((2 * IZR N + 1) / (4 * PI))) as Y0. change (0 <= ymax N) in Y0.
  assert (B0 : 0 <= B). { specialize (Hx N ltac:(lia)). apply cap_pos in Hx. lra. }
  unfold FcolV. rewrite Cmod_mult. assert (E : Cmod (ipow m) = 1) by (rewrite ipow_cis; apply Cmod_cis). rewrite E, Rmult_1_l.
  eapply Rle_trans; [apply Cmod_sumC1|]. eapply Rle_trans; [apply (sumR_le _ _ _ (fun _ => 2 * B * ymax N))|].
  - intros n Hn. rewrite Cmod_mult, Cmod_R. apply Rmult_le_compat; [apply Cmod_ge_0|apply Rabs_pos|apply Cmod_VC, Hx; lia|].
    eapply Rle_trans; [apply Yt_bound; lia|apply ymax_mono; lia].
  - rewrite sumR_const by lia. unfold entry_bound. replace (2 * (IZR N + 1) * ymax N * B) with ((IZR N + 1) * (2 * B * ymax N)) by ring.
    apply Rmult_le_compat_r; [apply Rmult_le_pos; lra|]. rewrite <- plus_IZR. apply IZR_le. lia.
Qed.
Lemma FscV_size sc N Mx m k B : (0 <= Mx <= N)%Z -> zlen sc = ncoef N Mx -> 0 <= B -> (forall i, (0 <= i < zlen sc)%Z -> cap B 0 (vget cf0 sc i) (VC (vget cf0 sc i))) ->
  Cmod (FscV sc N Mx m k) <= entry_bound N B.
Proof.
  intros HM Ls HB Hx. unfold FscV. pose proof (sqrt_pos ((2 * IZR N + 1) / (4 * PI))) as Y0. change (0 <= ymax N) in Y0.
  destruct (Z.leb_spec (Z.abs m) Mx).
  - apply FcolV_size; [lia|]. intros n Hn. apply Hx. assert (Hg : good_size N Mx) by (unfold good_size; lia). destruct (cstart_range N Mx m Hg ltac:(lia)). rewrite Ls. lia.
  - rewrite Cmod_0. unfold entry_bound. assert (0 <= IZR N) by (apply IZR_le; lia). apply Rmult_le_pos; [apply Rmult_le_pos; lra|exact HB].
Qed.
Lemma FscV_Fsc sc N Mx m k : (0 <= Mx <= N)%Z -> zlen sc = ncoef N Mx -> FscV sc N Mx m k = Fsc (mkSC RN (map VC sc) N Mx) m k.
Proof.
  intros HM Ls. unfold FscV, Fsc. cbn [sc_mmax sc_nmax]. destruct (Z.leb_spec (Z.abs m) Mx); [|reflexivity]. unfold FcolV. f_equal. apply sumC_ext. intros n Hn. f_equal.
  unfold cval, pos. cbn [sc_vec sc_nmax]. rewrite c0_RN. assert (Hg : good_size N Mx) by (unfold good_size; lia). destruct (cstart_range N Mx m Hg ltac:(lia)).
  replace (cstart N m + n - Z.abs m)%Z with (cstart N m + (n - Z.abs m))%Z by lia. rewrite (vget_map _ cf0) by lia. reflexivity.
Qed.

(** ** Products with Python ints *)
Lemma cfre_int k : (Z.abs k < 2 ^ 53)%Z -> finc (cfre (fofZ k)) /\ VC (cfre (fofZ k)) = RtoC (IZR k).
Proof.
  intros Hk. destruct (fofZ_small k Hk) as (D1 & F1 & E1). destruct (fofZ_small 0) as (D3 & F3 & E3); [lia|].
  unfold cfre, finc, VC. cbn [fst snd]. rewrite E1, E3. auto 10.
Qed.
Lemma tiny_le G : bpow radix2 (-960) <= G -> 6 * dmin <= uu * G.
Proof.
  intros HG. apply Rle_trans with (uu * bpow radix2 (-960)); [|apply Rmult_le_compat_l; [pose proof uu_small; lra|exact HG]].
  apply Rle_trans with (bpow radix2 (-1071)).
  - replace (-1071)%Z with (-1074 + 3)%Z by lia. rewrite bpow_plus. change (bpow radix2 3) with 8. pose proof dmin_pos. lra.
  - assert (E : uu = bpow radix2 (-53)) by (rewrite uu_val; reflexivity). rewrite E, <- bpow_plus. apply bpow_le. lia.
Qed.
Lemma mul_int x X G E k : near E x X -> Cmod X <= G -> 0 <= E <= G -> (1 <= k < 2 ^ 53)%Z -> bpow radix2 (-960) <= G -> G * IZR k <= bpow radix2 1000 ->
  near (E * IZR k + 11 * uu * (G * IZR k)) (cfmul x (cfre (fofZ k))) (X * RtoC (IZR k))%C.
Proof.
  intros (Fx & Ex) HX HE Hk HG HB. destruct (cfre_int k ltac:(lia)) as (Fk & Vk). assert (K1 : 1 <= IZR k) by (apply IZR_le; lia). pose proof uu_small as [U0 U1]. pose proof (bpow_gt_0 radix2 (-960)) as G0.
  assert (S : Cmod (VC x) <= 2 * G).
  { replace (VC x) with ((VC x - X) + X)%C by ring. eapply Rle_trans; [apply Cmod_triangle|]. lra. }
  assert (SK : Cmod (VC (cfre (fofZ k))) <= IZR k) by (rewrite Vk, Cmod_R, Rabs_right; lra).
  assert (GK : G <= G * IZR k) by (rewrite <- (Rmult_1_r G) at 1; apply Rmult_le_compat_l; lra).
  destruct (rv_mul x (cfre (fofZ k)) Fx Fk (2 * G) (IZR k) S SK) as (Fy & Ey).
  { replace (2 * (2 * G * IZR k) + 1) with (4 * (G * IZR k) + 1) by ring. rewrite big_val. pose proof Q_big. lra. }
  split; [exact Fy|]. rewrite Vk in Ey.
  replace (VC (cfmul x (cfre (fofZ k))) - X * RtoC (IZR k))%C with ((VC (cfmul x (cfre (fofZ k))) - VC x * RtoC (IZR k)) + (VC x - X) * RtoC (IZR k))%C by ring.
  eapply Rle_trans; [apply Cmod_triangle|]. rewrite Cmod_mult, Cmod_R, (Rabs_right (IZR k)) by lra.
  pose proof (tiny_le G HG) as T. assert (T2 : uu * G <= uu * (G * IZR k)) by (apply Rmult_le_compat_l; lra).
  assert (T3 : Cmod (VC x - X)%C * IZR k <= E * IZR k) by (apply Rmult_le_compat_r; lra).
  replace (5 * uu * (2 * G * IZR k)) with (10 * (uu * (G * IZR k))) in Ey by ring. lra.
Qed.
Lemma scale2 x X G eps L nc : near (eps * G) x X -> Cmod X <= G -> 0 <= eps <= / 2 -> (1 <= L < 2 ^ 53)%Z -> (1 <= nc < 2 ^ 53)%Z ->
  bpow radix2 (-960) <= G -> G * IZR L * IZR nc <= bpow radix2 999 ->
  near ((eps + 40 * uu) * (G * IZR L * IZR nc)) (cfmul (cfmul x (cfre (fofZ L))) (cfre (fofZ nc))) (X * RtoC (IZR L) * RtoC (IZR nc))%C.
Proof.
  intros Hx HX He HL Hc HG HB. pose proof uu_small as [U0 U1]. pose proof (bpow_gt_0 radix2 (-960)) as G0.
  assert (L1 : 1 <= IZR L) by (apply IZR_le; lia). assert (C1 : 1 <= IZR nc) by (apply IZR_le; lia).
  assert (GL : G <= G * IZR L) by (rewrite <- (Rmult_1_r G) at 1; apply Rmult_le_compat_l; lra).
  assert (GLC : G * IZR L <= G * IZR L * IZR nc) by (rewrite <- (Rmult_1_r (G * IZR L)) at 1; apply Rmult_le_compat_l; lra).
  assert (EG : 0 <= eps * G <= / 2 * G) by (split; [apply Rmult_le_pos; lra|apply Rmult_le_compat_r; lra]).
  assert (B1 : bpow radix2 999 <= bpow radix2 1000) by (apply bpow_le; lia). 
  assert (B2 : bpow radix2 1000 = bpow radix2 999 * 2) by (change 1000%Z with (999 + 1)%Z; rewrite bpow_plus; reflexivity).
  pose proof (mul_int x X G (eps * G) L Hx HX ltac:(lra) HL HG ltac:(lra)) as H1.
  assert (M : Cmod (X * RtoC (IZR L))%C <= G * IZR L) by (rewrite Cmod_mult, Cmod_R, (Rabs_right (IZR L)) by lra; apply Rmult_le_compat_r; lra).
  assert (U2 : uu * (G * IZR L) <= / 10 ^ 15 * (G * IZR L)) by (apply Rmult_le_compat_r; lra).
  assert (U3 : 0 <= uu * (G * IZR L)) by (apply Rmult_le_pos; lra).
  assert (EL : 0 <= eps * G * IZR L <= / 2 * (G * IZR L)). { split; [apply Rmult_le_pos; lra|]. replace (/ 2 * (G * IZR L)) with (/ 2 * G * IZR L) by ring. apply Rmult_le_compat_r; lra. }
  pose proof (mul_int _ _ (G * IZR L) _ nc H1 M ltac:(lra) Hc ltac:(lra) ltac:(lra)) as H2. destruct H2 as (F & E2). split; [exact F|]. eapply Rle_trans; [exact E2|].
  assert (U4 : 0 <= uu * (G * IZR L * IZR nc)) by (apply Rmult_le_pos; lra).
  replace ((eps * G * IZR L + 11 * uu * (G * IZR L)) * IZR nc + 11 * uu * (G * IZR L * IZR nc)) with (eps * (G * IZR L * IZR nc) + 22 * (uu * (G * IZR L * IZR nc))) by ring.
  replace ((eps + 40 * uu) * (G * IZR L * IZR nc)) with (eps * (G * IZR L * IZR nc) + 40 * (uu * (G * IZR L * IZR nc))) by ring. lra.
Qed.

(** ** ispht *)
Definition ifft_acc (eps : R) (ifft2 : Z -> Z -> list cf -> list cf) : Prop := forall nr nc a F, (1 <= nr <= 2 ^ 30)%Z -> (1 <= nc <= 2 ^ 30)%Z -> zlen a = (nr * nc)%Z ->
  (forall p q, (0 <= p < nr)%Z -> (0 <= q < nc)%Z -> finc (fget nc a p q)) -> tot2 nr nc (fun p q => Cmod (VC (fget nc a p q))) <= F -> bpow radix2 (-800) <= F <= bpow radix2 900 ->
  zlen (ifft2 nr nc a) = (nr * nc)%Z /\ forall p q, (0 <= p < nr)%Z -> (0 <= q < nc)%Z ->
    near (eps * F / (IZR nr * IZR nc)) (fget nc (ifft2 nr nc a) p q)
      (RtoC (/ (IZR nr * IZR nc)) * sumC 0 nr (fun i => sumC 0 nc (fun j => VC (fget nc a i j) * root nr (i * p) * root nc (j * q))))%C.
Definition modes (N Mx : Z) : R := IZR (2 * N + 1) * IZR (2 * Mx + 1).
Definition ispht_err (eps : R) (N Mx : Z) (B : R) : R :=
  modes N Mx * (2 * eacc N B 0) + modes N Mx * (entry_bound N B + 2 * eacc N B 0) * (eps + 40 * uu).

Lemma ymax_range n : (0 <= n <= 1022)%Z -> / 4 <= ymax n <= 14.
Proof.
  intros Hn. destruct (facts n Hn) as ((_ & Y) & _). split; [|exact Y]. apply Rle_trans with (ymax 0); [|apply ymax_mono; lia].
  unfold ymax. rewrite Rmult_0_r, Rplus_0_l. rewrite <- (sqrt_square (/ 4)) by lra. apply sqrt_le_1_alt. apply Rmult_le_reg_r with (16 * (4 * PI)); [pose proof PI_RGT_0; lra|].
  unfold Rdiv. rewrite Rmult_1_l. replace (/ (4 * PI) * (16 * (4 * PI))) with 16 by (field; pose proof PI_RGT_0; lra). pose proof PI_4. lra.
Qed.
Lemma eacc_Bw n B ew : (0 <= n <= 1022)%Z -> bpow radix2 (-700) <= B -> 0 <= ew <= / 2 ^ 40 -> 0 <= eacc n B ew <= B.
Proof.
  intros Hn HB Hew. pose proof (ymax_range n Hn) as Y. unfold eacc, acc. assert (N0 : 0 <= IZR n <= 1022) by (split; apply IZR_le; lia).
  assert (T : 16 * dmin <= 3 * uu * B). { assert (Q0 : 0 <= uu * B) by (apply Rmult_le_pos; [pose proof uu_small; lra|pose proof (bpow_gt_0 radix2 (-700)); lra]). assert (Q : bpow radix2 (-960) <= bpow radix2 (-700)) by (apply bpow_le; lia). pose proof (tiny_le B ltac:(lra)) as T. pose proof dmin_pos. lra. }
  pose proof dmin_pos as D. pose proof (bpow_gt_0 radix2 (-700)) as B0.
  assert (C : 0 <= (IZR n + 1) ^ 3 <= 1023 ^ 3) by (split; [apply pow_le; lra|apply pow_incr; lra]). rewrite uu_val in *.
  set (c := (IZR n + 1) ^ 3) in *. clearbody c.
  assert (Q1 : 0 <= B * c <= 1023 ^ 3 * B). { split; [apply Rmult_le_pos; lra|]. rewrite (Rmult_comm _ B). apply Rmult_le_compat_l; lra. }
  assert (Q2 : 0 <= B * ew <= B * / 2 ^ 40) by (split; [apply Rmult_le_pos; lra|apply Rmult_le_compat_l; lra]).
  match goal with |- 0 <= ?a * ?b * ?d <= B => assert (A1 : 0 <= d <= B / 10 ^ 5); [|assert (A2 : 0 <= a * b <= 1023 * 15)] end.
  - lra.
  - split; [apply Rmult_le_pos; lra|apply Rmult_le_compat; lra].
  - split; [apply Rmult_le_pos; lra|]. apply Rle_trans with (1023 * 15 * (B / 10 ^ 5)); [apply Rmult_le_compat; lra|lra].
Qed.
Lemma eacc_B n B : (0 <= n <= 1022)%Z -> bpow radix2 (-700) <= B -> 0 <= eacc n B 0 <= B.
Proof. intros Hn HB. apply eacc_Bw; auto. split; [lra|]. left. apply Rinv_0_lt_compat, pow_lt. lra. Qed.

Lemma near_le e e' z c : near e z c -> e <= e' -> near e' z c.
Proof. intros [F E] H. split; [exact F|lra]. Qed.
Lemma near_shift e z c c' e' : near e z c -> Cmod (c - c')%C <= e' -> near (e + e') z c'.
Proof.
  intros [F E] H. split; [exact F|]. replace (VC z - c')%C with ((VC z - c) + (c - c'))%C by ring. eapply Rle_trans; [apply Cmod_triangle|]. lra.
Qed.
Lemma fget_map f nr nc a p q : (0 <= p < nr)%Z -> (0 <= q < nc)%Z -> zlen a = (nr * nc)%Z -> fget nc (map f a) p q = f (fget nc a p q).
Proof. intros Hp Hq L. unfold fget. apply vget_map. rewrite L. nia. Qed.

(** the inverse transform and the scaling of a Fourier array whose entries are within
    2 e0 of F and zero outside the band *)
Lemma ispht_tail eps ifft2 fd X N Mx L ncols B e0 : ifft_acc eps ifft2 -> 0 <= eps <= / 2 -> (0 <= Mx <= N)%Z -> (N <= 1022)%Z -> (N + 1 <= L <= 2 ^ 30)%Z ->
  (2 * Mx + 2 <= ncols <= 2 ^ 30)%Z -> zlen fd = (L * ncols)%Z -> bpow radix2 (-700) <= B <= bpow radix2 800 -> 0 <= e0 <= B ->
  (forall p q, (0 <= p < L)%Z -> (0 <= q < ncols)%Z -> near (2 * e0) (fget ncols fd p q) (X (freqc ncols q) (freqc L p))) ->
  (forall p q, (0 <= p < L)%Z -> (0 <= q < ncols)%Z -> (Mx < Z.abs (freqc ncols q) \/ N < Z.abs (freqc L p))%Z -> VC (fget ncols fd p q) = RtoC 0) ->
  (forall m k, (Mx < Z.abs m \/ N < Z.abs k)%Z -> X m k = RtoC 0) -> (forall m k, Cmod (X m k) <= entry_bound N B) ->
  let ds := map (fun x => cfmul (cfmul x (cfre (fofZ L))) (cfre (fofZ ncols))) (ifft2 L ncols fd) in zlen ds = (L * ncols)%Z /\
  forall p q, (0 <= p < L)%Z -> (0 <= q < ncols)%Z -> near (modes N Mx * (2 * e0) + modes N Mx * (entry_bound N B + 2 * e0) * (eps + 40 * uu)) (fget ncols ds p q) (synth L ncols X p q).
Proof.
  intros HF He HM HN HL Hc Lfd HB EB EV E0 X0 FX ds. pose proof (bpow_gt_0 radix2 (-700)) as B0.
  pose proof (ymax_range N ltac:(lia)) as Y. pose proof uu_small as [U0 U1].
  assert (N0 : 0 <= IZR N <= 1022) by (split; apply IZR_le; lia). assert (M0 : 0 <= IZR Mx <= 1022) by (split; apply IZR_le; lia).
  assert (W0 : / 2 * B <= entry_bound N B <= 28644 * B).
  { unfold entry_bound. assert (Q : / 4 <= (IZR N + 1) * ymax N <= 1023 * 14) by (split; [apply Rle_trans with (1 * / 4); [lra|apply Rmult_le_compat; lra]|apply Rmult_le_compat; lra]).
    replace (2 * (IZR N + 1) * ymax N * B) with (2 * ((IZR N + 1) * ymax N) * B) by ring. split; apply Rmult_le_compat_r; lra. }
  assert (S1 : 1 <= modes N Mx <= 2045 * 2045).
  { unfold modes. rewrite !plus_IZR, !mult_IZR. split; [apply Rle_trans with (1 * 1); [lra|apply Rmult_le_compat; lra]|apply Rmult_le_compat; lra]. }
  set (F := modes N Mx * (entry_bound N B + 2 * e0)).
  assert (TF : tot2 L ncols (fun p q => Cmod (VC (fget ncols fd p q))) <= F).
  { unfold F, modes. rewrite Rmult_assoc. apply tot2_support; try lia; [lra| |].
    - intros p q Hp Hq. destruct (EV p q Hp Hq) as (_ & E). replace (VC (fget ncols fd p q)) with ((VC (fget ncols fd p q) - X (freqc ncols q) (freqc L p)) + X (freqc ncols q) (freqc L p))%C by ring.
      eapply Rle_trans; [apply Cmod_triangle|]. specialize (FX (freqc ncols q) (freqc L p)). lra.
    - intros p q Hp Hq Hs. rewrite E0 by auto. rewrite Cmod_0. lra. }
  assert (FR : bpow radix2 (-800) <= F <= bpow radix2 900).
  { unfold F. split.
    - apply Rle_trans with (1 * (/ 2 * B)); [|apply Rmult_le_compat; lra]. apply Rle_trans with (/ 2 * bpow radix2 (-700)); [|lra].
      change (/ 2) with (bpow radix2 (-1)). rewrite <- bpow_plus. apply bpow_le. lia.
    - apply Rle_trans with (2045 * 2045 * (28646 * B)); [apply Rmult_le_compat; lra|]. apply Rle_trans with (2 ^ 37 * bpow radix2 800); [lra|]. change 37%nat with (Z.to_nat 37).
      replace (2 ^ Z.to_nat 37) with (bpow radix2 37) by (change 37%Z with (Z.of_nat 37) at 1; apply bpow2_pow). rewrite <- bpow_plus. apply bpow_le. lia. }
  destruct (HF L ncols fd F ltac:(lia) ltac:(lia) Lfd) as (Lo & O); [|exact TF|exact FR|].
  { intros p q Hp Hq. apply EV; auto. }
  split; [unfold ds; rewrite zlen_map; exact Lo|]. intros p q Hp Hq. unfold ds. rewrite (fget_map _ L) by auto.
  specialize (O p q Hp Hq). set (x := fget ncols (ifft2 L ncols fd) p q) in *.
  assert (L1 : 1 <= IZR L) by (apply IZR_le; lia). assert (C1 : 1 <= IZR ncols) by (apply IZR_le; lia).
  set (G := F / (IZR L * IZR ncols)). assert (LC : 0 < IZR L * IZR ncols) by (apply Rmult_lt_0_compat; lra).
  assert (GF : G * IZR L * IZR ncols = F) by (unfold G; field; lra).
  set (D := sumC 0 L (fun i => sumC 0 ncols (fun j => VC (fget ncols fd i j) * root L (i * p) * root ncols (j * q))%C)) in *.
  assert (DF : Cmod D <= F).
  { eapply Rle_trans; [apply Cmod_sum2|]. eapply Rle_trans; [|exact TF]. apply tot2_le. intros i j _ _. rewrite !Cmod_mult, !Cmod_root, !Rmult_1_r. apply Rle_refl. }
  replace (eps * F / (IZR L * IZR ncols)) with (eps * G) in O by (unfold G; field; lra).
  assert (XG : Cmod (RtoC (/ (IZR L * IZR ncols)) * D)%C <= G).
  { rewrite Cmod_mult, Cmod_R, Rabs_right by (left; apply Rinv_0_lt_compat, LC). unfold G, Rdiv. rewrite Rmult_comm. apply Rmult_le_compat_r; [left; apply Rinv_0_lt_compat, LC|exact DF]. }
  pose proof (scale2 x _ G eps L ncols O XG He ltac:(lia) ltac:(lia)) as SC. rewrite GF in SC.
  replace (RtoC (/ (IZR L * IZR ncols)) * D * RtoC (IZR L) * RtoC (IZR ncols))%C with D in SC.
  2:{ replace (RtoC (/ (IZR L * IZR ncols)) * D * RtoC (IZR L) * RtoC (IZR ncols))%C with (D * RtoC (/ (IZR L * IZR ncols) * IZR L * IZR ncols))%C by (rewrite !RtoC_mult; ring).
      replace (/ (IZR L * IZR ncols) * IZR L * IZR ncols) with 1 by (field; lra). ring. }
  apply near_le with ((eps + 40 * uu) * F + modes N Mx * (2 * e0)).
  - apply near_shift with D.
    + apply SC.
      * unfold G. apply Rle_trans with (bpow radix2 (-800) / bpow radix2 60).
        { unfold Rdiv. rewrite <- bpow_opp, <- bpow_plus. apply bpow_le. lia. }
        unfold Rdiv. apply Rmult_le_compat; [apply bpow_ge_0|left; apply Rinv_0_lt_compat, bpow_gt_0|lra|]. apply Rinv_le_contravar; [exact LC|].
        change 60%Z with (30 + 30)%Z. rewrite bpow_plus. apply Rmult_le_compat; [lra|lra| |]; change (bpow radix2 30) with (IZR (2 ^ 30)); apply IZR_le; lia.
      * apply Rle_trans with (bpow radix2 900); [lra|apply bpow_le; lia].
    + unfold D, synth. rewrite <- sumC_sub. unfold modes. rewrite Rmult_assoc.
      rewrite (sumC_ext 0 L _ (fun i => sumC 0 ncols (fun j => (VC (fget ncols fd i j) - X (freqc ncols j) (freqc L i)) * root L (i * p) * root ncols (j * q))%C)).
      2:{ intros i Hi. rewrite <- sumC_sub. apply sumC_ext. intros j Hj. ring. }
      eapply Rle_trans; [apply Cmod_sum2|]. apply tot2_support; try lia; [lra| |].
      * intros i j Hi Hj. rewrite !Cmod_mult, !Cmod_root, !Rmult_1_r. apply EV; auto.
      * intros i j Hi Hj Hs. rewrite E0, X0 by auto. replace (RtoC 0 - RtoC 0)%C with (RtoC 0) by ring. rewrite !Cmult_0_l, Cmod_0. lra.
  - fold F. lra.
Qed.
Lemma f_ispht_core eps ifft2 junkr junki sc N Mx nrows ncols B : ifft_acc eps ifft2 -> 0 <= eps <= / 2 -> (0 <= Mx <= N)%Z -> (N <= 1022)%Z -> (N < nrows)%Z -> (2 <= nrows <= 2 ^ 29)%Z ->
  (2 * Mx + 2 <= ncols <= 2 ^ 30)%Z -> (ncols mod 2 = 0)%Z -> zlen sc = ncoef N Mx -> bpow radix2 (-700) <= B <= bpow radix2 800 ->
  (forall i, (0 <= i < zlen sc)%Z -> cap B 0 (vget cf0 sc i) (VC (vget cf0 sc i))) ->
  let L := (2 * nrows - 2)%Z in
  exists ds, f_ispht ifft2 junkr junki sc N Mx (Some nrows) (Some ncols) = Ok (L, ncols, ds) /\ zlen ds = (L * ncols)%Z /\
    forall p q, (0 <= p < L)%Z -> (0 <= q < ncols)%Z -> near (ispht_err eps N Mx B) (fget ncols ds p q) (synth L ncols (FscV sc N Mx) p q).
Proof.
  intros HF He HM HN Hr Hr2 Hc Hc2 Ls HB Hx L. assert (HL : (N + 1 <= L)%Z) by (unfold L; lia). pose proof (bpow_gt_0 radix2 (-700)) as B0.
  destruct (ff_sc_to_fc_acc junkr junki sc L ncols N Mx B HM HN HL ltac:(lia) Ls) as (fd & Efd & Lfd & A); [|exact Hx|].
  { split; [lra|]. apply Rle_trans with (bpow radix2 800); [lra|apply bpow_le; lia]. }
  unfold f_ispht. destruct (Z.leb_spec nrows N); [lia|]. destruct (Z.ltb_spec ncols (2 * Mx + 2)); [lia|]. rewrite Hc2. change (0 =? 1)%Z with false. cbv iota. fold L.
  unfold np_zeros at 1. destruct (Z.ltb_spec (L * ncols) 0); [nia|]. cbn [bind].
  rewrite Efd. cbn [bind]. destruct (Z.ltb_spec L 1); [lia|]. destruct (Z.ltb_spec ncols 1); [lia|]. cbn [orb].
  pose proof (eacc_B N B ltac:(lia) ltac:(lra)) as EB.
  destruct (ispht_tail eps ifft2 fd (FscV sc N Mx) N Mx L ncols B (eacc N B 0) HF He HM HN ltac:(unfold L; lia) ltac:(lia) Lfd HB EB) as (Lo & O).
  { intros p q Hp Hq. destruct (A p q Hp Hq) as ((M & _ & Cp) & _). exact (cap_near _ _ _ _ Cp). }
  { intros p q Hp Hq Hs. destruct (A p q Hp Hq) as (_ & Z0). destruct (Z0 Hs) as [Z1 Z2]. unfold VC. cbn [RtoC fst snd] in *. rewrite (V_ap0 _ Z1), (V_ap0 _ Z2). reflexivity. }
  { intros m k Hs. unfold FscV. destruct (Z.leb_spec (Z.abs m) Mx); [|reflexivity]. apply FcolV_hi. lia. }
  { intros. apply FscV_size; auto. lra. }
  eexists. split; [reflexivity|]. split; [exact Lo|]. exact O.
Qed.
