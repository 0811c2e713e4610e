(** * KissFl3: the general butterfly and kf_work in double precision. *)
From Coq Require Import ZArith List Bool SpecFloat Reals Lia Lra Psatz Permutation.
From Coquelicot Require Import Complex.
From Flocq Require Import Core.Core IEEE754.BinarySingleNaN.
From Verif Require Import Py PyFacts Num FloatN FloatText Exact MCoefs Sums MPysphi Dft MKiss KissFacts KissFacts2 MDouble FlFacts SeedReal SeedFl SeedFl2 DoubleFacts FlSigned SbesselFTerm SbesselFRel SbesselFFun TabFl SumFl SumFl2 SumFl3 MKissF KissFl KissFl2.
Import ListNotations.
Open Scope list_scope.
Open Scope Z_scope.

Lemma sumC_radixf p m f : 0 <= p -> 0 <= m ->
  sumC 0 (p * m) f = sumC 0 p (fun q => sumC 0 m (fun j => f (q + j * p))).
Proof.
  intros Hp Hm. revert m Hm. apply natlike_ind.
  - rewrite Z.mul_0_r, (sumC_nil 0 0) by lia. symmetry. apply sumC_zero. intros; apply sumC_nil; lia.
  - intros m Hm IH. rewrite (sumC_split 0 (p * m)) by nia. rewrite IH.
    transitivity (sumC 0 p (fun q => sumC 0 m (fun j => f (q + j * p)%Z) + f (q + m * p)%Z)%C).
    + rewrite sumC_add. f_equal.
      replace (p * Z.succ m) with (p + m * p) by (unfold Z.succ; ring).
      replace (p * m) with (0 + m * p) at 1 by ring. apply sumC_shift.
    + apply sumC_ext. intros k Hk. unfold Z.succ. symmetry. apply (sumC_snoc 0 m (fun j => f (k + j * p)%Z)). lia.
Qed.

Section Generic.
Variables (st : kcfgf) (sg : Z) (eps A : R).
Hypothesis Hst : fcfg_ok st sg eps.
Hypothesis HA0 : (bpow radix2 (-900) <= A)%R.
Hypothesis Hu : (uu <= eps)%R.
Hypothesis He : (eps <= / 1000)%R.
Notation nfft := (kf_nfft st).
Notation WW := (W nfft sg).
Notation KC := (kc A eps).
Let Hn : 0 < nfft := fo_pos st sg eps Hst.
Let A0 : (0 < A)%R. Proof. pose proof (bpow_gt_0 radix2 (-900)). lra. Qed.
Let e0 : (0 < eps)%R. Proof. pose proof uu_small. lra. Qed.

Definition cg (q : Z) : R := (12 * IZR q + IZR q * IZR q)%R.
Lemma cg_step q : 1 <= q -> (cg q + (0 + 7 * 1 + 4) + (IZR q + 1) + 1 <= cg (q + 1))%R.
Proof. intros H. apply IZR_le in H. unfold cg. rewrite plus_IZR. nra. Qed.
Lemma cg_okc q p : 1 <= q <= p -> (cg p * eps <= / 2)%R -> (8 * (IZR p + 1) * A <= BIG)%R -> okc A eps (IZR q) (cg q).
Proof.
  intros [H1 H2] E B. apply IZR_le in H1, H2. assert (0 <= cg q <= cg p)%R by (unfold cg; nra).
  assert (8 * (IZR q + 1) * A <= 8 * (IZR p + 1) * A)%R by (apply Rmult_le_compat_r; lra).
  assert (cg q * eps <= cg p * eps)%R by (apply Rmult_le_compat_r; lra).
  unfold okc. repeat split; lra.
Qed.

Lemma fbfly_generic_ok junk out o fs m p : 1 <= m -> 1 <= p -> 0 <= o -> 0 < fs -> o + p * m <= zlen out -> fs * (p * m) = nfft ->
  (cg p * eps <= / 2)%R -> (8 * (IZR p + 1) * A <= BIG)%R -> (forall i, o <= i < o + p * m -> small A (vgf out i)) ->
  exists out', ff_bfly_generic junk out o fs st m p = Ok out' /\ fbfly_spec WW (be eps A p) out out' o fs m p.
Proof.
  intros Hm Hp Ho Hf Hl E HC HB HS. unfold ff_bfly_generic.
  apply (fbfly_loop WW A); try lia; auto. intros u b Hu' Hb Hs.
  assert (Hc : forall q, 0 <= q < p -> 0 <= cell o m u q < zlen b)
    by (intros q Hq; pose proof (cell_bounds o m u q p); lia).
  assert (Hi : forall q q', q <> q' -> cell o m u q <> cell o m u q')
    by (intros q q' Hq E'; apply cell_inj in E'; lia).
  destruct (mfor_inv (fun k s => zlen s = p /\ forall q, 0 <= q < k -> vgf s q = vgf b (cell o m u q)) 0 p
     (fun q1 s => x <- fbget b (o + (u + q1 * m)) ;; bset s q1 x) (vmake p junk)) as (scr & Es & Hsl & Hsv).
  - lia.
  - split; [rewrite zlen_vmake; lia|intros; lia].
  - intros q s Hq (Hl' & Hv). replace (o + (u + q * m)) with (cell o m u q) by (unfold cell; ring).
    rewrite fbget_ok by (apply Hc; lia); cbn [bind]. rewrite bset_ok by lia. eexists; split; [reflexivity|].
    rewrite zlen_vset. split; auto. intros q' Hq'. rewrite vget_vset by lia.
    destruct (Z.eqb_spec q' q) as [->|]; auto. apply Hv; lia.
  - rewrite Es; cbn [bind]. clear Es.
    pose (T := fun q1 => sumC 0 p (fun q => VC (vgf b (cell o m u q)) * WW (fs * (q * (q1 * m + u)))%Z)%C).
    match goal with |- exists b', mfor (zrange 0 p) ?f b = _ /\ _ =>
      destruct (mfor_inv (fun k (s : list cf) => zlen s = zlen b /\ (forall q, 0 <= q < k -> KC (IZR p) (cg p) (vgf s (cell o m u q)) (T q)) /\
        (forall i, (forall q, 0 <= q < p -> i <> cell o m u q) -> vgf s i = vgf b i)) 0 p f b) as (b' & Eb & G1 & G2 & G3) end.
    + lia.
    + split; [reflexivity|]. split; auto. intros; lia.
    + intros q1 s Hq1 (G1 & G2 & G3).
      rewrite fbget_ok by lia; cbn [bind].
      replace (o + (u + q1 * m)) with (cell o m u q1) by (unfold cell; ring).
      rewrite bset_ok by (rewrite G1; apply Hc; lia); cbn [bind].
      set (s1 := vset s (cell o m u q1) (vgf scr 0)).
      assert (Hk0 : 0 <= u + q1 * m < p * m) by nia.
      assert (Hk : 0 <= fs * (u + q1 * m) < nfft) by (rewrite <- E; split; [nia|apply Z.mul_lt_mono_pos_l; lia]).
      match goal with |- exists s', bind (mfor (zrange 1 p) ?f _) _ = _ /\ _ =>
        destruct (mfor_inv (fun q (r : list cf * Z) =>
          snd r = (fs * (u + q1 * m) * (q - 1)) mod nfft /\
          zlen (fst r) = zlen b /\
          (forall i, i <> cell o m u q1 -> vgf (fst r) i = vgf s i) /\
          KC (IZR q) (cg q) (vgf (fst r) (cell o m u q1)) (sumC 0 q (fun q => VC (vgf b (cell o m u q)) * WW (fs * (q * (q1 * m + u)))%Z)%C))
          1 p f (s1, 0)) as ((s2 & tw2) & E2 & K1 & K2 & K3 & K4) end.
      * lia.
      * cbn [fst snd]. split; [|split; [|split]].
        -- replace (fs * (u + q1 * m) * (1 - 1)) with 0 by ring. rewrite Z.mod_0_l; lia.
        -- unfold s1. rewrite zlen_vset; auto.
        -- intros i Hne. unfold s1. rewrite vget_vset_ne; auto.
        -- unfold s1. rewrite vget_vset_eq by (rewrite G1; apply Hc; lia).
           change 1 with (0 + 1) at 3. rewrite (sumC_snoc 0) by lia. rewrite (sumC_nil 0) by lia.
           rewrite Hsv by lia. replace (fs * (0 * (q1 * m + u))) with 0 by ring. rewrite W_0 by auto.
           replace (RtoC 0 + VC (vgf b (cell o m u 0)) * RtoC 1)%C with (VC (vgf b (cell o m u 0))) by ring.
           destruct (Hs 0 ltac:(lia)) as [F B]. apply (kc_le A eps HA0 Hu 1 0); [|lra|unfold cg; lra]. apply kc_self; auto; lra.
      * intros q (s' & tw) Hq (K1 & K2 & K3 & K4). cbn [fst snd] in *.
        set (tw' := if nfft <=? tw + fs * (u + q1 * m) then tw + fs * (u + q1 * m) - nfft else tw + fs * (u + q1 * m)).
        assert (Etw : tw' = (fs * (u + q1 * m) * q) mod nfft).
        { replace (fs * (u + q1 * m) * q) with (fs * (u + q1 * m) * (q - 1) + fs * (u + q1 * m)) by ring.
          rewrite <- Z.add_mod_idemp_l, <- K1 by lia.
          assert (0 <= tw < nfft) by (rewrite K1; apply Z.mod_pos_bound; lia).
          unfold tw'. destruct (Z.leb_spec nfft (tw + fs * (u + q1 * m))).
          - rewrite <- (Z.mod_small (tw + fs * (u + q1 * m) - nfft) nfft) at 1 by lia.
            rewrite <- (Z_mod_plus_full (tw + fs * (u + q1 * m) - nfft) 1 nfft). f_equal. ring.
          - rewrite Z.mod_small; lia. }
        assert (Btw : 0 <= tw' < nfft) by (rewrite Etw; apply Z.mod_pos_bound; lia).
        rewrite fbget_ok by lia; cbn [bind].
        rewrite (ftw_ok st sg eps Hst) by exact Btw; cbn [bind].
        rewrite fbget_ok by (rewrite K2; apply Hc; lia); cbn [bind].
        rewrite bset_ok by (rewrite K2; apply Hc; lia); cbn [bind].
        eexists; split; [reflexivity|]. cbn [fst snd]. split; [|split; [|split]].
        -- rewrite Etw. f_equal. ring.
        -- now rewrite zlen_vset.
        -- intros i Hne. rewrite vget_vset_ne by auto. auto.
        -- rewrite vget_vset_eq by (rewrite K2; apply Hc; lia). rewrite sumC_snoc by lia.
           rewrite Hsv by lia. pose proof (ftw_twid st sg eps Hst tw' Btw) as TW.
           replace (WW (fs * (q * (q1 * m + u)))) with (WW tw') by (rewrite Etw, W_mod by auto; f_equal; ring).
           assert (O1 : okc A eps 1 0). { pose proof (cg_okc 1 p ltac:(lia) HC HB) as O. eapply okc_le; [exact HA0|exact Hu|exact O|lra|unfold cg; lra]. }
           pose proof (kc_self A eps 1 (vgf b (cell o m u q)) (proj1 (Hs q ltac:(lia))) ltac:(rewrite Rmult_1_l; apply (Hs q); lia)) as KS.
           pose proof (kc_mul A eps HA0 Hu He _ _ _ _ _ _ KS TW O1) as KM.
           assert (O2 : okc A eps 1 (0 + 7 * 1 + 4)). { pose proof (cg_okc 1 p ltac:(lia) HC HB) as O. eapply okc_le; [exact HA0|exact Hu|exact O|lra|unfold cg; lra]. }
           pose proof (kc_add A eps HA0 Hu _ _ _ _ _ _ _ _ K4 KM (cg_okc q p ltac:(lia) HC HB) O2) as KA.
           eapply (kc_le A eps HA0 Hu); [exact KA|rewrite plus_IZR; lra|apply cg_step; lia].
      * rewrite E2; cbn [bind fst]. exists s2. split; auto. cbn [fst snd] in *. split; auto. split.
        -- intros q Hq. destruct (Z.eq_dec q q1) as [->|Hne]; auto.
           rewrite K3 by auto. apply G2; lia.
        -- intros i Hne. rewrite K3 by (apply Hne; lia). auto.
    + exists b'. split; auto. split; [exact G1|]. split; [|exact G3]. intros q1 Hq1. destruct (G2 q1 ltac:(lia)) as (F & _ & EE). split; [exact F|].
      eapply Rle_trans; [exact EE|]. unfold be. apply Rmult_le_compat_r; [left; apply Rmult_lt_0_compat; auto|].
      apply IZR_le in Hp. unfold cg. nra.
Qed.

Lemma fbfly_ok junk out o fs m p : 1 <= m -> 1 <= p -> 0 <= o -> 0 < fs -> o + p * m <= zlen out -> fs * (p * m) = nfft ->
  (cg p * eps <= / 2)%R -> (100 * (IZR p + 1) * A <= BIG)%R -> (forall i, o <= i < o + p * m -> small A (vgf out i)) ->
  exists out', ff_bfly junk out o fs st m p = Ok out' /\ fbfly_spec WW (be eps A p) out out' o fs m p.
Proof.
  intros Hm Hp Ho Hf Hl E HC HB HS. assert (p1 : (1 <= IZR p)%R) by (apply IZR_le; lia). assert (HAB : (100 * A <= BIG)%R) by nra. unfold ff_bfly.
  destruct (Z.eqb_spec p 2) as [->|]; [apply fbfly2_ok; auto; lia|].
  destruct (Z.eqb_spec p 3) as [->|]; [apply fbfly3_ok; auto|].
  destruct (Z.eqb_spec p 4) as [->|]; [apply fbfly4_ok; auto|].
  destruct (Z.eqb_spec p 5) as [->|]; [apply fbfly5_ok; auto|].
  apply fbfly_generic_ok; auto. nra.
Qed.
End Generic.

(** ** kf_work: every stage of radix p adds 2 (32 + p) units of eps *)
Fixpoint cost (l : list (Z * Z)) : R := match l with [] => 0 | (p, _) :: l => 2 * (32 + IZR p) + cost l end.

Section Work.
Variables (st : kcfgf) (sg : Z) (eps A : R).
Hypothesis Hst : fcfg_ok st sg eps.
Hypothesis HA0 : (bpow radix2 (-900) <= A)%R.
Hypothesis Hu : (uu <= eps)%R.
Hypothesis He : (eps <= / 1000)%R.
Notation nfft := (kf_nfft st).
Notation WW := (W nfft sg).
Let Hn : 0 < nfft := fo_pos st sg eps Hst.
Let A0 : (0 < A)%R. Proof. pose proof (bpow_gt_0 radix2 (-900)). lra. Qed.
Let e0 : (0 < eps)%R. Proof. pose proof uu_small. lra. Qed.
Hypothesis Hcg : (cg nfft * eps <= / 2)%R.
Hypothesis Hbig : (400 * IZR nfft * A <= BIG)%R.

(** the cost of the stages actually run: until m = 1 *)
Fixpoint wcost (l : list (Z * Z)) : R :=
  match l with [] => 0 | (p, m) :: l => 2 * (32 + IZR p) + (if m =? 1 then 0 else wcost l) end.
Lemma wcost_pos n l : good_factors n l -> (0 <= wcost l)%R.
Proof.
  revert n. induction l as [|(p & m) l IH]; intros n G; [destruct G|]. destruct G as (_ & Hp & _ & G). apply IZR_le in Hp. cbn [wcost].
  destruct (Z.eqb_spec m 1); [lra|]. destruct G as [G|G]; [lia|]. specialize (IH m G). lra.
Qed.

Definition gsum (fin : list cf) (is fi fs n k : Z) : C := sumC 0 n (fun j => VC (vgf fin (fi + j * (fs * is))%Z) * WW (fs * (j * k))%Z)%C.
Lemma ff_work_ok junk fin is : forall factors n out o fi fs,
  good_factors n factors -> fs * n = nfft -> 0 < fs -> 0 <= o -> o + n <= zlen out ->
  (forall j, 0 <= j < n -> 0 <= fi + j * (fs * is) < zlen fin /\ small A (vgf fin (fi + j * (fs * is)))) -> (wcost factors * eps <= 1)%R ->
  exists out', ff_work junk st fin is factors out o fi fs = Ok out' /\
    zlen out' = zlen out /\
    (forall k, 0 <= k < n -> near (wcost factors * eps * (IZR n * A)) (vgf out' (o + k)) (gsum fin is fi fs n k)) /\
    (forall i, i < o \/ o + n <= i -> vgf out' i = vgf out i).
Proof.
  induction factors as [|(p & m) factors IH]; intros n out o fi fs Hg E Hf Ho Hl Hin HW; [destruct Hg|].
  pose proof Hg as Hg0. destruct Hg as (-> & Hp & Hm & Hg). cbn [ff_work].
  destruct (Z.ltb_spec p 1); [lia|]. destruct (Z.ltb_spec m 1); [lia|]. cbn [orb].
  set (wc := if m =? 1 then 0%R else wcost factors).
  assert (wc0 : (0 <= wc)%R) by (unfold wc; destruct (Z.eqb_spec m 1); [lra|]; destruct Hg as [|Hg]; [lia|]; exact (wcost_pos m factors Hg)).
  assert (p1 : (1 <= IZR p)%R) by (apply IZR_le; lia). assert (m1 : (1 <= IZR m)%R) by (apply IZR_le; lia).
  assert (HW' : (wc * eps <= 1)%R). { cbn [wcost] in HW. fold wc in HW. assert (0 <= (2 * (32 + IZR p)) * eps)%R by (apply Rmult_le_pos; lra). lra. }
  (* the sub-transforms *)
  assert (Sub : exists out1,
     (if m =? 1 then
        mfor (zrange 0 p) (fun i out => x <- fbget fin (fi + i * (fs * is)) ;; bset out (o + i) x) out
      else mfor (zrange 0 p) (fun i out => ff_work junk st fin is factors out (o + i * m) (fi + i * (fs * is)) (fs * p)) out)
     = Ok out1 /\ zlen out1 = zlen out /\
     (forall i u, 0 <= i < p -> 0 <= u < m -> near (wc * eps * (IZR m * A)) (vgf out1 (cell o m u i))
        (sumC 0 m (fun j => VC (vgf fin (fi + (i + j * p) * (fs * is))%Z) * WW (fs * p * (j * u))%Z)%C)) /\
     (forall i, i < o \/ o + p * m <= i -> vgf out1 i = vgf out i)).
  { match goal with |- exists out1, (if m =? 1 then mfor _ ?f _ else mfor _ ?g _) = _ /\ _ =>
      pose (B := if m =? 1 then f else g);
      assert (Hstep : forall i b, 0 <= i < p -> zlen b = zlen out -> exists b', B i b = Ok b' /\ zlen b' = zlen out /\
        (forall u, 0 <= u < m -> near (wc * eps * (IZR m * A)) (vgf b' (cell o m u i))
           (sumC 0 m (fun j => VC (vgf fin (fi + (i + j * p) * (fs * is))%Z) * WW (fs * p * (j * u))%Z)%C)) /\
        (forall k, k < o + i * m \/ o + i * m + m <= k -> vgf b' k = vgf b k));
      [|destruct (mfor_inv (fun k b => zlen b = zlen out /\
          (forall i u, 0 <= i < k -> 0 <= u < m -> near (wc * eps * (IZR m * A)) (vgf b (cell o m u i))
             (sumC 0 m (fun j => VC (vgf fin (fi + (i + j * p) * (fs * is))%Z) * WW (fs * p * (j * u))%Z)%C)) /\
          (forall i, i < o \/ o + p * m <= i -> vgf b i = vgf out i)) 0 p B out) as (out1 & E1 & G1 & G2 & G3)] end.
    - intros i b Hi Hb. unfold B, wc. destruct (Z.eqb_spec m 1) as [->|Hm1].
      + destruct (Hin i ltac:(nia)) as [Hi1 Hi2].
        rewrite fbget_ok by exact Hi1; cbn [bind]. rewrite bset_ok by nia. eexists; split; [reflexivity|].
        rewrite zlen_vset. split; auto. split.
        * intros u Hu'. replace u with 0 by lia. unfold cell. replace (o + (i * 1 + 0)) with (o + i) by ring.
          rewrite vget_vset_eq by nia. change 1 with (0 + 1) at 2. rewrite sumC_snoc, (sumC_nil 0) by lia.
          replace (fs * p * (0 * 0)) with 0 by ring. rewrite W_0 by auto. replace (i + 0 * p) with i by ring.
          split; [exact (proj1 Hi2)|]. match goal with |- (Cmod ?z <= _)%R => replace z with (RtoC 0) by ring end. rewrite Cmod_0. lra.
        * intros k Hk. rewrite vget_vset_ne; auto. lia.
      + destruct (IH m b (o + i * m) (fi + i * (fs * is)) (fs * p)) as (b' & Eb & L1 & L2 & L3).
        * tauto.
        * rewrite <- E. ring.
        * nia.
        * nia.
        * nia.
        * intros j Hj. replace (fi + i * (fs * is) + j * (fs * p * is)) with (fi + (i + j * p) * (fs * is)) by ring.
          apply Hin. nia.
        * unfold wc in HW'. destruct (Z.eqb_spec m 1); [lia|exact HW'].
        * exists b'. split; auto. split; [lia|]. split; auto.
          intros u Hu'. replace (cell o m u i) with (o + i * m + u) by (unfold cell; ring).
          destruct (L2 u Hu') as [F EE]. split; [exact F|]. eapply Rle_trans; [|exact EE]. right. do 2 f_equal. unfold gsum. apply sumC_ext. intros j Hj. do 3 f_equal. ring.
    - lia.
    - split; [reflexivity|]. split; auto. intros; lia.
    - intros i b Hi (G1 & G2 & G3). destruct (Hstep i b Hi G1) as (b' & Eb & K1 & K2 & K3).
      exists b'. split; auto. split; auto. split.
      + intros i' u Hi' Hu'. destruct (Z.eq_dec i' i) as [->|]; auto.
        rewrite K3. apply G2; lia. unfold cell. nia.
      + intros k Hk. rewrite K3. apply G3; auto. nia.
    - exists out1. split; [unfold B in E1; destruct (m =? 1); exact E1|]. split; [exact G1|]. split; [exact G2|exact G3]. }
  destruct Sub as (out1 & -> & L1 & L2 & L3). cbn [bind].
  (* sizes after the sub-transforms *)
  set (A2 := (2 * (IZR m * A))%R).
  assert (mA : (A <= IZR m * A)%R) by nra.
  assert (GS : forall i u, 0 <= i < p -> 0 <= u < m ->
     (Cmod (sumC 0 m (fun j => VC (vgf fin (fi + (i + j * p) * (fs * is))%Z) * WW (fs * p * (j * u))%Z)%C) <= IZR m * A)%R).
  { intros i u Hi Hu'. replace (IZR m) with (IZR (m - 0)) by (f_equal; lia). apply Cmod_sumC; [lia|]. intros j Hj. rewrite Cmod_mult, Cmod_W, Rmult_1_r.
    apply (Hin (i + j * p)). nia. }
  assert (SM : forall i, o <= i < o + p * m -> small A2 (vgf out1 i)).
  { intros i Hi. assert (EC : i = cell o m ((i - o) mod m) ((i - o) / m)) by (unfold cell; pose proof (Z.div_mod (i - o) m ltac:(lia)); lia).
    pose proof (Z.mod_pos_bound (i - o) m ltac:(lia)) as Hu'.
    assert (Hq : 0 <= (i - o) / m < p) by (split; [apply Z.div_pos; lia|apply Z.div_lt_upper_bound; lia]).
    destruct (L2 _ _ Hq Hu') as [F EE]. rewrite <- EC in F, EE. split; [exact F|].
    set (g := sumC 0 m _) in EE. replace (VC (vgf out1 i)) with ((VC (vgf out1 i) - g) + g)%C by ring. eapply Rle_trans; [apply Cmod_triangle|].
    pose proof (GS _ _ Hq Hu') as GG. fold g in GG. assert (wc * eps * (IZR m * A) <= 1 * (IZR m * A))%R by (apply Rmult_le_compat_r; lra). unfold A2. lra. }
  assert (Nn : (IZR nfft = IZR fs * (IZR p * IZR m))%R) by (rewrite <- E, !mult_IZR; reflexivity).
  assert (f1 : (1 <= IZR fs)%R) by (apply IZR_le; lia).
  assert (PMN : (IZR p * IZR m <= IZR nfft)%R) by (rewrite Nn; assert (1 <= IZR p * IZR m)%R by nra; nra).
  assert (Hcp : (cg p * eps <= / 2)%R).
  { eapply Rle_trans; [|exact Hcg]. apply Rmult_le_compat_r; [lra|]. assert (IZR p <= IZR nfft)%R by nra. unfold cg. nra. }
  assert (HB2 : (100 * (IZR p + 1) * A2 <= BIG)%R).
  { eapply Rle_trans; [|exact Hbig]. unfold A2. assert (IZR p * IZR m * A <= IZR nfft * A)%R by (apply Rmult_le_compat_r; lra). assert (IZR m <= IZR p * IZR m)%R by nra.
    assert (IZR m * A <= IZR p * IZR m * A)%R by (apply Rmult_le_compat_r; lra). lra. }
  destruct (fbfly_ok st sg eps A2 Hst ltac:(unfold A2; lra) Hu He junk out1 o fs m p) as (out' & Eo & B1 & B2 & B3); auto; try lia.
  exists out'. split; auto. split; [lia|]. split.
  - intros k Hk. 
    assert (Hkq : k = k / m * m + k mod m) by (rewrite (Z.div_mod k m) at 1 by lia; ring).
    pose proof (Z.mod_pos_bound k m ltac:(lia)) as Hu'.
    assert (Hq : 0 <= k / m < p) by (split; [apply Z.div_pos; lia|apply Z.div_lt_upper_bound; lia]).
    set (q1 := k / m) in *. set (u := k mod m) in *.
    replace (o + k) with (cell o m u q1) by (unfold cell; lia).
    destruct (B2 q1 u Hq Hu') as [F EE]. split; [exact F|].
    assert (EG : gsum fin is fi fs (p * m) k = sumC 0 p (fun q => sumC 0 m (fun j => VC (vgf fin (fi + (q + j * p) * (fs * is))%Z) * WW (fs * p * (j * u))%Z)%C * WW (fs * (q * (q1 * m + u)))%Z)%C).
    { unfold gsum. rewrite sumC_radixf by lia. apply sumC_ext. intros q Hq'.
      rewrite sumC_mulr by auto. apply sumC_ext. intros j Hj.
      rewrite <- Cmult_assoc. f_equal. rewrite <- W_add by auto. rewrite Hkq.
      rewrite <- (W_period nfft sg Hn (fs * p * (j * u) + fs * (q * (q1 * m + u))) (j * q1)).
      f_equal. rewrite <- E. ring. }
    rewrite EG. set (S1 := sumC 0 p (fun q => VC (vgf out1 (cell o m u q)) * WW (fs * (q * (q1 * m + u))))%C) in *.
    match goal with |- (Cmod (?z - ?S2)%C <= _)%R => set (S3 := S2) in *; replace (z - S3)%C with ((z - S1) + (S1 - S3))%C by ring end.
    eapply Rle_trans; [apply Cmod_triangle|].
    assert (D : (Cmod (S1 - S3)%C <= IZR p * (wc * eps * (IZR m * A)))%R).
    { replace (S1 - S3)%C with (sumC 0 p (fun q => (VC (vgf out1 (cell o m u q)) - sumC 0 m (fun j => VC (vgf fin (fi + (q + j * p) * (fs * is))%Z) * WW (fs * p * (j * u))%Z)%C) * WW (fs * (q * (q1 * m + u)))%Z)%C).
      - replace (IZR p) with (IZR (p - 0)) by (f_equal; lia). apply Cmod_sumC; [lia|]. intros q Hq'. rewrite Cmod_mult, Cmod_W, Rmult_1_r. apply (L2 q u); auto.
      - unfold S1, S3. replace (sumC 0 p (fun q => VC (vgf out1 (cell o m u q)) * WW (fs * (q * (q1 * m + u))))%C) with
          (sumC 0 p (fun q => (VC (vgf out1 (cell o m u q)) - sumC 0 m (fun j => VC (vgf fin (fi + (q + j * p) * (fs * is))%Z) * WW (fs * p * (j * u))%Z)%C) * WW (fs * (q * (q1 * m + u)))%Z
             + sumC 0 m (fun j => VC (vgf fin (fi + (q + j * p) * (fs * is))%Z) * WW (fs * p * (j * u))%Z)%C * WW (fs * (q * (q1 * m + u)))%Z)%C) by (apply sumC_ext; intros; ring).
        rewrite sumC_add. ring. }
    eapply Rle_trans; [apply Rplus_le_compat; [exact EE|exact D]|]. cbn [wcost]. fold wc. unfold be, A2. rewrite mult_IZR. right. ring.
  - intros i Hi. rewrite B3, L3; auto.
Qed.
End Work.
