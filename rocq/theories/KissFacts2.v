(** * KissFacts2: the general butterfly, kf_work and kf_factor *)
From Coq Require Import ZArith Znumtheory List String Bool Reals Lia Lra.
From Coquelicot Require Import Complex.
From Verif Require Import Py PyFacts Num Exact MCoefs Sums MPysphi Dft Smooth MKiss KissFacts.
Import ListNotations.
Open Scope list_scope.
Open Scope Z_scope.
Section Butterflies.
Variables (st : kcfg) (sg : Z).
Hypothesis Hst : cfg_ok st sg.
Notation nfft := (k_nfft st).
Notation WW := (W nfft sg).
Let Hn : 0 < nfft := co_pos st sg Hst.
Let tw_ok i : 0 <= i < nfft -> cbget (k_tw st) i = Ok (WW i) := tw_ok st sg Hst i.

Lemma bfly_generic_ok junk out o fs m p : 1 <= m -> 1 <= p -> 0 <= o -> 0 < fs -> o + p * m <= zlen out -> fs * (p * m) = nfft ->
  exists out', kf_bfly_generic junk out o fs st m p = Ok out' /\ bfly_spec WW out out' o fs m p.
Proof.
  intros Hm Hp Ho Hf Hl E. unfold kf_bfly_generic.
  apply bfly_loop; try lia. intros u b Hu Hb.
  assert (Hc : forall q, 0 <= q < p -> 0 <= cell o m u q < zlen b)
    by (intros q Hq; pose proof (cell_bounds o m u q p); lia).
  assert (Hi : forall q q', q <> q' -> cell o m u q <> cell o m u q')
    by (intros q q' Hq E'; apply cell_inj in E'; lia).
  destruct (mfor_inv (fun k s => zlen s = p /\ forall q, 0 <= q < k -> vgc s q = vgc b (cell o m u q)) 0 p
     (fun q1 s => x <- cbget b (o + (u + q1 * m)) ;; bset s q1 x) (vmake p junk)) as (scr & Es & Hsl & Hsv).
  - lia.
  - split; [rewrite zlen_vmake; lia|intros; lia].
  - intros q s Hq (Hl' & Hv). replace (o + (u + q * m)) with (cell o m u q) by (unfold cell; ring).
    rewrite cbget_ok by (apply Hc; lia); cbn [bind]. rewrite bset_ok by lia. eexists; split; [reflexivity|].
    rewrite zlen_vset. split; auto. intros q' Hq'. rewrite vget_vset by lia.
    destruct (Z.eqb_spec q' q) as [->|]; auto. apply Hv; lia.
  - rewrite Es; cbn [bind]. clear Es.
    pose (T := fun q1 => sumC 0 p (fun q => vgc b (cell o m u q) * WW (fs * (q * (q1 * m + u)))%Z)%C).
    match goal with |- exists b', mfor (zrange 0 p) ?f b = _ /\ _ =>
      destruct (mfor_inv (fun k (s : list C) => zlen s = zlen b /\ (forall q, 0 <= q < k -> vgc s (cell o m u q) = T q) /\
        (forall i, (forall q, 0 <= q < p -> i <> cell o m u q) -> vgc s i = vgc b i)) 0 p f b) as (b' & Eb & G1 & G2 & G3) end.
    + lia.
    + repeat split; auto. intros; lia.
    + intros q1 s Hq1 (G1 & G2 & G3).
      rewrite cbget_ok by lia; cbn [bind].
      replace (o + (u + q1 * m)) with (cell o m u q1) by (unfold cell; ring).
      rewrite bset_ok by (rewrite G1; apply Hc; lia); cbn [bind].
      set (s1 := vset s (cell o m u q1) (vgc scr 0)).
      assert (Hk0 : 0 <= u + q1 * m < p * m) by nia.
      assert (Hk : 0 <= fs * (u + q1 * m) < nfft) by (rewrite <- E; split; [nia|apply Z.mul_lt_mono_pos_l; lia]).
      match goal with |- exists s', bind (mfor (zrange 1 p) ?f _) _ = _ /\ _ =>
        destruct (mfor_inv (fun q (r : list C * Z) =>
          snd r = (fs * (u + q1 * m) * (q - 1)) mod nfft /\
          zlen (fst r) = zlen b /\
          (forall i, i <> cell o m u q1 -> vgc (fst r) i = vgc s i) /\
          vgc (fst r) (cell o m u q1) = sumC 0 q (fun q => vgc b (cell o m u q) * WW (fs * (q * (q1 * m + u)))%Z)%C)
          1 p f (s1, 0)) as ((s2 & tw2) & E2 & K1 & K2 & K3 & K4) end.
      * lia.
      * cbn [fst snd]. split; [|split; [|split]].
        -- replace (fs * (u + q1 * m) * (1 - 1)) with 0 by ring. rewrite Z.mod_0_l; lia.
        -- unfold s1. rewrite zlen_vset; auto.
        -- intros i Hne. unfold s1. rewrite vget_vset_ne; auto.
        -- unfold s1. rewrite vget_vset_eq by (rewrite G1; apply Hc; lia).
           change 1 with (0 + 1). rewrite (sumC_snoc 0) by lia. rewrite (sumC_nil 0) by lia.
           rewrite Hsv by lia. replace (fs * (0 * (q1 * m + u))) with 0 by ring. rewrite W_0 by auto. ring.
      * intros q (s' & tw) Hq (K1 & K2 & K3 & K4). cbn [fst snd] in *.
        set (tw' := if nfft <=? tw + fs * (u + q1 * m) then tw + fs * (u + q1 * m) - nfft else tw + fs * (u + q1 * m)).
        assert (Etw : tw' = (fs * (u + q1 * m) * q) mod nfft).
        { replace (fs * (u + q1 * m) * q) with (fs * (u + q1 * m) * (q - 1) + fs * (u + q1 * m)) by ring.
          rewrite <- Z.add_mod_idemp_l, <- K1 by lia.
          assert (0 <= tw < nfft) by (rewrite K1; apply Z.mod_pos_bound; lia).
          unfold tw'. destruct (Z.leb_spec nfft (tw + fs * (u + q1 * m))).
          - rewrite <- (Z.mod_small (tw + fs * (u + q1 * m) - nfft) nfft) at 1 by lia.
            rewrite <- (Z_mod_plus_full (tw + fs * (u + q1 * m) - nfft) 1 nfft). f_equal. ring.
          - rewrite Z.mod_small; lia. }
        rewrite cbget_ok by lia; cbn [bind].
        rewrite tw_ok by (rewrite Etw; apply Z.mod_pos_bound; lia); cbn [bind].
        rewrite cbget_ok by (rewrite K2; apply Hc; lia); cbn [bind].
        rewrite bset_ok by (rewrite K2; apply Hc; lia); cbn [bind].
        eexists; split; [reflexivity|]. cbn [fst snd]. split; [|split; [|split]].
        -- rewrite Etw. f_equal. ring.
        -- now rewrite zlen_vset.
        -- intros i Hne. rewrite vget_vset_ne by auto. auto.
        -- rewrite vget_vset_eq by (rewrite K2; apply Hc; lia). rewrite K4, sumC_snoc by lia. f_equal.
           rewrite Hsv by lia. f_equal. rewrite Etw, W_mod by auto. f_equal. ring.
      * rewrite E2; cbn [bind fst]. exists s2. split; auto. cbn [fst snd] in *. split; auto. split.
        -- intros q Hq. destruct (Z.eq_dec q q1) as [->|Hne]; auto.
           rewrite K3 by auto. apply G2; lia.
        -- intros i Hne. rewrite K3 by (apply Hne; lia). auto.
    + exists b'. split; auto. repeat split; auto.
Qed.

Lemma bfly_ok junk out o fs m p : 1 <= m -> 1 <= p -> 0 <= o -> 0 < fs -> o + p * m <= zlen out -> fs * (p * m) = nfft ->
  exists out', kf_bfly junk out o fs st m p = Ok out' /\ bfly_spec WW out out' o fs m p.
Proof.
  intros. unfold kf_bfly.
  destruct (Z.eqb_spec p 2) as [->|]; [apply bfly2_ok; auto; lia|].
  destruct (Z.eqb_spec p 3) as [->|]; [apply bfly3_ok; auto|].
  destruct (Z.eqb_spec p 4) as [->|]; [apply bfly4_ok; auto|].
  destruct (Z.eqb_spec p 5) as [->|]; [apply bfly5_ok; auto|].
  apply bfly_generic_ok; auto.
Qed.

(** ** kf_work *)
Fixpoint good_factors (n : Z) (fs : list (Z * Z)) : Prop :=
  match fs with
  | [] => False
  | (p, m) :: fs => n = p * m /\ 1 <= p /\ 1 <= m /\ (m = 1 \/ good_factors m fs)
  end.

Lemma sumC_radix p m f : 0 <= p -> 0 <= m ->
  sumC 0 (p * m) f = sumC 0 p (fun q => sumC 0 m (fun j => f (q + j * p))).
Proof.
  intros Hp Hm. revert m Hm. apply natlike_ind.
  - rewrite Z.mul_0_r, (sumC_nil 0 0) by lia. symmetry. apply sumC_zero. intros; apply sumC_nil; lia.
  - intros m Hm IH. rewrite (sumC_split 0 (p * m)) by nia. rewrite IH.
    transitivity (sumC 0 p (fun q => sumC 0 m (fun j => f (q + j * p)%Z) + f (q + m * p)%Z)%C).
    + rewrite sumC_add. f_equal.
      replace (p * Z.succ m) with (p + m * p) by (unfold Z.succ; ring).
      replace (p * m) with (0 + m * p) at 1 by ring. apply sumC_shift.
    + apply sumC_ext. intros k Hk. unfold Z.succ. symmetry. apply (sumC_snoc 0 m (fun j => f (k + j * p)%Z)). lia.
Qed.

Lemma kf_work_ok junk fin is : forall factors n out o fi fs,
  good_factors n factors -> fs * n = nfft -> 0 < fs -> 0 <= o -> o + n <= zlen out ->
  (forall j, 0 <= j < n -> 0 <= fi + j * (fs * is) < zlen fin) ->
  exists out', kf_work junk st fin is factors out o fi fs = Ok out' /\
    zlen out' = zlen out /\
    (forall k, 0 <= k < n -> vgc out' (o + k) = sumC 0 n (fun j => vgc fin (fi + j * (fs * is))%Z * WW (fs * (j * k))%Z)%C) /\
    (forall i, i < o \/ o + n <= i -> vgc out' i = vgc out i).
Proof.
  induction factors as [|(p & m) factors IH]; intros n out o fi fs Hg E Hf Ho Hl Hin; [destruct Hg|].
  destruct Hg as (-> & Hp & Hm & Hg). cbn [kf_work].
  destruct (Z.ltb_spec p 1); [lia|]. destruct (Z.ltb_spec m 1); [lia|]. cbn [orb].
  (* the sub-transforms *)
  assert (Sub : exists out1,
     (if m =? 1 then
        mfor (zrange 0 p) (fun i out => x <- cbget fin (fi + i * (fs * is)) ;; bset out (o + i) x) out
      else mfor (zrange 0 p) (fun i out => kf_work junk st fin is factors out (o + i * m) (fi + i * (fs * is)) (fs * p)) out)
     = Ok out1 /\ zlen out1 = zlen out /\
     (forall i u, 0 <= i < p -> 0 <= u < m -> vgc out1 (cell o m u i) =
        sumC 0 m (fun j => vgc fin (fi + (i + j * p) * (fs * is))%Z * WW (fs * p * (j * u))%Z)%C) /\
     (forall i, i < o \/ o + p * m <= i -> vgc out1 i = vgc out i)).
  { match goal with |- exists out1, (if m =? 1 then mfor _ ?f _ else mfor _ ?g _) = _ /\ _ =>
      pose (B := if m =? 1 then f else g);
      assert (Hstep : forall i b, 0 <= i < p -> zlen b = zlen out -> exists b', B i b = Ok b' /\ zlen b' = zlen out /\
        (forall u, 0 <= u < m -> vgc b' (cell o m u i) =
           sumC 0 m (fun j => vgc fin (fi + (i + j * p) * (fs * is))%Z * WW (fs * p * (j * u))%Z)%C) /\
        (forall k, k < o + i * m \/ o + i * m + m <= k -> vgc b' k = vgc b k));
      [|destruct (mfor_inv (fun k b => zlen b = zlen out /\
          (forall i u, 0 <= i < k -> 0 <= u < m -> vgc b (cell o m u i) =
             sumC 0 m (fun j => vgc fin (fi + (i + j * p) * (fs * is))%Z * WW (fs * p * (j * u))%Z)%C) /\
          (forall i, i < o \/ o + p * m <= i -> vgc b i = vgc out i)) 0 p B out) as (out1 & E1 & G1 & G2 & G3)] end.
    - intros i b Hi Hb. unfold B. destruct (Z.eqb_spec m 1) as [->|Hm1].
      + rewrite cbget_ok by (apply Hin; nia); cbn [bind]. rewrite bset_ok by nia. eexists; split; [reflexivity|].
        rewrite zlen_vset. split; auto. split.
        * intros u Hu. replace u with 0 by lia. unfold cell. replace (o + (i * 1 + 0)) with (o + i) by ring.
          rewrite vget_vset_eq by nia. change 1 with (0 + 1). rewrite sumC_snoc, (sumC_nil 0) by lia.
          replace (fs * p * (0 * 0)) with 0 by ring. rewrite W_0 by auto. replace (i + 0 * p) with i by ring. ring.
        * intros k Hk. rewrite vget_vset_ne; auto. lia.
      + destruct (IH m b (o + i * m) (fi + i * (fs * is)) (fs * p)) as (b' & Eb & L1 & L2 & L3).
        * tauto.
        * rewrite <- E. ring.
        * nia.
        * nia.
        * nia.
        * intros j Hj. replace (fi + i * (fs * is) + j * (fs * p * is)) with (fi + (i + j * p) * (fs * is)) by ring.
          apply Hin. nia.
        * exists b'. split; auto. split; [lia|]. split; auto.
          intros u Hu. replace (cell o m u i) with (o + i * m + u) by (unfold cell; ring).
          rewrite L2 by auto. apply sumC_ext. intros j Hj. do 2 f_equal. ring.
    - lia.
    - repeat split; auto. intros; lia.
    - intros i b Hi (G1 & G2 & G3). destruct (Hstep i b Hi G1) as (b' & Eb & K1 & K2 & K3).
      exists b'. split; auto. split; auto. split.
      + intros i' u Hi' Hu. destruct (Z.eq_dec i' i) as [->|]; auto.
        rewrite K3. apply G2; lia. unfold cell. nia.
      + intros k Hk. rewrite K3. apply G3; auto. nia.
    - exists out1. split; [|repeat split; auto]. unfold B in E1. destruct (m =? 1); auto. }
  destruct Sub as (out1 & -> & L1 & L2 & L3). cbn [bind].
  destruct (bfly_ok junk out1 o fs m p) as (out' & Eo & B1 & B2 & B3); auto; try lia.
  exists out'. split; auto. split; [lia|]. split.
  - intros k Hk. 
    assert (Hkq : k = k / m * m + k mod m) by (rewrite (Z.div_mod k m) at 1 by lia; ring).
    pose proof (Z.mod_pos_bound k m ltac:(lia)) as Hu.
    assert (Hq : 0 <= k / m < p) by (split; [apply Z.div_pos; lia|apply Z.div_lt_upper_bound; lia]).
    set (q1 := k / m) in *. set (u := k mod m) in *.
    replace (o + k) with (cell o m u q1) by (unfold cell; lia).
    rewrite B2 by auto. rewrite sumC_radix by lia. apply sumC_ext. intros q Hq'.
    rewrite L2, sumC_mulr by auto. apply sumC_ext. intros j Hj.
    rewrite <- Cmult_assoc. f_equal. rewrite <- W_add by auto. rewrite Hkq.
    rewrite <- (W_period nfft sg Hn (fs * p * (j * u) + fs * (q * (q1 * m + u))) (j * q1)).
    f_equal. rewrite <- E. ring.
  - intros i Hi. rewrite B3, L3; auto.
Qed.
End Butterflies.

(** ** kf_factor *)
Definition fmeas (fsqrt p : Z) : Z :=
  if p =? 4 then fsqrt + 4 else if p =? 2 then fsqrt + 3 else Z.max 0 (fsqrt - p) + 2.
Lemma factor_next_ok n fsqrt : 1 <= n -> 0 <= fsqrt -> forall fuel p, 2 <= p -> fmeas fsqrt p < Z.of_nat fuel ->
  exists p', factor_next fuel n fsqrt p = Ok p' /\ 1 <= p' /\ (p' | n) /\ (p' = 1 -> n = 1).
Proof.
  intros Hn Hfs. induction fuel as [|fuel IH]; intros p Hp Hm.
  - exfalso. unfold fmeas in Hm. destruct (p =? 4), (p =? 2); cbn in Hm; lia.
  - cbn [factor_next]. destruct (Z.eqb_spec (n mod p) 0) as [E|E].
    + exists p. split; auto. split; [lia|]. split; [apply Z.mod_divide; lia|lia].
    + set (p1 := if p =? 4 then 2 else if p =? 2 then 3 else p + 2).
      assert (Hp1 : 2 <= p1) by (unfold p1; destruct (Z.eqb_spec p 4), (Z.eqb_spec p 2); lia).
      cbv zeta. fold p1. destruct (Z.ltb_spec fsqrt p1).
      * destruct fuel as [|fuel].
        { exfalso. unfold fmeas in Hm. destruct (p =? 4), (p =? 2); cbn in Hm; lia. }
        cbn [factor_next]. rewrite Z.mod_same by lia. cbn [Z.eqb]. exists n. repeat split; try lia. apply Z.divide_refl.
      * apply IH; auto. unfold fmeas in *. unfold p1 in *.
        destruct (Z.eqb_spec p 4).
        -- cbn [Z.eqb Pos.eqb]. lia.
        -- destruct (Z.eqb_spec p 2); [cbn [Z.eqb Pos.eqb]; lia|].
           destruct (Z.eqb_spec (p + 2) 4); [lia|]. destruct (Z.eqb_spec (p + 2) 2); lia.
Qed.

Lemma factor_loop_ok fsqrt : 0 <= fsqrt -> forall fuel n p, 1 <= n -> 2 <= p -> Z.log2 n + 1 < Z.of_nat fuel ->
  exists l, factor_loop fuel n fsqrt p = Ok l /\ good_factors n l /\ zlen l <= Z.max 1 (Z.log2 n).
Proof.
  intros Hfs. induction fuel as [|fuel IH]; intros n p Hn Hp Hfu.
  - exfalso. pose proof (Z.log2_nonneg n). cbn in Hfu; lia.
  - cbn [factor_loop].
    destruct (factor_next_ok n fsqrt Hn Hfs (Z.to_nat (fsqrt + 5)) p Hp) as (p' & -> & H1 & [q Hq] & H2).
    { unfold fmeas. destruct (p =? 4); [lia|]. destruct (p =? 2); lia. }
    cbn [bind]. replace (n / p') with q by (rewrite Hq; symmetry; apply Z.div_mul; lia).
    destruct (Z.ltb_spec 1 q) as [Hlt|Hge].
    + assert (p' <> 1) by (intros ->; specialize (H2 eq_refl); lia).
      assert (Hlog : Z.log2 q + 1 <= Z.log2 n).
      { pose proof (Z.log2_double q ltac:(lia)). pose proof (Z.log2_le_mono (2 * q) n ltac:(nia)). lia. }
      destruct (IH q p') as (l & -> & G & L); try lia. cbn [bind].
      exists ((p', q) :: l). split; auto. split.
      * cbn. repeat split; try lia. auto.
      * unfold zlen in *. cbn [List.length]. pose proof (Z.log2_pos q ltac:(lia)). lia.
    + exists [(p', q)]. split; auto. assert (q = 1) by nia. subst q. split.
      * cbn. repeat split; try lia.
      * unfold zlen; cbn [List.length]. lia.
Qed.

Lemma kf_factor_ok n : 1 <= n -> exists l, kf_factor n = Ok l /\ good_factors n l /\ zlen l <= Z.max 1 (Z.log2 n).
Proof.
  intros Hn. apply factor_loop_ok; auto; try lia. apply Z.sqrt_nonneg.
Qed.

(** ** Configurations from kiss_fft_alloc are good *)
Definition dir (inv : bool) : Z := if inv then 1 else -1.
Lemma kiss_fft_alloc_ok n inv : 1 <= n < 2 ^ 32 ->
  exists st, kiss_fft_alloc n inv = Ok st /\ k_nfft st = n /\ cfg_ok st (dir inv) /\ good_factors n (k_factors st).
Proof.
  intros Hn. unfold kiss_fft_alloc. destruct (kf_factor_ok n) as (l & -> & G & L); [lia|]. cbn [bind].
  assert (Z.log2 n < 32) by (apply Z.log2_lt_pow2; lia).
  unfold MAXFACTORS. destruct (Z.ltb_spec 32 (zlen l)); [lia|].
  eexists; split; [reflexivity|]. cbn [k_nfft k_factors]. split; auto. split; auto.
  constructor; cbn [k_nfft k_inverse k_tw].
  - lia.
  - reflexivity.
  - rewrite zlen_vmake. lia.
  - intros i Hi. rewrite vget_vmake by auto. unfold W, root, cisR, dir.
    assert (HH : IZR n <> 0%R) by (apply not_0_IZR; lia).
    destruct inv; rewrite mult_IZR; apply C_ext; f_equal; field; auto.
Qed.

Definition dftv (inv : bool) (n : Z) (x : list C) (k : Z) : C :=
  sumC 0 n (fun j => vgc x j * root n (dir inv * (j * k))%Z)%C.
Lemma kiss_work_ok junk st inv fin fout : cfg_ok st (dir inv) -> good_factors (k_nfft st) (k_factors st) ->
  k_nfft st <= zlen fin -> k_nfft st <= zlen fout ->
  exists out, kf_work junk st fin 1 (k_factors st) fout 0 0 1 = Ok out /\ zlen out = zlen fout /\
    (forall k, 0 <= k < k_nfft st -> vgc out k = dftv inv (k_nfft st) fin k) /\
    (forall k, k_nfft st <= k -> vgc out k = vgc fout k).
Proof.
  intros Hst Hg H1 H2. pose proof (co_pos _ _ Hst) as Hn.
  destruct (kf_work_ok st (dir inv) Hst junk fin 1 (k_factors st) (k_nfft st) fout 0 0 1) as (out & E & L1 & L2 & L3); auto; try lia.
  exists out. split; auto. split; auto. split.
  - intros k Hk. replace k with (0 + k) at 1 by lia. rewrite L2 by auto. apply sumC_ext. intros j Hj. unfold W.
    f_equal; f_equal; ring.
  - intros k Hk. apply L3. lia.
Qed.
Lemma kiss_fft_inplace_ok junk st inv buf : cfg_ok st (dir inv) -> good_factors (k_nfft st) (k_factors st) ->
  zlen buf = k_nfft st ->
  kiss_fft_inplace junk st buf = Ok (vmake (k_nfft st) (dftv inv (k_nfft st) buf)).
Proof.
  intros Hst Hg Hl. pose proof (co_pos _ _ Hst) as Hn. unfold kiss_fft_inplace.
  destruct (kiss_work_ok junk st inv buf (vmake (k_nfft st) junk)) as (out & -> & L1 & L2 & L3); auto.
  - lia.
  - rewrite zlen_vmake. lia.
  - rewrite zlen_vmake in L1. cbn [bind]. unfold memcpy.
    destruct (Z.leb_spec (k_nfft st) (zlen out)); [|lia]. destruct (Z.leb_spec (k_nfft st) (zlen buf)); [|lia]. cbn [andb].
    f_equal. rewrite Hl. apply vmake_ext. intros i Hi. destruct (Z.ltb_spec i (k_nfft st)); [|lia]. apply L2; auto.
Qed.

(** ** The radices are 4 or prime and the stages end at length 1 *)
Fixpoint chain (n : Z) (l : list (Z * Z)) : Prop :=
  match l with
  | [] => n = 1
  | (p, m) :: l => n = p * m /\ chain m l
  end.
Definition finv (n p : Z) : Prop :=
  p = 4 \/ (p = 2 /\ ~ (4 | n)) \/ (3 <= p /\ ~ (2 | p) /\ forall r, prime r -> r < p -> ~ (r | n)).
Lemma prime_of_no_small n fsqrt n0 p : 2 <= n <= n0 -> fsqrt = Z.sqrt n0 -> fsqrt < p ->
  (forall r, prime r -> r < p -> ~ (r | n)) -> prime n.
Proof.
  intros Hn -> Hp Hr. destruct (prime_dec n) as [|Hnp]; auto. exfalso.
  destruct (not_prime_divide n ltac:(lia) Hnp) as (a & Ha & [b Hb]).
  assert (Hs : exists d, 1 < d /\ d * d <= n /\ (d | n)).
  { destruct (Z_le_gt_dec a b).
    - exists a. split; [lia|]. split; [nia|]. exists b; lia.
    - exists b. split; [nia|]. split; [nia|]. exists a; lia. }
  destruct Hs as (d & Hd1 & Hd2 & Hd3).
  destruct (prime_divisor d Hd1) as (r & Hrp & Hrd).
  assert (r <= d) by (apply Z.divide_pos_le; auto; lia).
  apply (Hr r Hrp).
  - assert (d <= Z.sqrt n0) by (apply Z.sqrt_le_square; lia). lia.
  - apply Z.divide_trans with d; auto.
Qed.
Lemma finv_prime n p : finv n p -> (p | n) -> p = 4 \/ prime p.
Proof.
  intros [->|[[-> _]|(H3 & _ & Hr)]] Hd; auto using prime_2. right.
  destruct (prime_dec p) as [|Hnp]; auto. exfalso.
  destruct (not_prime_divide p ltac:(lia) Hnp) as (a & Ha & Had).
  destruct (prime_divisor a ltac:(lia)) as (r & Hrp & Hrd).
  assert (r <= a) by (apply Z.divide_pos_le; auto; lia).
  apply (Hr r Hrp); [lia|]. apply Z.divide_trans with a; auto. apply Z.divide_trans with p; auto.
Qed.
Lemma factor_next_inv n n0 : 1 <= n <= n0 -> forall fuel p p', finv n p -> factor_next fuel n (Z.sqrt n0) p = Ok p' ->
  n = 1 \/ ((p' | n) /\ 2 <= p' /\ (p' = 4 \/ prime p') /\ (p' = n \/ finv n p')).
Proof.
  intros Hn. induction fuel as [|fuel IH]; intros p p' Hi; [discriminate|]. cbn [factor_next].
  assert (Hp2 : 2 <= p) by (destruct Hi as [->|[[-> _]|(H3 & _)]]; lia).
  destruct (Z.eqb_spec (n mod p) 0) as [E|E].
  - intros H; injection H as <-. assert (Hd : (p | n)) by (apply Z.mod_divide; lia). right.
    split; auto. split; auto. split; auto. eapply finv_prime; eauto.
  - assert (Hnd : ~ (p | n)) by (intros Hd; apply Z.mod_divide in Hd; lia).
    set (p1 := if p =? 4 then 2 else if p =? 2 then 3 else p + 2). cbv zeta. fold p1.
    assert (Hi1 : finv n p1).
    { unfold p1. destruct (Z.eqb_spec p 4) as [->|H4]; [right; left; auto|].
      destruct (Z.eqb_spec p 2) as [->|H2].
      - right; right. split; [lia|]. split; [intros [q Hq]; lia|]. intros r Hr Hr3. pose proof (prime_ge_2 r Hr).
        replace r with 2 by lia. auto.
      - destruct Hi as [->|[[-> _]|(H3 & Ho & Hr)]]; try lia. right; right. split; [lia|]. split.
        + intros Hd. apply Ho. replace p with (p + 2 - 2) by lia. apply Z.divide_sub_r; auto. apply Z.divide_refl.
        + intros r Hrp Hrl. destruct (Z_lt_le_dec r p); auto. destruct (Z.eq_dec r p) as [->|]; auto.
          exfalso. replace r with (p + 1) in Hrp by lia.
          assert (H2d : (2 | p + 1)).
          { apply Z.mod_divide; [lia|]. assert (p mod 2 <> 0) by (intros Hm; apply Ho; apply Z.mod_divide; lia).
            pose proof (Z.mod_pos_bound p 2 ltac:(lia)). rewrite Z.add_mod by lia. replace (p mod 2) with 1 by lia. reflexivity. }
          apply prime_div_prime in H2d; auto using prime_2. lia. }
    destruct (Z.ltb_spec (Z.sqrt n0) p1) as [Hlt|].
    + destruct fuel as [|fuel]; [discriminate|]. cbn [factor_next]. rewrite Z.mod_same by lia. cbn [Z.eqb].
      intros H; injection H as <-.
      destruct (Z.eq_dec n 1); auto. right. split; [apply Z.divide_refl|]. split; [lia|]. split; auto. right.
      destruct Hi1 as [H4|[[H2 H4]|(H3 & Ho & Hr)]].
      * exfalso. unfold p1 in H4. destruct (Z.eqb_spec p 4); [lia|]. destruct (Z.eqb_spec p 2); [lia|].
        assert (p = 2) by lia. lia.
      * assert (p1 = 2) by auto. assert (Hn4 : n < 4).
        { unfold p1 in *. destruct (Z.eqb_spec p 4) as [->|]; [|destruct (Z.eqb_spec p 2); lia].
          assert (Hs : Z.sqrt n0 <= 1) by lia. destruct (Z_lt_le_dec n0 4); [lia|].
          assert (2 <= Z.sqrt n0) by (apply Z.sqrt_le_square; lia). lia. }
        assert (n = 2 \/ n = 3) as [-> | ->] by lia; auto using prime_2, prime_3.
      * eapply prime_of_no_small; eauto. lia.
    + apply IH; auto.
Qed.
Lemma finv_div n p : 1 <= n -> (p | n) -> finv n p -> finv (n / p) p.
Proof.
  intros Hn Hd Hi. assert (Hdd : p <> 0 -> (n / p | n)).
  { intros Hp. destruct Hd as [q ->]. rewrite Z.div_mul by auto. exists p. ring. }
  destruct Hi as [->|[[-> H4]|(H3 & Ho & Hr)]].
  - left; auto.
  - right; left. split; auto. intros H. apply H4. apply Z.divide_trans with (n / 2); auto. apply Hdd; lia.
  - right; right. split; auto. split; auto. intros r Hrp Hrl H. apply (Hr r Hrp Hrl).
    apply Z.divide_trans with (n / p); auto. apply Hdd; lia.
Qed.
Lemma factor_loop_inv n0 : forall fuel n p l, 2 <= n <= n0 -> finv n p -> factor_loop fuel n (Z.sqrt n0) p = Ok l ->
  chain n l /\ Forall (fun r => fst r = 4 \/ prime (fst r)) l.
Proof.
  induction fuel as [|fuel IH]; intros n p l Hn Hi; [discriminate|]. cbn [factor_loop].
  destruct (factor_next (Z.to_nat (Z.sqrt n0 + 5)) n (Z.sqrt n0) p) as [p'|] eqn:E; [|discriminate]. cbn [bind].
  apply (factor_next_inv n n0) in E; auto; [|lia]. destruct E as [E|(Hd & Hp' & Hpr & Hf)]; [lia|].
  assert (Hq : n = p' * (n / p')) by (destruct Hd as [q ->]; rewrite Z.div_mul by lia; ring).
  destruct (Z.ltb_spec 1 (n / p')).
  - destruct (factor_loop fuel (n / p') (Z.sqrt n0) p') as [rest|] eqn:E2; [|discriminate]. cbn [bind].
    intros H0; injection H0 as <-.
    destruct (IH (n / p') p' rest) as [G1 G2]; auto.
    + split; [lia|]. assert (n / p' <= n) by nia. lia.
    + destruct Hf as [->|Hf]; [rewrite Z.div_same in H; lia|]. apply finv_div; auto. lia.
    + split; [split; auto|constructor; auto].
  - intros H0; injection H0 as <-. assert (n / p' = 1) by nia.
    split; [split; auto|constructor; auto].
Qed.
Lemma kf_factor_inv n l : 2 <= n -> kf_factor n = Ok l -> chain n l /\ Forall (fun r => fst r = 4 \/ prime (fst r)) l.
Proof. intros Hn. unfold kf_factor. apply factor_loop_inv; [lia|left; auto]. Qed.
Lemma kf_factor_1 : kf_factor 1 = Ok [(1, 1)].
Proof. reflexivity. Qed.

(** ** next_fast_size *)
Lemma strip_ok ps p : In p ps -> prime p -> forall fuel m, 1 <= m -> Z.log2 m < Z.of_nat fuel ->
  exists m', strip fuel p m = Ok m' /\ 1 <= m' <= m /\ ~ (p | m') /\ (m' | m) /\ (smooth ps m <-> smooth ps m').
Proof.
  intros Hin Hp. pose proof (prime_ge_2 p Hp) as H2.
  induction fuel as [|fuel IH]; intros m Hm Hf; [pose proof (Z.log2_nonneg m); cbn in Hf; lia|].
  cbn [strip]. destruct (Z.eqb_spec (m mod p) 0) as [E|E].
  - assert (Hd : (p | m)) by (apply Z.mod_divide; lia).
    assert (Hq : 1 <= m / p /\ 2 * (m / p) <= m /\ m = m / p * p).
    { destruct Hd as [q ->]. rewrite Z.div_mul by lia. nia. }
    destruct (IH (m / p)) as (m' & -> & L1 & L2 & L3 & L4); [lia| |].
    + pose proof (Z.log2_double (m / p) ltac:(lia)). pose proof (Z.log2_le_mono (2 * (m / p)) m). lia.
    + exists m'. split; auto. split; [lia|]. split; auto. split.
      * apply Z.divide_trans with (m / p); auto. exists p. lia.
      * rewrite <- L4. symmetry. apply smooth_div; auto.
  - exists m. split; auto. split; [lia|]. split; [|split; [apply Z.divide_refl|tauto]].
    intros Hd. apply Z.mod_divide in Hd; lia.
Qed.

Lemma next_fast_loop_ok T : smooth [2; 3; 5] T -> forall fuel n, 1 <= n <= T -> T - n < Z.of_nat fuel ->
  exists q, next_fast_loop fuel n = Ok q /\ least_smooth [2; 3; 5] n q /\ q <= T.
Proof.
  intros HT. induction fuel as [|fuel IH]; intros n Hn Hf; [cbn in Hf; lia|].
  cbn [next_fast_loop]. rewrite Z.abs_eq by lia. set (k := Z.to_nat (Z.log2 n + 2)).
  assert (Hk : forall m, 1 <= m <= n -> Z.log2 m < Z.of_nat k).
  { intros m Hm. unfold k. pose proof (Z.log2_le_mono m n). pose proof (Z.log2_nonneg n). lia. }
  destruct (strip_ok [2; 3; 5] 2 ltac:(cbn; tauto) prime_2 k n) as (a & -> & A1 & A2 & A3 & A4); [lia|apply Hk; lia|].
  cbn [bind].
  destruct (strip_ok [2; 3; 5] 3 ltac:(cbn; tauto) prime_3 k a) as (b & -> & B1 & B2 & B3 & B4); [lia|apply Hk; lia|].
  cbn [bind].
  destruct (strip_ok [2; 3; 5] 5 ltac:(cbn; tauto) prime_5 k b) as (c & -> & D1 & D2 & D3 & D4); [lia|apply Hk; lia|].
  cbn [bind].
  assert (HS : smooth [2; 3; 5] n <-> c = 1).
  { rewrite A4, B4, D4. split; [|intros ->; apply smooth_1].
    intros [_ Hs]. destruct (Z.eq_dec c 1); auto. exfalso.
    destruct (prime_divisor c) as (p & Hp & Hd); [lia|]. specialize (Hs p Hp Hd). cbn in Hs.
    destruct Hs as [<- | [<- | [<- | []]]]; auto.
    - apply A2. apply Z.divide_trans with c; auto. apply Z.divide_trans with b; auto.
    - apply B2. apply Z.divide_trans with c; auto. }
  destruct (Z.leb_spec c 1).
  - exists n. split; auto. split; [|lia]. split; [lia|]. split; [apply HS; lia|intros; lia].
  - assert (Hns : ~ smooth [2; 3; 5] n) by (rewrite HS; lia).
    assert (n < T) by (destruct (Z.eq_dec n T); [subst; tauto|lia]).
    destruct (IH (n + 1)) as (q & -> & (L1 & L2 & L3) & L4); try lia.
    exists q. split; auto. split; auto. split; [lia|]. split; auto.
    intros j Hj. destruct (Z.eq_dec j n); [subst; auto|apply L3; lia].
Qed.

Lemma pow2_above Q : 1 <= Q -> exists k, 0 <= k /\ Q <= 2 ^ k < 2 * Q.
Proof.
  intros HQ. exists (Z.log2_up Q). split; [apply Z.log2_up_nonneg|].
  destruct (Z.eq_dec Q 1) as [->|]; [cbn; lia|].
  pose proof (Z.log2_up_spec Q ltac:(lia)) as [L1 L2].
  assert (H : 0 <= Z.pred (Z.log2_up Q)) by (pose proof (Z.log2_up_pos Q); lia).
  replace (Z.log2_up Q) with (Z.succ (Z.pred (Z.log2_up Q))) in * by lia.
  rewrite Z.pred_succ in L1. rewrite Z.pow_succ_r in * by lia. lia.
Qed.
Lemma next_fast_ok n : 1 <= n -> exists q, kiss_fft_next_fast_size n = Ok q /\ least_smooth [2; 3; 5] n q /\ q < 2 * n.
Proof.
  intros Hn. destruct (pow2_above n Hn) as (k & Hk & HT).
  destruct (next_fast_loop_ok (2 ^ k) (smooth_pow2 [2; 3; 5] k ltac:(cbn; auto) Hk) (S (Z.to_nat n)) n) as (q & E & L & B); try lia.
  exists q. split; auto. split; auto. lia.
Qed.
(** at 0 the first inner loop never ends *)
Lemma strip_0 fuel p : strip fuel p 0 = Raise OutOfFuel.
Proof. induction fuel; auto. Qed.
Lemma next_fast_0 fuel : next_fast_loop fuel 0 = Raise OutOfFuel.
Proof. destruct fuel; auto. Qed.
