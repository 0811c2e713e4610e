(** * TableEq: in double precision the Python and the C Fourier tables agree bit
    for bit. *)
From Coq Require Import ZArith List Bool SpecFloat Reals Lia Lra Psatz.
From Flocq Require Import Core.Core IEEE754.BinarySingleNaN.
From Verif Require Import Py PyFacts Num FloatN MCoefs CoefsFacts MPysphi PysphiFacts MKiss KissFacts MCsphi CsphiFacts MDouble FlFacts SeedReal SeedFl DoubleFacts.
Import ListNotations.
Open Scope Z_scope.

(** ** Integers of either sign *)
Lemma round_aux_opp m e l : SpecFloat.binary_round_aux 53 1024 true m e l = SFopp (SpecFloat.binary_round_aux 53 1024 false m e l).
Proof.
  unfold SpecFloat.binary_round_aux. destruct (shr_fexp _ _ _ _ _) as [mrs' e']. destruct (shr_fexp _ _ _ _ _) as [mrs'' e''].
  destruct (shr_m mrs'') as [|p|p]; try reflexivity. destruct (_ <=? _); reflexivity.
Qed.
Lemma round_opp m e : SpecFloat.binary_round 53 1024 true m e = SFopp (SpecFloat.binary_round 53 1024 false m e).
Proof.
  unfold SpecFloat.binary_round. destruct (shl_align _ _ _) as [mz ez]. apply round_aux_opp.
Qed.
Lemma fofZ_opp p : fofZ (Zneg p) = SFopp (fofZ (Zpos p)).
Proof. unfold fofZ, SpecFloat.binary_normalize. apply round_opp. Qed.
Lemma normalize_opp z e : z <> 0 -> SpecFloat.binary_normalize 53 1024 (- z) e false = SFopp (SpecFloat.binary_normalize 53 1024 z e false).
Proof.
  intros H. destruct z as [|p|p]; [lia| |]; cbn [Z.opp SpecFloat.binary_normalize]; rewrite round_opp; [reflexivity|].
  destruct (SpecFloat.binary_round 53 1024 false p e) as [[]|[]| |[] ? ?]; reflexivity.
Qed.
Lemma fsub_opp x y : fpos x -> fpos y -> V x <> V y -> fsub x y = SFopp (fsub y x).
Proof.
  intros (m & e & -> & Hb) (m' & e' & -> & Hb') Hne. unfold fsub. cbn [SFsub SpecFloat.cond_Zopp].
  rewrite (Z.min_comm e' e). destruct (align_sum m e m' e') as [A1 A2]. cbv zeta in A1, A2. set (ez := Z.min e e') in *.
  rewrite <- normalize_opp.
  - f_equal. lia.
  - intros E. apply Hne. cbn [SF2R]. change (cond_Zopp false (Z.pos m)) with (Z.pos m). change (cond_Zopp false (Z.pos m')) with (Z.pos m'). rewrite <- A1, <- A2. do 2 f_equal. lia.
Qed.
Lemma fopp_opp (x : f64) : SFopp (SFopp x) = x.
Proof. destruct x as [[]|[]| |[] ? ?]; reflexivity. Qed.
Lemma fadd_opp x y : fpos x -> fpos y -> fadd x (SFopp y) = fsub x y.
Proof. intros (m & e & -> & _) (m' & e' & -> & _). unfold fadd, fsub. cbn [SFadd SFsub SFopp negb SpecFloat.cond_Zopp]. reflexivity. Qed.
Lemma fofZ_neg z : z < 0 -> fofZ z = SFopp (fofZ (- z)).
Proof. destruct z as [|p|p]; try lia. intros _. apply fofZ_opp. Qed.

Lemma fsub_int' a b : 0 <= a < 2 ^ 53 -> 0 <= b < 2 ^ 53 -> fsub (fofZ a) (fofZ b) = fofZ (a - b).
Proof.
  intros Ha Hb. destruct (Z.eq_dec b 0) as [->|B0].
  { rewrite Z.sub_0_r. destruct (Z.eq_dec a 0) as [->|A0]; [reflexivity|]. apply fsub_pos_0, fofZ_fpos; lia. }
  destruct (Z.eq_dec a 0) as [->|A0].
  { destruct (fofZ_fpos b ltac:(lia)) as (m & e & E & _). rewrite (fofZ_neg (0 - b)) by lia.
    replace (- (0 - b)) with b by lia. rewrite E. reflexivity. }
  destruct (fofZ_pos a ltac:(lia)) as [P1 E1]. destruct (fofZ_pos b ltac:(lia)) as [P2 E2].
  destruct (Z.lt_trichotomy a b) as [L|[->|L]].
  - rewrite fsub_opp by (auto; rewrite E1, E2; apply Rlt_not_eq, IZR_lt; lia). rewrite fsub_int by lia. rewrite (fofZ_neg (a - b)) by lia.
    do 2 f_equal. lia.
  - rewrite fsub_self by auto. now rewrite Z.sub_diag.
  - apply fsub_int; lia.
Qed.
Lemma fadd_int' a b : 0 < a < 2 ^ 53 -> - 2 ^ 53 < b < 2 ^ 53 -> a + b < 2 ^ 53 -> fadd (fofZ a) (fofZ b) = fofZ (a + b).
Proof.
  intros Ha Hb H. destruct (Z.lt_trichotomy b 0) as [L|[->|L]].
  - rewrite (fofZ_neg b) by lia. rewrite fadd_opp by (apply fofZ_fpos; lia). rewrite fsub_int' by lia. f_equal. lia.
  - rewrite Z.add_0_r. apply fadd_pos_0, fofZ_fpos; lia.
  - apply fadd_int; lia.
Qed.
Lemma fmul_int' a b : 0 <= a -> 0 < b < 2 ^ 53 -> a * b < 2 ^ 53 -> fmul (fofZ a) (fofZ b) = fofZ (a * b).
Proof.
  intros Ha Hb H. destruct (Z.eq_dec a 0) as [->|A0]; [|apply fmul_int; lia].
  rewrite Z.mul_0_l. apply fmul_0_pos, fofZ_fpos; lia.
Qed.

(** ** The factors of the recurrence are exact integers *)
Lemma py_b n m k : 0 <= k <= n - 2 -> n < 2 ^ 25 -> Z.abs m <= n ->
  fadd (p1 n k) (p2 n m k) = fofZ ((n - k - 1) * (n + k + 2) + ((n - k - 2) * (n + k + 3) - 4 * m ^ 2)).
Proof.
  intros Hk Hn Hm. assert (Hm2 : 0 <= m ^ 2 < 2 ^ 50) by (rewrite Z.pow_2_r; nia).
  assert (B1 : 0 < (n - k - 1) * (n + k + 2) < 2 ^ 52) by nia. assert (B2 : 0 <= (n - k - 2) * (n + k + 3) < 2 ^ 52) by nia.
  unfold p1, p2. rewrite !fsub_int' by lia. rewrite !fadd_int by lia. rewrite !fmul_int' by lia.
  assert (E4 : fmul (fofZ 4) (fofZ (m ^ 2)) = fofZ (4 * m ^ 2)).
  { destruct (Z.eq_dec (m ^ 2) 0) as [->|]; [reflexivity|]. apply fmul_int; lia. }
  rewrite E4. rewrite fsub_int' by lia. rewrite fadd_int' by lia. reflexivity.
Qed.
Lemma c_b n m k : 0 <= k <= n - 2 -> n < 2 ^ 25 -> Z.abs m <= n ->
  fc_b n m k = fofZ ((n - k - 1) * (n + k + 2) + ((n - k - 2) * (n + k + 3) - 4 * m ^ 2)).
Proof.
  intros Hk Hn Hm. assert (Hm2 : 0 <= m ^ 2 < 2 ^ 50) by (rewrite Z.pow_2_r; nia).
  assert (B1 : 0 < (n - k - 1) * (n + k + 2) < 2 ^ 52) by nia. assert (B2 : 0 <= (n - k - 2) * (n + k + 3) < 2 ^ 52) by nia.
  unfold fc_b, fBd.
  assert (Ek : forall j, 0 < j < 10 -> fadd (fofZ k) (fofZ j) = fofZ (k + j)).
  { intros j Hj. destruct (Z.eq_dec k 0) as [->|]; [|apply fadd_int; lia]. rewrite Z.add_0_l.
    destruct (fofZ_fpos j ltac:(lia)) as (q & e & E & _). rewrite E. reflexivity. }
  rewrite !Ek by lia. rewrite !fsub_int' by lia. rewrite !fadd_int by lia.
  replace (n - (k + 1)) with (n - k - 1) by lia. replace (n - (k + 2)) with (n - k - 2) by lia.
  replace (n + (k + 1) + 1) with (n + k + 2) by lia. replace (n + (k + 2) + 1) with (n + k + 3) by lia. rewrite !fmul_int' by lia.
  assert (E4 : fmul (fmul (fofZ 4) (fofZ m)) (fofZ m) = fofZ (4 * m ^ 2)).
  { destruct (Z.lt_trichotomy m 0) as [L|[->|L]]; [|reflexivity|].
    - assert (E : forall x y, fmul (SFopp x) (SFopp y) = fmul x y).
      { intros [[]|[]| |[] ? ?] [[]|[]| |[] ? ?]; reflexivity. }
      assert (E' : forall x y, fmul x (SFopp y) = SFopp (fmul x y)).
      { intros x y. unfold fmul. destruct x as [[]|[]| |[] ? ?], y as [[]|[]| |[] ? ?]; try reflexivity; cbn [SFmul SFopp negb xorb];
          rewrite round_aux_opp; rewrite ?fopp_opp; reflexivity. }
      rewrite (fofZ_neg m) by lia. rewrite (E' (fofZ 4)), E. rewrite !fmul_int by nia. f_equal. rewrite Z.pow_2_r. nia.
    - rewrite !fmul_int by nia. f_equal. rewrite Z.pow_2_r. nia. }
  rewrite E4. rewrite fadd_int' by lia. rewrite fsub_int' by lia. f_equal. lia.
Qed.

Lemma p3_eq n k : 0 <= k <= n - 4 -> n < 2 ^ 25 -> p3 n k = fBd n (fadd (fofZ k) (fofZ 3)).
Proof.
  intros Hk Hn. unfold p3, fBd.
  assert (Ek : fadd (fofZ k) (fofZ 3) = fofZ (k + 3)).
  { destruct (Z.eq_dec k 0) as [->|]; [|apply fadd_int; lia]. reflexivity. }
  rewrite Ek. rewrite !fsub_int by lia. rewrite !fadd_int by lia. do 2 f_equal; lia.
Qed.

Lemma mfor_ext_P {S} (P : S -> Prop) l (f g : Z -> S -> res S) s : P s ->
  (forall i s, In i l -> P s -> f i s = g i s /\ forall s', g i s = Ok s' -> P s') -> mfor l f s = mfor l g s.
Proof.
  revert s. induction l as [|i l IH]; intros s Ps H; [reflexivity|]. cbn [mfor].
  destruct (H i s (or_introl eq_refl) Ps) as [E Q]. rewrite E. destruct (g i s) as [s'|]; [|reflexivity]. cbn [bind].
  apply IH; [auto|]. intros j t Hj. apply H. now right.
Qed.
Lemma In_zrange_down2 hi lo i : In i (zrange_down2 hi lo) -> lo < i <= hi.
Proof.
  remember (Z.to_nat (hi - lo)) as n eqn:Hn. revert hi Hn. induction n as [n IH] using (well_founded_induction lt_wf). intros hi Hn H.
  destruct (Z_le_gt_dec hi lo); [rewrite zrange_down2_nil in H by lia; destruct H|].
  rewrite zrange_down2_cons in H by lia. destruct H as [<-|H]; [lia|].
  specialize (IH (Z.to_nat (hi - 2 - lo)) ltac:(lia) (hi - 2) eq_refl H). lia.
Qed.

(** The two tables are the same doubles. *)
Lemma table_eq n m y L : 0 <= L -> n < L -> n < 2 ^ 25 -> zlen y = L -> fc_ynunm n m y L = f_ynunm n m L.
Proof.
  intros HL Hn Hb Ly. unfold fc_ynunm, f_ynunm. rewrite np_zeros_ok by lia. cbn [bind].
  assert (E0 : mfor (zrange 0 L) (fun k y => bset y k fz) y = Ok (vmake L (fun _ => fz))).
  { change (cfill fz y L = Ok (vmake L (fun _ => fz))). apply cfill_ok. exact Ly. }
  rewrite E0. cbn [bind]. set (z0 := vmake L _). assert (Lz : zlen z0 = L) by (unfold z0; apply zlen_vmake'; lia).
  destruct (Z.leb_spec (Z.abs m) n) as [Hm|Hm]; [|reflexivity].
  rewrite bset_ok, py_set_ok by lia. cbn [bind]. rewrite fc_ynnm_eq by lia.
  destruct (Z.leb_spec 0 (n - 2)) as [Hk|Hk]; [|reflexivity].
  rewrite bget_ok, py_get_ok by (rewrite zlen_vset; lia). cbn [bind].
  rewrite bset_ok, py_set_ok by (rewrite zlen_vset; lia). cbn [bind].
  replace (n - 2 + 2) with n by lia. rewrite vget_vset_eq by lia.
  fold (p1 n (n - 2)) (p2 n m (n - 2)) (fBi n (n - 2)). rewrite py_b, c_b by lia.
  replace (n - 2 - 2) with (n - 4) by lia.
  apply (mfor_ext_P (fun v => zlen v = L)); [rewrite !zlen_vset; exact Lz|].
  intros i s Hi Ls. apply In_zrange_down2 in Hi.
  rewrite !bget_ok, !py_get_ok by lia. cbn [bind]. rewrite bset_ok, py_set_ok by lia.
  fold (p1 n i) (p2 n m i) (p3 n i) (fBi n i). rewrite p3_eq, py_b, c_b by lia.
  split; [reflexivity|]. intros s' [= <-]. rewrite zlen_vset. exact Ls.
Qed.
