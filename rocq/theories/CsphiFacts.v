(** * CsphiFacts: the C routines stay inside their buffers and compute what
    the Python routines compute. *)
From Coq Require Import ZArith Znumtheory List String Bool Lia Reals Lra.
From Coquelicot Require Import Complex.
From Verif Require Import Py PyFacts Num Exact MCoefs SpecCoefs CoefsFacts CoefsFacts2 CoefsFacts3 MPatt Sums Harm MPysphi MOps Smooth Dft
  PysphiFacts TransFacts MTrans MKiss KissFacts KissFacts2 MCsphi.
Import ListNotations.
Open Scope list_scope.
Open Scope Z_scope.

Lemma bget_vmake {A} (d : A) n f i : 0 <= i < n -> bget d (vmake n f) i = Ok (f i).
Proof. intros. rewrite bget_ok by (rewrite zlen_vmake; lia). now rewrite vget_vmake. Qed.
Lemma cbget_vmake n f i : 0 <= i < n -> cbget (vmake n f) i = Ok (f i).
Proof. apply bget_vmake. Qed.
Lemma rbget_vmake n f i : 0 <= i < n -> rbget (vmake n f) i = Ok (f i).
Proof. apply bget_vmake. Qed.
Lemma bset_vmake {A} n (f : Z -> A) i x : 0 <= i < n ->
  bset (vmake n f) i x = Ok (vmake n (fun j => if j =? i then x else f j)).
Proof. intros. rewrite bset_ok by (rewrite zlen_vmake; lia). now rewrite vset_vmake. Qed.

Lemma mfor_fill {A} (z : A) buf n : zlen buf = n ->
  mfor (zrange 0 n) (fun k b => bset b k z) buf = Ok (vmake n (fun _ => z)).
Proof.
  intros Hl. pose proof (zlen_nonneg buf) as Hp.
  destruct (mfor_inv (fun k b => b = vmake n (fun i => if i <? k then z else vget z buf i)) 0 n
    (fun k b => bset b k z) buf) as (b & -> & ->); try lia.
  - rewrite <- Hl. rewrite (list_vmake z buf) at 1. apply vmake_ext. intros i Hi.
    destruct (Z.ltb_spec i 0); [lia|auto].
  - intros i b Hi ->. rewrite bset_vmake by lia. eexists; split; [reflexivity|].
    apply vmake_ext. intros j Hj. destruct (Z.eqb_spec j i), (Z.ltb_spec j i), (Z.ltb_spec j (i + 1)); auto; lia.
  - f_equal. apply vmake_ext. intros i Hi. destruct (Z.ltb_spec i n); [auto|lia].
Qed.
Lemma cfill_ok {A} (z : A) buf n : zlen buf = n -> cfill z buf n = Ok (vmake n (fun _ => z)).
Proof. apply mfor_fill. Qed.

(** ** ynnm, ynunm *)
Lemma In_zrange_down' i hi lo : In i (zrange_down hi lo) -> lo < i <= hi.
Proof. unfold zrange_down. intros H. apply in_map_iff in H. destruct H as (j & <- & H). apply in_seq in H. lia. Qed.
Lemma In_zrange' i lo hi : In i (zrange lo hi) -> lo <= i < hi.
Proof. unfold zrange. intros H. apply in_map_iff in H. destruct H as (j & <- & H). apply in_seq in H. lia. Qed.

Lemma c_ynnm_eq n m : c_ynnm n m = ynnm n m.
Proof.
  unfold c_ynnm, ynnm. destruct (n <? Z.abs m); auto. destruct (n =? 0); auto.
  assert (E1 : pfor (zrange 1 (n + 1)) (fun k y => sqrt ((2 * IZR k + 1) / (8 * IZR k)) * y)%R (1 / sqrt (4 * PI))%R
    = pfor (zrange 1 (n + 1)) (fun k out => out * sqrt ((2 * IZR k + 1) / 8 / IZR k))%R (1 / sqrt (4 * PI))%R).
  { apply pfor_ext. intros i s Hi. apply In_zrange' in Hi. rewrite Rmult_comm. do 2 f_equal.
    field. apply not_0_IZR; lia. }
  cbv zeta. rewrite E1. destruct (n =? Z.abs m); cbn [negb]; auto.
  apply pfor_ext. intros i s Hi. apply In_zrange_down' in Hi. rewrite Rmult_comm. do 2 f_equal.
  rewrite minus_IZR. field. rewrite <- minus_IZR. apply not_0_IZR; lia.
Qed.

Lemma c_ynunm_eq n m y L : Z.abs m <= n -> n < L -> zlen y = L -> c_ynunm n m y L = Ok (vmake L (Yt n m)).
Proof.
  intros Hm HL Hy. unfold c_ynunm. rewrite mfor_fill by auto. cbn [bind].
  destruct (Z.leb_spec (Z.abs m) n); [|lia].
  rewrite bset_vmake by lia. cbn [bind]. rewrite c_ynnm_eq, ynnm_eq by auto.
  assert (Zhi : forall k, n < k -> Yt n m k = 0%R) by (intros; apply Yt_supp; lia).
  set (st := fun c => vmake L (fun i => if c <? i then Yt n m i else 0%R)).
  assert (E0 : vmake L (fun j => if j =? n then Yt n m n else 0%R) = st (n - 1)).
  { apply vmake_ext. intros i Hi. destruct (Z.eqb_spec i n), (Z.ltb_spec (n - 1) i); subst; auto; try lia.
    rewrite Zhi; auto; lia. }
  rewrite E0.
  assert (Odd : forall k, (n - k) mod 2 = 1 -> Yt n m k = 0%R).
  { intros k Hk. apply Yt_odd; auto. rewrite Zodd_mod. replace (n + k) with (n - k + k * 2) by ring.
    rewrite Z_mod_plus_full. now rewrite Hk. }
  assert (Step : forall k, 0 <= k <= n - 2 -> (n - k) mod 2 = 0 -> forall x,
     x = Yt n m k -> bset (st (k + 1)) k x = Ok (st (k - 1))).
  { intros k Hk Hp x ->. unfold st. rewrite bset_vmake by lia. f_equal. apply vmake_ext. intros i Hi.
    destruct (Z.eqb_spec i k), (Z.ltb_spec (k + 1) i), (Z.ltb_spec (k - 1) i); subst; auto; try lia.
    assert (i = k + 1) by lia. subst. rewrite Odd; auto. lia. }
  assert (Get : forall c k, 0 <= k < L -> c < k -> rbget (st c) k = Ok (Yt n m k)).
  { intros. unfold st. rewrite rbget_vmake by lia. destruct (Z.ltb_spec c k); [auto|lia]. }
  assert (Alt : st (n - 1) = st (n - 2 + 1)) by (f_equal; lia).
  assert (HBm : forall a b, Bm a b = Bc a b) by (intros; unfold Bm, Bc; ring).
  assert (Hmm : (4 * IZR m * IZR m = 4 * IZR (m ^ 2))%R).
  { rewrite Rmult_assoc, <- mult_IZR. do 2 f_equal. ring. }
  rewrite Hmm.
  destruct (Z.leb_spec 0 (n - 2)) as [H2|H2].
  - rewrite Get by lia. cbn [bind]. rewrite Alt.
    pose proof (Yt_coef n m (n - 2) Hm) as HC. rewrite (Zhi (n - 2 + 4)) in HC by lia.
    pose proof (Bc_ne n (n - 2) ltac:(lia)) as HB.
    rewrite Step; [|lia|replace (n - (n - 2)) with (0 + 1 * 2) by lia; now rewrite Z_mod_plus_full|].
    2:{ change Bm with Bc. apply Rmult_eq_reg_l with (Bc (IZR n) (IZR (n - 2))); auto. rewrite HC.
        field. exact HB. }
    cbn [bind].
    destruct (mfor_down2_inv (fun k s => k <= n - 4 /\ s = st (k + 1)) (n - 4) (-1)
      (fun k y =>
        y2 <- rbget y (k + 2) ;;
        y4 <- rbget y (k + 4) ;;
        bset y k (((Bm (IZR n) (IZR k + 1) + Bm (IZR n) (IZR k + 2) - 4 * IZR (m ^ 2)) * y2
                   - Bm (IZR n) (IZR k + 3) * y4) / Bm (IZR n) (IZR k))%R) (st (n - 2 - 1))) as (e & s' & E1 & E2 & E3 & E4 & E5 & E6).
    + split; [lia|]. f_equal. lia.
    + intros k s Hk Hp [Hk2 ->]. rewrite !Get by lia. cbn [bind].
      pose proof (Yt_coef n m k Hm) as HC1. pose proof (Bc_ne n k ltac:(lia)) as HB1.
      rewrite Step; [|lia|replace (n - k) with (n - 4 - k + 2 * 2) by lia; now rewrite Z_mod_plus_full|].
      2:{ change Bm with Bc. apply Rmult_eq_reg_l with (Bc (IZR n) (IZR k)); auto. rewrite HC1.
          field. exact HB1. }
      exists (st (k - 1)). repeat split; [lia|]. f_equal. lia.
    + replace (n - 2 - 2) with (n - 4) by lia. rewrite E4, E6. f_equal. apply vmake_ext. intros i Hi.
      destruct (Z.ltb_spec (e + 1) i); auto. symmetry. apply Odd.
      assert (i = 0) by lia. subst i.
      assert (e = -1 \/ e = -2) as [->| ->] by lia; [|lia].
      replace (n - 0) with (n - 4 - -1 + 1 * 2 + 1) by lia. rewrite <- Z.add_assoc.
      lia.
  - f_equal. apply vmake_ext. intros i Hi. destruct (Z.ltb_spec (n - 1) i); auto.
    symmetry. apply Odd. assert (n = 1 /\ i = 0) as [-> ->] by lia. reflexivity.
Qed.

(** ** FindQ *)
Lemma findq_gloop fuel A Q : 0 < A -> 0 <= Q -> findq_loop fuel A Q = gloop [2; 3; 5] fuel A Q.
Proof.
  revert A Q; induction fuel as [|fuel IH]; intros A Q HA HQ; auto. cbn [findq_loop gloop find].
  assert (Hr : forall d, 0 < d -> Z.rem A d = A mod d) by (intros; apply Z.rem_mod_nonneg; lia).
  assert (Hq : forall d, 0 < d -> Z.quot A d = A / d) by (intros; apply Z.quot_div_nonneg; lia).
  rewrite !Hr, !Hq by lia.
  assert (Hpos : forall d, 0 < d -> (A mod d =? 0) = true -> 0 < A / d).
  { intros d Hd E. apply Z.eqb_eq in E. pose proof (Z.div_mod A d ltac:(lia)). nia. }
  destruct (A =? 1); auto.
  destruct (A mod 2 =? 0) eqn:E2; [apply IH; auto; apply Hpos; auto; lia|].
  destruct (A mod 3 =? 0) eqn:E3; [apply IH; auto; apply Hpos; auto; lia|].
  destruct (A mod 5 =? 0) eqn:E5; [apply IH; auto; apply Hpos; auto; lia|]. apply IH; lia.
Qed.
Lemma FindQ_ok Q : 1 <= Q -> exists q, FindQ Q = Ok q /\ least_smooth [2; 3; 5] Q q /\ q < 2 * Q.
Proof.
  intros HQ. unfold FindQ. rewrite findq_gloop by lia. apply gloop_least; auto.
  - cbn; auto.
  - intros p [<- | [<- | [<- | []]]]; auto using prime_2, prime_3, prime_5.
Qed.
Lemma findq_nonpos : forall fuel A Q, A <= 0 -> Q <= 0 -> (Q = 0 -> A = 0) -> findq_loop fuel A Q = Raise OutOfFuel.
Proof.
  induction fuel as [|fuel IH]; intros A Q HA HQ H0; auto. cbn [findq_loop].
  destruct (Z.eqb_spec A 1); [lia|].
  assert (Hd : forall d, 0 < d -> Z.quot A d <= 0).
  { intros d Hd. replace A with (- (- A)) by lia. rewrite Z.quot_opp_l by lia. pose proof (Z.quot_pos (- A) d). lia. }
  assert (Hd0 : forall d, 0 < d -> Q = 0 -> Z.quot A d = 0) by (intros d Hd' E; rewrite (H0 E); apply Z.quot_0_l; lia).
  destruct (Z.rem A 2 =? 0) eqn:E2; [apply IH; auto; [apply Hd|apply Hd0]; lia|].
  destruct (Z.rem A 3 =? 0); [apply IH; auto; [apply Hd|apply Hd0]; lia|].
  destruct (Z.rem A 5 =? 0); [apply IH; auto; [apply Hd|apply Hd0]; lia|].
  assert (Q <> 0) by (intros E; rewrite (H0 E) in E2; cbn in E2; discriminate).
  apply IH; lia.
Qed.

(** ** SData *)
Lemma rem_odd k : 0 <= k -> (Z.rem k 2 =? 1) = Z.odd k.
Proof. intros. rewrite Z.rem_mod_nonneg by lia. apply odd_mod2. Qed.
Lemma sig_odd k : Z.odd k = true -> sig k = (0, -1 / IZR k)%R.
Proof.
  intros H. unfold sig. rewrite H. assert (IZR k <> 0%R) by (apply not_0_IZR; intros ->; discriminate).
  unfold Ci, Cdiv, Copp, Cmult, Cinv, RtoC; cbn [fst snd]. apply C_ext; field; auto.
Qed.
Definition cs_val (MM Nmax Q : Z) (j : Z) : C :=
  if (Q - 2 * MM <=? j) && Z.odd (j - Q + MM) then sig (j - Q + MM)
  else if (j <=? Nmax) && Z.odd (j + MM) then sig (j + MM) else RtoC 0.
Lemma cs_val_re MM Nmax Q j : fst (cs_val MM Nmax Q j) = 0%R.
Proof.
  unfold cs_val. destruct (_ && Z.odd (j - Q + MM)) eqn:E.
  - apply andb_prop in E. rewrite sig_odd by tauto. reflexivity.
  - destruct (_ && Z.odd (j + MM)) eqn:E2; [|reflexivity]. apply andb_prop in E2. rewrite sig_odd by tauto. reflexivity.
Qed.
Lemma SData_ok s MM Nmax Q : 1 <= MM -> 0 <= Nmax -> 2 * MM + Nmax <= Q -> zlen s = Q ->
  SData s Q (2 * MM) Nmax = Ok (vmake Q (cs_val MM Nmax Q)).
Proof.
  intros HM HN HQ Hs. unfold SData. rewrite cfill_ok by auto. cbn [bind].
  replace (Z.quot (2 * MM) 2) with MM by (rewrite Z.mul_comm, Z.quot_mul; lia).
  set (v1 := fun k j => if (j + MM <? k) && Z.odd (j + MM) then sig (j + MM) else RtoC 0).
  assert (V1 : forall k j, fst (v1 k j) = 0%R).
  { intros. unfold v1. destruct (_ && Z.odd (j + MM)) eqn:E2; [|reflexivity]. apply andb_prop in E2. rewrite sig_odd by tauto. reflexivity. }
  match goal with |- context [mfor (zrange MM (MM + (Nmax + 1) - 1 + 1)) ?f ?b] =>
    destruct (mfor_inv (fun k s => s = vmake Q (v1 k)) MM (MM + (Nmax + 1) - 1 + 1) f b) as (s1 & -> & ->) end.
  - lia.
  - apply vmake_ext. intros j Hj. unfold v1. destruct (Z.ltb_spec (j + MM) MM); [lia|auto].
  - intros k s' Hk ->. rewrite rem_odd by lia. destruct (Z.odd k) eqn:Eo.
    + unfold set_im. rewrite cbget_vmake by lia. cbn [bind]. rewrite bset_vmake by lia. eexists; split; [reflexivity|].
      apply vmake_ext. intros j Hj. rewrite V1. unfold v1.
      destruct (Z.eqb_spec j (k - MM)) as [->|Hne].
      * replace (k - MM + MM) with k by lia. destruct (Z.ltb_spec k (k + 1)); [|lia]. rewrite Eo. cbn [andb].
        symmetry. apply sig_odd; auto.
      * destruct (Z.ltb_spec (j + MM) k), (Z.ltb_spec (j + MM) (k + 1)); auto; lia.
    + eexists; split; [reflexivity|]. apply vmake_ext. intros j Hj. unfold v1.
      destruct (Z.ltb_spec (j + MM) k), (Z.ltb_spec (j + MM) (k + 1)); auto; try lia.
      replace (j + MM) with k by lia. rewrite Eo. reflexivity.
  - cbn [bind].
    set (v2 := fun k j => if (Q - 2 * MM <=? j) && (j - Q + MM <? k) && Z.odd (j - Q + MM) then sig (j - Q + MM)
       else v1 (MM + (Nmax + 1) - 1 + 1) j).
    assert (V2 : forall k j, fst (v2 k j) = 0%R).
    { intros. unfold v2. destruct (_ && Z.odd (j - Q + MM)) eqn:E2; [|apply V1]. apply andb_prop in E2. rewrite sig_odd by tauto. reflexivity. }
    match goal with |- mfor (zrange (- MM) MM) ?f ?b = _ =>
      destruct (mfor_inv (fun k s => s = vmake Q (v2 k)) (- MM) MM f b) as (s2 & -> & ->) end.
    + lia.
    + apply vmake_ext. intros j Hj. unfold v2. destruct (Z.leb_spec (Q - 2 * MM) j), (Z.ltb_spec (j - Q + MM) (- MM)); auto; lia.
    + intros k s' Hk ->. rewrite rem_odd by lia.
      assert (Eab : Z.odd (Z.abs k) = Z.odd k) by (destruct (Z.abs_eq_or_opp k) as [-> | ->]; auto; apply Z.odd_opp).
      rewrite Eab. destruct (Z.odd k) eqn:Eo.
      * unfold set_im. rewrite cbget_vmake by lia. cbn [bind]. rewrite bset_vmake by lia. eexists; split; [reflexivity|].
        apply vmake_ext. intros j Hj. rewrite V2. unfold v2.
        destruct (Z.eqb_spec j (Q + k - MM)) as [->|Hne].
        -- replace (Q + k - MM - Q + MM) with k by lia. destruct (Z.ltb_spec k (k + 1)); [|lia].
           destruct (Z.leb_spec (Q - 2 * MM) (Q + k - MM)); [|lia]. rewrite Eo. cbn [andb].
           symmetry. apply sig_odd; auto.
        -- destruct (Z.ltb_spec (j - Q + MM) k), (Z.ltb_spec (j - Q + MM) (k + 1)); auto; lia.
      * eexists; split; [reflexivity|]. apply vmake_ext. intros j Hj. unfold v2.
        destruct (Z.ltb_spec (j - Q + MM) k), (Z.ltb_spec (j - Q + MM) (k + 1)); auto; try lia.
        replace (j - Q + MM) with k by lia. rewrite Eo. rewrite !andb_false_r. reflexivity.
    + f_equal. apply vmake_ext. intros j Hj. unfold v2, cs_val, v1.
      destruct (Z.leb_spec (Q - 2 * MM) j), (Z.ltb_spec (j - Q + MM) MM); cbn [andb]; auto; try lia;
      destruct (Z.odd (j - Q + MM)); auto;
      destruct (Z.ltb_spec (j + MM) (MM + (Nmax + 1) - 1 + 1)), (Z.leb_spec j Nmax); cbn [andb]; auto; lia.
Qed.

(** ** hkm_fc *)
Lemma sig_even k : Z.odd k = false -> sig k = RtoC 0.
Proof. intros H. unfold sig. now rewrite H. Qed.
Lemma cs_conv MM Nmax Q (f ff : Z -> C) k : 1 <= MM -> 2 * MM + Nmax <= Q -> 0 <= k <= Nmax ->
  (forall nu, - MM <= nu < MM -> ff (nu + MM) = f nu) -> (forall j, 2 * MM <= j < Q -> ff j = RtoC 0) ->
  f (- MM) = RtoC 0 ->
  sumC 0 Q (fun a => ff a * cs_val MM Nmax Q ((k - a) mod Q))%C = sumC (- MM) MM (fun nu => f nu * sig (k - nu)%Z)%C.
Proof.
  intros HM HQ Hk Hff Hff0 Hz.
  rewrite (sumC_extend 0 (2 * MM)); try lia.
  2:{ intros j Hj Hn. rewrite Hff0 by lia. ring. }
  transitivity (sumC (- MM + MM) (MM + MM) (fun a => ff a * cs_val MM Nmax Q ((k - a) mod Q)))%C; [f_equal; lia|].
  rewrite sumC_shift. apply sumC_ext. intros nu Hnu. rewrite Hff by lia.
  destruct (Z.eq_dec nu (- MM)) as [->|Hn]; [rewrite Hz; ring|].
  f_equal. unfold cs_val.
  destruct (Z_lt_le_dec (k - (nu + MM)) 0) as [L|L].
  - assert (Em : (k - (nu + MM)) mod Q = k - (nu + MM) + Q).
    { rewrite <- (Z_mod_plus_full _ 1). rewrite Z.mod_small; lia. }
    rewrite Em. replace (k - (nu + MM) + Q - Q + MM) with (k - nu) by lia.
    destruct (Z.leb_spec (Q - 2 * MM) (k - (nu + MM) + Q)); [|lia]. cbn [andb].
    destruct (Z.odd (k - nu)) eqn:Eo; auto.
    destruct (Z.leb_spec (k - (nu + MM) + Q) Nmax); [lia|]. cbn [andb]. symmetry. now apply sig_even.
  - rewrite Z.mod_small by lia. destruct (Z.leb_spec (Q - 2 * MM) (k - (nu + MM))); [lia|]. cbn [andb].
    destruct (Z.leb_spec (k - (nu + MM)) Nmax); [|lia]. cbn [andb].
    replace (k - (nu + MM) + MM) with (k - nu) by lia.
    destruct (Z.odd (k - nu)) eqn:Eo; auto. symmetry. now apply sig_even.
Qed.

Lemma dftv_vmake inv n f k : 0 <= n -> dftv inv n (vmake n f) k = sumC 0 n (fun j => f j * root n (dir inv * (j * k))%Z)%C.
Proof. intros. unfold dftv. apply sumC_ext. intros j Hj. now rewrite vget_vmake by lia. Qed.
Definition plan_ok (Q : Z) (inv : bool) (st : kcfg) : Prop :=
  k_nfft st = Q /\ cfg_ok st (dir inv) /\ good_factors Q (k_factors st).
Lemma plan_run junk Q inv st f : 0 <= Q -> plan_ok Q inv st ->
  kiss_fft_inplace junk st (vmake Q f) = Ok (vmake Q (fun k => sumC 0 Q (fun j => f j * root Q (dir inv * (j * k))%Z)%C)).
Proof.
  intros HQ (E & H1 & H2). subst Q. rewrite (kiss_fft_inplace_ok junk st inv); auto; [|apply zlen_vmake'; lia].
  f_equal. apply vmake_ext. intros k Hk. now apply dftv_vmake.
Qed.
Definition c_ss (MM Nmax Q : Z) : list C :=
  vmake Q (fun k => sumC 0 Q (fun j => cs_val MM Nmax Q j * root Q (- (j * k)))%C).

(** What hkm_fc leaves in hkm, for any column f. *)
Definition hcirc (MM Nmax Q : Z) (f : Z -> C) (k : Z) : C :=
  (RtoC (4 * PI) * sumC 0 Q (fun a => (if a <? 2 * MM then f (a - MM)%Z else RtoC 0) * cs_val MM Nmax Q ((k - a) mod Q)))%C.
Lemma hcirc_hconv MM Nmax Q f k : 1 <= MM -> 2 * MM + Nmax <= Q -> 0 <= k <= Nmax -> f (- MM) = RtoC 0 ->
  hcirc MM Nmax Q f k = hconv MM f k.
Proof.
  intros. unfold hcirc, hconv. f_equal. apply (cs_conv MM Nmax Q f (fun a => if a <? 2 * MM then f (a - MM) else RtoC 0)); auto.
  - intros nu Hnu. destruct (Z.ltb_spec (nu + MM) (2 * MM)); [|lia]. f_equal. lia.
  - intros j Hj. destruct (Z.ltb_spec j (2 * MM)); [lia|auto].
Qed.

Lemma quot2 MM : Z.quot (2 * MM) 2 = MM.
Proof. rewrite Z.mul_comm, Z.quot_mul; lia. Qed.
Lemma c_hkm_fc_ok junk a m Nmax MM Q hkm ff fw bw : mat_wf RN a ->
  mt_nr RN a = 2 * MM -> 1 <= MM -> 0 <= Nmax -> 2 * MM + Nmax <= Q -> - mt_nc RN a <= m < mt_nc RN a ->
  plan_ok Q false fw -> plan_ok Q true bw -> zlen ff = Q -> zlen hkm = Nmax + 1 ->
  exists ff', c_hkm_fc junk (mt_dat RN a) (mt_nr RN a) (mt_nc RN a) Nmax m hkm (Nmax + 1) (c_ss MM Nmax Q) Q ff fw bw
    = Ok (vmake (Nmax + 1) (hcirc MM Nmax Q (colf a m)), ff') /\ zlen ff' = Q.
Proof.
  intros (_ & _ & Hwf) HL HM HN HQ Hm Hfw Hbw Hff Hh. unfold c_hkm_fc. rewrite HL, quot2.
  rewrite !cfill_ok by auto. cbn [bind].
  set (nc := mt_nc RN a) in *.
  set (ind := if 0 <=? m then m else nc + m).
  assert (Hind : ind = m mod nc /\ 0 <= ind < nc).
  { unfold ind. destruct (Z.leb_spec 0 m); [rewrite Z.mod_small by lia; lia|].
    split; [|lia]. rewrite <- (Z_mod_plus_full m 1). rewrite Z.mod_small; lia. }
  destruct Hind as [Hind Hi2].
  assert (Gt : forall i, 0 <= i < 2 * MM -> cbget (mt_dat RN a) (nc * i + ind) = Ok (cget a i (m mod nc))).
  { intros i Hi. unfold cbget. rewrite bget_ok. { unfold cget, mget. rewrite c0_RN, Hind. fold nc. rewrite (Z.mul_comm nc i). reflexivity. }
    change (zlen (mt_dat RN a)) with (@zlen C (mt_dat RN a)) in Hwf. fold nc in Hwf. nia. }
  set (f := fun i => cget a i (m mod nc)).
  set (gg := fun p j => if j <? p then f (MM + j) else if (MM <=? j) && (j <? MM + p) then f (j - MM) else RtoC 0).
  match goal with |- context [mfor (zrange 0 MM) ?g ?b] =>
    destruct (mfor_inv (fun p s => s = vmake Q (gg p)) 0 MM g b) as (s1 & -> & ->) end.
  - lia.
  - apply vmake_ext. intros j Hj. unfold gg. destruct (Z.ltb_spec j 0), (Z.leb_spec MM j), (Z.ltb_spec j (MM + 0)); auto; lia.
  - intros p s Hp ->. rewrite (Gt (MM + p)) by lia. cbn [bind]. rewrite bset_vmake by lia. cbn [bind].
    rewrite Gt by lia. cbn [bind]. rewrite bset_vmake by lia. eexists; split; [reflexivity|].
    apply vmake_ext. intros j Hj. unfold gg, f.
    destruct (Z.eqb_spec j (MM + p)), (Z.eqb_spec j p), (Z.ltb_spec j p), (Z.ltb_spec j (p + 1)), (Z.leb_spec MM j),
      (Z.ltb_spec j (MM + p)), (Z.ltb_spec j (MM + (p + 1))); subst; cbn [andb]; try lia; auto; f_equal; lia.
  - cbn [bind]. rewrite (plan_run junk Q false fw) by (auto; lia). cbn [bind].
    set (F := fun k => sumC 0 Q (fun j => gg MM j * root Q (dir false * (j * k))%Z)%C).
    set (S := fun k => sumC 0 Q (fun j => cs_val MM Nmax Q j * root Q (- (j * k)))%C).
    match goal with |- context [mfor (zrange 0 Q) ?g ?b] =>
      destruct (mfor_inv (fun p s => s = vmake Q (fun j => if j <? p then (F j * S j)%C else F j)) 0 Q g b) as (s2 & -> & ->) end.
    + lia.
    + apply vmake_ext. intros j Hj. destruct (Z.ltb_spec j 0); auto; lia.
    + intros p s Hp ->. rewrite cbget_vmake by lia. cbn [bind]. unfold c_ss. rewrite cbget_vmake by lia. cbn [bind].
      rewrite bset_vmake by lia. eexists; split; [reflexivity|]. apply vmake_ext. intros j Hj. fold (S p).
      destruct (Z.ltb_spec p p); [lia|].
      destruct (Z.eqb_spec j p) as [Ejp|], (Z.ltb_spec j p), (Z.ltb_spec j (p + 1)); try lia; auto. subst j.
      unfold Cmult. apply C_ext; cbn [fst snd]; ring.
    + cbn [bind]. rewrite (vmake_ext Q _ (fun j => F j * S j)%C).
      2:{ intros j Hj. destruct (Z.ltb_spec j Q); [auto|lia]. }
      rewrite (plan_run junk Q true bw) by (auto; lia). cbn [bind].
      match goal with |- context [mfor (zrange 0 (Nmax + 1)) ?g ?b] =>
        destruct (mfor_inv (fun p (s : list (R * R)) => s = vmake (Nmax + 1) (fun j => if j <? p then hcirc MM Nmax Q (colf a m) j else RtoC 0)) 0 (Nmax + 1) g b) as (s3 & -> & ->) end.
      * lia.
      * apply vmake_ext. intros j Hj. destruct (Z.ltb_spec j 0); auto; lia.
      * intros p s Hp ->. rewrite cbget_vmake by lia. cbn [bind].
        rewrite bset_vmake by lia. eexists; split; [reflexivity|]. apply vmake_ext. intros j Hj.
        destruct (Z.eqb_spec j p) as [Ejp|], (Z.ltb_spec j p), (Z.ltb_spec j (p + 1)); try lia; auto. subst j.

        set (T := sumC 0 Q _).
        assert (ET : T = (RtoC (IZR Q) * sumC 0 Q (fun a0 => (if (a0 <? 2 * MM)%Z then colf a m (a0 - MM)%Z else RtoC 0) * cs_val MM Nmax Q ((p - a0) mod Q)))%C).
        { unfold T. transitivity (RtoC (IZR Q) * sumC 0 Q (fun a0 => gg MM a0 * cs_val MM Nmax Q ((p - a0) mod Q)))%C.
          - rewrite <- dft_conv by lia. apply sumC_ext. intros q Hq. replace (dir true * (q * p)) with (q * p) by (unfold dir; lia). reflexivity.
          - f_equal. apply sumC_ext. intros j Hj'. f_equal. unfold gg, colf. rewrite HL. fold nc. unfold f.
            destruct (Z.ltb_spec j MM), (Z.ltb_spec j (2 * MM)); try lia.
            + f_equal. rewrite <- (Z_mod_plus_full (j - MM) 1). rewrite Z.mod_small by lia. lia.
            + destruct (Z.leb_spec MM j), (Z.ltb_spec j (MM + MM)); cbn [andb]; try lia. f_equal. rewrite Z.mod_small by lia. lia.
            + destruct (Z.ltb_spec j (MM + MM)); [lia|]. now rewrite andb_false_r. }
        rewrite ET. unfold hcirc. set (X := sumC _ _ _).
        assert (IZR Q <> 0%R) by (apply not_0_IZR; lia).
        unfold Cmult, RtoC. apply C_ext; cbn [fst snd]; field; auto.
      * cbn [bind]. eexists. split; [|apply zlen_vmake'; lia].
        f_equal. f_equal. apply vmake_ext. intros j Hj. destruct (Z.ltb_spec j (Nmax + 1)); [auto|lia].
Qed.

(** ** bnm_fc *)
Lemma powm1_even q : powm1 (2 * q) = 1.
Proof. unfold powm1. now rewrite Z.even_mul. Qed.
Lemma powm1_odd q : powm1 (2 * q + 1) = -1.
Proof. unfold powm1. rewrite Z.add_comm, Z.even_add_mul_2. reflexivity. Qed.
Lemma ipow_val m : ipow m = match m mod 4 with 0 => RtoC 1 | 1 => Ci | 2 => RtoC (-1) | _ => (0, -1)%R end.
Proof.
  unfold ipow, cipow. destruct (m mod 4) as [|p|p] eqn:E; [reflexivity| |pose proof (Z.mod_pos_bound m 4); lia].
  pose proof (Z.mod_pos_bound m 4 ltac:(lia)).
  assert (Z.pos p = 1 \/ Z.pos p = 2 \/ Z.pos p = 3) as [H0 | [H0 | H0]] by lia; injection H0 as ->; try reflexivity;
  unfold RtoC; cbn; apply C_ext; cbn; try reflexivity; ring.
Qed.
Lemma mod4_cases m : exists q, m = 4 * q \/ m = 4 * q + 1 \/ m = 4 * q + 2 \/ m = 4 * q + 3.
Proof. exists (m / 4). pose proof (Z.div_mod m 4). pose proof (Z.mod_pos_bound m 4). lia. Qed.
Lemma rem_abs_odd m : (Z.rem (Z.abs m) 2 =? 1) = Z.odd m.
Proof. rewrite rem_odd by lia. destruct (Z.abs_eq_or_opp m) as [-> | ->]; auto. apply Z.odd_opp. Qed.
Lemma mod4 q r : 0 <= r < 4 -> (4 * q + r) mod 4 = r.
Proof. intros. rewrite Z.add_comm, Z.mul_comm, Z_mod_plus_full. apply Z.mod_small; auto. Qed.
Lemma quot_even x y : x = 2 * y -> Z.quot x 2 = y.
Proof. intros ->. apply quot2. Qed.
Lemma odd_lin q r : Z.odd (4 * q + r) = Z.odd r.
Proof. replace (4 * q + r) with (r + 2 * (2 * q)) by ring. apply Z.odd_add_mul_2. Qed.

Lemma c_phase_neg m (v : C) :
  (if Z.rem (Z.abs m) 2 =? 1 then
     (IZR (powm1 (Z.quot (m - 1) 2)) * snd v, - IZR (powm1 (Z.quot (m - 1) 2)) * fst v)%R
   else (IZR (powm1 (Z.quot m 2)) * fst v, IZR (powm1 (Z.quot m 2)) * snd v)%R) = (ipow (- m) * v)%C.
Proof.
  rewrite rem_abs_odd, ipow_val. destruct (mod4_cases m) as [q [-> | [-> | [-> | ->]]]].
  - replace (4 * q) with (4 * q + 0) at 1 by ring. rewrite odd_lin. cbn [Z.odd].
    rewrite (quot_even _ (2 * q)) by ring. rewrite powm1_even.
    replace (- (4 * q)) with (4 * (- q) + 0) by ring. rewrite mod4 by lia.
    apply C_ext; unfold Cmult, RtoC; cbn [fst snd]; ring.
  - rewrite odd_lin. cbn [Z.odd]. rewrite (quot_even _ (2 * q)) by ring. rewrite powm1_even.
    replace (- (4 * q + 1)) with (4 * (- q - 1) + 3) by ring. rewrite mod4 by lia.
    apply C_ext; unfold Cmult, RtoC; cbn [fst snd]; ring.
  - rewrite odd_lin. cbn [Z.odd]. rewrite (quot_even _ (2 * q + 1)) by ring. rewrite powm1_odd.
    replace (- (4 * q + 2)) with (4 * (- q - 1) + 2) by ring. rewrite mod4 by lia.
    apply C_ext; unfold Cmult, RtoC; cbn [fst snd]; ring.
  - rewrite odd_lin. cbn [Z.odd]. rewrite (quot_even _ (2 * q + 1)) by ring. rewrite powm1_odd.
    replace (- (4 * q + 3)) with (4 * (- q - 1) + 1) by ring. rewrite mod4 by lia.
    apply C_ext; unfold Cmult, Ci, RtoC; cbn [fst snd]; ring.
Qed.
Lemma c_phase_pos m (v : C) :
  (if Z.rem (Z.abs m) 2 =? 1 then
     (- IZR (powm1 (Z.quot (m - 1) 2)) * snd v, IZR (powm1 (Z.quot (m - 1) 2)) * fst v)%R
   else (IZR (powm1 (Z.quot m 2)) * fst v, IZR (powm1 (Z.quot m 2)) * snd v)%R) = (ipow m * v)%C.
Proof.
  rewrite rem_abs_odd, ipow_val. destruct (mod4_cases m) as [q [-> | [-> | [-> | ->]]]].
  - replace (4 * q) with (4 * q + 0) by ring. rewrite odd_lin, mod4 by lia. cbn [Z.odd].
    rewrite (quot_even _ (2 * q)) by ring. rewrite powm1_even.
    apply C_ext; unfold Cmult, RtoC; cbn [fst snd]; ring.
  - rewrite odd_lin, mod4 by lia. cbn [Z.odd]. rewrite (quot_even _ (2 * q)) by ring. rewrite powm1_even.
    apply C_ext; unfold Cmult, Ci, RtoC; cbn [fst snd]; ring.
  - rewrite odd_lin, mod4 by lia. cbn [Z.odd]. rewrite (quot_even _ (2 * q + 1)) by ring. rewrite powm1_odd.
    apply C_ext; unfold Cmult, RtoC; cbn [fst snd]; ring.
  - rewrite odd_lin, mod4 by lia. cbn [Z.odd]. rewrite (quot_even _ (2 * q + 1)) by ring. rewrite powm1_odd.
    apply C_ext; unfold Cmult, Ci, RtoC; cbn [fst snd]; ring.
Qed.

Definition bcolc (MM Nmax Q : Z) (a : mat RN) (n m : Z) : C := bval (hcirc MM Nmax Q (colf a m)) m n.
Lemma bcolc_bcol MM Nmax Q a n m : 1 <= MM -> mt_nr RN a = 2 * MM -> 2 * MM + Nmax <= Q -> Z.abs m <= n <= Nmax -> colf a m MM = RtoC 0 ->
  bcolc MM Nmax Q a n m = bcol MM a n m.
Proof.
  intros H1 HL H2 H3 Hz.
  assert (Hn : colf a m (- MM) = RtoC 0).
  { rewrite <- Hz. unfold colf. rewrite HL. f_equal. rewrite <- (Z_mod_plus_full (- MM) 1). f_equal. lia. }
  unfold bcolc, bcol, bval. rewrite hcirc_hconv by (auto; lia). do 2 f_equal. apply sumC_ext.
  intros k Hk. rewrite hcirc_hconv by (auto; lia). reflexivity.
Qed.

Lemma c_bnm_fc_ok junk a m Nmax MM Q L off (F : Z -> C) ff hkm y fw bw : mat_wf RN a ->
  mt_nr RN a = 2 * MM -> 1 <= MM -> Z.abs m <= Nmax -> 2 * MM + Nmax <= Q -> - mt_nc RN a <= m < mt_nc RN a ->
  plan_ok Q false fw -> plan_ok Q true bw -> zlen ff = Q -> zlen hkm = Nmax + 1 -> zlen y = Nmax + 1 ->
  0 <= off -> off + (Nmax + 1 - Z.abs m) <= L ->
  exists ff' hkm' y', c_bnm_fc junk (mt_dat RN a) (mt_nr RN a) (mt_nc RN a) Nmax m off (c_ss MM Nmax Q) Q (Nmax + 1) (Nmax + 1) fw bw
      (vmake L F, ff, hkm, y)
    = Ok (vmake L (fun p => if (off <=? p) && (p <? off + (Nmax + 1 - Z.abs m)) then bcolc MM Nmax Q a (p - off + Z.abs m) m else F p), ff', hkm', y')
    /\ zlen ff' = Q /\ zlen hkm' = Nmax + 1 /\ zlen y' = Nmax + 1.
Proof.
  intros Hwf HL HM Hm HQ Hc Hfw Hbw Hff Hh Hy Ho1 Ho2. unfold c_bnm_fc.
  destruct (c_hkm_fc_ok junk a m Nmax MM Q hkm ff fw bw) as (ff' & -> & Hff'); auto; [lia|]. cbn [bind].
  set (h := hcirc MM Nmax Q (colf a m)).
  set (B := fun n => (h 0%Z * RtoC (Yt n m 0) + RtoC 2 * sumC 1 (n + 1) (fun k => h k * RtoC (Yt n m k)))%C).
  assert (HB : forall n, bcolc MM Nmax Q a n m = (ipow (- m) * B n)%C).
  { intros n. unfold bcolc, bval, B. fold h. match goal with |- ?a = ?b => change (@eq C a b) end. ring. }
  match goal with |- context [mfor (zrange (Z.abs m) (Nmax + 1)) ?g ?b] =>
    destruct (mfor_inv (fun n (r : list C * list R) => zlen (snd r) = Nmax + 1 /\
      fst r = vmake L (fun p => if (off <=? p) && (p <? off + (n - Z.abs m)) then bcolc MM Nmax Q a (p - off + Z.abs m) m else F p))
      (Z.abs m) (Nmax + 1) g b) as ([sc' y'] & -> & Hy' & Hsc) end.
  - lia.
  - cbn [fst snd]. split; auto. apply vmake_ext. intros p Hp. destruct (Z.leb_spec off p), (Z.ltb_spec p (off + (Z.abs m - Z.abs m))); auto; lia.
  - intros n [sc1 y1] Hn [Hy1 Hs1]. cbn [fst snd] in Hy1, Hs1. subst sc1.
    rewrite c_ynunm_eq by (auto; lia). cbn [bind]. rewrite cbget_vmake by lia. cbn [bind].
    rewrite rbget_vmake by lia. cbn [bind]. rewrite bset_vmake by lia. cbn [bind].
    set (p0 := off + (n - Z.abs m)). set (G := fun p => if (off <=? p) && (p <? p0) then bcolc MM Nmax Q a (p - off + Z.abs m) m else F p).
    set (acc := fun k => (h 0%Z * RtoC (Yt n m 0) + RtoC 2 * sumC 1 k (fun k => h k * RtoC (Yt n m k)))%C).
    match goal with |- context [mfor (zrange 1 (n + 1)) ?g ?b] =>
      destruct (mfor_inv (fun k (s : list C) => s = vmake L (fun p => if p =? p0 then acc k else G p)) 1 (n + 1) g b) as (s1 & -> & ->) end.
    + lia.
    + apply vmake_ext. intros p Hp. destruct (p =? p0); auto. unfold acc. rewrite sumC_nil by lia.
      apply C_ext; unfold Cplus, Cmult, RtoC; cbn [fst snd]; ring.
    + intros k s Hk ->. rewrite cbget_vmake by lia. cbn [bind]. rewrite rbget_vmake by lia. cbn [bind].
      rewrite cbget_vmake by lia. cbn [bind]. rewrite Z.eqb_refl. rewrite bset_vmake by lia. eexists; split; [reflexivity|].
      apply vmake_ext. intros p Hp. destruct (p =? p0); auto. unfold acc. rewrite sumC_snoc by lia.
      set (X := sumC _ _ _). apply C_ext; unfold Cplus, Cmult, RtoC; cbn [fst snd]; ring.
    + cbn [bind]. rewrite cbget_vmake by lia. cbn [bind]. rewrite Z.eqb_refl.
      assert (Hacc : acc (n + 1) = B n) by reflexivity. rewrite Hacc.
      match goal with |- context [if Z.rem (Z.abs m) 2 =? 1 then bset ?s ?i ?x else bset _ _ ?y] =>
        assert (Eif : (if Z.rem (Z.abs m) 2 =? 1 then bset s i x else bset s i y) = bset s i (bcolc MM Nmax Q a n m)) end.
      { rewrite HB, <- c_phase_neg. now destruct (_ =? 1). }
      cbv zeta. rewrite Eif. rewrite bset_vmake by lia. cbn [bind]. eexists; split; [reflexivity|]. cbn [fst snd].
      split; [apply zlen_vmake'; lia|]. apply vmake_ext. intros p Hp. unfold G.
      destruct (Z.eqb_spec p p0) as [E|E].
      * destruct (Z.leb_spec off p), (Z.ltb_spec p (off + (n + 1 - Z.abs m))); cbn [andb]; try lia. f_equal. lia.
      * destruct (Z.leb_spec off p), (Z.ltb_spec p (off + (n + 1 - Z.abs m))), (Z.ltb_spec p p0); cbn [andb]; auto; lia.
  - cbn [bind fst snd] in *. subst sc'. do 3 eexists. split; [reflexivity|]. repeat split; auto. apply zlen_vmake'; lia.
Qed.

(** ** The table of starting positions *)
Lemma zlen_1vmake {A} n (f : Z -> A) : 0 <= n -> zlen (vmake n f) = n.
Proof. apply zlen_vmake'. Qed.
Lemma c_inds_ok Nmax Mmax junki : 0 <= Mmax <= Nmax ->
  c_inds Nmax Mmax junki = Ok (vmake (2 * Mmax + 1) (fun i => if Z.odd i then cstart Nmax (- ((i + 1) / 2)) else cstart Nmax (i / 2))).
Proof.
  intros HM. unfold c_inds. rewrite cfill_ok by (apply zlen_vmake'; lia). cbn [bind]. rewrite bset_vmake by lia. cbn [bind].
  match goal with |- context [mfor (zrange 1 (Mmax + 1)) ?g ?b] =>
    destruct (mfor_inv (fun m (r : list Z * Z * Z) => r =
        (vmake (2 * Mmax + 1) (fun i => if i <? 2 * m - 1 then if Z.odd i then cstart Nmax (- ((i + 1) / 2)) else cstart Nmax (i / 2) else 0),
         ncoef Nmax (m - 1), Nmax + 1 - m)) 1 (Mmax + 1) g b) as (r & -> & ->) end.
  - lia.
  - rewrite ncoef_0. f_equal; [|lia]. f_equal. apply vmake_ext. intros i Hi.
    destruct (Z.eqb_spec i 0) as [E|E], (Z.ltb_spec i (2 * 1 - 1)); try reflexivity; try lia. now subst i.
  - intros m r Hm ->. rewrite bset_vmake by lia. cbn [bind]. rewrite bset_vmake by lia. cbn [bind]. eexists; split; [reflexivity|].
    f_equal; [|lia]. f_equal.
    + apply vmake_ext. intros i Hi.
      destruct (Z.eqb_spec i (2 * m)) as [->|E1]; [|destruct (Z.eqb_spec i (2 * m - 1)) as [->|E2]].
      * destruct (Z.ltb_spec (2 * m) (2 * (m + 1) - 1)); [|lia]. rewrite Z.odd_mul. cbn [Z.odd andb].
        rewrite (Z.mul_comm 2 m), Z.div_mul by lia. rewrite cstart_pos by lia. lia.
      * destruct (Z.ltb_spec (2 * m - 1) (2 * (m + 1) - 1)); [|lia].
        replace (2 * m - 1) with (1 + 2 * (m - 1)) by ring. rewrite Z.odd_add_mul_2. cbn [Z.odd].
        replace (1 + 2 * (m - 1) + 1) with (m * 2) by ring. rewrite Z.div_mul by lia. rewrite cstart_neg by lia. lia.
      * destruct (Z.ltb_spec i (2 * m - 1)), (Z.ltb_spec i (2 * (m + 1) - 1)); auto; lia.
    + replace (m + 1 - 1) with (m - 1 + 1) by ring. rewrite ncoef_step. lia.
  - cbn [bind fst]. f_equal. apply vmake_ext. intros i Hi. destruct (Z.ltb_spec i (2 * (Mmax + 1) - 1)); [auto|lia].
Qed.
Lemma inds_get Nmax Mmax i : 0 <= i < 2 * Mmax + 1 ->
  ibget (vmake (2 * Mmax + 1) (fun i => if Z.odd i then cstart Nmax (- ((i + 1) / 2)) else cstart Nmax (i / 2))) i
  = Ok (if Z.odd i then cstart Nmax (- ((i + 1) / 2)) else cstart Nmax (i / 2)).
Proof. intros. now apply bget_vmake. Qed.
Lemma inds_pos Nmax Mmax m : 0 <= m <= Mmax ->
  ibget (vmake (2 * Mmax + 1) (fun i => if Z.odd i then cstart Nmax (- ((i + 1) / 2)) else cstart Nmax (i / 2))) (2 * m)
  = Ok (cstart Nmax m).
Proof. intros. rewrite inds_get by lia. rewrite Z.odd_mul. cbn [Z.odd andb]. now rewrite (Z.mul_comm 2 m), Z.div_mul by lia. Qed.
Lemma inds_neg Nmax Mmax m : 1 <= m <= Mmax ->
  ibget (vmake (2 * Mmax + 1) (fun i => if Z.odd i then cstart Nmax (- ((i + 1) / 2)) else cstart Nmax (i / 2))) (2 * m - 1)
  = Ok (cstart Nmax (- m)).
Proof.
  intros. rewrite inds_get by lia. replace (2 * m - 1) with (1 + 2 * (m - 1)) by ring. rewrite Z.odd_add_mul_2. cbn [Z.odd].
  replace (1 + 2 * (m - 1) + 1) with (m * 2) by ring. now rewrite Z.div_mul by lia.
Qed.

(** ** fc_to_sc *)
Lemma list_vmake {A} (d : A) (l : list A) n : zlen l = n -> l = vmake n (vget d l).
Proof.
  intros H. pose proof (zlen_nonneg l).
  apply (vget_ext d); [rewrite zlen_vmake'; lia|]. intros i Hi. rewrite vget_vmake by lia. reflexivity.
Qed.
Lemma plan_alloc Q inv : 1 <= Q < 2 ^ 32 -> exists st, kiss_fft_alloc Q inv = Ok st /\ plan_ok Q inv st.
Proof. intros. destruct (kiss_fft_alloc_ok Q inv) as (st & E & H1 & H2 & H3); auto. exists st. split; auto. exact (conj H1 (conj H2 H3)). Qed.

Lemma c_fc_to_sc_ok junk junkr junki a sc Nmax Mmax MM : mat_wf RN a ->
  mt_nr RN a = 2 * MM -> 1 <= MM -> 0 <= Mmax <= Nmax -> Mmax < mt_nc RN a -> 2 * MM + Nmax <= 2 ^ 31 ->
  zlen sc = ncoef Nmax Mmax ->
  exists Q v, 2 * MM + Nmax <= Q /\ c_fc_to_sc junk junkr junki (mt_dat RN a) (mt_nr RN a) (mt_nc RN a) sc Nmax Mmax = Ok v /\
    zlen v = ncoef Nmax Mmax /\
    forall n m, is_mode Nmax Mmax n m -> vget (RtoC 0) v (pos Nmax n m) = bcolc MM Nmax Q a n m.
Proof.
  intros Hwf HL HM HN Hc HB Hsc. unfold c_fc_to_sc.
  destruct (FindQ_ok (mt_nr RN a + Nmax) ltac:(lia)) as (Q & -> & (HQ & _) & HQ2). cbn [bind]. rewrite HL in HQ, HQ2.
  replace (SData (vmake Q junk) Q (mt_nr RN a) Nmax) with (Ok (vmake Q (cs_val MM Nmax Q)))
    by (rewrite HL; symmetry; apply SData_ok; try lia; apply zlen_vmake'; lia). cbn [bind].
  destruct (plan_alloc Q false ltac:(lia)) as (fw & -> & Hfw). destruct (plan_alloc Q true ltac:(lia)) as (bw & -> & Hbw). cbn [bind].
  rewrite (plan_run junk Q false fw) by (auto; lia). cbn [bind].
  assert (Ess : vmake Q (fun k => sumC 0 Q (fun j => cs_val MM Nmax Q j * root Q (dir false * (j * k))%Z)%C) = c_ss MM Nmax Q) by reflexivity.
  exists Q. rewrite Ess. rewrite c_inds_ok by lia. cbn [bind].
  set (F0 := vget (RtoC 0) sc).
  assert (Esc : sc = vmake (ncoef Nmax Mmax) F0).
  { now apply list_vmake. }
  rewrite Esc. set (L := ncoef Nmax Mmax) in *. pose proof (zlen_nonneg sc) as HL0. rewrite Hsc in HL0.
  assert (Hg : good_size Nmax Mmax) by (unfold good_size; lia).
  assert (Hr : forall m, Z.abs m <= Mmax -> 0 <= cstart Nmax m /\ cstart Nmax m + (Nmax + 1 - Z.abs m) <= L) by (intros; now apply cstart_range).
  destruct (c_bnm_fc_ok junk a 0 Nmax MM Q L 0 F0 (vmake Q junk) (vmake (Nmax + 1) junk) (vmake (Nmax + 1) junkr) fw bw)
    as (ff & hkm & y & -> & Z1 & Z2 & Z3); auto; try lia; try (apply zlen_vmake'; lia).
  { specialize (Hr 0 ltac:(lia)). rewrite cstart_0 in Hr. lia. }
  cbn [bind].
  match goal with |- context [mfor (zrange 1 (Mmax + 1)) ?g ?b] =>
    destruct (mfor_inv (fun p (s : list C * list C * list C * list R) => let '(v, ff, hkm, y) := s in
       zlen v = L /\ zlen ff = Q /\ zlen hkm = Nmax + 1 /\ zlen y = Nmax + 1 /\
       forall n m, Z.abs m <= p - 1 -> Z.abs m <= n <= Nmax -> vget (RtoC 0) v (pos Nmax n m) = bcolc MM Nmax Q a n m) 1 (Mmax + 1) g b) as (st & -> & Hst) end.
  - lia.
  - repeat split; auto; [apply zlen_vmake'; lia|]. intros n m Hm Hn. assert (m = 0) as -> by lia.
    pose proof (pos_range Nmax Mmax n 0 Hg ltac:(unfold is_mode; lia)). fold L in H.
    rewrite vget_vmake by lia. unfold pos in *. rewrite cstart_0 in *.
    destruct (Z.leb_spec 0 (0 + n - Z.abs 0)), (Z.ltb_spec (0 + n - Z.abs 0) (0 + (Nmax + 1 - Z.abs 0))); cbn [andb]; try lia. f_equal. lia.
  - intros p [[[v ff1] hkm1] y1] Hp (Lv & L1 & L2 & L3 & Hv). rewrite inds_neg by lia. cbn [bind].
    set (F := vget (RtoC 0) v).
    assert (Ev : v = vmake L F).
    { now apply list_vmake. }
    rewrite Ev.
    pose proof (Hr (- p) ltac:(lia)) as R1. pose proof (Hr p ltac:(lia)) as R2.
    destruct (c_bnm_fc_ok junk a (- p) Nmax MM Q L (cstart Nmax (- p)) F ff1 hkm1 y1 fw bw)
      as (ff2 & hkm2 & y2 & -> & Y1 & Y2 & Y3); auto; try lia.
    cbn [bind]. rewrite inds_pos by lia. cbn [bind].
    match goal with |- context [(vmake L ?g, ff2, hkm2, y2)] => set (F2 := g) end.
    destruct (c_bnm_fc_ok junk a p Nmax MM Q L (cstart Nmax p) F2 ff2 hkm2 y2 fw bw)
      as (ff3 & hkm3 & y3 & -> & X1 & X2 & X3); auto; try lia.
    eexists; split; [reflexivity|]. cbv beta iota. repeat split; auto; [apply zlen_vmake'; lia|].
    intros n m Hm Hn.
    pose proof (pos_range Nmax Mmax n m Hg ltac:(unfold is_mode; lia)) as Pr. fold L in Pr.
    rewrite vget_vmake by lia. unfold F2.
    assert (In1 : forall m', Z.abs m' <= Mmax ->
       ((cstart Nmax m' <=? pos Nmax n m) && (pos Nmax n m <? cstart Nmax m' + (Nmax + 1 - Z.abs m'))) = (m =? m')).
    { intros m' Hm'. destruct (Z.eqb_spec m m') as [<-|Hne].
      - unfold pos. destruct (Z.leb_spec (cstart Nmax m) (cstart Nmax m + n - Z.abs m)), (Z.ltb_spec (cstart Nmax m + n - Z.abs m) (cstart Nmax m + (Nmax + 1 - Z.abs m))); auto; lia.
      - destruct (cstart_disjoint Nmax Mmax m m' Hg ltac:(lia) Hm' Hne); unfold pos;
        destruct (Z.leb_spec (cstart Nmax m') (cstart Nmax m + n - Z.abs m)), (Z.ltb_spec (cstart Nmax m + n - Z.abs m) (cstart Nmax m' + (Nmax + 1 - Z.abs m'))); auto; lia. }
    rewrite (In1 p), (In1 (- p)) by lia.
    destruct (Z.eqb_spec m p) as [->|N1]; [f_equal; unfold pos; lia|].
    destruct (Z.eqb_spec m (- p)) as [->|N2]; [f_equal; unfold pos; lia|].
    apply Hv; lia.
  - destruct st as [[[v ff1] hkm1] y1]. destruct Hst as (Lv & _ & _ & _ & Hv). cbn [bind]. eexists; split; [exact HQ|]. split; [reflexivity|]. split; auto.
    intros n m (M1 & M2 & M3). apply Hv; lia.
Qed.

Lemma c_fc_to_sc_py junk junkr junki a sc Nmax Mmax MM : mat_wf RN a ->
  mt_nr RN a = 2 * MM -> 1 <= MM -> 0 <= Mmax <= Nmax -> Mmax < mt_nc RN a -> 2 * MM + Nmax <= 2 ^ 31 ->
  (forall m, Z.abs m <= Mmax -> colf a m MM = RtoC 0) ->
  zlen sc = ncoef Nmax Mmax ->
  c_fc_to_sc junk junkr junki (mt_dat RN a) (mt_nr RN a) (mt_nc RN a) sc Nmax Mmax = py_fc_to_sc a Nmax Mmax.
Proof.
  intros Hwf HL HM HN Hc HB Hz Hsc.
  destruct (c_fc_to_sc_ok junk junkr junki a sc Nmax Mmax MM) as (Q & v & HQ & -> & L1 & V1); auto.
  destruct (py_fc_to_sc_ok a Nmax Mmax MM) as (w & -> & L2 & V2); auto.
  f_equal. apply (vget_ext (RtoC 0)); [lia|]. intros i Hi. rewrite L1 in Hi.
  destruct (pos_surj Nmax Mmax i) as (n & m & Hm & <-); [unfold good_size; lia|auto|].
  rewrite V1, V2 by auto. destruct Hm as (M1 & M2 & M3). apply bcolc_bcol; auto. lia.
Qed.

(** ** fcvec_m_sc and sc_to_fc *)
Definition flat (nr nc : Z) (f : Z -> Z -> C) : list C := vmake (nr * nc) (fun k => f (k / nc) (k mod nc)).
Lemma flat_idx nr nc i j : 0 <= i < nr -> 0 <= j < nc -> 0 <= i * nc + j < nr * nc.
Proof. nia. Qed.
Lemma flat_get nr nc f i j : 0 <= i < nr -> 0 <= j < nc -> cbget (flat nr nc f) (i * nc + j) = Ok (f i j).
Proof.
  intros Hi Hj. unfold flat. rewrite cbget_vmake by (apply flat_idx; auto).
  destruct (divmod_flat i j nc Hj) as [-> ->]. reflexivity.
Qed.
Lemma flat_ext nr nc f g : 0 <= nr -> 0 <= nc -> (forall i j, 0 <= i < nr -> 0 <= j < nc -> f i j = g i j) -> flat nr nc f = flat nr nc g.
Proof. intros H1 H2 H. pose proof (mmake_ext nr nc f g H1 H2 H) as E. unfold mmake in E. injection E as E. exact E. Qed.
Lemma flat_set nr nc f i j x : 0 <= i < nr -> 0 <= j < nc ->
  bset (flat nr nc f) (i * nc + j) x = Ok (flat nr nc (fun p q => if (p =? i) && (q =? j) then x else f p q)).
Proof.
  intros Hi Hj. unfold flat. rewrite bset_vmake by (apply flat_idx; auto). f_equal. apply vmake_ext. intros k Hk.
  assert (0 <= k mod nc < nc) by (apply Z.mod_pos_bound; lia).
  destruct (Z.eqb_spec k (i * nc + j)) as [->|E].
  - destruct (divmod_flat i j nc Hj) as [-> ->]. now rewrite !Z.eqb_refl.
  - destruct (Z.eqb_spec (k / nc) i), (Z.eqb_spec (k mod nc) j); auto. exfalso. apply E.
    rewrite (Z.div_mod k nc) by lia. subst. ring.
Qed.

Definition Fcw (w : Z -> C) (N m k : Z) : C := (ipow m * sumC (Z.abs m) (N + 1) (fun n => w n * RtoC (Yt n m k)))%C.
Lemma sgn_powm1 m : powm1 m = sgnpow m.
Proof. unfold powm1, sgnpow. rewrite Zeven_mod. unfold Zeq_bool. destruct (Z.eqb_spec (m mod 2) 0) as [->|]; auto.
  destruct (Z.compare_spec (m mod 2) 0); auto; lia. Qed.
Lemma Fcw_neg w N m k : Fcw w N m (- k) = (RtoC (IZR (powm1 m)) * Fcw w N m k)%C.
Proof.
  unfold Fcw. rewrite !Cmult_assoc, (Cmult_comm (RtoC _) (ipow m)), <- Cmult_assoc. f_equal.
  rewrite sumC_mul. apply sumC_ext. intros n Hn. rewrite Yt_neg, RtoC_mult, sgn_powm1. ring.
Qed.
Lemma Fcw_hi w N m k : N < Z.abs k -> Fcw w N m k = RtoC 0.
Proof. intros H. unfold Fcw. rewrite sumC_zero; [ring|]. intros n Hn. rewrite Yt_supp by lia. ring. Qed.

Lemma c_fcvec_ok sc off m N nr nc M y f : Z.abs m <= N -> N + 1 <= nr -> 0 <= M < nc -> zlen y = N + 1 ->
  0 <= off -> off + (N + 1 - Z.abs m) <= zlen sc -> (forall p, 0 <= p < nr -> f p M = RtoC 0) ->
  exists y', c_fcvec_m_sc sc off m N nr nc M (N + 1) (flat nr nc f, y) =
    Ok (flat nr nc (fun p q => if q =? M then Fcw (fun n => vgc sc (off + (n - Z.abs m))) N m (freqc nr p) else f p q), y')
    /\ zlen y' = N + 1.
Proof.
  intros Hm Hr HM Hy Ho1 Ho2 Hf. unfold c_fcvec_m_sc. set (w := fun n => vgc sc (off + (n - Z.abs m))).
  set (part := fun n k => sumC (Z.abs m) n (fun n => w n * RtoC (Yt n m k))%C).
  set (G := fun n p q => if q =? M then if p <? N + 1 then part n p else RtoC 0 else f p q).
  match goal with |- context [mfor (zrange (Z.abs m) (N + 1)) ?g ?b] =>
    destruct (mfor_inv (fun n (r : list C * list R) => zlen (snd r) = N + 1 /\ fst r = flat nr nc (G n)) (Z.abs m) (N + 1) g b)
      as ([s1 y1] & -> & Hy1 & Hs1) end.
  - lia.
  - cbn [fst snd]. split; auto. apply flat_ext; try lia. intros i j Hi Hj. unfold G. destruct (Z.eqb_spec j M) as [->|]; auto.
    unfold part. rewrite sumC_nil by lia. rewrite Hf by lia. now destruct (_ <? _).
  - intros n [s2 y2] Hn [Hy2 Hs2]. cbn [fst snd] in Hy2, Hs2. subst s2. rewrite c_ynunm_eq by (auto; lia). cbn [bind].
    match goal with |- context [mfor (zrange 0 (N + 1)) ?g ?b] =>
      destruct (mfor_inv (fun k (s : list C) => s = flat nr nc (fun p q => if p <? k then G (n + 1) p q else G n p q)) 0 (N + 1) g b) as (s3 & -> & ->) end.
    + lia.
    + apply flat_ext; try lia. intros i j Hi Hj. destruct (Z.ltb_spec i 0); auto; lia.
    + intros k s Hk ->. rewrite flat_get by lia. cbn [bind]. unfold cbget at 1. rewrite bget_ok by lia. cbn [bind].
      rewrite rbget_vmake by lia. cbn [bind]. rewrite flat_set by lia. eexists; split; [reflexivity|].
      apply flat_ext; try lia. intros i j Hi Hj. destruct (Z.ltb_spec k k); [lia|].
      destruct (Z.eqb_spec i k) as [Ei|Ei]; cbn [andb].
      * subst i. destruct (Z.ltb_spec k k); [lia|]. destruct (Z.ltb_spec k (k + 1)); [|lia].
        unfold G. destruct (Z.eqb_spec j M) as [Ej|]; auto. rewrite Z.eqb_refl. destruct (Z.ltb_spec k (N + 1)); [|lia].
        unfold part. rewrite (sumC_snoc (Z.abs m) n) by lia. fold (w n). set (X := sumC _ _ _).
        apply C_ext; unfold Cplus, Cmult, RtoC; cbn [fst snd]; ring.
      * destruct (Z.ltb_spec i k), (Z.ltb_spec i (k + 1)); auto; lia.
    + cbn [bind]. eexists; split; [reflexivity|]. cbn [fst snd]. split; [apply zlen_vmake'; lia|].
      apply flat_ext; try lia. intros i j Hi Hj. destruct (Z.ltb_spec i (N + 1)); auto.
      unfold G. destruct (Z.ltb_spec i (N + 1)); [lia|auto].
  - cbn [bind fst snd] in *. subst s1.
    set (G2 := fun k p q => if q =? M then if p <? k then Fcw w N m p else if p <? N + 1 then part (N + 1) p else RtoC 0 else f p q).
    match goal with |- context [mfor (zrange 0 (N + 1)) ?g ?b] =>
      destruct (mfor_inv (fun k (s : list C) => s = flat nr nc (G2 k)) 0 (N + 1) g b) as (s3 & -> & ->) end.
    + lia.
    + apply flat_ext; try lia. intros i j Hi Hj. unfold G, G2. destruct (Z.ltb_spec i 0); auto; lia.
    + intros k s Hk ->. rewrite flat_get by lia. cbn [bind].
      assert (E0 : G2 k k M = part (N + 1) k).
      { unfold G2. rewrite Z.eqb_refl. destruct (Z.ltb_spec k k); [lia|]. destruct (Z.ltb_spec k (N + 1)); [auto|lia]. }
      rewrite E0.
      match goal with |- context [if Z.rem (Z.abs m) 2 =? 1 then bset ?s ?i ?x else bset _ _ ?y] =>
        assert (Eif : (if Z.rem (Z.abs m) 2 =? 1 then bset s i x else bset s i y) = bset s i (Fcw w N m k)) end.
      { unfold Fcw. fold (part (N + 1) k). rewrite <- c_phase_pos. now destruct (_ =? 1). }
      cbv zeta. rewrite Eif. rewrite flat_set by lia. eexists; split; [reflexivity|].
      apply flat_ext; try lia. intros i j Hi Hj. unfold G2.
      destruct (Z.eqb_spec i k) as [Ei|Ei]; cbn [andb].
      * subst i. destruct (Z.eqb_spec j M) as [Ej|]; auto. destruct (Z.ltb_spec k (k + 1)); [auto|lia].
      * destruct (Z.ltb_spec i k), (Z.ltb_spec i (k + 1)); auto; lia.
    + cbn [bind]. rewrite (flat_ext nr nc (G2 (N + 1)) (fun p q => if q =? M then Fcw w N m p else f p q)); try lia.
      2:{ intros i j Hi Hj. unfold G2. destruct (_ =? _); auto. destruct (Z.ltb_spec i (N + 1)); auto. rewrite Fcw_hi by lia. reflexivity. }
      assert (EH : (if Z.rem nr 2 =? 0 then Z.quot nr 2 - 1 else Z.quot (nr - 1) 2) = if nr mod 2 =? 0 then nr / 2 - 1 else (nr - 1) / 2).
      { rewrite Z.rem_mod_nonneg, !Z.quot_div_nonneg by lia. reflexivity. }
      rewrite EH. set (H := if nr mod 2 =? 0 then nr / 2 - 1 else (nr - 1) / 2).
      assert (HH : 0 <= H /\ nr <= 2 * H + 2 /\ 2 * H + 1 <= nr) by (unfold H; destruct (Z.eqb_spec (nr mod 2) 0); lia).
      match goal with |- context [mfor (zrange 0 H) ?g ?b] =>
        destruct (mfor_inv (fun k (s : list C) => s = flat nr nc (fun p q => if q =? M then Fcw w N m (if p <? nr - k then p else p - nr) else f p q))
          0 H g b) as (s4 & -> & ->) end.
      * lia.
      * apply flat_ext; try lia. intros i j Hi Hj. destruct (_ =? M); auto. destruct (Z.ltb_spec i (nr - 0)); [auto|lia].
      * intros k s Hk ->. rewrite (Z.mul_comm nc (k + 1)). rewrite flat_get by lia. cbn [bind].
        rewrite (Z.mul_comm nc (nr - 1 - k)). rewrite flat_set by lia. eexists; split; [reflexivity|].
        apply flat_ext; try lia. intros i j Hi Hj. rewrite Z.eqb_refl. destruct (Z.ltb_spec (k + 1) (nr - k)); [|lia].
        destruct (Z.eqb_spec j M) as [Ej|]; [|now rewrite andb_false_r]. rewrite andb_true_r.
        destruct (Z.eqb_spec i (nr - 1 - k)) as [Ei|].
        -- subst i. destruct (Z.ltb_spec (nr - 1 - k) (nr - (k + 1))); [lia|].
           replace (nr - 1 - k - nr) with (- (k + 1)) by lia. rewrite Fcw_neg.
           apply C_ext; unfold Cmult, RtoC; cbn [fst snd]; ring.
        -- destruct (Z.ltb_spec i (nr - k)), (Z.ltb_spec i (nr - (k + 1))); auto; lia.
      * cbn [bind]. exists y1. split; auto. f_equal. f_equal. apply flat_ext; try lia. intros i j Hi Hj.
        destruct (_ =? M); auto. f_equal. unfold freqc.
        assert (nr / 2 = H + 1 /\ nr mod 2 = 0 \/ nr / 2 = H /\ nr mod 2 = 1) as HD.
        { unfold H; destruct (Z.eqb_spec (nr mod 2) 0); lia. }
        destruct (Z.ltb_spec i (nr - H)), (Z.leb_spec i (nr / 2)); auto; lia.
Qed.

Lemma Fcw_Fsc c m k : sc_wf RN c -> Z.abs m <= sc_mmax RN c ->
  Fcw (fun n => vgc (sc_vec RN c) (cstart (sc_nmax RN c) m + (n - Z.abs m))) (sc_nmax RN c) m k = Fsc c m k.
Proof.
  intros W Hm. unfold Fcw, Fsc. destruct (Z.leb_spec (Z.abs m) (sc_mmax RN c)); [|lia]. f_equal.
  apply sumC_ext. intros n Hn. f_equal. unfold cval, pos. rewrite c0_RN.
  now replace (cstart (sc_nmax RN c) m + n - Z.abs m) with (cstart (sc_nmax RN c) m + (n - Z.abs m)) by lia.
Qed.

Lemma c_sc_to_fc_ok junkr junki c nr nc : sc_wf RN c -> sc_nmax RN c + 1 <= nr -> 2 * sc_mmax RN c + 2 <= nc ->
  c_sc_to_fc junkr junki (flat nr nc (fun _ _ => RtoC 0)) nr nc (sc_vec RN c) (sc_nmax RN c) (sc_mmax RN c)
  = Ok (mt_dat RN (fdata_of c nr nc)).
Proof.
  intros W Hr Hc. pose proof (sc_wf_len c W) as Hl. pose proof W as [Hg _]. unfold good_size in Hg. unfold c_sc_to_fc.
  set (Mx := sc_mmax RN c) in *. set (N := sc_nmax RN c) in *.
  rewrite c_inds_ok by lia. cbn [bind].
  assert (Hrg : forall m, Z.abs m <= Mx -> 0 <= cstart N m /\ cstart N m + (N + 1 - Z.abs m) <= @zlen C (sc_vec RN c))
    by (intros; rewrite Hl; apply cstart_range; auto).
  assert (Col : forall m M f y, Z.abs m <= Mx -> 0 <= M < nc -> zlen y = N + 1 -> (forall p, 0 <= p < nr -> f p M = RtoC 0) ->
    exists y', c_fcvec_m_sc (sc_vec RN c) (cstart N m) m N nr nc M (N + 1) (flat nr nc f, y) =
      Ok (flat nr nc (fun p q => if q =? M then Fsc c m (freqc nr p) else f p q), y') /\ zlen y' = N + 1).
  { intros m M f y Hm HM Hy Hf. destruct (Hrg m Hm).
    destruct (c_fcvec_ok (sc_vec RN c) (cstart N m) m N nr nc M y f) as (y' & -> & L); auto; try lia.
    exists y'. split; auto. f_equal. f_equal. apply flat_ext; try lia. intros i j Hi Hj. destruct (_ =? M); auto.
    now apply Fcw_Fsc. }
  set (I := fun k p q => if (q <? Z.min k (Mx + 1)) then Fsc c q (freqc nr p)
     else if nc - Z.min k Mx <=? q then Fsc c (q - nc) (freqc nr p) else RtoC 0).
  rewrite Z.quot_div_nonneg by lia.
  match goal with |- context [mfor (zrange 0 (nc / 2 + 1)) ?g ?b] =>
    destruct (mfor_inv (fun k (r : list C * list R) => zlen (snd r) = N + 1 /\ fst r = flat nr nc (I k)) 0 (nc / 2 + 1) g b)
      as ([s1 y1] & -> & Hy1 & Hs1) end.
  - lia.
  - cbn [fst snd]. split; [apply zlen_vmake'; lia|]. apply flat_ext; try lia. intros p q Hp Hq. unfold I. rewrite !Z.min_l by lia.
    destruct (Z.ltb_spec q 0); [lia|]. destruct (Z.leb_spec (nc - 0) q); auto; lia.
  - intros k [s y] Hk [Hy Hs]. cbn [fst snd] in Hy, Hs. subst s.
    destruct (Z.ltb_spec k Mx) as [L|L].
    + rewrite inds_pos by lia. cbn [bind].
      destruct (Col k k (I k) y) as (y2 & -> & Hy2); auto; try lia.
      { intros p Hp. unfold I. rewrite !Z.min_l by lia. destruct (Z.ltb_spec k k); [lia|]. destruct (Z.leb_spec (nc - k) k); [lia|auto]. }
      cbn [bind]. rewrite inds_neg by lia. cbn [bind].
      match goal with |- context [(flat nr nc ?g, y2)] => destruct (Col (- (k + 1)) (nc - 1 - k) g y2) as (y3 & -> & Hy3); auto; try lia end.
      { intros p Hp. destruct (Z.eqb_spec (nc - 1 - k) k); [lia|]. unfold I. rewrite !Z.min_l by lia.
        destruct (Z.ltb_spec (nc - 1 - k) k); [lia|]. destruct (Z.leb_spec (nc - k) (nc - 1 - k)); [lia|auto]. }
      eexists; split; [reflexivity|]. cbn [fst snd]. split; auto. apply flat_ext; try lia. intros p q Hp Hq. unfold I.
      rewrite !Z.min_l by lia.
      destruct (Z.eqb_spec q (nc - 1 - k)), (Z.eqb_spec q k), (Z.ltb_spec q k), (Z.ltb_spec q (k + 1)),
       (Z.leb_spec (nc - k) q), (Z.leb_spec (nc - (k + 1)) q); subst; try lia; auto; f_equal; lia.
    + destruct (Z.eqb_spec k Mx) as [E|Hne].
      * rewrite inds_pos by lia. cbn [bind].
        destruct (Col k k (I k) y) as (y2 & -> & Hy2); auto; try lia.
        { intros p Hp. unfold I. rewrite !Z.min_l by lia. destruct (Z.ltb_spec k k); [lia|]. destruct (Z.leb_spec (nc - k) k); [lia|auto]. }
        eexists; split; [reflexivity|]. cbn [fst snd]. split; auto. apply flat_ext; try lia. intros p q Hp Hq. unfold I.
        rewrite (Z.min_l k (Mx + 1)), (Z.min_l (k + 1) (Mx + 1)), (Z.min_r (k + 1) Mx), (Z.min_l k Mx) by lia.
        destruct (Z.eqb_spec q k), (Z.ltb_spec q k), (Z.ltb_spec q (k + 1)), (Z.leb_spec (nc - k) q), (Z.leb_spec (nc - Mx) q); subst; try lia; auto.
      * eexists; split; [reflexivity|]. cbn [fst snd]. split; auto. apply flat_ext; try lia. intros p q Hp Hq. unfold I. now rewrite !Z.min_r by lia.
  - cbn [bind fst snd] in *. subst s1. 
    change (Ok (flat nr nc (I (nc / 2 + 1))) = Ok (flat nr nc (fun p q => Fsc c (freqc nc q) (freqc nr p)))).
    apply (f_equal (@Ok (list C))). apply flat_ext; try lia. intros p q Hp Hq. unfold I.
    rewrite !Z.min_r by lia.
    change (freqc nc q) with (if q <=? nc / 2 then q else q - nc). destruct (Z.leb_spec q (nc / 2)) as [L|L].
    + destruct (Z.ltb_spec q (Mx + 1)); auto.
      destruct (Z.leb_spec (nc - Mx) q); [lia|].
      unfold Fsc. fold Mx. destruct (Z.leb_spec (Z.abs q) Mx); [lia|auto].
    + destruct (Z.ltb_spec q (Mx + 1)); [lia|].
      destruct (Z.leb_spec (nc - Mx) q); auto.
      unfold Fsc. fold Mx. destruct (Z.leb_spec (Z.abs (q - nc)) Mx); [lia|auto].
Qed.
