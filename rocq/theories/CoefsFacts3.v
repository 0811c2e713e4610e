(** * CoefsFacts3: reachability, VectorCoefs, factories, printing. *)
From Coq Require Import ZArith List String Bool Lia Permutation.
From Verif Require Import Py PyFacts Num MCoefs SpecCoefs Obs CoefsFacts CoefsFacts2.
Import ListNotations.
Open Scope string_scope.
Open Scope list_scope.
Open Scope Z_scope.

Section F3.
Variable K : num.
Notation C := (cplx K).
Notation cval := (cval K).
Notation sc_wf := (sc_wf K).

Lemma valid_wf c : valid K c <-> sc_wf c.
Proof.
  unfold valid, CoefsFacts.sc_wf, good_size; split.
  - intros [H E]. apply sc_new_inv in E. destruct E as (_ & E1 & E2). auto with zarith.
  - intros [H E]. split; [lia|]. rewrite sc_new_ok by auto. destruct c; auto.
Qed.

Lemma reads_cval c n m : valid K c -> is_mode (sc_nmax K c) (sc_mmax K c) n m -> reads K c n m (cval c n m).
Proof.
  intros Hv Hm. apply valid_wf in Hv. unfold reads; cbn. rewrite sc_get_elem_ok by auto. reflexivity.
Qed.

Lemma reads_mode c n m x : reads K c n m x -> is_mode (sc_nmax K c) (sc_mmax K c) n m.
Proof.
  unfold reads; cbn. destruct (is_modeb (sc_nmax K c) (sc_mmax K c) n m) eqn:E.
  - intros _; now apply is_modeb_spec.
  - assert (H : ~ is_mode (sc_nmax K c) (sc_mmax K c) n m).
    { intros H; apply is_modeb_spec in H; congruence. }
    destruct (sc_get_elem_raise K c n m H) as (msg & ->). discriminate.
Qed.

Lemma reads_inv c n m x : valid K c -> reads K c n m x ->
  is_mode (sc_nmax K c) (sc_mmax K c) n m /\ x = cval c n m.
Proof.
  intros Hv H. pose proof (reads_mode _ _ _ _ H) as Hm. split; auto.
  pose proof (reads_cval c n m Hv Hm) as H'. unfold reads in *. rewrite H' in H.
  apply Ok_inj in H. congruence.
Qed.

Lemma reads_iff c n m x : valid K c ->
  (reads K c n m x <-> is_mode (sc_nmax K c) (sc_mmax K c) n m /\ x = cval c n m).
Proof.
  intros Hv; split; [apply reads_inv; auto|]. intros [Hm ->]. now apply reads_cval.
Qed.

Lemma sc_window_wf c w : sc_wf c -> sc_wf (fst (sc_window K c w)).
Proof.
  intros Hw. destruct (Z.eq_dec (zlen w) (sc_nmax K c + 1)) as [E|E].
  - destruct (sc_window_ok K c w Hw E) as (c' & -> & H & _). exact H.
  - destruct (Z.eq_dec (zlen w) 1) as [E1|E1].
    + destruct w as [|x [|y w]]; [unfold zlen in E1; cbn in E1; lia| |unfold zlen in E1; cbn [List.length] in E1; lia].
      destruct (sc_window_len1 K c x Hw) as (c' & r & -> & H & _); [|exact H].
      destruct Hw as [Hg _]; unfold good_size in Hg. lia.
    + destruct (sc_window_raise K c w Hw E E1) as (e & ->). exact Hw.
Qed.

Lemma sc_new_wf vec nmax mmax c : 0 <= mmax -> sc_new K vec nmax mmax = Ok c -> sc_wf c.
Proof.
  intros H E; apply sc_new_inv in E; destruct E as (-> & H1 & H2).
  split; cbn; [unfold good_size; lia|auto].
Qed.

Lemma bind_ok {A B} (x : res A) (f : A -> res B) b :
  bind x f = Ok b -> exists a, x = Ok a /\ f a = Ok b.
Proof. destruct x; cbn; [eauto|discriminate]. Qed.

Lemma sc_op_left_new o c b c' : sc_op_left K o c b = Ok c' ->
  exists v, sc_new K v (sc_nmax K c) (sc_mmax K c) = Ok c'.
Proof.
  unfold sc_op_left. destruct b as [d|x|]; [| |discriminate].
  - destruct (_ =? _); [|discriminate]. intros H; apply bind_ok in H; destruct H as (v & _ & H); eauto.
  - destruct o; eauto. destruct (ceqb _ _ _); [destruct (_ >? _); discriminate|eauto].
Qed.

Lemma sc_op_right_new o c b c' : sc_op_right K o c b = Ok c' ->
  exists v, sc_new K v (sc_nmax K c) (sc_mmax K c) = Ok c'.
Proof. unfold sc_op_right. destruct b; try discriminate; eauto. Qed.

Lemma sc_trunc_wf c k t : sc_wf c -> 0 <= k -> sc_trunc K c k = Ok t -> sc_wf t.
Proof.
  intros Hw Hk E. destruct (Z.le_gt_cases k (sc_nmax K c)).
  - destruct (sc_trunc_ok K c k Hw) as (t' & E' & W & _); [lia|]. congruence.
  - rewrite sc_trunc_raise in E by lia. discriminate.
Qed.

Lemma sc_reach_wf c : sc_reach K c -> sc_wf c.
Proof.
  induction 1 as [vec nmax mmax c Hm E|c arg val Hr IH|c w Hr IH|c c' Hr IH E|c k c' Hr IH Hk E|c o b c' Hr IH E|c o b c' Hr IH E].
  - eapply sc_new_wf; eauto.
  - destruct (sc_setitem_spec K c arg val IH) as (c' & r & -> & W & _). exact W.
  - now apply sc_window_wf.
  - rewrite sc_copy_ok in E by auto. apply Ok_inj in E; subst; auto.
  - cbn in E. destruct k; try discriminate.
    all: apply bind_ok in E; destruct E as (t & E & E'); apply Ok_inj in E'; inversion E'; subst;
      eapply sc_trunc_wf; eauto.
  - apply sc_op_left_new in E. destruct E as (v & E). eapply sc_new_wf; eauto. apply IH.
  - apply sc_op_right_new in E. destruct E as (v & E). eapply sc_new_wf; eauto. apply IH.
Qed.

(** ** VectorCoefs *)

Definition vc_wf (v : vcoefs K) : Prop :=
  sc_wf (vc_1 K v) /\ sc_wf (vc_2 K v) /\
  sc_nmax K (vc_1 K v) = vc_nmax K v /\ sc_mmax K (vc_1 K v) = vc_mmax K v /\
  sc_nmax K (vc_2 K v) = vc_nmax K v /\ sc_mmax K (vc_2 K v) = vc_mmax K v /\
  cval (vc_1 K v) 0 0 = c0 K /\ cval (vc_2 K v) 0 0 = c0 K.

Lemma mode00 nmax mmax : good_size nmax mmax -> is_mode nmax mmax 0 0.
Proof. unfold good_size, is_mode; lia. Qed.

Lemma vvalid_wf v : vvalid K v <-> vc_wf v.
Proof.
  unfold vvalid, vc_wf. rewrite !valid_wf. split.
  - intros (W1 & W2 & A1 & A2 & A3 & A4 & R1 & R2). repeat (split; auto).
    + apply reads_inv in R1; [|now apply valid_wf]. now destruct R1.
    + apply reads_inv in R2; [|now apply valid_wf]. now destruct R2.
  - intros (W1 & W2 & A1 & A2 & A3 & A4 & R1 & R2). repeat (split; auto).
    + apply reads_iff; [now apply valid_wf|]. split; auto. apply mode00, W1.
    + apply reads_iff; [now apply valid_wf|]. split; auto. apply mode00, W2.
Qed.

(** Value of a vector with its first cell zeroed. *)
Lemma pos_zero nmax mmax n m : good_size nmax mmax -> is_mode nmax mmax n m ->
  pos nmax n m = 0 -> n = 0 /\ m = 0.
Proof.
  intros Hg Hm E. apply (pos_inj nmax mmax); auto. now apply mode00.
Qed.

Lemma vc_new_ok v1 v2 nmax mmax : good_size nmax mmax ->
  zlen v1 = ncoef nmax mmax -> zlen v2 = ncoef nmax mmax ->
  exists c, vc_new K v1 v2 nmax mmax = Ok c /\ vc_wf c /\ vc_nmax K c = nmax /\ vc_mmax K c = mmax /\
    forall n m, is_mode nmax mmax n m -> 
      cval (vc_1 K c) n m = (if n =? 0 then c0 K else cval (mkSC K v1 nmax mmax) n m) /\
      cval (vc_2 K c) n m = (if n =? 0 then c0 K else cval (mkSC K v2 nmax mmax) n m).
Proof.
  intros Hg H1 H2; unfold vc_new. rewrite H1, H2, !Z.eqb_refl. cbn [negb].
  pose proof (pos_range _ _ _ _ Hg (mode00 _ _ Hg)) as H0.
  assert (P0 : pos nmax 0 0 = 0) by reflexivity. rewrite P0 in H0.
  destruct (Z.gtb_spec mmax nmax); [unfold good_size in Hg; lia|].
  rewrite !py_set_ok by lia. cbn [bind].
  rewrite !sc_new_ok by (rewrite ?zlen_vset; auto). cbn [bind].
  assert (HV : forall v, zlen v = ncoef nmax mmax -> forall n m, is_mode nmax mmax n m ->
     cval (mkSC K (vset v 0 (c0 K)) nmax mmax) n m = (if n =? 0 then c0 K else cval (mkSC K v nmax mmax) n m)).
  { intros v Hv n m Hm. unfold CoefsFacts.cval; cbn [sc_vec sc_nmax]. rewrite vget_vset by lia.
    destruct (Z.eqb_spec (pos nmax n m) 0) as [E|E].
    - destruct (pos_zero _ _ _ _ Hg Hm E) as [-> _]. reflexivity.
    - destruct (Z.eqb_spec n 0); [|auto]. subst. unfold is_mode in Hm. assert (m = 0) by lia. subst. congruence. }
  eexists; split; [reflexivity|].
  split.
  - unfold vc_wf; cbn [vc_1 vc_2 vc_nmax vc_mmax sc_nmax sc_mmax].
    rewrite !HV by (auto using mode00).
    unfold CoefsFacts.sc_wf; cbn [sc_vec sc_nmax sc_mmax]. rewrite !zlen_vset. repeat split; auto; apply Hg.
  - cbn. split; [auto|]. split; [auto|]. intros; split; apply HV; auto.
Qed.

Lemma vc_new_inv v1 v2 nmax mmax c : vc_new K v1 v2 nmax mmax = Ok c -> 0 <= mmax ->
  good_size nmax mmax /\ zlen v1 = ncoef nmax mmax /\ zlen v2 = ncoef nmax mmax.
Proof.
  unfold vc_new, good_size. intros E H0.
  destruct (Z.eqb_spec (zlen v1) (zlen v2)) as [H1|H1]; cbn [negb] in E; [|discriminate].
  destruct (Z.gtb_spec mmax nmax); [discriminate|].
  destruct (Z.eqb_spec (ncoef nmax mmax) (zlen v1)) as [H2|H2]; cbn [negb] in E; [|discriminate].
  lia.
Qed.

Lemma vc_new_wf v1 v2 nmax mmax c : vc_new K v1 v2 nmax mmax = Ok c -> 0 <= mmax -> vc_wf c.
Proof.
  intros E H0. destruct (vc_new_inv _ _ _ _ _ E H0) as (Hg & H1 & H2).
  destruct (vc_new_ok v1 v2 nmax mmax Hg H1 H2) as (c' & E' & W & _).
  rewrite E in E'. apply Ok_inj in E'. subst; auto.
Qed.

(** vc[n,m] = (a,b) *)
Lemma vc_set_ok v n m a b : vc_wf v -> n <> 0 -> is_mode (vc_nmax K v) (vc_mmax K v) n m ->
  exists v', vc_setitem K v (STuple [IInt n; IInt m]) (VList [a; b]) = (v', Ok tt) /\ vc_wf v' /\
    vc_nmax K v' = vc_nmax K v /\ vc_mmax K v' = vc_mmax K v /\
    forall n' m', is_mode (vc_nmax K v) (vc_mmax K v) n' m' ->
      cval (vc_1 K v') n' m' = (if (n' =? n) && (m' =? m) then a else cval (vc_1 K v) n' m') /\
      cval (vc_2 K v') n' m' = (if (n' =? n) && (m' =? m) then b else cval (vc_2 K v) n' m').
Proof.
  intros (W1 & W2 & A1 & A2 & A3 & A4 & R1 & R2) Hn Hm.
  cbn [vc_setitem vc_pair]. destruct (Z.eqb_spec n 0); [lia|].
  destruct (sc_set_elem_ok K (vc_1 K v) n m a W1) as (s1 & E1 & X1 & X2 & X3 & X4); [now rewrite A1, A2|].
  destruct (sc_set_elem_ok K (vc_2 K v) n m b W2) as (s2 & E2 & Y1 & Y2 & Y3 & Y4); [now rewrite A3, A4|].
  cbn [sc_setitem]. rewrite E1, E2. cbn [lift_res].
  eexists; split; [reflexivity|]. cbn [vc_nmax vc_mmax vc_1 vc_2].
  rewrite A1, A2 in X4. rewrite A3, A4 in Y4.
  split.
  - unfold vc_wf; cbn [vc_1 vc_2 vc_nmax vc_mmax]. 
    assert (M0 : is_mode (vc_nmax K v) (vc_mmax K v) 0 0)
      by (apply mode00; rewrite <- A1, <- A2; apply W1).
    rewrite X4, Y4 by auto. replace ((0 =? n) && (0 =? m)) with false by lia.
    split; [auto|]. split; [auto|]. repeat (split; [congruence|]). congruence.
  - split; [auto|]. split; [auto|]. intros n' m' Hm'. split; auto.
Qed.

(** Every other assignment through vc[...] raises and changes nothing. *)
Lemma vc_set_raise v arg val : vc_wf v ->
  (forall n m a b, arg = STuple [IInt n; IInt m] -> val = VList [a; b] ->
     n <> 0 -> is_mode (vc_nmax K v) (vc_mmax K v) n m -> False) ->
  exists e, vc_setitem K v arg val = (v, Raise e).
Proof.
  intros (W1 & W2 & A1 & A2 & A3 & A4 & R1 & R2) H.
  destruct arg as [l|]; [|cbn; eauto].
  destruct l as [|i0 [|i1 [|i2 l]]]; try (cbn; eauto; fail).
  cbn [vc_setitem]. destruct val as [x|[|a [|b [|c l]]]|l|]; cbn [vc_pair]; eauto.
  destruct i0 as [n| |]; destruct i1 as [m| |]; eauto.
  2:{ destruct (n =? 0); eauto. }
  destruct (Z.eqb_spec n 0); eauto.
  cbn [sc_setitem].
  destruct (sc_set_elem_raise K (vc_1 K v) n m a) as (msg & E).
  { rewrite A1, A2. intros Hm. eapply H; eauto. }
  rewrite E; cbn [lift_res]. destruct v; eauto.
Qed.

Lemma vc_set_wf v arg val : vc_wf v -> vc_wf (fst (vc_setitem K v arg val)).
Proof.
  intros Hw.
  assert (D : (exists n m a b, arg = STuple [IInt n; IInt m] /\ val = VList [a; b] /\ n <> 0 /\
       is_mode (vc_nmax K v) (vc_mmax K v) n m) \/
     (forall n m a b, arg = STuple [IInt n; IInt m] -> val = VList [a; b] ->
     n <> 0 -> is_mode (vc_nmax K v) (vc_mmax K v) n m -> False)).
  { destruct arg as [[|[n| |] [|[m| |] [|]]]|];
      try (right; intros; discriminate).
    destruct val as [|[|a [|b [|]]]| |]; try (right; intros; discriminate).
    destruct (Z.eq_dec n 0); [right; intros ? ? ? ? E; inversion E; lia|].
    destruct (is_modeb (vc_nmax K v) (vc_mmax K v) n m) eqn:E.
    - left. exists n, m, a, b. apply is_modeb_spec in E. auto.
    - right. intros n' m' a' b' E1 E2 _ Hm. inversion E1; subst. apply is_modeb_spec in Hm. congruence. }
  destruct D as [(n & m & a & b & -> & -> & Hn & Hm)|H].
  - destruct (vc_set_ok v n m a b Hw Hn Hm) as (v' & -> & W & _). exact W.
  - destruct (vc_set_raise v arg val Hw H) as (e & ->). exact Hw.
Qed.

Lemma vc_copy_ok v : vc_wf v -> vc_copy K v = Ok v.
Proof.
  intros Hw. pose proof Hw as (W1 & W2 & A1 & A2 & A3 & A4 & R1 & R2). unfold vc_copy.
  destruct (vc_new_ok (sc_vec K (vc_1 K v)) (sc_vec K (vc_2 K v)) (vc_nmax K v) (vc_mmax K v))
    as (c & E & W & N1 & N2 & HV).
  - rewrite <- A1, <- A2; apply W1.
  - rewrite <- A1, <- A2; apply W1.
  - rewrite <- A3, <- A4; apply W2.
  - rewrite E. f_equal. destruct W as (X1 & X2 & B1 & B2 & B3 & B4 & _).
    assert (Hsame1 : mkSC K (sc_vec K (vc_1 K v)) (vc_nmax K v) (vc_mmax K v) = vc_1 K v).
    { rewrite <- A1, <- A2. destruct (vc_1 K v); auto. }
    assert (Hsame2 : mkSC K (sc_vec K (vc_2 K v)) (vc_nmax K v) (vc_mmax K v) = vc_2 K v).
    { rewrite <- A3, <- A4. destruct (vc_2 K v); auto. }
    rewrite Hsame1, Hsame2 in HV.
    assert (E1 : vc_1 K c = vc_1 K v).
    { apply sc_ext; auto; try congruence. intros n m Hm. 
      rewrite B1, B2, N1, N2 in Hm. destruct (HV n m Hm) as [-> _].
      destruct (Z.eqb_spec n 0); auto. subst. unfold is_mode in Hm. assert (m = 0) by lia; subst; auto. }
    assert (E2 : vc_2 K c = vc_2 K v).
    { apply sc_ext; auto; try congruence. intros n m Hm. 
      rewrite B3, B4, N1, N2 in Hm. destruct (HV n m Hm) as [_ ->].
      destruct (Z.eqb_spec n 0); auto. subst. unfold is_mode in Hm. assert (m = 0) by lia; subst; auto. }
    destruct c, v; cbn in *; congruence.
Qed.

Lemma vc_trunc_ok v k : vc_wf v -> 0 <= k <= vc_nmax K v ->
  exists t, vc_getitem K v (STuple [ISlice (Some 0) (Some k) None; IAll]) = Ok (VItCoefs K t) /\
    vc_wf t /\ vc_nmax K t = k /\ vc_mmax K t = Z.min k (vc_mmax K v) /\
    forall n m, is_mode k (Z.min k (vc_mmax K v)) n m ->
      cval (vc_1 K t) n m = cval (vc_1 K v) n m /\ cval (vc_2 K t) n m = cval (vc_2 K v) n m.
Proof.
  intros Hw Hk. pose proof Hw as (W1 & W2 & A1 & A2 & A3 & A4 & R1 & R2).
  cbn [vc_getitem]. unfold IAll. destruct (Z.gtb_spec k (vc_nmax K v)); [lia|].
  destruct (sc_trunc_ok K (vc_1 K v) k W1) as (t1 & -> & T1 & T2 & T3 & T4); [lia|].
  destruct (sc_trunc_ok K (vc_2 K v) k W2) as (t2 & -> & U1 & U2 & U3 & U4); [lia|]. cbn [bind].
  replace (if k >? vc_mmax K v then vc_mmax K v else k) with (Z.min k (vc_mmax K v))
    by (destruct (Z.gtb_spec k (vc_mmax K v)); lia).
  rewrite A2 in *. rewrite A4 in *.
  pose proof T1 as [Gt Lt]; pose proof U1 as [Gu Lu]. rewrite T2, T3 in Gt, Lt. rewrite U2, U3 in Gu, Lu.
  destruct (vc_new_ok (sc_vec K t1) (sc_vec K t2) k (Z.min k (vc_mmax K v))) as (t & E & W & N1 & N2 & HV); auto.
  - rewrite E. cbn [bind]. exists t. split; [reflexivity|]. do 3 (split; [assumption|]).
    intros n m Hm. destruct (HV n m Hm) as [E1 E2]. rewrite E1, E2.
    assert (Hs1 : mkSC K (sc_vec K t1) k (Z.min k (vc_mmax K v)) = t1) by (rewrite <- T3; destruct t1; cbn in *; congruence).
    assert (Hs2 : mkSC K (sc_vec K t2) k (Z.min k (vc_mmax K v)) = t2) by (rewrite <- U3; destruct t2; cbn in *; congruence).
    rewrite Hs1, Hs2, T4, U4 by auto. unfold is_mode in Hm.
    destruct (Z.eqb_spec n 0); auto. subst. assert (m = 0) by lia; subst; auto.
Qed.

Lemma vc_trunc_raise v k : vc_nmax K v < k ->
  vc_getitem K v (STuple [ISlice (Some 0) (Some k) None; IAll]) = Raise (AttributeError "n_out_bound").
Proof. intros H; cbn [vc_getitem]; unfold IAll. destruct (Z.gtb_spec k (vc_nmax K v)); [auto|lia]. Qed.

Lemma vc_op_left_new o c b c' : vc_op_left K o c b = Ok c' ->
  exists v1 v2, vc_new K v1 v2 (vc_nmax K c) (vc_mmax K c) = Ok c'.
Proof.
  unfold vc_op_left. destruct b as [d|x|]; [| |discriminate].
  - rewrite Z.eqb_refl. intros H; apply bind_ok in H; destruct H as (v & _ & H).
    apply bind_ok in H; destruct H as (v' & _ & H); eauto.
  - destruct o; eauto. destruct (ceqb _ _ _); [discriminate|eauto].
Qed.

Lemma coefs_factory_ok f1 f2 nmax mmax t : 0 <= mmax -> mmax <= nmax -> t = 0 \/ t = 1 ->
  coefs_factory K f1 f2 nmax mmax t =
  if t =? 0 then (c <- sc_new K (vmake (ncoef nmax mmax) f1) nmax mmax ;; Ok (AnyS K c))
  else (c <- vc_new K (vset (vmake (ncoef nmax mmax) f1) 0 (c0 K)) (vset (vmake (ncoef nmax mmax) f2) 0 (c0 K)) nmax mmax ;; Ok (AnyV K c)).
Proof.
  intros H0 Hm Ht. unfold coefs_factory.
  destruct (Z.gtb_spec mmax nmax); [lia|].
  assert (Hn : 1 <= ncoef nmax mmax).
  { pose proof (pos_range nmax mmax 0 0 ltac:(unfold good_size; lia) ltac:(apply mode00; unfold good_size; lia)). lia. }
  assert (Hf : forall f, np_fill K (fac_len nmax mmax) f = Ok (vmake (ncoef nmax mmax) f)).
  { intros f. unfold np_fill. replace (fac_len nmax mmax) with (ncoef nmax mmax) by (unfold fac_len, ncoef; lia).
    destruct (Z.ltb_spec (ncoef nmax mmax) 0); [lia|auto]. }
  rewrite !Hf. destruct Ht as [-> | ->]; cbn [Z.eqb bind]; auto.
  rewrite !py_set_ok by (rewrite zlen_vmake; lia). reflexivity.
Qed.

Lemma vc_reach_wf c : vc_reach K c -> vc_wf c.
Proof.
  induction 1 as [v1 v2 nmax mmax c Hm E|f1 f2 nmax mmax t c Hm E|c arg val Hr IH|c c' Hr IH E|c k c' Hr IH Hk E|c o b c' Hr IH E|c o b c' Hr IH E].
  - eapply vc_new_wf; eauto.
  - unfold coefs_factory in E. destruct (mmax >? nmax); [discriminate|].
    destruct (t =? 0).
    { apply bind_ok in E; destruct E as (? & _ & E). apply bind_ok in E; destruct E as (? & _ & E). discriminate. }
    destruct (t =? 1); [|discriminate].
    repeat (apply bind_ok in E; destruct E as (? & ? & E)).
    apply Ok_inj in E. inversion E; subst. eapply vc_new_wf; eauto.
  - now apply vc_set_wf.
  - rewrite vc_copy_ok in E by auto. apply Ok_inj in E; subst; auto.
  - destruct (Z.le_gt_cases k (vc_nmax K c)).
    + destruct (vc_trunc_ok c k IH) as (t & E' & W & _); [lia|]. rewrite E in E'.
      apply Ok_inj in E'. inversion E'; subst; auto.
    + rewrite vc_trunc_raise in E by lia. discriminate.
  - apply vc_op_left_new in E. destruct E as (v1 & v2 & E). eapply vc_new_wf; eauto.
    destruct IH as ([Hg _] & _ & _ & A & _). rewrite <- A. apply Hg.
  - unfold vc_op_right in E. destruct b; try discriminate. eapply vc_new_wf; eauto.
    destruct IH as ([Hg _] & _ & _ & A & _). rewrite <- A. apply Hg.
Qed.

(** Mode-wise effect of the constructor applied to a combined vector. *)
Lemma vc_op_VC o a b : vc_wf a -> vc_wf b -> vc_nmax K a = vc_nmax K b -> vc_mmax K a = vc_mmax K b ->
  exists r, vc_op_left K o a (VOpndVC K b) = Ok r /\ vc_wf r /\ vc_nmax K r = vc_nmax K a /\
    vc_mmax K r = vc_mmax K a /\
    forall n m, is_mode (vc_nmax K a) (vc_mmax K a) n m -> n <> 0 ->
      cval (vc_1 K r) n m = binop_fun K o (cval (vc_1 K a) n m) (cval (vc_1 K b) n m) /\
      cval (vc_2 K r) n m = binop_fun K o (cval (vc_2 K a) n m) (cval (vc_2 K b) n m).
Proof.
  intros (W1 & W2 & A1 & A2 & A3 & A4 & _) (V1 & V2 & B1 & B2 & B3 & B4 & _) E1 E2.
  unfold vc_op_left. rewrite Z.eqb_refl.
  assert (L1 : zlen (sc_vec K (vc_1 K a)) = zlen (sc_vec K (vc_1 K b))).
  { destruct W1 as [_ ->], V1 as [_ ->]; congruence. }
  assert (L2 : zlen (sc_vec K (vc_2 K a)) = zlen (sc_vec K (vc_2 K b))).
  { destruct W2 as [_ ->], V2 as [_ ->]; congruence. }
  rewrite !np_broadcast_eq by auto. cbn [bind].
  destruct (vc_new_ok (zip_with (binop_fun K o) (sc_vec K (vc_1 K a)) (sc_vec K (vc_1 K b)))
     (zip_with (binop_fun K o) (sc_vec K (vc_2 K a)) (sc_vec K (vc_2 K b))) (vc_nmax K a) (vc_mmax K a))
     as (r & E & W & N1 & N2 & HV).
  - rewrite <- A1, <- A2; apply W1.
  - rewrite zlen_zip_with by auto. rewrite <- A1, <- A2; apply W1.
  - rewrite zlen_zip_with by auto. rewrite <- A3, <- A4; apply W2.
  - exists r. do 4 (split; [assumption|]). intros n m Hm Hn.
    destruct (HV n m Hm) as [X Y]. rewrite X, Y.
    destruct (Z.eqb_spec n 0); [lia|].
    split.
    + rewrite <- A1 at 1. rewrite <- A2 at 1. apply cval_zip; auto; congruence.
    + rewrite <- A3 at 1. rewrite <- A4 at 1. apply cval_zip; auto; congruence.
Qed.

Lemma vc_op_map a (f : C -> C) : vc_wf a ->
  exists r, vc_new K (map f (sc_vec K (vc_1 K a))) (map f (sc_vec K (vc_2 K a))) (vc_nmax K a) (vc_mmax K a) = Ok r /\
    vc_wf r /\ vc_nmax K r = vc_nmax K a /\ vc_mmax K r = vc_mmax K a /\
    forall n m, is_mode (vc_nmax K a) (vc_mmax K a) n m -> n <> 0 ->
      cval (vc_1 K r) n m = f (cval (vc_1 K a) n m) /\ cval (vc_2 K r) n m = f (cval (vc_2 K a) n m).
Proof.
  intros (W1 & W2 & A1 & A2 & A3 & A4 & _).
  destruct (vc_new_ok (map f (sc_vec K (vc_1 K a))) (map f (sc_vec K (vc_2 K a))) (vc_nmax K a) (vc_mmax K a))
     as (r & E & W & N1 & N2 & HV).
  - rewrite <- A1, <- A2; apply W1.
  - rewrite zlen_map by auto. rewrite <- A1, <- A2; apply W1.
  - rewrite zlen_map by auto. rewrite <- A3, <- A4; apply W2.
  - exists r. do 4 (split; [assumption|]). intros n m Hm Hn.
    destruct (HV n m Hm) as [X Y]. rewrite X, Y. destruct (Z.eqb_spec n 0); [lia|]. split.
    + rewrite <- A1 at 1. rewrite <- A2 at 1. apply cval_map; auto; congruence.
    + rewrite <- A3 at 1. rewrite <- A4 at 1. apply cval_map; auto; congruence.
Qed.

(** Operands of different sizes. *)
Lemma vc_op_mismatch o a b : vc_wf a -> vc_wf b ->
  zlen (sc_vec K (vc_1 K a)) <> zlen (sc_vec K (vc_1 K b)) ->
  (zlen (sc_vec K (vc_1 K b)) <> 1 -> exists e, vc_op_left K o a (VOpndVC K b) = Raise e) /\
  (zlen (sc_vec K (vc_1 K b)) = 1 ->
    exists r, vc_op_left K o a (VOpndVC K b) = Ok r /\ vc_wf r /\ vc_nmax K r = vc_nmax K a /\
    vc_mmax K r = vc_mmax K a /\
    forall n m, is_mode (vc_nmax K a) (vc_mmax K a) n m -> n <> 0 ->
      cval (vc_1 K r) n m = binop_fun K o (cval (vc_1 K a) n m) (c0 K) /\
      cval (vc_2 K r) n m = binop_fun K o (cval (vc_2 K a) n m) (c0 K)).
Proof.
  intros Ha Hb Hne. pose proof Ha as (W1 & W2 & A1 & A2 & A3 & A4 & _).
  pose proof Hb as (V1 & V2 & B1 & B2 & B3 & B4 & Z1 & Z2).
  assert (La : zlen (sc_vec K (vc_2 K a)) = zlen (sc_vec K (vc_1 K a))).
  { destruct W1 as [_ ->], W2 as [_ ->]; congruence. }
  assert (Lb : zlen (sc_vec K (vc_2 K b)) = zlen (sc_vec K (vc_1 K b))).
  { destruct V1 as [_ ->], V2 as [_ ->]; congruence. }
  unfold vc_op_left. rewrite Z.eqb_refl. split; intros H1.
  - destruct (Z.eq_dec (zlen (sc_vec K (vc_1 K a))) 1) as [Ea|Ea].
    + unfold np_broadcast.
      assert (Hn1 : ncoef (vc_nmax K a) (vc_mmax K a) = 1) by (destruct W1 as [_ W1]; rewrite A1, A2 in W1; lia).
      destruct (Z.eqb_spec (zlen (sc_vec K (vc_1 K a))) (zlen (sc_vec K (vc_1 K b)))); [lia|].
      destruct (Z.eqb_spec (zlen (sc_vec K (vc_2 K a))) (zlen (sc_vec K (vc_2 K b)))); [lia|].
      destruct (sc_vec K (vc_1 K a)) as [|x [|x' l]];
        [unfold zlen in Ea; cbn in Ea; lia| |unfold zlen in Ea; cbn [List.length] in Ea; lia].
      rewrite Ea in La.
      destruct (sc_vec K (vc_2 K a)) as [|y [|y' l]];
        [unfold zlen in La; cbn in La; lia| |unfold zlen in La; cbn [List.length] in La; lia].
      cbn [bind]. unfold vc_new. rewrite !zlen_map, Lb, Z.eqb_refl. cbn [negb].
      destruct (Z.gtb_spec (vc_mmax K a) (vc_nmax K a)); [eauto|].
      destruct (Z.eqb_spec (ncoef (vc_nmax K a) (vc_mmax K a)) (zlen (sc_vec K (vc_1 K b)))); [lia|]. cbn; eauto.
    + rewrite np_broadcast_raise by lia. cbn; eauto.
  - destruct (Z.eq_dec (zlen (sc_vec K (vc_1 K a))) 1) as [Ea|Ea]; [lia|].
    assert (Hb0 : forall c, sc_wf c -> zlen (sc_vec K c) = 1 -> cval c 0 0 = c0 K -> sc_vec K c = [c0 K]).
    { intros c [Hg Hl] Hc Hz. unfold CoefsFacts.cval in Hz. change (pos (sc_nmax K c) 0 0) with 0 in Hz.
      destruct (sc_vec K c) as [|x [|]];
       [unfold zlen in Hc; cbn in Hc; lia| |unfold zlen in Hc; cbn [List.length] in Hc; lia].
      cbn in Hz. congruence. }
    rewrite (Hb0 (vc_1 K b)), (Hb0 (vc_2 K b)) by (auto; lia).
    assert (HB : forall u, zlen u <> 1 -> np_broadcast (binop_fun K o) u [c0 K] = Ok (map (fun x => binop_fun K o x (c0 K)) u)).
    { intros u Hu. unfold np_broadcast. change (zlen [c0 K]) with 1. destruct (Z.eqb_spec (zlen u) 1); [lia|].
      destruct u as [|? [|]]; auto; unfold zlen in Hu; cbn in Hu; lia. }
    rewrite !HB by lia. cbn [bind].
    exact (vc_op_map a (fun x => binop_fun K o x (c0 K)) Ha).
Qed.

(** ** pretty_coefs *)
Lemma pretty_cells_ok {S} (tiny : C -> S) empty center c : sc_wf c -> 2 <= sc_nmax K c ->
  exists cells, pretty_cells K tiny empty center c = Ok cells /\ zlen cells = 9 /\
    forall n m k, pretty_slot n m = Some k ->
      vget empty cells k = center (if is_modeb (sc_nmax K c) (sc_mmax K c) n m
                                   then tiny (cval c n m) else empty).
Proof.
  intros Hw Hn. unfold pretty_cells.
  destruct (sc_trunc_ok K c 2 Hw) as (t & -> & Wt & N1 & N2 & HV); [lia|]. cbn [bind].
  destruct Wt as [Gt Lt]. rewrite N1, N2 in *.
  assert (Lt9 : zlen (sc_vec K t) <= 9).
  { rewrite Lt. unfold ncoef. pose proof (proj1 Hw). unfold good_size in *.
    assert (Z.min 2 (sc_mmax K c) = 0 \/ Z.min 2 (sc_mmax K c) = 1 \/ Z.min 2 (sc_mmax K c) = 2) as [->|[-> | ->]] by lia; lia. }
  set (sa := map tiny (sc_vec K t) ++ repeat empty (9 - List.length (map tiny (sc_vec K t)))).
  assert (Lsa : zlen sa = 9).
  { unfold sa, zlen in *. rewrite app_length, repeat_length, map_length. lia. }
  assert (Hget : forall i, vget empty sa i = if (0 <=? i) && (i <? zlen (sc_vec K t)) then tiny (vget (c0 K) (sc_vec K t) i) else empty).
  { intros i. unfold sa. destruct (Z.ltb_spec i 0); [unfold vget; destruct (Z.ltb_spec i 0); [|lia]; replace ((0 <=? i) && _) with false by lia; auto|].
    rewrite vget_app by lia. rewrite zlen_map.
    destruct (Z.ltb_spec i (zlen (sc_vec K t))).
    - replace ((0 <=? i) && true) with true by lia. rewrite (vget_map tiny (c0 K)) by lia. auto.
    - rewrite Bool.andb_false_r. unfold vget. destruct (Z.ltb_spec (i - zlen (sc_vec K t)) 0); auto.
      apply nth_repeat. }
  erewrite mmap_ok.
  2:{ intros i Hi; apply In_zrange in Hi. rewrite py_get_ok by lia. cbn [bind]. reflexivity. }
  eexists; split; [reflexivity|]. split; [rewrite zlen_map, zlen_zrange; lia|].
  intros n m k Hk.
  assert (Hcell : 0 <= k < 9 -> vget empty (map (fun i => center (vget empty sa i)) (zrange 0 9)) k = center (vget empty sa k)).
  { intros H. rewrite (vget_map (fun i => center (vget empty sa i)) 0) by (rewrite zlen_zrange; lia).
    rewrite vget_zrange by lia. reflexivity. }
  assert (Hslot : 0 <= k < 9 /\ k = pos 2 n m /\ 0 <= n <= 2 /\ Z.abs m <= n).
  { unfold pretty_slot in Hk.
    destruct n as [|[[]|[]|]|]; try discriminate; destruct m as [|[[]|[]|]|[[]|[]|]]; try discriminate;
    inversion Hk; subst; cbv; repeat split; congruence. }
  destruct Hslot as (H9 & Hp & Hn2 & Hmn). rewrite Hcell by auto. f_equal. rewrite Hget.
  destruct (is_modeb (sc_nmax K c) (sc_mmax K c) n m) eqn:E.
  - apply is_modeb_spec in E.
    assert (Hm : is_mode 2 (Z.min 2 (sc_mmax K c)) n m) by (unfold is_mode in *; lia).
    pose proof (pos_range _ _ _ _ Gt Hm). rewrite Hp.
    replace ((0 <=? pos 2 n m) && _) with true by lia.
    f_equal. rewrite <- HV by auto. unfold CoefsFacts.cval. rewrite N1. auto.
  - assert (Hm : ~ is_mode (sc_nmax K c) (sc_mmax K c) n m) by (intros H; apply is_modeb_spec in H; congruence).
    assert (sc_mmax K c < Z.abs m) by (unfold is_mode in Hm; lia).
    assert (ncoef 2 (Z.min 2 (sc_mmax K c)) <= k).
    { rewrite Hp. pose proof (proj1 Hw). unfold good_size in *.
      replace (Z.min 2 (sc_mmax K c)) with (sc_mmax K c) by lia.
      assert (Hc : (sc_mmax K c = 0 /\ (m = 1 \/ m = -1 \/ m = 2 \/ m = -2)) \/ (sc_mmax K c = 1 /\ (m = 2 \/ m = -2))) by lia.
      assert (Hn3 : n = 1 \/ n = 2) by lia.
      destruct Hc as [[-> [->|[->|[->| ->]]]]|[-> [->| ->]]]; destruct Hn3 as [->| ->]; try lia; cbv; congruence. }
    replace ((0 <=? k) && _) with false by lia. auto.
Qed.

Lemma pretty_cells_raise {S} (tiny : C -> S) empty center c : sc_nmax K c < 2 ->
  pretty_cells K tiny empty center c = Raise (AttributeError "n_out_bound").
Proof. intros H; unfold pretty_cells. rewrite sc_trunc_raise by lia. reflexivity. Qed.

End F3.
