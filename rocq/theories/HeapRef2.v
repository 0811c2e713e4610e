(** * HeapRef2: operators, VectorCoefs, factories and patterns of MHeap.v
    compute the values of MCoefs.v and MPatt.v. *)
From Coq Require Import ZArith List String Bool Reals Lia.
From Coquelicot Require Import Complex.
From Verif Require Import Py PyFacts Num Exact MCoefs CoefsFacts CoefsFacts2 MPatt Sums MPysphi MOps MTrans MHeap SpecHeap HeapFacts HeapFacts2 HeapFacts3 HeapRef.
Import ListNotations.
Open Scope list_scope.
Open Scope Z_scope.

Lemma rel_new_end B h v (r : res B) (Q : arr -> B -> heap -> Prop) :
  (forall a h', post (List.length h) [] h h' -> fresh_arr (List.length h) a h' -> rd h' a = v -> a_len a = zlen v ->
     rel h' (hret a) r Q) ->
  rel h (np_new v) r Q.
Proof.
  intro H. pose proof (rel_new _ _ h v hret r Q H) as R. unfold rel, hbind in *.
  destruct (np_new v h) as [[a|e] h']; exact R.
Qed.

Lemma rel_copy A B h a (f : arr -> hm A) (r : res B) Q :
  rel h (hbind (np_new (rd h a)) f) r Q -> rel h (hbind (np_copy a) f) r Q.
Proof. intro H. exact H. Qed.
Lemma rel_lift_ok A B h (r0 : res B) (f : B -> hm A) (Q : A -> B -> heap -> Prop) :
  (forall x, r0 = Ok x -> rel h (f x) (Ok x) Q) -> rel h (hbind (hlift r0) f) r0 Q.
Proof. unfold rel, hbind, hlift. intro H. destruct r0; [apply H; reflexivity|reflexivity]. Qed.
(** ScalarCoefs built on a new array *)
Lemma rel_new_sc h v n m :
  rel h (hbind (np_new v) (fun vec => h_sc_new vec n m)) (sc_new RN v n m) (fun d w h' => scv h' d = w).
Proof.
  apply rel_new. intros a h' P F E L. rewrite <- E. eapply rel_conseq.
  - apply rel_sc_new. rewrite L. apply zlen_nonneg.
  - cbn beta. intros ? ? ? [_ [_ H]]. exact H.
Qed.

Definition opnd_val (h : heap) (b : hopnd) : sc_operand RN :=
  match b with HoSC c => OpndSC RN (scv h c) | HoNum x => OpndNum RN x | HoOther => OpndOther RN end.
Definition opnd_ok (h : heap) (b : hopnd) : Prop := match b with HoSC c => ok_arr h (hs_arr c) | _ => True end.
Lemma rel_sc_op_left h o c b : ok_arr h (hs_arr c) -> opnd_ok h b ->
  rel h (h_sc_op_left o c b) (sc_op_left RN o (scv h c) (opnd_val h b)) (fun d w h' => scv h' d = w).
Proof.
  intros O Ob. unfold h_sc_op_left, sc_op_left. apply rel_read. destruct b as [c'|x|]; cbn [opnd_val].
  - cbn [scv sc_vec sc_nmax sc_mmax]. change (@zlen (cplx RN)) with (@zlen C). rewrite (zlen_rd_ok h h _ O), (zlen_rd_ok h h _ Ob).
    destruct (_ =? _); [|apply rel_raise]. apply rel_read. apply rel_lift. intros w _. apply rel_new_sc.
  - cbn [scv sc_vec sc_nmax sc_mmax]. destruct o; try apply rel_new_sc.
    destruct (ceqb RN x (c0 RN)); [|apply rel_new_sc].
    destruct (_ >? _); apply rel_raise.
  - apply rel_raise.
Qed.
Lemma rel_sc_op_right h o c b :
  rel h (h_sc_op_right o c b) (sc_op_right RN o (scv h c) (opnd_val h b)) (fun d w h' => scv h' d = w).
Proof.
  unfold h_sc_op_right, sc_op_right. destruct b as [c'|x|]; cbn [opnd_val]; try apply rel_raise.
  apply rel_read. apply rel_new_sc.
Qed.

(** ** VectorCoefs *)
Lemma rel_vc_new h a b n m : ok_arr h a -> ok_arr h b -> a_loc a <> a_loc b ->
  rel h (h_vc_new a b n m) (vc_new RN (rd h a) (rd h b) n m)
    (fun c v h' => vcv h' c = v /\ c = mkHVC (mkHSC a n m) (mkHSC b n m) n m).
Proof.
  intros Oa Ob Hne. unfold h_vc_new, vc_new. change (@zlen (cplx RN)) with (@zlen C). rewrite (zlen_rd_ok h h a Oa), (zlen_rd_ok h h b Ob).
  destruct (negb (a_len a =? a_len b)); [apply rel_raise|]. destruct (m >? n); [apply rel_raise|].
  destruct (negb (ncoef n m =? a_len a)); [apply rel_raise|].
  eapply rel_bind; [apply (rel_aset' h a 0 (RtoC 0) b); auto|]. cbn beta.
  intros _ v1 h1 [E1 [K1 [Oa1 Ob1]]]. rewrite <- K1.
  eapply rel_bind; [apply (rel_aset' h1 b 0 (RtoC 0) a); auto|]. cbn beta.
  intros _ v2 h2 [E2 [K2 [Ob2 Oa2]]]. rewrite <- E1, <- K2, <- E2.
  eapply rel_bind; [apply rel_sc_new; apply Oa|]. cbn beta. intros s1 w1 h3 [-> [-> W1]].
  eapply rel_bind; [apply rel_sc_new; apply Ob|]. cbn beta. intros s2 w2 h4 [-> [-> W2]].
  apply rel_ret. split; [|reflexivity]. unfold vcv. cbn [hv_1 hv_2 hv_nmax hv_mmax]. rewrite W1, W2. reflexivity.
Qed.
(** VectorCoefs built on two new arrays *)
Lemma rel_new_vc h v1 v2 n m :
  rel h (hbind (np_new v1) (fun a => hbind (np_new v2) (fun b => h_vc_new a b n m))) (vc_new RN v1 v2 n m)
    (fun c w h' => vcv h' c = w).
Proof.
  apply rel_new. intros a h1 P1 F1 E1 _. apply rel_new. intros b h2 P2 F2 E2 _.
  destruct F1 as [F1 O1], F2 as [F2 O2].
  assert (K : rd h2 a = v1) by (rewrite <- E1; eapply rd_keep; [exact P2|apply O1|intros []]).
  rewrite <- K, <- E2. eapply rel_conseq.
  - apply rel_vc_new; [eapply ok_arr_mono; eauto|exact O2|]. destruct O1. lia.
  - cbn beta. intros ? ? ? [H _]. exact H.
Qed.
Definition ok_vc (h : heap) (c : hvc) : Prop := ok_arr h (hs_arr (hv_1 c)) /\ ok_arr h (hs_arr (hv_2 c)).
Lemma rel_vc_copy h c : ok_vc h c ->
  rel h (h_vc_copy c) (vc_copy RN (vcv h c)) (fun d w h' => vcv h' d = w).
Proof.
  intros [O1 O2]. unfold h_vc_copy, vc_copy. apply rel_copy.
  cbn [vcv vc_1 vc_2 vc_nmax vc_mmax scv sc_vec].
  apply rel_new. intros a h1 P1 [F1 Oa] E1 _. apply rel_copy.
  replace (rd h1 (hs_arr (hv_2 c))) with (rd h (hs_arr (hv_2 c))) by (symmetry; eapply rd_keep; [exact P1|apply O2|intros []]).
  apply rel_new. intros b h2 P2 [F2 Ob] E2 _.
  assert (K : rd h2 a = rd h (hs_arr (hv_1 c))) by (rewrite <- E1; eapply rd_keep; [exact P2|apply Oa|intros []]).
  rewrite <- K, <- E2. eapply rel_conseq.
  - apply rel_vc_new; [eapply ok_arr_mono; eauto|exact Ob|]. destruct Oa. lia.
  - cbn beta. intros ? ? ? [H _]. exact H.
Qed.
Definition vc_trunc_pure (c : vcoefs RN) (k : Z) : res (vcoefs RN) :=
  if k >? vc_nmax RN c then Raise (AttributeError "n_out_bound")
  else
    let new_mmax := if k >? vc_mmax RN c then vc_mmax RN c else k in
    t1 <- sc_trunc RN (vc_1 RN c) k ;;
    t2 <- sc_trunc RN (vc_2 RN c) k ;;
    vc_new RN (sc_vec RN t1) (sc_vec RN t2) k new_mmax.
Lemma rel_vc_trunc h c k : ok_vc h c ->
  rel h (h_vc_trunc c k) (vc_trunc_pure (vcv h c) k) (fun d w h' => vcv h' d = w).
Proof.
  intros [O1 O2]. unfold h_vc_trunc, vc_trunc_pure. cbn [vcv vc_1 vc_2 vc_nmax vc_mmax].
  destruct (k >? hv_nmax c); [apply rel_raise|]. cbv zeta.
  eapply rel_bind; [eapply (rel_spec _ _ (List.length h) []); [apply rel_trunc; exact O1|apply spec_trunc; apply le_n]|].
  cbn beta. intros t1 v1 h1 [E1 [[F1 Oa] P1]].
  assert (K1 : scv h1 (hv_2 c) = scv h (hv_2 c)) by (eapply scv_keep; [exact P1|apply O2|intros []]).
  rewrite <- K1.
  eapply rel_bind; [eapply (rel_spec _ _ (List.length h1) []); [apply rel_trunc; eapply ok_arr_mono; eauto|apply spec_trunc; apply le_n]|].
  cbn beta. intros t2 v2 h2 [E2 [[F2 Ob] P2]].
  assert (K2 : scv h2 t1 = scv h1 t1) by (eapply scv_keep; [exact P2|apply Oa|intros []]).
  rewrite <- E1, <- E2, <- K2. cbn [scv sc_vec]. eapply rel_conseq.
  - apply rel_vc_new; [eapply ok_arr_mono; eauto|exact Ob|]. destruct Oa. lia.
  - cbn beta. intros ? ? ? [H _]. exact H.
Qed.
Definition vopnd_val (h : heap) (b : hvopnd) : vc_operand RN :=
  match b with HoVC c => VOpndVC RN (vcv h c) | HoVNum x => VOpndNum RN x | HoVOther => VOpndOther RN end.
Definition vopnd_ok (h : heap) (b : hvopnd) : Prop := match b with HoVC c => ok_vc h c | _ => True end.
Lemma rel_vc_op_left h o c b : ok_vc h c -> vopnd_ok h b ->
  rel h (h_vc_op_left o c b) (vc_op_left RN o (vcv h c) (vopnd_val h b)) (fun d w h' => vcv h' d = w).
Proof.
  intros [O1 O2] Ob. unfold h_vc_op_left, vc_op_left. apply rel_read. apply rel_read.
  destruct b as [c'|x|]; cbn [vopnd_val].
  - destruct Ob as [Ob1 Ob2]. rewrite Z.eqb_refl. cbn [vcv vc_1 vc_2 scv sc_vec vc_nmax vc_mmax].
    apply rel_read. apply rel_lift. intros w1 _. apply rel_new. intros a h1 P1 [F1 Oa] E1 _.
    apply rel_read.
    replace (rd h1 (hs_arr (hv_2 c'))) with (rd h (hs_arr (hv_2 c'))) by (symmetry; eapply rd_keep; [exact P1|apply Ob2|intros []]).
    apply rel_lift. intros w2 _. apply rel_new. intros b h2 P2 [F2 Ob] E2 _.
    assert (K : rd h2 a = w1) by (rewrite <- E1; eapply rd_keep; [exact P2|apply Oa|intros []]).
    rewrite <- K, <- E2. eapply rel_conseq.
    + apply rel_vc_new; [eapply ok_arr_mono; eauto|exact Ob|]. destruct Oa. lia.
    + cbn beta. intros ? ? ? [H _]. exact H.
  - cbn [vcv vc_1 vc_2 scv sc_vec vc_nmax vc_mmax]. destruct o; try apply rel_new_vc.
    destruct (ceqb RN x (c0 RN)); [apply rel_raise|apply rel_new_vc].
  - apply rel_raise.
Qed.
Lemma rel_vc_op_right h o c b :
  rel h (h_vc_op_right o c b) (vc_op_right RN o (vcv h c) (vopnd_val h b)) (fun d w h' => vcv h' d = w).
Proof.
  unfold h_vc_op_right, vc_op_right. destruct b as [c'|x|]; cbn [vopnd_val]; try apply rel_raise.
  apply rel_read. apply rel_read. apply rel_new_vc.
Qed.
(** v[n, m] = (a, b), the two components being separate arrays *)
Lemma srel_vc_setitem h c arg v : ok_vc h c -> a_loc (hs_arr (hv_1 c)) <> a_loc (hs_arr (hv_2 c)) ->
  fst (h_vc_setitem c arg v h) = snd (vc_setitem RN (vcv h c) arg v) /\
  vcv (snd (h_vc_setitem c arg v h)) c = fst (vc_setitem RN (vcv h c) arg v).
Proof.
  intros [O1 O2] Hne. unfold h_vc_setitem, vc_setitem.
  destruct arg as [[|i0 [|i1 [|i2 l]]]|]; try (split; reflexivity).
  unfold hbind, hlift, h_try_index. destruct (vc_pair RN v) as [[a b]|e]; [|split; reflexivity]. cbn [fst snd].
  destruct i0 as [n|s0 s1 s2|], i1 as [m|t0 t1 t2|]; try (split; reflexivity).
  - destruct (n =? 0); [split; reflexivity|].
    cbn [sc_setitem]. change (vc_1 RN (vcv h c)) with (scv h (hv_1 c)). change (vc_2 RN (vcv h c)) with (scv h (hv_2 c)).
    change (vc_nmax RN (vcv h c)) with (hv_nmax c). change (vc_mmax RN (vcv h c)) with (hv_mmax c).
    destruct (srel_set_elem h (hv_1 c) n m a O1) as [R1 V1].
    destruct (spec_set_elem (List.length h) [a_loc (hs_arr (hv_1 c))] h (hv_1 c) n m a) as [P1 _]; [left; left; reflexivity|].
    destruct (h_sc_set_elem (hv_1 c) n m a h) as [r1 h1] eqn:E1; cbn [fst snd] in *.
    assert (K1 : scv h1 (hv_2 c) = scv h (hv_2 c)) by (eapply scv_keep; [exact P1|apply O2|intros [H|[]]; congruence]).
    destruct (lift_res (scv h (hv_1 c)) (sc_set_elem RN (scv h (hv_1 c)) n m a)) as [s1 q1]; cbn [fst snd] in *.
    subst q1 s1. destruct r1 as [[]|e].
    + assert (O2' : ok_arr h1 (hs_arr (hv_2 c))) by (eapply ok_arr_mono; eauto).
      destruct (srel_set_elem h1 (hv_2 c) n m b O2') as [R2 V2]. rewrite K1 in *.
      destruct (spec_set_elem (List.length h1) [a_loc (hs_arr (hv_2 c))] h1 (hv_2 c) n m b) as [P2 _]; [left; left; reflexivity|].
      destruct (h_sc_set_elem (hv_2 c) n m b h1) as [r2 h2]; cbn [fst snd] in *.
      assert (K2 : scv h2 (hv_1 c) = scv h1 (hv_1 c)).
      { eapply scv_keep; [exact P2| |intros [H|[]]; congruence]. destruct (ok_arr_mono _ _ _ _ _ P1 O1). assumption. }
      destruct (lift_res (scv h (hv_2 c)) (sc_set_elem RN (scv h (hv_2 c)) n m b)) as [s2 q2]; cbn [fst snd] in *.
      subst q2 s2. destruct r2 as [[]|[]]; cbn [fst snd]; (split; [reflexivity|]); unfold vcv; rewrite K2; reflexivity.
    + destruct e; cbn [fst snd]; (split; [reflexivity|]); unfold vcv; cbn [vc_2]; rewrite K1; reflexivity.
  - destruct (n =? 0); split; reflexivity.
Qed.

(** ** Factories *)
Definition any_val (h : heap) (x : hany) : anycoefs RN :=
  match x with HAnyS c => AnyS RN (scv h c) | HAnyV c => AnyV RN (vcv h c) end.
Lemma rel_coefs_factory h f1 f2 n m t :
  rel h (h_coefs_factory f1 f2 n m t) (coefs_factory RN f1 f2 n m t) (fun c w h' => any_val h' c = w).
Proof.
  unfold h_coefs_factory, coefs_factory. destruct (m >? n); [apply rel_raise|].
  destruct (t =? 0).
  - apply rel_lift. intros v _. apply rel_new. intros a h1 P1 [F1 Oa] E1 _. rewrite <- E1.
    eapply rel_bind; [apply rel_sc_new; apply Oa|]. cbn beta. intros c w h2 [_ [_ H]]. apply rel_ret. cbn. rewrite H. reflexivity.
  - destruct (t =? 1); [|apply rel_raise].
    apply rel_lift. intros v _. apply rel_new. intros a h1 P1 [F1 Oa] E1 _. rewrite <- E1.
    eapply rel_bind.
    { eapply (rel_spec _ _ (List.length h1) [a_loc a]); [apply rel_aset; exact Oa|]. apply spec_aset. left. left. reflexivity. }
    cbn beta. intros _ v1 h2 [E2 [_ P2]]. apply rel_lift. intros v' _. apply rel_new. intros b h3 P3 [F3 Ob] E3 _.
    rewrite <- E3. eapply rel_bind.
    { eapply (rel_spec _ _ (List.length h3) [a_loc b]); [apply rel_aset; exact Ob|]. apply spec_aset. left. left. reflexivity. }
    cbn beta. intros _ v2 h4 [E4 [_ P4]].
    pose proof (ok_arr_mono _ _ _ _ _ P2 Oa) as Oa2. pose proof (ok_arr_mono _ _ _ _ _ P3 Oa2) as Oa3.
    assert (Hne : a_loc a <> a_loc b) by (destruct Oa2; lia).
    assert (K : rd h4 a = v1).
    { rewrite <- E2. transitivity (rd h3 a).
      - eapply rd_keep; [exact P4|apply Oa3|]. intros [H|[]]. congruence.
      - eapply rd_keep; [exact P3|apply Oa2|]. intros []. }
    rewrite <- K, <- E4. eapply rel_bind.
    { apply rel_vc_new; [eapply ok_arr_mono; eauto|eapply ok_arr_mono; eauto|exact Hne]. }
    cbn beta. intros c w h5 [H _]. apply rel_ret. cbn. rewrite H. reflexivity.
Qed.

(** ** Patterns *)
Lemma rd2_wf h b : ok_arr2 h b -> mat_wf RN (rd2 h b).
Proof. intros [_ [_ [A [B _]]]]. unfold mat_wf, rd2. cbn [mt_nr mt_nc mt_dat]. change (@zlen (cplx RN)) with (@zlen C). rewrite zlen_vmake. nia. Qed.
Lemma rel_new2 A B h m (f : arr2 -> hm A) (r : res B) Q : mat_wf RN m ->
  (forall b h', post (List.length h) [] h h' -> fresh_arr2 (List.length h) b h' -> rd2 h' b = m ->
     b_nr b = mt_nr RN m -> b_nc b = mt_nc RN m -> rel h' (f b) r Q) ->
  rel h (hbind (np_new2 m) f) r Q.
Proof.
  intros [W1 [W2 W3]] H. destruct (spec_np_new2 (List.length h) [] h m (le_n _)) as [HP HQ].
  unfold rel, hbind. destruct (np_new2 m h) as [[b|e] h'] eqn:E.
  - cbn [fst snd] in *. destruct (HQ b eq_refl) as [F [E1 E2]]. apply H; auto; try lia.
    unfold np_new2, halloc, hbind, hret in E. injection E as <- <-. unfold rd2. cbn [b_loc b_off b_nr b_nc].
    rewrite buf_new. rewrite !Z.max_r by lia. destruct m as [nr nc d]. cbn [mt_nr mt_nc mt_dat] in *. f_equal.
    apply (vget_ext (RtoC 0)).
    + change (@zlen (cplx RN)) with (@zlen C) in *. rewrite zlen_vmake. nia.
    + intros i Hi. change (@zlen (cplx RN)) with (@zlen C) in *. rewrite zlen_vmake in Hi. rewrite vget_vmake by lia.
      cbn [Z.add]. rewrite vget_vmake by lia. reflexivity.
  - unfold np_new2, halloc, hbind, hret in E. discriminate.
Qed.
Lemma rel_new2_end B h m (r : res B) (Q : arr2 -> B -> heap -> Prop) : mat_wf RN m ->
  (forall b h', post (List.length h) [] h h' -> fresh_arr2 (List.length h) b h' -> rd2 h' b = m ->
     b_nr b = mt_nr RN m -> b_nc b = mt_nc RN m -> rel h' (hret b) r Q) ->
  rel h (np_new2 m) r Q.
Proof.
  intros W H. pose proof (rel_new2 _ _ h m hret r Q W H) as R. unfold rel, hbind in *.
  destruct (np_new2 m h) as [[a|e] h']; exact R.
Qed.
Lemma mmake_wf' nr nc f : 0 <= nr -> 0 <= nc -> mat_wf RN (mmake RN nr nc f).
Proof. apply mmake_wf. Qed.
Lemma continue_wf a sym d : mat_wf RN a -> continue_sphere RN a sym = Ok d -> mat_wf RN d.
Proof.
  intros [W1 [W2 _]]. unfold continue_sphere. destruct (Z.ltb_spec (mt_nr RN a - 2) 0); [discriminate|].
  intro E. injection E as <-. unfold double_sphere. cbn [mt_nr mt_nc mmake]. apply mmake_wf'; lia.
Qed.
Lemma rel_continue h b sym : ok_arr2 h b ->
  rel h (h_continue_sphere b sym) (continue_sphere RN (rd2 h b) sym) (fun d m h' => rd2 h' d = m).
Proof.
  intro O. unfold h_continue_sphere. apply rel_read.
  apply rel_lift_ok. intros d Ed. apply rel_new2_end; [eapply continue_wf; [apply rd2_wf; exact O|exact Ed]|].
  intros d' h' P F E _ _. apply rel_ret. exact E.
Qed.
Lemma rel_sp_new h b ds : ok_arr2 h b ->
  rel h (h_sp_new b ds) (sp_new RN (rd2 h b) ds) (fun d m h' => rd2 h' d = m).
Proof.
  intro O. unfold h_sp_new, sp_new. destruct ds; [apply rel_ret; reflexivity|apply rel_continue; exact O].
Qed.
Lemma rel_tp_new h t p ds : ok_arr2 h t -> ok_arr2 h p ->
  rel h (h_tp_new t p ds) (tp_new RN (rd2 h t) (rd2 h p) ds) (fun d m h' => tpv h' d = m).
Proof.
  intros Ot Op. unfold h_tp_new, tp_new, same_shape. cbn [rd2 mt_nr mt_nc].
  destruct (negb _); [apply rel_raise|]. destruct ds; [apply rel_ret; reflexivity|].
  eapply rel_bind; [eapply (rel_spec _ _ (List.length h) []); [apply rel_continue; exact Ot|apply spec_continue; apply le_n]|].
  cbn beta. intros d1 m1 h1 [E1 [[F1 O1] P1]].
  replace (rd2 h p) with (rd2 h1 p) by (eapply rd2_keep; [exact P1|apply Op|intros []]).
  eapply rel_bind; [eapply (rel_spec _ _ (List.length h1) []); [apply rel_continue; eapply ok_arr2_mono; eauto|apply spec_continue; apply le_n]|].
  cbn beta. intros d2 m2 h2 [E2 [[F2 O2] P2]]. apply rel_ret. unfold tpv. cbn [fst snd].
  rewrite E2. rewrite <- E1. f_equal. eapply rd2_keep; [exact P2|apply O1|intros []].
Qed.
Definition ok_tp (h : heap) (p : arr2 * arr2) : Prop := ok_arr2 h (fst p) /\ ok_arr2 h (snd p).

Definition spo_val (h : heap) (x : option arr2) : sp_res RN :=
  match x with Some d => PHolds RN (rd2 h d) | None => PExc RN end.
Definition popnd_val (h : heap) (b : hpopnd) : sp_operand RN :=
  match b with HoSP d => SPndP RN (rd2 h d) | HoPNum x => SPndNum RN x | HoPOther => SPndOther RN end.
Lemma rel_new_some h m : mat_wf RN m ->
  rel h (hbind (np_new2 m) (fun w => hbind (h_sp_new w true) (fun w => hret (Some w)))) (Ok (PHolds RN m)) (fun d w h' => spo_val h' d = w).
Proof. intro W. apply rel_new2; [exact W|]. intros b h' _ _ E _ _. cbn. rewrite E. reflexivity. Qed.
Lemma mzip_wf f a b : mat_wf RN a -> mat_wf RN (mzip RN f a b).
Proof. intros [A [B _]]. apply mmake_wf'; assumption. Qed.
Lemma mmap1_wf f a : mat_wf RN a -> mat_wf RN (mmap1 RN f a).
Proof. intros [A [B _]]. apply mmake_wf'; assumption. Qed.
Lemma rel_sp_op_left h o d b : ok_arr2 h d ->
  rel h (h_sp_op_left o d b) (sp_op_left RN o (rd2 h d) (popnd_val h b)) (fun d w h' => spo_val h' d = w).
Proof.
  intros O. pose proof (rd2_wf h d O) as W. unfold h_sp_op_left, sp_op_left. apply rel_read. destruct b as [d'|x|]; cbn [popnd_val].
  - unfold same_shape. cbn [rd2 mt_nr mt_nc]. destruct (_ && _); [|apply rel_raise].
    apply rel_read. apply rel_new_some. apply mzip_wf. exact W.
  - destruct o; try (apply rel_new_some; apply mmap1_wf; exact W).
    destruct (ceqb RN x (c0 RN)); [apply rel_ret; reflexivity|]. apply rel_new_some; apply mmap1_wf; exact W.
  - apply rel_raise.
Qed.
Lemma rel_sp_op_right h o d b : ok_arr2 h d ->
  rel h (h_sp_op_right o d b) (sp_op_right RN o (rd2 h d) (popnd_val h b)) (fun d w h' => spo_val h' d = w).
Proof.
  intros O. pose proof (rd2_wf h d O) as W. unfold h_sp_op_right, sp_op_right. destruct b as [d'|x|]; cbn [popnd_val]; try apply rel_raise.
  apply rel_read. apply rel_new_some. apply mmap1_wf. exact W.
Qed.
Lemma rel_new_tp h m1 m2 : mat_wf RN m1 -> mat_wf RN m2 ->
  rel h (hbind (np_new2 m1) (fun t => hbind (np_new2 m2) (fun p => h_tp_new t p true))) (tp_new RN m1 m2 true) (fun d w h' => tpv h' d = w).
Proof.
  intros W1 W2. apply rel_new2; [exact W1|]. intros t h1 P1 [F1 O1] E1 _ _.
  apply rel_new2; [exact W2|]. intros p h2 P2 [F2 O2] E2 _ _.
  assert (K : rd2 h2 t = m1) by (rewrite <- E1; eapply rd2_keep; [exact P2|apply O1|intros []]).
  rewrite <- K, <- E2. apply rel_tp_new; [eapply ok_arr2_mono; eauto|exact O2].
Qed.
Definition topnd_val (h : heap) (b : htopnd) : tp_operand RN :=
  match b with HoTP t p => TPndP RN (tpv h (t, p)) | HoTNum x => TPndNum RN x | HoTOther => TPndOther RN end.
Lemma rel_tp_op_left h o a b : ok_tp h a ->
  rel h (h_tp_op_left o a b) (tp_op_left RN o (tpv h a) (topnd_val h b)) (fun d w h' => tpv h' d = w).
Proof.
  intros [O1 O2]. pose proof (rd2_wf h _ O1) as W1. pose proof (rd2_wf h _ O2) as W2.
  unfold h_tp_op_left, tp_op_left. apply rel_read. apply rel_read. destruct b as [t' p'|x|]; cbn [topnd_val].
  - unfold same_shape. cbn [tpv tp_t tp_p fst snd]. cbn [rd2 mt_nr mt_nc].
    destruct (_ && _); [|apply rel_raise]. apply rel_read. apply rel_read.
    apply rel_new_tp; apply mzip_wf; assumption.
  - cbn [tpv tp_t tp_p]. destruct o; try (apply rel_new_tp; apply mmap1_wf; assumption).
    destruct (ceqb RN x (c0 RN)); [apply rel_raise|]. apply rel_new_tp; apply mmap1_wf; assumption.
  - apply rel_raise.
Qed.
Lemma rel_tp_op_right h o a b : ok_tp h a ->
  rel h (h_tp_op_right o a b) (tp_op_right RN o (tpv h a) (topnd_val h b)) (fun d w h' => tpv h' d = w).
Proof.
  intros [O1 O2]. pose proof (rd2_wf h _ O1) as W1. pose proof (rd2_wf h _ O2) as W2.
  unfold h_tp_op_right, tp_op_right. destruct b as [t' p'|x|]; cbn [topnd_val]; try apply rel_raise.
  apply rel_read. apply rel_read. cbn [tpv tp_t tp_p]. apply rel_new_tp; apply mmap1_wf; assumption.
Qed.
Definition anyp_val (h : heap) (x : hanyp) : anypatt RN :=
  match x with HAnySP d => AnySP RN (rd2 h d) | HAnyTP p => AnyTP RN (tpv h p) end.
Lemma np_full_wf nr nc x d : np_full RN nr nc x = Ok d -> mat_wf RN d.
Proof.
  unfold np_full. destruct (Z.ltb_spec nr 0), (Z.ltb_spec nc 0); cbn [orb]; try discriminate. intro E. injection E as <-.
  apply mmake_wf'; lia.
Qed.
Lemma rel_const_patt h x nr nc t :
  rel h (h_const_patt x nr nc t) (const_patt_uniform RN x nr nc t) (fun d w h' => anyp_val h' d = w).
Proof.
  unfold h_const_patt, const_patt_uniform. destruct (_ =? 1); [apply rel_raise|]. destruct (t =? 0).
  - apply rel_lift. intros d Ed. apply rel_new2; [eapply np_full_wf; eauto|]. intros b h1 _ _ E _ _. cbn. rewrite E. reflexivity.
  - destruct (t =? 1); [|apply rel_raise]. apply rel_lift. intros d Ed.
    apply rel_new2; [eapply np_full_wf; eauto|]. intros b h1 P1 [F1 O1] E1 _ _.
    rewrite Ed. apply rel_lift. intros d2 E2. injection E2 as <-. apply rel_new2; [eapply np_full_wf; eauto|]. intros b2 h2 P2 [F2 O2] E2 _ _.
    assert (K : rd2 h2 b = d) by (rewrite <- E1; eapply rd2_keep; [exact P2|apply O1|intros []]).
    rewrite <- K at 1. rewrite <- E2. eapply rel_bind; [apply rel_tp_new; [eapply ok_arr2_mono; eauto|exact O2]|].
    cbn beta. intros q w h3 Eq. apply rel_ret. cbn. rewrite Eq. reflexivity.
Qed.
Lemma rel_random_patt h d1 d2 nr nc t :
  rel h (h_random_patt d1 d2 nr nc t) (random_patt_uniform RN d1 d2 nr nc t) (fun d w h' => anyp_val h' d = w).
Proof.
  unfold h_random_patt, random_patt_uniform. destruct (_ =? 1); [apply rel_raise|].
  destruct (Z.ltb_spec nr 0), (Z.ltb_spec nc 0); cbn [orb]; try (destruct ((t =? 0) || (t =? 1)); apply rel_raise).
  assert (W : forall d : Z -> C, mat_wf RN (mkMat RN nr nc (vmake (nr * nc) d))).
  { intro d. unfold mat_wf. cbn [mt_nr mt_nc mt_dat]. change (@zlen (cplx RN)) with (@zlen C). rewrite zlen_vmake. nia. }
  destruct (t =? 0).
  - apply rel_new2; [apply W|]. intros b h1 P1 [F1 O1] E1 _ _.
    change (@vmake (cplx RN)) with (@vmake C). rewrite <- E1.
    eapply rel_bind; [apply rel_sp_new; exact O1|]. cbn beta. intros q w h2 Eq. apply rel_ret. cbn. rewrite Eq. reflexivity.
  - destruct (t =? 1); [|apply rel_raise]. apply rel_new2; [apply W|]. intros b h1 P1 [F1 O1] E1 _ _.
    apply rel_new2; [apply W|]. intros b2 h2 P2 [F2 O2] E2 _ _.
    assert (K : rd2 h2 b = rd2 h1 b) by (eapply rd2_keep; [exact P2|apply O1|intros []]).
    change (@vmake (cplx RN)) with (@vmake C). rewrite <- E2, <- E1, <- K. eapply rel_bind; [apply rel_tp_new; [eapply ok_arr2_mono; eauto|exact O2]|].
    cbn beta. intros q w h3 Eq. apply rel_ret. cbn. rewrite Eq. reflexivity.
Qed.
Definition mag_val (h : heap) (x : hmag) : mres RN :=
  match x with HMArr b => MArr RN (rd2 h b) | HMCoef c => MCoef RN (scv h c) end.
Lemma sp_mag_wf f o m : f = sp_abs RN \/ f = sp_mag RN \/ f = sp_mag2 RN ->
  match o with OSP d => mat_wf RN d | OTP p => mat_wf RN (tp_t RN p) | _ => True end ->
  f o = Ok (MArr RN m) -> mat_wf RN m.
Proof.
  assert (A : forall d, mat_wf RN d -> mat_wf RN (p_array RN d)).
  { intros d [A [B _]]. apply mmake_wf'; lia. }
  intros [->|[->| ->]] W; destruct o as [d|p|c|c|]; cbn; try discriminate.
  - intro E. injection E as <-. apply mmap1_wf. auto.
  - destruct (sc_new _ _ _ _); discriminate.
  - intro E. injection E as <-. apply mmap1_wf. auto.
  - intro E. injection E as <-. apply mmap1_wf. apply mzip_wf. apply mmap1_wf. auto.
  - destruct (sc_new _ _ _ _); discriminate.
  - destruct (np_broadcast _ _ _); [|discriminate]. cbn. destruct (sc_new _ _ _ _); [|discriminate]. cbn. destruct (sc_new _ _ _ _); discriminate.
  - intro E. injection E as <-. apply mmap1_wf. auto.
  - intro E. injection E as <-. apply mzip_wf. apply mmap1_wf. auto.
  - destruct (sc_new _ _ _ _); discriminate.
  - destruct (np_broadcast _ _ _); [|discriminate]. cbn. destruct (sc_new _ _ _ _); discriminate.
Qed.
Lemma rel_mag h f o : f = sp_abs RN \/ f = sp_mag RN \/ f = sp_mag2 RN -> ok_obj h o ->
  rel h (h_mag f (mag_arg o)) (f (mag_arg o h)) (fun d w h' => mag_val h' d = w).
Proof.
  intros Hf O. unfold h_mag. apply rel_read. apply rel_lift_ok. intros r Er. destruct r as [m|c].
  - apply rel_new2.
    + eapply sp_mag_wf; [exact Hf| |exact Er]. destruct o; cbn; auto; try (apply rd2_wf; apply O).
    + intros b h' _ _ E _ _. cbn. rewrite E. reflexivity.
  - apply rel_new. intros a h' _ _ E _. cbn. unfold scv. cbn [hs_arr hs_nmax hs_mmax]. rewrite E. destruct c; reflexivity.
Qed.
