(** * HeapRef5: every call that does not write returns the value the storage-free
    model computes from the values of its arguments. *)
From Coq Require Import ZArith List String Bool Reals Lia.
From Coquelicot Require Import Complex.
From Verif Require Import Py PyFacts Num Exact MCoefs CoefsFacts CoefsFacts2 MPatt Sums MPysphi MOps MTrans MHeap SpecHeap HeapFacts HeapFacts2 HeapFacts3 HeapRef HeapRef2 HeapRef3 HeapRef4.
Import ListNotations.
Open Scope list_scope.
Open Scope Z_scope.

Lemma rel_map A B h (m : hm A) (r : res B) (f : A -> obj) (g : B -> value) (Q : A -> B -> heap -> Prop) :
  rel h m r Q -> (forall a b h', Q a b h' -> oval h' (f a) = g b) ->
  rel h (hbind m (fun x => hret (f x))) (rmap g r) (fun o v h' => oval h' o = v).
Proof. intros R H. unfold rmap. eapply rel_bind; [exact R|]. intros a b h1 HQ. apply rel_ret. apply H. exact HQ. Qed.

Lemma rd2_arows h b k : ok_arr2 h b -> rd2 h (arows b k) = mrows RN (rd2 h b) k.
Proof.
  intros [A [B [D [E F]]]]. unfold rd2 at 1, mrows, mmake, arows. cbn [b_nr b_nc b_loc b_off mt_nr mt_nc rd2].
  f_equal. apply vmake_ext. intros i Hi.
  set (nr := b_nr b) in *. set (nc := b_nc b) in *.
  assert (Hnc : 0 < nc) by nia. unfold mget, rd2. cbn [mt_nr mt_nc mt_dat]. fold nr nc.
  pose proof (Z.div_mod i nc ltac:(lia)) as DM. pose proof (Z.mod_pos_bound i nc Hnc).
  assert (0 <= i / nc < nr) by (split; [apply Z.div_pos; lia|apply Z.div_lt_upper_bound; nia]).
  rewrite vget_vmake; [f_equal; lia|nia].
Qed.
Lemma rel_row2 h b i : ok_arr2 h b -> rel h (arow b i) (row_get (rd2 h b) i) (fun a v h' => rd h' a = v).
Proof.
  intros [A [B [D [E F]]]]. unfold arow, row_get. cbn [rd2 mt_nr mt_nc]. apply rel_lift. intros r Hr. apply py_index_range in Hr.
  apply rel_ret. unfold rd. cbn [a_len a_loc a_off]. apply vmake_ext. intros q Hq.
  unfold cget, mget, rd2. cbn [mt_nc mt_dat]. change (c0 RN) with (RtoC 0). rewrite vget_vmake by nia. f_equal. lia.
Qed.
Lemma rel_col h c m : ok_arr h (hs_arr c) -> rel h (h_sc_col c m) (sc_get_col RN (scv h c) m) (fun a v h' => rd h' a = v /\ h' = h).
Proof.
  intro O. pose proof (h_col_eq h c m (proj1 (proj2 (proj2 O)))) as H. unfold rel.
  destruct (h_sc_col c m h) as [[a|e] h1]; destruct H as [-> H]; rewrite (H h); auto.
Qed.
Lemma rel_elem h c n m : rel h (h_sc_get_elem c n m) (sc_get_elem RN (scv h c) n m) (fun a v h' => a = v /\ h' = h).
Proof. unfold rel. rewrite h_get_elem_eq. destruct (sc_get_elem RN (scv h c) n m); auto. Qed.
Lemma rel_row' h c n : rel h (h_sc_row c n) (sc_get_row RN (scv h c) n)
  (fun a v h' => rd h' a = v /\ fresh_arr (List.length h) a h' /\ post (List.length h) [] h h').
Proof. eapply rel_fresh; [apply rel_row|]. apply spec_row. lia. Qed.

Lemma rel_map' A B D h (m : hm A) (r : res B) (k : B -> D) (f : A -> obj) (g : D -> value) (Q : A -> B -> heap -> Prop) :
  rel h m r Q -> (forall a b h', Q a b h' -> oval h' (f a) = g (k b)) ->
  rel h (hbind m (fun x => hret (f x))) (rmap g (bind r (fun x => Ok (k x)))) (fun o v h' => oval h' o = v).
Proof.
  intros R H. unfold rmap. replace (bind (bind r (fun x => Ok (k x))) (fun x => Ok (g x))) with (bind r (fun x => Ok (g (k x)))) by (destruct r; reflexivity).
  eapply rel_bind; [exact R|]. intros a b h1 HQ. apply rel_ret. apply H. exact HQ.
Qed.
Lemma rel_rmap_bind A B D h (m : hm A) (f : A -> hm obj) (r : res B) (k : B -> res D) (g : D -> value) (Q : A -> B -> heap -> Prop) Q' :
  rel h m r Q -> (forall a b h1, Q a b h1 -> rel h1 (f a) (rmap g (k b)) Q') ->
  rel h (hbind m f) (rmap g (bind r k)) Q'.
Proof.
  intros R H. replace (rmap g (bind r k)) with (bind r (fun b => rmap g (k b))) by (destruct r; reflexivity).
  eapply rel_bind; [exact R|exact H].
Qed.
Ltac rdest := repeat match goal with
  | |- rel _ (hraise _) _ _ => apply rel_raise
  | |- rel _ (match ?x with _ => _ end) _ _ => is_var x; destruct x
  | |- rel _ (match ?x with _ => _ end) _ _ => destruct x eqn:?
  end.
Lemma getitem_rel h o arg : ok_obj h o ->
  rel h (h_getitem o arg) (match oval h o with XSc c => rmap sc_item_value (sc_getitem RN c arg)
     | XVc c => rmap vc_item_value (vc_getitem RN c arg) | _ => bad_value end) (fun o v h' => oval h' o = v).
Proof.
  intro O. destruct o as [a|b|c|c|d| |p|x y|x|]; cbn [oval h_getitem]; try apply rel_raise; cbn [ok_obj] in O.
  - unfold sc_getitem. rdest.
    + eapply rel_map'; [apply rel_elem|]. cbn beta. intros a b h' [-> _]. reflexivity.
    + eapply rel_map'; [apply rel_row|]. cbn beta. intros a b h' <-. reflexivity.
    + eapply rel_map'; [apply rel_trunc; exact O|]. cbn beta. intros a b h' <-. reflexivity.
    + eapply rel_map'; [apply rel_col; exact O|]. cbn beta. intros a b h' [<- _]. reflexivity.
  - destruct O as [O1 O2]. unfold vc_getitem. cbn [vcv vc_1 vc_2 vc_nmax vc_mmax]. rdest.
    + eapply rel_rmap_bind; [apply rel_elem|]. cbn beta. intros a b h' [-> ->].
      eapply rel_map'; [apply rel_elem|]. cbn beta. intros a b0 h' [-> _]. reflexivity.
    + eapply rel_rmap_bind; [apply rel_row'|]. cbn beta. intros a b h' [E1 [[_ Oa] P]].
      rewrite <- (keep_sc _ _ _ P O2). eapply rel_map'; [apply rel_row'|]. cbn beta. intros a' b' h2 [E2 [_ P2]].
      cbn [oval]. rewrite (keep1 _ _ _ P2 Oa), E1, E2. reflexivity.
    + pose proof (rel_vc_trunc h c z (conj O1 O2)) as R. unfold vc_trunc_pure in R. cbn [vcv vc_1 vc_2 vc_nmax vc_mmax] in R.
      match goal with |- rel _ _ (rmap ?g ?r) _ => match type of R with rel _ _ ?r' _ => replace (rmap g r) with (rmap (fun t => XVc t) r') end end.
      * eapply rel_map; [exact R|]. cbn beta. intros a b h' <-. reflexivity.
      * destruct (z >? hv_nmax c); [reflexivity|]. cbv zeta.
        destruct (sc_trunc RN (scv h (hv_1 c)) z); [|reflexivity]. cbn [bind].
        destruct (sc_trunc RN (scv h (hv_2 c)) z); [|reflexivity]. cbn [bind].
        destruct (vc_new _ _ _ _ _); reflexivity.
    + eapply rel_rmap_bind; [apply rel_col; exact O1|]. cbn beta. intros a b h' [E1 ->].
      eapply rel_map'; [apply rel_col; exact O2|]. cbn beta. intros a' b' h2 [E2 ->].
      cbn [oval]. rewrite E1, E2. reflexivity.
Qed.
Lemma mag_arg_value h o : mag_arg o h = sobj_of (oval h o).
Proof. destruct o; reflexivity. Qed.
Ltac mapr l := eapply rel_map; [apply l|].
Ltac fin := cbn beta; intros ? ? ? <-; reflexivity.
Lemma exec_rel be p os h : be_wf be -> writes p = false -> Forall (ok_obj h) os ->
  rel h (exec be p os) (peval be p (map (oval h) os)) (fun o v h' => oval h' o = v).
Proof.
  intros WB Hw Hos.
  assert (F : forall o, In o os -> ok_obj h o) by (rewrite Forall_forall in Hos; exact Hos). clear Hos.
  destruct p; try discriminate Hw; cbn [exec peval];
    (destruct os as [|x1 [|x2 [|x3 os]]]; cbn [map]; try apply rel_raise);
    try (pose proof (F x1 (or_introl eq_refl)) as F1); try (pose proof (F x2 (or_intror (or_introl eq_refl))) as F2); clear F.
  all: try (destruct x1 as [a|b|c|c|d| |p|y1 y2|y|]; cbn [oval]; try apply rel_raise; cbn [ok_obj] in F1); try solve [apply rel_raise].
  all: try solve [apply rel_ret; reflexivity].
  all: try match goal with |- rel _ (h_getitem ?o ?a) _ _ => exact (getitem_rel h o a F1) end.
  all: try match goal with |- rel ?h (hbind (h_mag ?f (mag_arg ?o)) _) _ _ =>
         pose proof (rel_mag h f o ltac:(auto) F1) as R; rewrite mag_arg_value in R; cbn [oval] in R; eapply rel_map; [exact R|];
         cbn beta; intros [m|m] ? ? <-; reflexivity end.
  - apply rel_new. intros a h' _ _ E _. apply rel_ret. cbn [oval]. rewrite E. reflexivity.
  - destruct (Z.ltb_spec nr 0), (Z.ltb_spec nc 0); cbn [orb]; try apply rel_raise.
    apply rel_new2; [apply mmake_wf'; lia|]. intros b h' _ _ E _ _. apply rel_ret. cbn [oval]. rewrite E. reflexivity.
  - apply rel_ret. cbn [oval]. rewrite rd_aview by apply F1. reflexivity.
  - mapr rel_row2; [exact F1|fin].
  - apply rel_copy. apply rel_new. intros b h' _ _ E _. apply rel_ret. cbn [oval]. rewrite E. reflexivity.
  - apply rel_read. apply rel_new2; [apply rd2_wf; exact F1|]. intros b' h' _ _ E _ _. apply rel_ret. cbn [oval]. rewrite E. reflexivity.
  - mapr rel_sc_new; [apply F1|]. cbn beta. intros c v h' [_ [_ <-]]. reflexivity.
  - mapr rel_sc_copy; [exact F1|fin].
  - mapr rel_vc_copy; [exact F1|fin].
  - replace (sc_opnd_of (oval h x2)) with (opnd_val h (match x2 with OSc c' => HoSC c' | ONum x => HoNum x | _ => HoOther end)) by (destruct x2; reflexivity).
    mapr rel_sc_op_left; [exact F1|destruct x2; exact F2 || exact I|fin].
  - replace (vc_opnd_of (oval h x2)) with (vopnd_val h (match x2 with OVc c' => HoVC c' | ONum x => HoVNum x | _ => HoVOther end)) by (destruct x2; reflexivity).
    mapr rel_vc_op_left; [exact F1|destruct x2; exact F2 || exact I|fin].
  - replace (sp_opnd_of (oval h x2)) with (popnd_val h (match x2 with OSp c' => HoSP c' | ONum x => HoPNum x | _ => HoPOther end)) by (destruct x2; reflexivity).
    mapr rel_sp_op_left; [exact F1|]. cbn beta. intros [q|] ? ? <-; reflexivity.
  - replace (tp_opnd_of (oval h x2)) with (topnd_val h (match x2 with OTp c' => HoTP (fst c') (snd c') | ONum x => HoTNum x | _ => HoTOther end)) by (destruct x2 as [| | | | | |[? ?]| | |]; reflexivity).
    mapr rel_tp_op_left; [exact F1|fin].
  - mapr (rel_sc_op_left h o c (HoNum x)); [exact F1|exact I|fin].
  - mapr (rel_vc_op_left h o c (HoVNum x)); [exact F1|exact I|fin].
  - mapr (rel_sp_op_left h o d (HoPNum x)); [exact F1|]. cbn beta. intros [q|] ? ? <-; reflexivity.
  - mapr (rel_tp_op_left h o p (HoTNum x)); [exact F1|fin].
  - mapr (rel_sc_op_right h o c (HoNum x)). fin.
  - mapr (rel_vc_op_right h o c (HoVNum x)). fin.
  - mapr (rel_sp_op_right h o d (HoPNum x)); [exact F1|]. cbn beta. intros [q|] ? ? <-; reflexivity.
  - mapr (rel_tp_op_right h o p (HoTNum x)); [exact F1|fin].
  - mapr rel_sp_new; [exact F1|fin].
  - destruct x2; cbn [oval]; try apply rel_raise. mapr rel_tp_new; [exact F1|exact F2|fin].
  - destruct x2; cbn [oval]; apply rel_raise.
  - apply rel_ret. cbn [oval]. unfold h_cdata. rewrite rd2_arows by exact F1. reflexivity.
  - destruct F1 as [F1 F1']. apply rel_ret. cbn [oval]. rewrite !rd2_arows by assumption. reflexivity.
  - destruct F1 as [F1 F1']. apply rel_ret. cbn [oval]. rewrite !rd2_arows by assumption. reflexivity.
  - destruct F1 as [F1 F1']. apply rel_ret. cbn [oval]. rewrite !rd2_arows by assumption. reflexivity.
  - mapr rel_coefs_factory. cbn beta. intros [q|q] ? ? <-; reflexivity.
  - mapr rel_const_patt. cbn beta. intros [q|q] ? ? <-; reflexivity.
  - mapr rel_random_patt. cbn beta. intros [q|q] ? ? <-; reflexivity.
  - mapr rel_spht; [exact F1|fin].
  - destruct F1. mapr rel_vspht; [assumption|assumption|fin].
  - mapr rel_ispht; [exact WB|fin].
  - mapr rel_vispht; [exact WB|exact F1|fin].
  - mapr rel_spht_slow; [exact F1|fin].
  - mapr rel_ispht_slow; [exact be_wf_py|fin].
Qed.

(** A call that does not write leaves every buffer as it was. *)
Ltac kf := eapply spec_conseq; [|auto].
Lemma exec_reads be p args n0 h : writes p = false -> (n0 <= List.length h)%nat -> Forall (ok_obj h) args ->
  post n0 [] h (snd (exec be p args h)).
Proof.
  intros Hw Hn Hargs. destruct (makes_new p) eqn:Hp; [apply (exec_new be p args n0 h Hp Hn)|].
  assert (G : spec n0 [] h (exec be p args) (fun _ _ => True)); [|apply G].
  apply ok_args in Hargs.
  destruct p; try discriminate Hp; try discriminate Hw; cbn [exec]; try (destruct ds; try discriminate Hp).
  all: unfold bad_args; repeat (match goal with |- spec _ _ _ (match ?x with _ => _ end) _ => is_var x; destruct x end).
  all: try apply spec_raise.
  all: cbn [ok_obj] in *; fwd.
  all: try solve [repeat sp1; exact I].
  - unfold h_getitem. destruct o as [a|b|c|c|d| |p|x y|x|]; unfold bad_args; try apply spec_raise;
      (destruct arg as [[|i0 [|i1 [|i2 l]]]|]; try apply spec_raise); destruct i0; try discriminate Hp; destruct i1; try discriminate Hp;
      cbn [ok_obj] in *; fwd; repeat sp1; exact I.
Qed.

Lemma vals_lookups s l : vals s l = match lookups (s_env s) l with Some os => Some (map (oval (s_heap s)) os) | None => None end.
Proof.
  induction l as [|x l IH]; cbn [vals lookups]; [reflexivity|]. unfold val. destruct (s_env s x); [|reflexivity].
  rewrite IH. destruct (lookups _ _); reflexivity.
Qed.
Lemma step_reads be x p args s : wf s -> be_wf be -> writes p = false ->
  (forall y, y <> x -> val (step be (Do x p args) s) y = val s y) /\
  val (step be (Do x p args) s) x =
    match vals s args with
    | Some vs => match peval be p vs with Ok v => Some v | Raise _ => val s x end
    | None => val s x
    end.
Proof.
  intros W WB Hp. pose proof (step_stepped be (Do x p args) s W) as S. rewrite vals_lookups.
  assert (K : forall y o, s_env s y = Some o -> oval (s_heap (step be (Do x p args) s)) o = oval (s_heap s) o).
  { intros y o Eo. apply oval_ext. intros l Hl. unfold step. cbn [c_args c_prim c_dst].
    destruct (lookups (s_env s) args) as [os|] eqn:EL; [|reflexivity].
    pose proof (exec_reads be p os (List.length (s_heap s)) (s_heap s) Hp (le_n _) (lookups_ok _ _ _ W EL)) as [_ [HP _]].
    destruct (exec be p os (s_heap s)) as [[o'|e] h']; cbn [fst snd s_heap] in *; (apply HP; [eapply reach_lt; eauto|intros []]). }
  split.
  - intros y Hy. unfold val. rewrite (st_env _ _ _ S y Hy). destruct (s_env s y) as [o|] eqn:Eo; [|reflexivity]. f_equal. eapply K; eauto.
  - unfold val at 1. unfold step. cbn [c_args c_prim c_dst]. destruct (lookups (s_env s) args) as [os|] eqn:EL; [|reflexivity].
    pose proof (exec_rel be p os (s_heap s) WB Hp (lookups_ok _ _ _ W EL)) as R. unfold rel in R.
    specialize (K x). unfold step in K. cbn [c_args c_prim c_dst] in K. rewrite EL in K.
    destruct (exec be p os (s_heap s)) as [[o|e] h'], (peval be p (map (oval (s_heap s)) os)); try contradiction; cbn [s_env s_heap] in *.
    + unfold set_var. rewrite Nat.eqb_refl. rewrite R. reflexivity.
    + unfold val. destruct (s_env s x) as [o'|]; [|reflexivity]. f_equal. apply K. reflexivity.
Qed.
