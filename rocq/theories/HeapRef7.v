(** * HeapRef7: the two parts of a new VectorCoefs are distinct arrays. *)
From Coq Require Import ZArith List String Bool Reals Lia.
From Coquelicot Require Import Complex.
From Verif Require Import Py PyFacts Num Exact MCoefs CoefsFacts MPatt Sums MPysphi MOps MTrans MHeap SpecHeap HeapFacts HeapFacts2 HeapFacts3.
Import ListNotations.
Open Scope list_scope.
Open Scope Z_scope.

Definition ens {A} (h : heap) (m : hm A) (Q : A -> Prop) : Prop := forall a, fst (m h) = Ok a -> Q a.
Lemma ens_bind A B h (m : hm A) (f : A -> hm B) (Q : B -> Prop) :
  (forall a, fst (m h) = Ok a -> ens (snd (m h)) (f a) Q) -> ens h (hbind m f) Q.
Proof.
  unfold ens, hbind. intros H b. destruct (m h) as [[a|e] h1]; cbn [fst snd] in *; [apply H; reflexivity|discriminate].
Qed.
Lemma ens_raise A h e (Q : A -> Prop) : ens h (hraise e) Q.
Proof. intros a. discriminate. Qed.
Lemma ens_ret A h a (Q : A -> Prop) : Q a -> ens h (hret a) Q.
Proof. intros H b E. injection E as <-. exact H. Qed.
Definition parts (c : hvc) : Prop := a_loc (hs_arr (hv_1 c)) <> a_loc (hs_arr (hv_2 c)).

Lemma ens_vc_new h a b n m : a_loc a <> a_loc b -> ens h (h_vc_new a b n m) parts.
Proof.
  intros Hne c E. destruct (spec_vc_new 0%nat [] h a b n m) as [_ HQ]; [right; lia|right; lia|].
  destruct (HQ c E) as [A B]. unfold parts. rewrite A, B. exact Hne.
Qed.
(** Two arrays made one after the other. *)
Lemma ens_pair A1 A2 h (m1 : hm A1) (m2 : A1 -> hm A2) (f : A1 -> arr) (g : A2 -> arr) n m :
  (forall h, spec (List.length h) [] h m1 (fun a h' => fresh_arr (List.length h) (f a) h')) ->
  (forall a h, spec (List.length h) [] h (m2 a) (fun a h' => fresh_arr (List.length h) (g a) h')) ->
  ens h (a <~ m1 ;; b <~ m2 a ;; h_vc_new (f a) (g b) n m) parts.
Proof.
  intros H1 H2. apply ens_bind. intros a Ea. apply ens_bind. intros b Eb. apply ens_vc_new.
  destruct (H1 h) as [_ Q1]. destruct (Q1 a Ea) as [_ [O1 _]].
  destruct (H2 a (snd (m1 h))) as [_ Q2]. destruct (Q2 b Eb) as [O2 _]. lia.
Qed.
Lemma spec_new_len h v : spec (List.length h) [] h (np_new v) (fun a h' => fresh_arr (List.length h) a h').
Proof. eapply spec_conseq; [apply spec_np_new; lia|]. cbn beta. intros a h1 _ [F _]. exact F. Qed.

Lemma ens_vc_copy h c : ens h (h_vc_copy c) parts.
Proof.
  unfold h_vc_copy. apply (ens_pair _ _ h (np_copy _) (fun _ => np_copy _) (fun a => a) (fun a => a)); intros;
  (eapply spec_conseq; [apply spec_np_copy; lia|]; cbn beta; intros ? ? _ [F _]; exact F).
Qed.
Lemma ens_vc_trunc h c k : ens h (h_vc_trunc c k) parts.
Proof.
  unfold h_vc_trunc. destruct (k >? hv_nmax c); [apply ens_raise|]. cbv zeta.
  apply (ens_pair _ _ h (h_sc_trunc _ _) (fun _ => h_sc_trunc _ _) (fun a => hs_arr a) (fun a => hs_arr a)); intros; apply spec_trunc; lia.
Qed.
Lemma ens_new2 h v1 v2 n m : ens h (a <~ np_new v1 ;; b <~ np_new v2 ;; h_vc_new a b n m) parts.
Proof. apply (ens_pair _ _ h (np_new _) (fun _ => np_new _) (fun a => a) (fun a => a)); intros; apply spec_new_len. Qed.
Lemma ens_vc_op_left h o c b : ens h (h_vc_op_left o c b) parts.
Proof.
  unfold h_vc_op_left. apply ens_bind; intros u1 _. apply ens_bind; intros u2 _. destruct b as [c'|x|].
  - apply ens_bind; intros v1 _. apply ens_bind; intros w1 _.
    apply (ens_bind _ _ _ (np_new w1)). intros a1 E1. apply ens_bind. intros v2 _. apply ens_bind. intros w2 _.
    apply ens_bind. intros a2 E2. apply ens_vc_new.
    cbn [snd hread hlift] in *. injection E1 as <-. cbn [a_loc] in *.
    unfold np_new, hbind, halloc, hret, hread, hlift in E2. cbn [fst snd] in E2. injection E2 as <-. cbn [a_loc].
    rewrite app_length. cbn. lia.
  - destruct (match o with OpDiv => _ | _ => _ end); [apply ens_raise|apply ens_new2].
  - apply ens_raise.
Qed.
Lemma ens_vc_op_right h o c b : ens h (h_vc_op_right o c b) parts.
Proof.
  unfold h_vc_op_right. destruct b as [c'|x|]; try apply ens_raise.
  apply ens_bind; intros u1 _. apply ens_bind; intros u2 _. apply ens_new2.
Qed.
Lemma ens_coefs_factory h f1 f2 n m t :
  ens h (h_coefs_factory f1 f2 n m t) (fun c => match c with HAnyV c => parts c | HAnyS _ => True end).
Proof.
  unfold h_coefs_factory. destruct (m >? n); [apply ens_raise|]. destruct (t =? 0).
  - do 3 (apply ens_bind; intros). apply ens_ret. exact I.
  - destruct (t =? 1); [|apply ens_raise].
    apply ens_bind; intros v1 _. apply (ens_bind _ _ _ (np_new v1)). intros a1 E1.
    apply ens_bind; intros u Eu. apply ens_bind; intros v2 _. apply (ens_bind _ _ _ (np_new v2)). intros a2 E2.
    apply ens_bind; intros u' _. cbn [snd hread hlift] in *.
    assert (Hne : a_loc a1 <> a_loc a2).
    { destruct (spec_new_len h v1) as [_ Q1]. destruct (Q1 a1 E1) as [_ [O1 _]].
      destruct (spec_aset 0%nat [] (snd (np_new v1 h)) a1 0 (RtoC 0)) as [[P _] _]; [right; lia|].
      match type of E2 with fst (np_new v2 ?hh) = _ => destruct (spec_new_len hh v2) as [_ Q2]; destruct (Q2 a2 E2) as [O2 _] end.
      cbn [snd hlift] in *. lia. }
    apply ens_bind. intros c Ec. apply ens_ret.
    match type of Ec with fst (_ ?hh) = _ => exact (ens_vc_new hh a1 a2 n m Hne c Ec) end.
Qed.
Lemma ens_vspht h be p nm mm : ens h (h_vspht be p nm mm) parts.
Proof.
  unfold h_vspht. cbv zeta. destruct (spht_sizes _ _ _ _) as [nmax mmax].
  do 13 (apply ens_bind; intros ? _).
  apply ens_bind; intros sc1 E1. apply ens_bind; intros sc2 E2.
  assert (Hne : a_loc sc1 <> a_loc sc2).
  { match type of E1 with fst (h_fc_to_sc be ?f _ _ ?hh) = _ => destruct (spec_fc_to_sc (List.length hh) [] hh be f nmax mmax (le_n _)) as [_ Q1] end.
    destruct (Q1 sc1 E1) as [_ [O1 _]].
    match type of E2 with fst (h_fc_to_sc be ?f _ _ ?hh) = _ => destruct (spec_fc_to_sc (List.length hh) [] hh be f nmax mmax (le_n _)) as [_ Q2] end.
    destruct (Q2 sc2 E2) as [O2 _]. lia. }
  apply ens_bind. intros vc Ev. pose proof (ens_vc_new _ _ _ _ _ Hne vc Ev) as HP.
  do 3 (apply ens_bind; intros ? _). apply ens_ret. exact HP.
Qed.

Lemma ens_map A h (m : hm A) (f : A -> obj) (Q : A -> Prop) (Q' : obj -> Prop) :
  ens h m Q -> (forall a, Q a -> Q' (f a)) -> ens h (a <~ m ;; hret (f a)) Q'.
Proof. intros H HQ. apply ens_bind. intros a E. apply ens_ret. auto. Qed.
Lemma ens_true A h (m : hm A) : ens h m (fun _ => True).
Proof. intros a _. exact I. Qed.
Definition obj_parts (o : obj) : Prop := match o with OVc c => parts c | _ => True end.
Ltac enm L := eapply ens_map; [apply L|]; cbn beta; auto.
Lemma exec_parts be p args h : makes_new p = true -> ens h (exec be p args) obj_parts.
Proof.
  intro Hp.
  destruct p; try discriminate Hp; cbn [exec];
    repeat match goal with |- ens _ (match ?l with _ => _ end) _ => is_var l; destruct l end; try apply ens_raise.
  all: try solve [eapply ens_map; [apply ens_true|]; intros; exact I].
  all: try solve [apply ens_bind; intros; eapply ens_map; [apply ens_true|]; intros; exact I].
  all: try solve [eapply ens_map; [apply ens_vspht|]; auto].
  all: try solve [enm ens_vc_copy|enm ens_vc_op_left|enm ens_vc_op_right].
  all: try solve [eapply ens_map; [apply ens_true|]; intros []; intros; exact I].
  - destruct (_ || _); [apply ens_raise|]. eapply ens_map; [apply ens_true|]; intros; exact I.
  - unfold h_getitem. destruct o as [a|b|c|c|d| |p|x y|x|]; unfold bad_args; try apply ens_raise;
      (destruct arg as [[|i0 [|i1 [|i2 l]]]|]; try apply ens_raise); destruct i0; try discriminate Hp; destruct i1; try discriminate Hp;
      repeat match goal with |- ens _ (match ?l with _ => _ end) _ => destruct l end; try apply ens_raise.
    all: try solve [eapply ens_map; [apply ens_true|]; intros; exact I].
    all: try solve [apply ens_bind; intros; eapply ens_map; [apply ens_true|]; intros; exact I].
    eapply ens_map; [apply ens_vc_trunc|]. auto.
  - eapply ens_map; [apply ens_coefs_factory|]. intros [c|c] Hc; [exact I|exact Hc].
Qed.
