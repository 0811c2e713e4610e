(** * HeapFacts: frame reasoning for MHeap.v. *)
From Coq Require Import ZArith List String Bool Reals Lia.
From Coquelicot Require Import Complex.
From Verif Require Import Py PyFacts Num Exact MCoefs CoefsFacts MPatt Sums MPysphi MOps MTrans MHeap.
Import ListNotations.
Open Scope list_scope.
Open Scope Z_scope.

(** ** Postconditions *)

(** From h to h': nothing is deallocated, buffers keep their sizes, and of the
    buffers below n0 only those in W may have changed. *)
Definition post (n0 : nat) (W : list nat) (h h' : heap) : Prop :=
  (List.length h <= List.length h')%nat /\
  (forall l, (l < n0)%nat -> ~ In l W -> buf h' l = buf h l) /\
  (forall l, (l < List.length h)%nat -> zlen (buf h' l) = zlen (buf h l)).

Definition spec {A} (n0 : nat) (W : list nat) (h : heap) (m : hm A) (Q : A -> heap -> Prop) : Prop :=
  post n0 W h (snd (m h)) /\ forall a, fst (m h) = Ok a -> Q a (snd (m h)).

Definition tgt (n0 : nat) (W : list nat) (l : nat) : Prop := In l W \/ (n0 <= l)%nat.

Lemma post_refl n0 W h : post n0 W h h.
Proof. split; [lia|]; split; auto. Qed.
Lemma post_trans n0 W h1 h2 h3 : post n0 W h1 h2 -> post n0 W h2 h3 -> post n0 W h1 h3.
Proof.
  intros [A1 [A2 A3]] [B1 [B2 B3]]. split; [lia|]. split.
  - intros l Hl Hw. rewrite B2, A2; auto.
  - intros l Hl. rewrite B3 by lia. auto.
Qed.
Lemma post_weaken n0 W n1 W' h h' :
  (n1 <= n0)%nat -> (forall l, In l W -> In l W' \/ (n1 <= l)%nat) -> post n0 W h h' -> post n1 W' h h'.
Proof.
  intros Hn HW [A1 [A2 A3]]. split; [exact A1|]. split; [|exact A3].
  intros l Hl Hw. apply A2; [lia|]. intro Hi. destruct (HW l Hi); [contradiction|lia].
Qed.

Lemma spec_ret A n0 W h (a : A) (Q : A -> heap -> Prop) : Q a h -> spec n0 W h (hret a) Q.
Proof. intro H. split; [apply post_refl|]. cbn. intros a' E. injection E as <-. exact H. Qed.
Lemma spec_raise A n0 W h e (Q : A -> heap -> Prop) : spec n0 W h (hraise e) Q.
Proof. split; [apply post_refl|]. cbn. intros a' E. discriminate. Qed.
Lemma spec_lift A n0 W h (r : res A) (Q : A -> heap -> Prop) :
  (forall a, r = Ok a -> Q a h) -> spec n0 W h (hlift r) Q.
Proof. intro H. split; [apply post_refl|]. cbn. exact H. Qed.
Lemma spec_read A n0 W h (f : heap -> A) (Q : A -> heap -> Prop) : Q (f h) h -> spec n0 W h (hread f) Q.
Proof. intro H. split; [apply post_refl|]. cbn. intros a E. injection E as <-. exact H. Qed.
Lemma spec_bind A B n0 W h (m : hm A) (f : A -> hm B) (Q1 : A -> heap -> Prop) (Q : B -> heap -> Prop) :
  spec n0 W h m Q1 ->
  (forall a h1, post n0 W h h1 -> Q1 a h1 -> spec n0 W h1 (f a) Q) ->
  spec n0 W h (hbind m f) Q.
Proof.
  intros [HP HQ] H. unfold spec, hbind. destruct (m h) as [r h1] eqn:E. cbn [fst snd] in *.
  destruct r as [a|e].
  - destruct (H a h1 HP (HQ a eq_refl)) as [P2 Q2]. split; [eapply post_trans; eauto|exact Q2].
  - cbn. split; [exact HP|]. intros a Ha. discriminate.
Qed.
Lemma spec_conseq A n0 W h (m : hm A) (Q Q' : A -> heap -> Prop) :
  spec n0 W h m Q -> (forall a h1, post n0 W h h1 -> Q a h1 -> Q' a h1) -> spec n0 W h m Q'.
Proof. intros [HP HQ] H. split; [exact HP|]. intros a E. apply H; auto. Qed.
Lemma spec_weaken A n0 W n1 W' h (m : hm A) Q :
  (n1 <= n0)%nat -> (forall l, In l W -> In l W' \/ (n1 <= l)%nat) -> spec n0 W h m Q -> spec n1 W' h m Q.
Proof. intros Hn HW [HP HQ]. split; [eapply post_weaken; eauto|exact HQ]. Qed.
Lemma spec_hfor n0 W l (f : Z -> hm unit) : forall h (I : heap -> Prop),
  (forall h1 h2, I h1 -> post n0 W h1 h2 -> I h2) ->
  I h ->
  (forall i h1, I h1 -> spec n0 W h1 (f i) (fun _ _ => True)) ->
  spec n0 W h (hfor l f) (fun _ h' => I h').
Proof.
  induction l as [|i l IH]; intros h I Hm Hi Hf; cbn [hfor].
  - apply spec_ret. exact Hi.
  - eapply spec_bind; [apply Hf; exact Hi|]. intros _ h1 P _. cbn beta. apply IH; eauto.
Qed.

(** ** Buffers *)
Lemma buf_app h v l : (l < List.length h)%nat -> buf (h ++ [v]) l = buf h l.
Proof. intro H. unfold buf. rewrite app_nth1; auto. Qed.
Lemma buf_new h v : buf (h ++ [v]) (List.length h) = v.
Proof. unfold buf. rewrite app_nth2, Nat.sub_diag; auto. Qed.
Lemma upd_length A (v : list A) i x : List.length (upd v i x) = List.length v.
Proof. revert i; induction v as [|a v IH]; intros [|i]; cbn; auto. Qed.
Lemma nth_upd A (v : list A) i x d l :
  nth l (upd v i x) d = if Nat.eqb l i && Nat.ltb i (List.length v) then x else nth l v d.
Proof.
  revert i l; induction v as [|a v IH]; intros [|i] [|l]; cbn [upd nth List.length Nat.eqb]; auto.
  - destruct (Nat.eqb l i); reflexivity.
  - rewrite IH. reflexivity.
Qed.
Lemma zlen_wrb b off w : zlen (wrb b off w) = zlen b.
Proof. unfold wrb. rewrite zlen_vmake. pose proof (zlen_nonneg b). lia. Qed.

Lemma spec_store n0 W h l off w (Q : unit -> heap -> Prop) :
  tgt n0 W l -> (forall h1, Q tt h1) -> spec n0 W h (hstore l off w) Q.
Proof.
  intros T HQ. split; cbn; [|intros [] _; apply HQ].
  split; [rewrite upd_length; lia|]. split.
  - intros k Hk Hw. unfold buf. rewrite nth_upd. destruct (Nat.eqb_spec k l); [|reflexivity].
    subst. destruct T; [contradiction|lia].
  - intros k Hk. unfold buf. rewrite nth_upd. destruct (Nat.eqb_spec k l); [|reflexivity].
    subst. destruct (Nat.ltb_spec l (List.length h)); [|lia]. cbn. apply zlen_wrb.
Qed.

(** ** Arrays inside their buffers *)
Definition ok_arr (h : heap) (a : arr) : Prop :=
  (a_loc a < List.length h)%nat /\ 0 <= a_off a /\ 0 <= a_len a /\ a_off a + a_len a <= zlen (buf h (a_loc a)).
Definition ok_arr2 (h : heap) (b : arr2) : Prop :=
  (b_loc b < List.length h)%nat /\ 0 <= b_off b /\ 0 <= b_nr b /\ 0 <= b_nc b /\
  b_off b + b_nr b * b_nc b <= zlen (buf h (b_loc b)).
Lemma ok_arr_mono n0 W h h' a : post n0 W h h' -> ok_arr h a -> ok_arr h' a.
Proof. intros [P1 [P2 P3]] [A [B [C D]]]. repeat split; auto; try lia. rewrite P3; auto. Qed.
Lemma ok_arr2_mono n0 W h h' a : post n0 W h h' -> ok_arr2 h a -> ok_arr2 h' a.
Proof. intros [P1 [P2 P3]] [A [B [C [D E]]]]. repeat split; auto; try lia. rewrite P3; auto. Qed.

Definition fresh_arr (n0 : nat) (a : arr) (h : heap) : Prop := (n0 <= a_loc a)%nat /\ ok_arr h a.
Definition fresh_arr2 (n0 : nat) (b : arr2) (h : heap) : Prop := (n0 <= b_loc b)%nat /\ ok_arr2 h b.

Lemma post_alloc n0 W h v : post n0 W h (h ++ [v]) \/ (n0 > List.length h)%nat.
Proof.
  destruct (Nat.le_gt_cases n0 (List.length h)); [left|right; lia].
  split; [rewrite app_length; lia|]. split; intros l Hl; [intros _|]; rewrite buf_app; auto; lia.
Qed.
Lemma spec_np_new n0 W h v :
  (n0 <= List.length h)%nat -> spec n0 W h (np_new v) (fun a h' => fresh_arr n0 a h' /\ a_len a = zlen v).
Proof.
  intro Hn. unfold np_new, halloc, hbind, hret, spec. cbn [fst snd]. split.
  - destruct (post_alloc n0 W h v); [assumption|lia].
  - intros a E. injection E as <-. cbn [a_loc a_len]. split; [|reflexivity].
    split; [exact Hn|]. unfold ok_arr; cbn [a_loc a_off a_len]. rewrite app_length, buf_new. cbn.
    pose proof (zlen_nonneg v). repeat split; lia.
Qed.
Lemma spec_np_new2 n0 W h m :
  (n0 <= List.length h)%nat ->
  spec n0 W h (np_new2 m) (fun b h' => fresh_arr2 n0 b h' /\ b_nr b = Z.max 0 (mt_nr RN m) /\ b_nc b = Z.max 0 (mt_nc RN m)).
Proof.
  intro Hn. unfold np_new2, halloc, hbind, hret, spec. cbn [fst snd]. split.
  - match goal with |- post _ _ _ (_ ++ [?v]) => destruct (post_alloc n0 W h v); [assumption|lia] end.
  - intros a E. injection E as <-. cbn [b_nr b_nc]. split; [|split; reflexivity].
    split; [exact Hn|]. unfold ok_arr2; cbn [b_loc b_off b_nr b_nc]. rewrite app_length, buf_new. cbn [List.length].
    rewrite zlen_vmake. repeat split; lia || nia.
Qed.

(** ** Automation: move the facts about arrays forward, apply the lemma of a
    call. *)
Lemma len_mono n0 W h h' (n : nat) : post n0 W h h' -> (n <= List.length h)%nat -> (n <= List.length h')%nat.
Proof. intros [P _] H. lia. Qed.
Ltac fwd :=
  repeat match goal with
  | P : post _ _ ?h ?h1, H : ok_arr ?h _ |- _ => apply (ok_arr_mono _ _ _ _ _ P) in H
  | P : post _ _ ?h ?h1, H : ok_arr2 ?h _ |- _ => apply (ok_arr2_mono _ _ _ _ _ P) in H
  | P : post _ _ ?h ?h1, H : (_ <= List.length ?h)%nat |- _ => apply (len_mono _ _ _ _ _ P) in H
  | H : fresh_arr _ _ _ |- _ => let H1 := fresh "F" in let H2 := fresh "O" in destruct H as [H1 H2]
  | H : fresh_arr2 _ _ _ |- _ => let H1 := fresh "F" in let H2 := fresh "O" in destruct H as [H1 H2]
  | H : _ /\ _ |- _ => let H1 := fresh "Y" in let H2 := fresh "Y" in destruct H as [H1 H2]
  | H : ?x = ?y |- _ => is_var x; subst x
  | H : ?x = ?y |- _ => is_var y; subst y
  end.
Ltac arrs := unfold fresh_arr, fresh_arr2, tgt in *; cbn [a_loc a_off a_len b_loc b_off b_nr b_nc hs_arr hv_1 hv_2 fst snd] in *; auto.

Create HintDb sp.
Ltac sp1 :=
  match goal with
  | |- spec _ _ _ (hret _) _ => apply spec_ret
  | |- spec _ _ _ (hraise _) _ => apply spec_raise
  | |- spec _ _ _ (hlift _) (fun _ _ => True) => apply spec_lift; intros; exact I
  | |- spec _ _ _ (hstore _ _ _) _ => apply spec_store; [arrs|intros; try exact I]
  | |- spec _ _ _ (hbind (hlift _) _) _ =>
      let a := fresh "r" in let h := fresh "h" in let P := fresh "P" in let E := fresh "E" in
      eapply (spec_bind _ _ _ _ _ _ _ (fun _ _ => True)); [apply spec_lift; intros; exact I|]; intros a h P _; fwd
  | |- spec _ _ _ (hbind (hread _) _) _ =>
      let a := fresh "r" in let h := fresh "h" in let P := fresh "P" in let E := fresh "E" in
      eapply (spec_bind _ _ _ _ _ _ _ (fun _ _ => True)); [apply spec_read; exact I|]; intros a h P _; fwd
  | |- spec _ _ _ (hbind (hraise _) _) _ =>
      eapply (spec_bind _ _ _ _ _ _ _ (fun _ _ => False)); [apply spec_raise|]; intros ? ? ? []
  | |- spec _ _ _ (hbind (hbind _ _) _) _ => fail
  | |- spec _ _ _ (hbind _ _) _ =>
      let a := fresh "r" in let h := fresh "h" in let P := fresh "P" in let E := fresh "E" in
      eapply spec_bind; [solve [eauto with sp]|]; intros a h P E; cbn beta in E; fwd
  | |- spec _ _ _ (if ?b then _ else _) _ => destruct b eqn:?
  | |- spec _ _ _ (match ?x with _ => _ end) _ => destruct x
  | |- spec _ _ _ ?m _ => eapply spec_conseq; [solve [eauto with sp]|]; intros
  end.
Ltac sp := intros; repeat sp1; cbn beta in *; fwd;
  repeat match goal with H : hs_arr ?c = _ |- context [hs_arr ?c] => rewrite H end; arrs.

#[export] Hint Resolve spec_np_new spec_np_new2 : sp.
Lemma tgt_fresh n0 W l : (n0 <= l)%nat -> tgt n0 W l.
Proof. right. assumption. Qed.
#[export] Hint Resolve tgt_fresh : sp.

Lemma spec_np_copy n0 W h a : (n0 <= List.length h)%nat ->
  spec n0 W h (np_copy a) (fun b h' => fresh_arr n0 b h' /\ a_len b = Z.max 0 (a_len a)).
Proof.
  intro Hn. unfold np_copy. eapply (spec_bind _ _ _ _ _ _ _ (fun v _ => zlen v = Z.max 0 (a_len a))).
  - apply spec_read. unfold rd. apply zlen_vmake.
  - intros v h1 P E. fwd. eapply spec_conseq; [eauto with sp|]. cbn beta. intros b h2 P2 [F L].
    split; [exact F|]. rewrite L. exact E.
Qed.
#[export] Hint Resolve spec_np_copy : sp.

Lemma spec_aset n0 W h a i x : tgt n0 W (a_loc a) -> spec n0 W h (aset a i x) (fun _ _ => True).
Proof. intro T. unfold aset. sp. Qed.
Lemma spec_aset2 n0 W h b i j x : tgt n0 W (b_loc b) -> spec n0 W h (aset2 b i j x) (fun _ _ => True).
Proof. intro T. unfold aset2. sp. Qed.
Lemma spec_asetslice n0 W h a i j w : tgt n0 W (a_loc a) -> spec n0 W h (asetslice a i j w) (fun _ _ => True).
Proof. intro T. unfold asetslice. sp. Qed.
Lemma spec_fill2 n0 W h b m : tgt n0 W (b_loc b) -> spec n0 W h (fill2 b m) (fun _ _ => True).
Proof. intro T. unfold fill2. sp. Qed.
#[export] Hint Resolve spec_aset spec_aset2 spec_asetslice spec_fill2 : sp.

Lemma slice_bound_range len i : 0 <= len -> 0 <= slice_bound len i <= len.
Proof. unfold slice_bound. destruct (Z.ltb_spec i 0); lia. Qed.
Lemma ok_aview h a i j : ok_arr h a -> ok_arr h (aview a i j).
Proof.
  intros [A [B [C D]]]. unfold aview, ok_arr; cbn [a_loc a_off a_len].
  pose proof (slice_bound_range (a_len a) i C). pose proof (slice_bound_range (a_len a) j C).
  repeat split; auto; lia.
Qed.
Lemma ok_arows h b k : ok_arr2 h b -> ok_arr2 h (arows b k).
Proof.
  intros [A [B [C [D E]]]]. unfold arows, ok_arr2; cbn [b_loc b_off b_nr b_nc].
  repeat split; auto; nia.
Qed.
