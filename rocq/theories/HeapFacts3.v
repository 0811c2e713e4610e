(** * HeapFacts3: whole histories. *)
From Coq Require Import ZArith List String Bool Reals Lia.
From Coquelicot Require Import Complex.
From Verif Require Import Py PyFacts Num Exact MCoefs CoefsFacts MPatt Sums MPysphi MOps MTrans MHeap SpecHeap HeapFacts HeapFacts2.
Import ListNotations.
Open Scope list_scope.
Open Scope Z_scope.

(** ** Values depend only on the buffers held *)
Lemma rd_ext h h' a : buf h (a_loc a) = buf h' (a_loc a) -> rd h a = rd h' a.
Proof. unfold rd. intros ->. reflexivity. Qed.
Lemma rd2_ext h h' b : buf h (b_loc b) = buf h' (b_loc b) -> rd2 h b = rd2 h' b.
Proof. unfold rd2. intros ->. reflexivity. Qed.
Lemma oval_ext h h' o : (forall l, In l (reach o) -> buf h l = buf h' l) -> oval h o = oval h' o.
Proof.
  induction o as [a|b|c|c|d| |p|x IHx y IHy|x|]; cbn [reach oval]; intro H; unfold scv, vcv, tpv; auto.
  - rewrite (rd_ext h h'); auto using in_eq.
  - rewrite (rd2_ext h h'); auto using in_eq.
  - rewrite (rd_ext h h'); auto using in_eq.
  - unfold scv. rewrite (rd_ext h h' (hs_arr (hv_1 c))), (rd_ext h h' (hs_arr (hv_2 c))); auto using in_eq, in_cons.
  - rewrite (rd2_ext h h'); auto using in_eq.
  - rewrite (rd2_ext h h' (fst p)), (rd2_ext h h' (snd p)); auto using in_eq, in_cons.
  - rewrite IHx, IHy; auto; intros l Hl; apply H; apply in_or_app; auto.
Qed.

(** ** Well-formed states *)
Definition wf (s : state) : Prop := forall x o, s_env s x = Some o -> ok_obj (s_heap s) o.
Lemma wf_start : wf start.
Proof. intros x o. discriminate. Qed.
Lemma lookups_spec e l os : lookups e l = Some os -> Forall2 (fun x o => e x = Some o) l os.
Proof.
  revert os; induction l as [|x l IH]; cbn; intros os E.
  - injection E as <-. constructor.
  - destruct (e x) as [o|] eqn:Ex; [|discriminate]. destruct (lookups e l) as [r|]; [|discriminate].
    injection E as <-. constructor; auto.
Qed.
Lemma lookups_ok s l os : wf s -> lookups (s_env s) l = Some os -> Forall (ok_obj (s_heap s)) os.
Proof.
  intros W E. apply lookups_spec in E. induction E; constructor; eauto.
Qed.
Lemma reach_all_in e l os k : lookups e l = Some os -> In k (reach_all os) ->
  exists x o, In x l /\ e x = Some o /\ In k (reach o).
Proof.
  intros E. apply lookups_spec in E. induction E as [|x o l os H _ IH]; cbn; [contradiction|].
  intro Hk. apply in_app_or in Hk. destruct Hk as [Hk|Hk].
  - exists x, o. auto.
  - destruct (IH Hk) as [x' [o' [A [B D]]]]. exists x', o'. auto.
Qed.

(** One step: what it may change. *)
Record stepped (s s' : state) (c : cmd) : Prop := {
  st_post : exists os, (forall k, In k (reach_all os) -> exists x o, In x (c_args c) /\ s_env s x = Some o /\ In k (reach o)) /\
            post (List.length (s_heap s)) (reach_all os) (s_heap s) (s_heap s');
  st_env : forall y, y <> c_dst c -> s_env s' y = s_env s y;
  st_dst : forall o, s_env s' (c_dst c) = Some o -> s_env s (c_dst c) = Some o \/
     (forall l, In l (reach o) -> (List.length (s_heap s) <= l)%nat \/
        exists x o', In x (c_args c) /\ s_env s x = Some o' /\ In l (reach o'));
  st_wf : wf s'
}.
Lemma step_stepped be c s : wf s -> stepped s (step be c s) c.
Proof.
  intro W. unfold step. destruct (lookups (s_env s) (c_args c)) as [os|] eqn:EL.
  - pose proof (exec_frame be (c_prim c) os (List.length (s_heap s)) (s_heap s) (le_n _) (lookups_ok _ _ _ W EL)) as [HP HQ].
    destruct (exec be (c_prim c) os (s_heap s)) as [[o|e] h'] eqn:EX; cbn [fst snd] in *.
    + destruct (HQ o eq_refl) as [OK RE]. split.
      * exists os. split; [intros k Hk; eapply reach_all_in; eauto|exact HP].
      * intros y Hy. cbn [s_env]. unfold set_var. destruct (Nat.eqb_spec y (c_dst c)); [contradiction|reflexivity].
      * cbn [s_env]. unfold set_var. rewrite Nat.eqb_refl. intros o' E. injection E as <-. right. intros l Hl.
        destruct (RE l Hl) as [H|H]; [right|left; exact H]. eapply reach_all_in; eauto.
      * intros x o'. cbn [s_env s_heap]. unfold set_var. destruct (Nat.eqb x (c_dst c)).
        -- intro E. injection E as <-. exact OK.
        -- intro E. eapply ok_obj_mono; [exact HP|]. apply (W _ _ E).
    + split; cbn [s_env s_heap]; auto.
      * exists os. split; [intros k Hk; eapply reach_all_in; eauto|exact HP].
      * intros x o' E. eapply ok_obj_mono; [exact HP|]. apply (W _ _ E).
  - split; auto. exists []. split; [intros k []|]. apply post_refl.
Qed.
Lemma run_wf be p s : wf s -> wf (run be p s).
Proof.
  revert s; induction p as [|c p IH]; intros s W; cbn; auto. apply IH. apply (step_stepped be c s W).
Qed.
Lemma run_app be p q s : run be (p ++ q) s = run be q (run be p s).
Proof. unfold run. apply fold_left_app. Qed.
Lemma run_keeps_var be x p s : never_assigns x p -> s_env (run be p s) x = s_env s x.
Proof.
  revert s; induction p as [|c p IH]; intros s H; cbn; auto. inversion H; subst.
  change (s_env (run be p (step be c s)) x = s_env s x). rewrite IH; auto. unfold step.
  destruct (lookups _ _); auto. destruct (exec _ _ _ _) as [[o|e] h]; auto. cbn. unfold set_var.
  destruct (Nat.eqb_spec x (c_dst c)); auto. subst. contradiction.
Qed.

(** The separation invariant. *)
Definition sep (A : nat -> Prop) (s : state) (y : nat) : Prop := forall a, A a -> apart s a y.
Lemma step_sep be (A : nat -> Prop) c s y : wf s -> ~ A y -> sep A s y ->
  A (c_dst c) -> Forall A (c_args c) ->
  sep A (step be c s) y /\ s_env (step be c s) y = s_env s y /\ val (step be c s) y = val s y.
Proof.
  intros W Hy Hs Hd Ha. pose proof (step_stepped be c s W) as S.
  destruct S as [[os [Hos HP]] He Hdst Hw].
  assert (Hyd : y <> c_dst c) by (intros ->; contradiction).
  specialize (He y Hyd) as Ey. split; [|split; [exact Ey|]].
  - intros a Aa o o' Eo Eo' l Hl Hl'. rewrite Ey in Eo'.
    destruct (Nat.eq_dec a (c_dst c)) as [->|Hne].
    + destruct (Hdst o Eo) as [E|HR]; [eapply (Hs (c_dst c)); eauto|].
      destruct (HR l Hl) as [Hlt|[x [ox [Hx [Ex Hlx]]]]].
      * pose proof (reach_lt _ _ _ (W _ _ Eo') Hl'). lia.
      * rewrite Forall_forall in Ha. eapply (Hs x (Ha x Hx)); eauto.
    + rewrite He in Eo by exact Hne. eapply (Hs a Aa); eauto.
  - unfold val. rewrite Ey. destruct (s_env s y) as [o|] eqn:Eo; [|reflexivity]. f_equal.
    apply oval_ext. intros l Hl. destruct HP as [_ [HP _]]. apply HP.
    + eapply reach_lt; eauto.
    + intro Hin. destruct (Hos l Hin) as [x [ox [Hx [Ex Hlx]]]]. rewrite Forall_forall in Ha.
      eapply (Hs x (Ha x Hx)); eauto.
Qed.
Lemma run_sep be (A : nat -> Prop) p : forall s y, wf s -> ~ A y -> sep A s y -> touches_only A p ->
  sep A (run be p s) y /\ s_env (run be p s) y = s_env s y /\ val (run be p s) y = val s y.
Proof.
  induction p as [|c p IH]; intros s y W Hy Hs Ht; cbn; [auto|].
  inversion Ht as [|? ? [Hd Ha] Ht']; subst.
  destruct (step_sep be A c s y W Hy Hs Hd Ha) as [S1 [S2 S3]].
  destruct (IH (step be c s) y (st_wf _ _ _ (step_stepped be c s W)) Hy S1 Ht') as [T1 [T2 T3]].
  unfold run in *. rewrite T2, T3, S2, S3. auto.
Qed.

(** A call that makes a new object. *)
Lemma step_new be x p args s : wf s -> makes_new p = true ->
  (forall y, y <> x -> s_env (step be (Do x p args) s) y = s_env s y) /\
  (forall y o, s_env s y = Some o -> oval (s_heap (step be (Do x p args) s)) o = oval (s_heap s) o) /\
  (s_env (step be (Do x p args) s) x = s_env s x \/
   forall y, y <> x -> apart (step be (Do x p args) s) x y).
Proof.
  intros W Hp. pose proof (step_stepped be (Do x p args) s W) as S.
  split; [exact (st_env _ _ _ S)|].
  assert (HPQ : post (List.length (s_heap s)) [] (s_heap s) (s_heap (step be (Do x p args) s)) /\
    (s_env (step be (Do x p args) s) = s_env s \/
     exists o, s_env (step be (Do x p args) s) x = Some o /\ forall l, In l (reach o) -> (List.length (s_heap s) <= l)%nat)).
  { unfold step. cbn [c_args c_prim c_dst]. destruct (lookups (s_env s) args) as [os|]; [|split; [apply post_refl|auto]].
    destruct (exec_new be p os (List.length (s_heap s)) (s_heap s) Hp (le_n _)) as [HP HQ].
    destruct (exec be p os (s_heap s)) as [[o|e] h']; cbn [fst snd s_heap s_env] in *; (split; [exact HP|]); [right|left; reflexivity].
    exists o. split; [unfold set_var; rewrite Nat.eqb_refl; reflexivity|]. apply (HQ o eq_refl). }
  destruct HPQ as [HP HE]. split.
  - intros y o Eo. apply oval_ext. intros l Hl. destruct HP as [_ [HP _]]. apply HP; [|intros []].
    eapply reach_lt; eauto.
  - destruct HE as [->|[o [Eo Ho]]]; [left; reflexivity|right].
    intros y Hy o1 o2 E1 E2 l H1 H2. rewrite Eo in E1. injection E1 as <-.
    rewrite (st_env _ _ _ S y Hy) in E2. pose proof (reach_lt _ _ _ (W _ _ E2) H2). specialize (Ho l H1). lia.
Qed.
