(** * HeapRef6: sizes of the objects of a history; in-place calls; sharing. *)
From Coq Require Import ZArith List String Bool Reals Lia.
From Coquelicot Require Import Complex.
From Verif Require Import Py PyFacts Num Exact MCoefs CoefsFacts CoefsFacts2 MPatt Sums MPysphi MOps MTrans MHeap SpecHeap HeapFacts HeapFacts2 HeapFacts3 HeapRef HeapRef2 HeapRef3 HeapRef4 HeapRef5.
Import ListNotations.
Open Scope list_scope.
Open Scope Z_scope.

(** the sizes the constructors check *)
Definition sizedS (c : scoefs RN) : Prop := sc_mmax RN c <= sc_nmax RN c /\ ncoef (sc_nmax RN c) (sc_mmax RN c) = zlen (sc_vec RN c).
Definition sizedV (c : vcoefs RN) : Prop :=
  sizedS (vc_1 RN c) /\ sizedS (vc_2 RN c) /\
  sc_nmax RN (vc_1 RN c) = vc_nmax RN c /\ sc_mmax RN (vc_1 RN c) = vc_mmax RN c /\
  sc_nmax RN (vc_2 RN c) = vc_nmax RN c /\ sc_mmax RN (vc_2 RN c) = vc_mmax RN c.
Fixpoint sized (v : value) : Prop :=
  match v with XSc c => sizedS c | XVc c => sizedV c | XTup x y => sized x /\ sized y | _ => True end.
Lemma sc_new_sized v n m c : sc_new RN v n m = Ok c -> sizedS c.
Proof.
  unfold sc_new. destruct (Z.gtb_spec m n); [discriminate|]. destruct (Z.eqb_spec (ncoef n m) (zlen v)); [|discriminate]. cbn [negb].
  intro E. injection E as <-. split; cbn; assumption.
Qed.
Lemma sc_new_fields v n m c : sc_new RN v n m = Ok c -> c = mkSC RN v n m.
Proof. unfold sc_new. destruct (_ >? _); [discriminate|]. destruct (negb _); [discriminate|]. intro E. injection E as <-. reflexivity. Qed.
Lemma vc_new_sized v w n m c : vc_new RN v w n m = Ok c -> sizedV c.
Proof.
  unfold vc_new. destruct (negb _); [discriminate|]. destruct (_ >? _); [discriminate|]. destruct (negb _); [discriminate|].
  destruct (py_set v 0 _) as [v'|]; [|discriminate]. cbn [bind]. destruct (py_set w 0 _) as [w'|]; [|discriminate]. cbn [bind].
  destruct (sc_new RN v' n m) as [s1|] eqn:E1; [|discriminate]. cbn [bind]. destruct (sc_new RN w' n m) as [s2|] eqn:E2; [|discriminate]. cbn [bind].
  intro E. injection E as <-. pose proof (sc_new_sized _ _ _ _ E1). pose proof (sc_new_sized _ _ _ _ E2).
  apply sc_new_fields in E1, E2. subst. unfold sizedV. cbn. auto 10.
Qed.
Lemma sizedS_new c : sizedS c -> sc_new RN (sc_vec RN c) (sc_nmax RN c) (sc_mmax RN c) = Ok c.
Proof.
  intros [A B]. unfold sc_new. destruct (Z.gtb_spec (sc_mmax RN c) (sc_nmax RN c)); [lia|].
  rewrite B, Z.eqb_refl. destruct c; reflexivity.
Qed.
Definition samesz (c d : scoefs RN) : Prop :=
  sc_nmax RN d = sc_nmax RN c /\ sc_mmax RN d = sc_mmax RN c /\ zlen (sc_vec RN d) = zlen (sc_vec RN c).
Lemma samesz_refl c : samesz c c.
Proof. unfold samesz. auto. Qed.
Lemma samesz_trans a b c : samesz a b -> samesz b c -> samesz a c.
Proof. unfold samesz. intuition congruence. Qed.
Lemma slice_set_len (v : list C) i j w v' : py_slice_set v i j w = Ok v' -> zlen v' = zlen v.
Proof.
  rewrite (py_slice_set_gen (RtoC 0)). cbv zeta. destruct (_ =? _); [|destruct w as [|x [|]]; try discriminate].
  all: intro E; injection E as <-; rewrite zlen_vmake; pose proof (zlen_nonneg v); lia.
Qed.
Lemma set_col_samesz c m v : samesz c (fst (sc_set_col RN c m v)).
Proof.
  unfold sc_set_col. destruct (_ >? _); [apply samesz_refl|]. unfold lift_res.
  destruct (mindx _ _ _) as [a|]; [|apply samesz_refl]. cbn [bind]. cbv zeta. destruct (val_len v); [|apply samesz_refl]. cbn [bind].
  destruct (negb _); [apply samesz_refl|]. destruct (py_slice_set _ _ _ _) as [w|] eqn:E; [|apply samesz_refl]. cbn [bind fst].
  apply slice_set_len in E. unfold samesz. cbn [sc_nmax sc_mmax sc_vec]. auto.
Qed.
Lemma window_col_samesz c m w : samesz c (fst (sc_window_col RN m w c)).
Proof. unfold sc_window_col. destruct (bind _ _); [apply set_col_samesz|apply samesz_refl]. Qed.
Lemma seq_samesz c x f : samesz c (fst x) -> (forall d, samesz d (fst (f d))) -> samesz c (fst (seq_unit x f)).
Proof. intros H Hf. destruct x as [s [u|e]]; cbn [seq_unit fst] in *; [|exact H]. eapply samesz_trans; [exact H|apply Hf]. Qed.
Lemma window_samesz c v : samesz c (fst (sc_window RN c v)).
Proof.
  unfold sc_window. apply seq_samesz; [apply window_col_samesz|]. intro d. generalize (zrange 1 (sc_mmax RN d + 1)) as l. intro l.
  revert d. induction l as [|i l IH]; intro d; cbn [sfor]; [apply samesz_refl|].
  match goal with |- context [seq_unit ?a ?b] => pose proof (seq_samesz d a b (window_col_samesz d _ _) (fun d => window_col_samesz d _ _)) as H end.
  destruct (seq_unit _ _) as [d' [u|e]]; cbn [fst] in *; [|exact H]. eapply samesz_trans; [exact H|apply IH].
Qed.
Lemma windowed_samesz c v d : windowed c v = Ok d -> samesz c d.
Proof.
  unfold windowed. pose proof (window_samesz c v) as H. destruct (sc_window RN c v) as [c' r]. cbn [fst] in H. destruct r; [|discriminate].
  cbn [bind]. intro E. injection E as <-. exact H.
Qed.
Lemma samesz_sized c d : samesz c d -> sizedS c -> sizedS d.
Proof. intros [A [B D]] [E F]. unfold sizedS. rewrite A, B, D. auto. Qed.
Ltac inv1 := match goal with
  | H : Raise _ = Ok _ |- _ => discriminate H
  | H : Ok _ = Ok _ |- _ => injection H as <-
  | H : sc_new _ _ _ _ = Ok _ |- _ => apply sc_new_sized in H
  | H : vc_new _ _ _ _ _ = Ok _ |- _ => apply vc_new_sized in H
  | H : bind ?x _ = Ok _ |- _ => destruct x eqn:?; cbn [bind] in H
  | H : (if ?b then _ else _) = Ok _ |- _ => destruct b
  | H : (match ?x with _ => _ end) = Ok _ |- _ => is_var x; destruct x
  end.
Lemma peval_sized be p vs v : writes p = false -> Forall sized vs -> peval be p vs = Ok v -> sized v.
Proof.
  intros Hw F E. assert (F0 : forall x, In x vs -> sized x) by (rewrite Forall_forall in F; exact F). clear F.
  destruct p; try discriminate Hw; cbn [peval] in E;
    (destruct vs as [|x1 [|x2 [|x3 vs]]]; try discriminate E);
    try (pose proof (F0 x1 (or_introl eq_refl)) as F1); try (pose proof (F0 x2 (or_intror (or_introl eq_refl))) as F2); clear F0.
  all: try (destruct x1; try discriminate E; cbn [sized] in F1).
  all: try (destruct x2; try discriminate E; cbn [sized] in F2).
  all: unfold rmap, bad_value in E.
  all: try solve [injection E as <-; cbn; auto].
  all: try solve [unfold sc_copy, vc_copy in E; repeat inv1; cbn; auto].
  all: try solve [repeat inv1; cbn; auto].
  all: try solve [unfold sc_op_left, sc_op_right, vc_op_left, vc_op_right, sc_opnd_of, vc_opnd_of in E; repeat inv1; cbn; auto].
  all: try solve [unfold coefs_factory in *; repeat inv1; cbn; auto].
  all: try solve [unfold spht, spht_slow in *; repeat inv1; cbn; auto].
  - unfold sc_getitem, sc_trunc in *; repeat inv1; cbn; auto.
  - unfold vc_getitem, sc_trunc in *; repeat inv1; cbn; auto.
  - injection E as <-. apply F1.
  - injection E as <-. apply F1.
  - destruct (sp_op_left _ _ _ _) as [[|]|]; [| |discriminate E]; injection E as <-; exact I.
  - destruct (sp_op_left _ _ _ _) as [[|]|]; [| |discriminate E]; injection E as <-; exact I.
  - destruct (sp_op_left _ _ _ _) as [[|]|]; [| |discriminate E]; injection E as <-; exact I.
  - destruct (const_patt_uniform _ _ _ _ _) as [[|]|]; [| |discriminate E]; injection E as <-; exact I.
  - destruct (random_patt_uniform _ _ _ _ _ _) as [[|]|]; [| |discriminate E]; injection E as <-; exact I.
  - unfold sp_abs, sobj_of in *; repeat inv1; cbn; auto.
  - unfold sp_mag, sp_mag2, sobj_of in *; repeat inv1; cbn; auto.
  - unfold sp_mag, sp_mag2, sobj_of in *; repeat inv1; cbn; auto.
  - unfold sp_mag2, sobj_of in *; repeat inv1; cbn; auto.
  - unfold sp_mag2, sobj_of in *; repeat inv1; cbn; auto.
  - unfold spht in *. destruct (spht_sizes _ _ _ _). repeat inv1; cbn; auto.
  - unfold vspht in *. cbv zeta in *. destruct (spht_sizes _ _ _ _). repeat inv1. cbn.
    match goal with H : sizedV ?c, H1 : windowed (vc_1 RN ?c) _ = Ok _, H2 : windowed (vc_2 RN ?c) _ = Ok _ |- _ =>
      apply windowed_samesz in H1, H2; destruct H as [A [B [D1 [D2 [D3 D4]]]]] end.
    unfold sizedV. cbn [vc_1 vc_2 vc_nmax vc_mmax].
    split; [eapply samesz_sized; eauto|]. split; [eapply samesz_sized; eauto|].
    unfold samesz in *. intuition congruence.
Qed.
Lemma sized_any h h' o : sized (oval h o) -> sized (oval h' o).
Proof.
  induction o as [a|b|c|c|d| |p|x IHx y IHy|x|]; cbn [oval sized]; auto.
  - unfold sizedS, scv. cbn [sc_nmax sc_mmax sc_vec]. unfold rd. change (@zlen (cplx RN)) with (@zlen C). rewrite !zlen_vmake. auto.
  - unfold sizedV, sizedS, vcv, scv. cbn [vc_1 vc_2 vc_nmax vc_mmax sc_nmax sc_mmax sc_vec]. unfold rd.
    change (@zlen (cplx RN)) with (@zlen C). rewrite !zlen_vmake. auto.
  - intros [A B]. auto.
Qed.
Definition sizes (s : state) : Prop := forall x o, s_env s x = Some o -> sized (oval (s_heap s) o).
Lemma exec_sized be p os h o h' : be_wf be -> Forall (ok_obj h) os -> Forall (fun o => sized (oval h o)) os ->
  exec be p os h = (Ok o, h') -> sized (oval h' o).
Proof.
  intros WB OK SZ E. destruct (writes p) eqn:Hw.
  - destruct p; try discriminate Hw; cbn [exec] in E;
      repeat match type of E with context [match ?l with _ => _ end] => is_var l; destruct l end; try discriminate E.
    all: try solve [unfold hvoid, hbind in E; match type of E with (match ?m with _ => _ end) = _ => destruct m as [[u|e] h1] end; [injection E as <- <-; exact I|discriminate E]].
    unfold hbind in E. destruct (h_vc_new a a0 nmax mmax h) as [[c|e] h1] eqn:EV; [|discriminate E]. injection E as <- <-.
    cbn [oval sized]. unfold h_vc_new in EV. destruct (Z.eqb_spec (a_len a) (a_len a0)) as [EL|]; [|discriminate EV]. cbn [negb] in EV.
    destruct (Z.gtb_spec mmax nmax); [discriminate EV|]. destruct (Z.eqb_spec (ncoef nmax mmax) (a_len a)) as [EN|]; [|discriminate EV]. cbn [negb] in EV.
    unfold hbind in EV. destruct (aset a 0 (RtoC 0) h) as [[?|] ?]; [|discriminate EV]. destruct (aset a0 0 (RtoC 0) h0) as [[?|] ?]; [|discriminate EV].
    assert (HN : forall x hh, a_len x = a_len a -> h_sc_new x nmax mmax hh = (Ok (mkHSC x nmax mmax), hh)).
    { intros x hh Hx. unfold h_sc_new. destruct (Z.gtb_spec mmax nmax); [lia|]. rewrite Hx, EN, Z.eqb_refl. reflexivity. }
    rewrite HN in EV by reflexivity. rewrite HN in EV by auto. injection EV as <- <-.
    assert (HA : ok_arr h a /\ ok_arr h a0).
    { inversion OK as [|? ? O1 O2]; subst. inversion O2; subst. cbn [ok_obj] in *. auto. } destruct HA as [HA HB].
    unfold sizedV, sizedS, vcv, scv. cbn [vc_1 vc_2 vc_nmax vc_mmax sc_nmax sc_mmax sc_vec hv_1 hv_2 hv_nmax hv_mmax hs_arr hs_nmax hs_mmax].
    unfold rd. change (@zlen (cplx RN)) with (@zlen C). rewrite !zlen_vmake. rewrite !Z.max_r by (apply HA || apply HB). rewrite <- EL, <- EN. auto 10.
  - pose proof (exec_rel be p os h WB Hw OK) as R. unfold rel in R. rewrite E in R.
    destruct (peval be p (map (oval h) os)) as [v|] eqn:EP; [|contradiction]. rewrite R.
    eapply peval_sized; [exact Hw| |exact EP]. rewrite Forall_map. exact SZ.
Qed.
Lemma step_sizes be c s : be_wf be -> wf s -> sizes s -> sizes (step be c s).
Proof.
  intros WB W SZ x o. unfold step. destruct (lookups (s_env s) (c_args c)) as [os|] eqn:EL; [|apply SZ].
  assert (F : Forall (fun o => sized (oval (s_heap s) o)) os).
  { apply lookups_spec in EL. clear - EL SZ. induction EL; constructor; eauto. }
  pose proof (lookups_ok _ _ _ W EL) as OK.
  destruct (exec be (c_prim c) os (s_heap s)) as [[o'|e] h'] eqn:EX; cbn [s_env s_heap].
  - unfold set_var. destruct (Nat.eqb x (c_dst c)).
    + intro E. injection E as <-. eapply exec_sized; eauto.
    + intro E. eapply sized_any. eapply SZ; eauto.
  - intro E. eapply sized_any. eapply SZ; eauto.
Qed.
Lemma run_sizes be p s : be_wf be -> wf s -> sizes s -> sizes (run be p s).
Proof.
  intro WB. revert s; induction p as [|c p IH]; intros s W SZ; cbn; auto. apply IH; [apply (step_stepped be c s W)|apply step_sizes; auto].
Qed.
Lemma sizes_start : sizes start.
Proof. intros x o. discriminate. Qed.
Lemma backend_wf u j jr ji : be_wf (MCsphi.backend_of u j jr ji).
Proof. unfold MCsphi.backend_of. destruct (MCsphi.truthy u); [apply be_wf_c|apply be_wf_py]. Qed.
