(** * HeapRef9: views and references. *)
From Coq Require Import ZArith List String Bool Reals Lia.
From Coquelicot Require Import Complex.
From Verif Require Import Py PyFacts Num Exact MCoefs SpecCoefs CoefsFacts MPatt PattFacts Sums MPysphi MOps MTrans MHeap SpecHeap HeapFacts HeapFacts2 HeapFacts3 HeapRef HeapRef2 HeapRef3 HeapRef4 HeapRef5 HeapRef6 HeapRef7 HeapRef8.
Import ListNotations.
Open Scope list_scope.
Open Scope Z_scope.

(** The reference returned does not depend on the contents of the store. *)
Definition constant {A} (m : hm A) : Prop := exists r, forall h, m h = (r, h).
Lemma constant_ret A (a : A) : constant (hret a).
Proof. eexists. reflexivity. Qed.
Lemma constant_raise A e : constant (@hraise A e).
Proof. eexists. reflexivity. Qed.
Lemma constant_lift A (r : res A) : constant (hlift r).
Proof. eexists. reflexivity. Qed.
Lemma constant_bind A B (m : hm A) (f : A -> hm B) : constant m -> (forall a, constant (f a)) -> constant (hbind m f).
Proof.
  intros [r Hr] Hf. destruct r as [a|e].
  - destruct (Hf a) as [r2 H2]. exists r2. intro h. unfold hbind. rewrite Hr. apply H2.
  - exists (Raise e). intro h. unfold hbind. rewrite Hr. reflexivity.
Qed.
Ltac cst := repeat first [apply constant_ret|apply constant_raise|apply constant_lift|apply constant_bind; [|intro]
  |match goal with |- constant (if ?b then _ else _) => destruct b end].
Lemma constant_col c m : constant (h_sc_col c m).
Proof. unfold h_sc_col. cst. Qed.
Lemma shares_constant be p os : shares p = true -> constant (exec be p os).
Proof.
  intro Hs. destruct p; try discriminate Hs; cbn [exec];
    repeat match goal with |- constant (match ?l with _ => _ end) => is_var l; destruct l end; unfold bad_args; try discriminate Hs.
  all: try solve [cst].
  all: try solve [unfold h_sc_new, h_sp_new, h_tp_new; cst].
  - unfold arow. cst.
  - unfold h_getitem. destruct arg as [[|i0 [|i1 [|i2 l]]]|]; try discriminate Hs; destruct i0; try discriminate Hs; destruct i1; try discriminate Hs.
    destruct o; unfold bad_args; repeat match goal with |- constant (match ?l with _ => _ end) => destruct l end;
      repeat first [apply constant_col|apply constant_ret|apply constant_raise|apply constant_bind; [|intro]].
  - destruct ds; [|discriminate Hs]. unfold h_sp_new. cst.
  - destruct ds; [|discriminate Hs]. unfold h_tp_new. cst.
Qed.

Lemma shares_no_write p : shares p = true -> writes p = false /\ in_place p = false.
Proof. unfold shares. destruct p; cbn; try discriminate; auto; destruct (makes_new _); auto. Qed.
Lemma lookups_ext_in e e' l : (forall x, In x l -> e x = e' x) -> lookups e l = lookups e' l.
Proof.
  induction l as [|x l IH]; cbn; intro H; [reflexivity|]. rewrite H by auto. rewrite IH by auto. reflexivity.
Qed.

Lemma views_track be x p args s vs v rest : wf s -> be_wf be -> shares p = true -> ~ In x args ->
  vals s args = Some vs -> peval be p vs = Ok v ->
  never_assigns x rest -> (forall a, In a args -> never_assigns a rest) ->
  let s2 := run be rest (step be (Do x p args) s) in
  exists vs2 v2, vals s2 args = Some vs2 /\ peval be p vs2 = Ok v2 /\ val s2 x = Some v2.
Proof.
  intros W WB Hs Hx HV HP HNx HNa. cbv zeta. destruct (shares_no_write p Hs) as [Hw _].
  rewrite vals_lookups in HV. destruct (lookups (s_env s) args) as [os|] eqn:EL; [|discriminate HV]. injection HV as <-.
  destruct (shares_constant be p os Hs) as [r Hr].
  pose proof (exec_rel be p os (s_heap s) WB Hw (lookups_ok _ _ _ W EL)) as R. unfold rel in R. rewrite Hr, HP in R.
  destruct r as [o|e]; [|contradiction].
  assert (ES : step be (Do x p args) s = mkSt (set_var (s_env s) x o) (s_heap s)).
  { unfold step. cbn [c_args c_prim c_dst]. rewrite EL, Hr. reflexivity. }
  pose proof (st_wf _ _ _ (step_stepped be (Do x p args) s W)) as W1.
  set (s2 := run be rest (step be (Do x p args) s)).
  assert (W2 : wf s2) by (apply run_wf; exact W1).
  assert (Ex : s_env s2 x = Some o).
  { unfold s2. rewrite run_keeps_var by exact HNx. rewrite ES. cbn. unfold set_var. rewrite Nat.eqb_refl. reflexivity. }
  assert (EL2 : lookups (s_env s2) args = Some os).
  { rewrite <- EL. apply lookups_ext_in. intros a Ha. unfold s2. rewrite run_keeps_var by auto. rewrite ES. cbn. unfold set_var.
    destruct (Nat.eqb_spec a x); [subst; contradiction|reflexivity]. }
  pose proof (exec_rel be p os (s_heap s2) WB Hw (lookups_ok _ _ _ W2 EL2)) as R2. unfold rel in R2. rewrite Hr in R2.
  destruct (peval be p (map (oval (s_heap s2)) os)) as [v2|] eqn:EP2; [|contradiction].
  exists (map (oval (s_heap s2)) os), v2. split; [rewrite vals_lookups, EL2; reflexivity|]. split; [exact EP2|].
  unfold val. rewrite Ex, R2. reflexivity.
Qed.

Lemma py_index_in len i : 0 <= i < len -> py_index len i = Ok i.
Proof. intro H. unfold py_index. destruct (Z.leb_spec 0 i), (Z.ltb_spec i len); try lia. reflexivity. Qed.
(** Writing through a column view is assigning a coefficient. *)
Lemma col_write h c m v i z : ok_arr h (hs_arr c) -> sizedS (scv h c) -> 0 <= hs_mmax c ->
  fst (h_sc_col c m h) = Ok v -> 0 <= i <= hs_nmax c - Z.abs m ->
  aset v i z h = h_sc_set_elem c (Z.abs m + i) m z h.
Proof.
  intros O [S1 S2] Hmm HC Hi. cbn [scv sc_nmax sc_mmax sc_vec] in *. change (@zlen (cplx RN)) with (@zlen C) in S2. rewrite (zlen_rd_ok h h _ O) in S2.
  unfold h_sc_col in HC. destruct (Z.gtb_spec (Z.abs m) (hs_mmax c)) as [|Hm]; [discriminate HC|].
  rewrite mindx_closed in HC by lia. unfold hbind, hlift in HC. cbn [fst hret] in HC. injection HC as <-.
  unfold h_sc_set_elem, h_sc_index.
  destruct (Z.ltb_spec (Z.abs m + i) 0); [lia|]. destruct (Z.gtb_spec (Z.abs m + i) (hs_nmax c)); [lia|]. cbn [orb].
  destruct (Z.gtb_spec (Z.abs m) (Z.abs m + i)); [lia|]. destruct (Z.gtb_spec (Z.abs m) (hs_mmax c)); [lia|]. cbn [orb].
  rewrite mindx_closed by lia. cbn [bind]. 
  replace (cstart (hs_nmax c) m + (Z.abs m + i) - Z.abs m) with (cstart (hs_nmax c) m + i) by lia.
  assert (B : 0 <= cstart (hs_nmax c) m /\ cstart (hs_nmax c) m + (hs_nmax c - Z.abs m + 1) <= a_len (hs_arr c)).
  { rewrite <- S2. pose proof (cstart_range (hs_nmax c) (hs_mmax c) m). unfold good_size in *. lia. }
  unfold aset. cbn [aview a_loc a_off a_len].
  assert (SB : forall k, 0 <= k <= a_len (hs_arr c) -> slice_bound (a_len (hs_arr c)) k = k).
  { intros k Hk. unfold slice_bound. destruct (Z.ltb_spec k 0); lia. }
  rewrite (SB (cstart (hs_nmax c) m)) by lia. rewrite SB by lia.
  unfold hbind, hlift. rewrite !py_index_in by lia. rewrite Z.add_assoc. reflexivity.
Qed.

(** ** VectorCoefs(v1, v2, nmax, mmax) *)
Lemma vc_new_ok h a b n m c : fst (h_vc_new a b n m h) = Ok c -> c = mkHVC (mkHSC a n m) (mkHSC b n m) n m.
Proof.
  unfold h_vc_new. destruct (a_len a =? a_len b); [|discriminate]. cbn [negb]. destruct (m >? n); [discriminate|].
  destruct (ncoef n m =? a_len a); [|discriminate]. cbn [negb]. unfold hbind.
  destruct (aset a 0 (RtoC 0) h) as [[?|] h1]; [|discriminate]. destruct (aset b 0 (RtoC 0) h1) as [[?|] h2]; [|discriminate].
  unfold h_sc_new. destruct (m >? n); [discriminate|]. destruct (negb (ncoef n m =? a_len a)); [discriminate|].
  cbn [hret]. destruct (negb (ncoef n m =? a_len b)); [discriminate|]. cbn [hret fst]. intro E. injection E as <-. reflexivity.
Qed.
Lemma vc_new_succeeds h a b n m : ok_arr h a -> a_len a = a_len b -> m <= n -> ncoef n m = a_len a -> 0 < a_len a ->
  h_vc_new a b n m h =
    (Ok (mkHVC (mkHSC a n m) (mkHSC b n m) n m), snd (hstore (a_loc b) (a_off b + 0) [RtoC 0] (snd (hstore (a_loc a) (a_off a + 0) [RtoC 0] h)))).
Proof.
  intros O HL Hm Hn Hp. unfold h_vc_new. rewrite HL, Z.eqb_refl. cbn [negb].
  destruct (Z.gtb_spec m n); [lia|]. rewrite <- HL, Hn, Z.eqb_refl. cbn [negb].
  unfold hbind, aset. rewrite <- HL. unfold hbind, hlift. rewrite py_index_in by lia. cbn [hstore].
  unfold h_sc_new. destruct (Z.gtb_spec m n); [lia|]. rewrite <- HL, Hn, Z.eqb_refl. cbn [negb hret snd]. reflexivity.
Qed.
(** Otherwise nothing is written. *)
Lemma vc_new_fails h a b n m e : fst (h_vc_new a b n m h) = Raise e -> snd (h_vc_new a b n m h) = h.
Proof.
  unfold h_vc_new. destruct (Z.eqb_spec (a_len a) (a_len b)) as [HL|]; [|reflexivity]. cbn [negb].
  destruct (Z.gtb_spec m n); [reflexivity|]. destruct (Z.eqb_spec (ncoef n m) (a_len a)) as [HN|]; [|reflexivity]. cbn [negb].
  unfold hbind, aset, hlift. unfold hbind. rewrite <- HL. destruct (py_index (a_len a) 0) as [k|]; [|reflexivity]. cbn [hstore].
  unfold h_sc_new. destruct (Z.gtb_spec m n); [lia|]. rewrite <- HL, HN, Z.eqb_refl. cbn. discriminate.
Qed.
Lemma rd_store_at h a l off z i : ok_arr h a -> (l < List.length h)%nat -> 0 <= i < a_len a ->
  vget (RtoC 0) (rd (snd (hstore l off [z] h)) a) i =
    if (Nat.eqb (a_loc a) l) && (a_off a + i =? off) then z else vget (RtoC 0) (rd h a) i.
Proof.
  intros [A [B [D E]]] Hl Hi. rewrite !vget_rd by exact Hi. cbn [hstore snd]. unfold buf at 1. rewrite nth_upd.
  destruct (Nat.eqb_spec (a_loc a) l) as [El|Hne]; [|reflexivity]. subst l. destruct (Nat.ltb_spec (a_loc a) (List.length h)); [|lia]. cbn [andb].
  unfold wrb. rewrite vget_vmake by lia. unfold zlen; cbn [List.length].
  destruct (Z.eqb_spec (a_off a + i) off) as [Eo|Hno].
  - subst off. destruct (Z.leb_spec (a_off a + i) (a_off a + i)); [|lia].
    destruct (Z.ltb_spec (a_off a + i) (a_off a + i + Z.of_nat 1)); [|lia]. cbn [andb]. rewrite Z.sub_diag. reflexivity.
  - destruct (Z.leb_spec off (a_off a + i)); [|reflexivity]. destruct (Z.ltb_spec (a_off a + i) (off + Z.of_nat 1)); [lia|reflexivity].
Qed.
