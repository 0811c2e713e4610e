(** * HeapRef: the store model MHeap.v computes the values of the models
    MCoefs.v, MPatt.v, MOps.v and MTrans.v. *)
From Coq Require Import ZArith List String Bool Reals Lia.
From Coquelicot Require Import Complex.
From Verif Require Import Py PyFacts Num Exact MCoefs CoefsFacts MPatt Sums MPysphi MOps MTrans MHeap SpecHeap HeapFacts HeapFacts2 HeapFacts3.
Import ListNotations.
Open Scope list_scope.
Open Scope Z_scope.

(** The store computation m, started in h, has the outcome r, the results
    being related by Q. *)
Definition rel {A B} (h : heap) (m : hm A) (r : res B) (Q : A -> B -> heap -> Prop) : Prop :=
  match m h, r with
  | (Ok a, h'), Ok b => Q a b h'
  | (Raise e, _), Raise e' => e = e'
  | _, _ => False
  end.
Lemma rel_ret A B h (a : A) (b : B) (Q : A -> B -> heap -> Prop) : Q a b h -> rel h (hret a) (Ok b) Q.
Proof. intro H. exact H. Qed.
Lemma rel_raise A B h e (Q : A -> B -> heap -> Prop) : rel h (hraise e) (Raise e) Q.
Proof. reflexivity. Qed.
Lemma rel_conseq A B h (m : hm A) (r : res B) (Q Q' : A -> B -> heap -> Prop) :
  rel h m r Q -> (forall a b h', Q a b h' -> Q' a b h') -> rel h m r Q'.
Proof. unfold rel. intros H HQ. destruct (m h) as [[a|e] h'], r; auto. Qed.
Lemma rel_spec A B n0 W h (m : hm A) (r : res B) (Q : A -> B -> heap -> Prop) P :
  rel h m r Q -> spec n0 W h m P -> rel h m r (fun a b h' => Q a b h' /\ P a h' /\ post n0 W h h').
Proof.
  unfold rel, spec. intros H [HP HQ]. destruct (m h) as [[a|e] h'], r; cbn [fst snd] in *; auto.
Qed.
Lemma rel_bind A B A' B' h (m : hm A) (r : res B) (f : A -> hm A') (g : B -> res B') (Q1 : A -> B -> heap -> Prop) Q :
  rel h m r Q1 -> (forall a b h1, Q1 a b h1 -> rel h1 (f a) (g b) Q) -> rel h (hbind m f) (bind r g) Q.
Proof.
  unfold rel, hbind, bind. intros H HQ. destruct (m h) as [[a|e] h'], r; try contradiction; auto.
  apply HQ. exact H.
Qed.
Lemma rel_read A B X h (g : heap -> X) (f : X -> hm A) (r : res B) Q :
  rel h (f (g h)) r Q -> rel h (hbind (hread g) f) r Q.
Proof. intro H. exact H. Qed.
Lemma rel_lift A B X h (r0 : res X) (f : X -> hm A) (g : X -> res B) Q :
  (forall x, r0 = Ok x -> rel h (f x) (g x) Q) -> rel h (hbind (hlift r0) f) (bind r0 g) Q.
Proof. unfold rel, hbind, hlift, bind. intro H. destruct r0; [apply H; reflexivity|reflexivity]. Qed.
Lemma rel_lift_end A h (r0 : res A) (Q : A -> A -> heap -> Prop) :
  (forall x, r0 = Ok x -> Q x x h) -> rel h (hlift r0) r0 Q.
Proof. unfold rel, hlift. intro H. destruct r0; [apply H; reflexivity|reflexivity]. Qed.

Lemma rd_new h v a h' : np_new v h = (Ok a, h') -> rd h' a = v.
Proof.
  unfold np_new, halloc, hbind, hret. intro E. injection E as <- <-. unfold rd. cbn [a_len a_loc a_off].
  rewrite buf_new. apply vmake_vget.
Qed.
Lemma rel_new A B h v (f : arr -> hm A) (r : res B) Q :
  (forall a h', post (List.length h) [] h h' -> fresh_arr (List.length h) a h' -> rd h' a = v -> a_len a = zlen v ->
     rel h' (f a) r Q) ->
  rel h (hbind (np_new v) f) r Q.
Proof.
  intro H. destruct (spec_np_new (List.length h) [] h v (le_n _)) as [HP HQ].
  unfold rel, hbind. destruct (np_new v h) as [[a|e] h'] eqn:E.
  - cbn [fst snd] in *. destruct (HQ a eq_refl). apply H; auto. eapply rd_new; eauto.
  - unfold np_new, halloc, hbind, hret in E. discriminate.
Qed.

Lemma zlen_rd h a : 0 <= a_len a -> zlen (rd h a) = a_len a.
Proof. intro H. unfold rd. rewrite zlen_vmake. lia. Qed.
Lemma zlen_rd_ok h h' a : ok_arr h a -> zlen (rd h' a) = a_len a.
Proof. intros [_ [_ [H _]]]. apply zlen_rd. exact H. Qed.
Lemma vget_rd h a i : 0 <= i < a_len a -> vget (RtoC 0) (rd h a) i = vget (RtoC 0) (buf h (a_loc a)) (a_off a + i).
Proof. intro H. unfold rd. rewrite vget_vmake; auto. Qed.

(** Keeping what is known of an array across a step. *)
Lemma rd_keep n0 W h h' a : post n0 W h h' -> (a_loc a < n0)%nat -> ~ In (a_loc a) W -> rd h' a = rd h a.
Proof. intros [_ [P _]] H1 H2. apply rd_ext. apply P; auto. Qed.
Lemma rd2_keep n0 W h h' a : post n0 W h h' -> (b_loc a < n0)%nat -> ~ In (b_loc a) W -> rd2 h' a = rd2 h a.
Proof. intros [_ [P _]] H1 H2. apply rd2_ext. apply P; auto. Qed.

(** ** Views and assignments *)
Lemma py_slice_gen {A} (d : A) v i j :
  py_slice v i j = vmake (Z.max 0 (slice_bound (zlen v) j - slice_bound (zlen v) i)) (fun k => vget d v (slice_bound (zlen v) i + k)).
Proof.
  pose proof (slice_bound_range (zlen v) i (zlen_nonneg v)). pose proof (slice_bound_range (zlen v) j (zlen_nonneg v)).
  destruct (Z.leb_spec (slice_bound (zlen v) i) (slice_bound (zlen v) j)).
  - unfold py_slice. set (a := slice_bound (zlen v) i) in *. set (b := slice_bound (zlen v) j) in *.
    apply (vget_ext d).
    + rewrite zlen_firstn, zlen_skipn, zlen_vmake by lia. lia.
    + rewrite zlen_firstn, zlen_skipn by lia. intros k Hk. rewrite vget_firstn, vget_skipn, vget_vmake by lia. f_equal.
  - unfold py_slice. replace (Z.to_nat (slice_bound (zlen v) j - slice_bound (zlen v) i)) with 0%nat by lia.
    replace (Z.max 0 (slice_bound (zlen v) j - slice_bound (zlen v) i)) with 0 by lia. reflexivity.
Qed.
Lemma rd_aview h a i j : 0 <= a_len a -> rd h (aview a i j) = py_slice (rd h a) i j.
Proof.
  intro H. rewrite (py_slice_gen (RtoC 0)). rewrite zlen_rd by exact H. unfold rd at 1, aview. cbn [a_len a_loc a_off].
  pose proof (slice_bound_range (a_len a) i H). pose proof (slice_bound_range (a_len a) j H).
  apply vmake_ext. intros k Hk. rewrite vget_rd by lia. f_equal. lia.
Qed.

Lemma buf_upd h l x : (l < List.length h)%nat -> buf (upd h l x) l = x.
Proof. intro H. unfold buf. rewrite HeapFacts.nth_upd, Nat.eqb_refl. destruct (Nat.ltb_spec l (List.length h)); [reflexivity|lia]. Qed.
Lemma vget_wrb b off w k : 0 <= k < zlen b ->
  vget (RtoC 0) (wrb b off w) k = if (off <=? k) && (k <? off + zlen w) then vget (RtoC 0) w (k - off) else vget (RtoC 0) b k.
Proof. intro H. unfold wrb. rewrite vget_vmake; auto. Qed.
Lemma rd_store h a off w : ok_arr h a -> 
  rd (upd h (a_loc a) (wrb (buf h (a_loc a)) (a_off a + off) w)) a =
  vmake (a_len a) (fun k => if (off <=? k) && (k <? off + zlen w) then vget (RtoC 0) w (k - off) else vget (RtoC 0) (rd h a) k).
Proof.
  intros [A [B [D E]]]. unfold rd at 1. rewrite buf_upd by exact A. apply vmake_ext. intros k Hk.
  rewrite vget_wrb by lia. rewrite vget_rd by lia.
  replace (a_off a + off <=? a_off a + k) with (off <=? k) by (destruct (Z.leb_spec off k), (Z.leb_spec (a_off a + off) (a_off a + k)); auto; lia).
  replace (a_off a + k <? a_off a + off + zlen w) with (k <? off + zlen w) by (destruct (Z.ltb_spec k (off + zlen w)), (Z.ltb_spec (a_off a + k) (a_off a + off + zlen w)); auto; lia).
  destruct ((off <=? k) && (k <? off + zlen w)); [|reflexivity]. f_equal. lia.
Qed.
Lemma rel_aset h a i x : ok_arr h a -> rel h (aset a i x) (py_set (rd h a) i x) (fun _ v h' => rd h' a = v).
Proof.
  intro O. unfold aset, py_set. rewrite (zlen_rd_ok h h a O). apply rel_lift. intros k Hk.
  apply py_index_range in Hk. unfold rel, hstore. rewrite rd_store by exact O.
  apply (vget_ext (RtoC 0)); rewrite zlen_vmake, ?zlen_vset, ?(zlen_rd_ok h h a O); [lia|].
  intros j Hj. rewrite vget_vmake by lia. rewrite vget_vset by (rewrite (zlen_rd_ok h h a O); lia).
  unfold zlen at 1; cbn [List.length]. destruct (Z.eqb_spec j k).
  - subst. destruct (Z.leb_spec k k); [|lia]. destruct (Z.ltb_spec k (k + Z.of_nat 1)); [|lia]. cbn [andb].
    rewrite Z.sub_diag. reflexivity.
  - destruct (Z.leb_spec k j), (Z.ltb_spec j (k + Z.of_nat 1)); cbn [andb]; auto; lia.
Qed.
Lemma py_slice_set_gen {A} (d : A) v i j w :
  let a := slice_bound (zlen v) i in
  let n := Z.max 0 (slice_bound (zlen v) j - a) in
  py_slice_set v i j w =
  if zlen w =? n then Ok (vmake (zlen v) (fun k => if (a <=? k) && (k <? a + n) then vget d w (k - a) else vget d v k))
  else match w with
       | [x] => Ok (vmake (zlen v) (fun k => if (a <=? k) && (k <? a + n) then x else vget d v k))
       | _ => Raise NumpyError
       end.
Proof.
  intros a n. pose proof (slice_bound_range (zlen v) i (zlen_nonneg v)). pose proof (slice_bound_range (zlen v) j (zlen_nonneg v)).
  assert (G : forall w', zlen w' = n -> firstn (Z.to_nat a) v ++ w' ++ skipn (Z.to_nat (a + n)) v =
     vmake (zlen v) (fun k => if (a <=? k) && (k <? a + n) then vget d w' (k - a) else vget d v k)).
  { intros w' Hw. unfold n, a in *. apply (vget_ext d).
    - rewrite !zlen_app, zlen_firstn, zlen_skipn, zlen_vmake by lia. lia.
    - rewrite !zlen_app, zlen_firstn, zlen_skipn by lia. intros k Hk. rewrite vget_vmake by lia.
      rewrite vget_app by lia. rewrite zlen_firstn by lia. rewrite Z.min_l by lia.
      destruct (Z.ltb_spec k (slice_bound (zlen v) i)).
      + destruct (Z.leb_spec (slice_bound (zlen v) i) k); [lia|]. cbn [andb]. apply vget_firstn. lia.
      + destruct (Z.leb_spec (slice_bound (zlen v) i) k); [|lia]. cbn [andb].
        rewrite vget_app by lia. rewrite Hw.
        set (n' := Z.max 0 (slice_bound (zlen v) j - slice_bound (zlen v) i)) in *.
        destruct (Z.ltb_spec (k - slice_bound (zlen v) i) n'), (Z.ltb_spec k (slice_bound (zlen v) i + n')); try lia; auto.
        rewrite vget_skipn by (unfold n' in *; lia). f_equal. lia. }
  unfold py_slice_set. fold a.
  replace (Z.max a (slice_bound (zlen v) j) - a) with n by (unfold n; lia).
  replace (Z.max a (slice_bound (zlen v) j)) with (a + n) by (unfold n; lia).
  destruct (Z.eqb_spec (zlen w) n).
  - rewrite G by assumption. reflexivity.
  - destruct w as [|x [|y w]]; try reflexivity. rewrite G by (rewrite zlen_repeat; unfold n; lia). f_equal.
    apply vmake_ext. intros k Hk. destruct (Z.leb_spec a k), (Z.ltb_spec k (a + n)); cbn [andb]; auto.
    apply vget_repeat. lia.
Qed.
Lemma rel_asetslice h a i j w : ok_arr h a ->
  rel h (asetslice a i j w) (py_slice_set (rd h a) i j w) (fun _ v h' => rd h' a = v).
Proof.
  intro O. rewrite (py_slice_set_gen (RtoC 0)). cbv zeta. rewrite (zlen_rd_ok h h a O). unfold asetslice.
  cbn [aview a_len a_loc a_off].
  destruct (zlen w =? _) eqn:E.
  - unfold rel, hstore. rewrite rd_store by exact O. apply Z.eqb_eq in E. rewrite E. reflexivity.
  - destruct w as [|x [|y w]]; try reflexivity. unfold rel, hstore. rewrite rd_store by exact O.
    rewrite zlen_vmake. apply vmake_ext. intros k Hk.
    replace (Z.max 0 (Z.max 0 (slice_bound (a_len a) j - slice_bound (a_len a) i))) with (Z.max 0 (slice_bound (a_len a) j - slice_bound (a_len a) i)) by lia.
    destruct (Z.leb_spec (slice_bound (a_len a) i) k), (Z.ltb_spec k (slice_bound (a_len a) i + Z.max 0 (slice_bound (a_len a) j - slice_bound (a_len a) i))); cbn [andb]; auto.
    rewrite vget_vmake by lia. reflexivity.
Qed.
Lemma aget_eq h a i : aget a i h = (py_get (RtoC 0) (rd h a) i, h).
Proof. reflexivity. Qed.

Ltac lrel := unfold rel, spec in *; cbn [fst snd] in *.
Lemma rel_for S l (f : Z -> hm unit) (g : Z -> S -> res S) (I : S -> heap -> Prop) : forall h s,
  I s h -> (forall i s1 h1, I s1 h1 -> rel h1 (f i) (g i s1) (fun _ s2 h2 => I s2 h2)) ->
  rel h (hfor l f) (mfor l g s) (fun _ s2 h2 => I s2 h2).
Proof.
  induction l as [|i l IH]; intros h s Hi Hf; cbn [hfor mfor].
  - apply rel_ret. exact Hi.
  - eapply rel_bind; [apply Hf; exact Hi|]. intros [] s1 h1 H1. apply IH; auto.
Qed.
(** Keep a fact about another array while assigning to one. *)
Lemma rel_asetslice' h a i j w (x : arr) : ok_arr h a -> ok_arr h x -> a_loc x <> a_loc a ->
  rel h (asetslice a i j w) (py_slice_set (rd h a) i j w)
    (fun _ v h' => rd h' a = v /\ rd h' x = rd h x /\ ok_arr h' a /\ ok_arr h' x).
Proof.
  intros Oa Ox Hne. eapply rel_conseq.
  - eapply (rel_spec _ _ (List.length h) [a_loc a]); [apply rel_asetslice; exact Oa|].
    apply spec_asetslice. left. left. reflexivity.
  - cbn beta. intros _ v h' [E [_ P]]. split; [exact E|]. split; [|split; eapply ok_arr_mono; eauto].
    eapply rd_keep; [exact P|apply Ox|]. intros [H|[]]. congruence.
Qed.
Lemma rel_aset' h a i z (x : arr) : ok_arr h a -> ok_arr h x -> a_loc x <> a_loc a ->
  rel h (aset a i z) (py_set (rd h a) i z)
    (fun _ v h' => rd h' a = v /\ rd h' x = rd h x /\ ok_arr h' a /\ ok_arr h' x).
Proof.
  intros Oa Ox Hne. eapply rel_conseq.
  - eapply (rel_spec _ _ (List.length h) [a_loc a]); [apply rel_aset; exact Oa|].
    apply spec_aset. left. left. reflexivity.
  - cbn beta. intros _ v h' [E [_ P]]. split; [exact E|]. split; [|split; eapply ok_arr_mono; eauto].
    eapply rd_keep; [exact P|apply Ox|]. intros [H|[]]. congruence.
Qed.

(** ** ScalarCoefs *)
Lemma rel_sc_new h a n m : 0 <= a_len a ->
  rel h (h_sc_new a n m) (sc_new RN (rd h a) n m) (fun c v h' => h' = h /\ c = mkHSC a n m /\ scv h' c = v).
Proof.
  intro H. unfold h_sc_new, sc_new. rewrite zlen_rd by exact H.
  destruct (m >? n); [apply rel_raise|]. destruct (negb _); [apply rel_raise|]. apply rel_ret. auto.
Qed.
Lemma rel_sc_copy h c : ok_arr h (hs_arr c) ->
  rel h (h_sc_copy c) (sc_copy RN (scv h c)) (fun d v h' => scv h' d = v).
Proof.
  intro O. unfold h_sc_copy, np_copy, sc_copy. unfold hbind at 2. unfold hread. cbn [sc_vec scv sc_nmax sc_mmax].
  apply rel_new. intros a h' P F E L. rewrite <- E. eapply rel_conseq.
  - apply rel_sc_new. rewrite L. apply zlen_nonneg.
  - cbn beta. intros ? ? ? [_ [_ H]]. exact H.
Qed.
Lemma h_get_elem_eq h c n m : h_sc_get_elem c n m h = (sc_get_elem RN (scv h c) n m, h).
Proof.
  unfold h_sc_get_elem, sc_get_elem, h_sc_index, sc_elem_index. cbn [scv sc_nmax sc_mmax sc_vec].
  destruct ((n <? 0) || _); [reflexivity|]. destruct (_ || _); [reflexivity|].
  destruct (mindx _ _ _); reflexivity.
Qed.
Lemma h_col_eq h c m : 0 <= a_len (hs_arr c) ->
  match h_sc_col c m h with (Ok a, h') => h' = h /\ forall h1, sc_get_col RN (scv h1 c) m = Ok (rd h1 a)
  | (Raise e, h') => h' = h /\ forall h1, sc_get_col RN (scv h1 c) m = Raise e end.
Proof.
  intro H. unfold h_sc_col, sc_get_col. cbn [scv sc_nmax sc_mmax sc_vec].
  destruct (Z.abs m >? hs_mmax c); [split; reflexivity|]. unfold hbind, hlift.
  destruct (mindx m (hs_nmax c) (hs_mmax c)) as [a|e]; [|split; reflexivity]. cbn [bind hret]. split; [reflexivity|].
  intro h1. rewrite rd_aview by exact H. reflexivity.
Qed.
Lemma h_collect_eq h l (f : Z -> hm C) (g : Z -> res C) :
  (forall i, f i h = (g i, h)) -> h_collect l f h = (mmap g l, h).
Proof.
  intro H. induction l as [|i l IH]; [reflexivity|]. cbn [h_collect mmap]. unfold hbind. rewrite H.
  destruct (g i); [|reflexivity]. rewrite IH. cbn [bind]. destruct (mmap g l); reflexivity.
Qed.
Lemma rel_row h c n : rel h (h_sc_row c n) (sc_get_row RN (scv h c) n) (fun a v h' => rd h' a = v).
Proof.
  unfold h_sc_row, sc_get_row. cbn [scv sc_nmax sc_mmax sc_vec]. destruct (_ || _); [apply rel_raise|].
  change (sc_nn RN (scv h c) n) with (h_nn c n). cbv zeta.
  unfold rel, hbind. rewrite (h_collect_eq h _ _ (fun m => sc_get_elem RN (scv h c) n m)) by (intro i; apply h_get_elem_eq).
  unfold scv. destruct (mmap _ _) as [l|e]; [|reflexivity].
  destruct (np_new l h) as [[a|e] h'] eqn:E; [apply (rd_new _ _ _ _ E)|discriminate].
Qed.
Lemma rel_trunc h c k : ok_arr h (hs_arr c) ->
  rel h (h_sc_trunc c k) (sc_trunc RN (scv h c) k) (fun d v h' => scv h' d = v).
Proof.
  intro O. unfold h_sc_trunc, sc_trunc. cbn [scv sc_nmax sc_mmax sc_vec]. destruct (k >? hs_nmax c); [apply rel_raise|].
  cbv zeta. set (mm := if k >? hs_mmax c then hs_mmax c else k).
  unfold np_zeros. apply rel_lift. intros z Ez. apply rel_new. intros vec h1 P1 F1 E1 L1.
  apply rel_read. assert (O1 : ok_arr h1 (hs_arr c)) by (eapply ok_arr_mono; eauto).
  assert (Hc : rd h1 (hs_arr c) = rd h (hs_arr c)) by (eapply rd_keep; [exact P1|apply O|intros []]).
  assert (Hne : a_loc (hs_arr c) <> a_loc vec) by (destruct F1 as [F _]; destruct O as [O _]; lia).
  rewrite rd_aview by apply O. rewrite Hc. rewrite <- E1.
  eapply rel_bind; [apply (rel_asetslice' h1 vec _ _ _ (hs_arr c)); [apply F1|exact O1|exact Hne]|].
  cbn beta. intros _ v h2 [E2 [K2 [Oa2 Ox2]]]. rewrite Hc in K2.
  eapply (rel_bind _ _ _ _ _ _ _ _ _ (fun _ v h' => rd h' vec = v /\ rd h' (hs_arr c) = rd h (hs_arr c) /\ ok_arr h' vec /\ ok_arr h' (hs_arr c))).
  - apply rel_for; [auto|]. clear v h2 E2 K2 Oa2 Ox2. intros m v h2 [E2 [K2 [Oa2 Ox2]]].
    apply rel_lift. intros idx _. apply rel_lift. intros nidx _. apply rel_read.
    rewrite rd_aview by apply O. rewrite K2. rewrite <- E2.
    eapply rel_bind; [apply (rel_asetslice' h2 vec _ _ _ (hs_arr c)); [exact Oa2|exact Ox2|exact Hne]|].
    cbn beta. intros _ v3 h3 [E3 [K3 [Oa3 Ox3]]]. rewrite K2 in K3.
    apply rel_lift. intros idx' _. apply rel_lift. intros nidx' _. apply rel_read.
    rewrite rd_aview by apply O. rewrite K3. rewrite <- E3.
    eapply rel_conseq; [apply (rel_asetslice' h3 vec _ _ _ (hs_arr c)); [exact Oa3|exact Ox3|exact Hne]|].
    cbn beta. intros _ v4 h4 [E4 [K4 [Oa4 Ox4]]]. rewrite K3 in K4. auto.
  - cbn beta. intros _ v3 h3 [E3 _]. rewrite <- E3. eapply rel_conseq; [apply rel_sc_new; apply F1|].
    cbn beta. intros ? ? ? [_ [_ H]]. exact H.
Qed.

(** ** In-place methods of ScalarCoefs.  [srel]: the outcome of the method and
    the value of the object afterwards (also after an exception). *)
Definition srel (h : heap) (m : hm unit) (c : hsc) (r : scoefs RN * res unit) : Prop :=
  fst (m h) = snd r /\ scv (snd (m h)) c = fst r.
Lemma srel_raise h c e : srel h (hraise e) c (scv h c, Raise e).
Proof. split; reflexivity. Qed.
Lemma srel_rel h m c (r : res (scoefs RN)) : rel h m r (fun _ v h' => scv h' c = v) ->
  (forall e, fst (m h) = Raise e -> snd (m h) = h) -> srel h m c (lift_res (scv h c) r).
Proof.
  unfold rel, srel, lift_res. destruct (m h) as [[[]|e] h'], r; cbn [fst snd]; try contradiction.
  - intros H _. auto.
  - intros <- Hh. split; [reflexivity|]. rewrite (Hh e eq_refl). reflexivity.
Qed.
Lemma scv_vec h c v : rd h (hs_arr c) = v -> scv h c = mkSC RN v (hs_nmax c) (hs_mmax c).
Proof. unfold scv. intros ->. reflexivity. Qed.
Definition total (h : heap) (m : hm unit) : Prop := forall e, fst (m h) = Raise e -> snd (m h) = h.
Lemma total_bind_lift {A} h (r : res A) f : (forall a, r = Ok a -> total h (f a)) -> total h (hbind (hlift r) f).
Proof. unfold total, hbind, hlift. intro H. destruct r as [a|e]; [exact (H a eq_refl)|]. intros e' _. reflexivity. Qed.
Lemma total_store h l o w : total h (hstore l o w).
Proof. intros e. cbn. discriminate. Qed.
Lemma total_raise h e : total h (hraise e).
Proof. intros e' _. reflexivity. Qed.
Lemma total_aset h a i x : total h (aset a i x).
Proof. unfold aset. apply total_bind_lift. intros. apply total_store. Qed.
Lemma total_asetslice h a i j w : total h (asetslice a i j w).
Proof.
  unfold asetslice. destruct (_ =? _); [apply total_store|].
  destruct w as [|x [|y w]]; [apply total_raise|apply total_store|apply total_raise].
Qed.

Lemma rel_set_elem h c n m x : ok_arr h (hs_arr c) ->
  rel h (h_sc_set_elem c n m x) (sc_set_elem RN (scv h c) n m x) (fun _ v h' => scv h' c = v).
Proof.
  intro O. unfold h_sc_set_elem, sc_set_elem, h_sc_index, sc_elem_index. cbn [scv sc_nmax sc_mmax sc_vec].
  apply rel_lift. intros i _. pose proof (rel_aset h (hs_arr c) i x O) as R.
  unfold rel in *. destruct (aset _ _ _ h) as [[a|e] h'], (py_set _ _ _); cbn [bind]; auto. apply scv_vec. exact R.
Qed.
Lemma srel_set_elem h c n m x : ok_arr h (hs_arr c) ->
  srel h (h_sc_set_elem c n m x) c (lift_res (scv h c) (sc_set_elem RN (scv h c) n m x)).
Proof.
  intro O. apply srel_rel; [apply rel_set_elem; exact O|].
  unfold h_sc_set_elem. apply total_bind_lift. intros. apply total_aset.
Qed.

(** The Python value a right hand side stands for. *)
Definition hv_pure (h : heap) (v : hval) : pyval C :=
  match v with HVal v => v | HArr a => VArr (rd h a) end.
(** A right hand side that does not overlap the array of c. *)
Definition hv_apart (h : heap) (v : hval) (c : hsc) : Prop :=
  match v with HVal _ => True | HArr a => ok_arr h a /\ a_loc a <> a_loc (hs_arr c) end.
Lemma hval_len_eq h v c : hv_apart h v c -> hval_len v = val_len (hv_pure h v).
Proof. destruct v as [v|a]; [reflexivity|]. intros [O _]. cbn. rewrite (zlen_rd_ok h h a O). reflexivity. Qed.
Lemma hval_list_eq h v : hval_list v h = (Ok (val_list (hv_pure h v)), h).
Proof. destruct v; reflexivity. Qed.

Lemma srel_set_col_gen h c m v : ok_arr h (hs_arr c) -> hval_len v = val_len (hv_pure h v) ->
  srel h (h_sc_set_col c m v) c (sc_set_col RN (scv h c) m (hv_pure h v)).
Proof.
  intros O HL. unfold h_sc_set_col, sc_set_col. cbn [scv sc_nmax sc_mmax sc_vec].
  destruct (Z.abs m >? hs_mmax c); [apply srel_raise|]. apply srel_rel.
  - apply rel_lift. intros a _. cbv zeta. rewrite HL. apply rel_lift. intros lv _.
    rewrite <- (rd_aview h (hs_arr c)) by apply O. rewrite (zlen_rd_ok h h _ (ok_aview h (hs_arr c) _ _ O)).
    destruct (negb _); [apply rel_raise|].
    unfold rel, hbind. rewrite hval_list_eq.
    pose proof (rel_asetslice h (hs_arr c) a (a + hs_nmax c - Z.abs m + 1) (val_list (hv_pure h v)) O) as R.
    unfold rel in R. destruct (asetslice _ _ _ _ h) as [[x|e] h'], (py_slice_set _ _ _ _); cbn [bind]; auto.
    apply scv_vec. exact R.
  - apply total_bind_lift. intros a _. cbv zeta. apply total_bind_lift. intros lv _.
    destruct (negb _); [apply total_raise|]. intros e. unfold hbind. rewrite hval_list_eq. apply total_asetslice.
Qed.
Lemma srel_set_col h c m v : ok_arr h (hs_arr c) -> hv_apart h v c ->
  srel h (h_sc_set_col c m v) c (sc_set_col RN (scv h c) m (hv_pure h v)).
Proof. intros O HA. apply srel_set_col_gen; [exact O|]. eapply hval_len_eq; eauto. Qed.

Lemma hv_keep h h' v c : hv_apart h v c -> post (List.length h) [a_loc (hs_arr c)] h h' ->
  hv_pure h' v = hv_pure h v /\ hv_apart h' v c.
Proof.
  destruct v as [v|a]; cbn; [auto|]. intros [O Hne] P. split.
  - f_equal. eapply rd_keep; [exact P|apply O|]. intros [H|[]]. congruence.
  - split; [eapply ok_arr_mono; eauto|exact Hne].
Qed.
(** A loop of in-place calls. *)
Lemma srel_for c (I : heap -> Prop) l (f : Z -> hm unit) (g : Z -> scoefs RN -> scoefs RN * res unit) : forall h,
  I h ->
  (forall i h1, I h1 -> srel h1 (f i) c (g i (scv h1 c)) /\ I (snd (f i h1))) ->
  srel h (hfor l f) c (sfor l g (scv h c)) /\ I (snd (hfor l f h)).
Proof.
  induction l as [|i l IH]; intros h Hi Hf; cbn [hfor sfor].
  - split; [split; reflexivity|exact Hi].
  - destruct (Hf i h Hi) as [[H1 H2] H3]. unfold srel, hbind in *.
    destruct (f i h) as [[[]|e] h1], (g i (scv h c)) as [s1 [[]|e1]]; cbn [fst snd] in *; try discriminate; subst.
    + apply IH; auto.
    + injection H1 as <-. auto.
Qed.
Lemma srel_lift h c A (r : res A) f g : (forall a, r = Ok a -> srel h (f a) c (g a)) ->
  srel h (hbind (hlift r) f) c (match r with Ok a => g a | Raise e => (scv h c, Raise e) end).
Proof. intro H. destruct r; [apply H; reflexivity|split; reflexivity]. Qed.
Lemma srel_set_row h c n v : ok_arr h (hs_arr c) -> hv_apart h v c ->
  srel h (h_sc_set_row c n v) c (sc_set_row RN (scv h c) n (hv_pure h v)).
Proof.
  intros O HA. unfold h_sc_set_row, sc_set_row. cbn [scv sc_nmax sc_mmax sc_vec].
  destruct (_ || _); [apply srel_raise|]. rewrite (hval_len_eq h v c HA). apply srel_lift. intros lv _.
  destruct (negb _); [apply srel_raise|]. cbv zeta. change (sc_nn RN (scv h c) n) with (h_nn c n).
  refine (proj1 (srel_for c (fun h1 => ok_arr h1 (hs_arr c) /\ hv_apart h1 v c /\ hv_pure h1 v = hv_pure h v) _ _ _ h _ _)); [auto|].
  intros m h1 [O1 [A1 E1]].
  assert (S : forall x,
     srel h1 (h_sc_set_elem c n m x) c (lift_res (scv h1 c) (sc_set_elem RN (scv h1 c) n m x)) /\
     ok_arr (snd (h_sc_set_elem c n m x h1)) (hs_arr c) /\ hv_apart (snd (h_sc_set_elem c n m x h1)) v c /\
     hv_pure (snd (h_sc_set_elem c n m x h1)) v = hv_pure h v).
  { intros x. split; [apply srel_set_elem; exact O1|].
    destruct (spec_set_elem (List.length h1) [a_loc (hs_arr c)] h1 c n m x) as [P _]; [left; left; reflexivity|].
    destruct (hv_keep _ _ _ _ A1 P) as [K1 K2]. split; [eapply ok_arr_mono; eauto|]. split; [exact K2|]. rewrite K1. exact E1. }
  unfold srel, hbind, hlift. rewrite hval_list_eq. rewrite E1.
  change (@py_get (cplx RN) (c0 RN)) with (@py_get C (RtoC 0)).
  change (@val_list (cplx RN)) with (@val_list C).
  destruct (py_get (RtoC 0) (val_list (hv_pure h v)) (m + h_nn c n)) as [x|e]; cbn [bind].
  - apply S.
  - split; [split; reflexivity|]. cbn [snd]. auto.
Qed.
Lemma srel_setitem h c arg v : ok_arr h (hs_arr c) -> hv_apart h v c ->
  srel h (h_sc_setitem c arg v) c (sc_setitem RN (scv h c) arg (hv_pure h v)).
Proof.
  intros O HA. unfold h_sc_setitem, sc_setitem.
  destruct arg as [[|i0 [|i1 [|i2 l]]]|]; try apply srel_raise.
  destruct i0 as [n|s0 s1 s2|], i1 as [m|t0 t1 t2|]; try apply srel_raise.
  - destruct v as [[x|l|l|]|a]; cbn [hv_pure]; [apply srel_set_elem; exact O| | | |];
    unfold h_sc_index, sc_elem_index, hbind, hlift; cbn [scv sc_nmax sc_mmax];
    (destruct ((n <? 0) || _); [split; reflexivity|]); (destruct ((Z.abs m >? n) || _); [split; reflexivity|]);
    destruct (mindx _ _ _); split; reflexivity.
  - destruct t0, t1, t2; try apply srel_raise. apply srel_set_row; assumption.
  - destruct s0, s1, s2; try apply srel_raise. apply srel_set_col; assumption.
  - destruct s0, s1, s2; apply srel_raise.
  - destruct s0, s1, s2; apply srel_raise.
Qed.

Lemma scv_keep n0 W h h' c : post n0 W h h' -> (a_loc (hs_arr c) < n0)%nat -> ~ In (a_loc (hs_arr c)) W -> scv h' c = scv h c.
Proof. intros P H1 H2. unfold scv. rewrite (rd_keep _ _ _ _ _ P H1 H2). reflexivity. Qed.
Lemma srel_window_col h c m w : ok_arr h (hs_arr c) -> ok_arr h w ->
  srel h (h_window_col c m w) c (sc_window_col RN m (rd h w) (scv h c)).
Proof.
  intros O Ow. unfold h_window_col, sc_window_col.
  pose proof (h_col_eq h c m (proj1 (proj2 (proj2 O)))) as HC.
  unfold srel, hbind. destruct (h_sc_col c m h) as [[col|e] h1]; destruct HC as [-> HC].
  - rewrite (HC h). cbn [bind]. unfold hread, hlift. change (@np_broadcast (cplx RN) (cplx RN) (cplx RN) (cmul RN)) with (@np_broadcast C C C Cmult).
    destruct (np_broadcast Cmult (rd h col) (rd h w)) as [p|e]; [|split; reflexivity].
    destruct (spec_np_new (List.length h) [] h p (le_n _)) as [HP HQ].
    destruct (np_new p h) as [[a|e] h2] eqn:E; [|discriminate]. cbn [fst snd] in *.
    destruct (HQ a eq_refl) as [[F1 F2] L].
    assert (K : scv h2 c = scv h c) by (eapply scv_keep; [exact HP|apply O|intros []]).
    rewrite <- K. rewrite <- (rd_new _ _ _ _ E). change (VArr (rd h2 a)) with (hv_pure h2 (HArr a)).
    apply (srel_set_col h2 c m (HArr a)).
    + eapply ok_arr_mono; eauto.
    + split; [exact F2|]. destruct O. lia.
  - rewrite (HC h). split; reflexivity.
Qed.
Lemma srel_seq h c m1 m2 r1 g : srel h m1 c r1 -> srel (snd (m1 h)) m2 c (g (scv (snd (m1 h)) c)) ->
  srel h (hbind m1 (fun _ => m2)) c (seq_unit r1 g).
Proof.
  unfold srel, hbind, seq_unit. intros [H1 H2] H. destruct (m1 h) as [[[]|e] h1], r1 as [s1 [[]|e1]]; cbn [fst snd] in *; try discriminate; subst.
  - exact H.
  - injection H1 as <-. auto.
Qed.
Lemma srel_window h c v : ok_arr h (hs_arr c) -> ok_arr h v -> a_loc v <> a_loc (hs_arr c) ->
  srel h (h_sc_window c v) c (sc_window RN (scv h c) (rd h v)).
Proof.
  intros O Ov Hne. unfold h_sc_window, sc_window.
  set (I := fun h1 => ok_arr h1 (hs_arr c) /\ ok_arr h1 v /\ rd h1 v = rd h v).
  assert (HI : forall h1 m w, I h1 -> I (snd (h_window_col c m w h1))).
  { intros h1 m w [A [B D]].
    destruct (spec_window_col (List.length h1) [a_loc (hs_arr c)] h1 c m w (le_n _) A) as [P _]; [left; left; reflexivity|].
    split; [eapply ok_arr_mono; eauto|]. split; [eapply ok_arr_mono; eauto|].
    rewrite <- D. eapply rd_keep; [exact P|apply B|]. intros [H|[]]. congruence. }
  assert (Hw : forall h1 m k, I h1 -> srel h1 (h_window_col c k (aview v m (a_len v))) c (sc_window_col RN k (py_slice (rd h v) m (zlen (rd h v))) (scv h1 c))).
  { intros h1 m k [A [B D]]. rewrite (zlen_rd_ok h h v Ov). rewrite <- D, <- (rd_aview h1 v m (a_len v)) by apply B.
    apply srel_window_col; [exact A|]. apply ok_aview. exact B. }
  assert (I0 : I h) by (unfold I; auto).
  apply srel_seq; [apply srel_window_col; assumption|].
  apply (srel_for c I); [apply HI; exact I0|]. intros m h2 I2. cbv zeta. split.
  - apply srel_seq; [apply Hw; exact I2|].
    apply Hw. apply HI. exact I2.
  - unfold hbind. destruct (h_window_col c (- m) (aview v m (a_len v)) h2) as [[[]|e] h3] eqn:E3;
    pose proof (HI h2 (- m) (aview v m (a_len v)) I2) as I3; rewrite E3 in I3; cbn [snd] in *; [apply HI|]; exact I3.
Qed.
