(** * HeapRef3: the in-place routines of ops.py and the transforms of MHeap.v
    compute the values of MOps.v and MTrans.v. *)
From Coq Require Import ZArith List String Bool Reals Lia.
From Coquelicot Require Import Complex.
From Verif Require Import Py PyFacts Num Exact MCoefs CoefsFacts CoefsFacts2 MPatt Sums MPysphi MOps MTrans MHeap SpecHeap HeapFacts HeapFacts2 HeapFacts3 HeapRef HeapRef2.
Import ListNotations.
Open Scope list_scope.
Open Scope Z_scope.

Lemma rd2_store h b off w : ok_arr2 h b ->
  rd2 (upd h (b_loc b) (wrb (buf h (b_loc b)) (b_off b + off) w)) b =
  mkMat RN (b_nr b) (b_nc b) (vmake (b_nr b * b_nc b) (fun k => if (off <=? k) && (k <? off + zlen w) then vget (RtoC 0) w (k - off) else vget (RtoC 0) (mt_dat RN (rd2 h b)) k)).
Proof.
  intros [A [B [D [E F]]]]. unfold rd2 at 1. f_equal. rewrite buf_upd by exact A. apply vmake_ext. intros k Hk.
  rewrite vget_wrb by lia. unfold rd2. cbn [mt_dat]. rewrite vget_vmake by lia.
  replace (b_off b + off <=? b_off b + k) with (off <=? k) by (destruct (Z.leb_spec off k), (Z.leb_spec (b_off b + off) (b_off b + k)); auto; lia).
  replace (b_off b + k <? b_off b + off + zlen w) with (k <? off + zlen w) by (destruct (Z.ltb_spec k (off + zlen w)), (Z.ltb_spec (b_off b + k) (b_off b + off + zlen w)); auto; lia).
  destruct ((off <=? k) && (k <? off + zlen w)); [|reflexivity]. f_equal. lia.
Qed.
Lemma rel_fill2 h b m : ok_arr2 h b -> mat_wf RN m -> mt_nr RN m = b_nr b -> mt_nc RN m = b_nc b ->
  rel h (fill2 b m) (Ok m) (fun _ m h' => rd2 h' b = m).
Proof.
  intros O [W1 [W2 W3]] E1 E2. unfold fill2, rel, hstore.
  replace (b_off b) with (b_off b + 0) at 1 by lia. rewrite rd2_store by exact O. rewrite zlen_vmake.
  destruct m as [nr nc d]. cbn [mt_nr mt_nc mt_dat] in *. subst nr nc. f_equal.
  change (@zlen (cplx RN)) with (@zlen C) in *.
  apply (vget_ext (RtoC 0)); rewrite zlen_vmake; [nia|]. intros i Hi. rewrite vget_vmake by lia.
  destruct (Z.leb_spec 0 i); [|lia]. destruct (Z.ltb_spec i (0 + Z.max 0 (b_nr b * b_nc b))); [|lia]. cbn [andb].
  rewrite vget_vmake by lia. f_equal. lia.
Qed.
Definition shaped (f : mat RN -> res (mat RN)) : Prop :=
  forall a m, mat_wf RN a -> f a = Ok m -> mat_wf RN m /\ mt_nr RN m = mt_nr RN a /\ mt_nc RN m = mt_nc RN a.
Lemma rel_inplace h f b : ok_arr2 h b -> shaped f ->
  rel h (inplace f b) (f (rd2 h b)) (fun _ m h' => rd2 h' b = m).
Proof.
  intros O S. unfold inplace. apply rel_read. apply rel_lift_ok. intros m Em.
  destruct (S _ _ (rd2_wf h b O) Em) as [W [E1 E2]]. apply rel_fill2; auto.
Qed.
(** with the frame *)
Definition only (h : heap) (b : arr2) (h' : heap) : Prop := post (List.length h) [b_loc b] h h'.
Lemma rel_only A h (m : hm unit) (r : res A) b (Q : unit -> A -> heap -> Prop) :
  rel h m r Q -> (forall n0 W, tgt n0 W (b_loc b) -> spec n0 W h m (fun _ _ => True)) ->
  rel h m r (fun u a h' => Q u a h' /\ only h b h').
Proof.
  intros R S. eapply rel_conseq; [eapply (rel_spec _ _ (List.length h) [b_loc b]); [exact R|apply S; left; left; reflexivity]|].
  cbn beta. intros ? ? ? [H1 [_ H2]]. split; assumption.
Qed.
Lemma mmk nr nc f : 0 <= nr -> 0 <= nc -> mat_wf RN (mmake RN nr nc f) /\ mt_nr RN (mmake RN nr nc f) = nr /\ mt_nc RN (mmake RN nr nc f) = nc.
Proof. intros. split; [apply mmake_wf'; assumption|split; reflexivity]. Qed.
Ltac shp := intros a m [Wa [Wb Wc]] E; pose proof (conj Wa (conj Wb Wc)) as W.
Lemma shaped_row_zero i : shaped (fun a => row_zero a i).
Proof.
  shp. unfold row_zero in E. destruct (py_index _ _); [|discriminate]. cbn [bind] in E. injection E as <-. apply mmk; assumption.
Qed.
Lemma shaped_fix : shaped fix_even_row_data_fc.
Proof.
  shp. unfold fix_even_row_data_fc in E. destruct (_ =? 0); [apply (shaped_row_zero _ a m W E)|]. injection E as <-. auto.
Qed.
Lemma shaped_pad f : shaped (fun e => pad_rows_fdata f e).
Proof.
  shp. unfold pad_rows_fdata in E. destruct (_ <? _); [discriminate|]. destruct (negb _); [discriminate|]. cbv zeta in E.
  destruct (negb _); [discriminate|]. injection E as <-.
  match goal with |- context [fold_left ?F ?l ?e1] => set (FF := F); set (L := l); set (E1 := e1) end.
  assert (G : forall l e, mat_wf RN e /\ mt_nr RN e = mt_nr RN a /\ mt_nc RN e = mt_nc RN a ->
    mat_wf RN (fold_left FF l e) /\ mt_nr RN (fold_left FF l e) = mt_nr RN a /\ mt_nc RN (fold_left FF l e) = mt_nc RN a).
  { induction l as [|x l IH]; intros e He; cbn; auto. apply IH. apply mmk; assumption. }
  apply G. apply mmk; assumption.
Qed.
Lemma shaped_shift : shaped (fun a => Ok (sin_shift a)).
Proof. shp. injection E as <-. apply mmk; assumption. Qed.
Lemma shaped_dtheta : shaped dtheta_fc.
Proof. shp. unfold dtheta_fc in E. destruct (_ && _); [discriminate|]. injection E as <-. apply mmk; assumption. Qed.
Lemma shaped_dphi : shaped dphi_fc.
Proof. shp. unfold dphi_fc in E. destruct (_ && _); [discriminate|]. injection E as <-. apply mmk; assumption. Qed.
Lemma shaped_row_set i v : shaped (fun a => row_set a i v).
Proof. shp. unfold row_set in E. destruct (py_index _ _); [|discriminate]. cbn [bind] in E. injection E as <-. apply mmk; assumption. Qed.
Lemma zeros2_wf nr nc z : np_zeros2 nr nc = Ok z -> mat_wf RN z /\ mt_nr RN z = nr /\ mt_nc RN z = nc.
Proof.
  unfold np_zeros2. destruct (Z.ltb_spec nr 0), (Z.ltb_spec nc 0); cbn [orb]; try discriminate. intro E. injection E as <-.
  apply mmk; assumption.
Qed.
Lemma shaped_divsin : shaped divsin_fc.
Proof.
  shp. unfold divsin_fc in E. cbv zeta in E. destruct (np_zeros2 _ _) as [z|] eqn:Ez; [|discriminate]. cbn [bind] in E.
  apply zeros2_wf in Ez. destruct (row_get _ _); [|discriminate]. cbn [bind] in E.
  destruct (row_set z _ _) as [g|] eqn:Eg; [|discriminate]. cbn [bind] in E.
  assert (Hg : mat_wf RN g /\ mt_nr RN g = mt_nr RN a /\ mt_nc RN g = mt_nc RN a).
  { destruct Ez as [Z1 [Z2 Z3]]. destruct (shaped_row_set _ _ _ _ Z1 Eg) as [G1 [G2 G3]]. rewrite G2, G3. auto. }
  clear Eg Ez. revert g Hg E. generalize (zrange_down (mt_nr RN a / 2 - 2) (- (mt_nr RN a / 2 - 2))). intro l0.
  induction l0 as [|k l' IH]; intros g Hg E; cbn [mfor] in E; [injection E as <-; exact Hg|].
  destruct (row_get a k); [|discriminate]. cbn [bind] in E. destruct (row_get g (k + 1)); [|discriminate]. cbn [bind] in E.
  destruct (row_set g (k - 1) _) as [g'|] eqn:Eg; [|discriminate]. cbn [bind] in E.
  apply (IH g'); [|exact E]. destruct Hg as [G1 [G2 G3]]. destruct (shaped_row_set _ _ _ _ G1 Eg) as [H1 [H2 H3]]. rewrite H2, H3. auto.
Qed.
Lemma sin_fc_eq a : sin_fc a = (f <- row_zero a (mt_nr RN a / 2 - 1) ;; f <- row_zero f (mt_nr RN a / 2 + 1) ;; Ok (sin_shift f)).
Proof.
  unfold sin_fc, sin_shift. destruct (row_zero a (mt_nr RN a / 2 - 1)) as [f|] eqn:E1; [|reflexivity]. cbn [bind].
  destruct (row_zero f (mt_nr RN a / 2 + 1)) as [g|] eqn:E2; [|reflexivity]. cbn [bind].
  unfold row_zero in *. destruct (py_index _ _); [|discriminate]. cbn [bind] in E1. injection E1 as <-.
  cbn [mt_nr mt_nc mmake] in E2. destruct (py_index _ _); [|discriminate]. cbn [bind] in E2. injection E2 as <-.
  reflexivity.
Qed.
Lemma shaped_sin : shaped sin_fc.
Proof.
  shp. rewrite sin_fc_eq in E. destruct (row_zero a _) as [f|] eqn:E1; [|discriminate]. cbn [bind] in E.
  destruct (row_zero f _) as [g|] eqn:E2; [|discriminate]. cbn [bind] in E. injection E as <-.
  destruct (shaped_row_zero _ _ _ W E1) as [F1 [F2 F3]]. destruct (shaped_row_zero _ _ _ F1 E2) as [G1 [G2 G3]].
  destruct (shaped_shift g _ G1 eq_refl) as [H1 [H2 H3]]. rewrite H2, H3, G2, G3, F2, F3. auto.
Qed.
Lemma rel_sin h b : ok_arr2 h b -> rel h (h_sin_fc b) (sin_fc (rd2 h b)) (fun _ m h' => rd2 h' b = m).
Proof.
  intro O. unfold h_sin_fc. rewrite sin_fc_eq.
  eapply rel_bind; [apply (rel_only _ _ _ _ b); [apply (rel_inplace h (fun a => row_zero a (b_nr b / 2 - 1))); [exact O|apply shaped_row_zero]|]|].
  { intros. apply spec_inplace. assumption. }
  cbn beta. intros _ m h1 [E1 P1]. pose proof (ok_arr2_mono _ _ _ _ _ P1 O) as O1. rewrite <- E1.
  eapply rel_bind; [apply (rel_only _ _ _ _ b); [apply (rel_inplace h1 (fun a => row_zero a (b_nr b / 2 + 1))); [exact O1|apply shaped_row_zero]|]|].
  { intros. apply spec_inplace. assumption. }
  cbn beta. intros _ m2 h2 [E2 P2]. pose proof (ok_arr2_mono _ _ _ _ _ P2 O1) as O2. rewrite <- E2.
  apply (rel_inplace h2 (fun a => Ok (sin_shift a))); [exact O2|apply shaped_shift].
Qed.
(** Uniform statement for the in-place routines *)
Definition inpl (m : arr2 -> hm unit) (f : mat RN -> res (mat RN)) : Prop :=
  forall h b, ok_arr2 h b -> rel h (m b) (f (rd2 h b)) (fun _ a h' => rd2 h' b = a /\ only h b h' /\ ok_arr2 h' b).
Lemma inpl_intro m f : (forall h b, ok_arr2 h b -> rel h (m b) (f (rd2 h b)) (fun _ a h' => rd2 h' b = a)) ->
  (forall n0 W h b, tgt n0 W (b_loc b) -> spec n0 W h (m b) (fun _ _ => True)) -> inpl m f.
Proof.
  intros R S h b O. eapply rel_conseq; [apply (rel_only _ _ _ _ b); [apply R; exact O|intros; apply S; assumption]|].
  cbn beta. intros _ a h' [E P]. split; [exact E|]. split; [exact P|]. eapply ok_arr2_mono; eauto.
Qed.
Lemma inpl_sin : inpl h_sin_fc sin_fc.
Proof. apply inpl_intro; [apply rel_sin|intros; apply spec_sin; assumption]. Qed.
Lemma inpl_fix : inpl h_fix_even_row_data_fc fix_even_row_data_fc.
Proof. apply inpl_intro; [|intros; apply spec_fix; assumption]. intros h b O. apply rel_inplace; [exact O|apply shaped_fix]. Qed.
Lemma inpl_dtheta : inpl h_dtheta_fc dtheta_fc.
Proof. apply inpl_intro; [|intros; apply spec_dtheta; assumption]. intros h b O. apply rel_inplace; [exact O|apply shaped_dtheta]. Qed.
Lemma inpl_dphi : inpl h_dphi_fc dphi_fc.
Proof. apply inpl_intro; [|intros; apply spec_dphi; assumption]. intros h b O. apply rel_inplace; [exact O|apply shaped_dphi]. Qed.
Lemma inpl_divsin : inpl h_divsin_fc divsin_fc.
Proof. apply inpl_intro; [|intros; apply spec_divsin; assumption]. intros h b O. apply rel_inplace; [exact O|apply shaped_divsin]. Qed.
Lemma rd2_only h b h' x : only h b h' -> ok_arr2 h x -> b_loc x <> b_loc b -> rd2 h' x = rd2 h x.
Proof. intros P O Hne. eapply rd2_keep; [exact P|apply O|]. intros [H|[]]. congruence. Qed.
Lemma ok_only h b h' x : only h b h' -> ok_arr2 h x -> ok_arr2 h' x.
Proof. intros P O. eapply ok_arr2_mono; eauto. Qed.
Lemma ew1_wf f a : mat_wf RN a -> mat_wf RN (ew1 f a).
Proof. intros [A [B _]]. apply mmake_wf'; assumption. Qed.
Lemma ew2_wf f a b m : mat_wf RN a -> ew2 f a b = Ok m -> mat_wf RN m.
Proof. intros [A [B _]] E. unfold ew2 in E. destruct (_ && _); [|discriminate]. injection E as <-. apply mmake_wf'; assumption. Qed.

Lemma rel_sinLdot h t p : ok_arr2 h t -> ok_arr2 h p -> b_loc t <> b_loc p ->
  rel h (h_sinLdot_fc t p) (sinLdot_fc (rd2 h t) (rd2 h p)) (fun d m h' => rd2 h' d = m).
Proof.
  intros Ot Op Hne. unfold h_sinLdot_fc, sinLdot_fc.
  eapply rel_bind; [apply inpl_dphi; exact Ot|]. cbn beta. intros _ mt h1 [E1 [P1 Ot1]].
  rewrite <- (rd2_only _ _ _ p P1 Op) by congruence. pose proof (ok_only _ _ _ p P1 Op) as Op1.
  eapply rel_bind; [apply inpl_sin; exact Op1|]. cbn beta. intros _ mp h2 [E2 [P2 Op2]]. rewrite <- E2.
  eapply rel_bind; [apply inpl_dtheta; exact Op2|]. cbn beta. intros _ mp' h3 [E3 [P3 Op3]].
  apply rel_read. apply rel_read. pose proof (ok_only _ _ _ t P2 Ot1) as Ot2.
  rewrite (rd2_only _ _ _ t P3 Ot2) by congruence. rewrite (rd2_only _ _ _ t P2 Ot1) by congruence.
  rewrite E1, E3. apply rel_lift_ok. intros m Em.
  apply rel_new2_end; [eapply ew2_wf; [|exact Em]|].
  - rewrite <- E1. apply (rd2_wf h1). exact Ot1.
  - intros b h4 _ _ E _ _. apply rel_ret. exact E.
Qed.
Lemma rel_L h b : ok_arr2 h b ->
  rel h (h_L_fc b) (L_fc (rd2 h b)) (fun d m h' => (rd2 h' (fst d), rd2 h' (snd d)) = m).
Proof.
  intro O. unfold h_L_fc, L_fc. apply rel_read. apply rel_new2; [apply rd2_wf; exact O|].
  intros fd h1 P1 [F1 Of] E1 _ _. pose proof (ok_arr2_mono _ _ _ _ _ P1 O) as O1.
  assert (Hne : b_loc b <> b_loc fd) by (destruct O; lia).
  rewrite <- (rd2_keep _ _ _ _ b P1) by (try apply O; intros []).
  eapply rel_bind; [apply inpl_dphi; exact O1|]. cbn beta. intros _ m2 h2 [E2 [P2 O2]]. rewrite <- E2.
  eapply rel_bind; [apply inpl_divsin; exact O2|]. cbn beta. intros _ m3 h3 [E3 [P3 O3]].
  pose proof (ok_only _ _ _ fd P2 Of) as Of2. pose proof (ok_only _ _ _ fd P3 Of2) as Of3.
  assert (K : rd2 h3 fd = rd2 h1 b).
  { rewrite (rd2_only _ _ _ fd P3 Of2), (rd2_only _ _ _ fd P2 Of) by congruence. rewrite E1.
    symmetry. eapply rd2_keep; [exact P1|apply O|intros []]. }
  cbv zeta. rewrite <- K. eapply rel_bind; [apply inpl_dtheta; exact Of3|]. cbn beta. intros _ m4 h4 [E4 [P4 Of4]].
  apply rel_read. rewrite (rd2_only _ _ _ b P4 O3) by congruence. rewrite E3.
  assert (W3 : mat_wf RN m3) by (rewrite <- E3; apply (rd2_wf h3); exact O3).
  assert (W4 : mat_wf RN m4) by (rewrite <- E4; apply (rd2_wf h4); exact Of4).
  apply rel_new2; [apply ew1_wf; exact W3|]. intros x h5 P5 [F5 Ox] E5 _ _.
  apply rel_read. rewrite (rd2_keep _ _ _ _ fd P5) by (try apply Of4; intros []). rewrite E4.
  apply rel_new2; [apply ew1_wf; exact W4|]. intros y h6 P6 [F6 Oy] E6 _ _.
  apply rel_ret. cbn [fst snd]. rewrite E6. rewrite (rd2_keep _ _ _ _ x P6) by (try apply Ox; intros []). rewrite E5. reflexivity.
Qed.
