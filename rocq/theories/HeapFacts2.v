(** * HeapFacts2: frame properties of the methods of MHeap.v, and of every
    primitive of the program language. *)
From Coq Require Import ZArith List String Bool Reals Lia.
From Coquelicot Require Import Complex.
From Verif Require Import Py PyFacts Num Exact MCoefs CoefsFacts MPatt Sums MPysphi MOps MTrans MHeap SpecHeap HeapFacts.
Import ListNotations.
Open Scope list_scope.
Open Scope Z_scope.

#[export] Hint Resolve ok_aview ok_arows : sp.

(** ** ScalarCoefs *)
Lemma spec_sc_new n0 W h a n m : spec n0 W h (h_sc_new a n m) (fun c _ => hs_arr c = a).
Proof. unfold h_sc_new. sp. Qed.
#[export] Hint Resolve spec_sc_new : sp.

Lemma spec_sc_copy n0 W h c : (n0 <= List.length h)%nat ->
  spec n0 W h (h_sc_copy c) (fun d h' => fresh_arr n0 (hs_arr d) h').
Proof. unfold h_sc_copy. sp. Qed.
#[export] Hint Resolve spec_sc_copy : sp.

Lemma spec_get_elem n0 W h c n m : spec n0 W h (h_sc_get_elem c n m) (fun _ _ => True).
Proof. unfold h_sc_get_elem, aget. sp. Qed.
#[export] Hint Resolve spec_get_elem : sp.

Lemma spec_col n0 W h c m : ok_arr h (hs_arr c) ->
  spec n0 W h (h_sc_col c m) (fun a h' => a_loc a = a_loc (hs_arr c) /\ ok_arr h' a).
Proof. unfold h_sc_col. sp. split; [reflexivity|]. apply ok_aview; assumption. Qed.
#[export] Hint Resolve spec_col : sp.

Lemma spec_collect n0 W l (f : Z -> hm C) : forall h,
  (forall i h1, spec n0 W h1 (f i) (fun _ _ => True)) -> spec n0 W h (h_collect l f) (fun _ _ => True).
Proof.
  induction l as [|i l IH]; intros h Hf; cbn [h_collect].
  - apply spec_ret. exact I.
  - eapply spec_bind; [apply Hf|]. intros x h1 P _. eapply spec_bind; [apply IH; exact Hf|].
    intros r h2 P2 _. apply spec_ret. exact I.
Qed.
Lemma spec_row n0 W h c n : (n0 <= List.length h)%nat ->
  spec n0 W h (h_sc_row c n) (fun a h' => fresh_arr n0 a h').
Proof.
  intro Hn. unfold h_sc_row. sp1; [sp|]. cbv zeta.
  eapply (spec_bind _ _ _ _ _ _ _ (fun _ _ => True)).
  - apply spec_collect. intros. apply spec_get_elem.
  - intros l h1 P _. fwd. sp.
Qed.
#[export] Hint Resolve spec_row : sp.

Lemma spec_for n0 W l (f : Z -> hm unit) h :
  (n0 <= List.length h)%nat ->
  (forall i h1, (n0 <= List.length h1)%nat -> spec n0 W h1 (f i) (fun _ _ => True)) ->
  spec n0 W h (hfor l f) (fun _ _ => True).
Proof.
  intros Hn Hf. eapply spec_conseq.
  - apply (spec_hfor n0 W l f h (fun h => (n0 <= List.length h)%nat)); auto.
    intros h1 h2 H P. eapply len_mono; eauto.
  - auto.
Qed.

Lemma spec_trunc n0 W h c k : (n0 <= List.length h)%nat ->
  spec n0 W h (h_sc_trunc c k) (fun d h' => fresh_arr n0 (hs_arr d) h').
Proof.
  intro Hn. unfold h_sc_trunc. sp1; [sp|]. cbv zeta. do 4 sp1.
  eapply (spec_bind _ _ _ _ _ _ _ (fun _ _ => True)).
  - apply spec_for; [assumption|]. intros i h5 Hn5. sp.
  - intros _ h5 P5 _. fwd. eapply spec_conseq; [eauto with sp|]. cbn beta. intros d h6 P6 ->. fwd. arrs.
Qed.
#[export] Hint Resolve spec_trunc : sp.

Lemma spec_set_elem n0 W h c n m x : tgt n0 W (a_loc (hs_arr c)) ->
  spec n0 W h (h_sc_set_elem c n m x) (fun _ _ => True).
Proof. unfold h_sc_set_elem. sp. Qed.
Lemma spec_val_list n0 W h v : spec n0 W h (hval_list v) (fun _ _ => True).
Proof. destruct v; cbn [hval_list]; [apply spec_ret|apply spec_read]; exact I. Qed.
#[export] Hint Resolve spec_set_elem spec_val_list : sp.
Lemma spec_set_col n0 W h c m v : tgt n0 W (a_loc (hs_arr c)) ->
  spec n0 W h (h_sc_set_col c m v) (fun _ _ => True).
Proof. unfold h_sc_set_col. sp. Qed.
#[export] Hint Resolve spec_set_col : sp.
Lemma spec_set_row n0 W h c n v : (n0 <= List.length h)%nat -> tgt n0 W (a_loc (hs_arr c)) ->
  spec n0 W h (h_sc_set_row c n v) (fun _ _ => True).
Proof.
  intros Hn T. unfold h_sc_set_row. sp1; [sp|]. sp1. sp1; [sp|]. cbv zeta.
  apply spec_for; [assumption|]. intros i h5 Hn5. sp.
Qed.
#[export] Hint Resolve spec_set_row : sp.
Lemma spec_setitem n0 W h c arg v : (n0 <= List.length h)%nat -> tgt n0 W (a_loc (hs_arr c)) ->
  spec n0 W h (h_sc_setitem c arg v) (fun _ _ => True).
Proof. intros Hn T. unfold h_sc_setitem. sp. Qed.
#[export] Hint Resolve spec_setitem : sp.

Lemma spec_window_col n0 W h c m w : (n0 <= List.length h)%nat -> ok_arr h (hs_arr c) -> tgt n0 W (a_loc (hs_arr c)) ->
  spec n0 W h (h_window_col c m w) (fun _ _ => True).
Proof. intros Hn O T. unfold h_window_col. sp. Qed.
#[export] Hint Resolve spec_window_col : sp.
Lemma spec_window n0 W h c w : (n0 <= List.length h)%nat -> ok_arr h (hs_arr c) -> tgt n0 W (a_loc (hs_arr c)) ->
  spec n0 W h (h_sc_window c w) (fun _ _ => True).
Proof.
  intros Hn O T. unfold h_sc_window. sp1.
  eapply spec_conseq.
  - apply (spec_hfor n0 W _ _ h0 (fun h => (n0 <= List.length h)%nat /\ ok_arr h (hs_arr c))).
    + intros h1 h2 [A B] P2. fwd. auto.
    + auto.
    + intros i h1 [A B]. sp.
  - auto.
Qed.
#[export] Hint Resolve spec_window : sp.

Lemma spec_sc_op_left n0 W h o c b : (n0 <= List.length h)%nat ->
  spec n0 W h (h_sc_op_left o c b) (fun d h' => fresh_arr n0 (hs_arr d) h').
Proof. unfold h_sc_op_left. sp. Qed.
Lemma spec_sc_op_right n0 W h o c b : (n0 <= List.length h)%nat ->
  spec n0 W h (h_sc_op_right o c b) (fun d h' => fresh_arr n0 (hs_arr d) h').
Proof. unfold h_sc_op_right. sp. Qed.
#[export] Hint Resolve spec_sc_op_left spec_sc_op_right : sp.

(** ** VectorCoefs *)
Lemma spec_vc_new n0 W h a b n m : tgt n0 W (a_loc a) -> tgt n0 W (a_loc b) ->
  spec n0 W h (h_vc_new a b n m) (fun c _ => hs_arr (hv_1 c) = a /\ hs_arr (hv_2 c) = b).
Proof. unfold h_vc_new. sp. Qed.
#[export] Hint Resolve spec_vc_new : sp.
Definition fresh_vc (n0 : nat) (c : hvc) (h : heap) : Prop :=
  fresh_arr n0 (hs_arr (hv_1 c)) h /\ fresh_arr n0 (hs_arr (hv_2 c)) h.
Lemma spec_vc_copy n0 W h c : (n0 <= List.length h)%nat ->
  spec n0 W h (h_vc_copy c) (fun d h' => fresh_vc n0 d h').
Proof. unfold h_vc_copy, fresh_vc. sp. Qed.
Lemma spec_try n0 W h m Q : spec n0 W h m (fun _ _ => Q) -> Q -> spec n0 W h (h_try_index m) (fun _ _ => Q).
Proof.
  unfold spec, h_try_index. intros [HP HQ] q. destruct (m h) as [[u|e] h1]; cbn [fst snd] in *; [split; auto|].
  destruct e; cbn [fst snd]; split; auto; discriminate.
Qed.
#[export] Hint Resolve spec_try : sp.
Lemma spec_vc_setitem n0 W h c arg v :
  tgt n0 W (a_loc (hs_arr (hv_1 c))) -> tgt n0 W (a_loc (hs_arr (hv_2 c))) ->
  spec n0 W h (h_vc_setitem c arg v) (fun _ _ => True).
Proof. unfold h_vc_setitem. sp. apply spec_try; [|exact I]. sp. Qed.
Lemma spec_vc_trunc n0 W h c k : (n0 <= List.length h)%nat ->
  spec n0 W h (h_vc_trunc c k) (fun d h' => fresh_vc n0 d h').
Proof. unfold h_vc_trunc, fresh_vc. sp. Qed.
Lemma spec_vc_op_left n0 W h o c b : (n0 <= List.length h)%nat ->
  spec n0 W h (h_vc_op_left o c b) (fun d h' => fresh_vc n0 d h').
Proof. unfold h_vc_op_left, fresh_vc. sp. Qed.
Lemma spec_vc_op_right n0 W h o c b : (n0 <= List.length h)%nat ->
  spec n0 W h (h_vc_op_right o c b) (fun d h' => fresh_vc n0 d h').
Proof. unfold h_vc_op_right, fresh_vc. sp. Qed.
#[export] Hint Resolve spec_vc_copy spec_vc_setitem spec_vc_trunc spec_vc_op_left spec_vc_op_right : sp.

(** ** Patterns *)
Lemma spec_continue n0 W h b s : (n0 <= List.length h)%nat ->
  spec n0 W h (h_continue_sphere b s) (fun d h' => fresh_arr2 n0 d h').
Proof. unfold h_continue_sphere. sp. Qed.
#[export] Hint Resolve spec_continue : sp.
Definition fresh_tp (n0 : nat) (p : arr2 * arr2) (h : heap) : Prop :=
  fresh_arr2 n0 (fst p) h /\ fresh_arr2 n0 (snd p) h.
Lemma spec_sp_new_false n0 W h b : (n0 <= List.length h)%nat ->
  spec n0 W h (h_sp_new b false) (fun d h' => fresh_arr2 n0 d h').
Proof. unfold h_sp_new. sp. Qed.
Lemma spec_sp_new_true n0 W h b : spec n0 W h (h_sp_new b true) (fun d h' => d = b).
Proof. unfold h_sp_new. sp. Qed.
Lemma spec_tp_new_false n0 W h t p : (n0 <= List.length h)%nat ->
  spec n0 W h (h_tp_new t p false) (fun d h' => fresh_tp n0 d h').
Proof. unfold h_tp_new, fresh_tp. sp. Qed.
Lemma spec_tp_new_true n0 W h t p : spec n0 W h (h_tp_new t p true) (fun d h' => d = (t, p)).
Proof. unfold h_tp_new. sp. Qed.
#[export] Hint Resolve spec_sp_new_false spec_sp_new_true spec_tp_new_false spec_tp_new_true : sp.
Definition fresh_opt (n0 : nat) (d : option arr2) (h : heap) : Prop :=
  match d with Some d => fresh_arr2 n0 d h | None => True end.
Lemma spec_sp_op_left n0 W h o d b : (n0 <= List.length h)%nat ->
  spec n0 W h (h_sp_op_left o d b) (fun d h' => fresh_opt n0 d h').
Proof. unfold h_sp_op_left, fresh_opt. sp. Qed.
Lemma spec_sp_op_right n0 W h o d b : (n0 <= List.length h)%nat ->
  spec n0 W h (h_sp_op_right o d b) (fun d h' => fresh_opt n0 d h').
Proof. unfold h_sp_op_right, fresh_opt. sp. Qed.
Lemma spec_tp_op_left n0 W h o d b : (n0 <= List.length h)%nat ->
  spec n0 W h (h_tp_op_left o d b) (fun d h' => fresh_tp n0 d h').
Proof. unfold h_tp_op_left, fresh_tp. sp. Qed.
Lemma spec_tp_op_right n0 W h o d b : (n0 <= List.length h)%nat ->
  spec n0 W h (h_tp_op_right o d b) (fun d h' => fresh_tp n0 d h').
Proof. unfold h_tp_op_right, fresh_tp. sp. Qed.
#[export] Hint Resolve spec_sp_op_left spec_sp_op_right spec_tp_op_left spec_tp_op_right : sp.

Definition fresh_any (n0 : nat) (x : hany) (h : heap) : Prop :=
  match x with HAnyS c => fresh_arr n0 (hs_arr c) h | HAnyV c => fresh_vc n0 c h end.
Definition fresh_anyp (n0 : nat) (x : hanyp) (h : heap) : Prop :=
  match x with HAnySP d => fresh_arr2 n0 d h | HAnyTP p => fresh_tp n0 p h end.
Definition fresh_mag (n0 : nat) (x : hmag) (h : heap) : Prop :=
  match x with HMArr b => fresh_arr2 n0 b h | HMCoef c => fresh_arr n0 (hs_arr c) h end.
Lemma spec_coefs_factory n0 W h f1 f2 n m t : (n0 <= List.length h)%nat ->
  spec n0 W h (h_coefs_factory f1 f2 n m t) (fun d h' => fresh_any n0 d h').
Proof.
  unfold h_coefs_factory, fresh_any, fresh_vc. sp.
Qed.
Lemma spec_const_patt n0 W h x r c t : (n0 <= List.length h)%nat ->
  spec n0 W h (h_const_patt x r c t) (fun d h' => fresh_anyp n0 d h').
Proof. unfold h_const_patt, fresh_anyp, fresh_tp. sp. Qed.
Lemma spec_random_patt n0 W h d1 d2 r c t : (n0 <= List.length h)%nat ->
  spec n0 W h (h_random_patt d1 d2 r c t) (fun d h' => fresh_anyp n0 d h').
Proof. unfold h_random_patt, fresh_anyp. sp. Qed.
Lemma spec_mag n0 W h f o : (n0 <= List.length h)%nat ->
  spec n0 W h (h_mag f o) (fun d h' => fresh_mag n0 d h').
Proof. unfold h_mag, fresh_mag. sp. Qed.
#[export] Hint Resolve spec_coefs_factory spec_const_patt spec_random_patt spec_mag : sp.

(** ** ops.py and the transforms *)
Lemma spec_inplace n0 W h f b : tgt n0 W (b_loc b) -> spec n0 W h (inplace f b) (fun _ _ => True).
Proof. unfold inplace. sp. Qed.
#[export] Hint Resolve spec_inplace : sp.
Lemma spec_pad n0 W h a b : tgt n0 W (b_loc b) -> spec n0 W h (h_pad_rows_fdata a b) (fun _ _ => True).
Proof. unfold h_pad_rows_fdata. sp. Qed.
Lemma spec_fix n0 W h b : tgt n0 W (b_loc b) -> spec n0 W h (h_fix_even_row_data_fc b) (fun _ _ => True).
Proof. unfold h_fix_even_row_data_fc. sp. Qed.
Lemma spec_sin n0 W h b : tgt n0 W (b_loc b) -> spec n0 W h (h_sin_fc b) (fun _ _ => True).
Proof. unfold h_sin_fc. sp. Qed.
Lemma spec_divsin n0 W h b : tgt n0 W (b_loc b) -> spec n0 W h (h_divsin_fc b) (fun _ _ => True).
Proof. unfold h_divsin_fc. sp. Qed.
Lemma spec_dtheta n0 W h b : tgt n0 W (b_loc b) -> spec n0 W h (h_dtheta_fc b) (fun _ _ => True).
Proof. unfold h_dtheta_fc. sp. Qed.
Lemma spec_dphi n0 W h b : tgt n0 W (b_loc b) -> spec n0 W h (h_dphi_fc b) (fun _ _ => True).
Proof. unfold h_dphi_fc. sp. Qed.
#[export] Hint Resolve spec_pad spec_fix spec_sin spec_divsin spec_dtheta spec_dphi : sp.
Lemma spec_sinLdot n0 W h t p : (n0 <= List.length h)%nat -> tgt n0 W (b_loc t) -> tgt n0 W (b_loc p) ->
  spec n0 W h (h_sinLdot_fc t p) (fun b h' => fresh_arr2 n0 b h').
Proof. unfold h_sinLdot_fc. sp. Qed.
Lemma spec_L n0 W h b : (n0 <= List.length h)%nat -> tgt n0 W (b_loc b) ->
  spec n0 W h (h_L_fc b) (fun p h' => fresh_tp n0 p h').
Proof. unfold h_L_fc, fresh_tp. sp. Qed.
Lemma spec_fft_padded n0 W h d : (n0 <= List.length h)%nat ->
  spec n0 W h (h_fft_padded d) (fun b h' => fresh_arr2 n0 b h').
Proof. unfold h_fft_padded. sp. Qed.
Lemma spec_fc_to_sc n0 W h be f n m : (n0 <= List.length h)%nat ->
  spec n0 W h (h_fc_to_sc be f n m) (fun b h' => fresh_arr n0 b h').
Proof. unfold h_fc_to_sc. sp. Qed.
Lemma spec_sc_to_fc n0 W h be v n m r c : (n0 <= List.length h)%nat ->
  spec n0 W h (h_sc_to_fc be v n m r c) (fun b h' => fresh_arr2 n0 b h').
Proof. unfold h_sc_to_fc. sp. Qed.
Lemma spec_nvec n0 W h n : (n0 <= List.length h)%nat ->
  spec n0 W h (h_nvec n) (fun b h' => fresh_arr n0 b h').
Proof.
  intro Hn. unfold h_nvec. do 2 sp1.
  eapply (spec_bind _ _ _ _ _ _ _ (fun _ _ => True)).
  - apply spec_for; [assumption|]. intros i h5 Hn5. sp.
  - intros _ h5 P5 _. fwd. sp.
Qed.
Lemma spec_ifft n0 W h f r c : (n0 <= List.length h)%nat ->
  spec n0 W h (h_ifft_scaled f r c) (fun b h' => fresh_arr2 n0 b h').
Proof. unfold h_ifft_scaled. sp. Qed.
#[export] Hint Resolve spec_sinLdot spec_L spec_fft_padded spec_fc_to_sc spec_sc_to_fc spec_nvec spec_ifft : sp.

Lemma spec_spht n0 W h be d nm mm : (n0 <= List.length h)%nat ->
  spec n0 W h (h_spht be d nm mm) (fun c h' => fresh_arr n0 (hs_arr c) h').
Proof. unfold h_spht. sp. Qed.
Lemma spec_spht_slow n0 W h d nm mm : (n0 <= List.length h)%nat ->
  spec n0 W h (h_spht_slow d nm mm) (fun c h' => fresh_arr n0 (hs_arr c) h').
Proof. unfold h_spht_slow. sp. Qed.
Lemma spec_vspht n0 W h be p nm mm : (n0 <= List.length h)%nat ->
  spec n0 W h (h_vspht be p nm mm) (fun c h' => fresh_vc n0 c h').
Proof. unfold h_vspht, fresh_vc. intros. destruct (spht_sizes _ _ _ _) as [nmax mmax]. sp. Qed.
Lemma spec_ispht n0 W h be c r k : (n0 <= List.length h)%nat ->
  spec n0 W h (h_ispht be c r k) (fun d h' => fresh_arr2 n0 d h').
Proof. unfold h_ispht. cbv zeta. sp. Qed.
Lemma spec_ispht_slow n0 W h c r k : (n0 <= List.length h)%nat ->
  spec n0 W h (h_ispht_slow c r k) (fun d h' => fresh_arr2 n0 d h').
Proof. unfold h_ispht_slow. cbv zeta. sp. Qed.
Lemma spec_vispht n0 W h be c r k : (n0 <= List.length h)%nat ->
  spec n0 W h (h_vispht be c r k) (fun d h' => fresh_tp n0 d h').
Proof. unfold h_vispht, fresh_tp. cbv zeta. sp. Qed.
#[export] Hint Resolve spec_spht spec_spht_slow spec_vspht spec_ispht spec_ispht_slow spec_vispht : sp.

(** ** Objects *)

(** All arrays of the object lie inside their buffers. *)
Fixpoint ok_obj (h : heap) (o : obj) : Prop :=
  match o with
  | OArr a => ok_arr h a
  | OArr2 b => ok_arr2 h b
  | OSc c => ok_arr h (hs_arr c)
  | OVc c => ok_arr h (hs_arr (hv_1 c)) /\ ok_arr h (hs_arr (hv_2 c))
  | OSp d => ok_arr2 h d
  | OTp p => ok_arr2 h (fst p) /\ ok_arr2 h (snd p)
  | OTup x y => ok_obj h x /\ ok_obj h y
  | OSpExc | ONum _ | ONone => True
  end.
Lemma ok_obj_mono n0 W h h' o : post n0 W h h' -> ok_obj h o -> ok_obj h' o.
Proof.
  intro P. induction o; cbn [ok_obj]; auto; intros H;
    try (apply (ok_arr_mono _ _ _ _ _ P) in H); try (apply (ok_arr2_mono _ _ _ _ _ P) in H); auto.
  - destruct H. split; eapply ok_arr_mono; eauto.
  - destruct H. split; eapply ok_arr2_mono; eauto.
  - destruct H. auto.
Qed.
Lemma reach_lt h o l : ok_obj h o -> In l (reach o) -> (l < List.length h)%nat.
Proof.
  induction o; cbn [ok_obj reach]; intros H Hin; try contradiction.
  1,2,3,5: destruct Hin as [<-|[]]; apply H.
  1,2: destruct H as [A B]; destruct Hin as [<-|[<-|[]]]; [apply A|apply B].
  destruct H. apply in_app_or in Hin. destruct Hin; auto.
Qed.

Definition new_obj (n0 : nat) (o : obj) (h : heap) : Prop :=
  ok_obj h o /\ forall l, In l (reach o) -> (n0 <= l)%nat.

Ltac newo := unfold new_obj, fresh_vc, fresh_tp, fresh_arr, fresh_arr2 in *; fwd; cbn [ok_obj reach] in *;
  split; [repeat match goal with |- _ /\ _ => split end; auto | let l := fresh "l" in let Hl := fresh "Hl" in intros l Hl; cbn [In app] in Hl; intuition (subst; auto)].

Lemma spec_getitem_new n0 h o arg :
  makes_new (PGet arg) = true -> (n0 <= List.length h)%nat ->
  spec n0 [] h (h_getitem o arg) (fun o h' => new_obj n0 o h').
Proof.
  intros Hp Hn. unfold h_getitem.
  destruct arg as [[|i0 [|i1 [|i2 l]]]|].
  1,2,4,5: destruct o as [a|b|c|c|d| |p|x y|x|]; unfold bad_args; apply spec_raise.
  destruct o as [a|b|c|c|d| |p|x y|x|]; unfold bad_args; try (apply spec_raise).
  - destruct i0; destruct i1; try discriminate Hp; repeat sp1; newo.
  - destruct i0; destruct i1; try discriminate Hp; repeat sp1; newo.
Qed.
#[export] Hint Resolve spec_getitem_new : sp.

Lemma exec_new be p args n0 h :
  makes_new p = true -> (n0 <= List.length h)%nat ->
  spec n0 [] h (exec be p args) (fun o h' => new_obj n0 o h').
Proof.
  intros Hp Hn.
  destruct p; try discriminate Hp; cbn [exec]; try (destruct ds; try discriminate Hp).
  all: unfold bad_args; repeat (match goal with |- spec _ _ _ (match ?x with _ => _ end) _ => is_var x; destruct x end).
  all: try apply spec_raise; try (apply spec_getitem_new; assumption).
  all: try solve [repeat sp1; newo].
  all: repeat sp1; repeat match goal with x : option arr2 |- _ => destruct x | x : hany |- _ => destruct x
    | x : hanyp |- _ => destruct x | x : hmag |- _ => destruct x end;
    cbn [of_any of_anyp of_mag of_spo fresh_any fresh_anyp fresh_mag fresh_opt] in *; newo.
Qed.

(** Every call writes only to storage reachable from its arguments, and its
    result reaches only such storage or new storage. *)
Definition reach_all (args : list obj) : list nat := flat_map reach args.
Definition from_args (n0 : nat) (W : list nat) (o : obj) (h : heap) : Prop :=
  ok_obj h o /\ forall l, In l (reach o) -> tgt n0 W l.
Lemma from_new n0 W o h : new_obj n0 o h -> from_args n0 W o h.
Proof. intros [A B]. split; [exact A|]. intros l Hl. right. auto. Qed.

Ltac froma := unfold from_args; fwd; cbn [ok_obj reach reach_all flat_map app hs_arr hv_1 hv_2 fst snd aview arows h_cdata a_loc b_loc] in *;
  split; [repeat match goal with |- _ /\ _ => split end; auto with sp
         | let l := fresh "l" in let Hl := fresh "Hl" in intros l Hl; cbn [In app] in Hl; unfold tgt; cbn [In]; intuition (subst; auto)].

Lemma spec_void n0 W h (m : hm unit) : spec n0 W h m (fun _ _ => True) ->
  spec n0 W h (hvoid m) (fun o h' => from_args n0 W o h').
Proof.
  intro H. unfold hvoid. eapply spec_bind; [exact H|]. intros a h1 P _. apply spec_ret. froma.
Qed.
Lemma ok_args h args : Forall (ok_obj h) args -> match args with
  | [x] => ok_obj h x | [x; y] => ok_obj h x /\ ok_obj h y | _ => True end.
Proof. intro H. destruct args as [|x [|y [|z l]]]; auto; inversion H as [|? ? A B]; subst; auto. inversion B; subst; auto. Qed.
Lemma tgt_1 n0 W l : tgt n0 (l :: W) l.
Proof. left. left. reflexivity. Qed.
Lemma tgt_2 n0 W l k : tgt n0 (k :: l :: W) l.
Proof. left. right. left. reflexivity. Qed.
#[export] Hint Resolve tgt_1 tgt_2 : sp.
Lemma py_index_range len i k : py_index len i = Ok k -> 0 <= k < len.
Proof.
  unfold py_index. destruct (Z.leb_spec 0 i), (Z.ltb_spec i len); cbn [andb];
  try (intro E; injection E as <-; lia); destruct (Z.leb_spec (- len) i), (Z.ltb_spec i 0); cbn [andb]; try discriminate;
  intro E; injection E as <-; lia.
Qed.
Lemma spec_arow n0 W h b i : ok_arr2 h b ->
  spec n0 W h (arow b i) (fun a h' => a_loc a = b_loc b /\ ok_arr h' a).
Proof.
  intros [A [B [C [D E]]]]. unfold arow. eapply (spec_bind _ _ _ _ _ _ _ (fun k h1 => 0 <= k < b_nr b /\ h1 = h)).
  - apply spec_lift. intros k Hk. apply py_index_range in Hk. auto.
  - intros k h1 P [Hk ->]. apply spec_ret. split; [reflexivity|]. unfold ok_arr; cbn [a_loc a_off a_len].
    repeat split; auto; nia.
Qed.
#[export] Hint Resolve spec_arow : sp.
Lemma exec_frame be p args n0 h :
  (n0 <= List.length h)%nat -> Forall (ok_obj h) args ->
  spec n0 (reach_all args) h (exec be p args) (fun o h' => from_args n0 (reach_all args) o h').
Proof.
  intros Hn Hargs. destruct (makes_new p) eqn:Hp.
  { eapply spec_conseq.
    - eapply spec_weaken; [apply le_n| |apply (exec_new be p args n0 h Hp Hn)]. intros l [].
    - cbn beta. intros a h1 P H. apply from_new. exact H. }
  apply ok_args in Hargs.
  destruct p; try discriminate Hp; cbn [exec]; try (destruct ds; try discriminate Hp).
  all: unfold bad_args; repeat (match goal with |- spec _ _ _ (match ?x with _ => _ end) _ => is_var x; destruct x end).
  all: try apply spec_raise.
  all: try (apply spec_void; cbn [ok_obj] in Hargs; fwd; cbn [reach_all flat_map app reach]).
  all: cbn [ok_obj] in *; fwd; cbn [reach_all flat_map app reach].
  all: try solve [eauto with sp].
  all: try solve [repeat sp1; froma].
  - unfold h_getitem. destruct o as [a|b|c|c|d| |p|x y|x|]; unfold bad_args; try apply spec_raise;
      (destruct arg as [[|i0 [|i1 [|i2 l]]]|]; try apply spec_raise); destruct i0; try discriminate Hp; destruct i1; try discriminate Hp;
      cbn [ok_obj] in *; fwd; cbn [reach app]; repeat sp1; froma.
  - apply spec_ret. froma.
    unfold h_cdata. apply ok_arows. assumption.
Qed.
