(** * P_Coefs: properties C01-C16 (coefficient objects).

    Every theorem holds for an arbitrary arithmetic [K : num] unless it
    mentions [RN] (exact real arithmetic).  [reads c n m x] says that the
    Python expression c[n,m] evaluates to x; see Obs.v. *)
From Coq Require Import ZArith List String Bool Lia Permutation Reals Lra.
From Verif Require Import Py PyFacts Num Exact MCoefs SpecCoefs Obs CoefsFacts CoefsFacts2 CoefsFacts3.
Import ListNotations.
Open Scope string_scope.
Open Scope list_scope.
Open Scope Z_scope.

(** A concrete arithmetic used in the non-vacuity examples: integers. *)
Definition ZN : num :=
  mkNum Z 0 1 Z.add Z.sub Z.mul Z.div Z.opp (fun z => z) Z.sqrt 3 (fun z => z) (fun z => z) Z.ltb Z.eqb.
(** nmax=2, mmax=1: seven coefficients 1..7 (imaginary part 0). *)
Definition ex_c : scoefs ZN := mkSC ZN (map (fun z => (z, 0)) [1;2;3;4;5;6;7]) 2 1.
Example ex_valid : valid ZN ex_c. Proof. split; [cbn; lia|reflexivity]. Qed.

(** ** C01 *)

(** The storage cell of a mode (what item access computes), for every size:
    two modes never share a cell, every cell belongs to a mode, and the
    number of cells is the number of modes. *)
Theorem C01_layout_bijection : forall K (c : scoefs K), valid K c ->
  (forall n m, is_mode (sc_nmax K c) (sc_mmax K c) n m ->
     exists i, sc_elem_index K c n m = Ok i /\ 0 <= i < zlen (sc_vec K c)) /\
  (forall n m n' m' i, sc_elem_index K c n m = Ok i -> sc_elem_index K c n' m' = Ok i ->
     n = n' /\ m = m') /\
  (forall i, 0 <= i < zlen (sc_vec K c) ->
     exists n m, is_mode (sc_nmax K c) (sc_mmax K c) n m /\ sc_elem_index K c n m = Ok i) /\
  sc_size K c = zlen (all_modes (sc_nmax K c) (sc_mmax K c)) /\
  sc_size K c = zlen (sc_vec K c).
Proof.
  intros K c Hv. apply valid_wf in Hv. destruct Hv as [Hg Hl]. rewrite Hl.
  assert (Hmode : forall n m i, sc_elem_index K c n m = Ok i ->
     is_mode (sc_nmax K c) (sc_mmax K c) n m /\ i = pos (sc_nmax K c) n m).
  { intros n m i E. destruct (is_modeb (sc_nmax K c) (sc_mmax K c) n m) eqn:B.
    - apply is_modeb_spec in B. rewrite sc_elem_index_ok in E by auto. apply Ok_inj in E; auto.
    - rewrite sc_elem_index_raise in E; [discriminate|]. intros H; apply is_modeb_spec in H; congruence. }
  repeat split.
  - intros n m Hm. eexists; split; [apply sc_elem_index_ok; auto|]. now apply pos_range.
  - apply Hmode in H; apply Hmode in H0. destruct H as [A ->], H0 as [B E].
    apply pos_inj with (mmax := sc_mmax K c) in E; auto. tauto.
  - apply Hmode in H; apply Hmode in H0. destruct H as [A ->], H0 as [B E].
    apply pos_inj with (mmax := sc_mmax K c) in E; auto. tauto.
  - intros i Hi. destruct (pos_surj (sc_nmax K c) (sc_mmax K c) i) as (n & m & Hm & <-); auto.
    exists n, m. split; auto. now apply sc_elem_index_ok.
  - unfold sc_size. rewrite length_all_modes by auto. reflexivity.
Qed.
Print Assumptions C01_layout_bijection.

(** Objects stay in the valid class whatever a program does with them. *)
Theorem C01_reachable_valid : forall K (c : scoefs K), sc_reach K c -> valid K c.
Proof. intros K c H. apply valid_wf. now apply sc_reach_wf. Qed.
Print Assumptions C01_reachable_valid.

Example C01_nonvacuous : valid ZN ex_c /\ sc_elem_index ZN ex_c 2 (-1) = Ok 4 /\ sc_size ZN ex_c = 7.
Proof. split; [exact ex_valid|]. split; reflexivity. Qed.

(** ** C02 *)

(** Refinement: after any history of item assignments (any index expression,
    any value; exceptions caught), the object reads as the mathematical map
    obtained by replaying the accepted assignments. *)
Theorem C02_history_refines_map : forall K (c : scoefs K) hist (f : Z -> Z -> cplx K), valid K c ->
  (forall n m, is_mode (sc_nmax K c) (sc_mmax K c) n m -> reads K c n m (f n m)) ->
  let c' := sc_run K c hist in
  valid K c' /\ sc_nmax K c' = sc_nmax K c /\ sc_mmax K c' = sc_mmax K c /\
  forall n m, is_mode (sc_nmax K c) (sc_mmax K c) n m ->
    reads K c' n m (spec_run (c0 K) (sc_nmax K c) (sc_mmax K c) hist f n m).
Proof.
  intros K c hist f Hv Hf. cbn zeta. pose proof Hv as Hw. apply valid_wf in Hw.
  destruct (sc_run_spec K hist c Hw) as (W & N1 & N2 & HV).
  split; [now apply valid_wf|]. split; [auto|]. split; [auto|].
  intros n m Hm. apply reads_iff; [now apply valid_wf|]. rewrite N1, N2. split; auto.
  rewrite HV by auto. clear - Hm Hf Hv.
  assert (H : forall n m, is_mode (sc_nmax K c) (sc_mmax K c) n m -> f n m = cval K c n m).
  { intros n' m' Hm'. specialize (Hf n' m' Hm'). apply reads_inv in Hf; auto. now destruct Hf. }
  clear Hf. revert f H. generalize (cval K c). unfold spec_run.
  induction hist as [|p hist IH]; intros g f H; cbn [fold_left]; auto.
  apply IH. apply spec_set_ext. exact H.
Qed.
Print Assumptions C02_history_refines_map.

(** The classical last-write-wins reading for element assignments. *)
Theorem C02_last_write_wins : forall K (c : scoefs K) n m x n' m' y, valid K c ->
  is_mode (sc_nmax K c) (sc_mmax K c) n m -> reads K c n' m' y ->
  exists c', sc_setitem K c (STuple [IInt n; IInt m]) (VNum x) = (c', Ok tt) /\ valid K c' /\
    reads K c' n m x /\
    ((n', m') <> (n, m) -> reads K c' n' m' y).
Proof.
  intros K c n m x n' m' y Hv Hm Hr. pose proof Hv as Hw; apply valid_wf in Hw.
  destruct (sc_set_elem_ok K c n m x Hw Hm) as (c' & E & W & N1 & N2 & HV).
  exists c'. cbn [sc_setitem]. rewrite E. split; [reflexivity|].
  apply valid_wf in W. split; [auto|]. rewrite <- N1, <- N2 in HV, Hm. split.
  - apply reads_iff; auto. split; [auto|]. rewrite HV by auto. rewrite !Z.eqb_refl. auto.
  - intros Hne. apply reads_inv in Hr; auto. destruct Hr as [Hm' ->].
    rewrite <- N1, <- N2 in Hm'. apply reads_iff; auto. split; auto. rewrite HV by auto.
    destruct (Z.eqb_spec n' n), (Z.eqb_spec m' m); cbn; auto. subst; congruence.
Qed.
Print Assumptions C02_last_write_wins.

Example C02_nonvacuous : reads ZN (sc_run ZN ex_c
   [(STuple [IInt 2; IInt (-1)], VNum (50, 0)); (STuple [IInt 9; IInt 0], VNum (1, 1));
    (STuple [IAll; IInt 1], VArr [(8, 0); (9, 0)])]) 2 (-1) (50, 0).
Proof. reflexivity. Qed.

(** ** C03 *)

Theorem C03_element_bounds : forall K (c : scoefs K) n m, valid K c ->
  (is_mode (sc_nmax K c) (sc_mmax K c) n m -> exists x, reads K c n m x) /\
  (~ is_mode (sc_nmax K c) (sc_mmax K c) n m ->
     (exists msg, sc_getitem K c (STuple [IInt n; IInt m]) = Raise (AttributeError msg)) /\
     forall v, exists msg, sc_setitem K c (STuple [IInt n; IInt m]) v = (c, Raise (AttributeError msg))).
Proof.
  intros K c n m Hv; split.
  - intros Hm. eexists. apply reads_cval; auto.
  - intros Hm. split.
    + destruct (sc_get_elem_raise K c n m Hm) as (msg & E). exists msg. cbn. rewrite E. reflexivity.
    + intros v. destruct (sc_set_elem_raise K c n m (c0 K) Hm) as (msg & E).
      exists msg. cbn [sc_setitem].
      assert (Hi : sc_elem_index K c n m = Raise (AttributeError msg)).
      { unfold sc_set_elem in E. rewrite sc_elem_index_raise in * by auto. cbn in E. congruence. }
      destruct v; unfold sc_set_elem; rewrite Hi; reflexivity.
Qed.
Print Assumptions C03_element_bounds.

(** A write of any form is accepted exactly when the specification accepts
    it, and a rejected write leaves the object unchanged. *)
Theorem C03_rejected_write_no_change : forall K (c : scoefs K) arg val, valid K c ->
  let '(c', r) := sc_setitem K c arg val in
  (is_ok r = spec_accepts (sc_nmax K c) (sc_mmax K c) arg val) /\ (is_ok r = false -> c' = c).
Proof.
  intros K c arg val Hv. apply valid_wf in Hv.
  destruct (sc_setitem_spec K c arg val Hv) as (c' & r & -> & _ & _ & _ & H1 & H2 & _). auto.
Qed.
Print Assumptions C03_rejected_write_no_change.

Example C03_nonvacuous : ~ is_mode 2 1 2 2 /\ ~ is_mode 2 1 (-1) 0 /\ is_mode 2 1 2 (-1).
Proof. unfold is_mode. lia. Qed.

(** ** C04 *)

Theorem C04_column_read : forall K (c : scoefs K) m, valid K c ->
  (Z.abs m <= sc_mmax K c ->
    exists l, sc_getitem K c (STuple [IAll; IInt m]) = Ok (ItVec K l) /\
      zlen l = sc_nmax K c - Z.abs m + 1 /\
      forall n, Z.abs m <= n <= sc_nmax K c -> reads K c n m (vget (c0 K) l (n - Z.abs m))) /\
  (sc_mmax K c < Z.abs m ->
    sc_getitem K c (STuple [IAll; IInt m]) = Raise (AttributeError "m_out_bound")).
Proof.
  intros K c m Hv. pose proof Hv as Hw; apply valid_wf in Hw. pose proof (proj1 Hw) as Hg; unfold good_size in Hg.
  split; intros Hm.
  - change (sc_getitem K c (STuple [IAll; IInt m])) with (l <- sc_get_col K c m ;; Ok (ItVec K l)).
    rewrite sc_get_col_ok by auto. cbn [bind]. eexists; split; [reflexivity|].
    split; [rewrite zlen_map, zlen_zrange; lia|].
    intros n Hn. rewrite (vget_map (fun n => cval K c n m) 0) by (rewrite zlen_zrange; lia).
    rewrite vget_zrange by lia. replace (Z.abs m + (n - Z.abs m)) with n by lia.
    apply reads_cval; auto. unfold is_mode; lia.
  - cbn. rewrite sc_get_col_raise by auto. reflexivity.
Qed.
Print Assumptions C04_column_read.

Theorem C04_row_read : forall K (c : scoefs K) n, valid K c ->
  (0 <= n <= sc_nmax K c ->
    let w := Z.min n (sc_mmax K c) in
    exists l, sc_getitem K c (STuple [IInt n; IAll]) = Ok (ItVec K l) /\ zlen l = 2 * w + 1 /\
      forall m, - w <= m <= w -> reads K c n m (vget (c0 K) l (m + w))) /\
  (~ 0 <= n <= sc_nmax K c -> exists msg, sc_getitem K c (STuple [IInt n; IAll]) = Raise (AttributeError msg)).
Proof.
  intros K c n Hv. pose proof Hv as Hw; apply valid_wf in Hw. pose proof (proj1 Hw) as Hg; unfold good_size in Hg.
  split; intros Hn.
  - cbn zeta. change (sc_getitem K c (STuple [IInt n; IAll])) with (l <- sc_get_row K c n ;; Ok (ItVec K l)).
    rewrite sc_get_row_ok by auto. cbn [bind]. eexists; split; [reflexivity|].
    split; [rewrite zlen_map, zlen_zrange; lia|].
    intros m Hm. rewrite (vget_map (cval K c n) 0) by (rewrite zlen_zrange; lia).
    rewrite vget_zrange by lia.
    replace (- Z.min n (sc_mmax K c) + (m + Z.min n (sc_mmax K c))) with m by lia.
    apply reads_cval; auto. unfold is_mode; lia.
  - change (sc_getitem K c (STuple [IInt n; IAll])) with (l <- sc_get_row K c n ;; Ok (ItVec K l)).
    rewrite sc_get_row_raise by auto. cbn; eauto.
Qed.
Print Assumptions C04_row_read.

Theorem C04_column_write : forall K (c : scoefs K) m l, valid K c ->
  Z.abs m <= sc_mmax K c ->
  (zlen l = sc_nmax K c - Z.abs m + 1 ->
   exists c', sc_setitem K c (STuple [IAll; IInt m]) (VArr l) = (c', Ok tt) /\ valid K c' /\
    sc_nmax K c' = sc_nmax K c /\ sc_mmax K c' = sc_mmax K c /\
    forall n' m' x, reads K c n' m' x ->
      reads K c' n' m' (if m' =? m then vget (c0 K) l (n' - Z.abs m) else x)) /\
  (zlen l <> sc_nmax K c - Z.abs m + 1 ->
    exists e, sc_setitem K c (STuple [IAll; IInt m]) (VArr l) = (c, Raise e)).
Proof.
  intros K c m l Hv Hm. pose proof Hv as Hw; apply valid_wf in Hw. split; intros Hl.
  - destruct (sc_set_col_ok K c m (VArr l) l Hw Hm) as (c' & E & W & N1 & N2 & HV); auto.
    exists c'. apply valid_wf in W. split; [exact E|]. split; [auto|]. split; [auto|]. split; [auto|].
    intros n' m' x Hr. apply reads_inv in Hr; auto. destruct Hr as [Hm' ->].
    apply reads_iff; auto. rewrite N1, N2. split; auto. rewrite HV by auto. reflexivity.
  - destruct (sc_set_col_raise K c m (VArr l) Hw) as (e & E & _); [|eauto].
    right. cbn. intros E; apply Ok_inj in E; lia.
Qed.
Print Assumptions C04_column_write.

Theorem C04_row_write : forall K (c : scoefs K) n l, valid K c -> 0 <= n <= sc_nmax K c ->
  (zlen l = 2 * n + 1 ->
   exists c', sc_setitem K c (STuple [IInt n; IAll]) (VArr l) = (c', Ok tt) /\ valid K c' /\
    sc_nmax K c' = sc_nmax K c /\ sc_mmax K c' = sc_mmax K c /\
    forall n' m' x, reads K c n' m' x ->
      reads K c' n' m' (if n' =? n then vget (c0 K) l (m' + Z.min n (sc_mmax K c)) else x)) /\
  (zlen l <> 2 * n + 1 ->
    exists e, sc_setitem K c (STuple [IInt n; IAll]) (VArr l) = (c, Raise e)).
Proof.
  intros K c n l Hv Hn. pose proof Hv as Hw; apply valid_wf in Hw. split; intros Hl.
  - destruct (sc_set_row_ok K c n (VArr l) l Hw Hn) as (c' & E & W & N1 & N2 & HV); auto.
    exists c'. apply valid_wf in W. split; [exact E|]. split; [auto|]. split; [auto|]. split; [auto|].
    intros n' m' x Hr. apply reads_inv in Hr; auto. destruct Hr as [Hm' ->].
    apply reads_iff; auto. rewrite N1, N2. split; auto. rewrite HV by auto. reflexivity.
  - assert (E : spec_accepts (sc_nmax K c) (sc_mmax K c) (STuple [IInt n; IAll]) (VArr l) = false)
      by (change ((0 <=? n) && (n <=? sc_nmax K c) && (zlen l =? 2 * n + 1) = false); lia).
    destruct (sc_setitem_spec K c (STuple [IInt n; IAll]) (VArr l) Hw) as (c' & r & -> & _ & _ & _ & H1 & H2 & _).
    rewrite E in H1. rewrite (H2 H1). destruct r; [discriminate|eauto].
Qed.
Print Assumptions C04_row_write.

(** c[n,:] = c[n,:] works exactly when n <= mmax; then it changes nothing. *)
Theorem C04_row_self_assign : forall K (c : scoefs K) n, valid K c -> 0 <= n <= sc_nmax K c ->
  exists l, sc_getitem K c (STuple [IInt n; IAll]) = Ok (ItVec K l) /\
    (n <= sc_mmax K c -> sc_setitem K c (STuple [IInt n; IAll]) (VArr l) = (c, Ok tt)) /\
    (sc_mmax K c < n -> exists e, sc_setitem K c (STuple [IInt n; IAll]) (VArr l) = (c, Raise e)).
Proof.
  intros K c n Hv Hn. destruct (C04_row_read K c n Hv) as [H _]. destruct (H Hn) as (l & E & Hl & Hr).
  exists l. split; auto. pose proof (proj1 Hv). destruct (C04_row_write K c n l Hv Hn) as [A B]. split; intros Hm.
  - destruct A as (c' & E' & V' & N1 & N2 & HR); [lia|]. rewrite E'. f_equal.
    apply sc_ext; try (apply valid_wf; auto); auto. intros n' m' Hm'.
    rewrite N1, N2 in Hm'. pose proof (reads_cval K c n' m' Hv Hm') as R1.
    pose proof (HR _ _ _ R1) as R2. apply reads_inv in R2; auto. destruct R2 as [_ R2].
    rewrite <- R2. destruct (Z.eqb_spec n' n); auto. subst n'.
    destruct Hm' as (_ & Q1 & Q2).
    specialize (Hr m' ltac:(lia)). apply reads_inv in Hr; auto. now destruct Hr.
  - apply B. lia.
Qed.
Print Assumptions C04_row_self_assign.

Example C04_nonvacuous :
  sc_getitem ZN ex_c (STuple [IInt 2; IAll]) = Ok (ItVec ZN [(5,0);(3,0);(7,0)]) /\
  snd (sc_setitem ZN ex_c (STuple [IInt 2; IAll]) (VArr [(5,0);(3,0);(7,0)])) = Raise (AttributeError "dim_no_mtch").
Proof. split; reflexivity. Qed.

(** ** C05 *)

Theorem C05_truncation : forall K (c : scoefs K) k, valid K c ->
  (0 <= k <= sc_nmax K c ->
   exists t, sc_getitem K c (STuple [ISlice (Some 0) (Some k) None; IAll]) = Ok (ItCoefs K t) /\
     valid K t /\ sc_nmax K t = k /\ sc_mmax K t = Z.min k (sc_mmax K c) /\
     forall n m x, n <= k -> (reads K t n m x <-> reads K c n m x)) /\
  (sc_nmax K c < k ->
   sc_getitem K c (STuple [ISlice (Some 0) (Some k) None; IAll]) = Raise (AttributeError "n_out_bound")).
Proof.
  intros K c k Hv. pose proof Hv as Hw; apply valid_wf in Hw.
  split; intros Hk.
  - destruct (sc_trunc_ok K c k Hw Hk) as (t & E & W & N1 & N2 & HV).
    exists t. cbn. rewrite E. split; [destruct k; reflexivity|]. apply valid_wf in W.
    split; [auto|]. split; [auto|]. split; [auto|].
    intros n m x Hn. rewrite !reads_iff by auto. rewrite N1, N2.
    split; intros [Hm ->].
    + split; [unfold is_mode in *; lia|]. apply HV; auto.
    + assert (is_mode k (Z.min k (sc_mmax K c)) n m) by (unfold is_mode in *; lia).
      split; auto. symmetry; apply HV; auto.
  - cbn. rewrite sc_trunc_raise by auto. destruct k; reflexivity.
Qed.
Print Assumptions C05_truncation.

(** Finding: a negative stop is accepted and yields an object with nmax = -1. *)
Theorem C05_negative_stop_refuted : exists (c : scoefs ZN) t, valid ZN c /\
  sc_getitem ZN c (STuple [ISlice (Some 0) (Some (-1)) None; IAll]) = Ok (ItCoefs ZN t) /\ sc_nmax ZN t = -1.
Proof. exists ex_c, (mkSC ZN [] (-1) (-1)). split; [exact ex_valid|]. split; reflexivity. Qed.
Print Assumptions C05_negative_stop_refuted.

(** ** C06 *)

Theorem C06_window : forall K (c : scoefs K) w, valid K c ->
  (zlen w = sc_nmax K c + 1 ->
   exists c', sc_window K c w = (c', Ok tt) /\ valid K c' /\
     sc_nmax K c' = sc_nmax K c /\ sc_mmax K c' = sc_mmax K c /\
     forall n m x, reads K c n m x -> reads K c' n m (cmul K x (vget (c0 K) w n))) /\
  (zlen w <> sc_nmax K c + 1 -> zlen w <> 1 -> exists e, sc_window K c w = (c, Raise e)).
Proof.
  intros K c w Hv. pose proof Hv as Hw; apply valid_wf in Hw. split.
  - intros Hl. destruct (sc_window_ok K c w Hw Hl) as (c' & E & W & N1 & N2 & HV).
    exists c'. apply valid_wf in W. split; [auto|]. split; [auto|]. split; [auto|]. split; [auto|].
    intros n m x Hr. apply reads_inv in Hr; auto. destruct Hr as [Hm ->].
    apply reads_iff; auto. rewrite N1, N2. split; auto. symmetry. rewrite HV by auto. reflexivity.
  - apply sc_window_raise; auto.
Qed.
Print Assumptions C06_window.

(** Finding: a window of length one scales column m=0 only and then raises
    (or, when mmax=0, silently broadcasts). *)
Theorem C06_window_length_one : forall K (c : scoefs K) a, valid K c -> 1 <= sc_nmax K c ->
  exists c' r, sc_window K c [a] = (c', r) /\ valid K c' /\ is_ok r = (sc_mmax K c =? 0) /\
    forall n m x, reads K c n m x -> 
      exists y, reads K c' n m y /\ y = if m =? 0 then cmul K x a else x.
Proof.
  intros K c a Hv Hn. pose proof Hv as Hw; apply valid_wf in Hw.
  destruct (sc_window_len1 K c a Hw Hn) as (c' & r & E & W & Ho & HV). exists c', r.
  split; [auto|]. pose proof W as W'. apply valid_wf in W. split; [auto|]. split; [auto|].
  intros n m x Hr. apply reads_inv in Hr; auto. destruct Hr as [Hm ->].
  assert (Hs : sc_nmax K c' = sc_nmax K c /\ sc_mmax K c' = sc_mmax K c).
  { revert E. unfold sc_window, sc_window_col at 1. rewrite sc_get_col_ok by (auto; pose proof (proj1 Hv); lia). cbn [bind].
    destruct (np_broadcast _ _ _) as [p|e]; [|cbn; intros E; inversion E; auto].
    assert (S0 : forall d mm v d' r', sc_set_col K d mm v = (d', r') -> sc_nmax K d' = sc_nmax K d /\ sc_mmax K d' = sc_mmax K d).
    { intros d mm v d' r'. unfold sc_set_col. destruct (_ >? _); [intros Q; inversion Q; auto|].
      unfold lift_res. destruct (bind _ _) eqn:Eb; intros Q; inversion Q; subst; auto.
      apply bind_ok in Eb; destruct Eb as (? & _ & Eb). apply bind_ok in Eb; destruct Eb as (? & _ & Eb).
      destruct (negb _); [discriminate|]. apply bind_ok in Eb; destruct Eb as (? & _ & Eb). apply Ok_inj in Eb. subst; auto. }
    assert (S1 : forall mm w d d' r', sc_window_col K mm w d = (d', r') -> sc_nmax K d' = sc_nmax K d /\ sc_mmax K d' = sc_mmax K d).
    { intros mm w d d' r'. unfold sc_window_col. destruct (bind _ _); [apply S0|intros Q; inversion Q; auto]. }
    destruct (sc_set_col K c 0 (VArr p)) as [c1 r1] eqn:E1. apply S0 in E1. destruct E1 as [E1 E2].
    cbn [seq_unit]. destruct r1; [|intros Q; inversion Q; subst; auto].
    rewrite <- E1, <- E2. generalize (zrange 1 (sc_mmax K c1 + 1)). intros l. revert c1 E1 E2.
    assert (S2 : forall d, sfor l (fun m c => seq_unit (sc_window_col K (- m) (py_slice [a] m (zlen [a])) c)
                  (fun c => sc_window_col K m (py_slice [a] m (zlen [a])) c)) d = (c', r) ->
              sc_nmax K c' = sc_nmax K d /\ sc_mmax K c' = sc_mmax K d).
    { induction l as [|i l IH]; intros d; cbn [sfor]; [intros Q; inversion Q; auto|].
      destruct (sc_window_col K (- i) _ d) as [d1 q1] eqn:D1. apply S1 in D1. cbn [seq_unit].
      destruct q1; [|intros Q; inversion Q; subst; auto].
      destruct (sc_window_col K i _ d1) as [d2 q2] eqn:D2. apply S1 in D2.
      destruct q2; [|intros Q; inversion Q; subst; intuition congruence].
      intros Q. apply IH in Q. intuition congruence. }
    intros c1 E1 E2 Q. apply S2 in Q. exact Q. }
  eexists; split; [apply reads_cval; auto; destruct Hs as [-> ->]; auto|]. apply HV; auto.
Qed.
Print Assumptions C06_window_length_one.

Example C06_nonvacuous : valid ZN ex_c /\ zlen [(2,0);(3,0);(4,0)] = sc_nmax ZN ex_c + 1 /\
  reads ZN (fst (sc_window ZN ex_c [(2,0);(3,0);(4,0)])) 1 (-1) (12, 0).
Proof. split; [exact ex_valid|]. split; reflexivity. Qed.

(** ** C07 *)

Theorem C07_angular_power : forall K (c : scoefs K), valid K c ->
  exists l, sc_angular_power K c = Ok l /\ zlen l = sc_nmax K c + 1 /\
    forall n, 0 <= n <= sc_nmax K c ->
      exists row, sc_getitem K c (STuple [IInt n; IAll]) = Ok (ItVec K row) /\
        vget (r0 K) l n = rsum K (map (cabs2 K) row).
Proof.
  intros K c Hv. apply valid_wf in Hv. unfold sc_angular_power. rewrite sc_m_vecs_ok by auto. cbn [bind].
  pose proof (proj1 Hv) as Hg. unfold good_size in Hg.
  eexists; split; [reflexivity|]. split; [rewrite !zlen_map, zlen_zrange; lia|].
  intros n Hn. cbn. rewrite sc_get_row_ok by auto. cbn. eexists; split; [reflexivity|].
  rewrite map_map.
  match goal with |- vget _ (map ?f _) _ = _ => rewrite (vget_map f 0) by (rewrite zlen_zrange; lia) end.
  rewrite vget_zrange by lia. rewrite Z.add_0_l. reflexivity.
Qed.
Print Assumptions C07_angular_power.

Lemma rsum_perm (l l' : list (rc RN)) : Permutation l l' -> rsum RN l = rsum RN l'.
Proof. unfold rsum; cbn. induction 1; cbn; lra. Qed.

Lemma rsum_app (l l' : list (rc RN)) : rsum RN (l ++ l') = (rsum RN l + rsum RN l')%R.
Proof. unfold rsum; cbn. induction l; cbn; lra. Qed.

(** The spectrum adds up to the total power (exact arithmetic). *)
Theorem C07_power_total : forall c : scoefs RN, valid RN c ->
  exists l, sc_angular_power RN c = Ok l /\ rsum RN l = sc_power RN c.
Proof.
  intros c Hv. apply valid_wf in Hv. unfold sc_angular_power. rewrite sc_m_vecs_ok by auto. cbn [bind].
  eexists; split; [reflexivity|]. unfold sc_power.
  rewrite <- (rsum_perm _ _ (Permutation_map (cabs2 RN) (sc_vec_perm RN c Hv))).
  rewrite map_map. unfold all_modes. generalize (zrange 0 (sc_nmax RN c + 1)).
  induction l as [|n l IH]; [reflexivity|]. cbn [map flat_map].
  rewrite !map_app.
  match goal with |- _ = rsum RN (?a ++ ?b) => transitivity (rsum RN a + rsum RN b)%R; [|symmetry; apply rsum_app] end.
  change (rsum RN (?x :: ?y)) with (x + rsum RN y)%R. f_equal; [|exact IH].
  unfold row_modes. rewrite !map_map. reflexivity.
Qed.
Print Assumptions C07_power_total.

(** ... and is the sum of |c[n,m]|^2 over all modes. *)
Theorem C07_power_modes : forall c : scoefs RN, valid RN c ->
  forall f, (forall n m, is_mode (sc_nmax RN c) (sc_mmax RN c) n m -> reads RN c n m (f n m)) ->
  sc_power RN c =
    rsum RN (map (fun p => (fst (f (fst p) (snd p)) ^ 2 + snd (f (fst p) (snd p)) ^ 2)%R)
                 (all_modes (sc_nmax RN c) (sc_mmax RN c))).
Proof.
  intros c Hv f Hf. pose proof Hv as Hw; apply valid_wf in Hw. unfold sc_power.
  rewrite <- (rsum_perm _ _ (Permutation_map (cabs2 RN) (sc_vec_perm RN c Hw))).
  rewrite map_map. f_equal. apply map_ext_in. intros [n m] Hin. apply In_all_modes in Hin.
  specialize (Hf n m Hin). apply reads_inv in Hf; auto. destruct Hf as [_ Hf]. cbn [fst snd]. rewrite Hf.
  unfold cabs2. change (rmul RN) with Rmult. rewrite cabs_sq. cbn [pow]. rewrite !Rmult_1_r. reflexivity.
Qed.
Print Assumptions C07_power_modes.

Example C07_nonvacuous : exists c : scoefs RN, valid RN c /\ sc_nmax RN c = 1 /\ sc_mmax RN c = 1.
Proof.
  exists (mkSC RN [(1,0);(2,1);(3,0);(4,5)]%R 1 1). split; [split; [cbn; lia|reflexivity]|split; reflexivity].
Qed.

(** ** C08 *)

Theorem C08_binary_modewise : forall K o (a b : scoefs K), valid K a -> valid K b ->
  sc_nmax K a = sc_nmax K b -> sc_mmax K a = sc_mmax K b ->
  exists r, sc_op_left K o a (OpndSC K b) = Ok r /\ valid K r /\
    sc_nmax K r = sc_nmax K a /\ sc_mmax K r = sc_mmax K a /\
    forall n m x y, reads K a n m x -> reads K b n m y -> reads K r n m (binop_fun K o x y).
Proof.
  intros K o a b Ha Hb E1 E2. pose proof Ha as Wa; pose proof Hb as Wb; apply valid_wf in Wa; apply valid_wf in Wb.
  destruct (sc_op_left_SC K o a b Wa Wb E1 E2) as (r & E & W & N1 & N2 & HV).
  exists r. apply valid_wf in W. split; [auto|]. split; [auto|]. split; [auto|]. split; [auto|].
  intros n m x y Hx Hy. apply reads_inv in Hx; auto. apply reads_inv in Hy; auto.
  destruct Hx as [Hm ->], Hy as [_ ->]. apply reads_iff; auto. rewrite N1, N2. split; auto.
  symmetry; apply HV; auto.
Qed.
Print Assumptions C08_binary_modewise.

Theorem C08_number_modewise : forall K o (a : scoefs K) z, valid K a ->
  (o = OpDiv -> ceqb K z (c0 K) = false) ->
  exists r, sc_op_left K o a (OpndNum K z) = Ok r /\ valid K r /\
    sc_nmax K r = sc_nmax K a /\ sc_mmax K r = sc_mmax K a /\
    forall n m x, reads K a n m x -> reads K r n m (binop_fun K o x z).
Proof.
  intros K o a z Ha Hz. pose proof Ha as Wa; apply valid_wf in Wa.
  destruct (sc_op_left_num K o a z Wa Hz) as (r & E & W & N1 & N2 & HV).
  exists r. apply valid_wf in W. split; [auto|]. split; [auto|]. split; [auto|]. split; [auto|].
  intros n m x Hx. apply reads_inv in Hx; auto. destruct Hx as [Hm ->].
  apply reads_iff; auto. rewrite N1, N2. split; auto. symmetry; apply HV; auto.
Qed.
Print Assumptions C08_number_modewise.

Theorem C08_number_left_modewise : forall K o (a : scoefs K) z, valid K a ->
  exists r, sc_op_right K o a (OpndNum K z) = Ok r /\ valid K r /\
    sc_nmax K r = sc_nmax K a /\ sc_mmax K r = sc_mmax K a /\
    forall n m x, reads K a n m x -> reads K r n m (binop_fun K o z x).
Proof.
  intros K o a z Ha. pose proof Ha as Wa; apply valid_wf in Wa.
  destruct (sc_op_right_num K o a z Wa) as (r & E & W & N1 & N2 & HV).
  exists r. apply valid_wf in W. split; [auto|]. split; [auto|]. split; [auto|]. split; [auto|].
  intros n m x Hx. apply reads_inv in Hx; auto. destruct Hx as [Hm ->].
  apply reads_iff; auto. rewrite N1, N2. split; auto. symmetry; apply HV; auto.
Qed.
Print Assumptions C08_number_left_modewise.

(** Other operand types. *)
Theorem C08_other_operand : forall K o (a : scoefs K),
  sc_op_left K o a (OpndOther K) = Raise (TypeError "no_combi_SC") /\
  sc_op_right K o a (OpndOther K) = Raise (TypeError "no_combi_SC").
Proof. intros; split; reflexivity. Qed.
Print Assumptions C08_other_operand.

Example C08_nonvacuous : exists r, sc_op_left ZN OpMul ex_c (OpndSC ZN ex_c) = Ok r /\ reads ZN r 2 1 (49, 0).
Proof. eexists; split; reflexivity. Qed.

(** ** C09 *)

Theorem C09_mismatch_iff_sizes_differ : forall K o (a b : scoefs K), valid K a -> valid K b ->
  (sc_op_left K o a (OpndSC K b) = Raise (ValueError "SC_sz_msmtch") <-> sc_size K a <> sc_size K b) /\
  (sc_size K a = sc_size K b -> is_ok (sc_op_left K o a (OpndSC K b)) = true).
Proof.
  intros K o a b Ha Hb. apply valid_wf in Ha; apply valid_wf in Hb. unfold sc_size.
  rewrite <- (proj2 Ha), <- (proj2 Hb).
  assert (H : zlen (sc_vec K a) = zlen (sc_vec K b) -> exists r, sc_op_left K o a (OpndSC K b) = Ok r).
  { intros E. destruct (sc_op_left_samesize K o a b Ha E) as (r & E' & _); eauto. }
  split; [split|].
  - intros E Hc. destruct (H Hc) as (r & E'). congruence.
  - apply sc_op_left_mismatch.
  - intros E. destruct (H E) as (r & ->). reflexivity.
Qed.
Print Assumptions C09_mismatch_iff_sizes_differ.

(** Finding: operands of different shape are combined without an error. *)
Theorem C09_shape_check_refuted : exists a b : scoefs ZN, valid ZN a /\ valid ZN b /\
  (sc_nmax ZN a, sc_mmax ZN a) <> (sc_nmax ZN b, sc_mmax ZN b) /\
  exists r, sc_op_left ZN OpAdd a (OpndSC ZN b) = Ok r.
Proof.
  exists (mkSC ZN (map (fun z => (z, 0)) [1;2;3;4]) 3 0), (mkSC ZN (map (fun z => (z, 0)) [1;2;3;4]) 1 1).
  split; [split; [cbn; lia|reflexivity]|]. split; [split; [cbn; lia|reflexivity]|].
  split; [cbn; congruence|]. eexists; reflexivity.
Qed.
Print Assumptions C09_shape_check_refuted.

(** ** C10 (coefficient classes; the pattern classes are in P_Patt.v) *)

Theorem C10_scalar_coefs_div_zero : forall K (a : scoefs K) z, valid K a -> ceqb K z (c0 K) = true ->
  sc_op_left K OpDiv a (OpndNum K z) = Raise (TypeError "object has no len()").
Proof. intros K a z Ha Hz. apply valid_wf in Ha. now apply sc_div_zero. Qed.
Print Assumptions C10_scalar_coefs_div_zero.

Theorem C10_vector_coefs_div_zero : forall K (a : vcoefs K) z, ceqb K z (c0 K) = true ->
  vc_op_left K OpDiv a (VOpndNum K z) = Raise (AttributeError "no attribute 'shape'").
Proof. intros K a z Hz. cbn. rewrite Hz. reflexivity. Qed.
Print Assumptions C10_vector_coefs_div_zero.

Example C10_nonvacuous : valid ZN ex_c /\ ceqb ZN (0, 0) (c0 ZN) = true.
Proof. split; [exact ex_valid|reflexivity]. Qed.

(** ** C11 *)

Theorem C11_no_monopole : forall K (v : vcoefs K), vc_reach K v -> vvalid K v.
Proof. intros K v H. apply vvalid_wf. now apply vc_reach_wf. Qed.
Print Assumptions C11_no_monopole.

Theorem C11_monopole_access_rejected : forall K (v : vcoefs K) m,
  vc_getitem K v (STuple [IInt 0; IInt m]) = Raise (AttributeError "no_v0_mode") /\
  vc_getitem K v (STuple [IInt 0; IAll]) = Raise (AttributeError "no_v0_mode") /\
  forall val, exists msg, vc_setitem K v (STuple [IInt 0; IInt m]) val = (v, Raise (AttributeError msg)) /\
    vc_setitem K v (STuple [IInt 0; IAll]) val = (v, Raise (AttributeError msg)).
Proof.
  intros K v m. split; [reflexivity|]. split; [reflexivity|].
  intros val. destruct val as [x|[|a [|b [|c l]]]|l|]; cbn; eauto.
Qed.
Print Assumptions C11_monopole_access_rejected.

Definition ex_v : vcoefs ZN :=
  mkVC ZN (mkSC ZN (map (fun z => (z, 0)) [0;2;3;4;5;6;7]) 2 1)
          (mkSC ZN (map (fun z => (0, z)) [0;2;3;4;5;6;7]) 2 1) 2 1.
Example C11_nonvacuous : exists v, vc_reach ZN v /\ vc_nmax ZN v = 2 /\ vreads ZN v 2 1 (7,0) (0,7).
Proof.
  exists ex_v. split; [|split; reflexivity].
  apply (VR_new ZN (map (fun z => (z, 0)) [1;2;3;4;5;6;7]) (map (fun z => (0, z)) [1;2;3;4;5;6;7]) 2 1);
  [lia|reflexivity].
Qed.

(** ** C12 *)

Theorem C12_pair_write : forall K (v : vcoefs K) n m a b, vvalid K v ->
  n <> 0 -> is_mode (vc_nmax K v) (vc_mmax K v) n m ->
  exists v', vc_setitem K v (STuple [IInt n; IInt m]) (VList [a; b]) = (v', Ok tt) /\ vvalid K v' /\
    vc_nmax K v' = vc_nmax K v /\ vc_mmax K v' = vc_mmax K v /\
    vreads K v' n m a b /\
    (forall n' m' x, (n', m') <> (n, m) -> reads K (vc_1 K v) n' m' x -> reads K (vc_1 K v') n' m' x) /\
    (forall n' m' x, (n', m') <> (n, m) -> reads K (vc_2 K v) n' m' x -> reads K (vc_2 K v') n' m' x).
Proof.
  intros K v n m a b Hv Hn Hm. pose proof Hv as Hw. apply vvalid_wf in Hw.
  destruct (vc_set_ok K v n m a b Hw Hn Hm) as (v' & E & W & N1 & N2 & HV).
  exists v'. pose proof W as V'. apply vvalid_wf in V'. split; [auto|]. split; [auto|]. split; [auto|]. split; [auto|].
  destruct Hv as (X1 & X2 & A1 & A2 & A3 & A4 & _). pose proof V' as (Y1 & Y2 & B1 & B2 & B3 & B4 & _).
  assert (Hne : forall n' m', (n', m') <> (n, m) -> (n' =? n) && (m' =? m) = false).
  { intros n' m' Q. destruct (Z.eqb_spec n' n), (Z.eqb_spec m' m); cbn; auto. subst; congruence. }
  split; [|split].
  - unfold vreads; cbn. destruct (Z.eqb_spec n 0); [lia|].
    destruct (HV n m Hm) as [H1 H2]. rewrite !Z.eqb_refl in H1, H2.
    rewrite !sc_get_elem_ok by (try apply valid_wf; auto; congruence). cbn in *. congruence.
  - intros n' m' x Q R. apply reads_inv in R; auto. destruct R as [Hm' ->]. apply reads_iff; auto.
    rewrite B1, B2, N1, N2. rewrite A1, A2 in Hm'. split; auto.
    destruct (HV n' m' Hm') as [H1 _]. rewrite Hne in H1 by auto. auto.
  - intros n' m' x Q R. apply reads_inv in R; auto. destruct R as [Hm' ->]. apply reads_iff; auto.
    rewrite B3, B4, N1, N2. rewrite A3, A4 in Hm'. split; auto.
    destruct (HV n' m' Hm') as [_ H1]. rewrite Hne in H1 by auto. auto.
Qed.
Print Assumptions C12_pair_write.

Theorem C12_other_writes_rejected : forall K (v : vcoefs K) arg val, vvalid K v ->
  (forall n m a b, arg = STuple [IInt n; IInt m] -> val = VList [a; b] ->
     n <> 0 -> is_mode (vc_nmax K v) (vc_mmax K v) n m -> False) ->
  exists e, vc_setitem K v arg val = (v, Raise e).
Proof. intros K v arg val Hv. apply vc_set_raise. now apply vvalid_wf. Qed.
Print Assumptions C12_other_writes_rejected.

Theorem C12_reads_componentwise : forall K (v : vcoefs K) n m, vvalid K v -> n <> 0 ->
  (forall x y, vreads K v n m x y <-> reads K (vc_1 K v) n m x /\ reads K (vc_2 K v) n m y) /\
  (Z.abs m <= vc_mmax K v -> exists l1 l2,
     vc_getitem K v (STuple [IAll; IInt m]) = Ok (VItVec K l1 l2) /\
     sc_getitem K (vc_1 K v) (STuple [IAll; IInt m]) = Ok (ItVec K l1) /\
     sc_getitem K (vc_2 K v) (STuple [IAll; IInt m]) = Ok (ItVec K l2)) /\
  (0 <= n <= vc_nmax K v -> exists l1 l2,
     vc_getitem K v (STuple [IInt n; IAll]) = Ok (VItVec K l1 l2) /\
     sc_getitem K (vc_1 K v) (STuple [IInt n; IAll]) = Ok (ItVec K l1) /\
     sc_getitem K (vc_2 K v) (STuple [IInt n; IAll]) = Ok (ItVec K l2)).
Proof.
  intros K v n m Hv Hn. destruct Hv as (X1 & X2 & A1 & A2 & A3 & A4 & _).
  apply valid_wf in X1; apply valid_wf in X2. split; [|split].
  - intros x y. unfold vreads, reads. cbn. destruct (Z.eqb_spec n 0); [lia|].
    destruct (sc_get_elem K (vc_1 K v) n m), (sc_get_elem K (vc_2 K v) n m); cbn; split;
      try (intros Q; discriminate); try (intros [Q1 Q2]; discriminate).
    + intros Q. apply Ok_inj in Q. inversion Q; auto.
    + intros [Q1 Q2]. apply Ok_inj in Q1; apply Ok_inj in Q2. congruence.
  - intros Hm. cbn. rewrite !sc_get_col_ok by (auto; lia). cbn. eauto.
  - intros Hm. cbn. destruct (Z.eqb_spec n 0); [lia|]. rewrite !sc_get_row_ok by (auto; lia). cbn. eauto.
Qed.
Print Assumptions C12_reads_componentwise.

Theorem C12_truncation_componentwise : forall K (v : vcoefs K) k, vvalid K v -> 
  (0 <= k <= vc_nmax K v ->
  exists t, vc_getitem K v (STuple [ISlice (Some 0) (Some k) None; IAll]) = Ok (VItCoefs K t) /\ vvalid K t /\
    vc_nmax K t = k /\ vc_mmax K t = Z.min k (vc_mmax K v) /\
    forall n m x, n <= k -> (reads K (vc_1 K t) n m x <-> reads K (vc_1 K v) n m x) /\
                            (reads K (vc_2 K t) n m x <-> reads K (vc_2 K v) n m x)) /\
  (vc_nmax K v < k -> vc_getitem K v (STuple [ISlice (Some 0) (Some k) None; IAll]) = Raise (AttributeError "n_out_bound")).
Proof.
  intros K v k Hv. split; [|apply vc_trunc_raise]. intros Hk. pose proof Hv as Hw. apply vvalid_wf in Hw.
  destruct (vc_trunc_ok K v k Hw Hk) as (t & E & W & N1 & N2 & HV). exists t.
  pose proof W as Vt. apply vvalid_wf in Vt. split; [auto|]. split; [auto|]. split; [auto|]. split; [auto|].
  intros n m x Hn. destruct Hv as (X1 & X2 & A1 & A2 & A3 & A4 & _). destruct Vt as (Y1 & Y2 & B1 & B2 & B3 & B4 & _).
  rewrite !reads_iff by auto. rewrite A1, A2, A3, A4, B1, B2, B3, B4, N1, N2.
  assert (Hiff : is_mode k (Z.min k (vc_mmax K v)) n m <-> is_mode (vc_nmax K v) (vc_mmax K v) n m) by (unfold is_mode; lia).
  split; split; intros [Q ->].
  - split; [now apply Hiff|]. apply HV; auto.
  - apply Hiff in Q. split; auto. symmetry. apply HV; auto.
  - split; [now apply Hiff|]. apply HV; auto.
  - apply Hiff in Q. split; auto. symmetry. apply HV; auto.
Qed.
Print Assumptions C12_truncation_componentwise.

Example C12_nonvacuous : vvalid ZN ex_v /\ is_mode 2 1 2 (-1).
Proof. split; [|unfold is_mode; lia]. repeat split; cbn; lia. Qed.

(** ** C13 *)

Theorem C13_modewise : forall K o (a b : vcoefs K), vvalid K a -> vvalid K b ->
  vc_nmax K a = vc_nmax K b -> vc_mmax K a = vc_mmax K b ->
  exists r, vc_op_left K o a (VOpndVC K b) = Ok r /\ vvalid K r /\
    vc_nmax K r = vc_nmax K a /\ vc_mmax K r = vc_mmax K a /\
    forall n m x1 x2 y1 y2, vreads K a n m x1 x2 -> vreads K b n m y1 y2 ->
      vreads K r n m (binop_fun K o x1 y1) (binop_fun K o x2 y2).
Proof.
  intros K o a b Ha Hb E1 E2. pose proof Ha as Wa; apply vvalid_wf in Wa. pose proof Hb as Wb; apply vvalid_wf in Wb.
  destruct (vc_op_VC K o a b Wa Wb E1 E2) as (r & E & W & N1 & N2 & HV).
  exists r. apply vvalid_wf in W. split; [auto|]. split; [auto|]. split; [auto|]. split; [auto|].
  intros n m x1 x2 y1 y2 Hx Hy.
  assert (Hn : n <> 0) by (intros ->; discriminate).
  apply C12_reads_componentwise in Hx; auto. apply C12_reads_componentwise in Hy; auto.
  apply C12_reads_componentwise; auto.
  destruct Ha as (X1 & X2 & A1 & A2 & A3 & A4 & _), Hb as (Y1 & Y2 & B1 & B2 & B3 & B4 & _).
  destruct W as (Z1 & Z2 & D1 & D2 & D3 & D4 & _).
  rewrite !reads_iff in * by auto. destruct Hx as [[M1 ->] [M2 ->]], Hy as [[M3 ->] [M4 ->]].
  rewrite D1, D2, D3, D4, N1, N2. rewrite A1, A2 in M1. destruct (HV n m M1 Hn) as [-> ->]. auto.
Qed.
Print Assumptions C13_modewise.

Theorem C13_number_modewise : forall K o (a : vcoefs K) z, vvalid K a ->
  ((o = OpDiv -> ceqb K z (c0 K) = false) ->
   exists r, vc_op_left K o a (VOpndNum K z) = Ok r /\ vvalid K r /\
    forall n m x1 x2, vreads K a n m x1 x2 -> vreads K r n m (binop_fun K o x1 z) (binop_fun K o x2 z)) /\
  (exists r, vc_op_right K o a (VOpndNum K z) = Ok r /\ vvalid K r /\
    forall n m x1 x2, vreads K a n m x1 x2 -> vreads K r n m (binop_fun K o z x1) (binop_fun K o z x2)).
Proof.
  intros K o a z Ha. pose proof Ha as Wa; apply vvalid_wf in Wa.
  assert (G : forall f, exists r, vc_new K (map f (sc_vec K (vc_1 K a))) (map f (sc_vec K (vc_2 K a))) (vc_nmax K a) (vc_mmax K a) = Ok r /\
     vvalid K r /\ forall n m x1 x2, vreads K a n m x1 x2 -> vreads K r n m (f x1) (f x2)).
  { intros f. destruct (vc_op_map K a f Wa) as (r & E & W & N1 & N2 & HV). exists r. apply vvalid_wf in W.
    split; [auto|]. split; [auto|]. intros n m x1 x2 Hx.
    assert (Hn : n <> 0) by (intros ->; discriminate).
    apply C12_reads_componentwise in Hx; auto. apply C12_reads_componentwise; auto.
    destruct Ha as (X1 & X2 & A1 & A2 & A3 & A4 & _). destruct W as (Z1 & Z2 & D1 & D2 & D3 & D4 & _).
    rewrite !reads_iff in * by auto. destruct Hx as [[M1 ->] [M2 ->]].
    rewrite D1, D2, D3, D4, N1, N2. rewrite A1, A2 in M1. destruct (HV n m M1 Hn) as [-> ->]. auto. }
  split.
  - intros Hz. destruct o; cbn [vc_op_left]; try apply G. rewrite Hz by auto. apply (G (fun x => cdiv K x z)).
  - cbn [vc_op_right]. apply (G (fun x => binop_fun K o z x)).
Qed.
Print Assumptions C13_number_modewise.

(** Operands of different size: an error unless the right one has size 1;
    then its single (zero) monopole is broadcast over every mode. *)
Theorem C13_size_mismatch : forall K o (a b : vcoefs K), vvalid K a -> vvalid K b ->
  sc_size K (vc_1 K a) <> sc_size K (vc_1 K b) ->
  (sc_size K (vc_1 K b) <> 1 -> exists e, vc_op_left K o a (VOpndVC K b) = Raise e) /\
  (sc_size K (vc_1 K b) = 1 -> exists r, vc_op_left K o a (VOpndVC K b) = Ok r /\ vvalid K r /\
    forall n m x1 x2, vreads K a n m x1 x2 -> vreads K r n m (binop_fun K o x1 (c0 K)) (binop_fun K o x2 (c0 K))).
Proof.
  intros K o a b Ha Hb. pose proof Ha as Wa; apply vvalid_wf in Wa. pose proof Hb as Wb; apply vvalid_wf in Wb.
  unfold sc_size. destruct Wa as (Wa1 & Wa'), Wb as (Wb1 & Wb').
  rewrite <- (proj2 Wa1), <- (proj2 Wb1). intros Hne.
  destruct (vc_op_mismatch K o a b (conj Wa1 Wa') (conj Wb1 Wb') Hne) as [H1 H2]. split; [exact H1|].
  intros Hs. destruct (H2 Hs) as (r & E & W & N1 & N2 & HV). exists r. apply vvalid_wf in W.
  split; [auto|]. split; [auto|]. intros n m x1 x2 Hx.
  assert (Hn : n <> 0) by (intros ->; discriminate).
  apply C12_reads_componentwise in Hx; auto. apply C12_reads_componentwise; auto.
  destruct Ha as (X1 & X2 & A1 & A2 & A3 & A4 & _). destruct W as (Z1 & Z2 & D1 & D2 & D3 & D4 & _).
  rewrite !reads_iff in * by auto. destruct Hx as [[M1 ->] [M2 ->]].
  rewrite D1, D2, D3, D4, N1, N2. rewrite A1, A2 in M1. destruct (HV n m M1 Hn) as [-> ->]. auto.
Qed.
Print Assumptions C13_size_mismatch.

(** Finding: mismatched operands are combined silently. *)
Theorem C13_size_check_refuted : exists a b : vcoefs ZN, vvalid ZN a /\ vvalid ZN b /\
  vc_nmax ZN a <> vc_nmax ZN b /\ exists r, vc_op_left ZN OpMul a (VOpndVC ZN b) = Ok r.
Proof.
  exists ex_v, (mkVC ZN (mkSC ZN [(0,0)] 0 0) (mkSC ZN [(0,0)] 0 0) 0 0).
  split; [apply C12_nonvacuous|]. split; [repeat split; cbn; lia|]. split; [cbn; lia|].
  eexists; reflexivity.
Qed.
Print Assumptions C13_size_check_refuted.

(** ** C14 *)

Theorem C14_factory_errors : forall K f1 f2 nmax mmax t,
  (nmax < mmax -> coefs_factory K f1 f2 nmax mmax t = Raise (ValueError "nmax_g_mmax")) /\
  (mmax <= nmax -> t <> 0 -> t <> 1 -> coefs_factory K f1 f2 nmax mmax t = Raise (TypeError "ukn_coef_t")).
Proof.
  intros. unfold coefs_factory. split; intros H.
  - destruct (Z.gtb_spec mmax nmax); [auto|lia].
  - intros H0 H1. destruct (Z.gtb_spec mmax nmax); [lia|].
    destruct (Z.eqb_spec t 0); [lia|]. destruct (Z.eqb_spec t 1); [lia|auto].
Qed.
Print Assumptions C14_factory_errors.

Lemma factory_scalar K f1 f2 nmax mmax : 0 <= mmax <= nmax ->
  exists c, coefs_factory K f1 f2 nmax mmax 0 = Ok (AnyS K c) /\ valid K c /\
    sc_nmax K c = nmax /\ sc_mmax K c = mmax /\
    forall n m, is_mode nmax mmax n m -> reads K c n m (f1 (pos nmax n m)).
Proof.
  intros H. rewrite coefs_factory_ok by (auto; lia). cbn [Z.eqb].
  assert (Hg : good_size nmax mmax) by exact H.
  pose proof (pos_range nmax mmax 0 0 Hg (mode00 _ _ Hg)) as H0.
  rewrite sc_new_ok by (auto; rewrite zlen_vmake; lia). cbn [bind].
  eexists; split; [reflexivity|].
  assert (V : valid K (mkSC K (vmake (ncoef nmax mmax) f1) nmax mmax)).
  { apply valid_wf. split; cbn; auto. rewrite zlen_vmake; lia. }
  split; [exact V|]. split; [reflexivity|]. split; [reflexivity|].
  intros n m Hm. apply reads_iff; auto. split; auto. unfold cval; cbn. rewrite vget_vmake; auto. now apply pos_range.
Qed.

Lemma factory_vector K f1 f2 nmax mmax : 0 <= mmax <= nmax ->
  exists c, coefs_factory K f1 f2 nmax mmax 1 = Ok (AnyV K c) /\ vvalid K c /\
    vc_nmax K c = nmax /\ vc_mmax K c = mmax /\
    forall n m, is_mode nmax mmax n m -> n <> 0 -> vreads K c n m (f1 (pos nmax n m)) (f2 (pos nmax n m)).
Proof.
  intros H. rewrite coefs_factory_ok by (auto; lia). cbn [Z.eqb].
  assert (Hg : good_size nmax mmax) by exact H.
  pose proof (pos_range nmax mmax 0 0 Hg (mode00 _ _ Hg)) as H0.
  destruct (vc_new_ok K (vset (vmake (ncoef nmax mmax) f1) 0 (c0 K)) (vset (vmake (ncoef nmax mmax) f2) 0 (c0 K)) nmax mmax)
    as (c & E & W & N1 & N2 & HV); auto.
  { rewrite zlen_vset, zlen_vmake; lia. } { rewrite zlen_vset, zlen_vmake; lia. }
  rewrite E. cbn [bind]. exists c. apply vvalid_wf in W.
  split; [auto|]. split; [auto|]. split; [auto|]. split; [auto|]. intros n m Hm Hn.
  apply C12_reads_componentwise; auto. destruct W as (X1 & X2 & A1 & A2 & A3 & A4 & _).
  rewrite !reads_iff by auto. rewrite A1, A2, A3, A4, N1, N2. destruct (HV n m Hm) as [-> ->].
  destruct (Z.eqb_spec n 0); [lia|].
  assert (Hp : pos nmax n m <> 0) by (intros Q; destruct (pos_zero _ _ _ _ Hg Hm Q); lia).
  pose proof (pos_range _ _ _ _ Hg Hm).
  unfold cval; cbn [sc_vec sc_nmax]. rewrite !vget_vset_ne by auto. rewrite !vget_vmake by auto. auto.
Qed.

Theorem C14_zeros_ones : forall K nmax mmax, 0 <= mmax <= nmax ->
  (exists c, zeros_coefs K nmax mmax 0 = Ok (AnyS K c) /\ valid K c /\ sc_nmax K c = nmax /\ sc_mmax K c = mmax /\
     forall n m, is_mode nmax mmax n m -> reads K c n m (c0 K)) /\
  (exists c, ones_coefs K nmax mmax 0 = Ok (AnyS K c) /\ valid K c /\ sc_nmax K c = nmax /\ sc_mmax K c = mmax /\
     forall n m, is_mode nmax mmax n m -> reads K c n m (c1 K)) /\
  (exists c, zeros_coefs K nmax mmax 1 = Ok (AnyV K c) /\ vvalid K c /\ vc_nmax K c = nmax /\ vc_mmax K c = mmax /\
     forall n m, is_mode nmax mmax n m -> n <> 0 -> vreads K c n m (c0 K) (c0 K)) /\
  (exists c, ones_coefs K nmax mmax 1 = Ok (AnyV K c) /\ vvalid K c /\ vc_nmax K c = nmax /\ vc_mmax K c = mmax /\
     forall n m, is_mode nmax mmax n m -> n <> 0 -> vreads K c n m (c1 K) (c1 K)).
Proof.
  intros K nmax mmax H. split; [|split; [|split]].
  - exact (factory_scalar K (fun _ => c0 K) (fun _ => c0 K) nmax mmax H).
  - exact (factory_scalar K (fun _ => c1 K) (fun _ => c1 K) nmax mmax H).
  - exact (factory_vector K (fun _ => c0 K) (fun _ => c0 K) nmax mmax H).
  - exact (factory_vector K (fun _ => c1 K) (fun _ => c1 K) nmax mmax H).
Qed.
Print Assumptions C14_zeros_ones.

(** Random factories: whatever the generator returns ([d1], [d2]: the drawn
    vectors), each mode holds its own draw: distinct modes hold distinct
    positions of the drawn vector. *)
Theorem C14_random : forall K d1 d2 nmax mmax, 0 <= mmax <= nmax ->
  exists cell : Z -> Z -> Z,
   (forall n m, is_mode nmax mmax n m -> 0 <= cell n m < zlen (all_modes nmax mmax)) /\
   (forall n m n' m', is_mode nmax mmax n m -> is_mode nmax mmax n' m' -> cell n m = cell n' m' -> n = n' /\ m = m') /\
   (exists c, random_coefs K d1 d2 nmax mmax 0 = Ok (AnyS K c) /\ valid K c /\ sc_nmax K c = nmax /\ sc_mmax K c = mmax /\
     forall n m, is_mode nmax mmax n m -> reads K c n m (d1 (cell n m))) /\
   (exists c, random_coefs K d1 d2 nmax mmax 1 = Ok (AnyV K c) /\ vvalid K c /\ vc_nmax K c = nmax /\ vc_mmax K c = mmax /\
     forall n m, is_mode nmax mmax n m -> n <> 0 -> vreads K c n m (d1 (cell n m)) (d2 (cell n m))).
Proof.
  intros K d1 d2 nmax mmax H. exists (pos nmax). split; [|split; [|split]].
  - intros n m Hm. rewrite length_all_modes by exact H. now apply pos_range.
  - intros n m n' m' H1 H2. now apply pos_inj with mmax.
  - exact (factory_scalar K d1 d2 nmax mmax H).
  - exact (factory_vector K d1 d2 nmax mmax H).
Qed.
Print Assumptions C14_random.

Example C14_nonvacuous : 0 <= 1 <= 2 /\ exists c, ones_coefs ZN 2 1 1 = Ok (AnyV ZN c).
Proof. split; [lia|]. eexists; reflexivity. Qed.

(** ** C15 *)

Theorem C15_array_2d : forall K (c : scoefs K), valid K c ->
  exists a, sc_array_2d K c = Ok a /\ mt_nr K a = sc_nmax K c + 1 /\ mt_nc K a = 2 * sc_mmax K c + 1 /\
    forall n m, 0 <= n <= sc_nmax K c -> Z.abs m <= sc_mmax K c ->
      (Z.abs m <= n -> reads K c n m (mget K a n (m + sc_mmax K c))) /\
      (n < Z.abs m -> mget K a n (m + sc_mmax K c) = c0 K).
Proof.
  intros K c Hv. pose proof Hv as Hw; apply valid_wf in Hw.
  destruct (sc_array_2d_ok K c Hw) as (a & E & N1 & N2 & HV). exists a. split; [auto|]. split; [auto|]. split; [auto|].
  intros n m Hn Hm. specialize (HV n m Hn Hm). rewrite HV. split; intros H.
  - replace (Z.abs m <=? n) with true by lia. apply reads_cval; auto. unfold is_mode; lia.
  - replace (Z.abs m <=? n) with false by lia. auto.
Qed.
Print Assumptions C15_array_2d.

Example C15_nonvacuous : exists a, sc_array_2d ZN ex_c = Ok a /\ mget ZN a 2 0 = (5, 0) /\ mget ZN a 0 0 = (0, 0).
Proof. eexists; split; [reflexivity|]. split; reflexivity. Qed.

(** ** C16 *)

(** [tiny] is the number formatter, [center] the str.center(13) call. The
    picture has a slot for exactly the modes n <= 2, |m| <= n. *)
Theorem C16_pretty : forall K S (tiny : cplx K -> S) empty center (c : scoefs K), valid K c ->
  (2 <= sc_nmax K c -> exists cells, pretty_cells K tiny empty center c = Ok cells /\
    forall n m, 0 <= n <= 2 -> Z.abs m <= n -> exists k, pretty_slot n m = Some k /\ 0 <= k < zlen cells /\
      (forall x, reads K c n m x -> vget empty cells k = center (tiny x)) /\
      (sc_mmax K c < Z.abs m -> vget empty cells k = center empty)) /\
  (sc_nmax K c < 2 -> pretty_cells K tiny empty center c = Raise (AttributeError "n_out_bound")) /\
  (forall n m n' m' k, pretty_slot n m = Some k -> pretty_slot n' m' = Some k -> n = n' /\ m = m').
Proof.
  intros K S tiny empty center c Hv. split; [|split].
  - intros Hn. pose proof Hv as Hw; apply valid_wf in Hw.
    destruct (pretty_cells_ok K tiny empty center c Hw Hn) as (cells & E & L & HV).
    exists cells. split; [auto|]. intros n m Hn2 Hm.
    assert (Hk : exists k, pretty_slot n m = Some k /\ 0 <= k < 9).
    { assert (Q : (n = 0 /\ m = 0) \/ (n = 1 /\ (m = -1 \/ m = 0 \/ m = 1)) \/
         (n = 2 /\ (m = -2 \/ m = -1 \/ m = 0 \/ m = 1 \/ m = 2))) by lia.
      destruct Q as [[-> ->]|[[-> [->|[->| ->]]]|[-> [->|[->|[->|[->| ->]]]]]]];
        eexists; (split; [reflexivity|lia]). }
    destruct Hk as (k & Hk & K9). exists k. split; [auto|]. split; [lia|].
    specialize (HV n m k Hk). split.
    + intros x Hx. apply reads_inv in Hx; auto. destruct Hx as [Q ->]. apply is_modeb_spec in Q. rewrite Q in HV. auto.
    + intros Q. replace (is_modeb (sc_nmax K c) (sc_mmax K c) n m) with false in HV; auto.
      symmetry. apply Bool.not_true_is_false. rewrite is_modeb_spec. unfold is_mode; lia.
  - apply pretty_cells_raise.
  - intros n m n' m' k H1 H2.
    destruct n as [|[[]|[]|]|]; try discriminate; destruct m as [|[[]|[]|]|[[]|[]|]]; try discriminate;
    destruct n' as [|[[]|[]|]|]; try discriminate; destruct m' as [|[[]|[]|]|[[]|[]|]]; try discriminate;
    cbn in H1, H2; inversion H1; subst; try discriminate; auto.
Qed.
Print Assumptions C16_pretty.

Example C16_nonvacuous : valid ZN ex_c /\ 2 <= sc_nmax ZN ex_c /\ exists cells, pretty_cells ZN fst 0 (fun x => x) ex_c = Ok cells /\ vget 0 cells 4 = 5.
Proof. split; [exact ex_valid|]. split; [cbn; lia|]. eexists; split; reflexivity. Qed.
