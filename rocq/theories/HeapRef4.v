(** * HeapRef4: the transforms of MHeap.v compute the values of MTrans.v. *)
From Coq Require Import ZArith List String Bool Reals Lia.
From Coquelicot Require Import Complex.
From Verif Require Import Py PyFacts Num Exact MCoefs CoefsFacts CoefsFacts2 MPatt Sums MPysphi MOps MTrans MKiss MCsphi MHeap SpecHeap HeapFacts HeapFacts2 HeapFacts3 HeapRef HeapRef2 HeapRef3.
Import ListNotations.
Open Scope list_scope.
Open Scope Z_scope.

Lemma bind_ret_r A (r : res A) : bind r (fun x => Ok x) = r.
Proof. destruct r; reflexivity. Qed.
(** a relation together with the frame of a call that creates its result *)
Lemma rel_fresh A B h (m : hm A) (r : res B) (Q : A -> B -> heap -> Prop) P :
  rel h m r Q -> spec (List.length h) [] h m P ->
  rel h m r (fun a b h' => Q a b h' /\ P a h' /\ post (List.length h) [] h h').
Proof. apply rel_spec. Qed.
Lemma keep2 h h' x : post (List.length h) [] h h' -> ok_arr2 h x -> rd2 h' x = rd2 h x.
Proof. intros P O. eapply rd2_keep; [exact P|apply O|intros []]. Qed.
Lemma keep1 h h' x : post (List.length h) [] h h' -> ok_arr h x -> rd h' x = rd h x.
Proof. intros P O. eapply rd_keep; [exact P|apply O|intros []]. Qed.

Lemma np_fft2_wf a f : mat_wf RN a -> np_fft2 a = Ok f -> mat_wf RN f /\ mt_nr RN f = mt_nr RN a /\ mt_nc RN f = mt_nc RN a.
Proof.
  intros [A [B D]]. unfold np_fft2. cbv zeta. repeat (match goal with |- context [if ?b then _ else _] => destruct b end; try discriminate).
  all: intro E; injection E as <-; apply mmk; assumption.
Qed.
Lemma np_ifft2_wf a f : mat_wf RN a -> np_ifft2 a = Ok f -> mat_wf RN f /\ mt_nr RN f = mt_nr RN a /\ mt_nc RN f = mt_nc RN a.
Proof.
  intros [A [B D]]. unfold np_ifft2. cbv zeta. repeat (match goal with |- context [if ?b then _ else _] => destruct b end; try discriminate).
  all: intro E; injection E as <-; apply mmk; assumption.
Qed.

Lemma rel_fft_padded h d : ok_arr2 h d ->
  rel h (h_fft_padded d) (fft_padded (rd2 h d))
    (fun b m h' => rd2 h' b = m /\ fresh_arr2 (List.length h) b h' /\ post (List.length h) [] h h').
Proof.
  intro O. eapply rel_fresh; [|apply spec_fft_padded; lia].
  unfold h_fft_padded, fft_padded. apply rel_read. cbv zeta. apply rel_lift. intros f Ef.
  destruct (np_fft2_wf _ _ (rd2_wf h d O) Ef) as [Wf [N1 N2]].
  apply rel_new2; [exact Wf|]. intros bf h1 P1 [F1 Of] E1 _ _. apply rel_read. rewrite E1.
  apply rel_new2; [apply ew1_wf; exact Wf|]. intros b h2 P2 [F2 Ob] E2 _ _.
  cbn [mt_nr mt_nc rd2]. rewrite <- E2.
  eapply rel_bind; [apply inpl_fix; exact Ob|]. cbn beta. intros _ m h3 [E3 [P3 Ob3]].
  apply rel_lift. intros z Ez. destruct (zeros2_wf _ _ _ Ez) as [Wz _].
  apply rel_new2; [exact Wz|]. intros e h4 P4 [F4 Oe] E4 _ _.
  rewrite <- E3. rewrite <- (keep2 _ _ b P4 Ob3).
  rewrite <- E4. rewrite <- (bind_ret_r _ (pad_rows_fdata (rd2 h4 b) (rd2 h4 e))).
  eapply rel_bind.
  - unfold h_pad_rows_fdata. apply rel_read. apply rel_inplace; [exact Oe|]. apply shaped_pad.
  - cbn beta. intros _ m5 h5 E5. apply rel_ret. exact E5.
Qed.
Lemma rel_fc_to_sc be h f n m : ok_arr2 h f ->
  rel h (h_fc_to_sc be f n m) (be_fc_to_sc be (rd2 h f) n m)
    (fun a v h' => rd h' a = v /\ fresh_arr (List.length h) a h' /\ post (List.length h) [] h h').
Proof.
  intro O. eapply rel_fresh; [|apply spec_fc_to_sc; lia].
  unfold h_fc_to_sc. apply rel_read. apply rel_lift_ok. intros v Ev. apply rel_new_end.
  intros a h' _ _ E _. apply rel_ret. exact E.
Qed.

Definition be_wf (be : backend) : Prop :=
  forall v n m r k f, be_sc_to_fc be v n m r k = Ok f -> mat_wf RN f.

Lemma rel_sc_to_fc be h v n m r k : be_wf be ->
  rel h (h_sc_to_fc be v n m r k) (be_sc_to_fc be (rd h v) n m r k)
    (fun a w h' => rd2 h' a = w /\ fresh_arr2 (List.length h) a h' /\ post (List.length h) [] h h').
Proof.
  intro W. eapply rel_fresh; [|apply spec_sc_to_fc; lia].
  unfold h_sc_to_fc. apply rel_read. apply rel_lift_ok. intros f Ef. apply rel_new2_end; [eapply W; exact Ef|].
  intros b h' _ _ E _ _. apply rel_ret. exact E.
Qed.
Lemma rel_ifft h f r k : ok_arr2 h f ->
  rel h (h_ifft_scaled f r k) (ifft_scaled (rd2 h f) r k)
    (fun a w h' => rd2 h' a = w /\ fresh_arr2 (List.length h) a h' /\ post (List.length h) [] h h').
Proof.
  intro O. eapply rel_fresh; [|apply spec_ifft; lia].
  unfold h_ifft_scaled. apply rel_read. apply rel_lift_ok. intros d Ed. apply rel_new2_end.
  - unfold ifft_scaled in Ed. destruct (np_ifft2 _) as [d0|] eqn:E0; [|discriminate]. cbn [bind] in Ed. injection Ed as <-.
    apply ew1_wf. apply (np_ifft2_wf _ _ (rd2_wf h f O) E0).
  - intros b h' _ _ E _ _. apply rel_ret. exact E.
Qed.

Lemma rel_spht be h d n m : ok_arr2 h d ->
  rel h (h_spht be d n m) (spht be (rd2 h d) n m) (fun c w h' => scv h' c = w).
Proof.
  intro O. unfold h_spht, spht, p_nrows, p_ncols. cbn [mt_nr mt_nc rd2].
  destruct (spht_sizes _ _ _ _) as [nn mm]. apply rel_lift. intros [] _.
  eapply rel_bind; [apply rel_fft_padded; exact O|]. cbn beta. intros b m1 h1 [E1 [[_ Ob] P1]]. rewrite <- E1.
  eapply rel_bind; [apply inpl_sin; exact Ob|]. cbn beta. intros _ m2 h2 [E2 [P2 Ob2]].
  apply rel_lift. intros z _. apply rel_new. intros za h3 P3 _ _ _. rewrite <- E2. rewrite <- (keep2 _ _ b P3 Ob2).
  pose proof (ok_arr2_mono _ _ _ _ _ P3 Ob2) as Ob3.
  eapply rel_bind; [apply rel_fc_to_sc; exact Ob3|]. cbn beta. intros a v h4 [E4 [[_ Oa] _]]. rewrite <- E4.
  eapply rel_conseq; [apply rel_sc_new; apply Oa|]. cbn beta. intros c w h5 [_ [_ H]]. exact H.
Qed.
Lemma rel_spht_slow h d n m : ok_arr2 h d ->
  rel h (h_spht_slow d n m) (spht_slow (rd2 h d) n m) (fun c w h' => scv h' c = w).
Proof.
  intro O. unfold h_spht_slow, spht_slow. cbn [mt_nr mt_nc rd2].
  destruct (m >? n); [apply rel_raise|]. destruct (_ || _); [apply rel_raise|].
  eapply rel_bind; [apply rel_fft_padded; exact O|]. cbn beta. intros b m1 h1 [E1 [[_ Ob] P1]]. rewrite <- E1.
  eapply rel_bind; [apply inpl_sin; exact Ob|]. cbn beta. intros _ m2 h2 [E2 [P2 Ob2]]. rewrite <- E2.
  change py_fc_to_sc with (be_fc_to_sc py_backend).
  eapply rel_bind; [apply rel_fc_to_sc; exact Ob2|]. cbn beta. intros a v h4 [E4 [[_ Oa] _]]. rewrite <- E4.
  eapply rel_conseq; [apply rel_sc_new; apply Oa|]. cbn beta. intros c w h5 [_ [_ H]]. exact H.
Qed.
Lemma rel_ispht be h c r k : be_wf be ->
  rel h (h_ispht be c r k) (ispht be (scv h c) r k) (fun d w h' => rd2 h' d = w).
Proof.
  intro W. unfold h_ispht, ispht. cbn [sc_nmax sc_mmax scv sc_vec]. cbv zeta.
  destruct (_ <=? _); [apply rel_raise|]. destruct (_ <? _); [apply rel_raise|]. destruct (_ =? 1); [apply rel_raise|].
  eapply rel_bind; [apply rel_sc_to_fc; exact W|]. cbn beta. intros a m1 h1 [E1 [[_ Oa] P1]]. rewrite <- E1.
  eapply rel_bind; [apply rel_ifft; exact Oa|]. cbn beta. intros b m2 h2 [E2 [[_ Ob] P2]]. rewrite <- E2.
  apply rel_sp_new. exact Ob.
Qed.
Lemma rel_ispht_slow h c r k : be_wf py_backend ->
  rel h (h_ispht_slow c r k) (ispht_slow (scv h c) r k) (fun d w h' => rd2 h' d = w).
Proof.
  intro W. unfold h_ispht_slow, ispht_slow. cbn [sc_nmax sc_mmax scv sc_vec]. cbv zeta.
  destruct (_ =? 1); [apply rel_raise|]. change py_sc_to_fc with (be_sc_to_fc py_backend).
  eapply rel_bind; [apply rel_sc_to_fc; exact W|]. cbn beta. intros a m1 h1 [E1 [[_ Oa] P1]]. rewrite <- E1.
  eapply rel_bind; [apply rel_ifft; exact Oa|]. cbn beta. intros b m2 h2 [E2 [[_ Ob] P2]]. rewrite <- E2.
  apply rel_sp_new. exact Ob.
Qed.
Lemma rel_nvec h n : rel h (h_nvec n) (nvec n)
  (fun a v h' => rd h' a = v /\ fresh_arr (List.length h) a h' /\ post (List.length h) [] h h').
Proof.
  eapply rel_fresh; [|apply spec_nvec; lia]. unfold h_nvec, nvec. apply rel_lift. intros z _.
  apply rel_new. intros a h1 _ [F Oa] E1 _. rewrite <- E1.
  match goal with |- rel _ _ ?r _ => rewrite <- (bind_ret_r _ r) end.
  eapply rel_bind.
  - apply (rel_for _ _ _ _ (fun v h => rd h a = v /\ ok_arr h a)); [auto|].
    intros i s h2 [H2 O2]. rewrite <- H2. eapply rel_conseq.
    + eapply (rel_spec _ _ (List.length h2) [a_loc a]); [apply rel_aset; exact O2|apply spec_aset; left; left; reflexivity].
    + cbn beta. intros _ v h3 [H3 [_ P3]]. split; [exact H3|]. eapply ok_arr_mono; eauto.
  - cbn beta. intros _ v h2 [H2 _]. apply rel_ret. exact H2.
Qed.
Lemma rel_windowed h c v : ok_arr h (hs_arr c) -> ok_arr h v -> a_loc v <> a_loc (hs_arr c) ->
  rel h (h_sc_window c v) (windowed (scv h c) (rd h v))
    (fun _ w h' => scv h' c = w /\ post (List.length h) [a_loc (hs_arr c)] h h').
Proof.
  intros O Ov Hne. destruct (srel_window h c v O Ov Hne) as [S1 S2].
  assert (SP : spec (List.length h) [a_loc (hs_arr c)] h (h_sc_window c v) (fun _ _ => True)).
  { apply spec_window; [lia|exact O|left; left; reflexivity]. }
  eapply rel_conseq; [eapply rel_spec; [|exact SP]|].
  - instantiate (1 := fun _ w h' => scv h' c = w). unfold windowed. destruct (sc_window RN (scv h c) (rd h v)) as [c' r]. cbn [fst snd] in *.
    unfold rel. destruct (h_sc_window c v h) as [[[]|e] h']; cbn [fst snd] in *; subst r; cbn [bind]; auto.
  - cbn beta. intros _ w h' [H [_ P]]. auto.
Qed.
Lemma rel_sinLdot' h t p : ok_arr2 h t -> ok_arr2 h p -> b_loc t <> b_loc p ->
  rel h (h_sinLdot_fc t p) (sinLdot_fc (rd2 h t) (rd2 h p))
    (fun d m h' => rd2 h' d = m /\ fresh_arr2 (List.length h) d h' /\ post (List.length h) [b_loc t; b_loc p] h h').
Proof.
  intros Ot Op Hne. eapply rel_spec; [apply rel_sinLdot; assumption|].
  apply spec_sinLdot; [lia|left; left; reflexivity|left; right; left; reflexivity].
Qed.
Lemma rel_L' h b : ok_arr2 h b ->
  rel h (h_L_fc b) (L_fc (rd2 h b)) (fun d m h' => (rd2 h' (fst d), rd2 h' (snd d)) = m /\ fresh_tp (List.length h) d h' /\ post (List.length h) [b_loc b] h h').
Proof.
  intros O. eapply rel_spec; [apply rel_L; assumption|]. apply spec_L; [lia|left; left; reflexivity].
Qed.
Ltac mono := first [assumption | match goal with
  | P : post _ _ ?h ?h1 |- ok_arr2 ?h1 ?x => apply (ok_arr2_mono _ _ _ _ _ P); mono
  | P : post _ _ ?h ?h1 |- ok_arr ?h1 ?x => apply (ok_arr_mono _ _ _ _ _ P); mono
  end].
Lemma rel_vspht be h p n m : ok_arr2 h (fst p) -> ok_arr2 h (snd p) ->
  rel h (h_vspht be p n m) (vspht be (tpv h p) n m) (fun c w h' => vcv h' c = w).
Proof.
  intros Ot Op. unfold h_vspht, vspht, p_nrows, p_ncols. cbn [tp_t tp_p tpv]. cbv zeta. cbn [mt_nr mt_nc rd2].
  destruct (spht_sizes _ _ _ _) as [nn mm]. apply rel_lift. intros [] _.
  eapply rel_bind; [apply rel_fft_padded; exact Ot|]. cbn beta. intros ft m1 h1 [E1 [[F1 O1] P1]].
  rewrite <- (keep2 _ _ (snd p) P1 Op). pose proof (ok_arr2_mono _ _ _ _ _ P1 Op) as Op1.
  eapply rel_bind; [apply rel_fft_padded; exact Op1|]. cbn beta. intros pt m2 h2 [E2 [[F2 O2] P2]].
  assert (K2 : rd2 h2 ft = m1) by (rewrite <- E1; apply keep2; assumption).
  pose proof (ok_arr2_mono _ _ _ _ _ P2 O1) as O12. pose proof (proj1 O1) as L1.
  apply rel_read. rewrite K2. assert (W1 : mat_wf RN m1) by (rewrite <- E1; apply (rd2_wf h1); exact O1).
  assert (W2 : mat_wf RN m2) by (rewrite <- E2; apply (rd2_wf h2); exact O2).
  apply rel_new2; [exact W1|]. intros ftmp h3 P3 [F3 O3] E3 _ _.
  apply rel_read. rewrite (keep2 _ _ pt P3 O2), E2. pose proof (proj1 O2) as L2.
  apply rel_new2; [exact W2|]. intros ptmp h4 P4 [F4 O4] E4 _ _. pose proof (proj1 O3) as L3.
  pose proof (ok_arr2_mono _ _ _ _ _ P4 (ok_arr2_mono _ _ _ _ _ P3 O12)) as Oft.
  pose proof (ok_arr2_mono _ _ _ _ _ P4 (ok_arr2_mono _ _ _ _ _ P3 O2)) as Opt.
  assert (Kf : rd2 h4 ft = m1) by (rewrite (keep2 _ _ ft P4), (keep2 _ _ ft P3) by mono; exact K2).
  assert (Kp : rd2 h4 pt = m2) by (rewrite (keep2 _ _ pt P4), (keep2 _ _ pt P3) by mono; exact E2).
  rewrite <- Kf at 1. rewrite <- Kp at 1.
  assert (Hne : b_loc ft <> b_loc pt) by lia.
  eapply rel_bind; [apply rel_sinLdot'; assumption|]. cbn beta. intros l1 w1 h5 [E5 [[F5 O5] P5]].
  pose proof (ok_arr2_mono _ _ _ _ _ P4 O3) as Oftmp.
  assert (Kft : rd2 h5 ftmp = m1).
  { rewrite (rd2_keep _ _ _ _ ftmp P5); [rewrite (keep2 _ _ ftmp P4 O3); exact E3|destruct O3; destruct P4; lia|intros [H|[H|[]]]; lia]. }
  assert (Kpt : rd2 h5 ptmp = m2).
  { rewrite (rd2_keep _ _ _ _ ptmp P5); [exact E4|destruct O4; lia|]. assert (List.length h2 <= List.length h3)%nat by apply P3. intros [H0|[H0|[]]]; lia. }
  apply rel_read. rewrite Kpt. apply rel_new2; [apply ew1_wf; exact W2|]. intros x h6 P6 [F6 O6] E6 _ _.
  apply rel_read. rewrite (keep2 _ _ ftmp P6) by mono. rewrite Kft.
  apply rel_new2; [apply ew1_wf; exact W1|]. intros y h7 P7 [F7 O7] E7 _ _.
  pose proof (ok_arr2_mono _ _ _ _ _ P7 O6) as O67. rewrite <- E7. rewrite <- E6. rewrite <- (keep2 _ _ x P7 O6).
  assert (Hxy : b_loc x <> b_loc y) by (destruct O6; lia).
  eapply rel_bind; [apply rel_sinLdot'; assumption|]. cbn beta. intros l2 w2 h8 [E8 [[F8 O8] P8]].
  pose proof (ok_arr2_mono _ _ _ _ _ P8 (ok_arr2_mono _ _ _ _ _ P7 (ok_arr2_mono _ _ _ _ _ P6 O5))) as O58.
  assert (K5 : rd2 h8 l1 = w1).
  { rewrite (rd2_keep _ _ _ _ l1 P8); [rewrite (keep2 _ _ l1 P7), (keep2 _ _ l1 P6) by mono; exact E5| |].
    - apply (ok_arr2_mono _ _ _ _ _ P7 (ok_arr2_mono _ _ _ _ _ P6 O5)).
    - assert (List.length h5 <= List.length h6)%nat by apply P6. pose proof (proj1 O5). intros [HX|[HX|[]]]; lia. }
  rewrite <- K5. eapply rel_bind; [apply rel_fc_to_sc; exact O58|]. cbn beta. intros a1 v1 h9 [E9 [[F9 O9] P9]].
  rewrite <- E8. rewrite <- (keep2 _ _ l2 P9 O8).
  eapply rel_bind; [apply rel_fc_to_sc; apply (ok_arr2_mono _ _ _ _ _ P9 O8)|]. cbn beta. intros a2 v2 h10 [E10 [[F10 O10] P10]].
  rewrite <- E9, <- E10. rewrite <- (keep1 _ _ a1 P10 O9). pose proof (ok_arr_mono _ _ _ _ _ P10 O9) as O9'.
  assert (Ha : a_loc a1 <> a_loc a2) by (destruct O9; lia).
  eapply rel_bind.
  { eapply (rel_spec _ _ (List.length h10) [a_loc a1; a_loc a2]); [apply rel_vc_new; assumption|].
    apply spec_vc_new; left; [left|right; left]; reflexivity. }
  cbn beta. intros vc wc h11 [[Ec ->] [_ P11]]. cbn [hv_1 hv_2 hv_nmax hv_mmax] in *.
  pose proof (ok_arr_mono _ _ _ _ _ P11 O9') as Q1. pose proof (ok_arr_mono _ _ _ _ _ P11 O10) as Q2.
  eapply rel_bind; [apply rel_nvec|]. cbn beta. intros v wv h12 [E12 [[F12 O12'] P12]].
  pose proof (ok_arr_mono _ _ _ _ _ P12 Q1) as R1. pose proof (ok_arr_mono _ _ _ _ _ P12 Q2) as R2.
  assert (M1 : scv h12 (mkHSC a1 nn mm) = vc_1 RN wc).
  { rewrite <- Ec. unfold vcv, scv. cbn [vc_1 hs_arr hs_nmax hs_mmax hv_1]. rewrite (keep1 _ _ a1 P12 Q1). reflexivity. }
  assert (M2 : scv h12 (mkHSC a2 nn mm) = vc_2 RN wc).
  { rewrite <- Ec. unfold vcv, scv. cbn [vc_2 hs_arr hs_nmax hs_mmax hv_2]. rewrite (keep1 _ _ a2 P12 Q2). reflexivity. }
  rewrite <- M1, <- E12.
  assert (V1 : a_loc v <> a_loc a1) by (destruct Q1; lia). assert (V2 : a_loc v <> a_loc a2) by (destruct Q2; lia).
  eapply rel_bind; [apply rel_windowed; cbn [hs_arr]; assumption|]. cbn beta. cbn [hs_arr]. intros _ s1 h13 [E13 P13].
  pose proof (ok_arr_mono _ _ _ _ _ P13 R2) as T2. pose proof (ok_arr_mono _ _ _ _ _ P13 O12') as Tv. pose proof (ok_arr_mono _ _ _ _ _ P13 R1) as T1.
  assert (Nv : rd h13 v = rd h12 v) by (eapply rd_keep; [exact P13|apply O12'|intros [H0|[]]; congruence]).
  assert (N2 : scv h13 (mkHSC a2 nn mm) = scv h12 (mkHSC a2 nn mm)).
  { unfold scv. cbn [hs_arr hs_nmax hs_mmax]. f_equal. eapply rd_keep; [exact P13|apply R2|intros [H0|[]]; congruence]. }
  rewrite <- M2, <- N2, <- Nv.
  eapply rel_bind; [apply rel_windowed; cbn [hs_arr]; assumption|]. cbn beta. cbn [hs_arr]. intros _ s2 h14 [E14 P14].
  apply rel_ret. rewrite <- Ec. unfold vcv. cbn [vc_nmax vc_mmax hv_1 hv_2 hv_nmax hv_mmax]. rewrite E14. f_equal.
  rewrite <- E13. unfold scv. cbn [hs_arr hs_nmax hs_mmax]. f_equal. eapply rd_keep; [exact P14|apply T1|intros [H0|[]]; congruence].
Qed.
Lemma keep_sc h h' c : post (List.length h) [] h h' -> ok_arr h (hs_arr c) -> scv h' c = scv h c.
Proof. intros P O. unfold scv. rewrite (keep1 _ _ _ P O). reflexivity. Qed.
Lemma rel_sc_copy' h c : ok_arr h (hs_arr c) ->
  rel h (h_sc_copy c) (sc_copy RN (scv h c))
    (fun d v h' => scv h' d = v /\ fresh_arr (List.length h) (hs_arr d) h' /\ post (List.length h) [] h h').
Proof. intro O. eapply rel_fresh; [apply rel_sc_copy; exact O|]. apply spec_sc_copy. lia. Qed.
Lemma rel_vispht be h c r k : be_wf be -> ok_vc h c ->
  rel h (h_vispht be c r k) (vispht be (vcv h c) r k) (fun d w h' => tpv h' d = w).
Proof.
  intros WB [Oc1 Oc2]. unfold h_vispht, vispht. cbn [vc_nmax vc_mmax vcv vc_1 vc_2]. cbv zeta.
  destruct (_ <? _); [apply rel_raise|]. destruct (_ <? _); [apply rel_raise|]. destruct (_ =? 1); [apply rel_raise|].
  eapply rel_bind; [apply rel_nvec|]. cbn beta. intros v wv h1 [E1 [[F1 O1] P1]].
  rewrite <- (keep_sc _ _ (hv_1 c) P1 Oc1), <- (keep_sc _ _ (hv_2 c) P1 Oc2).
  pose proof (ok_arr_mono _ _ _ _ _ P1 Oc1) as Oc11. pose proof (ok_arr_mono _ _ _ _ _ P1 Oc2) as Oc21.
  eapply rel_bind; [apply rel_sc_copy'; exact Oc11|]. cbn beta. intros s1 w1 h2 [E2 [[F2 O2] P2]].
  rewrite <- (keep_sc _ _ (hv_2 c) P2 Oc21). pose proof (ok_arr_mono _ _ _ _ _ P2 Oc21) as Oc22.
  eapply rel_bind; [apply rel_sc_copy'; exact Oc22|]. cbn beta. intros s2 w2 h3 [E3 [[F3 O3] P3]].
  pose proof (proj1 O1) as L1. pose proof (proj1 O2) as L2. pose proof (proj1 O3) as L3.
  assert (N12 : (List.length h1 <= List.length h2)%nat) by apply P2.
  pose proof (ok_arr_mono _ _ _ _ _ P3 O2) as O23.
  assert (Ov3 : ok_arr h3 v) by mono.
  assert (Kv : rd h3 v = wv) by (rewrite (keep1 _ _ v P3), (keep1 _ _ v P2) by mono; exact E1).
  rewrite <- E2. rewrite <- (keep_sc _ _ s1 P3 O2). rewrite <- Kv.
  eapply rel_bind; [apply rel_windowed; [exact O23|exact Ov3|lia]|]. cbn beta. intros _ w1' h4 [E4 P4].
  assert (Kv4 : rd h4 v = rd h3 v) by (eapply rd_keep; [exact P4|apply Ov3|intros [HX|[]]; lia]).
  assert (K2 : scv h4 s2 = scv h3 s2).
  { unfold scv. f_equal. eapply rd_keep; [exact P4|apply O3|intros [HX|[]]; lia]. }
  assert (O14 : ok_arr h4 (hs_arr s1)) by mono. assert (O24 : ok_arr h4 (hs_arr s2)) by mono. assert (Ov4 : ok_arr h4 v) by mono.
  rewrite <- E3, <- K2, <- Kv4.
  eapply rel_bind; [apply rel_windowed; [exact O24|exact Ov4|lia]|]. cbn beta. intros _ w2' h5 [E5 P5].
  assert (K1 : scv h5 s1 = w1').
  { rewrite <- E4. unfold scv. f_equal. eapply rd_keep; [exact P5|apply O14|intros [HX|[]]; lia]. }
  rewrite <- K1. cbn [scv sc_vec sc_nmax sc_mmax].
  eapply rel_bind; [apply rel_sc_to_fc; exact WB|]. cbn beta. intros f1 m1 h6 [E6 [[F6 O6] P6]].
  assert (O25 : ok_arr h5 (hs_arr s2)) by mono.
  rewrite <- E5. cbn [scv sc_vec sc_nmax sc_mmax]. rewrite <- (keep1 _ _ (hs_arr s2) P6 O25).
  eapply rel_bind; [apply rel_sc_to_fc; exact WB|]. cbn beta. intros f2 m2 h7 [E7 [[F7 O7] P7]].
  rewrite <- E6. rewrite <- (keep2 _ _ f1 P7 O6).
  assert (O67 : ok_arr2 h7 f1) by mono. pose proof (proj1 O6) as L6. pose proof (proj1 O7) as L7.
  eapply rel_bind; [apply rel_L'; exact O67|]. cbn beta. intros g1 x1 h8 [E8 [[[F8a F8b] [O8a O8b]] P8]].
  assert (O78 : ok_arr2 h8 f2) by mono.
  assert (K78 : rd2 h8 f2 = m2) by (rewrite <- E7; eapply rd2_keep; [exact P8|apply O7|intros [HX|[]]; lia]).
  rewrite <- K78. eapply rel_bind; [apply rel_L'; exact O78|]. cbn beta. intros g2 x2 h9 [E9 [[[F9a F9b] [O9a O9b]] P9]].
  assert (N78 : (List.length h7 <= List.length h8)%nat) by apply P8.
  assert (Ka : rd2 h9 (fst g1) = rd2 h8 (fst g1)) by (eapply rd2_keep; [exact P9|apply F8b|intros [HX|[]]; lia]).
  assert (Kb : rd2 h9 (snd g1) = rd2 h8 (snd g1)) by (eapply rd2_keep; [exact P9|apply O8b|intros [HX|[]]; lia]).
  rewrite <- E8, <- E9. cbn [fst snd].
  apply rel_read. apply rel_read. rewrite Ka.
  assert (W8a : mat_wf RN (rd2 h8 (fst g1))) by (apply rd2_wf; exact F8b).
  assert (W8b : mat_wf RN (rd2 h8 (snd g1))) by (apply rd2_wf; exact O8b).
  apply rel_lift. intros ft Eft. apply rel_new2; [eapply ew2_wf; [|exact Eft]; exact W8a|].
  intros bt h10 P10 [F10 O10] E10 _ _. apply rel_read. apply rel_read.
  assert (O8b9 : ok_arr2 h9 (snd g1)) by mono.
  rewrite (keep2 _ _ (snd g1) P10 O8b9), (keep2 _ _ (fst g2) P10 F9b), Kb.
  apply rel_lift. intros fp Efp. apply rel_new2; [eapply ew2_wf; [|exact Efp]; exact W8b|].
  intros bp h11 P11 [F11 O11] E11 _ _.
  rewrite <- E10. rewrite <- (keep2 _ _ bt P11 O10).
  eapply rel_bind; [apply rel_ifft; mono|]. cbn beta. intros dt wt h12 [E12 [[F12 O12] P12]].
  rewrite <- E11. rewrite <- (keep2 _ _ bp P12 O11).
  eapply rel_bind; [apply rel_ifft; mono|]. cbn beta. intros dp wp h13 [E13 [[F13 O13] P13]].
  rewrite <- E12, <- E13. rewrite <- (keep2 _ _ dt P13 O12).
  apply rel_tp_new; mono.
Qed.

(** the two backends return full tables *)
Lemma mfor_ok_inv {S} (P : S -> Prop) l (f : Z -> S -> res S) : 
  (forall i s s', P s -> f i s = Ok s' -> P s') -> forall s s', P s -> mfor l f s = Ok s' -> P s'.
Proof.
  intro Hf. induction l as [|i l IH]; intros s s' Hs; cbn [mfor].
  - intro E. injection E as <-. exact Hs.
  - destruct (f i s) as [s1|] eqn:E1; [|discriminate]. cbn [bind]. apply IH. eapply Hf; eauto.
Qed.
Lemma sc_to_fc_col_wf v n m r k a b : mat_wf RN a -> sc_to_fc_col v n m r k a = Ok b -> mat_wf RN b.
Proof.
  unfold sc_to_fc_col. intros [A [B D]]. destruct (mindx _ _ _); [|discriminate]. cbn [bind]. cbv zeta.
  destruct (fcvec_m_sc _ _ _ _); [|discriminate]. cbn [bind]. unfold col_set.
  destruct (py_index _ _); [|discriminate]. cbn [bind]. unfold mset_col.
  assert (G : forall l (g : Z -> mat RN -> mat RN), (forall i x, mat_wf RN x -> mat_wf RN (g i x)) -> mat_wf RN (pfor l g a)).
  { intros l g Hg. assert (W : mat_wf RN a) by (split; [exact A|split; [exact B|exact D]]). clear A B D. revert a W. induction l as [|i l IH]; intros a W; [exact W|]. apply (IH (g i a)). apply Hg. exact W. }
  destruct (_ =? _); [|destruct a1 as [|x [|]]; try discriminate]; intro E; injection E as <-; apply G; intros i x0 W0; apply mset_wf; exact W0.
Qed.
Lemma be_wf_py : be_wf py_backend.
Proof.
  intros v n m r k f. cbn [be_sc_to_fc py_backend]. unfold py_sc_to_fc. destruct (np_zeros2 r k) as [z|] eqn:Ez; [|discriminate].
  cbn [bind]. apply (mfor_ok_inv (mat_wf RN)); [|apply (zeros2_wf _ _ _ Ez)].
  intros i s s' W E. destruct (i <? m).
  - destruct (sc_to_fc_col v n m r i s) as [s1|] eqn:E1; [|discriminate]. cbn [bind] in E.
    destruct (sc_to_fc_col v n m r (-(i+1)) s1) as [s2|] eqn:E2; [|discriminate]. cbn [bind] in E.
    pose proof (sc_to_fc_col_wf _ _ _ _ _ _ _ W E1) as W1. pose proof (sc_to_fc_col_wf _ _ _ _ _ _ _ W1 E2) as W2.
    destruct (i =? m); [eapply sc_to_fc_col_wf; eauto|]. injection E as <-. exact W2.
  - cbn [bind] in E. destruct (i =? m); [eapply sc_to_fc_col_wf; eauto|]. injection E as <-. exact W.
Qed.

Definition zl (n : Z) (v : list C) : Prop := zlen v = n.
Lemma bset_len n v i x w : zl n v -> bset v i x = Ok w -> zl n w.
Proof. unfold zl, bset. intro H. destruct (_ && _); [|discriminate]. intro E. injection E as <-. rewrite zlen_vset. exact H. Qed.
Ltac ub := repeat match goal with E : bind ?x _ = Ok _ |- _ => let q := fresh "q" in destruct x as [q|] eqn:?; [|discriminate]; cbn [bind] in E end.
Lemma c_fcvec_len n sc off m N nr nc M len st st' : zl n (fst st) -> c_fcvec_m_sc sc off m N nr nc M len st = Ok st' -> zl n (fst st').
Proof.
  destruct st as [f y]. cbn [fst]. intro H. unfold c_fcvec_m_sc. cbv zeta. intro E.
  match type of E with bind ?x _ = _ => destruct x as [[f1 y1]|] eqn:E1; [|discriminate] end. cbn [bind] in E.
  assert (H1 : zl n f1).
  { change (zl n (fst (f1, y1))). revert E1. apply (mfor_ok_inv (fun s => zl n (fst s))); [|exact H].
    intros i [s0 y0] s' Hs E1. cbn [fst] in Hs. destruct (c_ynunm _ _ _ _); [|discriminate]. cbn [bind] in E1.
    match type of E1 with bind ?x _ = _ => destruct x as [f2|] eqn:E2; [|discriminate] end. cbn [bind] in E1. injection E1 as <-. cbn [fst].
    revert E2. apply (mfor_ok_inv (zl n)); [|exact Hs]. intros j s s2 Hs2 E3. ub. eapply bset_len; eauto. }
  match type of E with bind ?x _ = _ => destruct x as [f2|] eqn:E2; [|discriminate] end. cbn [bind] in E.
  assert (H2 : zl n f2).
  { revert E2. apply (mfor_ok_inv (zl n)); [|exact H1]. intros j s s2 Hs2 E3. ub. destruct (_ =? 1); eapply bset_len; eauto. }
  match type of E with bind ?x _ = _ => destruct x as [f3|] eqn:E3; [|discriminate] end. cbn [bind] in E. injection E as <-. cbn [fst].
  revert E3. apply (mfor_ok_inv (zl n)); [|exact H2]. intros j s s2 Hs2 E3. ub. eapply bset_len; eauto.
Qed.
Lemma be_wf_c junk junkr junki : be_wf (c_backend junk junkr junki).
Proof.
  intros v n m r k f. cbn [be_sc_to_fc c_backend]. destruct (np_zeros2 r k) as [z|] eqn:Ez; [|discriminate]. cbn [bind].
  pose proof Ez as Ez'. unfold np_zeros2 in Ez'. destruct (Z.ltb_spec r 0), (Z.ltb_spec k 0); try discriminate. clear Ez'.
  destruct (zeros2_wf _ _ _ Ez) as [[A [B D]] [N1 N2]]. rewrite N1, N2 in D. unfold c_sc_to_fc. cbv zeta.
  destruct (c_inds _ _ _) as [inds|]; [|discriminate]. cbn [bind].
  match goal with |- context [mfor ?l ?g ?s] => destruct (mfor l g s) as [[f1 y1]|] eqn:E1; [|discriminate] end. cbn [bind fst]. intro E. injection E as <-.
  split; [assumption|]. split; [assumption|]. cbn [mt_dat mt_nr mt_nc].
  assert (H1 : zl (r * k) (fst (f1, y1))); [|exact H1].
  revert E1. apply (mfor_ok_inv (fun s => zl (r * k) (fst s))); [|exact D].
  intros i s s' Hs E. destruct (i <? m); [|destruct (i =? m)].
  - ub. eapply c_fcvec_len; [|exact E]. eapply c_fcvec_len; [|eassumption]. exact Hs.
  - ub. eapply c_fcvec_len; [|exact E]. exact Hs.
  - injection E as <-. exact Hs.
Qed.
