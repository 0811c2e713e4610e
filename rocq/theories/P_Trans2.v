(** * P_Trans2: properties C27, C29, C30, C52, C53: linearity, argument
    checking, vector synthesis (Python backend, exact arithmetic). *)
From Coq Require Import ZArith List String Bool Lia Reals Lra.
From Coquelicot Require Import Coquelicot.
From Verif Require Import Py PyFacts Num Exact MCoefs SpecCoefs Obs CoefsFacts CoefsFacts2 CoefsFacts3
  MPatt SpecPatt PattFacts Sums Harm SpecHarm MPysphi MOps Dft PysphiFacts TransFacts MTrans TransFacts2 TransFacts3
  TransFacts4 HarmFacts VHarm P_Coefs P_Patt P_Trans.
Import ListNotations.
Open Scope string_scope.
Open Scope list_scope.
Open Scope Z_scope.

(** ** C53 *)

(** Off the poles (rows 1 .. nrows-2) vispht evaluates the vector harmonic series. *)
Theorem C53_vispht_evaluates_series : forall vc f1 f2 nrows ncols, vvalid RN vc -> vholds vc f1 f2 ->
  vc_nmax RN vc + 2 <= nrows -> 2 * vc_mmax RN vc + 2 <= ncols -> ncols mod 2 = 0 ->
  exists p, vispht py_backend vc (Some nrows) (Some ncols) = Ok p /\
    forall i j, 0 < i < nrows - 1 -> 0 <= j < ncols ->
      let theta := (PI * IZR i / IZR (nrows - 1))%R in let phi := (2 * PI * IZR j / IZR ncols)%R in
      mget RN (p_array RN (tp_t RN p)) i j =
        vharm_series vsh_theta (vc_nmax RN vc) (vc_mmax RN vc) (fun n m => if n =? 0 then RtoC 0 else f1 n m) (fun n m => if n =? 0 then RtoC 0 else f2 n m) theta phi /\
      mget RN (p_array RN (tp_p RN p)) i j =
        vharm_series vsh_phi (vc_nmax RN vc) (vc_mmax RN vc) (fun n m => if n =? 0 then RtoC 0 else f1 n m) (fun n m => if n =? 0 then RtoC 0 else f2 n m) theta phi.
Proof.
  intros vc f1 f2 nrows ncols Hv Hh Hr Hc He.
  pose proof (proj1 (vvalid_wf RN vc) Hv) as Hw. pose proof Hw as (W1 & W2 & A1 & A2 & A3 & A4 & _). pose proof W1 as [[Hg1 Hg2] _].
  rewrite A2 in Hg1, Hg2. rewrite A1 in Hg2.
  pose proof (half_even ncols He) as Eb. set (B := ncols / 2) in *. rewrite Eb in *.
  eexists. split; [apply vispht_ok; auto; lia|].
  intros i j Hi Hj theta phi. cbn [tp_t tp_p].
  assert (Hd : (2 * nrows - 2) / 2 + 1 = nrows) by (replace (2 * nrows - 2) with ((nrows - 1) * 2) by lia; rewrite Z.div_mul by lia; lia).
  assert (Et : (2 * PI * IZR i / IZR (2 * nrows - 2))%R = theta).
  { unfold theta. replace (2 * nrows - 2) with (2 * (nrows - 1)) by lia. rewrite mult_IZR. field. apply not_0_IZR; lia. }
  assert (Hs : sin theta <> 0%R).
  { apply Rgt_not_eq. unfold theta. pose proof PI_RGT_0.
    assert (0 < IZR i < IZR (nrows - 1))%R by (split; apply IZR_lt; lia).
    apply sin_gt_0.
    - apply Rdiv_lt_0_compat; [apply Rmult_lt_0_compat; lra|lra].
    - apply (Rmult_lt_reg_r (IZR (nrows - 1))); [lra|]. unfold Rdiv. rewrite Rmult_assoc, Rinv_l, Rmult_1_r by lra.
      apply Rmult_lt_compat_l; lra. }
  destruct (synth_Tm (2 * nrows - 2) (2 * B) (vc_nmax RN vc) (vc_mmax RN vc) (w1_of vc) (w2_of vc) i j) as [ET EP]; try lia.
  { rewrite Et. exact Hs. }
  rewrite Et in ET, EP. fold phi in ET, EP.
  assert (Q : forall F, mget RN (p_array RN (mmake RN (2 * nrows - 2) (2 * B) F)) i j = F i j).
  { intros F. unfold p_array, mrows, p_nrows. cbn [mt_nr mt_nc mmake]. etransitivity; [apply mget_mmake; lia|]. apply mget_mmake; lia. }
  assert (Wz : forall n m, is_mode (vc_nmax RN vc) (vc_mmax RN vc) n m ->
     w1_of vc n m = ((if n =? 0 then RtoC 0 else f1 n m) * RtoC (1 / sqrt (IZR n * (IZR n + 1))))%C /\
     w2_of vc n m = ((if n =? 0 then RtoC 0 else f2 n m) * RtoC (1 / sqrt (IZR n * (IZR n + 1))))%C).
  { intros n m Hm. unfold w1_of, w2_of, nv. destruct (Z.eqb_spec n 0) as [->|Hn].
    - split; ring.
    - destruct (vholds_cval vc f1 f2 Hv Hh n m Hm) as [-> ->]; [destruct Hm; lia|]. auto. }
  split; (etransitivity; [apply Q|]).
  - etransitivity; [exact ET|]. unfold vharm_series. apply sumC_ext. intros m Hm. apply sumC_ext. intros n Hn.
    destruct (Wz n m) as [-> ->]; [unfold is_mode; lia|]. unfold vsh_theta. ring.
  - etransitivity; [exact EP|]. unfold vharm_series. apply sumC_ext. intros m Hm. apply sumC_ext. intros n Hn.
    destruct (Wz n m) as [-> ->]; [unfold is_mode; lia|]. unfold vsh_phi. ring.
Qed.
Print Assumptions C53_vispht_evaluates_series.

Example C53_nonvacuous : exists p, vispht py_backend exv (Some 3) (Some 4) = Ok p /\
  mget RN (p_array RN (tp_t RN p)) 1 0 = vharm_series vsh_theta 1 1
    (fun n m => if n =? 0 then RtoC 0 else cval RN (vc_1 RN exv) n m) (fun n m => if n =? 0 then RtoC 0 else cval RN (vc_2 RN exv) n m)
    (PI * IZR 1 / IZR (3 - 1)) (2 * PI * IZR 0 / IZR 4).
Proof.
  destruct (C53_vispht_evaluates_series exv _ _ 3 4 exv_valid (vholds_self exv exv_valid)) as (p & E & V); [cbn; lia|cbn; lia|reflexivity|].
  exists p. split; [exact E|]. apply (V 1 0); lia.
Qed.

(** ** C52 *)

Theorem C52_grids_agree : forall c nr nc nr' nc' p p', valid RN c ->
  sc_nmax RN c + 2 <= nr -> sc_nmax RN c + 2 <= nr' -> 2 * sc_mmax RN c + 2 <= nc -> 2 * sc_mmax RN c + 2 <= nc' ->
  nc mod 2 = 0 -> nc' mod 2 = 0 ->
  ispht py_backend c (Some nr) (Some nc) = Ok p -> ispht py_backend c (Some nr') (Some nc') = Ok p' ->
  forall i j i' j', 0 <= i < nr -> 0 <= j < nc -> 0 <= i' < nr' -> 0 <= j' < nc' ->
    (* the same point of the sphere *)
    i * (nr' - 1) = i' * (nr - 1) -> j * nc' = j' * nc ->
    mget RN (p_array RN p) i j = mget RN (p_array RN p') i' j'.
Proof.
  intros c nr nc nr' nc' p p' Hv Hr Hr' Hc Hc' He He' E E' i j i' j' Hi Hj Hi' Hj' P1 P2.
  pose proof (proj1 (valid_wf RN c) Hv) as Hw. pose proof Hw as [[Hg1 Hg2] _].
  destruct (C24_ispht_evaluates_series c _ nr nc Hv (holds_self c Hv) Hr Hc He) as (q & Eq & _ & _ & _ & _ & V).
  destruct (C24_ispht_evaluates_series c _ nr' nc' Hv (holds_self c Hv) Hr' Hc' He') as (q' & Eq' & _ & _ & _ & _ & V').
  assert (q = p) by congruence. assert (q' = p') by congruence. subst.
  etransitivity; [apply V; auto|]. etransitivity; [|symmetry; apply V'; auto].
  replace (PI * IZR i / IZR (nr - 1))%R with (PI * IZR i' / IZR (nr' - 1))%R.
  2:{ assert (IZR (nr - 1) <> 0%R) by (apply not_0_IZR; lia). assert (IZR (nr' - 1) <> 0%R) by (apply not_0_IZR; lia).
      apply (f_equal IZR) in P1. rewrite !mult_IZR in P1.
      apply (Rmult_eq_reg_r (IZR (nr - 1) * IZR (nr' - 1))); [|now apply Rmult_integral_contrapositive_currified].
      transitivity (PI * (IZR i' * IZR (nr - 1)))%R; [field; auto|]. rewrite <- P1. field; auto. }
  replace (2 * PI * IZR j / IZR nc)%R with (2 * PI * IZR j' / IZR nc')%R; [reflexivity|].
  assert (IZR nc <> 0%R) by (apply not_0_IZR; lia). assert (IZR nc' <> 0%R) by (apply not_0_IZR; lia).
  apply (f_equal IZR) in P2. rewrite !mult_IZR in P2.
  apply (Rmult_eq_reg_r (IZR nc * IZR nc')); [|now apply Rmult_integral_contrapositive_currified].
  transitivity (2 * PI * (IZR j' * IZR nc))%R; [field; auto|]. rewrite <- P2. field; auto.
Qed.
Print Assumptions C52_grids_agree.

Example C52_nonvacuous : exists p p', ispht py_backend ex10 (Some 3) (Some 4) = Ok p /\ ispht py_backend ex10 (Some 5) (Some 2) = Ok p' /\
  mget RN (p_array RN p) 1 2 = mget RN (p_array RN p') 2 1.
Proof.
  destruct (C24_ispht_evaluates_series ex10 _ 3 4 ex10_valid ex10_holds) as (p & E & _); [cbn; lia|cbn; lia|reflexivity|].
  destruct (C24_ispht_evaluates_series ex10 _ 5 2 ex10_valid ex10_holds) as (p' & E' & _); [cbn; lia|cbn; lia|reflexivity|].
  exists p, p'. split; [exact E|]. split; [exact E'|].
  eapply (C52_grids_agree ex10 3 4 5 2); eauto using ex10_valid; cbn; auto; lia.
Qed.

(** ** C29 *)

Lemma nrows_of d R : mt_nr RN d = 2 * R - 2 -> p_nrows RN d = R.
Proof. intros H. unfold p_nrows. rewrite H. replace (2 * R - 2) with ((R - 1) * 2) by lia. rewrite Z.div_mul by lia. lia. Qed.

(** The condition under which spht/vspht accept (nmax, mmax) on a pattern. *)
Definition sizes_fit (nrows ncols nmax mmax : Z) : Prop :=
  mmax <= nmax /\ nmax < nrows - 1 /\ 2 * mmax < ncols /\ ncols mod 2 = 0.

Lemma guard_raise nrows ncols nmax mmax : ~ sizes_fit nrows ncols nmax mmax ->
  exists msg, spht_guard nrows ncols nmax mmax = Raise (ValueError msg).
Proof.
  intros H. unfold spht_guard, sizes_fit in *.
  destruct (Z.gtb_spec mmax nmax); [eauto|]. destruct (Z.geb_spec nmax (nrows - 1)); [eauto|].
  destruct (Z.geb_spec (2 * mmax) ncols); [eauto|]. destruct (Z.eqb_spec (ncols mod 2) 1); [eauto|].
  exfalso. apply H. pose proof (Z.mod_pos_bound ncols 2 ltac:(lia)). lia.
Qed.

Theorem C29_spht_guard : forall d nmax mmax, mt_nr RN d mod 2 = 0 -> 2 <= mt_nr RN d -> 0 <= mmax ->
  (sizes_fit (p_nrows RN d) (p_ncols RN d) nmax mmax -> exists c, spht py_backend d (Some nmax) (Some mmax) = Ok c) /\
  (~ sizes_fit (p_nrows RN d) (p_ncols RN d) nmax mmax ->
     exists msg, spht py_backend d (Some nmax) (Some mmax) = Raise (ValueError msg)).
Proof.
  intros d nmax mmax He Hr Hm. pose proof (half_even _ He) as E. set (h := mt_nr RN d / 2) in *.
  assert (HR : mt_nr RN d = 2 * (h + 1) - 2) by lia. split.
  - rewrite (nrows_of d (h + 1) HR). unfold sizes_fit, p_ncols. intros (H1 & H2 & H3 & H4).
    destruct (spht_eq d (h + 1) nmax mmax) as (c & Ec & _); auto; try lia. eauto.
  - intros H. destruct (guard_raise _ _ _ _ H) as (msg & Q). exists msg. unfold spht. cbn [spht_sizes]. now rewrite Q.
Qed.
Print Assumptions C29_spht_guard.

Definition tp_shape (p : tpatt RN) : Prop :=
  mt_nr RN (tp_t RN p) = mt_nr RN (tp_p RN p) /\ mt_nc RN (tp_t RN p) = mt_nc RN (tp_p RN p).

Theorem C29_vspht_guard : forall p nmax mmax, tp_shape p -> mt_nr RN (tp_t RN p) mod 2 = 0 -> 2 <= mt_nr RN (tp_t RN p) -> 0 <= mmax ->
  (sizes_fit (p_nrows RN (tp_t RN p)) (p_ncols RN (tp_t RN p)) nmax mmax -> exists c, vspht py_backend p (Some nmax) (Some mmax) = Ok c) /\
  (~ sizes_fit (p_nrows RN (tp_t RN p)) (p_ncols RN (tp_t RN p)) nmax mmax ->
     exists msg, vspht py_backend p (Some nmax) (Some mmax) = Raise (ValueError msg)).
Proof.
  intros p nmax mmax [S1 S2] He Hr Hm. pose proof (half_even _ He) as E. set (h := mt_nr RN (tp_t RN p) / 2) in *.
  assert (HR : mt_nr RN (tp_t RN p) = 2 * (h + 1) - 2) by lia. split.
  - rewrite (nrows_of _ (h + 1) HR). unfold sizes_fit, p_ncols. intros (H1 & H2 & H3 & H4). pose proof (half_even _ H4) as E4.
    destruct (vspht_body p (h + 1) (mt_nc RN (tp_t RN p) / 2) nmax mmax) as (c & Ec & _); try lia. eauto.
  - intros H. destruct (guard_raise _ _ _ _ H) as (msg & Q). exists msg. unfold vspht. cbn [spht_sizes]. now rewrite Q.
Qed.
Print Assumptions C29_vspht_guard.

(** Omitted arguments: mmax defaults to nmax; without nmax a given mmax is
    ignored and patterns with ncols > 2 nrows - 2 are rejected although they
    could be transformed with any smaller mmax. *)
Theorem C29_defaults : forall be d nmax,
  spht be d (Some nmax) None = spht be d (Some nmax) (Some nmax) /\
  (forall mm, spht be d None mm = spht be d (Some (p_nrows RN d - 2)) (Some (p_ncols RN d / 2 - 1))).
Proof. intros; split; reflexivity. Qed.
Print Assumptions C29_defaults.
Theorem C29_vdefaults : forall be p nmax,
  vspht be p (Some nmax) None = vspht be p (Some nmax) (Some nmax) /\
  (forall mm, vspht be p None mm = vspht be p (Some (p_nrows RN (tp_t RN p) - 2)) (Some (p_ncols RN (tp_t RN p) / 2 - 1))).
Proof. intros; split; reflexivity. Qed.
Print Assumptions C29_vdefaults.

Theorem C29_given_mmax_ignored_refuted : 
  ~ (forall d mmax c, spht py_backend d None (Some mmax) = Ok c -> sc_mmax RN c = mmax).
Proof.
  intros H.
  assert (G : forall d : mat RN, mt_nr RN d = 4 -> mt_nc RN d = 4 -> False).
  { intros d Hr Hc. destruct (spht_eq d 3 1 1) as (c & E & _ & _ & M & _); rewrite ?Hr, ?Hc; try lia.
    pose proof (proj2 (C29_defaults py_backend d 0) (Some 0)) as Q.
    unfold p_nrows, p_ncols in Q. rewrite Hr, Hc in Q. change (4 / 2 + 1 - 2) with 1 in Q. change (4 / 2 - 1) with 1 in Q.
    rewrite E in Q. apply H in Q. lia. }
  exact (G (mmake RN 4 4 (fun _ _ => RtoC 1)) eq_refl eq_refl).
Qed.
Print Assumptions C29_given_mmax_ignored_refuted.

Theorem C29_wide_pattern_rejected : forall be d mm, p_ncols RN d mod 2 = 0 -> 2 * p_nrows RN d - 2 < p_ncols RN d ->
  exists msg, spht be d None mm = Raise (ValueError msg).
Proof.
  intros be d mm He Hw. destruct (guard_raise (p_nrows RN d) (p_ncols RN d) (p_nrows RN d - 2) (p_ncols RN d / 2 - 1)) as (msg & Q).
  - unfold sizes_fit. pose proof (half_even _ He). lia.
  - exists msg. unfold spht. cbn [spht_sizes]. now rewrite Q.
Qed.
Print Assumptions C29_wide_pattern_rejected.

(** spht_slow: accepts what spht accepts and returns the same object; the two
    tests it makes itself raise ValueError.  (It has no test of the sizes
    against the pattern.) *)
Theorem C29_spht_slow_guard : forall d nmax mmax,
  (mt_nr RN d mod 2 = 0 -> 2 <= mt_nr RN d -> 0 <= mmax ->
   sizes_fit (p_nrows RN d) (p_ncols RN d) nmax mmax ->
   exists c, spht_slow d nmax mmax = Ok c /\ spht py_backend d (Some nmax) (Some mmax) = Ok c) /\
  (nmax < mmax \/ p_ncols RN d mod 2 = 1 \/ mt_nr RN d mod 2 = 1 ->
   exists msg, spht_slow d nmax mmax = Raise (ValueError msg)).
Proof.
  intros d nmax mmax. split.
  - intros He Hr Hm Hs. destruct (proj1 (C29_spht_guard d nmax mmax He Hr Hm) Hs) as (c & E). exists c. split; [|exact E].
    rewrite <- E. unfold sizes_fit, p_ncols in Hs. destruct Hs as (H1 & H2 & H3 & H4).
    unfold spht, spht_slow. cbn [spht_sizes]. unfold spht_guard, p_ncols.
    destruct (Z.gtb_spec mmax nmax); [lia|]. destruct (Z.geb_spec nmax (p_nrows RN d - 1)); [lia|].
    destruct (Z.geb_spec (2 * mmax) (mt_nc RN d)); [lia|].
    replace (mt_nc RN d mod 2 =? 1) with false by (symmetry; apply Z.eqb_neq; lia).
    replace (mt_nr RN d mod 2 =? 1) with false by (symmetry; apply Z.eqb_neq; lia). cbn [orb bind].
    rewrite np_zeros_ok by (unfold ncoef; nia). cbn [bind]. reflexivity.
  - unfold p_ncols. intros H. unfold spht_slow. destruct (Z.gtb_spec mmax nmax); [eauto|].
    destruct (Z.eqb_spec (mt_nr RN d mod 2) 1); [cbn [orb]; eauto|].
    destruct (Z.eqb_spec (mt_nc RN d mod 2) 1); [cbn [orb]; eauto|]. exfalso. lia.
Qed.
Print Assumptions C29_spht_slow_guard.

Example C29_nonvacuous :
  (exists c, spht py_backend (mmake RN 4 4 (fun _ _ => RtoC 1)) (Some 1) (Some 1) = Ok c) /\
  (exists msg, spht py_backend (mmake RN 4 4 (fun _ _ => RtoC 1)) (Some 2) (Some 1) = Raise (ValueError msg)) /\
  (exists msg, spht py_backend (mmake RN 4 6 (fun _ _ => RtoC 1)) None (Some 1) = Raise (ValueError msg)).
Proof.
  split; [|split].
  - apply (C29_spht_guard (mmake RN 4 4 (fun _ _ => RtoC 1)) 1 1); cbn; try lia. unfold sizes_fit; cbn; lia.
  - apply (C29_spht_guard (mmake RN 4 4 (fun _ _ => RtoC 1)) 2 1); cbn; try lia. unfold sizes_fit; cbn; lia.
  - apply C29_wide_pattern_rejected; cbn; lia.
Qed.

(** ** C30 *)

Theorem C30_vispht_guard : forall vc nrows ncols, vvalid RN vc ->
  ((vc_nmax RN vc + 2 <= nrows /\ 2 * vc_mmax RN vc + 2 <= ncols /\ ncols mod 2 = 0) ->
     exists p, vispht py_backend vc (Some nrows) (Some ncols) = Ok p) /\
  (~ (vc_nmax RN vc + 2 <= nrows /\ 2 * vc_mmax RN vc + 2 <= ncols /\ ncols mod 2 = 0) ->
     exists msg, vispht py_backend vc (Some nrows) (Some ncols) = Raise (ValueError msg)).
Proof.
  intros vc nrows ncols Hv. pose proof (proj1 (vvalid_wf RN vc) Hv) as Hw. split.
  - intros (H1 & H2 & H3). pose proof (half_even _ H3) as E. rewrite E in *. eexists. apply vispht_ok; auto; lia.
  - intros H. unfold vispht. destruct (Z.ltb_spec nrows (vc_nmax RN vc + 2)); [eauto|].
    destruct (Z.ltb_spec ncols (2 * vc_mmax RN vc + 2)); [eauto|]. destruct (Z.eqb_spec (ncols mod 2) 1); [eauto|].
    exfalso. apply H. pose proof (Z.mod_pos_bound ncols 2 ltac:(lia)). lia.
Qed.
Print Assumptions C30_vispht_guard.

(** ispht only requires nrows > nmax. *)
Theorem C30_ispht_guard : forall c nrows ncols, valid RN c -> 2 <= nrows ->
  ((sc_nmax RN c + 1 <= nrows /\ 2 * sc_mmax RN c + 2 <= ncols /\ ncols mod 2 = 0) ->
     exists p, ispht py_backend c (Some nrows) (Some ncols) = Ok p) /\
  (~ (sc_nmax RN c + 1 <= nrows /\ 2 * sc_mmax RN c + 2 <= ncols /\ ncols mod 2 = 0) ->
     exists msg, ispht py_backend c (Some nrows) (Some ncols) = Raise (ValueError msg)).
Proof.
  intros c nrows ncols Hv Hn. pose proof (proj1 (valid_wf RN c) Hv) as Hw. pose proof Hw as [[Hg1 Hg2] _]. split.
  - intros (H1 & H2 & H3). pose proof (half_even _ H3) as E. rewrite E in *. eexists. apply ispht_eq; auto; lia.
  - intros H. unfold ispht. destruct (Z.leb_spec nrows (sc_nmax RN c)); [eauto|].
    destruct (Z.ltb_spec ncols (2 * sc_mmax RN c + 2)); [eauto|]. destruct (Z.eqb_spec (ncols mod 2) 1); [eauto|].
    exfalso. apply H. pose proof (Z.mod_pos_bound ncols 2 ltac:(lia)). lia.
Qed.
Print Assumptions C30_ispht_guard.

Theorem C30_defaults : forall be c vc,
  ispht be c None None = ispht be c (Some (sc_nmax RN c + 2)) (Some (2 * sc_mmax RN c + 2)) /\
  vispht be vc None None = vispht be vc (Some (vc_nmax RN vc + 2)) (Some (2 * vc_mmax RN vc + 2)).
Proof. intros; split; reflexivity. Qed.
Print Assumptions C30_defaults.

(** ispht_slow: the same object as ispht whenever ispht accepts, ValueError
    for an odd number of columns. *)
Theorem C30_ispht_slow_guard : forall c nrows ncols,
  (valid RN c -> 2 <= nrows -> sc_nmax RN c + 1 <= nrows -> 2 * sc_mmax RN c + 2 <= ncols -> ncols mod 2 = 0 ->
   exists p, ispht_slow c nrows ncols = Ok p /\ ispht py_backend c (Some nrows) (Some ncols) = Ok p) /\
  (ncols mod 2 = 1 -> exists msg, ispht_slow c nrows ncols = Raise (ValueError msg)).
Proof.
  intros c nrows ncols. split.
  - intros Hv H2 H3 H4 H5. destruct (proj1 (C30_ispht_guard c nrows ncols Hv H2) ltac:(auto)) as (p & E).
    exists p. split; [|exact E]. rewrite <- E. unfold ispht, ispht_slow.
    destruct (Z.leb_spec nrows (sc_nmax RN c)); [lia|]. destruct (Z.ltb_spec ncols (2 * sc_mmax RN c + 2)); [lia|]. reflexivity.
  - intros H. unfold ispht_slow. cbv zeta. rewrite H. cbn. eauto.
Qed.
Print Assumptions C30_ispht_slow_guard.

(** nrows = nmax + 1 is accepted but the result is not the series. *)
Theorem C30_ispht_short_grid_refuted :
  ~ (forall c f nrows ncols p, valid RN c -> holds c f ->
       ispht py_backend c (Some nrows) (Some ncols) = Ok p ->
       forall i j, 0 <= i < nrows -> 0 <= j < ncols ->
       mget RN (p_array RN p) i j =
       harm_series (sc_nmax RN c) (sc_mmax RN c) f (PI * IZR i / IZR (nrows - 1)) (2 * PI * IZR j / IZR ncols)).
Proof.
  intros H. 
  assert (W : sc_wf RN ex10) by (apply valid_wf, ex10_valid).
  pose proof (ispht_eq ex10 2 1 W ltac:(cbn; lia) ltac:(cbn; lia) ltac:(cbn; lia)) as E.
  specialize (H ex10 (cval RN ex10) 2 2 _ ex10_valid (holds_self ex10 ex10_valid) E 0 0 ltac:(lia) ltac:(lia)).
  assert (V1 : mget RN (p_array RN (mmake RN (2 * 2 - 2) (2 * 1) (synth (2 * 2 - 2) (2 * 1) (Fsc ex10)))) 0 0 = RtoC (Yt 1 0 1)).
  { unfold p_array, mrows, p_nrows. cbn [mt_nr mt_nc mmake]. etransitivity; [apply mget_mmake; cbn; lia|].
    etransitivity; [apply mget_mmake; cbn; lia|]. change (2 * 2 - 2) with 2. change (2 * 1) with 2.
    unfold synth. rewrite (sumC_cons 0 2) by lia. rewrite (sumC_cons 0 2) by lia. rewrite (sumC_cons (0 + 1) 2) by lia. rewrite (sumC_nil (0 + 1 + 1)) by lia.
    rewrite (sumC_cons (0 + 1) 2) by lia. rewrite (sumC_nil (0 + 1 + 1)) by lia.
    rewrite (sumC_cons 0 2) by lia. rewrite (sumC_cons (0 + 1) 2) by lia. rewrite (sumC_nil (0 + 1 + 1)) by lia.
    change (freqc 2 0) with 0. change (freqc 2 (0 + 1)) with 1. rewrite !Z.mul_0_r, root_0 by lia.
    rewrite (Fsc_supp ex10 1 0 W), (Fsc_supp ex10 1 1 W) by (right; cbn; lia).
    assert (F0 : Fsc ex10 0 0 = RtoC 0).
    { unfold Fsc. cbn [sc_mmax sc_nmax ex10 Z.abs Z.leb Z.compare]. rewrite sumC_zero; [ring|]. intros n Hn. 
      assert (n = 0 \/ n = 1) as [-> | ->] by lia.
      - change (cval RN ex10 0 0) with (RtoC 0). ring.
      - rewrite Yt_odd by (cbn; auto; lia). ring. }
    assert (F1 : Fsc ex10 0 1 = RtoC (Yt 1 0 1)).
    { unfold Fsc. cbn [sc_mmax sc_nmax ex10 Z.abs Z.leb Z.compare]. rewrite (sumC_single _ _ 1); [|lia|].
      - change (cval RN ex10 1 0) with (RtoC 1). change (ipow 0) with (RtoC 1). ring.
      - intros n Hn Hn1. assert (n = 0) by lia. subst n. change (cval RN ex10 0 0) with (RtoC 0). ring. }
    rewrite F0, F1. match goal with |- ?a = ?b => change (@eq C a b) end. ring. }
  rewrite V1 in H. clear V1 E.
  assert (V2 : harm_series (sc_nmax RN ex10) (sc_mmax RN ex10) (cval RN ex10) (PI * IZR 0 / IZR (2 - 1)) (2 * PI * IZR 0 / IZR 2) = RtoC (2 * Yt 1 0 1)).
  { unfold harm_series. cbn [sc_mmax sc_nmax ex10]. rewrite (sumC_single _ _ 0) by lia. change (Z.abs 0) with 0.
    rewrite (sumC_single _ _ 1); [|lia|].
    - change (cval RN ex10 1 0) with (RtoC 1). rewrite <- Yc_sph_harm by lia. unfold Yc. change (ipow 0) with (RtoC 1).
      replace (PI * IZR 0 / IZR (2 - 1))%R with 0%R by (field; apply not_0_IZR; lia).
      change (-(1)) with (-1). rewrite !Rmult_0_l, cisR_0.
      rewrite (sumC_cons (-1)) by lia. rewrite (sumC_cons (-1 + 1)) by lia. rewrite (sumC_cons (-1 + 1 + 1)) by lia. rewrite sumC_nil by lia.
      rewrite !Rmult_0_r, cisR_0. change (-1 + 1) with 0. change (0 + 1) with 1.
      rewrite (Yt_odd 1 0 0) by (cbn; auto; lia). replace (Yt 1 0 (-1)) with (Yt 1 0 1) by (change (-1) with (- (1)); rewrite (Yt_neg 1 0 1); change (IZR (sgnpow 0)) with 1%R; ring).
      generalize (Yt 1 0 1). intros y. apply injective_projections; cbn; ring.
    - intros n Hn Hn1. assert (n = 0) by lia. subst n. change (cval RN ex10 0 0) with (RtoC 0). ring. }
  match type of H with _ = ?x => assert (Q : RtoC (Yt 1 0 1) = RtoC (2 * Yt 1 0 1)) by exact (eq_trans H V2) end.
  apply RtoC_inj in Q.
  assert (P : (Yt 1 0 1 > 0)%R).
  { change (Yt 1 0 1) with (Zt 0 1 (Z.of_nat (0 + 1))). rewrite Zt_leadS, Zt_lead0.
    apply Rdiv_lt_0_compat; [apply ymm_pos|]. pose proof (al_pos 0 0). lra. }
  lra.
Qed.
Print Assumptions C30_ispht_short_grid_refuted.

Example C30_nonvacuous : (exists p, vispht py_backend exv (Some 3) (Some 4) = Ok p) /\
  (exists msg, vispht py_backend exv (Some 2) (Some 4) = Raise (ValueError msg)).
Proof. split; apply (C30_vispht_guard exv); try apply exv_valid; cbn; lia. Qed.
