(** * P_Both: C24, C25, C26, C53 for both settings of the use_cext switch,
    which may even differ between the two directions. *)
From Coq Require Import ZArith List String Bool Lia Reals Lra Permutation.
From Coquelicot Require Import Coquelicot.
From Verif Require Import Py PyFacts Num Exact MCoefs SpecCoefs Obs CoefsFacts CoefsFacts2 CoefsFacts3 MPatt SpecPatt PattFacts Sums Harm
  MPysphi MOps Smooth Dft PysphiFacts TransFacts MTrans TransFacts2 TransFacts3 TransFacts4 SpecHarm HarmFacts VHarm
  P_Coefs P_Patt P_Trans P_Trans2 MCsphi P_Csphi SpecInt Integ Integ2 P_Integral.
Import ListNotations.
Open Scope Z_scope.

Lemma ispht_either be c nrows ncols R : either_backend be R -> valid RN c -> sc_nmax RN c + 2 <= nrows ->
  ispht be c (Some nrows) (Some ncols) = ispht py_backend c (Some nrows) (Some ncols).
Proof.
  intros [->|(j & jr & ji & -> & _)] Hv Hr; [reflexivity|]. apply C31_ispht_equal; auto. intros E E'. injection E' as ->. lia.
Qed.
Lemma vispht_either be vc nrows ncols R : either_backend be R -> vvalid RN vc ->
  vispht be vc (Some nrows) (Some ncols) = vispht py_backend vc (Some nrows) (Some ncols).
Proof. intros [->|(j & jr & ji & -> & _)] Hv; [reflexivity|]. now apply C31_vispht_equal. Qed.
Lemma vspht_either be p R nmax mmax : either_backend be R -> mt_nr RN (tp_t RN p) = 2 * R - 2 -> mt_nr RN (tp_p RN p) = 2 * R - 2 ->
  mt_nc RN (tp_p RN p) = mt_nc RN (tp_t RN p) -> 2 <= R -> 1 <= mt_nc RN (tp_t RN p) -> 0 <= mmax ->
  vspht be p (Some nmax) (Some mmax) = vspht py_backend p (Some nmax) (Some mmax).
Proof.
  intros [->|(j & jr & ji & -> & HB)] H1 H2 H3 H4 H5 H6; [reflexivity|].
  apply (C31_vspht_equal j jr ji p R (Some nmax) (Some mmax) nmax mmax); auto.
Qed.

Theorem C24_either_backend : forall be c f nrows ncols, either_backend be nrows -> valid RN c -> holds c f ->
  sc_nmax RN c + 2 <= nrows -> 2 * sc_mmax RN c + 2 <= ncols -> ncols mod 2 = 0 ->
  exists p, ispht be c (Some nrows) (Some ncols) = Ok p /\
    p_nrows RN p = nrows /\ p_ncols RN p = ncols /\
    mt_nr RN (p_array RN p) = nrows /\ mt_nc RN (p_array RN p) = ncols /\
    forall i j, 0 <= i < nrows -> 0 <= j < ncols ->
      mget RN (p_array RN p) i j =
      harm_series (sc_nmax RN c) (sc_mmax RN c) f (PI * IZR i / IZR (nrows - 1)) (2 * PI * IZR j / IZR ncols).
Proof.
  intros be c f nrows ncols Hb Hv Hh H1 H2 H3.
  destruct (C24_ispht_evaluates_series c f nrows ncols Hv Hh H1 H2 H3) as (p & E & Q). exists p. split; [|exact Q].
  now rewrite (ispht_either be c nrows ncols nrows).
Qed.
Print Assumptions C24_either_backend.

Theorem C25_either_backend : forall be be' c f nrows ncols nmax mmax,
  either_backend be nrows -> either_backend be' nrows -> valid RN c -> holds c f ->
  sc_nmax RN c + 2 <= nrows -> 2 * sc_mmax RN c + 2 <= ncols -> ncols mod 2 = 0 ->
  0 <= mmax <= nmax -> nmax < nrows - 1 -> 2 * mmax < ncols ->
  exists p c', ispht be c (Some nrows) (Some ncols) = Ok p /\
    spht be' p (Some nmax) (Some mmax) = Ok c' /\ valid RN c' /\
    sc_nmax RN c' = nmax /\ sc_mmax RN c' = mmax /\
    forall n m, is_mode nmax mmax n m ->
      (is_mode (sc_nmax RN c) (sc_mmax RN c) n m -> reads RN c' n m (f n m)) /\
      (~ is_mode (sc_nmax RN c) (sc_mmax RN c) n m -> reads RN c' n m (RtoC 0)).
Proof.
  intros be be' c f nrows ncols nmax mmax Hb Hb' Hv Hh H1 H2 H3 H4 H5 H6.
  pose proof (proj1 (valid_wf RN c) Hv) as [[Hg1 Hg2] _].
  destruct (C25_spht_inverts_ispht c f nrows ncols nmax mmax Hv Hh H1 H2 H3 H4 H5 H6) as (p & c' & E1 & E2 & Q).
  exists p, c'. split; [now rewrite (ispht_either be c nrows ncols nrows)|]. split; [|exact Q].
  destruct (C28_ispht_symmetric c nrows ncols Hv H1 H2 H3) as (p' & E' & S1 & S2 & _).
  assert (p' = p) by congruence. subst p'. rewrite (spht_either be' p nrows); auto; lia.
Qed.
Print Assumptions C25_either_backend.

Theorem C26_either_backend : forall be be' vc f1 f2 nrows ncols nmax mmax,
  either_backend be nrows -> either_backend be' nrows -> vvalid RN vc -> vholds vc f1 f2 ->
  vc_nmax RN vc + 2 <= nrows -> 2 * vc_mmax RN vc + 2 <= ncols -> ncols mod 2 = 0 ->
  0 <= mmax <= nmax -> nmax < nrows - 1 -> 2 * mmax < ncols ->
  exists p vc', vispht be vc (Some nrows) (Some ncols) = Ok p /\
    vspht be' p (Some nmax) (Some mmax) = Ok vc' /\ vvalid RN vc' /\
    vc_nmax RN vc' = nmax /\ vc_mmax RN vc' = mmax /\
    forall n m, is_mode nmax mmax n m -> 1 <= n ->
      (is_mode (vc_nmax RN vc) (vc_mmax RN vc) n m -> vreads RN vc' n m (f1 n m) (f2 n m)) /\
      (~ is_mode (vc_nmax RN vc) (vc_mmax RN vc) n m -> vreads RN vc' n m (RtoC 0) (RtoC 0)).
Proof.
  intros be be' vc f1 f2 nrows ncols nmax mmax Hb Hb' Hv Hh H1 H2 H3 H4 H5 H6.
  destruct (C26_vspht_inverts_vispht vc f1 f2 nrows ncols nmax mmax Hv Hh H1 H2 H3 H4 H5 H6) as (p & c' & E1 & E2 & Q).
  exists p, c'. split; [now rewrite (vispht_either be vc nrows ncols nrows)|]. split; [|exact Q].
  destruct (C28_vispht_antisymmetric vc nrows ncols Hv H1 H2 H3) as (p' & E' & S1 & S2 & S3 & S4 & _).
  assert (p' = p) by congruence. subst p'. rewrite (vspht_either be' p nrows); auto; lia.
Qed.
Print Assumptions C26_either_backend.

Theorem C53_either_backend : forall be vc f1 f2 nrows ncols, either_backend be nrows -> vvalid RN vc -> vholds vc f1 f2 ->
  vc_nmax RN vc + 2 <= nrows -> 2 * vc_mmax RN vc + 2 <= ncols -> ncols mod 2 = 0 ->
  exists p, vispht be vc (Some nrows) (Some ncols) = Ok p /\
    forall i j, 0 < i < nrows - 1 -> 0 <= j < ncols ->
      let theta := (PI * IZR i / IZR (nrows - 1))%R in let phi := (2 * PI * IZR j / IZR ncols)%R in
      mget RN (p_array RN (tp_t RN p)) i j =
        vharm_series vsh_theta (vc_nmax RN vc) (vc_mmax RN vc) (fun n m => if n =? 0 then RtoC 0 else f1 n m) (fun n m => if n =? 0 then RtoC 0 else f2 n m) theta phi /\
      mget RN (p_array RN (tp_p RN p)) i j =
        vharm_series vsh_phi (vc_nmax RN vc) (vc_mmax RN vc) (fun n m => if n =? 0 then RtoC 0 else f1 n m) (fun n m => if n =? 0 then RtoC 0 else f2 n m) theta phi.
Proof.
  intros be vc f1 f2 nrows ncols Hb Hv Hh H1 H2 H3.
  destruct (C53_vispht_evaluates_series vc f1 f2 nrows ncols Hv Hh H1 H2 H3) as (p & E & Q). exists p. split; [|exact Q].
  now rewrite (vispht_either be vc nrows ncols nrows).
Qed.
Print Assumptions C53_either_backend.

(** A concrete pair of backends meets the hypothesis. *)
Theorem C28_either_backend : forall be c vc nrows ncols, either_backend be nrows -> ncols mod 2 = 0 ->
  (valid RN c -> sc_nmax RN c + 2 <= nrows -> 2 * sc_mmax RN c + 2 <= ncols ->
   exists p, ispht be c (Some nrows) (Some ncols) = Ok p /\ mt_nr RN p = 2 * nrows - 2 /\ mt_nc RN p = ncols /\
     sphere_sym RN p /\ sp_single_val RN p = 0%R /\ sp_is_symmetric RN p = true) /\
  (vvalid RN vc -> vc_nmax RN vc + 2 <= nrows -> 2 * vc_mmax RN vc + 2 <= ncols ->
   exists p, vispht be vc (Some nrows) (Some ncols) = Ok p /\
     mt_nr RN (tp_t RN p) = 2 * nrows - 2 /\ mt_nc RN (tp_t RN p) = ncols /\
     mt_nr RN (tp_p RN p) = 2 * nrows - 2 /\ mt_nc RN (tp_p RN p) = ncols /\
     sphere_antisym RN (tp_t RN p) /\ sphere_antisym RN (tp_p RN p) /\ tp_is_symmetric RN p = true).
Proof.
  intros be c vc nrows ncols Hb He. split; intros Hv H1 H2.
  - rewrite (ispht_either be c nrows ncols nrows) by auto. now apply C28_ispht_symmetric.
  - rewrite (vispht_either be vc nrows ncols nrows) by auto. now apply C28_vispht_antisymmetric.
Qed.
Print Assumptions C28_either_backend.

Example either_backend_nonvacuous : either_backend py_backend 5 /\ either_backend (c_backend (fun _ => RtoC 7) (fun _ => 3%R) (fun _ => 5)) 5.
Proof. split; [now left|]. right. do 3 eexists. split; [reflexivity|]. cbn; lia. Qed.
