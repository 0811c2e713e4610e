(** * P_Csphi: properties C31, C32, C35 (FindQ) and C50: the C extension.

    Exact arithmetic; [junk], [junkr], [junki] are the arbitrary contents of
    the memory returned by malloc.  The bound 2 ^ 31 on the padded length is
    what the C type int can hold. *)
From Coq Require Import ZArith Znumtheory List String Bool Lia Reals Lra.
From Coquelicot Require Import Complex.
From Verif Require Import Py PyFacts Num Exact MCoefs SpecCoefs Obs CoefsFacts CoefsFacts2 CoefsFacts3 MPatt Sums Harm MPysphi MOps
  Smooth SpecDft Dft PysphiFacts TransFacts MTrans TransFacts2 TransFacts3 MKiss KissFacts KissFacts2 MCsphi CsphiFacts P_Coefs P_Ops.
Import ListNotations.
Open Scope string_scope.
Open Scope list_scope.
Open Scope Z_scope.

(** ** Tables *)
Lemma tab_wf nr nc F : 0 <= nr -> 0 <= nc -> mat_wf RN (tab nr nc F).
Proof. intros. now apply (mmake_wf RN). Qed.
Lemma np_zeros_ncoef nmax mmax : 0 <= mmax <= nmax -> np_zeros (ncoef nmax mmax) (RtoC 0) = Ok (vmake (ncoef nmax mmax) (fun _ => RtoC 0)).
Proof. intros. rewrite np_zeros_ok; auto. unfold ncoef. nia. Qed.

Section Backends.
Variables (junk : Z -> C) (junkr : Z -> R) (junki : Z -> Z).
Notation cb := (c_backend junk junkr junki).

Lemma be_c_tab R nc G nmax mmax : 2 <= R -> 1 <= nc -> 0 <= mmax <= nmax -> 2 * mmax < nc -> 2 * R + nmax <= 2 ^ 31 ->
  fsupp (R - 1) G ->
  be_fc_to_sc cb (tab (2 * R) nc G) nmax mmax = py_fc_to_sc (tab (2 * R) nc G) nmax mmax.
Proof.
  intros HR Hc Hm Hm2 Hb HG. unfold c_backend. cbn [be_fc_to_sc]. rewrite np_zeros_ncoef by auto. cbn [bind].
  apply (c_fc_to_sc_py junk junkr junki _ _ _ _ R); auto; try lia; try reflexivity.
  - apply tab_wf; lia.
  - change (mt_nc RN (tab (2 * R) nc G)) with nc. lia.
  - intros m Hmm. rewrite colf_tab by lia. apply HG. lia.
  - apply zlen_vmake'. unfold ncoef. nia.
Qed.
Lemma be_c_sc c nr nc : sc_wf RN c -> sc_nmax RN c + 1 <= nr -> 2 * sc_mmax RN c + 2 <= nc ->
  be_sc_to_fc cb (sc_vec RN c) (sc_nmax RN c) (sc_mmax RN c) nr nc = py_sc_to_fc (sc_vec RN c) (sc_nmax RN c) (sc_mmax RN c) nr nc.
Proof.
  intros W Hr Hc. rewrite py_sc_to_fc_ok by auto. pose proof W as [[Hg1 Hg2] _]. unfold c_backend. cbn [be_sc_to_fc]. unfold np_zeros2.
  destruct (Z.ltb_spec nr 0); [lia|]. destruct (Z.ltb_spec nc 0); [lia|]. cbn [orb bind].
  change (mt_dat RN (mmake RN nr nc (fun _ _ => RtoC 0))) with (flat nr nc (fun _ _ => RtoC 0)).
  rewrite c_sc_to_fc_ok by auto. reflexivity.
Qed.
End Backends.

(** ** C31 *)

(** The C function ynnm returns what pysphi.ynnm returns. *)
Theorem C31_ynnm_equal : forall n m, c_ynnm n m = ynnm n m.
Proof. exact c_ynnm_eq. Qed.
Print Assumptions C31_ynnm_equal.

(** The C function ynunm, whatever its buffer held, leaves there what
    pysphi.ynunm returns. *)
Theorem C31_ynunm_equal : forall n m y, n < zlen y -> c_ynunm n m y (zlen y) = ynunm n m (zlen y).
Proof.
  intros n m y Hy. destruct (Z_le_gt_dec (Z.abs m) n).
  - rewrite ynunm_eq, c_ynunm_eq by (auto; lia). reflexivity.
  - unfold c_ynunm, ynunm. rewrite mfor_fill by auto. rewrite np_zeros_ok by apply zlen_nonneg. cbn [bind].
    destruct (Z.leb_spec (Z.abs m) n); [lia|reflexivity].
Qed.
Print Assumptions C31_ynunm_equal.
Example C31_ynunm_nonvacuous : 3 < zlen [7; 7; 7; 7]%R.
Proof. cbn. lia. Qed.

(** fc_to_sc: for every table of Fourier data with 2 MM rows whose row MM is
    zero in the columns that are read (spht and vspht produce no other), the
    two implementations return the same vector. *)
Theorem C31_fc_to_sc_equal : forall junk junkr junki (a : mat RN) nmax mmax MM,
  mat_wf RN a -> mt_nr RN a = 2 * MM -> 1 <= MM -> 0 <= mmax <= nmax -> mmax < mt_nc RN a ->
  2 * MM + nmax <= 2 ^ 31 ->
  (forall m, Z.abs m <= mmax -> cget a MM (m mod mt_nc RN a) = RtoC 0) ->
  be_fc_to_sc (c_backend junk junkr junki) a nmax mmax = be_fc_to_sc py_backend a nmax mmax.
Proof.
  intros junk junkr junki a nmax mmax MM W HL HM Hm Hc Hb Hz. unfold c_backend. cbn [be_fc_to_sc py_backend].
  rewrite np_zeros_ncoef by auto. cbn [bind].
  apply (c_fc_to_sc_py junk junkr junki _ _ _ _ MM); auto.
  - intros m Hmm. unfold colf. rewrite HL, (Z.mod_small MM) by lia. auto.
  - apply zlen_vmake'. unfold ncoef. nia.
Qed.
Print Assumptions C31_fc_to_sc_equal.

(** sc_to_fc *)
Theorem C31_sc_to_fc_equal : forall junk junkr junki (c : scoefs RN) nrows ncols,
  valid RN c -> sc_nmax RN c + 1 <= nrows -> 2 * sc_mmax RN c + 2 <= ncols ->
  be_sc_to_fc (c_backend junk junkr junki) (sc_vec RN c) (sc_nmax RN c) (sc_mmax RN c) nrows ncols
  = be_sc_to_fc py_backend (sc_vec RN c) (sc_nmax RN c) (sc_mmax RN c) nrows ncols.
Proof. intros. apply valid_wf in H. exact (be_c_sc junk junkr junki c nrows ncols H H0 H1). Qed.
Print Assumptions C31_sc_to_fc_equal.

(** spht: whatever the arguments, errors included. *)
Theorem C31_spht_equal : forall junk junkr junki (d : mat RN) R nmax mmax n m,
  mt_nr RN d = 2 * R - 2 -> 2 <= R -> 1 <= mt_nc RN d ->
  spht_sizes (p_nrows RN d) (p_ncols RN d) nmax mmax = (n, m) -> 0 <= m -> 3 * R <= 2 ^ 31 ->
  spht (c_backend junk junkr junki) d nmax mmax = spht py_backend d nmax mmax.
Proof.
  intros junk junkr junki d R nmax mmax n m Hr HR Hc Hs Hm Hb. unfold spht. rewrite Hs.
  unfold p_nrows, p_ncols, spht_guard. rewrite Hr. replace ((2 * R - 2) / 2 + 1) with R by lia.
  destruct (Z.gtb_spec m n); [reflexivity|]. destruct (Z.geb_spec n (R - 1)); [reflexivity|].
  destruct (Z.geb_spec (2 * m) (mt_nc RN d)); [reflexivity|]. destruct (mt_nc RN d mod 2 =? 1); [reflexivity|]. cbn [bind].
  rewrite (fft_padded_ok d R) by auto. cbn [bind].
  rewrite sin_fc_tab by (try lia; apply fsupp_trunc). cbn [bind].
  rewrite be_c_tab; try lia; [reflexivity|].
  replace (R - 1) with (R - 2 + 1) by lia. apply fsupp_sinF, fsupp_trunc.
Qed.
Print Assumptions C31_spht_equal.
Example C31_spht_nonvacuous : exists d : mat RN,
  mt_nr RN d = 2 * 4 - 2 /\ mt_nc RN d = 6 /\ spht_sizes (p_nrows RN d) (p_ncols RN d) None None = (2, 2) /\
  spht_guard (p_nrows RN d) (p_ncols RN d) 2 2 = Ok tt.
Proof. exists (mmake RN 6 6 (fun i j => RtoC (IZR (i + j)))). repeat split; reflexivity. Qed.

(** spht equals spht_slow, for both values of the switch, whenever spht
    accepts its arguments. *)
Theorem C31_spht_is_spht_slow : forall junk junkr junki (d : mat RN) R n m,
  mt_nr RN d = 2 * R - 2 -> 2 <= R -> 1 <= mt_nc RN d -> 0 <= m -> 3 * R <= 2 ^ 31 ->
  spht_guard (p_nrows RN d) (p_ncols RN d) n m = Ok tt ->
  spht py_backend d (Some n) (Some m) = spht_slow d n m /\
  spht (c_backend junk junkr junki) d (Some n) (Some m) = spht_slow d n m.
Proof.
  intros junk junkr junki d R n m Hr HR Hc Hm Hb Hg.
  assert (E : spht py_backend d (Some n) (Some m) = spht_slow d n m).
  { unfold spht. cbn [spht_sizes]. rewrite Hg. cbn [bind]. unfold spht_slow.
    unfold p_nrows, p_ncols, spht_guard in Hg. rewrite Hr in Hg. rewrite Hr. replace ((2 * R - 2) / 2 + 1) with R in Hg by lia.
    destruct (Z.gtb_spec m n); [discriminate|]. destruct (Z.geb_spec n (R - 1)); [discriminate|].
    destruct (Z.geb_spec (2 * m) (mt_nc RN d)); [discriminate|]. destruct (mt_nc RN d mod 2 =? 1); [discriminate|].
    replace ((2 * R - 2) mod 2 =? 1) with false by (symmetry; apply Z.eqb_neq; lia). cbn [orb].
    rewrite np_zeros_ncoef by lia. cbn [bind]. reflexivity. }
  split; auto. rewrite (C31_spht_equal _ _ _ d R (Some n) (Some m) n m); auto.
Qed.
Print Assumptions C31_spht_is_spht_slow.

(** vspht *)
Theorem C31_vspht_equal : forall junk junkr junki (p : tpatt RN) R nmax mmax n m,
  mt_nr RN (tp_t RN p) = 2 * R - 2 -> mt_nr RN (tp_p RN p) = 2 * R - 2 ->
  mt_nc RN (tp_p RN p) = mt_nc RN (tp_t RN p) -> 2 <= R -> 1 <= mt_nc RN (tp_t RN p) ->
  spht_sizes (p_nrows RN (tp_t RN p)) (p_ncols RN (tp_t RN p)) nmax mmax = (n, m) -> 0 <= m -> 3 * R <= 2 ^ 31 ->
  vspht (c_backend junk junkr junki) p nmax mmax = vspht py_backend p nmax mmax.
Proof.
  intros junk junkr junki p R nmax mmax n m Hr1 Hr2 Hc2 HR HB Hs Hm Hb. unfold vspht. rewrite Hs.
  unfold p_nrows, p_ncols, spht_guard. rewrite Hr1. replace ((2 * R - 2) / 2 + 1) with R by lia.
  destruct (Z.gtb_spec m n); [reflexivity|]. destruct (Z.geb_spec n (R - 1)); [reflexivity|].
  destruct (Z.geb_spec (2 * m) (mt_nc RN (tp_t RN p))); [reflexivity|].
  destruct (Z.eqb_spec (mt_nc RN (tp_t RN p) mod 2) 1) as [|Hev]; [reflexivity|]. cbn [bind].
  set (B := mt_nc RN (tp_t RN p) / 2). assert (Hc1 : mt_nc RN (tp_t RN p) = 2 * B) by (unfold B; lia).
  rewrite (fft_padded_ok _ R) by lia. cbn [bind]. rewrite (fft_padded_ok _ R) by lia. cbn [bind].
  rewrite Hc2, Hc1. fold (Xt R (tp_t RN p)) (Xt R (tp_p RN p)).
  assert (ST : fsupp (R - 2) (Xt R (tp_t RN p))) by apply fsupp_trunc.
  assert (SP : fsupp (R - 2) (Xt R (tp_p RN p))) by apply fsupp_trunc.
  rewrite sinLdot_fc_tab by (auto; lia). cbn [bind].
  rewrite !ew1_tab by lia.
  rewrite sinLdot_fc_tab; [|lia|lia|]. 2:{ intros m' k H2. rewrite ST by auto. ring. }
  cbn [bind]. fold (Lf1 R B p) (Lf2 R B p).
  rewrite !be_c_tab; try lia; [reflexivity| |].
  - apply sLd_supp; intros m' k H2; [rewrite SP by auto|rewrite ST by auto]; ring.
  - apply sLd_supp; auto.
Qed.
Print Assumptions C31_vspht_equal.

(** ispht, whatever the arguments, except for a single row with nmax = 0
    (see C32). *)
Theorem C31_ispht_equal : forall junk junkr junki (c : scoefs RN) nrows ncols,
  valid RN c -> (sc_nmax RN c = 0 -> nrows <> Some 1) ->
  ispht (c_backend junk junkr junki) c nrows ncols = ispht py_backend c nrows ncols.
Proof.
  intros junk junkr junki c nrows ncols W H1. apply valid_wf in W. pose proof W as [[Hg1 Hg2] _]. unfold ispht.
  set (r := match nrows with None => _ | Some r => r end). set (k := match ncols with None => _ | Some r => r end).
  assert (Hr : sc_nmax RN c = 0 -> r <> 1).
  { intros E. specialize (H1 E). unfold r. destruct nrows; [congruence|lia]. }
  destruct (Z.leb_spec r (sc_nmax RN c)); [reflexivity|]. destruct (Z.ltb_spec k (2 * sc_mmax RN c + 2)); [reflexivity|].
  destruct (_ =? 1); [reflexivity|]. rewrite be_c_sc by (auto; lia). reflexivity.
Qed.
Print Assumptions C31_ispht_equal.
(** ispht equals ispht_slow, for both values of the switch. *)
Theorem C31_ispht_is_ispht_slow : forall junk junkr junki (c : scoefs RN) r k,
  valid RN c -> sc_nmax RN c < r -> (sc_nmax RN c = 0 -> r <> 1) -> 2 * sc_mmax RN c + 2 <= k ->
  ispht py_backend c (Some r) (Some k) = ispht_slow c r k /\
  ispht (c_backend junk junkr junki) c (Some r) (Some k) = ispht_slow c r k.
Proof.
  intros junk junkr junki c r k W Hr H0 Hk.
  assert (E : ispht py_backend c (Some r) (Some k) = ispht_slow c r k).
  { unfold ispht, ispht_slow. destruct (Z.leb_spec r (sc_nmax RN c)); [lia|].
    destruct (Z.ltb_spec k (2 * sc_mmax RN c + 2)); [lia|]. reflexivity. }
  split; auto. rewrite C31_ispht_equal; auto. intros E0 E1. injection E1 as E1. now apply H0.
Qed.
Print Assumptions C31_ispht_is_ispht_slow.

(** vispht, whatever the arguments. *)
Theorem C31_vispht_equal : forall junk junkr junki (vc : vcoefs RN) nrows ncols, vvalid RN vc ->
  vispht (c_backend junk junkr junki) vc nrows ncols = vispht py_backend vc nrows ncols.
Proof.
  intros junk junkr junki vc nrows ncols W. apply vvalid_wf in W. pose proof W as (W1 & W2 & A1 & A2 & A3 & A4 & _). unfold vispht.
  set (r := match nrows with None => _ | Some r => r end). set (k := match ncols with None => _ | Some r => r end).
  destruct (Z.ltb_spec r (vc_nmax RN vc + 2)); [reflexivity|]. destruct (Z.ltb_spec k (2 * vc_mmax RN vc + 2)); [reflexivity|].
  destruct (_ =? 1); [reflexivity|].
  pose proof W1 as [[Hg1 Hg2] _]. rewrite nvec_ok by lia. cbn [bind].
  rewrite !sc_copy_ok' by auto. cbn [bind].
  destruct (windowed_ok (vc_1 RN vc) W1) as (c1 & X1 & Y1 & B1 & B2 & U1).
  destruct (windowed_ok (vc_2 RN vc) W2) as (c2 & X2 & Y2 & B3 & B4 & U2).
  rewrite A1 in X1, B1. rewrite A3 in X2, B3. rewrite X1. cbn [bind]. rewrite X2. cbn [bind].
  rewrite !be_c_sc by (auto; lia). reflexivity.
Qed.
Print Assumptions C31_vispht_equal.
Example C31_ispht_nonvacuous : exists c : scoefs RN, valid RN c /\ sc_nmax RN c = 2 /\ sc_mmax RN c = 1.
Proof.
  exists (mkSC RN (repeat (RtoC 1) 7) 2 1). split; [|split; reflexivity].
  apply valid_wf. split; [unfold good_size; cbn; lia|reflexivity].
Qed.

(** ** C32 *)

(** fc_to_sc stays inside its buffers whatever the Fourier data are (an
    access outside would give [Raise OutOfBounds]). *)
Theorem C32_fc_to_sc_in_bounds : forall junk junkr junki (fdata sc : list C) nrow ncol nmax mmax MM,
  nrow = 2 * MM -> 1 <= MM -> 0 <= mmax <= nmax -> mmax < ncol -> nrow + nmax <= 2 ^ 31 ->
  zlen fdata = nrow * ncol -> zlen sc = ncoef nmax mmax ->
  exists sc', c_fc_to_sc junk junkr junki fdata nrow ncol sc nmax mmax = Ok sc' /\ zlen sc' = zlen sc.
Proof.
  intros junk junkr junki fdata sc nrow ncol nmax mmax MM Hr HM Hm Hc Hb Hf Hs.
  destruct (c_fc_to_sc_ok junk junkr junki (mkMat RN nrow ncol fdata) sc nmax mmax MM) as (Q & v & _ & E & L & _); auto; try lia.
  - repeat split; cbn; auto; lia.
  - exists v. split; [exact E|]. congruence.
Qed.
Print Assumptions C32_fc_to_sc_in_bounds.
(** sc_to_fc *)
Theorem C32_sc_to_fc_in_bounds : forall junkr junki (sc : list C) nrow ncol nmax mmax,
  0 <= mmax <= nmax -> nmax + 1 <= nrow -> 2 * mmax + 2 <= ncol -> zlen sc = ncoef nmax mmax ->
  exists f', c_sc_to_fc junkr junki (vmake (nrow * ncol) (fun _ => RtoC 0)) nrow ncol sc nmax mmax = Ok f' /\ zlen f' = nrow * ncol.
Proof.
  intros junkr junki sc nrow ncol nmax mmax Hm Hr Hc Hs.
  assert (W : sc_wf RN (mkSC RN sc nmax mmax)) by (split; [exact Hm|exact Hs]).
  exists (mt_dat RN (fdata_of (mkSC RN sc nmax mmax) nrow ncol)). split.
  - exact (c_sc_to_fc_ok junkr junki (mkSC RN sc nmax mmax) nrow ncol W Hr Hc).
  - apply (@zlen_vmake' C). nia.
Qed.
Print Assumptions C32_sc_to_fc_in_bounds.

(** spht, vspht, ispht, vispht through the C extension never make it leave a
    buffer. *)
Theorem C32_spht_in_bounds : forall junk junkr junki (d : mat RN) R nmax mmax n m,
  mt_nr RN d = 2 * R - 2 -> 2 <= R -> 1 <= mt_nc RN d ->
  spht_sizes (p_nrows RN d) (p_ncols RN d) nmax mmax = (n, m) -> 0 <= m -> 3 * R <= 2 ^ 31 ->
  (exists c, spht (c_backend junk junkr junki) d nmax mmax = Ok c) \/
  (exists s, spht (c_backend junk junkr junki) d nmax mmax = Raise (ValueError s)).
Proof.
  intros junk junkr junki d R nmax mmax n m Hr HR Hc Hs Hm Hb.
  rewrite (C31_spht_equal _ _ _ d R nmax mmax n m) by auto. unfold spht. rewrite Hs.
  unfold p_nrows, p_ncols, spht_guard. rewrite Hr. replace ((2 * R - 2) / 2 + 1) with R by lia.
  destruct (Z.gtb_spec m n); [right; eexists; reflexivity|]. destruct (Z.geb_spec n (R - 1)); [right; eexists; reflexivity|].
  destruct (Z.geb_spec (2 * m) (mt_nc RN d)); [right; eexists; reflexivity|]. destruct (mt_nc RN d mod 2 =? 1); [right; eexists; reflexivity|].
  left. destruct (spht_body d R n m) as (c & E & _); auto; try lia. exists c. cbn [bind].
  rewrite np_zeros_ncoef by lia. exact E.
Qed.
Print Assumptions C32_spht_in_bounds.
Theorem C32_vspht_in_bounds : forall junk junkr junki (p : tpatt RN) R B n m,
  mt_nr RN (tp_t RN p) = 2 * R - 2 -> mt_nr RN (tp_p RN p) = 2 * R - 2 ->
  mt_nc RN (tp_t RN p) = 2 * B -> mt_nc RN (tp_p RN p) = 2 * B ->
  2 <= R -> 1 <= B -> 0 <= m <= n -> n < R - 1 -> m < B -> 3 * R <= 2 ^ 31 ->
  exists vc, vspht (c_backend junk junkr junki) p (Some n) (Some m) = Ok vc.
Proof.
  intros junk junkr junki p R B n m H1 H2 H3 H4 HR HB Hm Hn Hm2 Hb.
  rewrite (C31_vspht_equal _ _ _ p R (Some n) (Some m) n m) by (auto; lia).
  destruct (vspht_body p R B n m) as (vc & E & _); auto. now exists vc.
Qed.
Print Assumptions C32_vspht_in_bounds.
Theorem C32_ispht_in_bounds : forall junk junkr junki (c : scoefs RN) nrows ncols,
  valid RN c -> (sc_nmax RN c = 0 -> nrows <> Some 1) ->
  (exists d, ispht (c_backend junk junkr junki) c nrows ncols = Ok d) \/
  (exists s, ispht (c_backend junk junkr junki) c nrows ncols = Raise (ValueError s)).
Proof.
  intros junk junkr junki c nrows ncols W H1. rewrite C31_ispht_equal by auto. apply valid_wf in W. pose proof W as [[Hg1 Hg2] _]. unfold ispht.
  set (r := match nrows with None => _ | Some r => r end). set (k := match ncols with None => _ | Some r => r end).
  assert (Hr : sc_nmax RN c = 0 -> r <> 1).
  { intros E. specialize (H1 E). unfold r. destruct nrows; [congruence|lia]. }
  destruct (Z.leb_spec r (sc_nmax RN c)); [right; eexists; reflexivity|]. destruct (Z.ltb_spec k (2 * sc_mmax RN c + 2)); [right; eexists; reflexivity|].
  destruct (Z.eqb_spec (k mod 2) 1); [right; eexists; reflexivity|]. left.
  assert (Hk : k = 2 * (k / 2)) by lia. rewrite Hk. eexists. apply ispht_body; auto; lia.
Qed.
Print Assumptions C32_ispht_in_bounds.
Theorem C32_vispht_in_bounds : forall junk junkr junki (vc : vcoefs RN) nrows ncols, vvalid RN vc ->
  (exists p, vispht (c_backend junk junkr junki) vc nrows ncols = Ok p) \/
  (exists s, vispht (c_backend junk junkr junki) vc nrows ncols = Raise (ValueError s)).
Proof.
  intros junk junkr junki vc nrows ncols W. rewrite C31_vispht_equal by auto. apply vvalid_wf in W.
  set (r := match nrows with None => vc_nmax RN vc + 2 | Some r => r end). set (k := match ncols with None => 2 * vc_mmax RN vc + 2 | Some r => r end).
  destruct (Z_lt_le_dec r (vc_nmax RN vc + 2)); [|destruct (Z_lt_le_dec k (2 * vc_mmax RN vc + 2)); [|destruct (Z.eq_dec (k mod 2) 1) as [E|E]]].
  - right. eexists. unfold vispht. fold r. destruct (Z.ltb_spec r (vc_nmax RN vc + 2)); [reflexivity|lia].
  - right. eexists. unfold vispht. fold r k. destruct (Z.ltb_spec r (vc_nmax RN vc + 2)); [lia|].
    destruct (Z.ltb_spec k (2 * vc_mmax RN vc + 2)); [reflexivity|lia].
  - right. eexists. unfold vispht. fold r k. destruct (Z.ltb_spec r (vc_nmax RN vc + 2)); [lia|].
    destruct (Z.ltb_spec k (2 * vc_mmax RN vc + 2)); [lia|]. rewrite E. reflexivity.
  - left. pose proof (vispht_ok vc r (k / 2) W ltac:(lia) ltac:(lia)) as Hv.
    assert (Hk : k = 2 * (k / 2)) by lia. rewrite <- Hk in Hv.
    eexists. transitivity (vispht py_backend vc (Some r) (Some k)); [|exact Hv].
    unfold r, k. destruct nrows, ncols; reflexivity.
Qed.
Print Assumptions C32_vispht_in_bounds.

(** Finding: with nmax = 0, ispht accepts nrows = 1; the doubled grid then has
    no row and the C routine reads and writes outside the empty array. *)
Theorem C32_ispht_single_row_out_of_bounds : forall junk junkr junki (c : scoefs RN) ncols,
  valid RN c -> sc_nmax RN c = 0 -> 2 <= ncols -> ncols mod 2 = 0 ->
  ispht (c_backend junk junkr junki) c (Some 1) (Some ncols) = Raise OutOfBounds.
Proof.
  intros junk junkr junki c ncols W H0 Hc Hev. apply valid_wf in W. pose proof W as [[Hg1 Hg2] Hl]. assert (Hm : sc_mmax RN c = 0) by lia.
  unfold ispht. rewrite H0, Hm. destruct (Z.leb_spec 1 0); [lia|]. destruct (Z.ltb_spec ncols (2 * 0 + 2)); [lia|].
  rewrite Hev. change (0 =? 1) with false. cbv iota. change (2 * 1 - 2) with 0.
  unfold c_backend. cbn [be_sc_to_fc]. unfold np_zeros2. destruct (Z.ltb_spec 0 0); [lia|]. destruct (Z.ltb_spec ncols 0); [lia|]. cbn [orb bind].
  change (mt_dat RN (mmake RN 0 ncols (fun _ _ => RtoC 0))) with (flat 0 ncols (fun _ _ => RtoC 0)).
  unfold c_sc_to_fc. rewrite c_inds_ok by lia. cbn [bind].
  rewrite Z.quot_div_nonneg by lia. rewrite zrange_cons by lia. cbn [mfor]. change (0 <? 0) with false. change (0 =? 0) with true. cbv iota.
  rewrite inds_pos by lia. cbn [bind]. unfold c_fcvec_m_sc. change (Z.abs 0) with 0. change (0 + 1) with 1.
  rewrite (zrange_cons 0 1) by lia. cbn [mfor]. rewrite c_ynunm_eq; [|cbn; lia|lia|apply zlen_vmake'; lia]. cbn [bind].
  replace (flat 0 ncols (fun _ _ => RtoC 0)) with (@nil C) by reflexivity. reflexivity.
Qed.
Print Assumptions C32_ispht_single_row_out_of_bounds.
Example C32_single_row_nonvacuous : exists c : scoefs RN, valid RN c /\ sc_nmax RN c = 0.
Proof. exists (mkSC RN [RtoC 1] 0 0). split; [|reflexivity]. apply valid_wf. split; [unfold good_size; cbn; lia|reflexivity]. Qed.

(** ** C35, third routine *)
Theorem C35_FindQ_least_smooth : forall S, 1 <= S ->
  exists q, FindQ S = Ok q /\ least_smooth [2; 3; 5] S q /\ q < 2 * S.
Proof. exact FindQ_ok. Qed.
Print Assumptions C35_FindQ_least_smooth.
(** For S <= 0 the while loop runs for ever: no number of iterations ends it. *)
Theorem C35_FindQ_nonpositive_diverges : forall S fuel, S <= 0 -> findq_loop fuel S S = Raise OutOfFuel.
Proof. intros. apply findq_nonpos; auto. Qed.
Print Assumptions C35_FindQ_nonpositive_diverges.

(** ** C50 *)

(** Which implementation is used: any non-empty string selects C, the string
    "False" included; so do true and every non-zero number. *)
Theorem C50_switch : forall junk junkr junki (s : string),
  backend_of (JStr s) junk junkr junki = if (s =? "")%string then py_backend else c_backend junk junkr junki.
Proof. intros. unfold backend_of, truthy. now destruct (s =? "")%string. Qed.
Print Assumptions C50_switch.
Theorem C50_False_string_selects_C_refuted : forall junk junkr junki,
  backend_of (JStr "False") junk junkr junki = c_backend junk junkr junki /\
  backend_of (JBool false) junk junkr junki = py_backend.
Proof. intros. split; reflexivity. Qed.
Print Assumptions C50_False_string_selects_C_refuted.

(** Both choices give the same results: for any two values of the switch. *)
Theorem C50_spht_independent_of_switch : forall u v junk junkr junki (d : mat RN) R nmax mmax n m,
  mt_nr RN d = 2 * R - 2 -> 2 <= R -> 1 <= mt_nc RN d ->
  spht_sizes (p_nrows RN d) (p_ncols RN d) nmax mmax = (n, m) -> 0 <= m -> 3 * R <= 2 ^ 31 ->
  spht (backend_of u junk junkr junki) d nmax mmax = spht (backend_of v junk junkr junki) d nmax mmax.
Proof.
  intros u v junk junkr junki d R nmax mmax n m H1 H2 H3 H4 H5 H6. unfold backend_of.
  pose proof (C31_spht_equal junk junkr junki d R nmax mmax n m H1 H2 H3 H4 H5 H6).
  destruct (truthy u), (truthy v); congruence.
Qed.
Print Assumptions C50_spht_independent_of_switch.
Theorem C50_vspht_independent_of_switch : forall u v junk junkr junki (p : tpatt RN) R nmax mmax n m,
  mt_nr RN (tp_t RN p) = 2 * R - 2 -> mt_nr RN (tp_p RN p) = 2 * R - 2 ->
  mt_nc RN (tp_p RN p) = mt_nc RN (tp_t RN p) -> 2 <= R -> 1 <= mt_nc RN (tp_t RN p) ->
  spht_sizes (p_nrows RN (tp_t RN p)) (p_ncols RN (tp_t RN p)) nmax mmax = (n, m) -> 0 <= m -> 3 * R <= 2 ^ 31 ->
  vspht (backend_of u junk junkr junki) p nmax mmax = vspht (backend_of v junk junkr junki) p nmax mmax.
Proof.
  intros u v junk junkr junki p R nmax mmax n m H1 H2 H3 H4 H5 H6 H7 H8. unfold backend_of.
  pose proof (C31_vspht_equal junk junkr junki p R nmax mmax n m H1 H2 H3 H4 H5 H6 H7 H8).
  destruct (truthy u), (truthy v); congruence.
Qed.
Print Assumptions C50_vspht_independent_of_switch.
Theorem C50_ispht_independent_of_switch : forall u v junk junkr junki (c : scoefs RN) nrows ncols,
  valid RN c -> (sc_nmax RN c = 0 -> nrows <> Some 1) ->
  ispht (backend_of u junk junkr junki) c nrows ncols = ispht (backend_of v junk junkr junki) c nrows ncols.
Proof.
  intros u v junk junkr junki c nrows ncols H1 H2. unfold backend_of.
  pose proof (C31_ispht_equal junk junkr junki c nrows ncols H1 H2). destruct (truthy u), (truthy v); congruence.
Qed.
Print Assumptions C50_ispht_independent_of_switch.
Theorem C50_vispht_independent_of_switch : forall u v junk junkr junki (vc : vcoefs RN) nrows ncols, vvalid RN vc ->
  vispht (backend_of u junk junkr junki) vc nrows ncols = vispht (backend_of v junk junkr junki) vc nrows ncols.
Proof.
  intros u v junk junkr junki vc nrows ncols H1. unfold backend_of.
  pose proof (C31_vispht_equal junk junkr junki vc nrows ncols H1). destruct (truthy u), (truthy v); congruence.
Qed.
Print Assumptions C50_vispht_independent_of_switch.
