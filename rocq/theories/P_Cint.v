(** * P_Cint: property C63: the ranges in which the C extension computes its
    32 bit ints without overflow, and what lies beyond them.

    [x_backend] (MCint.v) is the C extension with every int checked: an int
    that does not fit ends the run with [Raise IntOverflow].  [c_backend]
    (MCsphi.v) is the same code on unbounded integers, [py_backend] the pure
    Python implementation. *)
From Coq Require Import ZArith Znumtheory List String Bool Lia Reals Lra.
From Coquelicot Require Import Complex.
From Verif Require Import Py PyFacts Num Exact MCoefs SpecCoefs Obs CoefsFacts CoefsFacts2 CoefsFacts3 MPatt Sums Harm MPysphi MOps
  Smooth SpecDft Dft PysphiFacts TransFacts MTrans TransFacts2 TransFacts3 MKiss KissFacts KissFacts2 P_Kiss MCsphi CsphiFacts P_Coefs P_Ops P_Csphi
  MCint CintFacts CintFacts2 CintFacts3 CintFacts4 CintFacts5.
Import ListNotations.
Open Scope string_scope.
Open Scope list_scope.
Open Scope Z_scope.

Section Backends.
Variables (junk : Z -> C) (junkr : Z -> R) (junki : Z -> Z).
Notation xb := (x_backend junk junkr junki).
Notation cb := (c_backend junk junkr junki).

Lemma be_x_tab R nc G nmax mmax : 2 <= R -> 2 <= nc -> 0 <= mmax <= nmax -> nmax <= R -> 2 * mmax < nc -> 2 * R * nc <= 2 ^ 31 ->
  be_fc_to_sc xb (tab (2 * R) nc G) nmax mmax = be_fc_to_sc cb (tab (2 * R) nc G) nmax mmax.
Proof.
  intros HR Hc Hm Hn Hm2 Hb. unfold x_backend, c_backend. cbn [be_fc_to_sc]. rewrite np_zeros_ncoef by auto. cbn [bind].
  apply refR_false, x_fc_to_sc_ref.
  - change (mt_nr RN (tab (2 * R) nc G)) with (2 * R). lia.
  - lia.
  - lia.
  - intros _. change (mt_nr RN (tab (2 * R) nc G)) with (2 * R). change (mt_nc RN (tab (2 * R) nc G)) with nc. unfold INT_MAX.
    assert (4 * nc <= 2 * R * nc) by (apply Z.mul_le_mono_nonneg_r; lia). lia.
Qed.
Lemma be_x_tab_over R nc G nmax mmax : 2 <= R -> 1 <= mmax <= nmax -> 2 * mmax < nc -> 2 ^ 31 < 2 * R * nc ->
  be_fc_to_sc xb (tab (2 * R) nc G) nmax mmax = Raise IntOverflow.
Proof.
  intros HR Hm Hm2 Hb. unfold x_backend. cbn [be_fc_to_sc]. rewrite np_zeros_ncoef by lia. cbn [bind].
  apply x_fc_overflow.
  - change (mt_nr RN (tab (2 * R) nc G)) with (2 * R). lia.
  - change (mt_nr RN (tab (2 * R) nc G)) with (2 * R). lia.
  - lia.
  - change (mt_nc RN (tab (2 * R) nc G)) with nc. lia.
  - change (mt_nr RN (tab (2 * R) nc G)) with (2 * R). change (mt_nc RN (tab (2 * R) nc G)) with nc. lia.
  - apply (tab_wf (2 * R) nc G); lia.
  - apply zlen_vmake'. unfold ncoef. nia.
Qed.
Lemma be_x_sc c nr nc : sc_wf RN c -> sc_nmax RN c + 1 <= nr -> 2 * sc_mmax RN c + 2 <= nc -> 2 <= nr -> nr * nc <= 2 ^ 31 ->
  be_sc_to_fc xb (sc_vec RN c) (sc_nmax RN c) (sc_mmax RN c) nr nc = be_sc_to_fc cb (sc_vec RN c) (sc_nmax RN c) (sc_mmax RN c) nr nc.
Proof.
  intros W Hr Hc H2 Hb. pose proof W as [[Hg1 Hg2] _]. unfold x_backend, c_backend. cbn [be_sc_to_fc].
  destruct (np_zeros2 nr nc) as [f|]; cbn [bind]; [|reflexivity]. f_equal. apply refR_false, x_sc_to_fc_ref; [lia|].
  intros _. assert (2 * nc <= nr * nc) by (apply Z.mul_le_mono_nonneg_r; lia). unfold INT_MAX. lia.
Qed.
Lemma be_x_sc_over c nr nc : sc_wf RN c -> 1 <= sc_mmax RN c -> sc_nmax RN c + 1 <= nr -> 3 <= nr -> 2 * sc_mmax RN c + 2 <= nc -> 2 ^ 31 < nr * nc ->
  be_sc_to_fc xb (sc_vec RN c) (sc_nmax RN c) (sc_mmax RN c) nr nc = Raise IntOverflow.
Proof.
  intros W H1 Hr H3 Hc Hb. pose proof W as [[Hg1 Hg2] Hz]. unfold x_backend. cbn [be_sc_to_fc]. unfold np_zeros2.
  destruct (Z.ltb_spec nr 0); [lia|]. destruct (Z.ltb_spec nc 0); [lia|]. cbn [orb bind].
  change (mt_dat RN (mmake RN nr nc (fun _ _ => RtoC 0))) with (flat nr nc (fun _ _ => RtoC 0)).
  rewrite x_sc_overflow by (auto; lia). reflexivity.
Qed.
End Backends.

(** ** The four transforms *)

(** spht: as long as the table of Fourier coefficients that is handed to the
    C extension (2 nrows rows, ncols columns) has at most 2^31 entries, no
    int overflows and the result is that of the Python implementation;
    whatever the arguments, errors included. *)
Theorem C63_spht_no_overflow : forall junk junkr junki (d : mat RN) R nmax mmax n m,
  mt_nr RN d = 2 * R - 2 -> 2 <= R -> 1 <= mt_nc RN d ->
  spht_sizes (p_nrows RN d) (p_ncols RN d) nmax mmax = (n, m) -> 0 <= m -> 2 * R * mt_nc RN d <= 2 ^ 31 ->
  spht (x_backend junk junkr junki) d nmax mmax = spht py_backend d nmax mmax.
Proof.
  intros junk junkr junki d R nmax mmax n m Hr HR Hc Hs Hm Hb.
  destruct (Z.eq_dec (mt_nc RN d mod 2) 1) as [Hodd|Hev].
  { unfold spht. rewrite Hs. unfold p_nrows, p_ncols, spht_guard. apply Z.eqb_eq in Hodd. rewrite Hodd.
    destruct (m >? n); [reflexivity|]. destruct (n >=? _); [reflexivity|]. destruct (2 * m >=? mt_nc RN d); reflexivity. }
  assert (H3 : 3 * R <= 2 ^ 31) by nia.
  rewrite <- (C31_spht_equal junk junkr junki d R nmax mmax n m) by auto.
  unfold spht. rewrite Hs. unfold p_nrows, p_ncols, spht_guard. rewrite Hr. replace ((2 * R - 2) / 2 + 1) with R by lia.
  destruct (Z.gtb_spec m n); [reflexivity|]. destruct (Z.geb_spec n (R - 1)); [reflexivity|].
  destruct (Z.geb_spec (2 * m) (mt_nc RN d)); [reflexivity|]. destruct (mt_nc RN d mod 2 =? 1); [reflexivity|]. cbn [bind].
  rewrite (fft_padded_ok d R) by auto. cbn [bind].
  rewrite sin_fc_tab by (try lia; apply fsupp_trunc). cbn [bind].
  rewrite be_x_tab by lia. reflexivity.
Qed.
Print Assumptions C63_spht_no_overflow.

(** ... and with a single entry more, an accepted call with mmax >= 1
    overflows an int. *)
Theorem C63_spht_overflow : forall junk junkr junki (d : mat RN) R nmax mmax n m,
  mt_nr RN d = 2 * R - 2 -> 2 <= R ->
  spht_sizes (p_nrows RN d) (p_ncols RN d) nmax mmax = (n, m) -> 1 <= m ->
  spht_guard (p_nrows RN d) (p_ncols RN d) n m = Ok tt -> 2 ^ 31 < 2 * R * mt_nc RN d ->
  spht (x_backend junk junkr junki) d nmax mmax = Raise IntOverflow.
Proof.
  intros junk junkr junki d R nmax mmax n m Hr HR Hs Hm Hg Hb. unfold spht. rewrite Hs, Hg. cbn [bind].
  unfold p_nrows, p_ncols, spht_guard in Hg. rewrite Hr in Hg. replace ((2 * R - 2) / 2 + 1) with R in Hg by lia.
  destruct (Z.gtb_spec m n); [discriminate|]. destruct (Z.geb_spec n (R - 1)); [discriminate|].
  destruct (Z.geb_spec (2 * m) (mt_nc RN d)); [discriminate|]. clear Hg.
  rewrite (fft_padded_ok d R) by (auto; lia). cbn [bind].
  rewrite sin_fc_tab by (try lia; apply fsupp_trunc). cbn [bind]. rewrite np_zeros_ncoef by lia. cbn [bind].
  rewrite be_x_tab_over by lia. reflexivity.
Qed.
Print Assumptions C63_spht_overflow.

(** vspht *)
Theorem C63_vspht_no_overflow : forall junk junkr junki (p : tpatt RN) R nmax mmax n m,
  mt_nr RN (tp_t RN p) = 2 * R - 2 -> mt_nr RN (tp_p RN p) = 2 * R - 2 ->
  mt_nc RN (tp_p RN p) = mt_nc RN (tp_t RN p) -> 2 <= R -> 1 <= mt_nc RN (tp_t RN p) ->
  spht_sizes (p_nrows RN (tp_t RN p)) (p_ncols RN (tp_t RN p)) nmax mmax = (n, m) -> 0 <= m -> 2 * R * mt_nc RN (tp_t RN p) <= 2 ^ 31 ->
  vspht (x_backend junk junkr junki) p nmax mmax = vspht py_backend p nmax mmax.
Proof.
  intros junk junkr junki p R nmax mmax n m Hr1 Hr2 Hc2 HR HB Hs Hm Hb.
  destruct (Z.eq_dec (mt_nc RN (tp_t RN p) mod 2) 1) as [Hodd|Hev].
  { unfold vspht. rewrite Hs. unfold p_nrows, p_ncols, spht_guard. apply Z.eqb_eq in Hodd. rewrite Hodd.
    destruct (m >? n); [reflexivity|]. destruct (n >=? _); [reflexivity|]. destruct (2 * m >=? mt_nc RN (tp_t RN p)); reflexivity. }
  assert (H3 : 3 * R <= 2 ^ 31) by nia.
  rewrite <- (C31_vspht_equal junk junkr junki p R nmax mmax n m) by auto.
  unfold vspht. rewrite Hs.
  unfold p_nrows, p_ncols, spht_guard. rewrite Hr1. replace ((2 * R - 2) / 2 + 1) with R by lia.
  destruct (Z.gtb_spec m n); [reflexivity|]. destruct (Z.geb_spec n (R - 1)); [reflexivity|].
  destruct (Z.geb_spec (2 * m) (mt_nc RN (tp_t RN p))); [reflexivity|].
  destruct (mt_nc RN (tp_t RN p) mod 2 =? 1); [reflexivity|]. cbn [bind].
  set (B := mt_nc RN (tp_t RN p) / 2) in *. assert (Hc1 : mt_nc RN (tp_t RN p) = 2 * B) by (unfold B; lia).
  rewrite (fft_padded_ok _ R) by lia. cbn [bind]. rewrite (fft_padded_ok _ R) by lia. cbn [bind].
  rewrite Hc2, Hc1. rewrite Hc1 in Hb. fold (Xt R (tp_t RN p)) (Xt R (tp_p RN p)).
  assert (ST : fsupp (R - 2) (Xt R (tp_t RN p))) by apply fsupp_trunc.
  assert (SP : fsupp (R - 2) (Xt R (tp_p RN p))) by apply fsupp_trunc.
  rewrite sinLdot_fc_tab by (auto; lia). cbn [bind].
  rewrite !ew1_tab by lia.
  rewrite sinLdot_fc_tab; [|lia|lia|]. 2:{ intros m' k H2. rewrite ST by auto. ring. }
  cbn [bind]. rewrite !be_x_tab by lia. reflexivity.
Qed.
Print Assumptions C63_vspht_no_overflow.
Theorem C63_vspht_overflow : forall junk junkr junki (p : tpatt RN) R nmax mmax n m,
  mt_nr RN (tp_t RN p) = 2 * R - 2 -> mt_nr RN (tp_p RN p) = 2 * R - 2 ->
  mt_nc RN (tp_p RN p) = mt_nc RN (tp_t RN p) -> 2 <= R ->
  spht_sizes (p_nrows RN (tp_t RN p)) (p_ncols RN (tp_t RN p)) nmax mmax = (n, m) -> 1 <= m ->
  spht_guard (p_nrows RN (tp_t RN p)) (p_ncols RN (tp_t RN p)) n m = Ok tt -> 2 ^ 31 < 2 * R * mt_nc RN (tp_t RN p) ->
  vspht (x_backend junk junkr junki) p nmax mmax = Raise IntOverflow.
Proof.
  intros junk junkr junki p R nmax mmax n m Hr1 Hr2 Hc2 HR Hs Hm Hg Hb.
  unfold vspht. rewrite Hs, Hg. cbn [bind].
  unfold p_nrows, p_ncols, spht_guard in Hg. rewrite Hr1 in Hg. replace ((2 * R - 2) / 2 + 1) with R in Hg by lia.
  destruct (Z.gtb_spec m n); [discriminate|]. destruct (Z.geb_spec n (R - 1)); [discriminate|].
  destruct (Z.geb_spec (2 * m) (mt_nc RN (tp_t RN p))); [discriminate|].
  destruct (Z.eqb_spec (mt_nc RN (tp_t RN p) mod 2) 1) as [|Hev]; [discriminate|]. clear Hg.
  set (B := mt_nc RN (tp_t RN p) / 2) in *. assert (Hc1 : mt_nc RN (tp_t RN p) = 2 * B) by (unfold B; lia).
  rewrite (fft_padded_ok _ R) by lia. cbn [bind]. rewrite (fft_padded_ok _ R) by lia. cbn [bind].
  rewrite Hc2, Hc1. rewrite Hc1 in Hb. fold (Xt R (tp_t RN p)) (Xt R (tp_p RN p)).
  assert (ST : fsupp (R - 2) (Xt R (tp_t RN p))) by apply fsupp_trunc.
  assert (SP : fsupp (R - 2) (Xt R (tp_p RN p))) by apply fsupp_trunc.
  rewrite sinLdot_fc_tab by (auto; lia). cbn [bind].
  rewrite !ew1_tab by lia.
  rewrite sinLdot_fc_tab; [|lia|lia|]. 2:{ intros m' k H2. rewrite ST by auto. ring. }
  cbn [bind]. rewrite be_x_tab_over by lia. reflexivity.
Qed.
Print Assumptions C63_vspht_overflow.

(** ispht: nrows, ncols as requested, or the defaults nmax + 2 and
    2 mmax + 2; the table that the C extension fills has 2 nrows - 2 rows. *)
Definition rows_of (nmax : Z) (nrows : option Z) : Z := match nrows with None => nmax + 2 | Some r => r end.
Definition cols_of (mmax : Z) (ncols : option Z) : Z := match ncols with None => 2 * mmax + 2 | Some k => k end.

Theorem C63_ispht_no_overflow : forall junk junkr junki (c : scoefs RN) nrows ncols,
  valid RN c -> (sc_nmax RN c = 0 -> nrows <> Some 1) ->
  (2 * rows_of (sc_nmax RN c) nrows - 2) * cols_of (sc_mmax RN c) ncols <= 2 ^ 31 ->
  ispht (x_backend junk junkr junki) c nrows ncols = ispht py_backend c nrows ncols.
Proof.
  intros junk junkr junki c nrows ncols W H1 Hb. rewrite <- (C31_ispht_equal junk junkr junki) by auto.
  apply valid_wf in W. pose proof W as [[Hg1 Hg2] _]. unfold ispht.
  change (match nrows with None => sc_nmax RN c + 2 | Some r => r end) with (rows_of (sc_nmax RN c) nrows).
  change (match ncols with None => 2 * sc_mmax RN c + 2 | Some r => r end) with (cols_of (sc_mmax RN c) ncols).
  set (r := rows_of _ _) in *. set (k := cols_of _ _) in *.
  assert (Hr : sc_nmax RN c = 0 -> r <> 1).
  { intros E. specialize (H1 E). unfold r, rows_of. destruct nrows; [congruence|lia]. }
  destruct (Z.leb_spec r (sc_nmax RN c)); [reflexivity|]. destruct (Z.ltb_spec k (2 * sc_mmax RN c + 2)); [reflexivity|].
  destruct (_ =? 1); [reflexivity|]. rewrite be_x_sc by (auto; lia). reflexivity.
Qed.
Print Assumptions C63_ispht_no_overflow.
Theorem C63_ispht_overflow : forall junk junkr junki (c : scoefs RN) nrows ncols,
  valid RN c -> 1 <= sc_mmax RN c ->
  (* the arguments are accepted *)
  sc_nmax RN c < rows_of (sc_nmax RN c) nrows -> 2 * sc_mmax RN c + 2 <= cols_of (sc_mmax RN c) ncols ->
  cols_of (sc_mmax RN c) ncols mod 2 = 0 -> 3 <= rows_of (sc_nmax RN c) nrows ->
  2 ^ 31 < (2 * rows_of (sc_nmax RN c) nrows - 2) * cols_of (sc_mmax RN c) ncols ->
  ispht (x_backend junk junkr junki) c nrows ncols = Raise IntOverflow.
Proof.
  intros junk junkr junki c nrows ncols W H1 Hr Hk Hev H3 Hb.
  apply valid_wf in W. pose proof W as [[Hg1 Hg2] _]. unfold ispht.
  change (match nrows with None => sc_nmax RN c + 2 | Some r => r end) with (rows_of (sc_nmax RN c) nrows).
  change (match ncols with None => 2 * sc_mmax RN c + 2 | Some r => r end) with (cols_of (sc_mmax RN c) ncols).
  set (r := rows_of _ _) in *. set (k := cols_of _ _) in *.
  destruct (Z.leb_spec r (sc_nmax RN c)); [lia|]. destruct (Z.ltb_spec k (2 * sc_mmax RN c + 2)); [lia|].
  destruct (Z.eqb_spec (k mod 2) 1); [lia|]. rewrite be_x_sc_over by (auto; lia). reflexivity.
Qed.
Print Assumptions C63_ispht_overflow.

(** vispht *)
Theorem C63_vispht_no_overflow : forall junk junkr junki (vc : vcoefs RN) nrows ncols, vvalid RN vc ->
  (2 * rows_of (vc_nmax RN vc) nrows - 2) * cols_of (vc_mmax RN vc) ncols <= 2 ^ 31 ->
  vispht (x_backend junk junkr junki) vc nrows ncols = vispht py_backend vc nrows ncols.
Proof.
  intros junk junkr junki vc nrows ncols W Hb. rewrite <- (C31_vispht_equal junk junkr junki) by auto.
  apply vvalid_wf in W. pose proof W as (W1 & W2 & A1 & A2 & A3 & A4 & _). unfold vispht.
  change (match nrows with None => vc_nmax RN vc + 2 | Some r => r end) with (rows_of (vc_nmax RN vc) nrows).
  change (match ncols with None => 2 * vc_mmax RN vc + 2 | Some r => r end) with (cols_of (vc_mmax RN vc) ncols).
  set (r := rows_of _ _) in *. set (k := cols_of _ _) in *.
  destruct (Z.ltb_spec r (vc_nmax RN vc + 2)); [reflexivity|]. destruct (Z.ltb_spec k (2 * vc_mmax RN vc + 2)); [reflexivity|].
  destruct (_ =? 1); [reflexivity|].
  pose proof W1 as [[Hg1 Hg2] _]. rewrite nvec_ok by lia. cbn [bind].
  rewrite !sc_copy_ok' by auto. cbn [bind].
  destruct (windowed_ok (vc_1 RN vc) W1) as (c1 & X1 & Y1 & B1 & B2 & U1).
  destruct (windowed_ok (vc_2 RN vc) W2) as (c2 & X2 & Y2 & B3 & B4 & U2).
  rewrite A1 in X1, B1. rewrite A3 in X2, B3. rewrite X1. cbn [bind]. rewrite X2. cbn [bind].
  rewrite !be_x_sc by (auto; lia). reflexivity.
Qed.
Print Assumptions C63_vispht_no_overflow.
Theorem C63_vispht_overflow : forall junk junkr junki (vc : vcoefs RN) nrows ncols, vvalid RN vc -> 1 <= vc_mmax RN vc ->
  vc_nmax RN vc + 2 <= rows_of (vc_nmax RN vc) nrows -> 2 * vc_mmax RN vc + 2 <= cols_of (vc_mmax RN vc) ncols ->
  cols_of (vc_mmax RN vc) ncols mod 2 = 0 ->
  2 ^ 31 < (2 * rows_of (vc_nmax RN vc) nrows - 2) * cols_of (vc_mmax RN vc) ncols ->
  vispht (x_backend junk junkr junki) vc nrows ncols = Raise IntOverflow.
Proof.
  intros junk junkr junki vc nrows ncols W H1 Hr Hk Hev Hb.
  apply vvalid_wf in W. pose proof W as (W1 & W2 & A1 & A2 & A3 & A4 & _). unfold vispht.
  change (match nrows with None => vc_nmax RN vc + 2 | Some r => r end) with (rows_of (vc_nmax RN vc) nrows).
  change (match ncols with None => 2 * vc_mmax RN vc + 2 | Some r => r end) with (cols_of (vc_mmax RN vc) ncols).
  set (r := rows_of _ _) in *. set (k := cols_of _ _) in *.
  destruct (Z.ltb_spec r (vc_nmax RN vc + 2)); [lia|]. destruct (Z.ltb_spec k (2 * vc_mmax RN vc + 2)); [lia|].
  destruct (Z.eqb_spec (k mod 2) 1); [lia|].
  pose proof W1 as [[Hg1 Hg2] _]. rewrite nvec_ok by lia. cbn [bind].
  rewrite !sc_copy_ok' by auto. cbn [bind].
  destruct (windowed_ok (vc_1 RN vc) W1) as (c1 & X1 & Y1 & B1 & B2 & U1).
  destruct (windowed_ok (vc_2 RN vc) W2) as (c2 & X2 & Y2 & B3 & B4 & U2).
  rewrite A1 in X1, B1. rewrite A3 in X2, B3. rewrite X1. cbn [bind]. rewrite X2. cbn [bind].
  rewrite be_x_sc_over by (auto; lia). reflexivity.
Qed.
Print Assumptions C63_vispht_overflow.

(** ** Non-vacuity: a grid just inside and one just outside *)
Example C63_spht_nonvacuous : exists d : mat RN, mt_nr RN d = 2 * 32768 - 2 /\ mt_nc RN d = 32768 /\
  spht_sizes (p_nrows RN d) (p_ncols RN d) (Some 3) (Some 3) = (3, 3) /\
  spht_guard (p_nrows RN d) (p_ncols RN d) 3 3 = Ok tt /\ 2 * 32768 * mt_nc RN d = 2 ^ 31.
Proof. exists (mmake RN (2 * 32768 - 2) 32768 (fun i j => RtoC (IZR (i + j)))). repeat split; reflexivity. Qed.
Example C63_spht_overflow_nonvacuous : exists d : mat RN, mt_nr RN d = 2 * 32769 - 2 /\ mt_nc RN d = 32768 /\
  spht_sizes (p_nrows RN d) (p_ncols RN d) (Some 3) (Some 3) = (3, 3) /\
  spht_guard (p_nrows RN d) (p_ncols RN d) 3 3 = Ok tt /\ 2 ^ 31 < 2 * 32769 * mt_nc RN d.
Proof. exists (mmake RN (2 * 32769 - 2) 32768 (fun i j => RtoC (IZR (i + j)))). repeat split; reflexivity. Qed.
Example C63_ispht_nonvacuous : exists c : scoefs RN, valid RN c /\ 1 <= sc_mmax RN c /\
  (2 * rows_of (sc_nmax RN c) (Some 20000) - 2) * cols_of (sc_mmax RN c) (Some 50000) <= 2 ^ 31 /\
  2 ^ 31 < (2 * rows_of (sc_nmax RN c) (Some 30000) - 2) * cols_of (sc_mmax RN c) (Some 50000).
Proof.
  exists (mkSC RN (repeat (RtoC 1) 7) 2 1). split; [|unfold rows_of, cols_of; cbn [sc_nmax sc_mmax]; lia].
  apply valid_wf. split; [unfold good_size; cbn; lia|reflexivity].
Qed.

(** ** kiss_fft *)

(** floor(sqrt((double) n)), computed in binary64, is the integer square root
    for every int n >= 0; so kf_factor with C's sqrt yields the factorisation
    of C34 for every int n >= 1. *)
Theorem C63_floor_sqrt : forall n, 0 <= n <= 2147483647 -> let r := c_floor_sqrt n in 0 <= r /\ r * r <= n < (r + 1) * (r + 1).
Proof.
  intros n Hn. cbv zeta. rewrite c_floor_sqrt_ok by lia. split; [apply Z.sqrt_nonneg|].
  pose proof (Z.sqrt_spec n ltac:(lia)). unfold Z.succ in *. lia.
Qed.
Print Assumptions C63_floor_sqrt.
Theorem C63_kf_factor : forall n, 1 <= n <= 2147483647 ->
  exists stages, x_kf_factor n = Ok stages /\
    fold_right Z.mul 1 (map fst stages) = n /\
    (forall i p m, nth_error stages i = Some (p, m) ->
       fold_right Z.mul 1 (map fst (firstn (S i) stages)) * m = n) /\
    last (map snd stages) 0 = 1 /\
    (2 <= n -> Forall (fun s => fst s = 4 \/ prime (fst s)) stages) /\
    zlen stages <= 32.
Proof.
  intros n Hn. rewrite x_kf_factor_eq by (unfold INT_MAX; lia).
  destruct (C34_factorisation n ltac:(lia)) as (l & E & H1 & H2 & H3 & H4 & H5). exists l. repeat split; auto. apply H5. lia.
Qed.
Print Assumptions C63_kf_factor.
Example C63_kf_factor_nonvacuous : x_kf_factor 360 = Ok [(4, 90); (2, 45); (3, 15); (3, 5); (5, 1)] /\ c_floor_sqrt 360 = 18.
Proof. split; vm_compute; reflexivity. Qed.

(** A transform of length n computes the discrete Fourier transform without
    overflowing an int if n <= 2^30, or if n is an int without prime factors
    above 5. *)
Theorem C63_kiss_fft : forall (junk : Z -> C) n (inverse : bool) (x y : list C) stride,
  1 <= n <= 2147483647 -> n <= 2 ^ 30 \/ (forall p, prime p -> (p | n) -> p <= 5) ->
  1 <= stride -> (n - 1) * stride < zlen x -> n <= zlen y ->
  exists cfg out, x_fft_alloc n inverse = Ok cfg /\ x_fft_stride junk cfg x y stride = Ok out /\
    zlen out = zlen y /\
    (forall k, 0 <= k < n ->
       vget (RtoC 0) out k = dft (if inverse then 1 else -1) n (fun j => vget (RtoC 0) x (j * stride)%Z) k) /\
    (forall k, n <= k -> vget (RtoC 0) out k = vget (RtoC 0) y k).
Proof.
  intros junk n inv x y s Hn Hsm Hs Hx Hy.
  destruct (C33_kiss_fft_is_dft junk n inv x y s) as (cfg & out & E & E2 & R); auto; [lia|].
  exists cfg, out. rewrite x_fft_alloc_eq by (unfold INT_MAX; lia). split; auto. split; auto. rewrite <- E2.
  destruct (plan_fit_alloc n inv cfg) as (Ec & P1 & P2 & P3); auto.
  { destruct Hsm as [Hsm|Hsm]; [left; auto|right]. split; [lia|]. intros p Hp Hd. specialize (Hsm p Hp Hd). pose proof (prime_ge_2 p Hp).
    assert (p <> 4). { intros ->. destruct Hp as [_ Hp]. destruct (Hp 2 ltac:(lia)) as [_ _ K]. specialize (K 2). assert (2 | 1) as D by (apply K; [exists 1|exists 2]; lia).
      destruct D as (q & D). lia. }
    cbn. lia. }
  apply refR_false. unfold x_fft_stride, kiss_fft_stride. apply (x_kf_work_ref false junk cfg x s _ n).
  intros _. rewrite Ec in *. repeat split; auto; lia.
Qed.
Print Assumptions C63_kiss_fft.
(** For a prime length above 2^30 it does not. *)
Theorem C63_kiss_fft_prime_overflow : forall (junk : Z -> C) n (inverse : bool) (x y : list C) stride,
  prime n -> 2 ^ 30 < n <= 2147483647 -> 1 <= stride -> (n - 1) * stride < zlen x -> n <= zlen y ->
  exists cfg, x_fft_alloc n inverse = Ok cfg /\ x_fft_stride junk cfg x y stride = Raise IntOverflow.
Proof.
  intros junk n inv x y s Hp Hn Hs Hx Hy.
  destruct (C33_kiss_fft_is_dft junk n inv x y s) as (cfg & out & E & E2 & R); auto; [lia|].
  exists cfg. rewrite x_fft_alloc_eq by (unfold INT_MAX; lia). split; auto.
  destruct (kiss_fft_alloc_ok n inv) as (cfg' & E' & En & _ & _); [lia|]. rewrite E in E'. apply Ok_inj in E'. subst cfg'.
  assert (Ef : k_factors cfg = [(n, 1)]).
  { unfold kiss_fft_alloc in E. rewrite (kf_factor_prime n Hp) in E. cbn [bind] in E.
    destruct (MAXFACTORS <? zlen [(n, 1)]); [discriminate|]. apply Ok_inj in E. subst cfg. reflexivity. }
  unfold x_fft_stride, kiss_fft_stride in *. rewrite Ef in *.
  destruct (refR_true _ _ (x_kf_work_ref true junk cfg x s [(n, 1)] n y 0 0 1 ltac:(discriminate))) as [K|K]; auto.
  exfalso. rewrite E2 in K. apply x_kf_work_prime_inv in K; lia.
Qed.
Print Assumptions C63_kiss_fft_prime_overflow.
(** Such primes exist: 2^31 - 1 is one. *)
Lemma trial_division n b : 0 <= b -> 3 <= n -> n < (6 * b + 5) * (6 * b + 5) -> n mod 2 <> 0 -> n mod 3 <> 0 ->
  forallb (fun k => negb (n mod (6 * k - 1) =? 0) && negb (n mod (6 * k + 1) =? 0)) (zrange 1 (b + 1)) = true -> prime n.
Proof.
  intros Hb0 Hn Hb H2 H3 H. apply prime_alt. split; [lia|]. intros d Hd Dv.
  assert (G : forall e, 1 < e -> e < 6 * b + 5 -> (e | n) -> False).
  { intros e He1 He2 De. rewrite forallb_forall in H.
    assert (K : forall k, 1 <= k <= b -> n mod (6 * k - 1) <> 0 /\ n mod (6 * k + 1) <> 0).
    { intros k Hk. specialize (H k (In_zrange_intro k 1 (b + 1) ltac:(lia))). apply andb_prop in H. destruct H as [A1 A2].
      apply negb_true_iff in A1, A2. apply Z.eqb_neq in A1, A2. auto. }
    assert (D2 : e mod 2 = 0 -> False).
    { intros E. apply H2. apply Z.mod_divide; [lia|]. apply Z.mod_divide in E; [|lia]. eapply Z.divide_trans; eauto. }
    assert (D3 : e mod 3 = 0 -> False).
    { intros E. apply H3. apply Z.mod_divide; [lia|]. apply Z.mod_divide in E; [|lia]. eapply Z.divide_trans; eauto. }
    apply Z.mod_divide in De; [|lia].
    assert (C6 : e mod 6 = 1 \/ e mod 6 = 5) by lia. destruct C6 as [C6|C6].
    - destruct (K (e / 6)) as [_ K1]; [lia|]. apply K1. replace (6 * (e / 6) + 1) with e by (clear - C6; lia). exact De.
    - destruct (K (e / 6 + 1)) as [K1 _]; [lia|]. apply K1. replace (6 * (e / 6 + 1) - 1) with e by (clear - C6; lia). exact De. }
  destruct (Z_lt_le_dec d (6 * b + 5)) as [|Hbig]; [apply (G d); auto; lia|].
  destruct Dv as (q & Eq). apply (G q); [| |exists d; lia].
  - destruct (Z_lt_le_dec 1 q) as [|Hq]; auto. assert (q * d <= 1 * d) by (apply Z.mul_le_mono_nonneg_r; lia). lia.
  - destruct (Z_lt_le_dec q (6 * b + 5)) as [|Hq]; auto.
    assert ((6 * b + 5) * (6 * b + 5) <= q * d) by (apply Z.mul_le_mono_nonneg; lia). lia.
Qed.
Example C63_kiss_overflow_nonvacuous : prime 2147483647.
Proof.
  apply (trial_division _ 7723); [lia|lia|lia|discriminate|discriminate|].
  vm_cast_no_check (eq_refl true).
Qed.

(** ** The searches for a length *)

(** FindQ and kiss_fft_next_fast_size: 2125764000 = 2^5 3^12 5^3 is the
    largest int without prime factors above 5.  Up to it both return the
    least such number that is not below their argument, above it both
    overflow. *)
Theorem C63_FindQ_range : forall S, 1 <= S <= 2147483647 ->
  (S <= 2125764000 -> exists q, x_FindQ S = Ok q /\ least_smooth [2; 3; 5] S q) /\
  (2125764000 < S -> x_FindQ S = Raise IntOverflow).
Proof.
  intros S HS. split; intros H.
  - rewrite x_FindQ_eq by (unfold LAST5; lia). destruct (FindQ_ok S ltac:(lia)) as (q & E & L & _). eauto.
  - apply x_FindQ_overflow. unfold LAST5, INT_MAX. lia.
Qed.
Print Assumptions C63_FindQ_range.
Theorem C63_next_fast_size_range : forall n, 1 <= n <= 2147483647 ->
  (n <= 2125764000 -> exists q, x_next_fast_size n = Ok q /\ least_smooth [2; 3; 5] n q) /\
  (2125764000 < n -> x_next_fast_size n = Raise IntOverflow).
Proof.
  intros n Hn. split; intros H.
  - rewrite x_next_fast_eq by (unfold LAST5; lia). destruct (next_fast_ok n ltac:(lia)) as (q & E & L & _). eauto.
  - apply x_next_fast_overflow. unfold LAST5, INT_MAX. lia.
Qed.
Print Assumptions C63_next_fast_size_range.
