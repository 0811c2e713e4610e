(** * P_Dtype: property C64: the storage types of coefficient arrays, and what
    the SWIG wrapper of the C extension accepts.

    [tcoefs] (MDtype.v) is a ScalarCoefs together with the layout of its array
    (element type, dimensions, contiguity, byte order) and the class of its
    nmax and mmax.  [p_ispht], [p_vispht], [p_spht] are the transforms with
    use_cext False, [w_ispht], [w_vispht], [w_spht] with use_cext True. *)
From Coq Require Import ZArith List String Bool Lia Reals Lra.
From Coquelicot Require Import Complex.
From Verif Require Import Py PyFacts Num Exact MCoefs SpecCoefs Obs CoefsFacts CoefsFacts2 CoefsFacts3 MPatt Sums Harm MPysphi MOps
  Smooth SpecDft Dft PysphiFacts TransFacts MTrans TransFacts2 TransFacts3 SpecHarm MKiss KissFacts KissFacts2 P_Kiss MCsphi CsphiFacts P_Coefs P_Trans P_Trans2 P_Ops P_Csphi
  MCint CintFacts CintFacts2 CintFacts3 CintFacts4 CintFacts5 P_Cint MDtype DtypeFacts.
Import ListNotations.
Open Scope string_scope.
Open Scope list_scope.
Open Scope Z_scope.

(** ** Arithmetic and item assignment stay within the element type *)

(** [givens P e]: every array the caller brings into the expression has P. *)
Fixpoint givens (P : tcoefs -> Prop) (e : texpr) : Prop :=
  match e with
  | TGiven t => P t
  | TFactory _ _ _ _ _ | TSpht _ _ _ => True
  | TOp _ a b => givens P a /\ givens P b
  | TOpNum _ a _ | TOpNumR _ _ a | TAbs a | TCopy a | TTrunc a _ | TSetElem a _ _ _ | TSetCol a _ _ | TWindow a _ => givens P a
  end.
Fixpoint no_abs (e : texpr) : Prop :=
  match e with
  | TGiven _ | TFactory _ _ _ _ _ | TSpht _ _ _ => True
  | TOp _ a b => no_abs a /\ no_abs b
  | TAbs _ => False
  | TOpNum _ a _ | TOpNumR _ _ a | TCopy a | TTrunc a _ | TSetElem a _ _ _ | TSetCol a _ _ | TWindow a _ => no_abs a
  end.
Definition py_size (x : option (ikind * Z)) : Prop := match x with None => True | Some (k, _) => k = KPy end.
(** every nmax and mmax in the expression is a Python int *)
Fixpoint py_sizes (e : texpr) : Prop :=
  match e with
  | TGiven _ => True
  | TFactory _ kn km _ _ => kn = KPy /\ km = KPy
  | TSpht _ n m => py_size n /\ py_size m
  | TOp _ a b => py_sizes a /\ py_sizes b
  | TOpNum _ a _ | TOpNumR _ _ a | TAbs a | TCopy a | TTrunc a _ | TSetElem a _ _ _ | TSetCol a _ _ | TWindow a _ => py_sizes a
  end.

Ltac one_of E a y :=
  cbn [teval] in E; destruct (teval a) as [y|]; cbn [bind] in E; [|discriminate E].

(** What a program stores in its arrays through the operations of the class
    are values of the array's type: integers in an int64 array, real numbers
    in a float64 array. *)
Theorem C64_well_typed : forall e t,
  givens (fun g => Forall (fits (tc_dt g)) (sc_vec RN (tc_c g))) e -> teval e = Ok t ->
  Forall (fits (tc_dt t)) (sc_vec RN (tc_c t)).
Proof.
  change (forall e t, givens well_typed e -> teval e = Ok t -> well_typed t).
  induction e; intros t0 G E; cbn [givens] in G.
  - cbn [teval] in E. apply Ok_inj in E. now subst.
  - cbn [teval] in E. unfold t_factory in E. destruct (coefs_factory _ _ _ _ _ _) as [[c|c]|]; cbn [bind] in E; try discriminate E.
    apply Ok_inj in E. subst t0. now apply wt_complex.
  - cbn [teval] in E. unfold p_spht in E. destruct (w_sizes _ _ _ _) as [[kn n] [km m]].
    destruct (spht _ _ _ _) as [c|]; cbn [bind] in E; [|discriminate E]. apply Ok_inj in E. subst t0. now apply wt_complex.
  - destruct G as [G1 G2]. one_of E e1 y1. one_of E e2 y2. eapply wt_op; [| |exact E]; auto.
  - one_of E e y. eapply wt_op_num; [|exact E]; auto.
  - one_of E e y. eapply wt_op_num_r; [|exact E]; auto.
  - one_of E e y. eapply wt_abs; [|exact E]; auto.
  - one_of E e y. eapply wt_copy; [|exact E]; auto.
  - one_of E e y. apply wt_complex. unfold tc_dt. now rewrite (t_trunc_dt _ _ _ E).
  - one_of E e y. eapply wt_set_elem; [|exact E]; auto.
  - one_of E e y. unfold after in E. destruct (snd _); cbn [bind] in E; [|discriminate E]. apply Ok_inj in E. subst t0.
    apply wt_set_col. auto.
  - one_of E e y. unfold after in E. destruct (snd _); cbn [bind] in E; [|discriminate E]. apply Ok_inj in E. subst t0.
    apply wt_window. auto.
Qed.
Print Assumptions C64_well_typed.

(** ** What the C extension accepts *)

(** complex128, one dimension, contiguous, native byte order; nmax and mmax
    Python ints *)
Definition c_accepts (t : tcoefs) : Prop :=
  l_dt (tc_lay t) = DComplex /\ l_ndim (tc_lay t) = 1 /\ l_contig (tc_lay t) = true /\ l_native (tc_lay t) = true /\
  tc_kn t = KPy /\ tc_km t = KPy.

Lemma accepts_of t : tc_lay t = fresh DComplex 1 -> tc_kn t = KPy -> tc_km t = KPy -> c_accepts t.
Proof. unfold c_accepts. intros -> -> ->. cbn. auto 7. Qed.
Lemma op_complex_l o b : op_dtype o DComplex b = DComplex.
Proof. destruct o, b; reflexivity. Qed.
Lemma op_complex_r o a : op_dtype o a DComplex = DComplex.
Proof. destruct o, a; reflexivity. Qed.
Lemma accepts_lay a b : tc_lay b = tc_lay a -> tc_kn b = tc_kn a -> tc_km b = tc_km a -> c_accepts a -> c_accepts b.
Proof. unfold c_accepts. now intros -> -> ->. Qed.

(** Arithmetic, copy, truncation, assignment and window lead from accepted
    objects (and zeros_coefs, ones_coefs, random_coefs, spht) to accepted
    objects only; abs is the single operation that does not. *)
Theorem C64_accepted_closed : forall e t, givens c_accepts e -> py_sizes e -> no_abs e -> teval e = Ok t -> c_accepts t.
Proof.
  induction e; intros t0 G S N E; cbn [givens py_sizes no_abs] in G, S, N.
  - cbn [teval] in E. apply Ok_inj in E. now subst.
  - destruct S as [-> ->]. cbn [teval] in E. unfold t_factory in E. destruct (coefs_factory _ _ _ _ _ _) as [[c|c]|]; cbn [bind] in E; try discriminate E.
    apply Ok_inj in E. subst t0. now apply accepts_of.
  - destruct S as [S1 S2]. cbn [teval] in E. unfold p_spht in E. destruct (w_sizes _ _ _ _) as [[kn n] [km m]] eqn:Ew.
    destruct (spht _ _ _ _) as [c|]; cbn [bind] in E; [|discriminate E]. apply Ok_inj in E. subst t0.
    assert (kn = KPy /\ km = KPy) as [-> ->]. { destruct nmax as [[k1 z1]|], mmax as [[k2 z2]|]; cbn in *; injection Ew; intros; subst; auto. }
    now apply accepts_of.
  - destruct G as [G1 G2], S as [S1 S2], N as [N1 N2]. one_of E e1 y1. one_of E e2 y2.
    destruct (IHe1 _ G1 S1 N1 eq_refl) as (A1 & A2 & A3 & A4 & A5 & A6).
    unfold t_op in E. destruct (sc_op_left _ _ _ _) as [c|]; cbn [bind] in E; [|discriminate E]. apply Ok_inj in E. subst t0.
    unfold tc_dt. rewrite A1, op_complex_l. now apply accepts_of.
  - one_of E e y. destruct (IHe _ G S N eq_refl) as (A1 & A2 & A3 & A4 & A5 & A6). unfold t_op_num in E.
    destruct (sc_op_left _ _ _ _) as [c|]; cbn [bind] in E; [|discriminate E]. apply Ok_inj in E. subst t0.
    unfold tc_dt. rewrite A1, op_complex_l. now apply accepts_of.
  - one_of E e y. destruct (IHe _ G S N eq_refl) as (A1 & A2 & A3 & A4 & A5 & A6). unfold t_op_num_r in E.
    destruct (sc_op_right _ _ _ _) as [c|]; cbn [bind] in E; [|discriminate E]. apply Ok_inj in E. subst t0.
    unfold tc_dt. rewrite A1, op_complex_r. now apply accepts_of.
  - contradiction.
  - one_of E e y. destruct (IHe _ G S N eq_refl) as (A1 & A2 & A3 & A4 & A5 & A6). unfold t_copy in E.
    destruct (sc_copy _ _) as [c|]; cbn [bind] in E; [|discriminate E]. apply Ok_inj in E. subst t0.
    unfold tc_dt. rewrite A1, A2, A4. now apply accepts_of.
  - one_of E e y. destruct (IHe _ G S N eq_refl) as (A1 & A2 & A3 & A4 & A5 & A6). unfold t_trunc in E.
    destruct (sc_trunc _ _ _) as [c|]; cbn [bind] in E; [|discriminate E]. apply Ok_inj in E. subst t0.
    apply accepts_of; auto. cbn [tc_km]. destruct (_ >? _); auto.
  - one_of E e y. pose proof (IHe _ G S N eq_refl) as A. unfold t_set_elem in E.
    destruct (sc_elem_index _ _ _ _); cbn [bind] in E; [|discriminate E].
    destruct (num_dtype x), (tc_dt y); (destruct (py_set _ _ _); cbn [bind] in E; discriminate E) ||
      (destruct (sc_set_elem _ _ _ _ _); cbn [bind] in E; [|discriminate E]; apply Ok_inj in E; subst t0; exact A).
  - one_of E e y. pose proof (IHe _ G S N eq_refl) as A. unfold after in E. destruct (snd _); cbn [bind] in E; [|discriminate E]. apply Ok_inj in E. subst t0.
    destruct A as (A1 & A2 & A3 & A4 & A5 & A6). destruct (wt_set_col y m v) as (_ & B1 & B2 & B3); [now apply wt_complex|].
    apply (accepts_lay y); auto; try (unfold c_accepts; auto 8).
  - one_of E e y. pose proof (IHe _ G S N eq_refl) as A. unfold after in E. destruct (snd _); cbn [bind] in E; [|discriminate E]. apply Ok_inj in E. subst t0.
    destruct A as (A1 & A2 & A3 & A4 & A5 & A6). destruct (wt_window y w) as (_ & B1 & B2 & B3); [now apply wt_complex|].
    apply (accepts_lay y); auto; try (unfold c_accepts; auto 8).
Qed.
Print Assumptions C64_accepted_closed.

Definition ex_cplx : tcoefs := mkTC (fresh DComplex 1) KPy KPy (mkSC RN [RtoC 1; Ci; RtoC 2; RtoC 3] 1 1).
Definition ex_int : tcoefs := mkTC (fresh DInt 1) KPy KPy (mkSC RN [RtoC 0; RtoC 1; RtoC (-1); RtoC 1] 1 1).
(** (ex_int + ex_cplx) / 2: complex128; ex_int / 2: float64; abs(ex_cplx): float64 *)
Example C64_closed_nonvacuous :
  (exists t, teval (TOpNum OpDiv (TOp OpAdd (TGiven ex_cplx) (TGiven ex_int)) (NInt 2)) = Ok t /\ tc_dt t = DComplex) /\
  (exists t, teval (TOpNum OpDiv (TGiven ex_int) (NInt 2)) = Ok t /\ tc_dt t = DFloat) /\
  (exists t, teval (TAbs (TGiven ex_cplx)) = Ok t /\ tc_dt t = DFloat) /\
  givens (fun g => Forall (fits (tc_dt g)) (sc_vec RN (tc_c g))) (TOp OpAdd (TGiven ex_cplx) (TGiven ex_int)) /\ c_accepts ex_cplx.
Proof.
  assert (Z2 : ceqb RN (num_val (NInt 2)) (c0 RN) = false).
  { unfold ceqb. cbn. unfold reqb_R. destruct (Req_EM_T 2 0); [lra|reflexivity]. }
  split; [|split; [|split; [|split]]].
  - eexists. split; [cbn [teval bind]; unfold t_op_num, sc_op_left; rewrite Z2; reflexivity|reflexivity].
  - eexists. split; [cbn [teval bind]; unfold t_op_num, sc_op_left; rewrite Z2; reflexivity|reflexivity].
  - eexists. split; reflexivity.
  - cbn. split; repeat constructor; try (exists 0; reflexivity); try (exists 1; reflexivity). exists (-1). reflexivity.
  - unfold c_accepts. cbn. auto 8.
Qed.

Lemma to_int_id z : INT_MIN <= z <= INT_MAX -> to_int z = z.
Proof. unfold INT_MIN, INT_MAX, to_int. intros H. rewrite Z.mod_small; lia. Qed.
Lemma swig_ok z : INT_MIN <= z <= INT_MAX -> swig_int KPy z = Ok z.
Proof. intros H. unfold swig_int. destruct (Z.leb_spec INT_MIN z); [|lia]. destruct (Z.leb_spec z INT_MAX); [|lia]. reflexivity. Qed.
Lemma inplace_ok l nd : l_dt l = DComplex -> l_ndim l = nd -> l_contig l = true -> l_native l = true -> inplace_array nd l = Ok tt.
Proof. unfold inplace_array. intros -> -> -> ->. now rewrite Z.eqb_refl. Qed.

Lemma w_s2f_ok junk junkr junki t nr nc : c_accepts t -> sc_wf RN (tc_c t) ->
  sc_nmax RN (tc_c t) + 1 <= nr -> 2 * sc_mmax RN (tc_c t) + 2 <= nc -> 2 <= nr -> nr * nc <= 2 ^ 31 ->
  w_s2f junkr junki t nr nc = be_sc_to_fc (x_backend junk junkr junki) (sc_vec RN (tc_c t)) (sc_nmax RN (tc_c t)) (sc_mmax RN (tc_c t)) nr nc.
Proof.
  intros (A1 & A2 & A3 & A4 & A5 & A6) [[Hg1 Hg2] _] Hr Hc H2 Hb.
  assert (2 * nr <= nr * nc) by (rewrite Z.mul_comm; apply Z.mul_le_mono_nonneg_l; lia).
  assert (2 * nc <= nr * nc) by (apply Z.mul_le_mono_nonneg_r; lia).
  unfold w_s2f, w_sc_to_fc. cbn [x_backend be_sc_to_fc]. unfold np_zeros2.
  destruct (Z.ltb_spec nr 0); [lia|]. destruct (Z.ltb_spec nc 0); [lia|]. cbn [orb bind].
  rewrite inplace_ok by reflexivity. cbn [bind]. rewrite inplace_ok by auto. cbn [bind].
  rewrite A5, A6, !swig_ok by (unfold INT_MIN, INT_MAX; lia). cbn [bind]. cbn [mt_nr mt_nc mmake].
  rewrite !to_int_id by (unfold INT_MIN, INT_MAX; lia). reflexivity.
Qed.
Lemma w_s2f_type_error junkr junki t nr nc : ~ c_accepts t -> sc_wf RN (tc_c t) -> 0 <= nr -> 0 <= nc -> sc_nmax RN (tc_c t) <= INT_MAX ->
  exists msg, w_s2f junkr junki t nr nc = Raise (TypeError msg).
Proof.
  intros HA [[Hg1 Hg2] _] Hr Hc Hn. unfold w_s2f, w_sc_to_fc, np_zeros2.
  destruct (Z.ltb_spec nr 0); [lia|]. destruct (Z.ltb_spec nc 0); [lia|]. cbn [orb bind].
  rewrite inplace_ok by reflexivity. cbn [bind]. unfold inplace_array, c_accepts in *.
  destruct (l_dt (tc_lay t)); cbn [bind]; [eauto|eauto|].
  destruct (Z.eqb_spec (l_ndim (tc_lay t)) 1); cbn [negb bind]; [|eauto].
  destruct (l_contig (tc_lay t)); cbn [negb bind]; [|eauto].
  destruct (l_native (tc_lay t)); cbn [negb bind]; [|eauto].
  destruct (tc_kn t); [|cbn [swig_int bind]; eauto]. rewrite swig_ok by (unfold INT_MIN, INT_MAX in *; lia). cbn [bind].
  destruct (tc_km t); [|cbn [swig_int bind]; eauto]. exfalso. apply HA. auto 8.
Qed.

(** ispht on an accepted object: the C extension returns what the Python
    implementation returns (see C24 for what that is), as long as its table
    has at most 2^31 entries (C63); errors included. *)
Theorem C64_ispht_accepted : forall junkr junki t nrows ncols, valid RN (tc_c t) -> c_accepts t ->
  (sc_nmax RN (tc_c t) = 0 -> nrows <> Some 1) ->
  (2 * rows_of (sc_nmax RN (tc_c t)) nrows - 2) * cols_of (sc_mmax RN (tc_c t)) ncols <= 2 ^ 31 ->
  w_ispht junkr junki t nrows ncols = ispht py_backend (tc_c t) nrows ncols /\
  p_ispht t nrows ncols = ispht py_backend (tc_c t) nrows ncols.
Proof.
  intros junkr junki t nrows ncols W HA H1 Hb. split; [|reflexivity].
  rewrite <- (C63_ispht_no_overflow (fun _ => RtoC 0) junkr junki) by auto.
  apply valid_wf in W. pose proof W as [[Hg1 Hg2] _]. unfold w_ispht, t_ispht, ispht.
  change (match nrows with None => sc_nmax RN (tc_c t) + 2 | Some r => r end) with (rows_of (sc_nmax RN (tc_c t)) nrows).
  change (match ncols with None => 2 * sc_mmax RN (tc_c t) + 2 | Some r => r end) with (cols_of (sc_mmax RN (tc_c t)) ncols).
  set (r := rows_of _ _) in *. set (k := cols_of _ _) in *.
  assert (Hr : sc_nmax RN (tc_c t) = 0 -> r <> 1).
  { intros E. specialize (H1 E). unfold r, rows_of. destruct nrows; [congruence|lia]. }
  destruct (Z.leb_spec r (sc_nmax RN (tc_c t))); [reflexivity|]. destruct (Z.ltb_spec k (2 * sc_mmax RN (tc_c t) + 2)); [reflexivity|].
  destruct (_ =? 1); [reflexivity|]. rewrite (w_s2f_ok (fun _ => RtoC 0)) by (auto; lia). reflexivity.
Qed.
Print Assumptions C64_ispht_accepted.

(** On any other object the C extension raises TypeError where the Python
    implementation returns a pattern. *)
Theorem C64_ispht_rejected : forall junkr junki t nrows ncols, valid RN (tc_c t) -> ~ c_accepts t ->
  sc_nmax RN (tc_c t) <= 2147483647 ->
  sc_nmax RN (tc_c t) < nrows -> 2 <= nrows -> 2 * sc_mmax RN (tc_c t) + 2 <= ncols -> ncols mod 2 = 0 ->
  (exists msg, w_ispht junkr junki t (Some nrows) (Some ncols) = Raise (TypeError msg)) /\
  (exists p, p_ispht t (Some nrows) (Some ncols) = Ok p /\ ispht py_backend (tc_c t) (Some nrows) (Some ncols) = Ok p).
Proof.
  intros junkr junki t r k W HA Hn Hr H2 Hk He. split.
  - apply valid_wf in W. pose proof W as [[Hg1 Hg2] _]. unfold w_ispht, t_ispht.
    destruct (Z.leb_spec r (sc_nmax RN (tc_c t))); [lia|]. destruct (Z.ltb_spec k (2 * sc_mmax RN (tc_c t) + 2)); [lia|].
    rewrite He. cbn [Z.eqb]. destruct (w_s2f_type_error junkr junki t (2 * r - 2) k) as (msg & ->); auto; try lia.
    cbn [bind]. eauto.
  - destruct (proj1 (C30_ispht_guard (tc_c t) r k W H2) ltac:(repeat split; auto; lia)) as (p & E). exists p. split; auto. 
Qed.
Print Assumptions C64_ispht_rejected.

(** In particular ispht(abs(c)) works only without the C extension, whatever
    c is. *)
Theorem C64_ispht_abs_refuted : forall junkr junki c nrows ncols, valid RN (tc_c c) ->
  sc_nmax RN (tc_c c) <= 2147483647 ->
  sc_nmax RN (tc_c c) < nrows -> 2 <= nrows -> 2 * sc_mmax RN (tc_c c) + 2 <= ncols -> ncols mod 2 = 0 ->
  exists a, t_abs c = Ok a /\
    (exists msg, w_ispht junkr junki a (Some nrows) (Some ncols) = Raise (TypeError msg)) /\
    (exists p, p_ispht a (Some nrows) (Some ncols) = Ok p).
Proof.
  intros junkr junki c r k W Hn Hr H2 Hk He. pose proof (proj1 (valid_wf RN _) W) as [Hg Hl].
  assert (En : sc_new RN (map (habs RN) (sc_vec RN (tc_c c))) (sc_nmax RN (tc_c c)) (sc_mmax RN (tc_c c)) =
     Ok (mkSC RN (map (habs RN) (sc_vec RN (tc_c c))) (sc_nmax RN (tc_c c)) (sc_mmax RN (tc_c c)))).
  { rewrite sc_new_ok; auto. now rewrite zlen_map. }
  eexists. split. { unfold t_abs. cbn [sp_abs]. rewrite En. cbn [bind]. reflexivity. }
  match goal with |- context [w_ispht _ _ ?a] => destruct (C64_ispht_rejected junkr junki a r k) as [X (p & Y & _)] end; auto.
  - apply valid_wf. cbn [tc_c]. split; auto. cbn [sc_vec sc_nmax sc_mmax]. now rewrite zlen_map.
  - intros (A & _). cbn in A. destruct (tc_dt c); discriminate A.
  - split; eauto.
Qed.
Print Assumptions C64_ispht_abs_refuted.
Example C64_ispht_nonvacuous : valid RN (tc_c ex_cplx) /\ c_accepts ex_cplx /\ sc_nmax RN (tc_c ex_cplx) = 1 /\
  valid RN (tc_c ex_int) /\ ~ c_accepts ex_int.
Proof.
  split; [unfold valid; cbn; split; [lia|reflexivity]|]. split; [unfold c_accepts; cbn; auto 8|]. split; [reflexivity|].
  split; [unfold valid; cbn; split; [lia|reflexivity]|]. intros (A & _). discriminate A.
Qed.

(** ** spht: the array it hands over is its own, only the sizes are the caller's *)

Lemma w_spht_ok junk junkr junki (d : mat RN) R nmax mmax n m :
  mt_nr RN d = 2 * R - 2 -> 2 <= R -> 1 <= mt_nc RN d ->
  w_sizes (p_nrows RN d) (p_ncols RN d) nmax mmax = ((KPy, n), (KPy, m)) -> 0 <= m -> 2 * R * mt_nc RN d <= 2 ^ 31 ->
  w_spht junk junkr junki d nmax mmax =
  (c <- spht (x_backend junk junkr junki) d (option_map snd nmax) (option_map snd mmax) ;; Ok (mkTC (fresh DComplex 1) KPy KPy c)).
Proof.
  intros Hr HR Hc Hs Hm Hb. unfold w_spht, spht. rewrite Hs.
  assert (Hs' : spht_sizes (p_nrows RN d) (p_ncols RN d) (option_map snd nmax) (option_map snd mmax) = (n, m)).
  { destruct nmax as [[k1 z1]|], mmax as [[k2 z2]|]; cbn in *; injection Hs; intros; subst; reflexivity. }
  rewrite Hs'. destruct (spht_guard _ _ n m) eqn:Eg; cbn [bind]; [|reflexivity].
  unfold p_nrows, p_ncols, spht_guard in Eg. rewrite Hr in Eg. replace ((2 * R - 2) / 2 + 1) with R in Eg by lia.
  destruct (Z.gtb_spec m n); [discriminate|]. destruct (Z.geb_spec n (R - 1)); [discriminate|].
  destruct (Z.geb_spec (2 * m) (mt_nc RN d)); [discriminate|]. destruct (Z.eqb_spec (mt_nc RN d mod 2) 1) as [|Hev]; [discriminate|].
  rewrite (fft_padded_ok d R) by auto. cbn [bind].
  rewrite sin_fc_tab by (try lia; apply fsupp_trunc). cbn [bind]. cbn [x_backend be_fc_to_sc]. rewrite np_zeros_ncoef by lia. cbn [bind].
  assert (2 <= mt_nc RN d) by lia.
  assert (2 * (2 * R) <= 2 * R * mt_nc RN d) by nia. assert (4 * mt_nc RN d <= 2 * R * mt_nc RN d) by (apply Z.mul_le_mono_nonneg_r; lia).
  unfold w_fc_to_sc. rewrite !inplace_ok by reflexivity. cbn [bind]. rewrite !swig_ok by (unfold INT_MIN, INT_MAX; lia). cbn [bind].
  change (mt_nr RN (tab (2 * R) ?c ?f)) with (2 * R). change (mt_nc RN (tab ?r (mt_nc RN d) ?f)) with (mt_nc RN d).
  rewrite !to_int_id by (unfold INT_MIN, INT_MAX; lia).
  destruct (x_fc_to_sc _ _ _ _ _ _ _ _ _); reflexivity.
Qed.

(** Python ints (or no) sizes: the two implementations return the same
    object, complex128 and acceptable to ispht; errors included. *)
Theorem C64_spht_accepted : forall junk junkr junki (d : mat RN) R nmax mmax n m,
  py_size nmax -> py_size mmax ->
  mt_nr RN d = 2 * R - 2 -> 2 <= R -> 1 <= mt_nc RN d ->
  spht_sizes (p_nrows RN d) (p_ncols RN d) (option_map snd nmax) (option_map snd mmax) = (n, m) -> 0 <= m -> 2 * R * mt_nc RN d <= 2 ^ 31 ->
  w_spht junk junkr junki d nmax mmax = p_spht d nmax mmax /\
  (forall t, p_spht d nmax mmax = Ok t -> c_accepts t /\ spht py_backend d (option_map snd nmax) (option_map snd mmax) = Ok (tc_c t)).
Proof.
  intros junk junkr junki d R nmax mmax n m P1 P2 Hr HR Hc Hs Hm Hb.
  assert (Hw : w_sizes (p_nrows RN d) (p_ncols RN d) nmax mmax = ((KPy, n), (KPy, m))).
  { destruct nmax as [[k1 z1]|], mmax as [[k2 z2]|]; cbn in *; subst; injection Hs; intros; subst; reflexivity. }
  split.
  - rewrite (w_spht_ok junk junkr junki d R nmax mmax n m) by auto.
    rewrite (C63_spht_no_overflow junk junkr junki d R _ _ n m) by auto. unfold p_spht. rewrite Hw. reflexivity.
  - intros t. unfold p_spht. rewrite Hw. destruct (spht _ _ _ _) as [c|]; cbn [bind]; [|discriminate].
    intros E. apply Ok_inj in E. subst t. split; [now apply accepts_of|reflexivity].
Qed.
Print Assumptions C64_spht_accepted.

(** A numpy integer as nmax or mmax (for instance the length of an array
    computed by numpy): TypeError with the C extension only. *)
Theorem C64_spht_numpy_int_refuted : forall junk junkr junki (d : mat RN) kn km n m,
  kn = KNp \/ km = KNp -> mt_nr RN d mod 2 = 0 -> 2 <= mt_nr RN d -> 0 <= m -> n <= 2147483647 ->
  sizes_fit (p_nrows RN d) (p_ncols RN d) n m ->
  (exists msg, w_spht junk junkr junki d (Some (kn, n)) (Some (km, m)) = Raise (TypeError msg)) /\
  (exists t, p_spht d (Some (kn, n)) (Some (km, m)) = Ok t).
Proof.
  intros junk junkr junki d kn km n m Hk Hev Hr Hm Hn HF. destruct (proj1 (C29_spht_guard d n m Hev Hr Hm) HF) as (c & E). split.
  - assert (Hd : mt_nr RN d = 2 * (mt_nr RN d / 2 + 1) - 2) by lia.
    unfold spht in E. cbn [spht_sizes] in E. unfold w_spht. cbn [w_sizes].
    destruct (spht_guard _ _ n m) eqn:Eg; cbn [bind] in E |- *; [|discriminate E].
    destruct (fft_padded d) as [f|] eqn:Ef; cbn [bind] in E |- *; [|discriminate E].
    destruct (sin_fc f) as [g|] eqn:Eh; cbn [bind] in E |- *; [|discriminate E].
    unfold spht_guard in Eg. destruct (Z.gtb_spec m n); [discriminate|].
    rewrite np_zeros_ncoef by lia. cbn [bind]. unfold w_fc_to_sc. rewrite !inplace_ok by reflexivity. cbn [bind].
    destruct Hk as [-> | ->].
    + cbn [swig_int bind]. eauto.
    + destruct kn; [|cbn [swig_int bind]; eauto]. rewrite swig_ok by (unfold INT_MIN, INT_MAX; lia). cbn [swig_int bind]. eauto.
  - unfold p_spht. cbn [w_sizes option_map snd]. rewrite E. cbn [bind]. eauto.
Qed.
Print Assumptions C64_spht_numpy_int_refuted.
Example C64_spht_nonvacuous : sizes_fit (p_nrows RN (mkMat RN 4 6 (repeat (RtoC 1) 24))) (p_ncols RN (mkMat RN 4 6 (repeat (RtoC 1) 24))) 1 1.
Proof. unfold sizes_fit, p_nrows, p_ncols. cbn. lia. Qed.

(** ** Assignment *)

(** c[n, m] = x for a Python number x: a value of the array's type is read
    back as it was written.  A complex number cannot be written into a real
    array: TypeError.  A float written into an int64 array loses its fraction:
    it is read back as written if and only if it is an integer. *)
Theorem C64_write_element : forall t n m x, valid RN (tc_c t) -> is_mode (sc_nmax RN (tc_c t)) (sc_mmax RN (tc_c t)) n m ->
  (num_dtype x = DComplex -> tc_dt t <> DComplex -> exists msg, t_set_elem t n m x = Raise (TypeError msg)) /\
  (num_dtype x <> DComplex \/ tc_dt t = DComplex ->
     exists t' y, t_set_elem t n m x = Ok t' /\ tc_lay t' = tc_lay t /\ valid RN (tc_c t') /\ reads RN (tc_c t') n m y /\
       (y = num_val x <-> fits (tc_dt t) (num_val x)) /\ fits (tc_dt t) y /\ (Rabs (fst y - fst (num_val x)) < 1)%R /\
       forall n' m' z, (n', m') <> (n, m) -> (reads RN (tc_c t') n' m' z <-> reads RN (tc_c t) n' m' z)).
Proof.
  intros t n m x V Hm. pose proof (proj1 (valid_wf RN _) V) as W. pose proof W as [Hg Hl].
  pose proof (pos_range _ _ _ _ Hg Hm) as Hp. split.
  - intros Hx Ht. unfold t_set_elem. rewrite sc_elem_index_ok by auto. cbn [bind]. rewrite Hx.
    rewrite py_set_ok by lia. cbn [bind]. destruct (tc_dt t); [eauto|eauto|congruence].
  - intros H. destruct (sc_set_elem_ok RN (tc_c t) n m (cast (tc_dt t) (num_val x)) W Hm) as (c' & E & W' & A1 & A2 & A3).
    exists (mkTC (tc_lay t) (tc_kn t) (tc_km t) c'), (cast (tc_dt t) (num_val x)).
    assert (Rd : forall c a b z, sc_wf RN c -> (reads RN c a b z <-> is_mode (sc_nmax RN c) (sc_mmax RN c) a b /\ z = cval RN c a b)) by (intros; apply reads_iff; now apply valid_wf).
    split; [|split; [reflexivity|split; [now apply valid_wf|split; [|split; [apply cast_id_iff|split; [apply cast_fits|split]]]]]].
    + unfold t_set_elem. rewrite sc_elem_index_ok by auto. cbn [bind]. rewrite E.
      destruct (num_dtype x) eqn:Ex, (tc_dt t) eqn:Et; try reflexivity; destruct H; congruence.
    + apply Rd; auto. cbn [tc_c]. rewrite A1, A2. split; auto. rewrite A3, !Z.eqb_refl by auto. reflexivity.
    + destruct (tc_dt t); cbn [cast fst RtoC]; try (rewrite Rminus_eq_0, Rabs_R0; lra).
      set (u := fst (num_val x)). unfold rtrunc. destruct (Rle_dec 0 u).
      * destruct (base_Int_part u). apply Rabs_def1; lra.
      * rewrite opp_IZR. destruct (base_Int_part (- u)). apply Rabs_def1; lra.
    + intros n' m' z Hne. cbn [tc_c]. rewrite !Rd by auto. rewrite A1, A2. split; intros [B ->]; (split; [exact B|]); rewrite A3 by auto;
        destruct (Z.eqb_spec n' n), (Z.eqb_spec m' m); cbn [andb]; congruence.
Qed.
Print Assumptions C64_write_element.

(** What the value becomes in an array of the given type: itself in
    complex128, its real part in float64, the integer part of its real part
    (towards zero) in int64. *)
Definition stored (d : dtype) (z y : C) : Prop :=
  match d with
  | DComplex => y = z
  | DFloat => y = RtoC (fst z)
  | DInt => exists k : Z, y = RtoC (IZR k) /\
      ((0 <= fst z)%R -> (IZR k <= fst z < IZR k + 1)%R) /\ ((fst z <= 0)%R -> (IZR k - 1 < fst z <= IZR k)%R)
  end.
Lemma cast_stored d z : stored d z (cast d z).
Proof.
  destruct d; cbn; auto. eexists. split; [reflexivity|]. unfold rtrunc. destruct (Rle_dec 0 (fst z)) as [r|r].
  - destruct (base_Int_part (fst z)). split; [lra|]. intros L. assert (fst z = 0%R) as E by lra. rewrite <- (Int_part_spec 0 (fst z)) by (cbn; lra). cbn. lra.
  - rewrite opp_IZR. destruct (base_Int_part (- fst z)). lra.
Qed.

(** c[:, m] = v and window store converted values without any error, also
    where c[n, m] = x would raise: assigning a complex column to a real array
    keeps the real parts only. *)
Theorem C64_write_column : forall t m v, valid RN (tc_c t) -> Z.abs m <= sc_mmax RN (tc_c t) -> zlen v = sc_nmax RN (tc_c t) - Z.abs m + 1 ->
  exists t', t_set_col t m v = (t', Ok tt) /\ tc_lay t' = tc_lay t /\ valid RN (tc_c t') /\
    (forall n, Z.abs m <= n <= sc_nmax RN (tc_c t) -> exists y, reads RN (tc_c t') n m y /\ stored (tc_dt t) (vget (RtoC 0) v (n - Z.abs m)) y) /\
    (forall n' m' z, m' <> m -> (reads RN (tc_c t') n' m' z <-> reads RN (tc_c t) n' m' z)).
Proof.
  intros t m v V Hm Hl. pose proof (proj1 (valid_wf RN _) V) as W. pose proof W as [Hg Hz]. unfold t_set_col.
  destruct (sc_set_col_ok RN (tc_c t) m (VArr (map (cast (tc_dt t)) v)) (map (cast (tc_dt t)) v) W Hm) as (c' & E & W' & A1 & A2 & A3); auto.
  { etransitivity; [apply zlen_map|exact Hl]. }
  assert (Rd : forall c a b z, sc_wf RN c -> (reads RN c a b z <-> is_mode (sc_nmax RN c) (sc_mmax RN c) a b /\ z = cval RN c a b)) by (intros; apply reads_iff; now apply valid_wf).
  rewrite E. eexists. split; [reflexivity|]. split; [reflexivity|]. split; [now apply valid_wf|]. cbn [tc_c]. split.
  - intros n Hn. exists (cast (tc_dt t) (vget (RtoC 0) v (n - Z.abs m))). split; [|apply cast_stored].
    apply Rd; auto. rewrite A1, A2. assert (M : is_mode (sc_nmax RN (tc_c t)) (sc_mmax RN (tc_c t)) n m) by (unfold is_mode; lia).
    split; auto. rewrite A3, Z.eqb_refl by auto. symmetry. apply (vget_map (cast (tc_dt t)) (RtoC 0)). lia.
  - intros n' m' z Hne. rewrite !Rd by auto. rewrite A1, A2. split; intros [B ->]; (split; [exact B|]); rewrite A3 by auto;
      destruct (Z.eqb_spec m' m); congruence.
Qed.
Print Assumptions C64_write_column.

Theorem C64_window : forall t w, valid RN (tc_c t) -> zlen w = sc_nmax RN (tc_c t) + 1 ->
  exists t', t_window t w = (t', Ok tt) /\ tc_lay t' = tc_lay t /\ valid RN (tc_c t') /\
    forall n m x, reads RN (tc_c t) n m x -> exists y, reads RN (tc_c t') n m y /\ stored (tc_dt t) (x * vget (RtoC 0) w n)%C y.
Proof.
  intros t w V Hl. pose proof (proj1 (valid_wf RN _) V) as W.
  destruct (t_window_ok t w W Hl) as (c' & E & W' & A1 & A2 & A3). eexists. split; [exact E|]. split; [reflexivity|]. split; [now apply valid_wf|].
  intros n m x Hr. apply (reads_iff RN) in Hr; auto. destruct Hr as [M ->]. eexists. split; [|apply cast_stored].
  apply (reads_iff RN); [now apply valid_wf|]. cbn [tc_c]. rewrite A1, A2. split; auto. symmetry. now apply A3.
Qed.
Print Assumptions C64_window.
(** A float64 array [1, 2, 3, 4] and the window [i, i]: all coefficients become 0. *)
Definition ex_float : tcoefs := mkTC (fresh DFloat 1) KPy KPy (mkSC RN [RtoC 1; RtoC 2; RtoC 3; RtoC 4] 1 1).
Example C64_window_nonvacuous : exists t', t_window ex_float [Ci; Ci] = (t', Ok tt) /\
  forall n m, is_mode 1 1 n m -> reads RN (tc_c t') n m (RtoC 0).
Proof.
  assert (V : valid RN (tc_c ex_float)) by (unfold valid; cbn; split; [lia|reflexivity]).
  destruct (C64_window ex_float [Ci; Ci] V eq_refl) as (t' & E & _ & _ & H). exists t'. split; auto. intros n m M.
  destruct (H n m _ (reads_cval RN _ n m V M)) as (y & R1 & S). cbn [tc_dt ex_float tc_lay fresh l_dt stored] in S.
  replace (RtoC 0) with y; auto. rewrite S. f_equal. 
  pose proof (wt_cval ex_float n m ltac:(repeat constructor) ltac:(now apply valid_wf) M) as F. cbn [fits tc_dt ex_float tc_lay fresh l_dt] in F.
  assert (K : vget (RtoC 0) [Ci; Ci] n = Ci). { unfold is_mode in M. assert (n = 0 \/ n = 1) as [-> | ->] by lia; reflexivity. }
  rewrite K. change (tc_c ex_float) with (mkSC RN [RtoC 1; RtoC 2; RtoC 3; RtoC 4] 1 1) in *. cbn [Cmult fst snd Ci] in *. rewrite F. ring.
Qed.

(** ** vispht *)

Lemma p_vispht_eq t vc nrows ncols : vc_wf RN (tv_c t) -> vc_wf RN vc ->
  vc_nmax RN vc = vc_nmax RN (tv_c t) -> vc_mmax RN vc = vc_mmax RN (tv_c t) ->
  (forall n m, is_mode (vc_nmax RN vc) (vc_mmax RN vc) n m ->
     (cval RN (vc_1 RN vc) n m * nv n = cast (l_dt (tv_lay1 t)) (cval RN (vc_1 RN (tv_c t)) n m * nv n))%C /\
     (cval RN (vc_2 RN vc) n m * nv n = cast (l_dt (tv_lay2 t)) (cval RN (vc_2 RN (tv_c t)) n m * nv n))%C) ->
  p_vispht t nrows ncols = vispht py_backend vc nrows ncols.
Proof.
  intros (W1 & W2 & A1 & A2 & A3 & A4 & _) (V1 & V2 & B1 & B2 & B3 & B4 & _) En Em H.
  unfold p_vispht, t_vispht, vispht. rewrite En, Em. pose proof W1 as [[Hg1 Hg2] _].
  destruct (_ <? _); [reflexivity|]. destruct (_ <? _); [reflexivity|]. destruct (_ =? 1); [reflexivity|].
  rewrite nvec_ok by lia. cbn [bind]. unfold t_copy. cbn [tv_1 tv_2 tc_c]. rewrite !sc_copy_ok' by auto. cbn [bind].
  set (t1 := mkTC _ _ _ (vc_1 RN (tv_c t))). set (t2 := mkTC _ _ _ (vc_2 RN (tv_c t))).
  destruct (t_window_ok t1 (vmake (vc_nmax RN (tv_c t) + 1) nv)) as (c1 & X1 & Y1 & Z1 & Z2 & U1); auto.
  { cbn [t1 tc_c]. rewrite A1. rewrite zlen_vmake'; lia. }
  destruct (t_window_ok t2 (vmake (vc_nmax RN (tv_c t) + 1) nv)) as (c2 & X2 & Y2 & Z3 & Z4 & U2); auto.
  { cbn [t2 tc_c]. rewrite A3. rewrite zlen_vmake'; lia. }
  destruct (windowed_ok (vc_1 RN vc) V1) as (d1 & P1 & Q1 & R1 & R2 & T1).
  destruct (windowed_ok (vc_2 RN vc) V2) as (d2 & P2 & Q2 & R3 & R4 & T2).
  rewrite B1, En in P1. rewrite B3, En in P2. rewrite P1, P2, X1, X2. unfold after. cbn [snd fst bind].
  cbn [t1 t2 tc_c tc_lay tc_kn tc_km tv_1 tv_2] in *.
  assert (c1 = d1) as <-.
  { apply (sc_ext RN); auto; try congruence. intros n m Hm. rewrite Z1, Z2, A1, A2 in Hm.
    rewrite T1 by (rewrite B1, B2, En, Em; exact Hm). rewrite U1 by (rewrite A1, A2; exact Hm).
    unfold is_mode in Hm. rewrite (vget_vmake (RtoC 0)) by lia. symmetry. rewrite <- En, <- Em in Hm. apply H. exact Hm. }
  assert (c2 = d2) as <-.
  { apply (sc_ext RN); auto; try congruence. intros n m Hm. rewrite Z3, Z4, A3, A4 in Hm.
    rewrite T2 by (rewrite B3, B4, En, Em; exact Hm). rewrite U2 by (rewrite A3, A4; exact Hm).
    unfold is_mode in Hm. rewrite (vget_vmake (RtoC 0)) by lia. symmetry. rewrite <- En, <- Em in Hm. apply H. exact Hm. }
  reflexivity.
Qed.

(** complex128 and float64 arrays: vispht without the C extension computes the
    synthesis of the stored values (see C24 and C59 for what that is). *)
Theorem C64_vispht_python : forall t nrows ncols, vvalid RN (tv_c t) ->
  l_dt (tv_lay1 t) <> DInt -> l_dt (tv_lay2 t) <> DInt ->
  Forall (fits (l_dt (tv_lay1 t))) (sc_vec RN (vc_1 RN (tv_c t))) -> Forall (fits (l_dt (tv_lay2 t))) (sc_vec RN (vc_2 RN (tv_c t))) ->
  p_vispht t nrows ncols = vispht py_backend (tv_c t) nrows ncols.
Proof.
  intros t nrows ncols V D1 D2 F1 F2. apply vvalid_wf in V. pose proof V as (W1 & W2 & A1 & A2 & A3 & A4 & _).
  assert (G : forall d z k, d <> DInt -> fits d z -> cast d (z * nv k)%C = (z * nv k)%C).
  { intros d z k Hd Hz. apply fits_cast. destruct d; [congruence| |exact I]. cbn [fits] in *. cbn [Cmult snd]. rewrite Hz, nv_real. ring. }
  apply p_vispht_eq; auto. intros n m Hm. split; symmetry; apply G; auto.
  - apply (wt_cval (tv_1 t)); auto. cbn [tv_1 tc_c]. now rewrite A1, A2.
  - apply (wt_cval (tv_2 t)); auto. cbn [tv_2 tc_c]. now rewrite A3, A4.
Qed.
Print Assumptions C64_vispht_python.

(** ** Integer arrays: vispht windows a copy in place, so every product with
    1/sqrt(n(n+1)) is cut to an integer.  The pattern returned (without the C
    extension) is that of other coefficients. *)
Definition cut (n : Z) (x y : C) : Prop :=
  let s := sqrt (IZR n * (IZR n + 1)) in
  exists k : Z, y = RtoC (IZR k * s) /\
    ((0 <= fst x)%R -> (IZR k <= fst x / s < IZR k + 1)%R) /\ ((fst x <= 0)%R -> (IZR k - 1 < fst x / s <= IZR k)%R).

Theorem C64_vispht_int_truncates : forall t vc nrows ncols, vvalid RN (tv_c t) ->
  l_dt (tv_lay1 t) = DInt -> l_dt (tv_lay2 t) = DInt ->
  Forall (fits DInt) (sc_vec RN (vc_1 RN (tv_c t))) -> Forall (fits DInt) (sc_vec RN (vc_2 RN (tv_c t))) ->
  vvalid RN vc -> vc_nmax RN vc = vc_nmax RN (tv_c t) -> vc_mmax RN vc = vc_mmax RN (tv_c t) ->
  (forall n m x1 x2 y1 y2, 1 <= n ->
     reads RN (vc_1 RN (tv_c t)) n m x1 -> reads RN (vc_2 RN (tv_c t)) n m x2 ->
     reads RN (vc_1 RN vc) n m y1 -> reads RN (vc_2 RN vc) n m y2 -> cut n x1 y1 /\ cut n x2 y2) ->
  p_vispht t nrows ncols = vispht py_backend vc nrows ncols.
Proof.
  intros t vc nrows ncols V D1 D2 F1 F2 V' En Em H.
  pose proof (proj1 (vvalid_wf RN _) V) as W. pose proof (proj1 (vvalid_wf RN _) V') as W'.
  destruct V as (V1 & V2 & _). destruct V' as (V1' & V2' & _).
  pose proof W as (W1 & W2 & A1 & A2 & A3 & A4 & _). pose proof W' as (W1' & W2' & B1 & B2 & B3 & B4 & _).
  assert (G : forall n x y, 1 <= n -> fits DInt x -> cut n x y -> (y * nv n)%C = cast DInt (x * nv n)%C).
  { intros n x y Hn (j & ->) (k & -> & K1 & K2). cbn [fst RtoC] in K1, K2.
    assert (Hs : (0 < IZR n * (IZR n + 1))%R). { apply (IZR_le 1) in Hn. apply Rmult_lt_0_compat; lra. }
    pose proof (sqrt_lt_R0 _ Hs) as Hp. set (s := sqrt _) in *.
    assert (Hnv : nv n = RtoC (1 / s)). { unfold nv. destruct (Z.eqb_spec n 0); [lia|reflexivity]. }
    rewrite Hnv. rewrite <- !RtoC_mult. cbn [cast fst RtoC]. f_equal.
    replace (IZR k * s * (1 / s))%R with (IZR k) by (field; lra). replace (IZR j * (1 / s))%R with (IZR j / s)%R by (field; lra).
    f_equal. unfold rtrunc. destruct (Rle_dec 0 (IZR j / s)) as [r|r].
    - destruct (Rle_or_lt 0 (IZR j)) as [L|L]; [apply Int_part_spec; auto|].
      exfalso. apply (Rmult_lt_compat_r (/ s)) in L; [|now apply Rinv_0_lt_compat]. unfold Rdiv in r. lra.
    - assert (L : (IZR j <= 0)%R). { destruct (Rle_or_lt (IZR j) 0); auto. exfalso. apply r. unfold Rdiv. apply Rlt_le, Rmult_lt_0_compat; auto. now apply Rinv_0_lt_compat. }
      specialize (K2 L). rewrite <- (Int_part_spec (- k) (- (IZR j / s))); [lia|]. rewrite opp_IZR. lra. }
  apply p_vispht_eq; auto. intros n m Hm. rewrite D1, D2.
  destruct (Z.eq_dec n 0) as [->|Hn0].
  { replace (nv 0) with (RtoC 0) by reflexivity. rewrite !Cmult_0_r. split; symmetry; apply fits_cast; exists 0; reflexivity. }
  assert (Hn : 1 <= n) by (unfold is_mode in Hm; lia).
  pose proof Hm as Hm'. rewrite En, Em in Hm'.
  destruct (H n m (cval RN (vc_1 RN (tv_c t)) n m) (cval RN (vc_2 RN (tv_c t)) n m) (cval RN (vc_1 RN vc) n m) (cval RN (vc_2 RN vc) n m)) as [C1 C2]; auto.
  - apply reads_cval; auto. now rewrite A1, A2.
  - apply reads_cval; auto. now rewrite A3, A4.
  - apply reads_cval; auto. now rewrite B1, B2.
  - apply reads_cval; auto. now rewrite B3, B4.
  - split; apply G; auto.
    + pose proof (wt_cval (tv_1 t) n m) as X. unfold well_typed, tc_dt in X. cbn [tv_1 tc_lay tc_c] in X. rewrite D1 in X. apply X; auto. now rewrite A1, A2.
    + pose proof (wt_cval (tv_2 t) n m) as X. unfold well_typed, tc_dt in X. cbn [tv_2 tc_lay tc_c] in X. rewrite D2 in X. apply X; auto. now rewrite A3, A4.
Qed.
Print Assumptions C64_vispht_int_truncates.

(** In particular coefficients 1, 0 and -1 held in integer arrays give the
    zero pattern, which is never the synthesis of the stored values unless
    they are all zero. *)
Theorem C64_vispht_int_refuted : forall t vc0 nrows ncols, vvalid RN (tv_c t) ->
  l_dt (tv_lay1 t) = DInt -> l_dt (tv_lay2 t) = DInt ->
  (forall x, In x (sc_vec RN (vc_1 RN (tv_c t))) \/ In x (sc_vec RN (vc_2 RN (tv_c t))) -> x = RtoC 0 \/ x = RtoC 1 \/ x = RtoC (-1)) ->
  vvalid RN vc0 -> vc_nmax RN vc0 = vc_nmax RN (tv_c t) -> vc_mmax RN vc0 = vc_mmax RN (tv_c t) ->
  (forall n m x, reads RN (vc_1 RN vc0) n m x \/ reads RN (vc_2 RN vc0) n m x -> x = RtoC 0) ->
  p_vispht t (Some nrows) (Some ncols) = vispht py_backend vc0 (Some nrows) (Some ncols) /\
  (vc_nmax RN (tv_c t) + 2 <= nrows -> 2 * vc_mmax RN (tv_c t) + 2 <= ncols -> ncols mod 2 = 0 -> tv_c t <> vc0 ->
   p_vispht t (Some nrows) (Some ncols) <> vispht py_backend (tv_c t) (Some nrows) (Some ncols)).
Proof.
  intros t vc0 nrows ncols V D1 D2 HS V0 En Em H0.
  assert (E : p_vispht t (Some nrows) (Some ncols) = vispht py_backend vc0 (Some nrows) (Some ncols)).
  { apply C64_vispht_int_truncates; auto.
    - apply Forall_forall. intros x Hx. destruct (HS x (or_introl Hx)) as [->|[->| ->]]; [exists 0|exists 1|exists (-1)]; reflexivity.
    - apply Forall_forall. intros x Hx. destruct (HS x (or_intror Hx)) as [->|[->| ->]]; [exists 0|exists 1|exists (-1)]; reflexivity.
    - destruct V as (V1 & V2 & _).
      assert (I : forall c n m x, valid RN c -> reads RN c n m x -> In x (sc_vec RN c)).
      { intros c n m x Vc Hr. apply (reads_iff RN) in Hr; auto. destruct Hr as [M ->]. apply valid_wf in Vc. destruct Vc as [Hg Hl].
        pose proof (pos_range _ _ _ _ Hg M). unfold cval, vget. destruct (Z.ltb_spec (pos (sc_nmax RN c) n m) 0); [lia|]. apply nth_In. unfold zlen in Hl. lia. }
      assert (G : forall n x, 1 <= n -> x = RtoC 0 \/ x = RtoC 1 \/ x = RtoC (-1) -> cut n x (RtoC 0)).
      { intros n x Hn Hx. exists 0. split; [now rewrite Rmult_0_l|].
        assert (H2 : (1 < IZR n * (IZR n + 1))%R). { apply (IZR_le 1) in Hn. assert (1 * 1 <= IZR n * IZR n)%R by (apply Rmult_le_compat; lra). lra. }
        assert (Hs : (1 < sqrt (IZR n * (IZR n + 1)))%R). { rewrite <- sqrt_1 at 1. apply sqrt_lt_1; lra. }
        set (s := sqrt _) in *. assert (Hi : (0 < / s < 1)%R). { split; [apply Rinv_0_lt_compat; lra|]. rewrite <- Rinv_1. apply Rinv_lt_contravar; lra. }
        unfold Rdiv. destruct Hx as [->|[->| ->]]; cbn [fst RtoC]; split; intros; lra. }
      intros n m x1 x2 y1 y2 Hn R1 R2 R3 R4. rewrite (H0 n m y1), (H0 n m y2) by auto. split; apply G; auto.
      + apply HS. left. eapply I; eauto.
      + apply HS. right. eapply I; eauto. }
  split; [exact E|]. intros Hr Hc He Hne E2. rewrite E in E2.
  destruct (C26_round_trip_identity (tv_c t) nrows ncols V) as (p & P1 & P2); auto; try lia.
  destruct (C26_round_trip_identity vc0 nrows ncols V0) as (p0 & P3 & P4); auto; try lia.
  rewrite P1, P3 in E2. apply Ok_inj in E2. subst p0. rewrite En, Em, P2 in P4. apply Ok_inj in P4. auto.
Qed.
Print Assumptions C64_vispht_int_refuted.
Definition exv_int : tvcoefs := mkTV (fresh DInt 1) (fresh DInt 1) KPy KPy
  (mkVC RN (mkSC RN [RtoC 0; RtoC 1; RtoC (-1); RtoC 1] 1 1) (mkSC RN [RtoC 0; RtoC 0; RtoC 1; RtoC 0] 1 1) 1 1).
Definition exv_zero : vcoefs RN :=
  mkVC RN (mkSC RN [RtoC 0; RtoC 0; RtoC 0; RtoC 0] 1 1) (mkSC RN [RtoC 0; RtoC 0; RtoC 0; RtoC 0] 1 1) 1 1.
Example C64_vispht_int_nonvacuous :
  p_vispht exv_int (Some 4) (Some 6) = vispht py_backend exv_zero (Some 4) (Some 6) /\
  p_vispht exv_int (Some 4) (Some 6) <> vispht py_backend (tv_c exv_int) (Some 4) (Some 6).
Proof.
  assert (Va : vvalid RN (tv_c exv_int)) by (unfold vvalid, valid, reads; cbn; repeat split; try reflexivity; lia).
  assert (Vb : vvalid RN exv_zero) by (unfold vvalid, valid, reads; cbn; repeat split; try reflexivity; lia).
  destruct (C64_vispht_int_refuted exv_int exv_zero 4 6) as [H1 H2]; auto.
  - cbn. intros x Hx. repeat (destruct Hx as [Hx|Hx]; [|]); try contradiction; auto; repeat (destruct Hx as [Hx|Hx]; auto); contradiction.
  - assert (Z0 : forall n m x, reads RN (mkSC RN [RtoC 0; RtoC 0; RtoC 0; RtoC 0] 1 1) n m x -> x = RtoC 0).
    { intros n m x Hr. destruct Vb as (Vb & _). apply (reads_iff RN) in Hr; auto. destruct Hr as [M ->]. apply valid_wf in Vb. destruct Vb as [Hg Hl].
      pose proof (pos_range _ _ _ _ Hg M). cbn [vc_1 exv_zero sc_nmax sc_mmax sc_vec] in *. unfold cval. cbn [sc_vec sc_nmax].
      assert (P : 0 <= pos 1 n m < 4) by (unfold ncoef in H; lia). clear - P. assert (pos 1 n m = 0 \/ pos 1 n m = 1 \/ pos 1 n m = 2 \/ pos 1 n m = 3) as [-> |[-> |[-> | ->]]] by lia; reflexivity. }
    intros n m x [Hr|Hr]; eapply Z0; exact Hr.
  - split; auto. apply H2; cbn; try lia; auto. intros E. assert (X : nth 1 (sc_vec RN (vc_1 RN (tv_c exv_int))) (RtoC 0) = nth 1 (sc_vec RN (vc_1 RN exv_zero)) (RtoC 0)).
    { change (tv_c exv_int) with (mkVC RN (mkSC RN [RtoC 0; RtoC 1; RtoC (-1); RtoC 1] 1 1) (mkSC RN [RtoC 0; RtoC 0; RtoC 1; RtoC 0] 1 1) 1 1). now rewrite E. }
    cbn in X. injection X. lra.
Qed.

(** vispht with the C extension: it hands copies of the arrays over, so
    strided arrays are welcome, but the element type, byte order, dimension
    and the class of nmax and mmax matter as in ispht. *)
Definition cv_accepts (t : tvcoefs) : Prop :=
  (forall l, l = tv_lay1 t \/ l = tv_lay2 t -> l_dt l = DComplex /\ l_ndim l = 1 /\ l_native l = true) /\ tv_kn t = KPy /\ tv_km t = KPy.

Theorem C64_vispht_accepted : forall junkr junki t nrows ncols, vvalid RN (tv_c t) -> cv_accepts t ->
  (2 * rows_of (vc_nmax RN (tv_c t)) nrows - 2) * cols_of (vc_mmax RN (tv_c t)) ncols <= 2 ^ 31 ->
  w_vispht junkr junki t nrows ncols = vispht py_backend (tv_c t) nrows ncols.
Proof.
  intros junkr junki t nrows ncols V (HA & Kn & Km) Hb.
  rewrite <- (C63_vispht_no_overflow (fun _ => RtoC 0) junkr junki) by auto.
  destruct (HA _ (or_introl eq_refl)) as (D1 & N1 & O1). destruct (HA _ (or_intror eq_refl)) as (D2 & N2 & O2).
  apply vvalid_wf in V. pose proof V as (W1 & W2 & A1 & A2 & A3 & A4 & _). pose proof W1 as [[Hg1 Hg2] _].
  unfold w_vispht, t_vispht, vispht.
  change (match nrows with None => vc_nmax RN (tv_c t) + 2 | Some r => r end) with (rows_of (vc_nmax RN (tv_c t)) nrows).
  change (match ncols with None => 2 * vc_mmax RN (tv_c t) + 2 | Some r => r end) with (cols_of (vc_mmax RN (tv_c t)) ncols).
  set (r := rows_of _ _) in *. set (k := cols_of _ _) in *.
  destruct (Z.ltb_spec r (vc_nmax RN (tv_c t) + 2)); [reflexivity|]. destruct (Z.ltb_spec k (2 * vc_mmax RN (tv_c t) + 2)); [reflexivity|]. destruct (_ =? 1); [reflexivity|].
  rewrite nvec_ok by lia. cbn [bind]. unfold t_copy. cbn [tv_1 tv_2 tc_c]. rewrite !sc_copy_ok' by auto. cbn [bind].
  set (t1 := mkTC _ _ _ (vc_1 RN (tv_c t))). set (t2 := mkTC _ _ _ (vc_2 RN (tv_c t))).
  destruct (t_window_ok t1 (vmake (vc_nmax RN (tv_c t) + 1) nv)) as (c1 & X1 & Y1 & Z1 & Z2 & U1); auto.
  { cbn [t1 tc_c]. rewrite A1. rewrite zlen_vmake'; lia. }
  destruct (t_window_ok t2 (vmake (vc_nmax RN (tv_c t) + 1) nv)) as (c2 & X2 & Y2 & Z3 & Z4 & U2); auto.
  { cbn [t2 tc_c]. rewrite A3. rewrite zlen_vmake'; lia. }
  destruct (windowed_ok _ W1) as (d1 & P1 & Q1 & R1 & R2 & T1).
  destruct (windowed_ok _ W2) as (d2 & P2 & Q2 & R3 & R4 & T2).
  rewrite A1 in P1. rewrite A3 in P2. rewrite P1, P2, X1, X2. unfold after. cbn [snd fst bind].
  assert (E1 : tc_dt t1 = DComplex) by exact D1. assert (E2 : tc_dt t2 = DComplex) by exact D2.
  assert (L1 : tc_lay t1 = fresh DComplex 1). { unfold t1, fresh. cbn [tc_lay tc_dt tv_1]. unfold tc_dt. cbn [tc_lay tv_1]. rewrite D1, N1, O1. reflexivity. }
  assert (L2 : tc_lay t2 = fresh DComplex 1). { unfold t2, fresh. cbn [tc_lay tc_dt tv_2]. unfold tc_dt. cbn [tc_lay tv_2]. rewrite D2, N2, O2. reflexivity. }
  rewrite L1, L2. cbn [t1 t2 tc_c tc_kn tc_km tv_1 tv_2] in *.
  assert (c1 = d1) as <-.
  { apply (sc_ext RN); auto; try congruence. intros n m Hm. rewrite Z1, Z2, A1, A2 in Hm.
    rewrite T1 by (rewrite A1, A2; exact Hm). rewrite U1 by (rewrite A1, A2; exact Hm).
    unfold is_mode in Hm. rewrite (vget_vmake (RtoC 0)) by lia. rewrite E1. reflexivity. }
  assert (c2 = d2) as <-.
  { apply (sc_ext RN); auto; try congruence. intros n m Hm. rewrite Z3, Z4, A3, A4 in Hm.
    rewrite T2 by (rewrite A3, A4; exact Hm). rewrite U2 by (rewrite A3, A4; exact Hm).
    unfold is_mode in Hm. rewrite (vget_vmake (RtoC 0)) by lia. rewrite E2. reflexivity. }
  rewrite !(w_s2f_ok (fun _ => RtoC 0) junkr junki) by (auto; try (now apply accepts_of); cbn [tc_c]; lia). reflexivity.
Qed.
Print Assumptions C64_vispht_accepted.

Theorem C64_vispht_rejected : forall junkr junki t nrows ncols, vvalid RN (tv_c t) -> ~ cv_accepts t ->
  vc_nmax RN (tv_c t) <= 2147483647 -> (2 * nrows - 2) * ncols <= 2 ^ 31 ->
  vc_nmax RN (tv_c t) + 2 <= nrows -> 2 * vc_mmax RN (tv_c t) + 2 <= ncols -> ncols mod 2 = 0 ->
  (exists msg, w_vispht junkr junki t (Some nrows) (Some ncols) = Raise (TypeError msg)) /\
  (exists p, vispht py_backend (tv_c t) (Some nrows) (Some ncols) = Ok p).
Proof.
  intros junkr junki t r k V HA Hn Hb Hr Hk He. split; [|exact (proj1 (C30_vispht_guard (tv_c t) r k V) ltac:(auto))].
  apply vvalid_wf in V. pose proof V as (W1 & W2 & A1 & A2 & A3 & A4 & _). pose proof W1 as [[Hg1 Hg2] _].
  unfold w_vispht, t_vispht.
  destruct (Z.ltb_spec r (vc_nmax RN (tv_c t) + 2)); [lia|]. destruct (Z.ltb_spec k (2 * vc_mmax RN (tv_c t) + 2)); [lia|]. rewrite He. cbn [Z.eqb].
  rewrite nvec_ok by lia. cbn [bind]. unfold t_copy. cbn [tv_1 tv_2 tc_c]. rewrite !sc_copy_ok' by auto. cbn [bind].
  set (t1 := mkTC _ _ _ (vc_1 RN (tv_c t))). set (t2 := mkTC _ _ _ (vc_2 RN (tv_c t))).
  destruct (t_window_ok t1 (vmake (vc_nmax RN (tv_c t) + 1) nv)) as (c1 & X1 & Y1 & Z1 & Z2 & U1); auto.
  { cbn [t1 tc_c]. rewrite A1. rewrite zlen_vmake'; lia. }
  destruct (t_window_ok t2 (vmake (vc_nmax RN (tv_c t) + 1) nv)) as (c2 & X2 & Y2 & Z3 & Z4 & U2); auto.
  { cbn [t2 tc_c]. rewrite A3. rewrite zlen_vmake'; lia. }
  rewrite X1, X2. unfold after. cbn [snd fst bind].
  set (u1 := mkTC (tc_lay t1) (tc_kn t1) (tc_km t1) c1). set (u2 := mkTC (tc_lay t2) (tc_kn t2) (tc_km t2) c2).
  cbn [t1 t2 tc_c] in *.
  assert (Dec : forall u, c_accepts u \/ ~ c_accepts u).
  { intros u. unfold c_accepts. destruct (l_dt (tc_lay u)); try (right; intros (Q & _); discriminate Q).
    destruct (Z.eq_dec (l_ndim (tc_lay u)) 1); [|right; tauto]. destruct (l_contig (tc_lay u)); [|right; intros (_ & _ & Q & _); discriminate Q].
    destruct (l_native (tc_lay u)); [|right; intros (_ & _ & _ & Q & _); discriminate Q].
    destruct (tc_kn u); [|right; intros (_ & _ & _ & _ & Q & _); discriminate Q]. destruct (tc_km u); [|right; intros (_ & _ & _ & _ & _ & Q); discriminate Q]. left. auto 8. }
  destruct (Dec u1) as [D1|D1].
  - assert (D2 : ~ c_accepts u2).
    { intros D2. apply HA. unfold c_accepts in D1, D2. cbn [u1 u2 t1 t2 tc_lay tc_kn tc_km l_dt l_ndim l_contig l_native tv_1 tv_2] in D1, D2.
      unfold tc_dt in D1, D2. cbn [tc_lay tv_1 tv_2] in D1, D2. destruct D1 as (B1 & B2 & _ & B4 & B5 & B6), D2 as (C1 & C2 & _ & C4 & _ & _).
      split; [|auto]. intros l [-> | ->]; auto. }
    rewrite (w_s2f_ok (fun _ => RtoC 0) junkr junki u1) by (auto; cbn [u1 tc_c]; lia).
    rewrite be_x_sc by (auto; cbn [u1 tc_c]; lia). rewrite be_c_sc by (auto; cbn [u1 tc_c]; lia).
    rewrite py_sc_to_fc_ok by (auto; cbn [u1 tc_c]; lia). cbn [bind].
    destruct (w_s2f_type_error junkr junki u2 (2 * r - 2) k) as (msg & ->); auto; try (cbn [u2 tc_c]; unfold INT_MAX; lia). cbn [bind]. eauto.
  - destruct (w_s2f_type_error junkr junki u1 (2 * r - 2) k) as (msg & ->); auto; try (cbn [u1 tc_c]; unfold INT_MAX; lia). cbn [bind]. eauto.
Qed.
Print Assumptions C64_vispht_rejected.
Example C64_vispht_c_nonvacuous : ~ cv_accepts exv_int /\ cv_accepts (mkTV (mkLay DComplex 1 false true) (fresh DComplex 1) KPy KPy exv).
Proof.
  split.
  - intros (H & _). destruct (H _ (or_introl eq_refl)) as (D & _). discriminate D.
  - split; [|split; reflexivity]. intros l [-> | ->]; cbn; auto.
Qed.
