(** * P_Lin: property C27, linearity of the transforms (Python backend). *)
From Coq Require Import ZArith List String Bool Lia Reals Lra.
From Coquelicot Require Import Coquelicot.
From Verif Require Import Py PyFacts Num Exact MCoefs SpecCoefs Obs CoefsFacts CoefsFacts2 CoefsFacts3
  MPatt SpecPatt PattFacts Sums Harm SpecHarm MPysphi MOps Dft PysphiFacts TransFacts MTrans TransFacts2 TransFacts3
  TransFacts4 HarmFacts VHarm P_Coefs P_Patt P_Trans P_Trans2.
Import ListNotations.
Open Scope string_scope.
Open Scope list_scope.
Open Scope Z_scope.

Lemma sc_comb_ok c c' x y : sc_wf RN c -> sc_wf RN c' -> sc_nmax RN c = sc_nmax RN c' -> sc_mmax RN c = sc_mmax RN c' ->
  exists cx cy s, sc_op_left RN OpMul c (OpndNum RN x) = Ok cx /\ sc_op_left RN OpMul c' (OpndNum RN y) = Ok cy /\
    sc_op_left RN OpAdd cx (OpndSC RN cy) = Ok s /\ sc_wf RN s /\ sc_nmax RN s = sc_nmax RN c /\ sc_mmax RN s = sc_mmax RN c /\
    forall n m, is_mode (sc_nmax RN c) (sc_mmax RN c) n m -> cval RN s n m = (cval RN c n m * x + cval RN c' n m * y)%C.
Proof.
  intros W W' E1 E2.
  destruct (sc_op_left_num RN OpMul c x W) as (cx & Ex & Wx & X1 & X2 & Vx); [discriminate|].
  destruct (sc_op_left_num RN OpMul c' y W') as (cy & Ey & Wy & Y1 & Y2 & Vy); [discriminate|].
  destruct (sc_op_left_SC RN OpAdd cx cy Wx Wy) as (s & Es & Ws & S1 & S2 & Vs); try congruence.
  exists cx, cy, s. do 4 (split; auto). split; [congruence|]. split; [congruence|].
  intros n m Hm. etransitivity; [apply Vs; now rewrite X1, X2|]. rewrite Vx by auto. rewrite Vy by (now rewrite <- E1, <- E2). reflexivity.
Qed.

Definition mlin (x y : C) (d d' : mat RN) : mat RN :=
  mmake RN (mt_nr RN d) (mt_nc RN d) (fun i j => (cget d i j * x + cget d' i j * y)%C).

Lemma mzip_lin x y d d' : 0 <= mt_nr RN d -> 0 <= mt_nc RN d -> mt_nr RN d' = mt_nr RN d -> mt_nc RN d' = mt_nc RN d ->
  mzip RN (binop_fun RN OpAdd) (mmap1 RN (fun a => binop_fun RN OpMul a x) d) (mmap1 RN (fun a => binop_fun RN OpMul a y) d') = mlin x y d d'.
Proof.
  intros H1 H2 E1 E2. unfold mzip, mmap1, mlin. cbn [mt_nr mt_nc mmake].
  apply mmake_ext; auto. intros i j Hi Hj.
  etransitivity; [apply (f_equal2 (binop_fun RN OpAdd)); apply mget_mmake; lia|]. reflexivity.
Qed.
Lemma mlin_lin x y d d' : mt_nr RN d' = mt_nr RN d -> mt_nc RN d' = mt_nc RN d -> lin_mat x y d d' (mlin x y d d').
Proof.
  intros E1 E2. unfold lin_mat, mlin. cbn [mt_nr mt_nc mmake]. do 4 (split; auto). intros i j Hi Hj. now apply cget_mmake.
Qed.

Lemma sp_comb_ok x y d d' : 0 <= mt_nr RN d -> 0 <= mt_nc RN d -> mt_nr RN d' = mt_nr RN d -> mt_nc RN d' = mt_nc RN d ->
  exists dx dy, sp_op_left RN OpMul d (SPndNum RN x) = Ok (PHolds RN dx) /\ sp_op_left RN OpMul d' (SPndNum RN y) = Ok (PHolds RN dy) /\
    sp_op_left RN OpAdd dx (SPndP RN dy) = Ok (PHolds RN (mlin x y d d')).
Proof.
  intros H1 H2 E1 E2. do 2 eexists. split; [reflexivity|]. split; [reflexivity|].
  cbn [sp_op_left]. unfold same_shape. cbn [mt_nr mt_nc mmake mmap1]. rewrite E1, E2, !Z.eqb_refl. cbn [andb].
  do 2 f_equal. now apply mzip_lin.
Qed.

(** spht(d x + d' y) = spht(d) x + spht(d') y, all computed with the library's operators. *)
Theorem C27_spht_linear : forall d d' nmax mmax x y, 
  mt_nr RN d' = mt_nr RN d -> mt_nc RN d' = mt_nc RN d -> mt_nr RN d mod 2 = 0 -> 2 <= mt_nr RN d -> 0 <= mmax ->
  sizes_fit (p_nrows RN d) (p_ncols RN d) nmax mmax ->
  exists dx dy s c c' cx cy cs,
    sp_op_left RN OpMul d (SPndNum RN x) = Ok (PHolds RN dx) /\ sp_op_left RN OpMul d' (SPndNum RN y) = Ok (PHolds RN dy) /\
    sp_op_left RN OpAdd dx (SPndP RN dy) = Ok (PHolds RN s) /\
    spht py_backend d (Some nmax) (Some mmax) = Ok c /\ spht py_backend d' (Some nmax) (Some mmax) = Ok c' /\
    spht py_backend s (Some nmax) (Some mmax) = Ok cs /\
    sc_op_left RN OpMul c (OpndNum RN x) = Ok cx /\ sc_op_left RN OpMul c' (OpndNum RN y) = Ok cy /\
    sc_op_left RN OpAdd cx (OpndSC RN cy) = Ok cs.
Proof.
  intros d d' nmax mmax x y E1 E2 He Hr Hm Hf. pose proof (half_even _ He) as E. set (h := mt_nr RN d / 2) in *.
  assert (HR : mt_nr RN d = 2 * (h + 1) - 2) by lia. rewrite (nrows_of d (h + 1) HR) in Hf.
  destruct Hf as (F1 & F2 & F3 & F4). unfold p_ncols in *.
  destruct (sp_comb_ok x y d d') as (dx & dy & Q1 & Q2 & Q3); try lia.
  destruct (spht_eq d (h + 1) nmax mmax) as (c & Ec & Wc & N1 & M1 & V1); try lia.
  destruct (spht_eq d' (h + 1) nmax mmax) as (c' & Ec' & Wc' & N2 & M2 & V2); try lia.
  destruct (spht_eq (mlin x y d d') (h + 1) nmax mmax) as (cs & Es & Wcs & N3 & M3 & V3); cbn [mt_nr mt_nc mmake mlin]; try lia.
  destruct (sc_comb_ok c c' x y Wc Wc') as (cx & cy & s & P1 & P2 & P3 & Ws & S1 & S2 & V); try congruence.
  exists dx, dy, (mlin x y d d'), c, c', cx, cy, cs. do 8 (split; auto). rewrite P3. f_equal.
  apply (sc_ext RN); auto; try congruence. intros n m Hmode. rewrite S1, S2, N1, M1 in Hmode.
  etransitivity; [apply V; now rewrite N1, M1|]. rewrite V1, V2 by auto.
  etransitivity; [|symmetry; apply V3; auto]. symmetry. apply spht_val_lin, mlin_lin; auto.
Qed.
Print Assumptions C27_spht_linear.

(** The same for ispht. *)
Theorem C27_ispht_linear : forall c c' nrows ncols x y, valid RN c -> valid RN c' ->
  sc_nmax RN c' = sc_nmax RN c -> sc_mmax RN c' = sc_mmax RN c ->
  sc_nmax RN c + 2 <= nrows -> 2 * sc_mmax RN c + 2 <= ncols -> ncols mod 2 = 0 ->
  exists cx cy cs p p' px py ps,
    sc_op_left RN OpMul c (OpndNum RN x) = Ok cx /\ sc_op_left RN OpMul c' (OpndNum RN y) = Ok cy /\
    sc_op_left RN OpAdd cx (OpndSC RN cy) = Ok cs /\
    ispht py_backend c (Some nrows) (Some ncols) = Ok p /\ ispht py_backend c' (Some nrows) (Some ncols) = Ok p' /\
    ispht py_backend cs (Some nrows) (Some ncols) = Ok ps /\
    sp_op_left RN OpMul p (SPndNum RN x) = Ok (PHolds RN px) /\ sp_op_left RN OpMul p' (SPndNum RN y) = Ok (PHolds RN py) /\
    sp_op_left RN OpAdd px (SPndP RN py) = Ok (PHolds RN ps).
Proof.
  intros c c' nrows ncols x y Hv Hv' E1 E2 Hr Hc He. apply valid_wf in Hv, Hv'. pose proof Hv as [[Hg1 Hg2] _].
  pose proof (half_even _ He) as Eb. set (B := ncols / 2) in *. rewrite Eb in *.
  destruct (sc_comb_ok c c' x y Hv Hv') as (cx & cy & s & P1 & P2 & P3 & Ws & S1 & S2 & V); try congruence.
  set (P := fun c => mmake RN (2 * nrows - 2) (2 * B) (synth (2 * nrows - 2) (2 * B) (Fsc c))).
  destruct (sp_comb_ok x y (P c) (P c')) as (dx & dy & Q1 & Q2 & Q3); cbn [P mt_nr mt_nc mmake]; try lia.
  exists cx, cy, s, (P c), (P c'), dx, dy, (P s). do 3 (split; auto).
  split; [apply ispht_eq; auto; lia|]. split; [apply ispht_eq; auto; lia|]. split; [apply ispht_eq; auto; lia|].
  split; auto. split; auto. rewrite Q3. do 2 f_equal. unfold mlin, P. cbn [mt_nr mt_nc mmake].
  apply mmake_ext; try lia. intros i j Hi Hj. rewrite !cget_mmake by auto. symmetry. apply synth_lin.
  intros m k. rewrite !(Fsc_Fm _ _ _ _ (fun n m _ => eq_refl)). rewrite S1, S2, E1, E2. now apply Fm_lin.
Qed.
Print Assumptions C27_ispht_linear.

Lemma vc_comb_ok v v' x y : vc_wf RN v -> vc_wf RN v' -> vc_nmax RN v = vc_nmax RN v' -> vc_mmax RN v = vc_mmax RN v' ->
  exists vx vy s, vc_op_left RN OpMul v (VOpndNum RN x) = Ok vx /\ vc_op_left RN OpMul v' (VOpndNum RN y) = Ok vy /\
    vc_op_left RN OpAdd vx (VOpndVC RN vy) = Ok s /\ vc_wf RN s /\ vc_nmax RN s = vc_nmax RN v /\ vc_mmax RN s = vc_mmax RN v /\
    forall n m, is_mode (vc_nmax RN v) (vc_mmax RN v) n m -> n <> 0 ->
      cval RN (vc_1 RN s) n m = (cval RN (vc_1 RN v) n m * x + cval RN (vc_1 RN v') n m * y)%C /\
      cval RN (vc_2 RN s) n m = (cval RN (vc_2 RN v) n m * x + cval RN (vc_2 RN v') n m * y)%C.
Proof.
  intros W W' E1 E2.
  destruct (vc_op_map RN v (fun a => binop_fun RN OpMul a x) W) as (vx & Ex & Wx & X1 & X2 & Vx).
  destruct (vc_op_map RN v' (fun a => binop_fun RN OpMul a y) W') as (vy & Ey & Wy & Y1 & Y2 & Vy).
  destruct (vc_op_VC RN OpAdd vx vy Wx Wy) as (s & Es & Ws & S1 & S2 & Vs); try congruence.
  exists vx, vy, s. do 4 (split; auto). split; [congruence|]. split; [congruence|].
  intros n m Hm Hn. destruct (Vs n m) as [A1 A2]; [now rewrite X1, X2|auto|].
  destruct (Vx n m Hm Hn) as [B1 B2]. destruct (Vy n m) as [C1 C2]; [now rewrite <- E1, <- E2|auto|].
  split; [rewrite A1, B1, C1|rewrite A2, B2, C2]; reflexivity.
Qed.

Definition tlin (x y : C) (p p' : tpatt RN) : tpatt RN :=
  mkTP RN (mlin x y (tp_t RN p) (tp_t RN p')) (mlin x y (tp_p RN p) (tp_p RN p')).
Lemma tp_comb_ok x y p p' : tp_shape p -> tp_shape p' ->
  0 <= mt_nr RN (tp_t RN p) -> 0 <= mt_nc RN (tp_t RN p) -> mt_nr RN (tp_t RN p') = mt_nr RN (tp_t RN p) -> mt_nc RN (tp_t RN p') = mt_nc RN (tp_t RN p) ->
  exists px py, tp_op_left RN OpMul p (TPndNum RN x) = Ok px /\ tp_op_left RN OpMul p' (TPndNum RN y) = Ok py /\
    tp_op_left RN OpAdd px (TPndP RN py) = Ok (tlin x y p p').
Proof.
  intros [S1 S2] [S1' S2'] H1 H2 E1 E2. cbn [tp_op_left]. unfold tp_new, same_shape. cbn [mt_nr mt_nc mmake mmap1].
  rewrite <- S1, <- S2, <- S1', <- S2', !Z.eqb_refl. cbn [andb negb]. do 2 eexists. split; [reflexivity|]. split; [reflexivity|].
  cbn [tp_t tp_p mt_nr mt_nc mmake mmap1 mzip]. rewrite E1, E2, S1, S2, !Z.eqb_refl. cbn [andb negb].
  unfold tlin. do 2 f_equal; apply mzip_lin; congruence.
Qed.

Theorem C27_vspht_linear : forall p p' nmax mmax x y, tp_shape p -> tp_shape p' ->
  mt_nr RN (tp_t RN p') = mt_nr RN (tp_t RN p) -> mt_nc RN (tp_t RN p') = mt_nc RN (tp_t RN p) ->
  mt_nr RN (tp_t RN p) mod 2 = 0 -> 2 <= mt_nr RN (tp_t RN p) -> 0 <= mmax ->
  sizes_fit (p_nrows RN (tp_t RN p)) (p_ncols RN (tp_t RN p)) nmax mmax ->
  exists px py s v v' vx vy vs,
    tp_op_left RN OpMul p (TPndNum RN x) = Ok px /\ tp_op_left RN OpMul p' (TPndNum RN y) = Ok py /\
    tp_op_left RN OpAdd px (TPndP RN py) = Ok s /\
    vspht py_backend p (Some nmax) (Some mmax) = Ok v /\ vspht py_backend p' (Some nmax) (Some mmax) = Ok v' /\
    vspht py_backend s (Some nmax) (Some mmax) = Ok vs /\
    vc_op_left RN OpMul v (VOpndNum RN x) = Ok vx /\ vc_op_left RN OpMul v' (VOpndNum RN y) = Ok vy /\
    vc_op_left RN OpAdd vx (VOpndVC RN vy) = Ok vs.
Proof.
  intros p p' nmax mmax x y Sp Sp' E1 E2 He Hr Hm Hf. pose proof (half_even _ He) as E. set (h := mt_nr RN (tp_t RN p) / 2) in *.
  assert (HR : mt_nr RN (tp_t RN p) = 2 * (h + 1) - 2) by lia. rewrite (nrows_of _ (h + 1) HR) in Hf.
  destruct Hf as (F1 & F2 & F3 & F4). unfold p_ncols in *. pose proof (half_even _ F4) as E4. set (B := mt_nc RN (tp_t RN p) / 2) in *.
  destruct (tp_comb_ok x y p p') as (px & py & Q1 & Q2 & Q3); auto; try lia. destruct Sp as [S1 S2], Sp' as [S1' S2'].
  destruct (vspht_body p (h + 1) B nmax mmax) as (v & Ec & Wc & N1 & M1 & V1); try lia.
  destruct (vspht_body p' (h + 1) B nmax mmax) as (v' & Ec' & Wc' & N2 & M2 & V2); try lia.
  destruct (vspht_body (tlin x y p p') (h + 1) B nmax mmax) as (vs & Es & Wcs & N3 & M3 & V3); cbn [mt_nr mt_nc mmake mlin tlin tp_t tp_p]; try lia.
  destruct (vc_comb_ok v v' x y Wc Wc') as (vx & vy & s & P1 & P2 & P3 & Ws & S3 & S4 & V); try congruence.
  exists px, py, (tlin x y p p'), v, v', vx, vy, vs. do 8 (split; auto). rewrite P3. f_equal.
  apply vc_ext; auto; try congruence. intros n m Hmode Hn. rewrite S3, S4, N1, M1 in Hmode.
  destruct (V n m) as [A1 A2]; [now rewrite N1, M1|lia|].
  destruct (V1 n m Hmode) as [B1 B2]. destruct (V2 n m Hmode) as [C1 C2]. destruct (V3 n m Hmode) as [D1 D2].
  rewrite A1, A2, B1, B2, C1, C2, D1, D2.
  assert (L1 : lin_mat x y (tp_t RN p) (tp_t RN p') (tp_t RN (tlin x y p p'))) by (apply mlin_lin; auto).
  assert (L2 : lin_mat x y (tp_p RN p) (tp_p RN p') (tp_p RN (tlin x y p p'))) by (apply mlin_lin; congruence).
  rewrite (An_lin (h + 1) (Lf1 (h + 1) B p m) (Lf1 (h + 1) B p' m) (Lf1 (h + 1) B (tlin x y p p') m) x y) by (intros k; now apply Lf_lin).
  rewrite (An_lin (h + 1) (Lf2 (h + 1) B p m) (Lf2 (h + 1) B p' m) (Lf2 (h + 1) B (tlin x y p p') m) x y) by (intros k; now apply Lf_lin).
  split; match goal with |- ?a = ?b => change (@eq C a b) end; ring.
Qed.
Print Assumptions C27_vspht_linear.

Theorem C27_vispht_linear : forall v v' nrows ncols x y, vvalid RN v -> vvalid RN v' ->
  vc_nmax RN v' = vc_nmax RN v -> vc_mmax RN v' = vc_mmax RN v ->
  vc_nmax RN v + 2 <= nrows -> 2 * vc_mmax RN v + 2 <= ncols -> ncols mod 2 = 0 ->
  exists vx vy vs p p' px py ps,
    vc_op_left RN OpMul v (VOpndNum RN x) = Ok vx /\ vc_op_left RN OpMul v' (VOpndNum RN y) = Ok vy /\
    vc_op_left RN OpAdd vx (VOpndVC RN vy) = Ok vs /\
    vispht py_backend v (Some nrows) (Some ncols) = Ok p /\ vispht py_backend v' (Some nrows) (Some ncols) = Ok p' /\
    vispht py_backend vs (Some nrows) (Some ncols) = Ok ps /\
    tp_op_left RN OpMul p (TPndNum RN x) = Ok px /\ tp_op_left RN OpMul p' (TPndNum RN y) = Ok py /\
    tp_op_left RN OpAdd px (TPndP RN py) = Ok ps.
Proof.
  intros v v' nrows ncols x y Hv Hv' E1 E2 Hr Hc He. apply vvalid_wf in Hv, Hv'. 
  pose proof Hv as (W1 & W2 & A1 & A2 & A3 & A4 & Z1 & Z2). pose proof W1 as [[Hg1 Hg2] _]. rewrite A2 in Hg1, Hg2. rewrite A1 in Hg2.
  pose proof Hv' as (_ & _ & _ & _ & _ & _ & Z1' & Z2').
  pose proof (half_even _ He) as Eb. set (B := ncols / 2) in *. rewrite Eb in *.
  destruct (vc_comb_ok v v' x y Hv Hv') as (vx & vy & s & P1 & P2 & P3 & Ws & S1 & S2 & V); try congruence.
  set (P := fun v => mkTP RN (mmake RN (2 * nrows - 2) (2 * B) (synth (2 * nrows - 2) (2 * B) (Tv v)))
              (mmake RN (2 * nrows - 2) (2 * B) (synth (2 * nrows - 2) (2 * B) (Pv v)))).
  destruct (tp_comb_ok x y (P v) (P v')) as (dx & dy & Q1 & Q2 & Q3); unfold tp_shape; cbn [P mt_nr mt_nc mmake tp_t tp_p]; auto; try lia.
  exists vx, vy, s, (P v), (P v'), dx, dy, (P s). do 3 (split; auto).
  split; [apply vispht_ok; auto; lia|]. split; [apply vispht_ok; auto; lia|]. split; [apply vispht_ok; auto; lia|].
  split; auto. split; auto. rewrite Q3. do 2 f_equal. unfold tlin, mlin, P. cbn [mt_nr mt_nc mmake tp_t tp_p].
  assert (L1 : forall n m, is_mode (vc_nmax RN v) (vc_mmax RN v) n m -> w1_of s n m = (w1_of v n m * x + w1_of v' n m * y)%C).
  { intros n m Hm. unfold w1_of, nv. destruct (Z.eqb_spec n 0); [ring|]. destruct (V n m Hm n0) as [-> _]. ring. }
  assert (L2 : forall n m, is_mode (vc_nmax RN v) (vc_mmax RN v) n m -> w2_of s n m = (w2_of v n m * x + w2_of v' n m * y)%C).
  { intros n m Hm. unfold w2_of, nv. destruct (Z.eqb_spec n 0); [ring|]. destruct (V n m Hm n0) as [_ ->]. ring. }
  f_equal; apply mmake_ext; try lia; intros i j Hi Hj; rewrite !cget_mmake by auto; symmetry; apply synth_lin; intros m k;
    unfold Tv, Pv, Tm, Pm; rewrite S1, S2, E1, E2;
    rewrite !(Fm_lin _ _ _ _ _ x y L1), ?(Fm_lin _ _ _ _ _ x y L2), ?(Gm_lin _ _ _ _ _ x y L1), ?(Gm_lin _ _ _ _ _ x y L2) || 
    rewrite !(Fm_lin _ _ _ _ _ x y L2), ?(Gm_lin _ _ _ _ _ x y L1), ?(Gm_lin _ _ _ _ _ x y L2); ring.
Qed.
Print Assumptions C27_vispht_linear.

Example C27_nonvacuous : exists c c' cs x y, valid RN c /\ valid RN c' /\ c <> c' /\
  sc_op_left RN OpAdd x (OpndSC RN y) = Ok cs /\ sc_op_left RN OpMul c (OpndNum RN (RtoC 2)) = Ok x /\ 
  sc_op_left RN OpMul c' (OpndNum RN (RtoC 3)) = Ok y /\ exists p, ispht py_backend cs (Some 3) (Some 2) = Ok p.
Proof.
  assert (V : valid RN (mkSC RN [RtoC 1; RtoC 0] 1 0)) by (split; [cbn; lia|reflexivity]).
  destruct (C27_ispht_linear ex10 (mkSC RN [RtoC 1; RtoC 0] 1 0) 3 2 (RtoC 2) (RtoC 3) ex10_valid V) as (cx & cy & cs & p & p' & px & py & ps & H1 & H2 & H3 & H4 & H5 & H6 & _);
    cbn [sc_nmax sc_mmax ex10]; auto; try lia.
  exists ex10, (mkSC RN [RtoC 1; RtoC 0] 1 0), cs, cx, cy. split; [apply ex10_valid|]. split; [exact V|]. split.
  - intros Q. unfold ex10 in Q. injection Q as Q1 Q2. lra.
  - eauto 6.
Qed.
