(** * P_Verify: C57, what the routines of verify.py report. *)
From Coq Require Import ZArith List String Bool Lia Reals Lra Permutation.
From Coquelicot Require Import Coquelicot.
From Verif Require Import Py PyFacts Num Exact MCoefs SpecCoefs Obs CoefsFacts CoefsFacts2 CoefsFacts3 MPatt SpecPatt PattFacts Sums Harm
  MPysphi MOps Smooth Dft PysphiFacts TransFacts MTrans TransFacts2 TransFacts3 TransFacts4 SpecHarm HarmFacts
  P_Coefs P_Patt P_Trans P_Trans2 MCsphi CsphiFacts P_Csphi SpecInt Integ Integ2 P_Integral P_Both Symm P_Sym MVerify.
Import ListNotations.
Open Scope Z_scope.

(** ** The statements' vocabulary *)

(** The values of f at all modes. *)
Definition on_modes (nmax mmax : Z) (f : Z -> Z -> C) : list C := map (fun p => f (fst p) (snd p)) (all_modes nmax mmax).

(** a / b where numpy gives a number, None where it gives nan or inf. *)
Definition is_quotient (a b : R) (q : option R) : Prop :=
  (b = 0%R /\ q = None) \/ (b <> 0%R /\ q = Some (a / b)%R).

(** g are the figures of merit of the differences [diff] relative to the
    reference values [ref]: root of the sum of squares and largest absolute
    value, absolute and relative. *)
Definition figures_of (diff ref : list C) (g : figures) : Prop :=
  fg_l2 g = sqrt (sum_sq diff) /\ is_max (map Cmod diff) (fg_linf g) /\
  is_quotient (sqrt (sum_sq diff)) (sqrt (sum_sq ref)) (fg_rl2 g) /\
  exists mx, is_max (map Cmod ref) mx /\ is_quotient (fg_linf g) mx (fg_rlinf g).

(** ** Lemmas *)
Lemma l2_sqrt (v : list C) : l2 RN v = sqrt (sum_sq v).
Proof. destruct (l2_sq v) as [A <-]. symmetry. now apply sqrt_pow2. Qed.
Lemma np_ratio_spec a b : is_quotient a b (np_ratio a b).
Proof.
  unfold np_ratio, is_quotient. destruct (reqb RN b 0%R) eqn:E.
  - left. apply reqb_spec in E. auto.
  - right. split; [|reflexivity]. intros ->. assert (reqb RN 0%R 0%R = true) by now apply reqb_spec. congruence.
Qed.
Lemma sum_sq_pos l : (0 <= sum_sq l)%R.
Proof. rewrite <- (proj2 (l2_sq l)). apply pow2_ge_0. Qed.
Lemma sum_sq_zero l : sum_sq l = 0%R <-> forall x, In x l -> x = RtoC 0.
Proof.
  rewrite <- l2_zero, l2_sqrt. split; [intros ->; apply sqrt_0|]. intros E. apply sqrt_eq_0 in E; auto. apply sum_sq_pos.
Qed.
Lemma is_max_zero l r : is_max (map Cmod l) r -> (r = 0%R <-> forall x, In x l -> x = RtoC 0).
Proof.
  intros [H1 H2]. split.
  - intros -> x Hx. apply Cmod_eq_0. apply Rle_antisym; [apply H2; now apply in_map|apply Cmod_ge_0].
  - intros H. apply in_map_iff in H1. destruct H1 as (x & <- & Hx). rewrite (H x Hx). apply Cmod_0.
Qed.
Lemma is_max_perm l l' r : Permutation l l' -> is_max (map Cmod l') r -> is_max (map Cmod l) r.
Proof.
  intros Hp [H1 H2]. split.
  - eapply Permutation_in; [apply Permutation_map, Permutation_sym; exact Hp|exact H1].
  - intros x Hx. apply H2. eapply Permutation_in; [apply Permutation_map; exact Hp|exact Hx].
Qed.
(** Both figures vanish exactly when there is no difference. *)
Lemma figures_zero diff ref g : figures_of diff ref g ->
  (fg_l2 g = 0%R <-> forall x, In x diff -> x = RtoC 0) /\ (fg_linf g = 0%R <-> forall x, In x diff -> x = RtoC 0).
Proof.
  intros (A & B & _). split; [|now apply is_max_zero]. rewrite A, <- l2_sqrt. apply l2_zero.
Qed.
Lemma on_modes_In nmax mmax f x : In x (on_modes nmax mmax f) <-> exists n m, is_mode nmax mmax n m /\ x = f n m.
Proof.
  unfold on_modes. rewrite in_map_iff. split.
  - intros ((n, m) & <- & H). apply In_all_modes in H. now exists n, m.
  - intros (n & m & H & ->). exists (n, m). split; [reflexivity|]. now apply In_all_modes.
Qed.
Lemma Csub_zero (x y : C) : (x - y)%C = RtoC 0 -> x = y.
Proof. intros H. transitivity (x - y + y)%C; [ring|]. rewrite H. ring. Qed.
Lemma holds_self a : valid RN a -> holds a (cval RN a).
Proof. intros Hv n m Hm. apply reads_iff; auto. Qed.
Lemma vec_figs (a d : scoefs RN) f g : valid RN a -> valid RN d -> holds a f -> holds d g ->
  exists r s, LInf_coef_s RN d = Ok r /\ LInf_coef_s RN a = Ok s /\
    figures_of (on_modes (sc_nmax RN d) (sc_mmax RN d) g) (on_modes (sc_nmax RN a) (sc_mmax RN a) f)
      (mkFig (L2_coef_s RN d) r (np_ratio (L2_coef_s RN d) (L2_coef_s RN a)) (np_ratio r s)).
Proof.
  intros Ha Hd Ff Fg. destruct (proj1 C22_LInf d g Hd Fg) as (r & Er & Mr). destruct (proj1 C22_LInf a f Ha Ff) as (s & Es & Ms).
  exists r, s. split; [exact Er|]. split; [exact Es|].
  assert (Q : forall (c : scoefs RN) h, valid RN c -> holds c h -> L2_coef_s RN c = sqrt (sum_sq (on_modes (sc_nmax RN c) (sc_mmax RN c) h))).
  { intros c h Hc Hh. unfold L2_coef_s. rewrite l2_sqrt. f_equal. symmetry. apply sum_sq_perm. exact (mode_values_perm c h Hc Hh). }
  rewrite (Q a f), (Q d g) by auto. split; [reflexivity|]. split; [exact Mr|]. split; [apply np_ratio_spec|].
  exists s. split; [exact Ms|apply np_ratio_spec].
Qed.

(** ** verify_spht *)

(** The figures are those of the differences, mode by mode, between the
    stored coefficients f and the coefficients c that spht computes from the
    stored pattern, relative to f. *)
Theorem C57_verify_spht : forall be p a f nrows ncols, either_backend be nrows -> patt_ok p nrows ncols ->
  valid RN a -> holds a f -> accepted nrows ncols (sc_nmax RN a) (sc_mmax RN a) ->
  exists c g, spht_gives be p (sc_nmax RN a) (sc_mmax RN a) c /\ verify_spht be p a = Ok g /\
    figures_of (on_modes (sc_nmax RN a) (sc_mmax RN a) (fun n m => f n m - c n m)%C) (on_modes (sc_nmax RN a) (sc_mmax RN a) f) g.
Proof.
  intros be p a f nrows ncols Hb Hp Hv Hf Ha.
  destruct (gives_val be p nrows ncols _ _ Hb Hp Ha) as (sc & E & Vs & N1 & N2 & R).
  set (c := spht_val p nrows) in *.
  destruct (C08_binary_modewise RN OpSub a sc Hv Vs ltac:(congruence) ltac:(congruence)) as (d & Ed & Vd & M1 & M2 & Rd).
  assert (Hd : holds d (fun n m => f n m - c n m)%C).
  { intros n m Hm. rewrite M1, M2 in Hm. exact (Rd n m _ _ (Hf n m Hm) (R n m Hm)). }
  destruct (vec_figs a d f _ Hv Vd Hf Hd) as (r & s & Er & Es & F).
  eexists c, _. split; [now exists sc|]. unfold verify_spht. rewrite E. cbn [bind]. rewrite Ed. cbn [bind]. rewrite Er, Es. cbn [bind].
  split; [reflexivity|]. rewrite M1, M2 in F. exact F.
Qed.
Print Assumptions C57_verify_spht.

(** Either figure is zero exactly when spht returns the stored coefficients. *)
Theorem C57_verify_spht_zero : forall be p a nrows ncols g, either_backend be nrows -> patt_ok p nrows ncols ->
  valid RN a -> accepted nrows ncols (sc_nmax RN a) (sc_mmax RN a) -> verify_spht be p a = Ok g ->
  (fg_l2 g = 0%R <-> spht be p (Some (sc_nmax RN a)) (Some (sc_mmax RN a)) = Ok a) /\
  (fg_linf g = 0%R <-> spht be p (Some (sc_nmax RN a)) (Some (sc_mmax RN a)) = Ok a).
Proof.
  intros be p a nrows ncols g Hb Hp Hv Ha E.
  assert (Hf : holds a (cval RN a)) by (now apply holds_self).
  destruct (C57_verify_spht be p a _ nrows ncols Hb Hp Hv Hf Ha) as (c & g' & (sc & Es & Vs & N1 & N2 & R) & Eg & F).
  assert (g' = g) by congruence. subst g'. apply figures_zero in F as [F1 F2].
  assert (Q : (forall x, In x (on_modes (sc_nmax RN a) (sc_mmax RN a) (fun n m => cval RN a n m - c n m)%C) -> x = RtoC 0) <->
              spht be p (Some (sc_nmax RN a)) (Some (sc_mmax RN a)) = Ok a).
  { split.
    - intros H. rewrite Es. f_equal. apply (sc_ext RN); try (now apply valid_wf); auto. intros n m Hm. rewrite N1, N2 in Hm.
      specialize (R n m Hm). apply reads_iff in R; auto. destruct R as [_ <-].
      assert (Z : (cval RN a n m - c n m = RtoC 0)%C) by (apply H, on_modes_In; now exists n, m).
      symmetry. exact (Csub_zero _ _ Z).
    - intros H x Hx. apply on_modes_In in Hx. destruct Hx as (n & m & Hm & ->). assert (sc = a) by congruence. subst sc.
      specialize (R n m Hm). apply reads_iff in R; auto. destruct R as [_ ->]. apply Cplus_opp_r. }
  rewrite <- Q. auto.
Qed.
Print Assumptions C57_verify_spht_zero.

(** Files made from synthesised data verify perfectly: pattern = ispht(a). *)
Theorem C57_verify_spht_own_output : forall be be' p a nrows ncols, either_backend be nrows -> either_backend be' nrows ->
  valid RN a -> sc_nmax RN a + 2 <= nrows -> 2 * sc_mmax RN a + 2 <= ncols -> ncols mod 2 = 0 ->
  ispht be' a (Some nrows) (Some ncols) = Ok p ->
  exists g, verify_spht be p a = Ok g /\ fg_l2 g = 0%R /\ fg_linf g = 0%R.
Proof.
  intros be be' p a nrows ncols Hb Hb' Hv H1 H2 H3 E. pose proof (proj1 (valid_wf RN a) Hv) as [[Hg1 Hg2] _].
  rewrite (ispht_either be' a nrows ncols nrows) in E by auto.
  destruct (C28_ispht_symmetric a nrows ncols Hv H1 H2 H3) as (p' & E' & S1 & S2 & S3 & _). assert (p' = p) by congruence. subst p'.
  assert (Hp : patt_ok p nrows ncols) by (repeat (split; [auto; try lia|]); auto).
  assert (Ha : accepted nrows ncols (sc_nmax RN a) (sc_mmax RN a)) by (unfold accepted; lia).
  assert (Hf : holds a (cval RN a)) by (now apply holds_self).
  destruct (C57_verify_spht be p a _ nrows ncols Hb Hp Hv Hf Ha) as (c & g & _ & Eg & _). exists g. split; [exact Eg|].
  destruct (C57_verify_spht_zero be p a nrows ncols g Hb Hp Hv Ha Eg) as [Z1 Z2].
  assert (X : spht be p (Some (sc_nmax RN a)) (Some (sc_mmax RN a)) = Ok a).
  { destruct (C25_round_trip_identity a nrows ncols Hv H1 H2 H3) as (p'' & Q1 & Q2). assert (p'' = p) by congruence. subst p''.
    rewrite (spht_either be p nrows); auto; lia. }
  split; [now apply Z1|now apply Z2].
Qed.
Print Assumptions C57_verify_spht_own_output.

(** ** verify_ispht *)

(** The values of h on an nr x nc grid, row by row. *)
Definition on_grid (nr nc : Z) (h : Z -> Z -> C) : list C := flat_map (fun i => map (h i) (zrange 0 nc)) (zrange 0 nr).
Lemma on_grid_In nr nc h x : In x (on_grid nr nc h) <-> exists i j, 0 <= i < nr /\ 0 <= j < nc /\ x = h i j.
Proof.
  unfold on_grid. rewrite in_flat_map. split.
  - intros (i & Hi & Hx). apply in_map_iff in Hx. destruct Hx as (j & <- & Hj). rewrite In_zrange in Hi, Hj. exists i, j. repeat split; lia.
  - intros (i & j & Hi & Hj & ->). exists i. split; [apply In_zrange; lia|]. apply in_map. apply In_zrange; lia.
Qed.
Lemma on_grid_ext nr nc h h' : (forall i j, 0 <= i < nr -> 0 <= j < nc -> h i j = h' i j) -> on_grid nr nc h = on_grid nr nc h'.
Proof.
  intros H. unfold on_grid. rewrite !flat_map_concat_map. f_equal. apply map_ext_in. intros i Hi. apply map_ext_in. intros j Hj.
  rewrite In_zrange in Hi, Hj. apply H; lia.
Qed.
Lemma cells_mmake nr nc h : 0 <= nr -> 0 <= nc -> cells RN (mmake RN nr nc h) = on_grid nr nc h.
Proof. intros H1 H2. unfold cells. apply on_grid_ext. intros i j Hi Hj. exact (mget_mmake RN nr nc h i j Hi Hj). Qed.
Lemma dat_nonempty (d : mat RN) : mat_wf RN d -> 1 <= mt_nr RN d -> 1 <= mt_nc RN d -> mt_dat RN d <> [].
Proof. intros (A & B & L) H1 H2 E. rewrite E in L. change (zlen (@nil (cplx RN))) with 0 in L. nia. Qed.
Lemma mat_figs (p : mat RN) nr nc h : mat_wf RN p -> mt_nr RN p = nr -> mt_nc RN p = nc -> 1 <= nr -> 1 <= nc ->
  exists r s, LInf_patt_s RN (mmake RN nr nc h) = Ok r /\ LInf_patt_s RN p = Ok s /\
    is_max (map Cmod (on_grid nr nc h)) r /\ is_max (map Cmod (on_grid nr nc (mget RN p))) s /\
    L2_patt_s RN (mmake RN nr nc h) = sqrt (sum_sq (on_grid nr nc h)) /\
    L2_patt_s RN p = sqrt (sum_sq (on_grid nr nc (mget RN p))).
Proof.
  intros W E1 E2 H1 H2. assert (Wd : mat_wf RN (mmake RN nr nc h)) by (apply mmake_wf; lia).
  destruct (proj1 (proj2 C22_LInf) (mmake RN nr nc h) Wd) as (r & Er & Mr); [apply dat_nonempty; cbn; auto|].
  destruct (proj1 (proj2 C22_LInf) p W) as (s & Es & Ms); [apply dat_nonempty; auto; lia|].
  exists r, s. split; [exact Er|]. split; [exact Es|].
  assert (C1 : cells RN (mmake RN nr nc h) = on_grid nr nc h) by (apply cells_mmake; lia).
  assert (C2 : cells RN p = on_grid nr nc (mget RN p)) by (unfold cells; rewrite E1, E2; reflexivity).
  rewrite C1 in Mr. rewrite C2 in Ms. split; [exact Mr|]. split; [exact Ms|].
  unfold L2_patt_s. rewrite !l2_sqrt, <- !cells_dat by auto. rewrite C1, C2. split; reflexivity.
Qed.

(** The figures compare, cell by cell of the doubled sphere, the stored
    pattern p with the pattern q that ispht computes from the stored
    coefficients, which is their harmonic series. *)
Theorem C57_verify_ispht : forall be p a f nrows ncols, either_backend be nrows -> patt_ok p nrows ncols -> mat_wf RN p ->
  valid RN a -> holds a f -> sc_nmax RN a + 2 <= nrows -> 2 * sc_mmax RN a + 2 <= ncols ->
  exists q g, ispht be a (Some nrows) (Some ncols) = Ok q /\ patt_ok q nrows ncols /\
    (forall i j, 0 <= i < nrows -> 0 <= j < ncols ->
       arr q i j = harm_series (sc_nmax RN a) (sc_mmax RN a) f (PI * IZR i / IZR (nrows - 1)) (2 * PI * IZR j / IZR ncols)) /\
    verify_ispht be p a = Ok g /\
    figures_of (on_grid (2 * nrows - 2) ncols (fun i j => mget RN p i j - mget RN q i j)%C) (on_grid (2 * nrows - 2) ncols (mget RN p)) g.
Proof.
  intros be p a f nrows ncols Hb Hp Wp Hv Hf H1 H2. pose proof Hp as (P1 & P2 & P3 & P4 & P5 & P6).
  destruct (C24_either_backend be a f nrows ncols Hb Hv Hf H1 H2 P5) as (q & E & Q1 & Q2 & _ & _ & Q).
  destruct (C28_ispht_symmetric a nrows ncols Hv H1 H2 P5) as (q' & E' & S1 & S2 & S3 & _).
  assert (q' = q) by (rewrite (ispht_either be a nrows ncols nrows) in E by auto; congruence). subst q'.
  destruct (mat_figs p (2 * nrows - 2) ncols (fun i j => csub RN (mget RN p i j) (mget RN q i j)) Wp P1 P2) as (r & s & Er & Es & Mr & Ms & Lr & Ls); try lia.
  eexists q, _. split; [exact E|]. split; [repeat (split; [auto; try lia|]); auto|]. split; [exact Q|].
  unfold verify_ispht. rewrite (nrows_of p nrows) by auto. unfold p_ncols. rewrite P2, E. cbn [bind].
  unfold sp_minus. cbn [sp_op_left]. unfold same_shape. rewrite P1, P2, S1, S2, !Z.eqb_refl. cbn [andb bind].
  unfold mzip. rewrite P1, P2. cbn [binop_fun]. rewrite Er, Es. cbn [bind]. split; [reflexivity|].
  split; [exact Lr|]. split; [exact Mr|]. split; [cbn [fg_rl2]; rewrite Lr, Ls; apply np_ratio_spec|]. exists s. split; [exact Ms|apply np_ratio_spec].
Qed.
Print Assumptions C57_verify_ispht.

(** Either figure is zero exactly when every visible value of the stored
    pattern is the value of the stored coefficients' series there. *)
Theorem C57_verify_ispht_zero : forall be p a f nrows ncols g, either_backend be nrows -> patt_ok p nrows ncols -> mat_wf RN p ->
  valid RN a -> holds a f -> sc_nmax RN a + 2 <= nrows -> 2 * sc_mmax RN a + 2 <= ncols -> verify_ispht be p a = Ok g ->
  let agree := forall i j, 0 <= i < nrows -> 0 <= j < ncols ->
       arr p i j = harm_series (sc_nmax RN a) (sc_mmax RN a) f (PI * IZR i / IZR (nrows - 1)) (2 * PI * IZR j / IZR ncols) in
  (fg_l2 g = 0%R <-> agree) /\ (fg_linf g = 0%R <-> agree).
Proof.
  intros be p a f nrows ncols g Hb Hp Wp Hv Hf H1 H2 E agree.
  destruct (C57_verify_ispht be p a f nrows ncols Hb Hp Wp Hv Hf H1 H2) as (q & g' & Eq & Hq & Q & Eg & F).
  assert (g' = g) by congruence. subst g'. apply figures_zero in F as [F1 F2].
  pose proof Hp as (P1 & P2 & P3 & P4 & P5 & P6). pose proof Hq as (Q1 & Q2 & _ & _ & _ & Q6).
  assert (X : (forall x, In x (on_grid (2 * nrows - 2) ncols (fun i j => mget RN p i j - mget RN q i j)%C) -> x = RtoC 0) <-> agree).
  { assert (G : forall d i j, mt_nr RN d = 2 * nrows - 2 -> mt_nc RN d = ncols -> 0 <= i < 2 * nrows - 2 -> 0 <= j < ncols -> pget d i j = mget RN d i j).
    { intros d i j D1 D2 Hi Hj. unfold pget, cget. now rewrite D1, D2, !Z.mod_small by lia. }
    split.
    - intros H i j Hi Hj. rewrite <- Q by auto. rewrite (arr_pget p nrows ncols), (arr_pget q nrows ncols) by auto.
      destruct (Z.eq_dec i (2 * nrows - 2)) as [->|Hne]; [lia|].
      assert (Z : (mget RN p i j - mget RN q i j = RtoC 0)%C) by (apply H, on_grid_In; exists i, j; repeat split; lia).
      rewrite (G p), (G q) by (auto; lia). exact (Csub_zero _ _ Z).
    - intros H x Hx. apply on_grid_In in Hx. destruct Hx as (i & j & Hi & Hj & ->).
      assert (Y : forall i j, pget p i j = pget q i j).
      { apply (patt_fun p nrows ncols (ncols / 2)); auto.
        - now apply half_even.
        - intros. now apply (pget_per q nrows ncols).
        - intros. pose proof (half_even ncols P5). apply pget_sym; auto; lia.
        - intros u w Hu Hw. rewrite H, <- Q by auto. now rewrite (arr_pget q nrows ncols). }
      rewrite <- (G p), <- (G q), Y by (auto; lia). apply Cplus_opp_r. }
  rewrite <- X. auto.
Qed.
Print Assumptions C57_verify_ispht_zero.

(** ** verify_vspht *)

(** A vector pattern object of the right sizes. *)
Definition vpatt_sizes (p : tpatt RN) (nrows ncols : Z) : Prop :=
  mt_nr RN (tp_t RN p) = 2 * nrows - 2 /\ mt_nr RN (tp_p RN p) = 2 * nrows - 2 /\
  mt_nc RN (tp_t RN p) = ncols /\ mt_nc RN (tp_p RN p) = ncols /\ 2 <= nrows /\ 2 <= ncols /\ ncols mod 2 = 0.
(** vc is a coefficient set whose (n,m) entry is (c1 n m, c2 n m). *)
Definition vread_all (vc : vcoefs RN) (nmax mmax : Z) (c1 c2 : Z -> Z -> C) : Prop :=
  vvalid RN vc /\ vc_nmax RN vc = nmax /\ vc_mmax RN vc = mmax /\
  forall n m, is_mode nmax mmax n m -> reads RN (vc_1 RN vc) n m (c1 n m) /\ reads RN (vc_2 RN vc) n m (c2 n m).
(** f without its monopole. *)
Definition no_monopole (f : Z -> Z -> C) (n m : Z) : C := if n =? 0 then RtoC 0 else f n m.

Lemma vread_self vc nmax mmax : vvalid RN vc -> vc_nmax RN vc = nmax -> vc_mmax RN vc = mmax ->
  vread_all vc nmax mmax (cval RN (vc_1 RN vc)) (cval RN (vc_2 RN vc)).
Proof.
  intros Hv E1 E2. split; [auto|]. split; [auto|]. split; [auto|]. pose proof Hv as (V1 & V2 & A1 & A2 & A3 & A4 & _).
  intros n m Hm. split; apply reads_iff; auto; split; auto; congruence.
Qed.
Lemma vread_cval vc nmax mmax c1 c2 : vread_all vc nmax mmax c1 c2 -> forall n m, is_mode nmax mmax n m ->
  c1 n m = cval RN (vc_1 RN vc) n m /\ c2 n m = cval RN (vc_2 RN vc) n m.
Proof.
  intros (Hv & E1 & E2 & H) n m Hm. pose proof Hv as (V1 & V2 & _). destruct (H n m Hm) as [R1 R2].
  apply reads_iff in R1; auto. apply reads_iff in R2; auto. tauto.
Qed.
Lemma on_modes_ext nmax mmax f g : (forall n m, is_mode nmax mmax n m -> f n m = g n m) -> on_modes nmax mmax f = on_modes nmax mmax g.
Proof. intros H. unfold on_modes. apply map_ext_in. intros [n m] Hin. apply In_all_modes in Hin. cbn. auto. Qed.
Lemma vec_vfigs vc nmax mmax c1 c2 : vread_all vc nmax mmax c1 c2 ->
  L2_coef_v RN vc = (sqrt 2 * sqrt (sum_sq (on_modes nmax mmax c1)))%R /\
  exists r s, is_max (map Cmod (on_modes nmax mmax c1)) r /\ is_max (map Cmod (on_modes nmax mmax c2)) s /\
    LInf_coef_v RN vc = Ok (sqrt (r * r + s * s)).
Proof.
  intros (Hv & E1 & E2 & H). pose proof Hv as (V1 & V2 & A1 & A2 & A3 & A4 & _). split.
  - rewrite C22_L2_vector_coefs_exact. f_equal. unfold L2_coef_s. rewrite l2_sqrt. f_equal. apply sum_sq_perm. apply Permutation_sym.
    rewrite <- E1, <- E2, <- A1, <- A2. apply (mode_values_perm (vc_1 RN vc) c1 V1). rewrite A1, A2, E1, E2. intros; now apply H.
  - destruct (proj2 (proj2 (proj2 C22_LInf)) vc c1 c2 Hv) as (r & s & E & M1 & M2); [rewrite E1, E2; exact H|].
    exists r, s. unfold mode_values in M1, M2. rewrite A1, A2, E1, E2 in M1. rewrite A3, A4, E1, E2 in M2. auto.
Qed.
Lemma sub_vread a b nmax mmax f1 f2 c1 c2 : vread_all a nmax mmax f1 f2 -> vread_all b nmax mmax c1 c2 ->
  exists d, vc_op_left RN OpSub a (VOpndVC RN b) = Ok d /\ vread_all d nmax mmax (fun n m => f1 n m - c1 n m)%C (fun n m => f2 n m - c2 n m)%C.
Proof.
  intros Ra Rb. pose proof (vread_cval _ _ _ _ _ Ra) as Qa. pose proof (vread_cval _ _ _ _ _ Rb) as Qb.
  destruct Ra as (Va & A1 & A2 & Ra). destruct Rb as (Vb & B1 & B2 & Rb). pose proof Va as Wa. pose proof Vb as Wb.
  apply vvalid_wf in Wa. apply vvalid_wf in Wb.
  destruct (vc_op_VC RN OpSub a b Wa Wb ltac:(congruence) ltac:(congruence)) as (d & E & W & D1 & D2 & H).
  exists d. split; [exact E|]. assert (Vd : vvalid RN d) by now apply vvalid_wf.
  pose proof (vread_self d nmax mmax Vd ltac:(congruence) ltac:(congruence)) as (_ & X1 & X2 & X).
  split; [exact Vd|]. split; [exact X1|]. split; [exact X2|]. intros n m Hm. destruct (X n m Hm) as [Y1 Y2].
  destruct (Qa n m Hm) as [F1 F2], (Qb n m Hm) as [G1 G2]. rewrite F1, F2, G1, G2.
  destruct Wa as (_ & _ & _ & _ & _ & _ & Z1 & Z2). destruct Wb as (_ & _ & _ & _ & _ & _ & Z3 & Z4). destruct W as (_ & _ & _ & _ & _ & _ & Z5 & Z6).
  destruct (Z.eq_dec n 0) as [->|Hn].
  - assert (m = 0) by (unfold is_mode in Hm; lia). subst m. rewrite Z1, Z2, Z3, Z4. rewrite Z5 in Y1. rewrite Z6 in Y2.
    change (c0 RN) with (RtoC 0) in *. replace (RtoC 0 - RtoC 0)%C with (RtoC 0) by ring. auto.
  - rewrite <- A1, <- A2 in Hm. destruct (H n m Hm Hn) as [H1 H2]. rewrite H1 in Y1. rewrite H2 in Y2. auto.
Qed.
Lemma vc_of_files a1 a2 f1 f2 nmax mmax : valid RN a1 -> valid RN a2 -> holds a1 f1 -> holds a2 f2 ->
  sc_nmax RN a1 = nmax -> sc_mmax RN a1 = mmax -> sc_nmax RN a2 = nmax -> sc_mmax RN a2 = mmax ->
  exists v, vc_new RN (sc_vec RN a1) (sc_vec RN a2) nmax mmax = Ok v /\ vread_all v nmax mmax (no_monopole f1) (no_monopole f2).
Proof.
  intros V1 V2 H1 H2 E1 E2 E3 E4. pose proof V1 as W1. pose proof V2 as W2. apply valid_wf in W1. apply valid_wf in W2.
  destruct W1 as [G1 L1], W2 as [G2 L2]. rewrite E1, E2 in G1, L1. rewrite E3, E4 in L2.
  destruct (vc_new_ok RN (sc_vec RN a1) (sc_vec RN a2) nmax mmax G1 L1 L2) as (v & E & W & N1 & N2 & C).
  exists v. split; [exact E|]. assert (Vv : vvalid RN v) by now apply vvalid_wf.
  pose proof (vread_self v nmax mmax Vv N1 N2) as (_ & _ & _ & X). split; [auto|]. split; [auto|]. split; [auto|].
  intros n m Hm. destruct (X n m Hm) as [Y1 Y2], (C n m Hm) as [C1 C2]. rewrite C1 in Y1. rewrite C2 in Y2. unfold no_monopole.
  destruct (n =? 0); [auto|].
  assert (Q1 : mkSC RN (sc_vec RN a1) nmax mmax = a1) by (destruct a1; cbn in *; congruence).
  assert (Q2 : mkSC RN (sc_vec RN a2) nmax mmax = a2) by (destruct a2; cbn in *; congruence).
  rewrite Q1 in Y1. rewrite Q2 in Y2.
  assert (F1 : f1 n m = cval RN a1 n m).
  { pose proof (H1 n m) as R. rewrite E1, E2 in R. specialize (R Hm). apply reads_iff in R; auto. tauto. }
  assert (F2 : f2 n m = cval RN a2 n m).
  { pose proof (H2 n m) as R. rewrite E3, E4 in R. specialize (R Hm). apply reads_iff in R; auto. tauto. }
  rewrite F1, F2. auto.
Qed.

(** The stored coefficients with their monopoles dropped are compared with
    what vspht computes.  LInf combines both components; L2 is sqrt 2 times
    the norm of the FIRST component's differences and does not depend on the
    second component at all. *)
Theorem C57_verify_vspht : forall be p a1 a2 f1 f2 nrows ncols nmax mmax, either_backend be nrows -> vpatt_sizes p nrows ncols ->
  valid RN a1 -> valid RN a2 -> holds a1 f1 -> holds a2 f2 ->
  sc_nmax RN a1 = nmax -> sc_mmax RN a1 = mmax -> sc_nmax RN a2 = nmax -> sc_mmax RN a2 = mmax ->
  accepted nrows ncols nmax mmax ->
  exists vc c1 c2 g, vspht be p (Some nmax) (Some mmax) = Ok vc /\ vread_all vc nmax mmax c1 c2 /\
    verify_vspht be p a1 a2 = Ok g /\
    let d1 := on_modes nmax mmax (fun n m => no_monopole f1 n m - c1 n m)%C in
    let d2 := on_modes nmax mmax (fun n m => no_monopole f2 n m - c2 n m)%C in
    fg_l2 g = (sqrt 2 * sqrt (sum_sq d1))%R /\
    (exists r s, is_max (map Cmod d1) r /\ is_max (map Cmod d2) s /\ fg_linf g = sqrt (r * r + s * s)) /\
    is_quotient (sqrt 2 * sqrt (sum_sq d1)) (sqrt 2 * sqrt (sum_sq (on_modes nmax mmax (no_monopole f1)))) (fg_rl2 g) /\
    exists r s, is_max (map Cmod (on_modes nmax mmax (no_monopole f1))) r /\ is_max (map Cmod (on_modes nmax mmax (no_monopole f2))) s /\
      is_quotient (fg_linf g) (sqrt (r * r + s * s)) (fg_rlinf g).
Proof.
  intros be p a1 a2 f1 f2 nrows ncols nmax mmax Hb (P1 & P2 & P3 & P4 & P5 & P6 & P7) V1 V2 H1 H2 E1 E2 E3 E4 (A1 & A2 & A3).
  pose proof (half_even ncols P7) as Eb.
  destruct (vspht_body p nrows (ncols / 2) nmax mmax) as (vc & E & W & N1 & N2 & _); try congruence; try lia.
  apply vvalid_wf in W.
  destruct (vc_of_files a1 a2 f1 f2 nmax mmax V1 V2 H1 H2 E1 E2 E3 E4) as (v & Ev & Rv).
  pose proof (vread_self vc nmax mmax W N1 N2) as Rc.
  destruct (sub_vread v vc nmax mmax _ _ _ _ Rv Rc) as (d & Ed & Rd).
  destruct (vec_vfigs d nmax mmax _ _ Rd) as (Ld & r & s & M1 & M2 & Ei). destruct (vec_vfigs v nmax mmax _ _ Rv) as (Lv & r' & s' & M1' & M2' & Ei').
  eexists vc, _, _, _. rewrite (vspht_either be p nrows) by (auto; lia). split; [exact E|]. split; [exact Rc|].
  unfold verify_vspht. rewrite E1, E2, Ev. cbn [bind]. rewrite (vspht_either be p nrows) by (auto; lia). rewrite E. cbn [bind]. rewrite Ed. cbn [bind].
  rewrite Ei, Ei'. cbn [bind]. split; [reflexivity|]. cbn [fg_l2 fg_linf fg_rl2 fg_rlinf]. split; [exact Ld|].
  split; [exists r, s; auto|]. split; [rewrite Ld, Lv; apply np_ratio_spec|]. exists r', s'. split; [auto|]. split; [auto|]. apply np_ratio_spec.
Qed.
Print Assumptions C57_verify_vspht.

(** LInf is zero exactly when vspht returns VectorCoefs(a1, a2). *)
Theorem C57_verify_vspht_linf_zero : forall be p a1 a2 nrows ncols nmax mmax g, either_backend be nrows -> vpatt_sizes p nrows ncols ->
  valid RN a1 -> valid RN a2 ->
  sc_nmax RN a1 = nmax -> sc_mmax RN a1 = mmax -> sc_nmax RN a2 = nmax -> sc_mmax RN a2 = mmax ->
  accepted nrows ncols nmax mmax -> verify_vspht be p a1 a2 = Ok g ->
  (fg_linf g = 0%R <-> vspht be p (Some nmax) (Some mmax) = vc_new RN (sc_vec RN a1) (sc_vec RN a2) nmax mmax).
Proof.
  intros be p a1 a2 nrows ncols nmax mmax g Hb Hp V1 V2 E1 E2 E3 E4 Ha Eg.
  pose proof (holds_self a1 V1) as H1. pose proof (holds_self a2 V2) as H2.
  destruct (C57_verify_vspht be p a1 a2 _ _ nrows ncols nmax mmax Hb Hp V1 V2 H1 H2 E1 E2 E3 E4 Ha) as (vc & c1 & c2 & g' & E & R & Eg' & F).
  assert (g' = g) by congruence. subst g'. cbv zeta in F. destruct F as (_ & (r & s & M1 & M2 & L) & _).
  destruct (vc_of_files a1 a2 _ _ nmax mmax V1 V2 H1 H2 E1 E2 E3 E4) as (v & Ev & Rv). rewrite E, Ev.
  assert (Z : fg_linf g = 0%R <-> r = 0%R /\ s = 0%R).
  { rewrite L. split.
    - intros Q. apply sqrt_eq_0 in Q; [|nra]. nra.
    - intros [-> ->]. rewrite Rmult_0_l, Rplus_0_l. apply sqrt_0. }
  rewrite Z, (is_max_zero _ _ M1), (is_max_zero _ _ M2). pose proof (vread_cval _ _ _ _ _ R) as Qc. pose proof (vread_cval _ _ _ _ _ Rv) as Qv. split.
  - intros [Z1 Z2]. f_equal. destruct R as (Vc & N1 & N2 & _), Rv as (Vv & N1' & N2' & _).
    apply vc_ext; try (now apply vvalid_wf); try congruence. intros n m Hm Hn. rewrite N1, N2 in Hm.
    destruct (Qc n m Hm) as [<- <-], (Qv n m Hm) as [<- <-].
    split; symmetry; apply Csub_zero; [apply Z1|apply Z2]; apply on_modes_In; exists n, m; auto.
  - intros Q. injection Q as ->. split; intros x Hx; apply on_modes_In in Hx; destruct Hx as (n & m & Hm & ->);
      destruct (Qc n m Hm) as [A1 A2], (Qv n m Hm) as [B1 B2]; rewrite ?A1, ?A2, ?B1, ?B2; apply Cplus_opp_r.
Qed.
Print Assumptions C57_verify_vspht_linf_zero.

(** The L2 figures cannot see an error in the second component (Finding). *)
Theorem C57_L2_blind_refuted : exists (p : tpatt RN) (a1 a2 : scoefs RN) g x y, valid RN a1 /\ valid RN a2 /\
  verify_vspht py_backend p a1 a2 = Ok g /\ fg_l2 g = 0%R /\ fg_rl2 g = Some 0%R /\
  (* the stored second component differs from the computed one *)
  reads RN a2 1 0 x /\ (exists vc, vspht py_backend p (Some 1) (Some 0) = Ok vc /\ reads RN (vc_2 RN vc) 1 0 y) /\ x <> y.
Proof.
  set (a := mkSC RN [(0,0);(1,0)]%R 1 0). set (z := mkSC RN [(0,0);(0,0)]%R 1 0). set (v := mkVC RN a z 1 0).
  assert (Va : valid RN a) by (split; [cbn; lia|reflexivity]).
  assert (Vv : vvalid RN v) by (repeat split; cbn; try lia; reflexivity).
  destruct (C26_round_trip_identity v 3 2 Vv) as (p & Ep & Es); cbn; try lia.
  destruct (C28_vispht_antisymmetric v 3 2 Vv) as (p' & Ep' & S1 & S2 & S3 & S4 & _); cbn; try lia.
  assert (p' = p) by congruence. subst p'.
  assert (Hp : vpatt_sizes p 3 2) by (unfold vpatt_sizes; repeat split; auto; lia).
  assert (Ha : accepted 3 2 1 0) by (unfold accepted; lia).
  pose proof (holds_self a Va) as Ha1.
  destruct (C57_verify_vspht py_backend p a a _ _ 3 2 1 0 ltac:(now left) Hp Va Va Ha1 Ha1 eq_refl eq_refl eq_refl eq_refl Ha)
    as (vc & c1 & c2 & g & E & R & Eg & F).
  cbn [vc_nmax vc_mmax v] in Es. assert (vc = v) by congruence. subst vc.
  pose proof (vread_cval _ _ _ _ _ R) as Q. cbv zeta in F. destruct F as (F1 & _ & F3 & _).
  assert (D : on_modes 1 0 (fun n m => no_monopole (cval RN a) n m - c1 n m)%C = on_modes 1 0 (fun _ _ => RtoC 0)).
  { apply on_modes_ext. intros n m Hm. destruct (Q n m Hm) as [-> _]. unfold is_mode in Hm. unfold no_monopole.
    cbn [vc_1 v]. assert (m = 0) by lia. subst m. destruct (Z.eqb_spec n 0) as [->|]; [cbn; apply injective_projections; cbn; ring|]. apply Cplus_opp_r. }
  rewrite D in F1, F3. assert (SZ : sum_sq (on_modes 1 0 (fun _ _ => RtoC 0)) = 0%R).
  { apply sum_sq_zero. intros x Hx. apply on_modes_In in Hx. now destruct Hx as (_ & _ & _ & ->). }
  rewrite SZ, sqrt_0, Rmult_0_r in F1, F3.
  exists p, a, a, g, (RtoC 1), (RtoC 0). do 2 (split; [auto|]). split; [exact Eg|]. split; [exact F1|]. split.
  - destruct F3 as [[F3 _]|[_ F3]]; [|rewrite F3; f_equal; unfold Rdiv; ring]. exfalso.
    apply Rmult_integral in F3. destruct F3 as [F3|F3]; [apply sqrt_eq_0 in F3; lra|].
    apply sqrt_eq_0 in F3; [|apply sum_sq_pos]. apply (proj1 (sum_sq_zero _)) with (x := RtoC 1) in F3.
    + apply RtoC_inj in F3. lra.
    + apply on_modes_In. exists 1, 0. split; [unfold is_mode; lia|reflexivity].
  - split; [reflexivity|]. split; [exists v; split; [exact Es|reflexivity]|]. intros X. apply RtoC_inj in X. lra.
Qed.
Print Assumptions C57_L2_blind_refuted.

Lemma eq_iff_refl (A B : Prop) : A = B -> (A <-> B).
Proof. intros ->. reflexivity. Qed.

Lemma two_zero l1 l2 : sqrt (sum_sq l1 + sum_sq l2) = 0%R <-> forall x, In x l1 \/ In x l2 -> x = RtoC 0.
Proof.
  pose proof (sum_sq_pos l1). pose proof (sum_sq_pos l2). split.
  - intros Q. apply sqrt_eq_0 in Q; [|lra]. intros x [Hx|Hx]; revert x Hx; apply sum_sq_zero; lra.
  - intros Q. rewrite (proj2 (sum_sq_zero l1)), (proj2 (sum_sq_zero l2)); [rewrite Rplus_0_l; apply sqrt_0| |]; intros x Hx; apply Q; auto.
Qed.

(** ** verify_vispht *)

(** Both figures combine the two components, cell by cell of the doubled
    sphere; they vanish exactly when both components agree everywhere. *)
Theorem C57_verify_vispht : forall be p a1 a2 nrows ncols nmax mmax, either_backend be nrows -> vpatt_sizes p nrows ncols ->
  mat_wf RN (tp_t RN p) -> mat_wf RN (tp_p RN p) -> valid RN a1 -> valid RN a2 ->
  sc_nmax RN a1 = nmax -> sc_mmax RN a1 = mmax -> sc_nmax RN a2 = nmax -> sc_mmax RN a2 = mmax ->
  nmax + 2 <= nrows -> 2 * mmax + 2 <= ncols ->
  exists v q g, vc_new RN (sc_vec RN a1) (sc_vec RN a2) nmax mmax = Ok v /\ vvalid RN v /\
    vispht be v (Some nrows) (Some ncols) = Ok q /\ vpatt_sizes q nrows ncols /\ verify_vispht be p a1 a2 = Ok g /\
    let N := 2 * nrows - 2 in
    let d1 := on_grid N ncols (fun i j => mget RN (tp_t RN p) i j - mget RN (tp_t RN q) i j)%C in
    let d2 := on_grid N ncols (fun i j => mget RN (tp_p RN p) i j - mget RN (tp_p RN q) i j)%C in
    fg_l2 g = sqrt (sum_sq d1 + sum_sq d2) /\
    (exists r s, is_max (map Cmod d1) r /\ is_max (map Cmod d2) s /\ fg_linf g = sqrt (r * r + s * s)) /\
    is_quotient (fg_l2 g) (sqrt (sum_sq (on_grid N ncols (mget RN (tp_t RN p))) + sum_sq (on_grid N ncols (mget RN (tp_p RN p))))) (fg_rl2 g) /\
    (exists r s, is_max (map Cmod (on_grid N ncols (mget RN (tp_t RN p)))) r /\ is_max (map Cmod (on_grid N ncols (mget RN (tp_p RN p)))) s /\
      is_quotient (fg_linf g) (sqrt (r * r + s * s)) (fg_rlinf g)) /\
    (fg_l2 g = 0%R <-> forall x, In x d1 \/ In x d2 -> x = RtoC 0) /\ (fg_linf g = 0%R <-> forall x, In x d1 \/ In x d2 -> x = RtoC 0).
Proof.
  intros be p a1 a2 nrows ncols nmax mmax Hb (P1 & P2 & P3 & P4 & P5 & P6 & P7) W1 W2 V1 V2 E1 E2 E3 E4 H1 H2.
  destruct (vc_of_files a1 a2 _ _ nmax mmax V1 V2 (holds_self a1 V1) (holds_self a2 V2) E1 E2 E3 E4) as (v & Ev & (Vv & N1 & N2 & _)).
  destruct (C28_vispht_antisymmetric v nrows ncols Vv) as (q & Eq & S1 & S2 & S3 & S4 & _); try congruence; try lia.
  destruct (mat_figs (tp_t RN p) (2 * nrows - 2) ncols (fun i j => csub RN (mget RN (tp_t RN p) i j) (mget RN (tp_t RN q) i j)) W1 P1 P3) as (r & s & Er & Es & Mr & Ms & Lr & Ls); try lia.
  destruct (mat_figs (tp_p RN p) (2 * nrows - 2) ncols (fun i j => csub RN (mget RN (tp_p RN p) i j) (mget RN (tp_p RN q) i j)) W2 P2 P4) as (r' & s' & Er' & Es' & Mr' & Ms' & Lr' & Ls'); try lia.
  eexists v, q, _. split; [exact Ev|]. split; [exact Vv|]. rewrite (vispht_either be v nrows ncols nrows) by auto. split; [exact Eq|].
  split; [unfold vpatt_sizes; auto 10|].
  unfold verify_vispht. rewrite E1, E2, Ev. cbn [bind]. rewrite (nrows_of (tp_t RN p) nrows) by auto. unfold p_ncols. rewrite P3.
  rewrite (vispht_either be v nrows ncols nrows) by auto. rewrite Eq. cbn [bind tp_op_left]. unfold same_shape. rewrite P1, P3, S1, S2, !Z.eqb_refl. cbn [andb].
  unfold tp_new, same_shape, mzip. cbn [mt_nr mt_nc mmake]. rewrite P1, P2, P3, P4, !Z.eqb_refl. cbn [andb negb bind]. cbn [binop_fun].
  set (DT := mmake RN (2 * nrows - 2) ncols (fun i j => csub RN (mget RN (tp_t RN p) i j) (mget RN (tp_t RN q) i j))) in *.
  set (DP := mmake RN (2 * nrows - 2) ncols (fun i j => csub RN (mget RN (tp_p RN p) i j) (mget RN (tp_p RN q) i j))) in *.
  assert (I1 : LInf_patt_v RN (mkTP RN DT DP) = Ok (sqrt (r * r + r' * r'))).
  { unfold LInf_patt_v. cbn [tp_t tp_p]. unfold LInf_patt_s in Er, Er'. rewrite Er, Er'. reflexivity. }
  assert (I2 : LInf_patt_v RN p = Ok (sqrt (s * s + s' * s'))).
  { unfold LInf_patt_v. unfold LInf_patt_s in Es, Es'. rewrite Es, Es'. reflexivity. }
  assert (SQ : forall x y, (0 <= x -> 0 <= y -> sqrt (sqrt x * sqrt x + sqrt y * sqrt y) = sqrt (x + y))%R) by (intros; rewrite !sqrt_sqrt by auto; reflexivity).
  assert (J1 : L2_patt_v RN (mkTP RN DT DP) = sqrt (sum_sq (on_grid (2 * nrows - 2) ncols (fun i j => csub RN (mget RN (tp_t RN p) i j) (mget RN (tp_t RN q) i j)))
     + sum_sq (on_grid (2 * nrows - 2) ncols (fun i j => csub RN (mget RN (tp_p RN p) i j) (mget RN (tp_p RN q) i j))))).
  { unfold L2_patt_v, hypot2. cbn [tp_t tp_p]. unfold L2_patt_s in Lr, Lr'. rewrite Lr, Lr'. apply SQ; apply sum_sq_pos. }
  assert (J2 : L2_patt_v RN p = sqrt (sum_sq (on_grid (2 * nrows - 2) ncols (mget RN (tp_t RN p))) + sum_sq (on_grid (2 * nrows - 2) ncols (mget RN (tp_p RN p))))).
  { unfold L2_patt_v, hypot2. unfold L2_patt_s in Ls, Ls'. rewrite Ls, Ls'. apply SQ; apply sum_sq_pos. }
  rewrite I1, I2. cbn [bind]. split; [reflexivity|]. cbn [fg_l2 fg_linf fg_rl2 fg_rlinf]. cbv zeta.
  split; [exact J1|]. split; [exists r, r'; auto|]. split; [rewrite J2; apply np_ratio_spec|].
  split; [exists s, s'; split; [auto|]; split; [auto|]; apply np_ratio_spec|]. split.
  - etransitivity; [apply eq_iff_refl, f_equal2; [exact J1|reflexivity]|]. apply two_zero.
  - split.
    + intros Q. apply sqrt_eq_0 in Q; [|nra]. intros x [Hx|Hx].
      * apply (proj1 (is_max_zero _ _ Mr)); auto. nra.
      * apply (proj1 (is_max_zero _ _ Mr')); auto. nra.
    + intros Q. rewrite (proj2 (is_max_zero _ _ Mr)), (proj2 (is_max_zero _ _ Mr')); [rewrite Rmult_0_l, Rplus_0_l; apply sqrt_0| |]; intros x Hx; apply Q; auto.
Qed.
Print Assumptions C57_verify_vispht.

(** ** verify_fdata *)

(** np.fft's frequency of index i of L *)
Definition fft_freq (L i : Z) : Z := if i <=? L / 2 then i else i - L.

(** verify_fdata compares the stored array with the array of two-dimensional
    Fourier coefficients (np.fft layout) of the stored coefficients' series,
    and returns the largest absolute difference. *)
Theorem C57_verify_fdata : forall junkr junki (d : mat RN) a f nr nc, mat_wf RN d -> mt_nr RN d = nr -> mt_nc RN d = nc ->
  valid RN a -> holds a f -> 2 * sc_nmax RN a + 1 <= nr -> 2 * sc_mmax RN a + 2 <= nc ->
  exists r (F : Z -> Z -> C), verify_fdata junkr junki d a = Ok r /\
    (forall theta phi, harm_series (sc_nmax RN a) (sc_mmax RN a) f theta phi = trig_poly (sc_nmax RN a) (sc_mmax RN a) F theta phi) /\
    (forall m k, sc_nmax RN a < Z.abs k \/ sc_mmax RN a < Z.abs m -> F m k = RtoC 0) /\
    is_max (map Cmod (on_grid nr nc (fun i j => mget RN d i j - F (fft_freq nc j) (fft_freq nr i))%C)) r /\
    (r = 0%R <-> forall i j, 0 <= i < nr -> 0 <= j < nc -> mget RN d i j = F (fft_freq nc j) (fft_freq nr i)).
Proof.
  intros junkr junki d a f nr nc Wd D1 D2 Hv Hf H1 H2. pose proof Hv as W. apply valid_wf in W. pose proof W as [[G1 G2] _].
  set (h := fun i j => csub RN (mget RN d i j) (Fsc a (freqc nc j) (freqc nr i))).
  destruct (mat_figs d nr nc h Wd D1 D2) as (r & s & Er & Es & Mr & Ms & _); try lia.
  exists r, (Fsc a).
  assert (Q : forall m k, Fsc a m k = Fm (sc_nmax RN a) (sc_mmax RN a) f m k) by (intros; apply Fsc_Fm; now apply holds_cval).
  split; [|split; [|split; [|split]]].
  - unfold verify_fdata. unfold np_zeros2. rewrite D1, D2. destruct (Z.ltb_spec nr 0); [lia|]. destruct (Z.ltb_spec nc 0); [lia|]. cbn [orb bind].
    change (mt_dat RN (mmake RN nr nc (fun _ _ => RtoC 0))) with (flat nr nc (fun _ _ => RtoC 0)).
    rewrite (c_sc_to_fc_ok junkr junki a nr nc W) by lia. cbn [bind].
    replace (mzip RN (csub RN) d (mkMat RN nr nc (mt_dat RN (fdata_of a nr nc)))) with (mmake RN nr nc h); [exact Er|].
    apply mat_ext; try (apply mmake_wf; lia); try (unfold mzip; cbn [mmake mt_nr mt_nc]; auto).
    intros i j Hi Hj. cbn [mmake mt_nr mt_nc] in Hi, Hj. unfold mzip. rewrite D1, D2, !mget_mmake by auto. unfold h. f_equal.
    change (mkMat RN nr nc (mt_dat RN (fdata_of a nr nc))) with (fdata_of a nr nc). unfold fdata_of. now rewrite mget_mmake by auto.
  - intros t q. rewrite harm_series_trig. unfold trig_poly. apply sumC_ext. intros m _. apply sumC_ext. intros k _. now rewrite Q.
  - intros m k H. now apply Fsc_supp.
  - exact Mr.
  - rewrite (is_max_zero _ _ Mr). split.
    + intros H i j Hi Hj. apply Csub_zero. apply H, on_grid_In. now exists i, j.
    + intros H x Hx. apply on_grid_In in Hx. destruct Hx as (i & j & Hi & Hj & ->). unfold h. rewrite H by auto. apply Cplus_opp_r.
Qed.
Print Assumptions C57_verify_fdata.

(** There is no check of the shape: a file with fewer rows than nmax + 1
    makes the C code leave the array (Finding). *)
Theorem C57_verify_fdata_short_out_of_bounds : forall junkr junki (d : mat RN) a, mat_wf RN d ->
  valid RN a -> mt_nr RN d <= sc_nmax RN a -> 1 <= mt_nc RN d -> verify_fdata junkr junki d a = Raise OutOfBounds.
Proof.
  intros junkr junki d a Wd Hv Hr Hc. pose proof Wd as (Z1 & Z2 & _). pose proof Hv as W. apply valid_wf in W. pose proof W as [[G1 G2] Hl].
  set (nr := mt_nr RN d) in *. set (nc := mt_nc RN d) in *.
  unfold verify_fdata. fold nr nc. unfold np_zeros2. destruct (Z.ltb_spec nr 0); [lia|]. destruct (Z.ltb_spec nc 0); [lia|]. cbn [orb bind].
  change (mt_dat RN (mmake RN nr nc (fun _ _ => RtoC 0))) with (flat nr nc (fun _ _ => RtoC 0)).
  assert (LF : zlen (flat nr nc (fun _ _ => RtoC 0)) = nr * nc) by (apply zlen_vmake'; nia).
  assert (FR : forall S (P : S -> Prop) (f : Z -> S -> res S) e hi j lo s, P s -> lo <= j < hi ->
     (forall k s, lo <= k < j -> P s -> exists s', f k s = Ok s' /\ P s') -> (forall s, P s -> f j s = Raise e) -> mfor (zrange lo hi) f s = Raise e).
  { intros S P f e hi j lo. remember (Z.to_nat (j - lo)) as w eqn:Ew. revert lo Ew. induction w as [|w IH]; intros lo Ew s Ps Hj Hs He.
    - assert (lo = j) by lia. subst lo. rewrite zrange_cons by lia. cbn [mfor]. now rewrite He.
    - rewrite zrange_cons by lia. cbn [mfor]. destruct (Hs lo s) as (s' & E & Ps'); [lia|auto|]. rewrite E. cbn [bind].
      apply IH; auto; try lia. intros; apply Hs; auto; lia. }
  assert (OUT : forall pt y, zlen y = sc_nmax RN a + 1 -> 0 <= pt < zlen (sc_vec RN a) ->
     c_fcvec_m_sc (sc_vec RN a) pt 0 (sc_nmax RN a) nr nc 0 (sc_nmax RN a + 1) (flat nr nc (fun _ _ => RtoC 0), y) = Raise OutOfBounds).
  { intros pt y Hy Hpt. unfold c_fcvec_m_sc. change (Z.abs 0) with 0.
    rewrite (FR _ (fun r => r = (flat nr nc (fun _ _ => RtoC 0), y)) _ OutOfBounds (sc_nmax RN a + 1) 0 0); [reflexivity|reflexivity|lia|intros; lia|].
    intros r ->. rewrite c_ynunm_eq by (auto; cbn; lia). cbn [bind].
    rewrite (FR _ (fun x : list C => zlen x = nr * nc) _ OutOfBounds (sc_nmax RN a + 1) nr 0 (flat nr nc (fun _ _ => RtoC 0))); auto; try lia.
    - intros k s Hk Hs. unfold MKiss.cbget at 1, MKiss.bget at 1. destruct (Z.leb_spec 0 (k * nc + 0)); [|nia]. destruct (Z.ltb_spec (k * nc + 0) (zlen s)); [|nia].
      cbn [andb bind]. unfold MKiss.cbget, MKiss.bget. replace (pt + (0 - 0)) with pt by lia. destruct (Z.leb_spec 0 pt); [|lia]. 
      destruct (Z.ltb_spec pt (@zlen C (sc_vec RN a))) as [LT|LT]; [|exfalso; change (@zlen C (sc_vec RN a)) with (zlen (sc_vec RN a)) in LT; lia].
      cbn [andb bind]. unfold rbget, MKiss.bget. rewrite zlen_vmake' by lia. destruct (Z.leb_spec 0 k); [|lia]. destruct (Z.ltb_spec k (sc_nmax RN a + 1)); [|lia]. cbn [andb bind].
      unfold MKiss.bset. destruct (Z.leb_spec 0 (k * nc + 0)); [|nia]. destruct (Z.ltb_spec (k * nc + 0) (zlen s)); [|nia]. cbn [andb].
      eexists. split; [reflexivity|]. now rewrite zlen_vset.
    - intros s Hs. unfold MKiss.cbget at 1, MKiss.bget at 1. destruct (Z.ltb_spec (nr * nc + 0) (zlen s)); [lia|]. rewrite andb_false_r. reflexivity. }
  assert (LV : zlen (sc_vec RN a) = ncoef (sc_nmax RN a) (sc_mmax RN a)) by exact Hl.
  assert (PT : 0 <= cstart (sc_nmax RN a) 0 < zlen (sc_vec RN a)).
  { rewrite LV, cstart_0. pose proof (ncoef_mono (sc_nmax RN a) 0 (sc_mmax RN a)) as M. rewrite ncoef_0 in M. lia. }
  unfold c_sc_to_fc. rewrite c_inds_ok by lia. cbn [bind].
  rewrite Z.quot_div_nonneg by lia. rewrite zrange_cons by (pose proof (Z.div_pos nc 2); lia). cbn [mfor].
  rewrite (inds_pos (sc_nmax RN a) (sc_mmax RN a) 0) by lia.
  destruct (Z.ltb_spec 0 (sc_mmax RN a)).
  - cbn [bind]. rewrite OUT; auto. apply zlen_vmake'; lia.
  - destruct (Z.eqb_spec 0 (sc_mmax RN a)); [|lia]. cbn [bind]. rewrite OUT; auto. apply zlen_vmake'; lia.
Qed.
Print Assumptions C57_verify_fdata_short_out_of_bounds.

(** ** Non-vacuity *)
Lemma coefs4_holds (x y z w : C) : let a := mkSC RN [x; y; z; w] 1 1 in
  valid RN a /\ exists f, holds a f.
Proof.
  cbv zeta. assert (V : valid RN (mkSC RN [x; y; z; w] 1 1)) by (split; [cbn; lia|reflexivity]). split; [exact V|]. eexists. now apply holds_self.
Qed.
(** the 4 x 4 pattern [wavy] of C56 against four coefficients *)
Example C57_spht_nonvacuous : exists g h, verify_spht py_backend (wavy 0) (mkSC RN [(1,0);(2,1);(3,0);(4,5)]%R 1 1) = Ok g /\
  verify_ispht py_backend (wavy 0) (mkSC RN [(1,0);(2,1);(3,0);(4,5)]%R 1 1) = Ok h.
Proof.
  destruct (coefs4_holds (1,0)%R (2,1)%R (3,0)%R (4,5)%R) as [V [f Hf]].
  destruct (C57_verify_spht py_backend (wavy 0) _ f 4 4 (or_introl eq_refl) (wavy_ok 0) V Hf) as (c & g & _ & E & _); [unfold accepted; cbn; lia|].
  destruct (C57_verify_ispht py_backend (wavy 0) _ f 4 4 (or_introl eq_refl) (wavy_ok 0) (wavy_wf 0) V Hf) as (q & h & _ & _ & _ & E' & _); try (cbn; lia).
  exists g, h. exact (conj E E').
Qed.
(** a coefficient set compared with its own synthesis gives 0 *)
Example C57_own_nonvacuous : exists p g, ispht py_backend (mkSC RN [(1,0);(2,1);(3,0);(4,5)]%R 1 1) (Some 4) (Some 4) = Ok p /\
  verify_spht py_backend p (mkSC RN [(1,0);(2,1);(3,0);(4,5)]%R 1 1) = Ok g /\ fg_l2 g = 0%R.
Proof.
  destruct (coefs4_holds (1,0)%R (2,1)%R (3,0)%R (4,5)%R) as [V [f Hf]].
  destruct (C28_ispht_symmetric _ 4 4 V) as (p & E & _); try (cbn; lia).
  destruct (C57_verify_spht_own_output py_backend py_backend p _ 4 4 (or_introl eq_refl) (or_introl eq_refl) V) as (g & G & L & _); try (cbn; lia); [exact E|].
  exists p, g. exact (conj E (conj G L)).
Qed.
(** Fourier data: a 3 x 4 array is large enough for nmax = mmax = 1; a
    1 x 4 one makes the C code leave the array *)
Example C57_fdata_nonvacuous : (exists r, verify_fdata (fun _ => 7%R) (fun _ => 5) (mmake RN 3 4 (fun i j => RtoC (IZR (i + j)))) (mkSC RN [(1,0);(2,1);(3,0);(4,5)]%R 1 1) = Ok r) /\
  verify_fdata (fun _ => 7%R) (fun _ => 5) (mmake RN 1 4 (fun i j => RtoC (IZR (i + j)))) (mkSC RN [(1,0);(2,1);(3,0);(4,5)]%R 1 1) = Raise OutOfBounds.
Proof.
  destruct (coefs4_holds (1,0)%R (2,1)%R (3,0)%R (4,5)%R) as [V [f Hf]]. split.
  - destruct (C57_verify_fdata (fun _ => 7%R) (fun _ => 5) (mmake RN 3 4 (fun i j => RtoC (IZR (i + j)))) (mkSC RN [(1,0);(2,1);(3,0);(4,5)]%R 1 1) f 3 4) as (r & F & E & _); try (apply mmake_wf; lia); try exact V; try exact Hf; try (cbn; lia).
    exists r. exact E.
  - apply C57_verify_fdata_short_out_of_bounds; [apply mmake_wf; lia|exact V|cbn; lia|cbn; lia].
Qed.
(** vectors: the pattern of a coefficient set against another one *)
Example C57_vector_nonvacuous : exists p g h, vpatt_sizes p 4 4 /\
  verify_vspht py_backend p (mkSC RN [(1,0);(2,1);(3,0);(4,5)]%R 1 1) (mkSC RN [(0,0);(2,2);(3,3);(0,5)]%R 1 1) = Ok g /\
  verify_vispht py_backend p (mkSC RN [(1,0);(2,1);(3,0);(4,5)]%R 1 1) (mkSC RN [(0,0);(2,2);(3,3);(0,5)]%R 1 1) = Ok h.
Proof.
  destruct (coefs4_holds (1,0)%R (2,1)%R (3,0)%R (4,5)%R) as [V [f Hf]].
  destruct (coefs4_holds (0,0)%R (2,2)%R (3,3)%R (0,5)%R) as [V2 [f2 Hf2]].
  set (p := mkTP RN (wavy 0) (wavy 1)). assert (Hp : vpatt_sizes p 4 4) by (repeat split; cbn; lia).
  destruct (C57_verify_vspht py_backend p _ _ f f2 4 4 1 1 (or_introl eq_refl) Hp V V2 Hf Hf2) as (vcx & c1x & c2x & g & _ & _ & E & _); try (cbn; lia); [unfold accepted; lia|].
  assert (W1 : mat_wf RN (tp_t RN p)) by apply wavy_wf. assert (W2 : mat_wf RN (tp_p RN p)) by apply wavy_wf.
  destruct (C57_verify_vispht py_backend p _ _ 4 4 1 1 (or_introl eq_refl) Hp W1 W2 V V2) as (vx & qx & h & _ & _ & _ & _ & E' & _); try (cbn; lia).
  exists p, g, h. exact (conj Hp (conj E E')).
Qed.
