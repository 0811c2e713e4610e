(** * P_Trans: properties C23-C30, C52, C53: the transforms (Python backend;
    P_Cext.v extends them to the C backend).

    Exact arithmetic throughout (the components are real numbers). *)
From Coq Require Import ZArith List String Bool Lia Reals Lra.
From Coquelicot Require Import Coquelicot.
From Verif Require Import Py PyFacts Num Exact MCoefs SpecCoefs Obs CoefsFacts CoefsFacts2 CoefsFacts3
  MPatt SpecPatt PattFacts Sums Harm SpecHarm MPysphi MOps Dft PysphiFacts TransFacts MTrans TransFacts2 TransFacts3
  TransFacts4 HarmFacts VHarm P_Coefs P_Patt.
Import ListNotations.
Open Scope string_scope.
Open Scope list_scope.
Open Scope Z_scope.

(** [c] holds the coefficients [f]: c[n,m] is f n m for each of its modes. *)
Definition holds (c : scoefs RN) (f : Z -> Z -> C) : Prop :=
  forall n m, is_mode (sc_nmax RN c) (sc_mmax RN c) n m -> reads RN c n m (f n m).

Lemma holds_cval c f : valid RN c -> holds c f ->
  forall n m, is_mode (sc_nmax RN c) (sc_mmax RN c) n m -> cval RN c n m = f n m.
Proof. intros Hv Hh n m Hm. specialize (Hh n m Hm). apply reads_iff in Hh; auto. now destruct Hh. Qed.
Lemma holds_self c : valid RN c -> holds c (cval RN c).
Proof. intros Hv n m Hm. apply reads_iff; auto. Qed.

(** ** C23 *)

(** The table returned by ynunm(n, m, L) consists of the cosine/sine
    coefficients of the orthonormal spherical harmonic Y_n^m. *)
Theorem C23_ynunm_is_harmonic_table : forall n m L, Z.abs m <= n -> n < L ->
  exists y, ynunm n m L = Ok y /\ zlen y = L /\
    (forall k, n < k < L -> vget 0%R y k = 0%R) /\
    forall theta phi,
      (ipow m * cisR (IZR m * phi) *
       (RtoC (vget 0%R y 0) +
        sumC 1 (n + 1) (fun k => RtoC (vget 0%R y k) *
          (cisR (IZR k * theta) + RtoC (IZR (sgnpow m)) * cisR (- (IZR k * theta))))))%C
      = sph_harm n m theta phi.
Proof.
  intros n m L Hm HL. exists (vmake L (Yt n m)). split; [now apply ynunm_eq|].
  split; [rewrite zlen_vmake; lia|]. split.
  - intros k Hk. rewrite vget_vmake by lia. apply Yt_supp; lia.
  - intros theta phi. rewrite <- Yc_sph_harm by auto. unfold Yc. f_equal.
    rewrite (sumC_split (- n) 0 (n + 1)) by lia. rewrite (sumC_cons 0) by lia.
    rewrite (sumC_rev (- n) 0). replace (1 - 0) with 1 by lia. replace (1 - - n) with (n + 1) by lia.
    rewrite vget_vmake by lia. replace (0 + 1) with 1 by lia.
    replace (IZR 0 * theta)%R with 0%R by ring. rewrite cisR_0.
    rewrite (sumC_ext 1 (n + 1) _ (fun k => RtoC (Yt n m k) * cisR (IZR k * theta) + RtoC (Yt n m (- k)) * cisR (IZR (- k) * theta))%C).
    + rewrite sumC_add. ring.
    + intros k Hk. rewrite vget_vmake by lia. rewrite Yt_neg, opp_IZR, RtoC_mult.
      replace (- IZR k * theta)%R with (- (IZR k * theta))%R by ring. ring.
Qed.
Print Assumptions C23_ynunm_is_harmonic_table.

Example C23_nonvacuous : exists y, ynunm 1 0 2 = Ok y /\ (vget 0 y 1 > 0)%R.
Proof.
  exists (vmake 2 (Yt 1 0)). split; [apply ynunm_eq; cbn; lia|]. rewrite vget_vmake by lia.
  change (Yt 1 0 1) with (Zt 0 1 (Z.of_nat (0 + 1))). rewrite Zt_leadS, Zt_lead0.
  apply Rdiv_lt_0_compat; [apply ymm_pos|]. pose proof (al_pos 0 0). lra.
Qed.

(** ** C24 *)

Theorem C24_ispht_evaluates_series : forall c f nrows ncols, valid RN c -> holds c f ->
  sc_nmax RN c + 2 <= nrows -> 2 * sc_mmax RN c + 2 <= ncols -> ncols mod 2 = 0 ->
  exists p, ispht py_backend c (Some nrows) (Some ncols) = Ok p /\
    p_nrows RN p = nrows /\ p_ncols RN p = ncols /\
    mt_nr RN (p_array RN p) = nrows /\ mt_nc RN (p_array RN p) = ncols /\
    forall i j, 0 <= i < nrows -> 0 <= j < ncols ->
      mget RN (p_array RN p) i j =
      harm_series (sc_nmax RN c) (sc_mmax RN c) f (PI * IZR i / IZR (nrows - 1)) (2 * PI * IZR j / IZR ncols).
Proof.
  intros c f nrows ncols Hv Hh Hr Hc He. pose proof (proj1 (valid_wf RN c) Hv) as Hw. pose proof Hw as [[Hg1 Hg2] _].
  assert (Eb : ncols = 2 * (ncols / 2)) by (rewrite (Z.div_mod ncols 2) at 1 by lia; lia).
  set (B := ncols / 2) in *. set (N := sc_nmax RN c) in *. set (M := sc_mmax RN c) in *.
  exists (mmake RN (2 * nrows - 2) (2 * B) (synth (2 * nrows - 2) (2 * B) (Fsc c))).
  assert (Ed : (2 * nrows - 2) / 2 + 1 = nrows) by (replace (2 * nrows - 2) with ((nrows - 1) * 2) by lia; rewrite Z.div_mul by lia; lia).
  split.
  { unfold ispht. fold N M. destruct (Z.leb_spec nrows N); [lia|]. destruct (Z.ltb_spec ncols (2 * M + 2)); [lia|].
    rewrite He. cbn [Z.eqb]. cbn [py_backend be_sc_to_fc]. rewrite Eb. apply ispht_body; auto; fold N M; lia. }
  unfold p_nrows, p_ncols, p_array, mrows, p_nrows. cbn [mt_nr mt_nc mmake].
  split; [exact Ed|]. split; [lia|]. split; [lia|]. split; [lia|].
  intros i j Hi Hj.
  transitivity (synth (2 * nrows - 2) (2 * B) (Fsc c) i j).
  { etransitivity; [apply mget_mmake; lia|]. apply mget_mmake; lia. }
  rewrite synth_Fsc by (auto; fold N M; lia). unfold expansion, harm_series.
  fold N M. apply sumC_ext. intros m Hm. apply sumC_ext. intros n Hn.
  rewrite (holds_cval c f Hv Hh) by (unfold is_mode; fold N M; lia).
  rewrite Yc_sph_harm by lia. f_equal.
  replace (2 * PI * IZR i / IZR (2 * nrows - 2))%R with (PI * IZR i / IZR (nrows - 1))%R.
  2:{ replace (2 * nrows - 2) with (2 * (nrows - 1)) by lia. rewrite mult_IZR. field. apply not_0_IZR; lia. }
  rewrite Eb. reflexivity.
Qed.
Print Assumptions C24_ispht_evaluates_series.

(** A concrete coefficient set: nmax = 1, mmax = 0, c[1,0] = 1. *)
Definition ex10 : scoefs RN := mkSC RN [RtoC 0; RtoC 1] 1 0.
Definition f10 (n m : Z) : C := if (n =? 1) && (m =? 0) then RtoC 1 else RtoC 0.
Lemma ex10_valid : valid RN ex10.
Proof. split; [cbn; lia|reflexivity]. Qed.
Lemma ex10_holds : holds ex10 f10.
Proof.
  intros n m (Hn & Hm & Hm'). cbn in Hn, Hm'. assert (m = 0) by lia. subst m.
  assert (n = 0 \/ n = 1) as [-> | ->] by lia; reflexivity.
Qed.
(** ispht(c,3,2) is sqrt(3/4pi) cos(theta) at the north pole. *)
Example C24_nonvacuous : exists p, ispht py_backend ex10 (Some 3) (Some 2) = Ok p /\
  mget RN (p_array RN p) 0 0 = RtoC (norm_factor 1 0).
Proof.
  destruct (C24_ispht_evaluates_series ex10 f10 3 2 ex10_valid ex10_holds) as (p & E & _ & _ & _ & _ & V); [cbn; lia|cbn; lia|reflexivity|].
  exists p. split; [exact E|]. etransitivity; [apply V; lia|].
  match goal with |- ?a = ?b => change (@eq C a b) end.
  unfold harm_series. cbn [sc_nmax sc_mmax ex10].
  rewrite (sumC_single _ _ 0) by lia. change (Z.abs 0) with 0. rewrite (sumC_single _ _ 1); [|lia|].
  - change (f10 1 0) with (RtoC 1). change (sph_harm 1 0) with (sph_harm_pos 1 0). unfold sph_harm_pos, assoc_legendre_cos.
    replace (PI * IZR 0 / IZR (3 - 1))%R with 0%R by (field; apply not_0_IZR; lia).
    rewrite cos_0, sin_0. cbn [pow Derive_n legendre INR].
    rewrite Rmult_0_l, cos_0, sin_0. generalize (norm_factor 1 0). intros r. apply injective_projections; cbn [fst snd Cmult RtoC]; ring.
  - intros k Hk Hk1. unfold f10. destruct (Z.eqb_spec k 1); [lia|]. cbn [andb]. ring.
Qed.

(** ** C25 *)

Lemma ispht_eq c nrows B : sc_wf RN c -> sc_nmax RN c + 1 <= nrows -> sc_nmax RN c + 1 <= 2 * nrows - 2 -> sc_mmax RN c + 1 <= B ->
  ispht py_backend c (Some nrows) (Some (2 * B)) = Ok (mmake RN (2 * nrows - 2) (2 * B) (synth (2 * nrows - 2) (2 * B) (Fsc c))).
Proof.
  intros Hw Hr Hr' HB. unfold ispht. destruct (Z.leb_spec nrows (sc_nmax RN c)); [lia|].
  destruct (Z.ltb_spec (2 * B) (2 * sc_mmax RN c + 2)); [lia|].
  replace (2 * B mod 2) with 0 by (rewrite Z.mul_comm, Z.mod_mul; lia). cbn [Z.eqb py_backend be_sc_to_fc].
  apply ispht_body; auto; lia.
Qed.

Lemma spht_eq d R nmax mmax : mt_nr RN d = 2 * R - 2 -> 2 <= R -> mt_nc RN d mod 2 = 0 -> 0 <= mmax <= nmax -> nmax < R - 1 ->
  2 * mmax < mt_nc RN d ->
  exists c, spht py_backend d (Some nmax) (Some mmax) = Ok c /\ sc_wf RN c /\ sc_nmax RN c = nmax /\ sc_mmax RN c = mmax /\
    forall n m, is_mode nmax mmax n m -> cval RN c n m = spht_val d R n m.
Proof.
  intros Hr HR He Hm Hn Hc. destruct (spht_body d R nmax mmax) as (c & E & P); auto; try lia.
  exists c. split; auto. unfold spht. cbn [spht_sizes]. unfold spht_guard, p_nrows, p_ncols.
  replace (mt_nr RN d / 2 + 1) with R by (rewrite Hr; replace (2 * R - 2) with ((R - 1) * 2) by lia; rewrite Z.div_mul by lia; lia).
  destruct (Z.gtb_spec mmax nmax); [lia|]. destruct (Z.geb_spec nmax (R - 1)); [lia|].
  destruct (Z.geb_spec (2 * mmax) (mt_nc RN d)); [lia|]. rewrite He. cbn [Z.eqb bind].
  rewrite <- E. destruct (fft_padded d) as [f|e]; [|reflexivity]. cbn [bind].
  destruct (sin_fc f) as [g|e]; [|reflexivity]. cbn [bind].
  rewrite np_zeros_ok; [reflexivity|]. pose proof (ncoef_mono nmax 0 mmax ltac:(lia) ltac:(lia)). rewrite ncoef_0 in *. lia.
Qed.

Lemma half_even k : k mod 2 = 0 -> k = 2 * (k / 2).
Proof. intros H. rewrite (Z.div_mod k 2) at 1 by lia. lia. Qed.

Theorem C25_spht_inverts_ispht : forall c f nrows ncols nmax mmax, valid RN c -> holds c f ->
  sc_nmax RN c + 2 <= nrows -> 2 * sc_mmax RN c + 2 <= ncols -> ncols mod 2 = 0 ->
  0 <= mmax <= nmax -> nmax < nrows - 1 -> 2 * mmax < ncols ->
  exists p c', ispht py_backend c (Some nrows) (Some ncols) = Ok p /\
    spht py_backend p (Some nmax) (Some mmax) = Ok c' /\ valid RN c' /\
    sc_nmax RN c' = nmax /\ sc_mmax RN c' = mmax /\
    forall n m, is_mode nmax mmax n m ->
      (is_mode (sc_nmax RN c) (sc_mmax RN c) n m -> reads RN c' n m (f n m)) /\
      (~ is_mode (sc_nmax RN c) (sc_mmax RN c) n m -> reads RN c' n m (RtoC 0)).
Proof.
  intros c f nrows ncols nmax mmax Hv Hh Hr Hc He Hm Hn Hm2.
  pose proof (proj1 (valid_wf RN c) Hv) as Hw. pose proof Hw as [[Hg1 Hg2] _].
  pose proof (half_even ncols He) as Eb. set (B := ncols / 2) in *. rewrite Eb in *.
  eexists. 
  destruct (spht_eq (mmake RN (2 * nrows - 2) (2 * B) (synth (2 * nrows - 2) (2 * B) (Fsc c))) nrows nmax mmax) as (c' & E & W & N1 & N2 & V);
    cbn [mt_nr mt_nc mmake]; try lia.
  exists c'. split; [apply ispht_eq; auto; lia|]. split; [exact E|].
  apply valid_wf in W. split; [exact W|]. split; [exact N1|]. split; [exact N2|].
  intros n m Hmode. specialize (V n m Hmode). destruct Hmode as (M1 & M2 & M3).
  rewrite spht_val_Fsc in V by (auto; lia).
  assert (X : reads RN c' n m (cval RN c' n m)) by (apply reads_iff; auto; rewrite N1, N2; unfold is_mode; split; [lia|reflexivity]).
  rewrite V in X. split; intros Q.
  - rewrite (holds_cval c f Hv Hh) in X by auto. unfold is_mode in Q.
    destruct (Z.leb_spec (Z.abs m) (sc_mmax RN c)); [|lia]. destruct (Z.leb_spec n (sc_nmax RN c)); [|lia]. exact X.
  - unfold is_mode in Q. destruct (Z.leb_spec (Z.abs m) (sc_mmax RN c)); [|exact X]. 
    destruct (Z.leb_spec n (sc_nmax RN c)); [lia|exact X].
Qed.
Print Assumptions C25_spht_inverts_ispht.

(** With the sizes of c, the round trip returns c itself. *)
Theorem C25_round_trip_identity : forall c nrows ncols, valid RN c ->
  sc_nmax RN c + 2 <= nrows -> 2 * sc_mmax RN c + 2 <= ncols -> ncols mod 2 = 0 ->
  exists p, ispht py_backend c (Some nrows) (Some ncols) = Ok p /\
    spht py_backend p (Some (sc_nmax RN c)) (Some (sc_mmax RN c)) = Ok c.
Proof.
  intros c nrows ncols Hv Hr Hc He. pose proof (proj1 (valid_wf RN c) Hv) as Hw. pose proof Hw as [[Hg1 Hg2] _].
  destruct (C25_spht_inverts_ispht c (cval RN c) nrows ncols (sc_nmax RN c) (sc_mmax RN c)) as (p & c' & E1 & E2 & V & N1 & N2 & H);
    auto using holds_self; try lia.
  exists p. split; auto. rewrite E2. f_equal. symmetry. apply (sc_ext RN); auto; [now apply valid_wf|].
  intros n m Hm. destruct (H n m Hm) as [H1 _]. specialize (H1 Hm). apply reads_iff in H1; [|exact V]. symmetry. exact (eq_sym (proj2 H1)).
Qed.
Print Assumptions C25_round_trip_identity.

Example C25_nonvacuous : exists p, ispht py_backend ex10 (Some 5) (Some 6) = Ok p /\ spht py_backend p (Some 1) (Some 0) = Ok ex10.
Proof. apply (C25_round_trip_identity ex10 5 6 ex10_valid); cbn; auto; lia. Qed.

(** ** C26 *)

Definition vholds (vc : vcoefs RN) (f1 f2 : Z -> Z -> C) : Prop :=
  forall n m, is_mode (vc_nmax RN vc) (vc_mmax RN vc) n m -> 1 <= n -> vreads RN vc n m (f1 n m) (f2 n m).

Lemma vholds_cval vc f1 f2 : vvalid RN vc -> vholds vc f1 f2 ->
  forall n m, is_mode (vc_nmax RN vc) (vc_mmax RN vc) n m -> 1 <= n ->
    cval RN (vc_1 RN vc) n m = f1 n m /\ cval RN (vc_2 RN vc) n m = f2 n m.
Proof.
  intros Hv Hh n m Hm Hn. specialize (Hh n m Hm Hn). pose proof Hv as (V1 & V2 & _).
  apply C12_reads_componentwise in Hh; auto; try lia. destruct Hh as [H1 H2].
  apply reads_iff in H1; auto. apply reads_iff in H2; auto. destruct H1 as [_ H1], H2 as [_ H2]. auto.
Qed.
Lemma vreads_cval vc n m : vvalid RN vc -> is_mode (vc_nmax RN vc) (vc_mmax RN vc) n m -> 1 <= n ->
  vreads RN vc n m (cval RN (vc_1 RN vc) n m) (cval RN (vc_2 RN vc) n m).
Proof.
  intros Hv Hm Hn. apply C12_reads_componentwise; auto; try lia. pose proof Hv as (V1 & V2 & A1 & A2 & A3 & A4 & _).
  split; apply reads_iff; auto; (split; [|reflexivity]); [rewrite A1, A2|rewrite A3, A4]; auto.
Qed.
Lemma vholds_self vc : vvalid RN vc -> vholds vc (cval RN (vc_1 RN vc)) (cval RN (vc_2 RN vc)).
Proof. intros Hv n m Hm Hn. now apply vreads_cval. Qed.

Theorem C26_vspht_inverts_vispht : forall vc f1 f2 nrows ncols nmax mmax, vvalid RN vc -> vholds vc f1 f2 ->
  vc_nmax RN vc + 2 <= nrows -> 2 * vc_mmax RN vc + 2 <= ncols -> ncols mod 2 = 0 ->
  0 <= mmax <= nmax -> nmax < nrows - 1 -> 2 * mmax < ncols ->
  exists p vc', vispht py_backend vc (Some nrows) (Some ncols) = Ok p /\
    vspht py_backend p (Some nmax) (Some mmax) = Ok vc' /\ vvalid RN vc' /\
    vc_nmax RN vc' = nmax /\ vc_mmax RN vc' = mmax /\
    forall n m, is_mode nmax mmax n m -> 1 <= n ->
      (is_mode (vc_nmax RN vc) (vc_mmax RN vc) n m -> vreads RN vc' n m (f1 n m) (f2 n m)) /\
      (~ is_mode (vc_nmax RN vc) (vc_mmax RN vc) n m -> vreads RN vc' n m (RtoC 0) (RtoC 0)).
Proof.
  intros vc f1 f2 nrows ncols nmax mmax Hv Hh Hr Hc He Hm Hn Hm2.
  pose proof (proj1 (vvalid_wf RN vc) Hv) as Hw. pose proof Hw as (W1 & W2 & A1 & A2 & A3 & A4 & _). pose proof W1 as [[Hg1 Hg2] _].
  rewrite A2 in Hg1, Hg2. rewrite A1 in Hg2.
  pose proof (half_even ncols He) as Eb. set (B := ncols / 2) in *. rewrite Eb in *.
  eexists. 
  destruct (vspht_body (mkTP RN (mmake RN (2 * nrows - 2) (2 * B) (synth (2 * nrows - 2) (2 * B) (Tv vc)))
              (mmake RN (2 * nrows - 2) (2 * B) (synth (2 * nrows - 2) (2 * B) (Pv vc)))) nrows B nmax mmax) as (vc' & E & W & N1 & N2 & V);
    cbn [mt_nr mt_nc mmake tp_t tp_p]; try lia.
  exists vc'. split; [apply vispht_ok; auto; lia|]. split; [exact E|].
  apply vvalid_wf in W. split; [exact W|]. split; [exact N1|]. split; [exact N2|].
  intros n m Hmode Hn1. destruct (V n m Hmode) as [V1 V2]. pose proof Hmode as (M1 & M2 & M3).
  assert (X : vreads RN vc' n m (cval RN (vc_1 RN vc') n m) (cval RN (vc_2 RN vc') n m)).
  { apply vreads_cval; auto. now rewrite N1, N2. }
  rewrite V1, V2 in X. 
  set (p := mkTP RN _ _) in *.
  assert (L1 : An nrows (Lf1 nrows B p m) m n = if (Z.abs m <=? vc_mmax RN vc) && (n <=? vc_nmax RN vc) then (RtoC (IZR n * (IZR n + 1)) * w1_of vc n m)%C else RtoC 0).
  { rewrite <- (An_Fm nrows (vc_nmax RN vc) (vc_mmax RN vc) (fun n m => RtoC (IZR n * (IZR n + 1)) * w1_of vc n m)%C n m) by lia.
    apply An_ext. intros k _. unfold p. now apply (Lf_vispht vc nrows B m k); auto; lia. }
  assert (L2 : An nrows (Lf2 nrows B p m) m n = if (Z.abs m <=? vc_mmax RN vc) && (n <=? vc_nmax RN vc) then (RtoC (IZR n * (IZR n + 1)) * w2_of vc n m)%C else RtoC 0).
  { rewrite <- (An_Fm nrows (vc_nmax RN vc) (vc_mmax RN vc) (fun n m => RtoC (IZR n * (IZR n + 1)) * w2_of vc n m)%C n m) by lia.
    apply An_ext. intros k _. unfold p. now apply (Lf_vispht vc nrows B m k); auto; lia. }
  rewrite L1, L2 in X. clear L1 L2. split; intros Q.
  - pose proof Q as (Q1 & Q2 & Q3). destruct (Z.leb_spec (Z.abs m) (vc_mmax RN vc)); [|lia]. destruct (Z.leb_spec n (vc_nmax RN vc)); [|lia].
    cbn [andb] in X. destruct (vholds_cval vc f1 f2 Hv Hh n m Q Hn1) as [C1 C2].
    assert (S : forall x : C, (RtoC (IZR n * (IZR n + 1)) * (x * nv n) * nv n)%C = x).
    { intros x. transitivity (x * (RtoC (IZR n * (IZR n + 1)) * nv n * nv n))%C; [ring|]. rewrite nv_sq by lia. ring. }
    unfold w1_of, w2_of in X. rewrite !S in X. rewrite C1, C2 in X. exact X.
  - assert (Z0 : (Z.abs m <=? vc_mmax RN vc) && (n <=? vc_nmax RN vc) = false).
    { unfold is_mode in Q. destruct (Z.leb_spec (Z.abs m) (vc_mmax RN vc)); [|auto]. destruct (Z.leb_spec n (vc_nmax RN vc)); [lia|auto]. }
    rewrite Z0 in X. rewrite !Cmult_0_l in X. exact X.
Qed.
Print Assumptions C26_vspht_inverts_vispht.

Lemma vc_ext (a b : vcoefs RN) : vc_wf RN a -> vc_wf RN b -> vc_nmax RN a = vc_nmax RN b -> vc_mmax RN a = vc_mmax RN b ->
  (forall n m, is_mode (vc_nmax RN a) (vc_mmax RN a) n m -> 1 <= n ->
     cval RN (vc_1 RN a) n m = cval RN (vc_1 RN b) n m /\ cval RN (vc_2 RN a) n m = cval RN (vc_2 RN b) n m) -> a = b.
Proof.
  intros (W1 & W2 & A1 & A2 & A3 & A4 & Z1 & Z2) (V1 & V2 & B1 & B2 & B3 & B4 & Y1 & Y2) E1 E2 H.
  assert (Q : vc_1 RN a = vc_1 RN b).
  { apply (sc_ext RN); auto; try congruence. intros n m Hm. rewrite A1, A2 in Hm. destruct (Z.eq_dec n 0) as [->|Hn].
    - destruct Hm as (_ & Hm & _). assert (m = 0) by lia. subst. congruence.
    - apply H; auto. destruct Hm; lia. }
  assert (Q' : vc_2 RN a = vc_2 RN b).
  { apply (sc_ext RN); auto; try congruence. intros n m Hm. rewrite A3, A4 in Hm. destruct (Z.eq_dec n 0) as [->|Hn].
    - destruct Hm as (_ & Hm & _). assert (m = 0) by lia. subst. congruence.
    - apply H; auto. destruct Hm; lia. }
  destruct a, b; cbn in *; congruence.
Qed.

Theorem C26_round_trip_identity : forall vc nrows ncols, vvalid RN vc ->
  vc_nmax RN vc + 2 <= nrows -> 2 * vc_mmax RN vc + 2 <= ncols -> ncols mod 2 = 0 ->
  exists p, vispht py_backend vc (Some nrows) (Some ncols) = Ok p /\
    vspht py_backend p (Some (vc_nmax RN vc)) (Some (vc_mmax RN vc)) = Ok vc.
Proof.
  intros vc nrows ncols Hv Hr Hc He. pose proof (proj1 (vvalid_wf RN vc) Hv) as Hw.
  pose proof Hw as (W1 & W2 & A1 & A2 & A3 & A4 & _). pose proof W1 as [[Hg1 Hg2] _]. rewrite A2 in Hg1, Hg2. rewrite A1 in Hg2.
  destruct (C26_vspht_inverts_vispht vc _ _ nrows ncols (vc_nmax RN vc) (vc_mmax RN vc) Hv (vholds_self vc Hv)) as (p & vc' & E1 & E2 & V & N1 & N2 & H);
    auto; try lia.
  exists p. split; auto. rewrite E2. f_equal. pose proof (proj1 (vvalid_wf RN vc') V) as Hw'. symmetry. apply vc_ext; auto.
  intros n m Hm Hn. destruct (H n m Hm Hn) as [H1 _]. specialize (H1 Hm).
  assert (Q : vholds vc' (fun a b => if (a =? n) && (b =? m) then cval RN (vc_1 RN vc) n m else cval RN (vc_1 RN vc') a b)
                         (fun a b => if (a =? n) && (b =? m) then cval RN (vc_2 RN vc) n m else cval RN (vc_2 RN vc') a b)).
  { intros a b Ha Hb. destruct (Z.eqb_spec a n); [|now apply vreads_cval]. destruct (Z.eqb_spec b m); [|now apply vreads_cval]. subst. exact H1. }
  rewrite <- N1, <- N2 in Hm. destruct (vholds_cval vc' _ _ V Q n m Hm Hn) as [-> ->]. rewrite !Z.eqb_refl. auto.
Qed.
Print Assumptions C26_round_trip_identity.

(** A concrete VectorCoefs: nmax = 1, mmax = 1. *)
Definition exv : vcoefs RN :=
  mkVC RN (mkSC RN [RtoC 0; RtoC 1; RtoC 2; RtoC 3] 1 1) (mkSC RN [RtoC 0; RtoC 4; RtoC 5; RtoC 6] 1 1) 1 1.
Lemma exv_valid : vvalid RN exv.
Proof. unfold vvalid, valid, reads; cbn; repeat split; try reflexivity; lia. Qed.
Example C26_nonvacuous : exists p, vispht py_backend exv (Some 4) (Some 6) = Ok p /\ vspht py_backend p (Some 1) (Some 1) = Ok exv.
Proof. apply (C26_round_trip_identity exv 4 6 exv_valid); cbn; auto; lia. Qed.

(** ** C28 *)

Theorem C28_ispht_symmetric : forall c nrows ncols, valid RN c ->
  sc_nmax RN c + 2 <= nrows -> 2 * sc_mmax RN c + 2 <= ncols -> ncols mod 2 = 0 ->
  exists p, ispht py_backend c (Some nrows) (Some ncols) = Ok p /\
    mt_nr RN p = 2 * nrows - 2 /\ mt_nc RN p = ncols /\
    sphere_sym RN p /\ sp_single_val RN p = 0%R /\ sp_is_symmetric RN p = true.
Proof.
  intros c nrows ncols Hv Hr Hc He. pose proof (proj1 (valid_wf RN c) Hv) as Hw. pose proof Hw as [[Hg1 Hg2] _].
  pose proof (half_even ncols He) as Eb. set (B := ncols / 2) in *. rewrite Eb in *.
  eexists. split; [apply ispht_eq; auto; lia|]. split; [reflexivity|]. split; [reflexivity|].
  set (p := mmake RN _ _ _).
  assert (S : sphere_sym RN p).
  { unfold p. intros i j Hi Hj. cbn [mt_nr mt_nc mmake] in *. unfold across_row, across_col.
    pose proof (Z.mod_pos_bound (2 * nrows - 2 - i) (2 * nrows - 2) ltac:(lia)).
    pose proof (Z.mod_pos_bound (2 * B / 2 + j) (2 * B) ltac:(lia)).
    etransitivity; [apply mget_mmake; auto|]. etransitivity; [|symmetry; apply mget_mmake; auto].
    replace (2 * B / 2) with B by (rewrite Z.mul_comm, Z.div_mul; lia).
    etransitivity; [apply (synth_sym (2 * nrows - 2) B (Fsc c) (sc_nmax RN c) (sc_mmax RN c) (RtoC 1)); try lia|].
    - intros; now apply Fsc_supp.
    - intros m k. rewrite Fsc_neg. ring.
    - ring.
    - apply Cmult_1_l. }
  split; [exact S|]. apply symmetric_1 in S.
  assert (Z : sp_single_val RN p = 0%R) by (apply sv_loop_symmetric; auto).
  split; [exact Z|]. unfold sp_is_symmetric. rewrite Z. apply rltb_spec. apply (small_pos 14).
Qed.
Print Assumptions C28_ispht_symmetric.

Lemma Cm1 (x : C) : (- RtoC 1 * x)%C = (- x)%C.
Proof. ring. Qed.

Theorem C28_vispht_antisymmetric : forall vc nrows ncols, vvalid RN vc ->
  vc_nmax RN vc + 2 <= nrows -> 2 * vc_mmax RN vc + 2 <= ncols -> ncols mod 2 = 0 ->
  exists p, vispht py_backend vc (Some nrows) (Some ncols) = Ok p /\
    mt_nr RN (tp_t RN p) = 2 * nrows - 2 /\ mt_nc RN (tp_t RN p) = ncols /\
    mt_nr RN (tp_p RN p) = 2 * nrows - 2 /\ mt_nc RN (tp_p RN p) = ncols /\
    sphere_antisym RN (tp_t RN p) /\ sphere_antisym RN (tp_p RN p) /\ tp_is_symmetric RN p = true.
Proof.
  intros vc nrows ncols Hv Hr Hc He.
  pose proof (proj1 (vvalid_wf RN vc) Hv) as Hw. pose proof Hw as (W1 & W2 & A1 & A2 & A3 & A4 & _). pose proof W1 as [[Hg1 Hg2] _].
  rewrite A2 in Hg1, Hg2. rewrite A1 in Hg2.
  pose proof (half_even ncols He) as Eb. set (B := ncols / 2) in *. rewrite Eb in *.
  eexists. split; [apply vispht_ok; auto; lia|]. cbn [tp_t tp_p]. do 4 (split; [reflexivity|]).
  assert (G : forall F, (forall m k, vc_nmax RN vc < Z.abs k \/ vc_mmax RN vc < Z.abs m -> F m k = RtoC 0) ->
     (forall m k, F m (- k) = (- RtoC 1 * RtoC (IZR (sgnpow m)) * F m k)%C) ->
     sphere_antisym RN (mmake RN (2 * nrows - 2) (2 * B) (synth (2 * nrows - 2) (2 * B) F))).
  { intros F HF1 HF2 i j Hi Hj. cbn [mt_nr mt_nc mmake] in *. unfold across_row, across_col.
    pose proof (Z.mod_pos_bound (2 * nrows - 2 - i) (2 * nrows - 2) ltac:(lia)).
    pose proof (Z.mod_pos_bound (2 * B / 2 + j) (2 * B) ltac:(lia)).
    etransitivity; [apply mget_mmake; auto|].
    replace (2 * B / 2) with B by (rewrite Z.mul_comm, Z.div_mul; lia).
    etransitivity; [apply (synth_sym (2 * nrows - 2) B F (vc_nmax RN vc) (vc_mmax RN vc) (- RtoC 1)%C); auto; try lia; ring|].
    etransitivity; [|apply (f_equal (copp RN)); symmetry; apply mget_mmake; auto].
    exact (Cm1 _). }
  assert (ST : sphere_antisym RN (mmake RN (2 * nrows - 2) (2 * B) (synth (2 * nrows - 2) (2 * B) (Tv vc)))).
  { apply G; [apply Tm_out|apply Tm_neg]. }
  assert (SP : sphere_antisym RN (mmake RN (2 * nrows - 2) (2 * B) (synth (2 * nrows - 2) (2 * B) (Pv vc)))).
  { apply G; [apply Pm_out|apply Pm_neg]. }
  split; [exact ST|]. split; [exact SP|]. apply symmetric_m1 in ST.
  unfold tp_is_symmetric, tp_single_val. cbn [tp_t fst snd]. rewrite sv_loop_symmetric by auto.
  assert (T : rltb RN 0%R (rdiv RN (r1 RN) (rofZ RN (10 ^ 13))) = true) by (apply rltb_spec; apply (small_pos 13)).
  apply andb_true_intro. split; exact T.
Qed.
Print Assumptions C28_vispht_antisymmetric.

Example C28_nonvacuous : exists p, ispht py_backend ex10 (Some 3) (Some 2) = Ok p /\ sphere_sym RN p.
Proof.
  destruct (C28_ispht_symmetric ex10 3 2 ex10_valid) as (p & E & _ & _ & S & _); [cbn; lia|cbn; lia|reflexivity|eauto].
Qed.
