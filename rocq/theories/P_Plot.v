(** * P_Plot: C58, what the plotting routines hand to matplotlib. *)
From Coq Require Import ZArith List String Bool Lia Reals Lra Lra.
From Coquelicot Require Import Coquelicot.
From Verif Require Import Py PyFacts Num Exact MCoefs SpecCoefs Obs CoefsFacts CoefsFacts2 CoefsFacts3 MPatt SpecPatt PattFacts Sums Harm
  MPysphi MOps Smooth Dft PysphiFacts TransFacts MTrans TransFacts2 SpecHarm HarmFacts P_Coefs P_Patt P_Trans MCsphi SpecInt Integ P_Integral P_Both MPlot.
Import ListNotations.
Open Scope Z_scope.

(** ** The statements' vocabulary *)

(** The angles of grid point (i, j) of an nrows x ncols pattern. *)
Definition theta_at (nrows i : Z) : R := (PI * IZR i / IZR (nrows - 1))%R.
Definition phi_at (ncols j : Z) : R := (2 * PI * IZR j / IZR ncols)%R.

(** The array [a] has shape nr x nc and entries f. *)
Definition is_arr (a : rarr) (nr nc : Z) (f : Z -> Z -> R) : Prop :=
  ra_nr a = nr /\ ra_nc a = nc /\ zlen (ra_dat a) = nr * nc /\
  forall i j, 0 <= i < nr -> 0 <= j < nc -> raget a i j = f i j.

(** The drawing calls ds draw the surface whose point in direction
    (theta_i, phi_j) is at distance rho i j from the origin, i = 0..nrows-1,
    j = 0..ncols (column ncols repeats column 0), inside the corners of the
    smallest cube around its mid point. *)
Definition draws_surface (ds : list draw) (nrows ncols : Z) (rho : Z -> Z -> R) : Prop :=
  exists X Y W cx cy cz h,
    ds = DSurface X Y W ::
         map (fun s => DPoint (cx + fst (fst s) * h) (cy + snd (fst s) * h) (cz + snd s * h))%R
           [(-1,-1,-1); (-1,-1,1); (-1,1,-1); (-1,1,1); (1,-1,-1); (1,-1,1); (1,1,-1); (1,1,1)]%R ++
         [DXLabel "X"; DYLabel "Y"; DZLabel "Z"; DShow] /\
    is_arr X nrows (ncols + 1) (fun i j => rho i (j mod ncols) * (sin (theta_at nrows i) * cos (phi_at ncols j)))%R /\
    is_arr Y nrows (ncols + 1) (fun i j => rho i (j mod ncols) * (sin (theta_at nrows i) * sin (phi_at ncols j)))%R /\
    is_arr W nrows (ncols + 1) (fun i j => rho i (j mod ncols) * cos (theta_at nrows i))%R /\
    (* the cube contains the surface *)
    (forall i j, 0 <= i < nrows -> 0 <= j <= ncols ->
       (Rabs (raget X i j - cx) <= h)%R /\ (Rabs (raget Y i j - cy) <= h)%R /\ (Rabs (raget W i j - cz) <= h)%R) /\
    (* and no smaller cube does *)
    (exists A i j i' j', (A = X \/ A = Y \/ A = W) /\ 0 <= i < nrows /\ 0 <= j <= ncols /\ 0 <= i' < nrows /\ 0 <= j' <= ncols /\
       (raget A i j - raget A i' j' = 2 * h)%R).

(** ** Lemmas *)
Lemma raget_make nr nc f i j : 0 <= i < nr -> 0 <= j < nc -> raget (ramake nr nc f) i j = f i j.
Proof.
  intros Hi Hj. unfold raget, ramake. cbn [ra_dat ra_nc]. rewrite vget_vmake by nia.
  rewrite Z.div_add_l by lia. rewrite (Z.div_small j) by lia. rewrite Z.add_0_r.
  rewrite Z.add_comm, Z.mod_add by lia. now rewrite (Z.mod_small j) by lia.
Qed.
Lemma ramake_arr nr nc f g : 0 <= nr -> 0 <= nc -> (forall i j, 0 <= i < nr -> 0 <= j < nc -> f i j = g i j) -> is_arr (ramake nr nc f) nr nc g.
Proof.
  intros H1 H2 E. split; [reflexivity|]. split; [reflexivity|]. split; [apply zlen_vmake'; nia|].
  intros i j Hi Hj. rewrite raget_make by auto. auto.
Qed.
Lemma In_vget {A} (d : A) v x : In x v -> exists k, 0 <= k < zlen v /\ vget d v k = x.
Proof.
  intros H. apply (In_nth v x d) in H as (k & Hk & E). exists (Z.of_nat k). unfold zlen, vget. split; [lia|].
  destruct (Z.ltb_spec (Z.of_nat k) 0); [lia|]. now rewrite Nat2Z.id.
Qed.
Lemma vget_In' {A} (d : A) v i : 0 <= i < zlen v -> In (vget d v i) v.
Proof. intros H. unfold vget. destruct (Z.ltb_spec i 0); [lia|]. apply nth_In. unfold zlen in H. lia. Qed.
Lemma In_arr a nr nc f x : 0 < nr -> 0 < nc -> is_arr a nr nc f -> In x (ra_dat a) <-> exists i j, 0 <= i < nr /\ 0 <= j < nc /\ raget a i j = x.
Proof.
  intros P1 P2 (E1 & E2 & E3 & _). split.
  - intros H. apply (In_vget 0%R) in H as (k & Hk & E). rewrite E3 in Hk.
    exists (k / nc), (k mod nc). split; [split; [apply Z.div_pos; lia|apply Z.div_lt_upper_bound; lia]|].
    split; [apply Z.mod_pos_bound; lia|]. unfold raget. rewrite E2. rewrite <- E. f_equal. rewrite (Z.div_mod k nc) at 3 by lia. lia.
  - intros (i & j & Hi & Hj & <-). unfold raget. rewrite E2. apply vget_In'. rewrite E3. nia.
Qed.
Lemma fold_max l : forall x, In (fold_left Rmax l x) (x :: l) /\ forall y, In y (x :: l) -> (y <= fold_left Rmax l x)%R.
Proof.
  induction l as [|a l IH]; intros x.
  - cbn. split; [auto|]. intros y [->|[]]. lra.
  - cbn [fold_left]. destruct (IH (Rmax x a)) as [H1 H2]. split.
    + destruct H1 as [H1|H1]; [|right; right; exact H1]. rewrite <- H1. unfold Rmax. destruct (Rle_dec x a); [right; left; auto|left; auto].
    + intros y Hy. destruct Hy as [->|[->|Hy]].
      * eapply Rle_trans; [apply (Rmax_l y a)|apply H2; left; auto].
      * eapply Rle_trans; [apply (Rmax_r x y)|apply H2; left; auto].
      * apply H2. right. auto.
Qed.
Lemma fold_min l : forall x, In (fold_left Rmin l x) (x :: l) /\ forall y, In y (x :: l) -> (fold_left Rmin l x <= y)%R.
Proof.
  induction l as [|a l IH]; intros x.
  - cbn. split; [auto|]. intros y [->|[]]. lra.
  - cbn [fold_left]. destruct (IH (Rmin x a)) as [H1 H2]. split.
    + destruct H1 as [H1|H1]; [|right; right; exact H1]. rewrite <- H1. unfold Rmin. destruct (Rle_dec x a); [left; auto|right; left; auto].
    + intros y Hy. destruct Hy as [->|[->|Hy]].
      * eapply Rle_trans; [apply H2; left; auto|apply (Rmin_l y a)].
      * eapply Rle_trans; [apply H2; left; auto|apply (Rmin_r x y)].
      * apply H2. right. auto.
Qed.
Lemma np_max_ok l : l <> [] -> exists r, np_max l = Ok r /\ is_max l r.
Proof. destruct l as [|x l]; [congruence|]. intros _. eexists. split; [reflexivity|]. apply fold_max. Qed.
Lemma np_min_ok l : l <> [] -> exists r, np_min l = Ok r /\ In r l /\ forall y, In y l -> (r <= y)%R.
Proof. destruct l as [|x l]; [congruence|]. intros _. eexists. split; [reflexivity|]. apply fold_min. Qed.
(** largest and smallest entry of an array *)
Lemma arr_range a nr nc f : is_arr a nr nc f -> 1 <= nr -> 1 <= nc ->
  exists M m, np_max (ra_dat a) = Ok M /\ np_min (ra_dat a) = Ok m /\
    (forall i j, 0 <= i < nr -> 0 <= j < nc -> (m <= raget a i j <= M)%R) /\
    exists i j i' j', 0 <= i < nr /\ 0 <= j < nc /\ 0 <= i' < nr /\ 0 <= j' < nc /\ raget a i j = M /\ raget a i' j' = m.
Proof.
  intros H H1 H2. assert (NE : ra_dat a <> []).
  { destruct H as (_ & _ & L & _). intros E. rewrite E in L. cbn in L. unfold zlen in L. cbn in L. nia. }
  destruct (np_max_ok _ NE) as (M & E1 & I1 & B1). destruct (np_min_ok _ NE) as (m & E2 & I2 & B2).
  exists M, m. split; [exact E1|]. split; [exact E2|]. split.
  - intros i j Hi Hj. assert (I : In (raget a i j) (ra_dat a)) by (apply (In_arr a nr nc f _ ltac:(lia) ltac:(lia) H); eauto). split; [apply B2|apply B1]; auto.
  - apply (In_arr a nr nc f _ ltac:(lia) ltac:(lia) H) in I1 as (i & j & Hi & Hj & <-). apply (In_arr a nr nc f _ ltac:(lia) ltac:(lia) H) in I2 as (i' & j' & Hi' & Hj' & <-).
    exists i, j, i', j'. repeat (split; [auto; lia|]). auto.
Qed.

Lemma linspace_phi ncols j : 1 <= ncols -> 0 <= j <= ncols -> vget 0%R (linspace0 (2 * PI) (ncols + 1)) j = phi_at ncols j.
Proof.
  intros H Hj. unfold linspace0, phi_at. rewrite vget_vmake by lia. destruct (Z.eqb_spec (ncols + 1) 1); [lia|].
  rewrite plus_IZR. replace (IZR ncols + 1 - 1)%R with (IZR ncols) by ring. assert (IZR ncols <> 0)%R by (apply not_0_IZR; lia). field. auto.
Qed.
Lemma linspace_theta nrows i : 0 <= i < nrows -> vget 0%R (linspace0 PI nrows) i = theta_at nrows i.
Proof.
  intros Hi. unfold linspace0, theta_at. rewrite vget_vmake by lia. destruct (Z.eqb_spec nrows 1) as [->|N].
  - assert (i = 0) by lia. subst i. unfold Rdiv. ring.
  - rewrite minus_IZR. assert (IZR nrows - 1 <> 0)%R by (rewrite <- minus_IZR; apply not_0_IZR; lia). field. auto.
Qed.

Lemma surface_ok T nrows ncols rho : 1 <= nrows -> 1 <= ncols -> is_arr T nrows ncols rho ->
  exists ds, sphere_surface T nrows ncols = Ok ds /\ draws_surface ds nrows ncols rho.
Proof.
  intros Hr Hc (T1 & T2 & T3 & T4). unfold sphere_surface. rewrite T1, T2.
  destruct (Z.leb_spec ncols 0); [lia|]. change (ra_nr (ramake ?a ?b ?f)) with a. change (ra_nc (ramake ?a ?b ?f)) with b. rewrite !Z.eqb_refl. cbn [andb negb].
  set (X := ramake nrows (ncols + 1) (fun i j => raget _ i j * cos _ * sin _)%R).
  set (Y := ramake nrows (ncols + 1) (fun i j => raget _ i j * sin _ * sin _)%R).
  set (W := ramake nrows (ncols + 1) (fun i j => raget _ i j * cos _)%R).
  assert (TV : forall i j, 0 <= i < nrows -> 0 <= j < ncols + 1 ->
     raget (ramake nrows (ncols + 1) (fun i j => if j <? ncols then raget T i j else raget T i 0)) i j = rho i (j mod ncols)).
  { intros i j Hi Hj. rewrite raget_make by lia. destruct (Z.ltb_spec j ncols).
    - rewrite Z.mod_small by lia. apply T4; lia.
    - assert (j = ncols) by lia. subst j. rewrite Z.mod_same by lia. apply T4; lia. }
  assert (AX : is_arr X nrows (ncols + 1) (fun i j => rho i (j mod ncols) * (sin (theta_at nrows i) * cos (phi_at ncols j)))%R).
  { apply ramake_arr; try lia. intros i j Hi Hj. rewrite TV, linspace_phi, linspace_theta by lia. ring. }
  assert (AY : is_arr Y nrows (ncols + 1) (fun i j => rho i (j mod ncols) * (sin (theta_at nrows i) * sin (phi_at ncols j)))%R).
  { apply ramake_arr; try lia. intros i j Hi Hj. rewrite TV, linspace_phi, linspace_theta by lia. ring. }
  assert (AZ : is_arr W nrows (ncols + 1) (fun i j => rho i (j mod ncols) * cos (theta_at nrows i))%R).
  { apply ramake_arr; try lia. intros i j Hi Hj. rewrite TV, linspace_theta by lia. ring. }
  clearbody X Y W.
  destruct (arr_range X _ _ _ AX) as (xM & xm & EX1 & EX2 & BX & TX); try lia.
  destruct (arr_range Y _ _ _ AY) as (yM & ym & EY1 & EY2 & BY & TY); try lia.
  destruct (arr_range W _ _ _ AZ) as (zM & zm & EZ1 & EZ2 & BZ & TZ); try lia.
  rewrite EX1, EX2, EY1, EY2, EZ1, EZ2. cbn [bind].
  destruct (np_max_ok [xM - xm; yM - ym; zM - zm]%R) as (mr & EM & IM & BM); [discriminate|]. rewrite EM. cbn [bind].
  eexists. split; [reflexivity|].
  exists X, Y, W, (0.5 * (xM + xm))%R, (0.5 * (yM + ym))%R, (0.5 * (zM + zm))%R, (0.5 * mr)%R.
  split.
  { cbn [map mgrid0 mgrid1 mgrid2 zip3 app fst snd]. repeat (apply f_equal2; [first [reflexivity | f_equal; field]|]); reflexivity. }
  split; [exact AX|]. split; [exact AY|]. split; [exact AZ|].
  assert (LX : (xM - xm <= mr)%R) by (apply BM; cbn; auto).
  assert (LY : (yM - ym <= mr)%R) by (apply BM; cbn; auto).
  assert (LZ : (zM - zm <= mr)%R) by (apply BM; cbn; auto).
  split.
  - intros i j Hi Hj. specialize (BX i j Hi ltac:(lia)). specialize (BY i j Hi ltac:(lia)). specialize (BZ i j Hi ltac:(lia)).
    split; [|split]; apply Rabs_le; lra.
  - destruct IM as [E|[E|[E|[]]]].
    + destruct TX as (i & j & i' & j' & H1 & H2 & H3 & H4 & E1 & E2). exists X, i, j, i', j'. rewrite E1, E2.
      repeat (split; [first [solve [auto] | lia]|]). lra.
    + destruct TY as (i & j & i' & j' & H1 & H2 & H3 & H4 & E1 & E2). exists Y, i, j, i', j'. rewrite E1, E2.
      repeat (split; [first [solve [auto] | lia]|]). lra.
    + destruct TZ as (i & j & i' & j' & H1 & H2 & H3 & H4 & E1 & E2). exists W, i, j, i', j'. rewrite E1, E2.
      repeat (split; [first [solve [auto] | lia]|]). lra.
Qed.

(** ** Theorems *)

(** plot_mag_on_sphere of an array draws it as a surface. *)
Theorem C58_plot_mag_on_sphere : forall T nrows ncols rho, 1 <= nrows -> 1 <= ncols -> is_arr T nrows ncols rho ->
  exists ds, plot_mag_on_sphere true T = Ok ds /\ draws_surface ds nrows ncols rho.
Proof.
  intros T nrows ncols rho Hr Hc H. pose proof H as (T1 & T2 & _). unfold plot_mag_on_sphere, matplotlibensure. rewrite T1, T2.
  now apply surface_ok.
Qed.
Print Assumptions C58_plot_mag_on_sphere.

(** What such a drawing is: every point lies at distance |rho| from the
    origin, in the direction of its grid angles; the seam is closed; the first
    and last rows are single directions, the two poles. *)
Theorem C58_geometry : forall ds nrows ncols rho, 2 <= nrows -> 1 <= ncols -> draws_surface ds nrows ncols rho ->
  exists X Y W rest, ds = DSurface X Y W :: rest /\
    (forall i j, 0 <= i < nrows -> 0 <= j < ncols -> (raget X i j ^ 2 + raget Y i j ^ 2 + raget W i j ^ 2 = rho i j ^ 2)%R) /\
    (forall i, 0 <= i < nrows -> raget X i ncols = raget X i 0 /\ raget Y i ncols = raget Y i 0 /\ raget W i ncols = raget W i 0) /\
    (forall j, 0 <= j < ncols -> raget X 0 j = 0%R /\ raget Y 0 j = 0%R /\ raget W 0 j = rho 0 j /\
       raget X (nrows - 1) j = 0%R /\ raget Y (nrows - 1) j = 0%R /\ raget W (nrows - 1) j = Ropp (rho (nrows - 1) j)).
Proof.
  intros ds nrows ncols rho Hr Hc (X & Y & W & cx & cy & cz & h & -> & (_ & _ & _ & AX) & (_ & _ & _ & AY) & (_ & _ & _ & AZ) & _).
  assert (T0 : theta_at nrows 0 = 0%R) by (unfold theta_at, Rdiv; ring).
  assert (TN : theta_at nrows (nrows - 1) = PI).
  { unfold theta_at. assert (IZR (nrows - 1) <> 0)%R by (apply not_0_IZR; lia). field. auto. }
  assert (PN : phi_at ncols ncols = (2 * PI)%R).
  { unfold phi_at. assert (IZR ncols <> 0)%R by (apply not_0_IZR; lia). field. auto. }
  assert (P0 : phi_at ncols 0 = 0%R) by (unfold phi_at, Rdiv; ring).
  exists X, Y, W. eexists. split; [reflexivity|]. split; [|split].
  - intros i j Hi Hj. rewrite AX, AY, AZ by lia. rewrite Z.mod_small by lia. set (t := theta_at nrows i). set (p := phi_at ncols j).
    pose proof (sin2_cos2 t) as S1. pose proof (sin2_cos2 p) as S2. unfold Rsqr in *.
    transitivity (rho i j ^ 2 * (sin t * sin t * (sin p * sin p + cos p * cos p) + cos t * cos t))%R; [ring|]. rewrite S2.
    replace (sin t * sin t * 1 + cos t * cos t)%R with 1%R by lra. ring.
  - intros i Hi. rewrite !AX, !AY, !AZ by lia. rewrite Z.mod_same, Z.mod_small by lia. rewrite PN, P0.
    rewrite cos_2PI, sin_2PI, cos_0, sin_0. auto.
  - intros j Hj. rewrite !AX, !AY, !AZ by lia. rewrite !Z.mod_small by lia. rewrite T0, TN, sin_0, cos_0, sin_PI, cos_PI.
    repeat split; ring.
Qed.
Print Assumptions C58_geometry.

Lemma vget_map_fst (v : list C) i : vget 0%R (map fst v) i = fst (vget (RtoC 0) v i).
Proof. unfold vget. destruct (i <? 0); [reflexivity|]. apply (map_nth fst v (RtoC 0) (Z.to_nat i)). Qed.
Lemma raget_re a i j : raget (re_arr a) i j = fst (mget RN a i j).
Proof. exact (vget_map_fst (mt_dat RN a) (i * mt_nc RN a + j)). Qed.
Lemma re_arr_make nr nc (f : Z -> Z -> C) g : 0 <= nr -> 0 <= nc -> (forall i j, 0 <= i < nr -> 0 <= j < nc -> fst (f i j) = g i j) ->
  is_arr (re_arr (mmake RN nr nc f)) nr nc g.
Proof.
  intros H1 H2 E. split; [reflexivity|]. split; [reflexivity|]. split.
  - unfold re_arr. cbn [ra_dat mmake mt_dat]. unfold zlen. rewrite map_length. change (Z.of_nat (List.length ?l)) with (zlen l). apply zlen_vmake'. nia.
  - intros i j Hi Hj. rewrite raget_re. rewrite (mget_mmake RN nr nc f i j Hi Hj). auto.
Qed.
Lemma p_array_nr d : 1 <= mt_nr RN d -> mt_nr RN (p_array RN d) = p_nrows RN d /\ 1 <= p_nrows RN d.
Proof.
  intros H. unfold p_array, mrows, p_nrows. cbn [mt_nr mmake]. pose proof (Z.div_pos (mt_nr RN d) 2). 
  assert (mt_nr RN d / 2 + 1 <= mt_nr RN d \/ mt_nr RN d = 1).
  { destruct (Z.eq_dec (mt_nr RN d) 1); [auto|]. left. pose proof (Z.div_mod (mt_nr RN d) 2). pose proof (Z.mod_pos_bound (mt_nr RN d) 2). lia. }
  destruct H1 as [H1|H1]; [lia|]. rewrite H1. cbn. lia.
Qed.

(** plot_sphere_mag of a scalar pattern: the distance is |p.array[i,j]|. *)
Theorem C58_plot_sphere_mag_scalar : forall d : mat RN, 1 <= mt_nr RN d -> 1 <= mt_nc RN d ->
  exists ds, plot_sphere_mag true (OSP RN d) = Ok ds /\
    draws_surface ds (p_nrows RN d) (p_ncols RN d) (fun i j => Cmod (mget RN (p_array RN d) i j)).
Proof.
  intros d Hr Hc. destruct (p_array_nr d Hr) as [E Hp]. unfold plot_sphere_mag, matplotlibensure, sp_mag. cbn [bind].
  unfold p_ncols. destruct (Z.eqb_spec (mt_nc RN d) 0); [lia|].
  apply surface_ok; [lia|lia|]. unfold mmap1. rewrite E. change (mt_nc RN (p_array RN d)) with (mt_nc RN d).
  apply re_arr_make; try lia. intros i j _ _. unfold habs. now rewrite cabs_RN.
Qed.
Print Assumptions C58_plot_sphere_mag_scalar.

(** plot_sphere_mag of a transverse pattern: sqrt(|theta|^2 + |phi|^2). *)
Theorem C58_plot_sphere_mag_transverse : forall v : tpatt RN,
  mt_nr RN (tp_t RN v) = mt_nr RN (tp_p RN v) -> mt_nc RN (tp_t RN v) = mt_nc RN (tp_p RN v) ->
  1 <= mt_nr RN (tp_t RN v) -> 1 <= mt_nc RN (tp_t RN v) ->
  exists ds, plot_sphere_mag true (OTP RN v) = Ok ds /\
    draws_surface ds (p_nrows RN (tp_t RN v)) (p_ncols RN (tp_t RN v))
      (fun i j => sqrt (Cmod (mget RN (p_array RN (tp_t RN v)) i j) ^ 2 + Cmod (mget RN (p_array RN (tp_p RN v)) i j) ^ 2)).
Proof.
  intros v E1 E2 Hr Hc. destruct (proj2 C22_mag_patterns v E1 E2) as (a & b & _ & Eb & A1 & A2 & B1 & B2 & V).
  destruct (p_array_nr _ Hr) as [EN Hp].
  unfold plot_sphere_mag, matplotlibensure. rewrite Eb. cbn [bind].
  unfold p_ncols. destruct (Z.eqb_spec (mt_nc RN (tp_t RN v)) 0); [lia|].
  apply surface_ok; [lia|lia|].
  assert (W : mat_wf RN b).
  { cbn [sp_mag sp_mag2 bind] in Eb. injection Eb as <-. apply mmake_wf; cbn [mzip mmap1 mmake mt_nr mt_nc p_array mrows]; lia. }
  destruct W as (_ & _ & W). split; [cbn; congruence|]. change (mt_nc RN (p_array RN (tp_t RN v))) with (mt_nc RN (tp_t RN v)) in *.
  split; [cbn; congruence|]. split.
  - unfold re_arr. cbn [ra_dat]. unfold zlen in *. rewrite map_length. etransitivity; [exact W|]. congruence.
  - intros i j Hi Hj. rewrite raget_re. destruct (V i j) as [_ Q]; [lia|lia|]. cbv zeta in Q. 
    transitivity (fst (RtoC (sqrt (Cmod (mget RN (p_array RN (tp_t RN v)) i j) ^ 2 + Cmod (mget RN (p_array RN (tp_p RN v)) i j) ^ 2))));
      [exact (f_equal fst Q)|reflexivity].
Qed.
Print Assumptions C58_plot_sphere_mag_transverse.

(** Anything else is rejected. *)
Theorem C58_plot_sphere_mag_errors :
  (forall c : scoefs RN, valid RN c -> exists msg, plot_sphere_mag true (OSC RN c) = Raise (AttributeError msg)) /\
  (forall c : vcoefs RN, vvalid RN c -> exists msg, plot_sphere_mag true (OVC RN c) = Raise (AttributeError msg)) /\
  (exists msg, plot_sphere_mag true (OOther RN) = Raise (TypeError msg)) /\
  (forall d : mat RN, mt_nc RN d = 0 -> plot_sphere_mag true (OSP RN d) = Raise ZeroDivisionError) /\
  (forall T : rarr, ra_nc T = 0 -> plot_mag_on_sphere true T = Raise IndexError).
Proof.
  split; [|split; [|split; [|split]]].
  - intros c Hv. destruct (proj2 (C22_abs_mag_scalar (sp_mag RN) (or_intror eq_refl)) c Hv) as (r & E & _).
    unfold plot_sphere_mag, matplotlibensure. rewrite E. eexists. reflexivity.
  - intros c Hv. destruct (C22_mag_vector_coefs c Hv) as (a & b & _ & E & _).
    unfold plot_sphere_mag, matplotlibensure. rewrite E. eexists. reflexivity.
  - eexists. reflexivity.
  - intros d H. unfold plot_sphere_mag, matplotlibensure, sp_mag, p_ncols. cbn [bind]. now rewrite H.
  - intros T H. unfold plot_mag_on_sphere, matplotlibensure, sphere_surface. rewrite H. reflexivity.
Qed.
Print Assumptions C58_plot_sphere_mag_errors.

(** Synthesis then plot: the surface point in direction (theta_i, phi_j) is at
    distance |f(theta_i, phi_j)|, f the function expanded in the coefficients. *)
Theorem C58_synthesis_plot : forall be c f nrows ncols, either_backend be nrows -> valid RN c -> holds c f ->
  sc_nmax RN c + 2 <= nrows -> 2 * sc_mmax RN c + 2 <= ncols -> ncols mod 2 = 0 ->
  exists p ds rho, ispht be c (Some nrows) (Some ncols) = Ok p /\ plot_sphere_mag true (OSP RN p) = Ok ds /\
    draws_surface ds nrows ncols rho /\
    forall i j, 0 <= i < nrows -> 0 <= j < ncols ->
      rho i j = Cmod (harm_series (sc_nmax RN c) (sc_mmax RN c) f (theta_at nrows i) (phi_at ncols j)).
Proof.
  intros be c f nrows ncols Hb Hv Hf H1 H2 H3. pose proof (proj1 (valid_wf RN c) Hv) as [[G1 G2] _].
  destruct (C24_either_backend be c f nrows ncols Hb Hv Hf H1 H2 H3) as (p & E & P1 & P2 & Q1 & Q2 & V).
  assert (1 <= mt_nr RN p).
  { unfold p_nrows in P1. assert (mt_nr RN p / 2 >= 1) by lia. pose proof (Z.div_mod (mt_nr RN p) 2). pose proof (Z.mod_pos_bound (mt_nr RN p) 2). lia. }
  destruct (C58_plot_sphere_mag_scalar p) as (ds & Ed & D); auto; [unfold p_ncols in P2; lia|].
  rewrite P1, P2 in D. exists p, ds. eexists. split; [exact E|]. split; [exact Ed|]. split; [exact D|].
  intros i j Hi Hj. cbv beta. f_equal. exact (V i j Hi Hj).
Qed.
Print Assumptions C58_synthesis_plot.

(** simple_plot(n, m) draws |Y_n^m| for every mode of a 48 x 48 set and
    raises AttributeError for every other pair. *)
Theorem C58_simple_plot : forall be n m, either_backend be 100 ->
  (is_mode 48 48 n m -> exists ds rho, simple_plot true be n m = Ok ds /\ draws_surface ds 100 100 rho /\
     forall i j, 0 <= i < 100 -> 0 <= j < 100 -> rho i j = Cmod (sph_harm n m (theta_at 100 i) (phi_at 100 j))) /\
  (~ is_mode 48 48 n m -> exists msg, simple_plot true be n m = Raise (AttributeError msg)).
Proof.
  intros be n m Hb. destruct (C14_zeros_ones RN 48 48 ltac:(lia)) as [(c & Ec & Vc & N1 & N2 & R) _].
  split.
  - intros Hm. pose proof (proj1 (valid_wf RN c) Vc) as Wc.
    assert (Hm' : is_mode (sc_nmax RN c) (sc_mmax RN c) n m) by (rewrite N1, N2; exact Hm).
    destruct (sc_set_elem_ok RN c n m (RtoC 1) Wc Hm') as (c' & E & W' & M1 & M2 & HV).
    assert (V' : valid RN c') by now apply valid_wf.
    set (f := fun a b : Z => if (a =? n) && (b =? m) then RtoC 1 else RtoC 0).
    assert (Hf : holds c' f).
    { intros a b Hab. apply reads_iff; auto. split; [auto|]. rewrite M1, M2 in Hab. rewrite HV by auto. unfold f.
      destruct ((a =? n) && (b =? m)) eqn:EE; [reflexivity|].
      assert (Hab' := Hab). rewrite N1, N2 in Hab'. specialize (R a b Hab'). apply reads_inv in R as [_ R]; auto. }
    destruct (C24_either_backend be c' f 100 100 Hb V' Hf) as (p & Ep & P1 & P2 & Q1 & Q2 & V); try lia.
    rewrite M1, M2, N1, N2 in V.
    destruct (C58_plot_mag_on_sphere (re_arr (mmap1 RN (habs RN) (p_array RN p))) 100 100 (fun i j => Cmod (mget RN (p_array RN p) i j))) as (ds & Ed & D); try lia.
    { unfold mmap1. rewrite Q1, Q2. apply re_arr_make; try lia. intros i j _ _. unfold habs. now rewrite cabs_RN. }
    exists ds. eexists. split; [|split; [exact D|]].
    + unfold simple_plot, matplotlibensure. rewrite Ec. cbn [bind sc_setitem lift_res]. rewrite E. cbn [lift_res bind]. rewrite Ep. cbn [bind]. exact Ed.
    + intros i j Hi Hj. cbv beta. f_equal. etransitivity; [exact (V i j Hi Hj)|]. unfold harm_series.
      destruct Hm as (K1 & K2 & K3).
      rewrite (sumC_single _ _ m) by first [lia | intros k Hk Ne; apply sumC_zero; intros k' _; unfold f; destruct (Z.eqb_spec k m); [lia|]; rewrite andb_false_r; ring].
      rewrite (sumC_single _ _ n) by first [lia | intros k Hk Ne; unfold f; destruct (Z.eqb_spec k n); [lia|]; cbn [andb]; ring].
      unfold f. rewrite !Z.eqb_refl. cbn [andb]. exact (Cmult_1_l _).
  - intros Hm. assert (Hm' : ~ is_mode (sc_nmax RN c) (sc_mmax RN c) n m) by (rewrite N1, N2; exact Hm).
    destruct (proj2 (C03_element_bounds RN c n m Vc) Hm') as [_ Q]. destruct (Q (VNum (RtoC 1))) as (msg & E).
    exists msg. unfold simple_plot, matplotlibensure. rewrite Ec. cbn [bind]. 
    rewrite E. reflexivity.
Qed.
Print Assumptions C58_simple_plot.

(** pcolor_coefs: cell (n,m) of the mesh, drawn on the unit square around the
    point (m, n), has the colour value |c[n,m]|, 0 where |m| > n; the colour
    scale runs from 0 to the largest coefficient.  The mesh has one more row
    and column of corner points, whose values are 0. *)
Theorem C58_pcolor_coefs : forall c : scoefs RN, valid RN c ->
  exists x y z vmax, pcolor_coefs true (AnyS RN c) =
      Ok [DMesh x y z 0 vmax; DTitle "Spherical Coefficients"; DXLabel "m"; DYLabel "n";
          DAxis (- IZR (sc_mmax RN c) - 1/2) (IZR (sc_mmax RN c) + 1/2) (- (1/2)) (IZR (sc_nmax RN c) + 1/2); DShow] /\
    let nr := sc_nmax RN c + 2 in let nc := 2 * sc_mmax RN c + 2 in
    is_arr x nr nc (fun _ j => IZR (j - sc_mmax RN c) - 1/2)%R /\ is_arr y nr nc (fun i _ => IZR i - 1/2)%R /\
    ra_nr z = nr /\ ra_nc z = nc /\
    (forall n m v, reads RN c n m v -> raget z n (m + sc_mmax RN c) = Cmod v) /\
    (forall i j, 0 <= i < nr -> 0 <= j < nc -> ~ is_mode (sc_nmax RN c) (sc_mmax RN c) i (j - sc_mmax RN c) -> raget z i j = 0%R) /\
    LInf_coef_s RN c = Ok vmax.
Proof.
  intros c Hv. pose proof (proj1 (valid_wf RN c) Hv) as Hw. pose proof Hw as [[G1 G2] Hl].
  destruct (sc_array_2d_ok RN c Hw) as (A & EA & N1 & N2 & VA).
  set (nmax := sc_nmax RN c) in *. set (mmax := sc_mmax RN c) in *.
  unfold pcolor_coefs, matplotlibensure. rewrite EA. cbn [bind]. fold nmax mmax.
  set (z0 := re_arr _).
  assert (A0 : is_arr z0 (nmax + 1) (2 * mmax + 1) (fun i j => if Z.abs (j - mmax) <=? i then Cmod (cval RN c i (j - mmax)) else 0%R)).
  { unfold z0, mmap1. rewrite N1, N2. apply re_arr_make; try lia. intros i j Hi Hj. unfold habs. rewrite cabs_RN.
    replace j with ((j - mmax) + mmax) at 1 by lia. rewrite VA by lia. destruct (Z.leb_spec (Z.abs (j - mmax)) i); [reflexivity|]. exact Cmod_0. }
  clearbody z0. destruct A0 as (S1 & S2 & _ & V0). rewrite S1, S2, Z.eqb_refl. cbn [negb].
  set (z1 := ramake (nmax + 1 + 1) (2 * mmax + 1) _). change (ra_nr z1) with (nmax + 1 + 1). change (ra_nc z1) with (2 * mmax + 1).
  destruct (Z.eqb_spec (nmax + 1 + 1) (nmax + 2)); [|lia]. cbn [negb].
  set (z := ramake (nmax + 1 + 1) (2 * mmax + 1 + 1) _).
  set (g := fun i j => if (Z.abs (j - mmax) <=? i) && (i <=? nmax) && (j <=? 2 * mmax) then Cmod (cval RN c i (j - mmax)) else 0%R).
  assert (AZ : is_arr z (nmax + 1 + 1) (2 * mmax + 1 + 1) g).
  { apply ramake_arr; try lia. intros i j Hi Hj. unfold g. destruct (Z.ltb_spec j (2 * mmax + 1)).
    - unfold z1. rewrite raget_make by lia. destruct (Z.ltb_spec i (nmax + 1)).
      + rewrite V0 by lia. destruct (Z.leb_spec i nmax); [|lia]. destruct (Z.leb_spec j (2 * mmax)); [|lia]. now rewrite !andb_true_r.
      + destruct (Z.leb_spec i nmax); [lia|]. now rewrite andb_false_r.
    - destruct (Z.leb_spec j (2 * mmax)); [lia|]. now rewrite andb_false_r. }
  clearbody z. clear z1.
  destruct (arr_range z _ _ _ AZ) as (zM & zm & EM & Em & BZ & TZ); try lia. rewrite EM, Em. cbn [bind].
  pose proof AZ as (Z1 & Z2 & _ & VZ).
  assert (G0 : forall i j, (0 <= g i j)%R) by (intros i j; unfold g; destruct (_ && _ && _); [apply Cmod_ge_0|lra]).
  assert (zm = 0%R).
  { destruct TZ as (_ & _ & i' & j' & _ & _ & Hi & Hj & _ & Ez). rewrite VZ in Ez by lia. apply Rle_antisym; [|rewrite <- Ez; apply G0].
    specialize (BZ (nmax + 1) 0 ltac:(lia) ltac:(lia)). rewrite VZ in BZ by lia. unfold g in BZ. destruct (Z.leb_spec (nmax + 1) nmax); [lia|].
    rewrite andb_false_r in BZ. cbn [andb] in BZ. lra. }
  subst zm.
  set (xs := map _ (zrange (- mmax) (mmax + 2))). set (ys := map _ (zrange 0 (nmax + 2))).
  assert (LX : zlen xs = 2 * mmax + 2) by (unfold xs; unfold zlen; rewrite map_length; change (Z.of_nat (List.length ?l)) with (zlen l); rewrite zlen_zrange; lia).
  assert (LY : zlen ys = nmax + 2) by (unfold ys; unfold zlen; rewrite map_length; change (Z.of_nat (List.length ?l)) with (zlen l); rewrite zlen_zrange; lia).
  assert (AX : is_arr (ramake (zlen ys) (zlen xs) (fun _ j => vget 0%R xs j)) (nmax + 2) (2 * mmax + 2) (fun _ j => IZR (j - mmax) - 1/2)%R).
  { rewrite LX, LY. apply ramake_arr; try lia. intros i j Hi Hj. unfold xs. rewrite (vget_map _ 0 0%R) by (rewrite zlen_zrange; lia).
    rewrite vget_zrange by lia. replace (- mmax + j) with (j - mmax) by lia. lra. }
  assert (AY : is_arr (ramake (zlen ys) (zlen xs) (fun i _ => vget 0%R ys i)) (nmax + 2) (2 * mmax + 2) (fun i _ => IZR i - 1/2)%R).
  { rewrite LX, LY. apply ramake_arr; try lia. intros i j Hi Hj. unfold ys. rewrite (vget_map _ 0 0%R) by (rewrite zlen_zrange; lia).
    rewrite vget_zrange by lia. replace (0 + i) with i by lia. lra. }
  clearbody xs ys.
  set (x := ramake (zlen ys) (zlen xs) (fun _ j => vget 0%R xs j)) in *. set (y := ramake (zlen ys) (zlen xs) (fun i _ => vget 0%R ys i)) in *.
  clearbody x y.
  destruct (arr_range x _ _ _ AX) as (xM & xm & EXM & EXm & BX & TX); try lia.
  destruct (arr_range y _ _ _ AY) as (yM & ym & EYM & EYm & BY & TY); try lia.
  rewrite EXM, EXm, EYM, EYm. cbn [bind].
  pose proof AX as (_ & _ & _ & VX). pose proof AY as (_ & _ & _ & VY).
  assert (Ex : xm = (- IZR mmax - 1/2)%R /\ xM = (IZR mmax + 1/2)%R).
  { pose proof (BX 0 0 ltac:(lia) ltac:(lia)) as B0. pose proof (BX 0 (2 * mmax + 1) ltac:(lia) ltac:(lia)) as B1.
    destruct TX as (i & j & i' & j' & Hi & Hj & Hi' & Hj' & E1 & E2). rewrite VX in E1, E2, B0, B1 by lia.
    assert (L1 : (IZR (j - mmax) <= IZR (mmax + 1))%R) by (apply IZR_le; lia). assert (L2 : (IZR (- mmax) <= IZR (j' - mmax))%R) by (apply IZR_le; lia).
    replace (0 - mmax) with (- mmax) in B0 by lia. replace (2 * mmax + 1 - mmax) with (mmax + 1) in B1 by lia.
    rewrite opp_IZR in *. rewrite plus_IZR in *. lra. }
  assert (Ey : ym = (- (1/2))%R /\ yM = (IZR nmax + 1/2)%R).
  { pose proof (BY 0 0 ltac:(lia) ltac:(lia)) as B0. pose proof (BY (nmax + 1) 0 ltac:(lia) ltac:(lia)) as B1.
    destruct TY as (i & j & i' & j' & Hi & Hj & Hi' & Hj' & E1 & E2). rewrite VY in E1, E2, B0, B1 by lia.
    assert (L1 : (IZR i <= IZR (nmax + 1))%R) by (apply IZR_le; lia). assert (L2 : (0 <= IZR i')%R) by (apply IZR_le; lia).
    rewrite plus_IZR in *. lra. }
  destruct Ex as [-> ->], Ey as [-> ->].
  exists x, y, z, zM. split; [reflexivity|]. cbv zeta. split; [exact AX|]. split; [exact AY|]. split; [lia|]. split; [lia|].
  split; [|split].
  - intros n m v R. pose proof (reads_mode _ _ _ _ _ R) as M. apply reads_inv in R as [_ R]; auto. destruct M as (M1 & M2 & M3). fold nmax in M2. fold mmax in M3.
    rewrite VZ by lia. unfold g. replace (m + mmax - mmax) with m by lia.
    destruct (Z.leb_spec (Z.abs m) n); [|lia]. destruct (Z.leb_spec n nmax); [|lia]. destruct (Z.leb_spec (m + mmax) (2 * mmax)); [|lia].
    cbn [andb]. now rewrite R.
  - intros i j Hi Hj N. rewrite VZ by lia. unfold g. destruct (Z.leb_spec (Z.abs (j - mmax)) i); [|reflexivity].
    destruct (Z.leb_spec i nmax); [|reflexivity]. destruct (Z.leb_spec j (2 * mmax)); [|reflexivity]. exfalso. apply N. unfold is_mode. lia.
  - assert (NE : sc_vec RN c <> []).
    { intros E. rewrite E in Hl. unfold zlen in Hl. cbn in Hl. fold nmax mmax in Hl. pose proof (ncoef_mono nmax 0 mmax). rewrite ncoef_0 in *. lia. }
    destruct (linf_spec (sc_vec RN c) NE) as (r & E & (B & v & Iv & Ev)). unfold LInf_coef_s. rewrite E. f_equal. apply Rle_antisym.
    + rewrite Ev. apply (In_vget (RtoC 0)) in Iv as (k & Hk & <-).
      change (@zlen C (sc_vec RN c)) with (zlen (sc_vec RN c)) in Hk. rewrite Hl in Hk. destruct (pos_surj nmax mmax k (conj G1 G2) Hk) as (n & m & (M1 & M2 & M3) & <-).
      specialize (BZ n (m + mmax) ltac:(lia) ltac:(lia)). rewrite VZ in BZ by lia. unfold g in BZ. replace (m + mmax - mmax) with m in BZ by lia.
      destruct (Z.leb_spec (Z.abs m) n); [|lia]. destruct (Z.leb_spec n nmax); [|lia]. destruct (Z.leb_spec (m + mmax) (2 * mmax)); [|lia]. apply BZ.
    + destruct TZ as (i & j & _ & _ & Hi & Hj & _ & _ & <- & _). rewrite VZ by lia. unfold g.
      assert (R0 : (0 <= r)%R) by (rewrite Ev; apply Cmod_ge_0).
      destruct (_ && _ && _) eqn:EB; [|exact R0]. apply andb_prop in EB as [EB B3]. apply andb_prop in EB as [B1 B2].
      apply B. apply (vget_In' (c0 RN)). fold nmax. rewrite Hl. apply pos_range; [split; lia|]. unfold is_mode. lia.
Qed.
Print Assumptions C58_pcolor_coefs.

Lemma cell_eq nc i j i' j' : 0 <= j < nc -> 0 <= j' < nc -> (i * nc + j =? i' * nc + j') = (i =? i') && (j =? j').
Proof.
  intros Hj Hj'. destruct (Z.eqb_spec i i') as [->|N].
  - destruct (Z.eqb_spec j j') as [->|N']; cbn [andb]; [apply Z.eqb_refl|]. destruct (Z.eqb_spec (i' * nc + j) (i' * nc + j')); [lia|reflexivity].
  - cbn [andb]. destruct (Z.eqb_spec (i * nc + j) (i' * nc + j')) as [E|]; [|reflexivity]. exfalso. apply N.
    assert (Q : (i * nc + j) / nc = (i' * nc + j') / nc) by now rewrite E. rewrite !Z.div_add_l, !Z.div_small in Q by lia. lia.
Qed.

(** plot_coefs draws one line per m, with n = 0..nmax+1 on the abscissa: the
    height is |c[n,m]| at every mode, infinity (nothing drawn) for n < |m| and 0
    at the added point nmax+1.  The abscissa, n, is labelled m. *)
Theorem C58_plot_coefs : forall c : scoefs RN, valid RN c ->
  exists lines, plot_coefs true (AnyS RN c) = Ok (lines ++ [DXLabel "m"; DShow]) /\
    zlen lines = 2 * sc_mmax RN c + 1 /\
    forall m, Z.abs m <= sc_mmax RN c -> exists ys,
      vget DShow lines (m + sc_mmax RN c) = DLine (map IZR (zrange 0 (sc_nmax RN c + 2))) ys /\ zlen ys = sc_nmax RN c + 2 /\
      (forall n v, reads RN c n m v -> vget None ys n = Some (Cmod v)) /\
      (forall n, 0 <= n < Z.abs m -> vget (Some 0%R) ys n = None) /\
      vget None ys (sc_nmax RN c + 1) = Some 0%R.
Proof.
  intros c Hv. pose proof (proj1 (valid_wf RN c) Hv) as Hw. pose proof Hw as [[G1 G2] Hl].
  destruct (sc_array_2d_ok RN c Hw) as (A & EA & N1 & N2 & VA).
  unfold plot_coefs, matplotlibensure. rewrite EA. cbn [bind]. rewrite N1, N2.
  remember (sc_nmax RN c) as nmax eqn:En. remember (sc_mmax RN c) as mmax eqn:Em.
  set (nr := nmax + 1) in *. set (nc := 2 * mmax + 1) in *.
  set (P := fun (n m : Z) (z : list (option C)) => zlen z = nr * nc /\ forall i j, 0 <= i < nr -> 0 <= j < nc ->
     vget (Some (RtoC 0)) z (i * nc + j) = if ((i <? n) || ((i =? n) && (Z.abs (j - mmax) <? m))) && (i <? Z.abs (j - mmax)) then None else Some (mget RN A i j)).
  match goal with |- context[mfor (zrange 0 nr) ?f ?s] => destruct (mfor_inv (fun n z => P n 1 z) 0 nr f s) as (z & Ez & Lz & Vz) end.
  - lia.
  - split; [apply zlen_vmake'; unfold nr, nc; nia|]. intros i j Hi Hj. rewrite vget_vmake by nia.
    destruct (Z.ltb_spec i 0); [lia|]. destruct (Z.ltb_spec (Z.abs (j - mmax)) 1); destruct (Z.eqb_spec i 0); cbn [orb andb];
      try (destruct (Z.ltb_spec i (Z.abs (j - mmax))); [lia|]); cbn [andb]; unfold mget; rewrite N2; reflexivity.
  - intros n z Hn Pz.
    match goal with |- exists s', mfor (zrange 1 (mmax + 1)) ?f ?s = _ /\ _ => destruct (mfor_inv (fun m z => P n m z) 1 (mmax + 1) f s) as (z' & Ez & Lz & Vz) end.
    + lia.
    + exact Pz.
    + intros m s Hm (Ls & Vs). rewrite (Z.abs_eq m) by lia. destruct (Z.gtb_spec m n) as [Hgt|Hle].
      * eexists. split; [reflexivity|]. split; [rewrite !zlen_vset; exact Ls|]. intros i j Hi Hj.
        rewrite vget_vset by (rewrite zlen_vset, Ls; unfold nr, nc in *; nia). rewrite vget_vset by (rewrite Ls; unfold nr, nc in *; nia).
        rewrite !cell_eq by (unfold nc in *; lia). rewrite Vs by auto.
        destruct (Z.eqb_spec i n) as [->|Ni]; cbn [andb orb].
        -- destruct (Z.eqb_spec j (- m + mmax)) as [->|Nj].
           { destruct (Z.ltb_spec (Z.abs (- m + mmax - mmax)) (m + 1)); [|lia]. destruct (Z.ltb_spec n (Z.abs (- m + mmax - mmax))); [|lia]. now rewrite orb_true_r. }
           destruct (Z.eqb_spec j (m + mmax)) as [->|Nj'].
           { destruct (Z.ltb_spec (Z.abs (m + mmax - mmax)) (m + 1)); [|lia]. destruct (Z.ltb_spec n (Z.abs (m + mmax - mmax))); [|lia]. now rewrite orb_true_r. }
           replace (Z.abs (j - mmax) <? m + 1) with (Z.abs (j - mmax) <? m); [reflexivity|].
           destruct (Z.ltb_spec (Z.abs (j - mmax)) m), (Z.ltb_spec (Z.abs (j - mmax)) (m + 1)); lia.
        -- reflexivity.
      * eexists. split; [reflexivity|]. split; [exact Ls|]. intros i j Hi Hj. rewrite Vs by auto.
        destruct (Z.eqb_spec i n) as [->|Ni]; cbn [andb orb]; [|reflexivity].
        destruct (Z.ltb_spec n (Z.abs (j - mmax))) as [L|L]; [|now rewrite !andb_false_r]. rewrite !andb_true_r.
        replace (Z.abs (j - mmax) <? m) with false by (symmetry; apply Z.ltb_ge; lia). 
        replace (Z.abs (j - mmax) <? m + 1) with false by (symmetry; apply Z.ltb_ge; lia). reflexivity.
    + exists z'. split; [exact Ez|]. split; [exact Lz|]. intros i j Hi Hj. rewrite Vz by auto.
      destruct (Z.ltb_spec (Z.abs (j - mmax)) (mmax + 1)); [|unfold nc in *; lia]. rewrite andb_true_r.
      destruct (Z.eqb_spec i (n + 1)) as [E|N].
      * destruct (Z.ltb_spec i (n + 1)); [lia|]. destruct (Z.ltb_spec i n); [lia|]. destruct (Z.eqb_spec i n); [lia|]. cbn [orb andb].
        destruct (Z.ltb_spec (Z.abs (j - mmax)) 1); cbn [andb]; [|reflexivity]. destruct (Z.ltb_spec i (Z.abs (j - mmax))); [lia|reflexivity].
      * cbn [andb]. rewrite orb_false_r. replace (i <? n + 1) with ((i <? n) || (i =? n)); [reflexivity|].
        destruct (Z.ltb_spec i n), (Z.eqb_spec i n), (Z.ltb_spec i (n + 1)); cbn; lia.
  - rewrite Ez. cbn [bind].
    unfold nc at 1. rewrite Z.eqb_refl. cbn [negb].
    eexists. split; [reflexivity|]. split.
    { unfold zlen. rewrite map_length. change (Z.of_nat (List.length ?l)) with (zlen l). rewrite zlen_zrange. unfold nc. lia. }
    intros m Hm. eexists. split.
    { rewrite (vget_map _ 0 DShow) by (rewrite zlen_zrange; unfold nc; lia). rewrite vget_zrange by (unfold nc; lia). reflexivity. }
    split; [rewrite zlen_vmake'; unfold nr; lia|].
    assert (LA : zlen (z ++ vmake (2 * mmax + 1) (fun _ => Some (RtoC 0))) = (nr + 1) * nc).
    { unfold zlen. rewrite app_length, Nat2Z.inj_add. change (Z.of_nat (List.length ?l)) with (zlen l). rewrite Lz. rewrite zlen_vmake' by lia. unfold nc. lia. }
    assert (GA : forall d n, 0 <= n <= nmax + 1 ->
       vget d (vmake (nr + 1) (fun i => vget (Some 0%R) (map (option_map Cmod) (z ++ vmake (2 * mmax + 1) (fun _ => Some (RtoC 0)))) (i * nc + (0 + (m + mmax))))) n =
       option_map Cmod (if n <? nr then vget (Some (RtoC 0)) z (n * nc + (m + mmax)) else Some (RtoC 0))).
    { intros d n Hn. rewrite vget_vmake by (unfold nr; lia). replace (0 + (m + mmax)) with (m + mmax) by lia.
      rewrite (vget_map _ (Some (RtoC 0)) (Some 0%R)) by (rewrite LA; unfold nr, nc in *; nia). f_equal. rewrite vget_app by (unfold nr, nc in *; nia).
      rewrite Lz. destruct (Z.ltb_spec n nr).
      - destruct (Z.ltb_spec (n * nc + (m + mmax)) (nr * nc)); [reflexivity|unfold nr, nc in *; nia].
      - destruct (Z.ltb_spec (n * nc + (m + mmax)) (nr * nc)); [unfold nr, nc in *; nia|]. rewrite vget_vmake; [reflexivity|]. unfold nr, nc in *. assert (n = nmax + 1) by lia. subst n. nia. }
    split; [|split].
    + intros n v R. pose proof (reads_mode _ _ _ _ _ R) as M. apply reads_inv in R as [_ R]; auto. destruct M as (M1 & M2 & M3). try rewrite <- En in M2; try rewrite <- En in M1. 
      rewrite GA by lia. destruct (Z.ltb_spec n nr); [|unfold nr in *; lia]. rewrite Vz by (unfold nr, nc in *; lia).
      replace (m + mmax - mmax) with m by lia. destruct (Z.ltb_spec n (Z.abs m)); [lia|]. rewrite andb_false_r. cbn [option_map]. f_equal.
      rewrite VA by lia. destruct (Z.leb_spec (Z.abs m) n); [|lia]. now rewrite R.
    + intros n Hn. rewrite GA by lia. destruct (Z.ltb_spec n nr); [|unfold nr in *; lia]. rewrite Vz by (unfold nr, nc in *; lia).
      replace (m + mmax - mmax) with m by lia. destruct (Z.ltb_spec n nr); [|lia]. destruct (Z.ltb_spec n (Z.abs m)); [|lia]. reflexivity.
    + rewrite GA by lia. fold nr. rewrite Z.ltb_irrefl. cbn [option_map]. f_equal. apply Cmod_0.
Qed.
Print Assumptions C58_plot_coefs.

(** Vector coefficients cannot be plotted. *)
Theorem C58_vector_coefs_rejected : forall v : vcoefs RN, vvalid RN v ->
  (exists msg, pcolor_coefs true (AnyV RN v) = Raise (ValueError msg)) /\
  (1 <= vc_mmax RN v -> exists msg, plot_coefs true (AnyV RN v) = Raise (TypeError msg)) /\
  (vc_mmax RN v = 0 -> exists msg, plot_coefs true (AnyV RN v) = Raise (ValueError msg)).
Proof.
  intros v Hv. pose proof (proj1 (vvalid_wf RN v) Hv) as (W1 & W2 & A1 & A2 & A3 & A4 & _). pose proof W1 as [[Hg1 Hg2] _].
  destruct (sc_array_2d_ok RN _ W1) as (A & EA & _). destruct (sc_array_2d_ok RN _ W2) as (B & EB & _).
  unfold pcolor_coefs, plot_coefs, matplotlibensure. rewrite EA, EB. cbn [bind]. split; [eexists; reflexivity|].
  rewrite A1, A2 in *. destruct (Z.leb_spec 0 (vc_nmax RN v)); [|lia]. cbn [andb]. split; intros H'.
  - destruct (Z.leb_spec 1 (vc_mmax RN v)); [|lia]. eexists; reflexivity.
  - destruct (Z.leb_spec 1 (vc_mmax RN v)); [lia|]. eexists; reflexivity.
Qed.
Print Assumptions C58_vector_coefs_rejected.

(** Without matplotlib every routine raises ImportError, whatever its arguments. *)
Theorem C58_no_matplotlib : forall T o be n m c, let e := Raise (PlainException "ImportError") in
  plot_mag_on_sphere false T = e /\ plot_sphere_mag false o = e /\ simple_plot false be n m = e /\ pcolor_coefs false c = e /\ plot_coefs false c = e.
Proof. intros. repeat split. Qed.
Print Assumptions C58_no_matplotlib.

(** ** Non-vacuity *)
Example C58_nonvacuous : is_arr (mkRA 2 2 [1; 2; 3; 4]%R) 2 2 (fun i j => IZR (2 * i + j + 1)) /\
  (exists ds, plot_mag_on_sphere true (mkRA 2 2 [1; 2; 3; 4]%R) = Ok ds) /\
  valid RN (mkSC RN [(1,0);(2,1);(3,0);(4,5)]%R 1 1) /\ is_mode 48 48 3 (-2) /\ ~ is_mode 48 48 2 3 /\ ~ is_mode 48 48 (-1) 0.
Proof.
  assert (H : is_arr (mkRA 2 2 [1; 2; 3; 4]%R) 2 2 (fun i j => IZR (2 * i + j + 1))).
  { split; [reflexivity|]. split; [reflexivity|]. split; [reflexivity|]. intros i j Hi Hj.
    assert (i = 0 \/ i = 1) as [-> | ->] by lia; assert (j = 0 \/ j = 1) as [-> | ->] by lia; reflexivity. }
  split; [exact H|]. split; [|split; [split; [cbn; lia|reflexivity]|unfold is_mode; lia]].
  destruct (C58_plot_mag_on_sphere _ 2 2 _ ltac:(lia) ltac:(lia) H) as (ds & E & _). exists ds. exact E.
Qed.
