(** * P_VSym: property C61: how vspht's coefficients follow the symmetries of
    the field. *)
From Coq Require Import ZArith List String Bool Lia Reals Lra Permutation.
From Coquelicot Require Import Coquelicot.
From Verif Require Import Py PyFacts Num Exact MCoefs SpecCoefs Obs CoefsFacts CoefsFacts2 CoefsFacts3 MPatt SpecPatt PattFacts Sums Harm
  MPysphi MOps Smooth Dft PysphiFacts TransFacts MTrans TransFacts2 TransFacts3 TransFacts4 SpecHarm HarmFacts VHarm
  P_Coefs P_Patt P_Trans P_Trans2 MCsphi P_Csphi SpecInt Integ Integ2 P_Integral P_Both Symm P_Sym VInteg P_VInteg.
Import ListNotations.
Open Scope Z_scope.

(** ** Lemmas *)
Definition comp_ok (d : mat RN) (nrows ncols : Z) : Prop :=
  mt_nr RN d = 2 * nrows - 2 /\ mt_nc RN d = ncols /\ 2 <= nrows /\ 2 <= ncols /\ ncols mod 2 = 0 /\ sphere_antisym RN d.
Lemma tpatt_comps p nrows ncols : tpatt_ok p nrows ncols -> comp_ok (tp_t RN p) nrows ncols /\ comp_ok (tp_p RN p) nrows ncols.
Proof. unfold tpatt_ok, comp_ok. tauto. Qed.
Lemma comp_arr p nrows ncols i j : comp_ok p nrows ncols -> 0 <= i < nrows -> 0 <= j < ncols -> arr p i j = pget p i j.
Proof.
  intros (H1 & H2 & H3 & H4 & H5 & H6) Hi Hj. unfold arr, pget, p_array, mrows, cget. 
  assert (p_nrows RN p = nrows) by now apply nrows_of. 
  rewrite mget_mmake by lia. rewrite !Z.mod_small by lia. reflexivity.
Qed.
Lemma comp_per p nrows ncols : comp_ok p nrows ncols -> forall i j, pget p (i mod (2 * nrows - 2)) (j mod ncols) = pget p i j.
Proof. intros (H1 & H2 & H3 & H4 & H5 & H6) i j. rewrite <- H1, <- H2. now rewrite pget_mod_l, pget_mod_r by lia. Qed.
Lemma comp_eqm p nrows ncols i j i' j' : comp_ok p nrows ncols -> i mod (2 * nrows - 2) = i' mod (2 * nrows - 2) -> j mod ncols = j' mod ncols ->
  pget p i j = pget p i' j'.
Proof. intros Hp E1 E2. rewrite <- (comp_per p nrows ncols Hp i j), <- (comp_per p nrows ncols Hp i' j'), E1, E2. reflexivity. Qed.
Lemma comp_anti p nrows ncols : comp_ok p nrows ncols -> forall i j, pget p (- i) (j + ncols / 2) = (- pget p i j)%C.
Proof.
  intros (H1 & H2 & H3 & H4 & H5 & H6). pose proof (half_even ncols H5) as Eb. apply pget_antisym; auto; lia.
Qed.
(** A component is determined by its array. *)
Lemma comp_fun p nrows ncols (g : Z -> Z -> C) : comp_ok p nrows ncols ->
  (forall i j i' j', i mod (2 * nrows - 2) = i' mod (2 * nrows - 2) -> j mod ncols = j' mod ncols -> g i j = g i' j') ->
  (forall i j, g (- i) (j + ncols / 2) = (- g i j)%C) ->
  (forall i j, 0 <= i < nrows -> 0 <= j < ncols -> arr p i j = g i j) -> forall i j, pget p i j = g i j.
Proof.
  intros Hp Hm Hs Ha i j. pose proof Hp as (H1 & H2 & H3 & H4 & H5 & H6).
  assert (P : forall i j, 0 <= i mod (2 * nrows - 2) < nrows -> pget p i j = g i j).
  { intros i0 j0 Hi. pose proof (Z.mod_pos_bound j0 ncols ltac:(lia)).
    transitivity (g (i0 mod (2 * nrows - 2)) (j0 mod ncols)); [|apply Hm; now rewrite Z.mod_mod by lia].
    rewrite <- Ha by lia. rewrite (comp_arr p nrows ncols) by (auto; lia). symmetry. now apply (comp_per p nrows ncols). }
  pose proof (Z.mod_pos_bound i (2 * nrows - 2) ltac:(lia)).
  destruct (Z_lt_le_dec (i mod (2 * nrows - 2)) nrows); [apply P; lia|].
  assert (Q : pget p (- i) (j + ncols / 2) = g (- i) (j + ncols / 2)).
  { apply P. pose proof (Z.mod_pos_bound (- i) (2 * nrows - 2) ltac:(lia)). split; [lia|]. rewrite Z.mod_opp_l_nz by lia. lia. }
  rewrite (comp_anti p nrows ncols Hp), Hs in Q.
  transitivity (- - pget p i j)%C; [ring|]. rewrite Q. ring.
Qed.

Lemma vgives_ext be p nmax mmax c1 c2 d1 d2 : (forall n m, is_mode nmax mmax n m -> 1 <= n -> c1 n m = d1 n m /\ c2 n m = d2 n m) ->
  vspht_gives be p nmax mmax c1 c2 -> vspht_gives be p nmax mmax d1 d2.
Proof.
  intros E (vc & A & B & C1 & D & F). exists vc. repeat (split; auto). intros n m Hm Hn. destruct (E n m Hm Hn) as [<- <-]. now apply F.
Qed.

(** The coefficients from the Fourier tables T and P of the two components. *)
Definition K1 (R B : Z) (T P : Z -> Z -> C) (n m : Z) : C := (An R (sLd B T P m) m n * nv n)%C.
Definition K2 (R B : Z) (T P : Z -> Z -> C) (n m : Z) : C := K1 R B (fun m k => - Ci * P m k)%C (fun m k => Ci * T m k)%C n m.
Lemma vgives_K be p R ncols nmax mmax : either_backend be R -> tpatt_ok p R ncols -> accepted R ncols nmax mmax ->
  vspht_gives be p nmax mmax (K1 R (ncols / 2) (Xt R (tp_t RN p)) (Xt R (tp_p RN p))) (K2 R (ncols / 2) (Xt R (tp_t RN p)) (Xt R (tp_p RN p))).
Proof.
  intros Hb (H1 & H2 & H3 & H4 & H5 & H6 & H7 & _ & _) (A1 & A2 & A3). pose proof (half_even ncols H7) as Eb.
  unfold K2, K1. apply (vgives_body be p R (ncols / 2)); auto; lia.
Qed.
Lemma K1_ext R B T T' P P' n m : (forall k, T m k = T' m k) -> (forall k, P m k = P' m k) -> K1 R B T P n m = K1 R B T' P' n m.
Proof. intros E1 E2. unfold K1. f_equal. apply An_ext. intros nu _. now apply sLd_ext. Qed.
Lemma K2_ext R B T T' P P' n m : (forall k, T m k = T' m k) -> (forall k, P m k = P' m k) -> K2 R B T P n m = K2 R B T' P' n m.
Proof. intros E1 E2. unfold K2. apply K1_ext; intros k; [now rewrite E2|now rewrite E1]. Qed.
Lemma K1_of R B T P m n f c : (forall k, sLd B T P m k = (c * f k)%C) -> K1 R B T P n m = (c * (An R f m n * nv n))%C.
Proof. intros E. unfold K1. rewrite (An_ext R _ (fun k => c * f k)%C) by auto. rewrite An_scal. ring. Qed.
Lemma mfix_in B m : - B < m < B -> mfix B m = m.
Proof. intros H. unfold mfix. destruct (Z.eqb_spec m B); lia. Qed.
Lemma sinF_sin1 F m k : sinF F m k = sin1 (F m) k. Proof. reflexivity. Qed.
Lemma K1_scal R B T P n m c : K1 R B (fun m k => c * T m k)%C (fun m k => c * P m k)%C n m = (c * K1 R B T P n m)%C.
Proof. apply K1_of. intros k. unfold sLd, sinF. ring. Qed.

Lemma K_dual R B T P n m : K1 R B (fun m k => - Ci * P m k)%C (fun m k => Ci * T m k)%C n m = K2 R B T P n m /\
  K2 R B (fun m k => - Ci * P m k)%C (fun m k => Ci * T m k)%C n m = K1 R B T P n m.
Proof.
  split; [reflexivity|]. unfold K2. apply K1_ext; intros k.
  - transitivity (- (Ci * Ci) * T m k)%C; [ring|rewrite Ci_Ci; ring].
  - transitivity (- (Ci * Ci) * P m k)%C; [ring|rewrite Ci_Ci; ring].
Qed.
Lemma K_roll R B T P T' P' n m r : (forall k, T' m k = r * T m k)%C -> (forall k, P' m k = r * P m k)%C ->
  K1 R B T' P' n m = (r * K1 R B T P n m)%C /\ K2 R B T' P' n m = (r * K2 R B T P n m)%C.
Proof.
  intros E1 E2. split.
  - rewrite (K1_ext R B T' (fun m k => r * T m k)%C P' (fun m k => r * P m k)%C) by auto. apply K1_scal.
  - unfold K2. rewrite <- K1_scal. apply K1_ext; intros k; [rewrite E2|rewrite E1]; ring.
Qed.
Lemma half_conj : Cconj (RtoC 1 / (RtoC 2 * Ci))%C = (- (RtoC 1 / (RtoC 2 * Ci)))%C.
Proof. apply injective_projections; cbn; field. Qed.
Lemma K1_conj R B T P T' P' n m : - B < m < B -> (forall k, T' m k = - sg m * Cconj (T (- m)%Z k))%C -> (forall k, P' m k = - sg m * Cconj (P (- m)%Z k))%C ->
  K1 R B T' P' n m = (- sg m * Cconj (K1 R B T P n (- m)))%C.
Proof.
  intros Hm E1 E2.
  assert (Nv : Cconj (nv n) = nv n) by (unfold nv; destruct (n =? 0); apply Cconj_R).
  unfold K1 at 2. rewrite Cconj_mult, Nv, <- An_conj, Z.opp_involutive.
  apply K1_of. intros k. unfold sLd. rewrite !mfix_in by lia. unfold sinF. rewrite E1, !E2.
  unfold Cminus. rewrite !Cconj_plus, !Cconj_opp, !Cconj_mult, !Cconj_plus, Cconj_opp, half_conj, !Cconj_R, opp_IZR, RtoC_opp. ring.
Qed.
Lemma K2_conj R B T P T' P' n m : - B < m < B -> (forall k, T' m k = - sg m * Cconj (T (- m)%Z k))%C -> (forall k, P' m k = - sg m * Cconj (P (- m)%Z k))%C ->
  K2 R B T' P' n m = (sg m * Cconj (K2 R B T P n (- m)))%C.
Proof.
  intros Hm E1 E2. unfold K2.
  assert (CC : Cconj Ci = (- Ci)%C) by (apply injective_projections; cbn; ring).
  rewrite (K1_conj R B (fun m k => - RtoC 1 * (- Ci * P m k))%C (fun m k => - RtoC 1 * (Ci * T m k))%C) by
    (auto; intros k; rewrite ?E1, ?E2, !Cconj_mult, !Cconj_opp, ?CC, Cconj_R; ring).
  rewrite (K1_scal R B (fun m k => - Ci * P m k)%C (fun m k => Ci * T m k)%C), Cconj_mult, Cconj_opp, Cconj_R. ring.
Qed.
Lemma K_phineg R B T P T' P' n m : - B < m < B -> (forall k, T' m k = T (- m)%Z k)%C -> (forall k, P' m k = - P (- m)%Z k)%C ->
  K1 R B T' P' n m = (- sg m * K1 R B T P n (- m))%C /\ K2 R B T' P' n m = (sg m * K2 R B T P n (- m))%C.
Proof.
  intros Hm E1 E2.
  assert (M : forall f, An R f m n = (sg m * An R f (- m) n)%C).
  { intros f. rewrite An_mneg, Cmult_assoc, sg_sq. ring. }
  split.
  - transitivity (- RtoC 1 * (An R (sLd B T P (- m)) m n * nv n))%C.
    + apply K1_of. intros k. unfold sLd, sinF. rewrite !mfix_in by lia. rewrite E1, !E2, opp_IZR, RtoC_opp. ring.
    + rewrite M. unfold K1. ring.
  - unfold K2. transitivity (RtoC 1 * (An R (sLd B (fun m k => - Ci * P m k)%C (fun m k => Ci * T m k)%C (- m)) m n * nv n))%C.
    + apply K1_of. intros k. unfold sLd, sinF. rewrite !mfix_in by lia. rewrite !E1, !E2, opp_IZR, RtoC_opp. ring.
    + rewrite M. unfold K1. ring.
Qed.
Lemma sg_pm k : sg (k - 1) = (- sg k)%C /\ sg (k + 1) = (- sg k)%C.
Proof.
  unfold Z.sub. rewrite !sgn_add. replace (sg (- (1))) with (- RtoC 1)%C by (apply injective_projections; cbn; ring).
  replace (sg 1) with (- RtoC 1)%C by (apply injective_projections; cbn; ring). split; ring.
Qed.
Lemma K_flip R B T P T' P' n m : - B < m < B -> Z.abs m <= n -> (forall k, T' m k = sg m * sg k * T m k)%C -> (forall k, P' m k = - sg m * sg k * P m k)%C ->
  K1 R B T' P' n m = (- sg (n + m) * K1 R B T P n m)%C /\ K2 R B T' P' n m = (sg (n + m) * K2 R B T P n m)%C.
Proof.
  intros Hm Hn E1 E2. rewrite sgn_add.
  assert (S : forall k, sg (k - 1) = (- sg k)%C /\ sg (k + 1) = (- sg k)%C) by apply sg_pm.
  split.
  - transitivity (- sg m * (An R (fun k => sg (k + 1) * sLd B T P m k)%C m n * nv n))%C.
    + apply K1_of. intros k. unfold sLd, sinF. rewrite !mfix_in by lia. rewrite E1, !E2, !(proj1 (S _)), !(proj2 (S _)). ring.
    + rewrite An_flip by auto. unfold K1. ring.
  - unfold K2. transitivity (sg m * (An R (fun k => sg (k + 1) * sLd B (fun m k => - Ci * P m k) (fun m k => Ci * T m k) m k)%C m n * nv n))%C.
    + apply K1_of. intros k. unfold sLd, sinF. rewrite !mfix_in by lia. rewrite !E1, !E2, !(proj1 (S _)), !(proj2 (S _)). ring.
    + rewrite An_flip by auto. unfold K1. ring.
Qed.

(** Fourier tables of changed components. *)
Section Tables.
Variables (d d' : mat RN) (R ncols : Z).
Hypothesis Hd : comp_ok d R ncols.
Hypothesis Hd' : comp_ok d' R ncols.
Let B := ncols / 2.

Lemma Xt_scal_comp c : (forall i j, 0 <= i < R -> 0 <= j < ncols -> arr d' i j = c * arr d i j)%C -> forall m k, Xt R d' m k = (c * Xt R d m k)%C.
Proof.
  intros H. pose proof Hd as (H1 & H2 & H3 & H4 & H5 & H6). pose proof Hd' as (H1' & H2' & _).
  assert (E : forall i j, pget d' i j = (c * pget d i j)%C).
  { apply (comp_fun d' R ncols); auto.
    - intros i j i' j' E1 E2. now rewrite (comp_eqm d R ncols i j i' j').
    - intros i j. rewrite (comp_anti d R ncols Hd). ring.
    - intros i j Hi Hj. rewrite H by auto. now rewrite (comp_arr d R ncols). }
  intros m k. unfold Xt, trunc. destruct (_ <=? _); [|ring]. rewrite !Xhat_pget by lia. rewrite H1, H1', H2, H2'.
  transitivity (RtoC (/ IZR ((2 * R - 2) * ncols)) * (c * sumC 0 (2 * R - 2) (fun i => sumC 0 ncols (fun j => pget d i j * root (2 * R - 2) (- (i * k)) * root ncols (- (j * m))))))%C; [|ring].
  f_equal. rewrite sumC_mul. apply sumC_ext. intros i _. rewrite sumC_mul. apply sumC_ext. intros j _. rewrite E. ring.
Qed.
Lemma Xt_roll_comp s : (forall i j, 0 <= i < R -> 0 <= j < ncols -> arr d' i j = arr d i ((j - s) mod ncols)) ->
  forall m k, Xt R d' m k = (e_i (- (2 * PI * IZR m * IZR s / IZR ncols)) * Xt R d m k)%C.
Proof.
  intros H m k. pose proof Hd as (H1 & H2 & H3 & H4 & H5 & H6). pose proof Hd' as (H1' & H2' & _).
  unfold Xt, trunc. destruct (_ <=? _); [|ring]. rewrite (Xhat_roll d d' s); try lia.
  - f_equal. unfold root. rewrite H2. change (e_i (- (2 * PI * IZR m * IZR s / IZR ncols))) with (cisR (- (2 * PI * IZR m * IZR s / IZR ncols))).
    f_equal. rewrite opp_IZR, mult_IZR. field. apply not_0_IZR; lia.
  - apply (comp_fun d' R ncols); auto.
    + intros i j i' j' E1 E2. apply (comp_eqm d R ncols); auto. rewrite <- (Zminus_mod_idemp_l j), E2. now rewrite Zminus_mod_idemp_l.
    + intros i j. replace (j + ncols / 2 - s) with (j - s + ncols / 2) by lia. now apply (comp_anti d R ncols).
    + intros i j Hi Hj. rewrite H by auto. pose proof (Z.mod_pos_bound (j - s) ncols ltac:(lia)).
      rewrite (comp_arr d R ncols) by auto. apply (comp_eqm d R ncols); auto. now rewrite Z.mod_mod by lia.
Qed.
Lemma Xt_conj_comp : (forall i j, 0 <= i < R -> 0 <= j < ncols -> arr d' i j = Cconj (arr d i j)) ->
  forall m k, Xt R d' m k = (- sg m * Cconj (Xt R d (- m) k))%C.
Proof.
  intros H m k. pose proof Hd as (H1 & H2 & H3 & H4 & H5 & H6). pose proof Hd' as (H1' & H2' & _). pose proof (half_even ncols H5) as Eb.
  unfold Xt, trunc. destruct (_ <=? _); [|rewrite Cconj_0; ring]. rewrite (Xhat_conj d d'); try lia.
  - rewrite (Xhat_antisym d (ncols / 2)) by (auto; lia). rewrite Cconj_mult, Cconj_opp, Cconj_R, sgn_opp. reflexivity.
  - apply (comp_fun d' R ncols); auto.
    + intros i j i' j' E1 E2. f_equal. now apply (comp_eqm d R ncols).
    + intros i j. rewrite (comp_anti d R ncols Hd). apply Cconj_opp.
    + intros i j Hi Hj. rewrite H by auto. now rewrite (comp_arr d R ncols).
Qed.
Lemma Xt_phineg_comp s : (forall i j, 0 <= i < R -> 0 <= j < ncols -> arr d' i j = s * arr d i ((- j) mod ncols))%C ->
  forall m k, Xt R d' m k = (s * Xt R d (- m) k)%C.
Proof.
  intros H m k. pose proof Hd as (H1 & H2 & H3 & H4 & H5 & H6). pose proof Hd' as (H1' & H2' & _). pose proof (half_even ncols H5) as Eb.
  assert (E : forall i j, pget d' i j = (s * pget d i (- j))%C).
  { apply (comp_fun d' R ncols); auto.
    - intros i j i' j' E1 E2. f_equal. apply (comp_eqm d R ncols); auto. rewrite <- !(Z.sub_0_l). rewrite <- (Zminus_mod_idemp_r 0 j), E2. now rewrite Zminus_mod_idemp_r.
    - intros i j. transitivity (s * (- pget d i (- j)))%C; [|ring]. f_equal. rewrite <- (comp_anti d R ncols Hd).
      apply (comp_eqm d R ncols); auto. replace (- j + ncols / 2) with (- (j + ncols / 2) + 1 * ncols) by lia. now rewrite Z.mod_add by lia.
    - intros i j Hi Hj. rewrite H by auto. pose proof (Z.mod_pos_bound (- j) ncols ltac:(lia)).
      rewrite (comp_arr d R ncols) by auto. f_equal. apply (comp_eqm d R ncols); auto. now rewrite Z.mod_mod by lia. }
  unfold Xt, trunc. destruct (_ <=? _); [|ring]. rewrite !Xhat_T by lia. rewrite (Tsum_cols d (- m) k (fun j => - j)) by (auto; lia).
  unfold Tsum. rewrite H1, H1', H2, H2'.
  transitivity (RtoC (/ IZR ((2 * R - 2) * ncols)) * (s * sumC 0 (2 * R - 2) (fun i => sumC 0 ncols (fun j => term d (- m) k i (- j)))))%C; [|ring].
  f_equal. rewrite sumC_mul. apply sumC_ext. intros i _. rewrite sumC_mul. apply sumC_ext. intros j _. unfold term.
  rewrite E, H1, H1', H2, H2'. replace (- (- j * - m)) with (- (j * m)) by ring. ring.
Qed.
Lemma Xt_flip_comp s : (forall i j, 0 <= i < R -> 0 <= j < ncols -> arr d' i j = s * arr d (R - 1 - i) j)%C ->
  forall m k, Xt R d' m k = (- s * sg m * sg k * Xt R d m k)%C.
Proof.
  intros H m k. pose proof Hd as (H1 & H2 & H3 & H4 & H5 & H6). pose proof Hd' as (H1' & H2' & _). pose proof (half_even ncols H5) as Eb.
  assert (E : forall i j, pget d' i j = (s * pget d (R - 1 - i) j)%C).
  { apply (comp_fun d' R ncols); auto.
    - intros i j i' j' E1 E2. f_equal. apply (comp_eqm d R ncols); auto. rewrite <- (Zminus_mod_idemp_r (R - 1) i), E1. now rewrite Zminus_mod_idemp_r.
    - intros i j. transitivity (s * (- pget d (R - 1 - i) j))%C; [|ring]. f_equal. rewrite <- (comp_anti d R ncols Hd).
      apply (comp_eqm d R ncols); auto. replace (R - 1 - - i) with (- (R - 1 - i) + 1 * (2 * R - 2)) by lia. now rewrite Z.mod_add by lia.
    - intros i j Hi Hj. rewrite H by auto. rewrite (comp_arr d R ncols) by (auto; lia). reflexivity. }
  unfold Xt, trunc. destruct (_ <=? _); [|ring].
  (* d' = s * (d turned upside down) *)
  set (dd := mmake RN (2 * R - 2) ncols (fun i j => pget d (R - 1 - i) j)).
  assert (Edd : forall i j, pget dd i j = pget d (R - 1 - i) j).
  { intros i j. unfold pget at 1, cget, dd. cbn [mt_nr mt_nc mmake].
    pose proof (Z.mod_pos_bound i (2 * R - 2) ltac:(lia)). pose proof (Z.mod_pos_bound j ncols ltac:(lia)).
    rewrite mget_mmake by auto. apply (comp_eqm d R ncols); auto; [|now rewrite Z.mod_mod by lia]. now rewrite Zminus_mod_idemp_r. }
  assert (X : Xhat d' m k = (s * Xhat dd m k)%C).
  { rewrite !Xhat_pget by (cbn [dd mt_nr mt_nc mmake]; lia). rewrite H1', H2'. unfold dd at 1 2 3 5 7. cbn [mt_nr mt_nc mmake].
    transitivity (RtoC (/ IZR ((2 * R - 2) * ncols)) * (s * sumC 0 (2 * R - 2) (fun i => sumC 0 ncols (fun j => pget dd i j * root (2 * R - 2) (- (i * k)) * root ncols (- (j * m))))))%C.
    - f_equal. rewrite sumC_mul. apply sumC_ext. intros i _. rewrite sumC_mul. apply sumC_ext. intros j _. rewrite E, Edd. ring.
    - rewrite Cmult_assoc, (Cmult_comm _ s), <- Cmult_assoc. reflexivity. }
  rewrite X. rewrite (Xhat_flip d dd R); auto; try (cbn [dd mt_nr mt_nc mmake]; lia).
  rewrite (Xhat_antisym d (ncols / 2)) by (auto; lia). ring.
Qed.
End Tables.

(** ** C61 *)

(** Turning the field by s columns about the polar axis multiplies the
    coefficients of order m by e^(-2 pi i m s / ncols). *)
Theorem C61_rotation : forall be p p' nrows ncols s nmax mmax,
  either_backend be nrows -> tpatt_ok p nrows ncols -> tpatt_ok p' nrows ncols -> accepted nrows ncols nmax mmax ->
  (forall i j, 0 <= i < nrows -> 0 <= j < ncols ->
     arr (tp_t RN p') i j = arr (tp_t RN p) i ((j - s) mod ncols) /\ arr (tp_p RN p') i j = arr (tp_p RN p) i ((j - s) mod ncols)) ->
  exists c1 c2, vspht_gives be p nmax mmax c1 c2 /\
    vspht_gives be p' nmax mmax (fun n m => e_i (- (2 * PI * IZR m * IZR s / IZR ncols)) * c1 n m)%C
                                (fun n m => e_i (- (2 * PI * IZR m * IZR s / IZR ncols)) * c2 n m)%C.
Proof.
  intros be p p' R ncols s nmax mmax Hb Hp Hp' Ha H.
  destruct (tpatt_comps p R ncols Hp) as [P1 P2]. destruct (tpatt_comps p' R ncols Hp') as [Q1 Q2].
  eexists _, _. split; [apply (vgives_K be p R ncols); auto|].
  eapply vgives_ext; [|apply (vgives_K be p' R ncols); auto]. intros n m Hm Hn.
  apply K_roll; intros k; [apply (Xt_roll_comp _ _ R ncols)|apply (Xt_roll_comp _ _ R ncols)]; auto; intros i j Hi Hj; now apply H.
Qed.
Print Assumptions C61_rotation.

Lemma accepted_in R ncols nmax mmax n m : ncols mod 2 = 0 -> accepted R ncols nmax mmax -> is_mode nmax mmax n m -> - (ncols / 2) < m < ncols / 2.
Proof. intros He (A1 & A2 & A3) Hm. pose proof (half_even ncols He). unfold is_mode in Hm. lia. Qed.
Lemma tpatt_even p R ncols : tpatt_ok p R ncols -> ncols mod 2 = 0.
Proof. unfold tpatt_ok. tauto. Qed.

(** Conjugating the samples: c1'[n,m] = -(-1)^m conj(c1[n,-m]), c2'[n,m] = (-1)^m conj(c2[n,-m]). *)
Theorem C61_conjugate : forall be p p' nrows ncols nmax mmax,
  either_backend be nrows -> tpatt_ok p nrows ncols -> tpatt_ok p' nrows ncols -> accepted nrows ncols nmax mmax ->
  (forall i j, 0 <= i < nrows -> 0 <= j < ncols ->
     arr (tp_t RN p') i j = Cconj (arr (tp_t RN p) i j) /\ arr (tp_p RN p') i j = Cconj (arr (tp_p RN p) i j)) ->
  exists c1 c2, vspht_gives be p nmax mmax c1 c2 /\
    vspht_gives be p' nmax mmax (fun n m => - msign m * Cconj (c1 n (- m)%Z))%C (fun n m => msign m * Cconj (c2 n (- m)%Z))%C.
Proof.
  intros be p p' R ncols nmax mmax Hb Hp Hp' Ha H.
  destruct (tpatt_comps p R ncols Hp) as [P1 P2]. destruct (tpatt_comps p' R ncols Hp') as [Q1 Q2].
  eexists _, _. split; [apply (vgives_K be p R ncols); auto|].
  eapply vgives_ext; [|apply (vgives_K be p' R ncols); auto]. intros n m Hm Hn. rewrite !msign_sg.
  pose proof (accepted_in R ncols nmax mmax n m (tpatt_even p R ncols Hp) Ha Hm) as Hi.
  split; [apply K1_conj|apply K2_conj]; auto; intros k; apply (Xt_conj_comp _ _ R ncols); auto; intros i j Hi' Hj; now apply H.
Qed.
Print Assumptions C61_conjugate.

Lemma vgives_inj be p nmax mmax c1 c2 d1 d2 : vspht_gives be p nmax mmax c1 c2 -> vspht_gives be p nmax mmax d1 d2 ->
  forall n m, is_mode nmax mmax n m -> 1 <= n -> c1 n m = d1 n m /\ c2 n m = d2 n m.
Proof.
  intros (sc & A & B & C1 & D & F) (sc' & A' & B' & C1' & D' & F') n m Hm Hn. assert (sc' = sc) by congruence. subst sc'.
  pose proof (F n m Hm Hn) as Q. pose proof (F' n m Hm Hn) as Q'. unfold vreads in Q, Q'. rewrite Q in Q'. injection Q' as -> ->. auto.
Qed.

(** A field with real components: c1[n,-m] = -(-1)^m conj(c1[n,m]), c2[n,-m] = (-1)^m conj(c2[n,m]). *)
Theorem C61_real_data : forall be p nrows ncols nmax mmax,
  either_backend be nrows -> tpatt_ok p nrows ncols -> accepted nrows ncols nmax mmax ->
  (forall i j, 0 <= i < nrows -> 0 <= j < ncols -> snd (arr (tp_t RN p) i j) = 0%R /\ snd (arr (tp_p RN p) i j) = 0%R) ->
  exists c1 c2, vspht_gives be p nmax mmax c1 c2 /\
    forall n m, is_mode nmax mmax n m -> 1 <= n ->
      c1 n (- m) = (- msign m * Cconj (c1 n m))%C /\ c2 n (- m) = (msign m * Cconj (c2 n m))%C.
Proof.
  intros be p R ncols nmax mmax Hb Hp Ha H.
  assert (Cr : forall z : C, snd z = 0%R -> z = Cconj z).
  { intros [x y] E. cbn in E. subst y. apply injective_projections; cbn; ring. }
  destruct (C61_conjugate be p p R ncols nmax mmax Hb Hp Hp Ha) as (c1 & c2 & G1 & G2).
  { intros i j Hi Hj. destruct (H i j Hi Hj). split; now apply Cr. }
  exists c1, c2. split; auto. intros n m Hm Hn.
  destruct (vgives_inj be p nmax mmax _ _ _ _ G1 G2 n (- m)) as [E1 E2]; [unfold is_mode in *; lia|auto|].
  rewrite E1, E2, Z.opp_involutive, !msign_sg, sgn_opp. auto.
Qed.
Print Assumptions C61_real_data.

(** Reflecting the field in the plane phi = 0. *)
Theorem C61_phi_reflection : forall be p p' nrows ncols nmax mmax,
  either_backend be nrows -> tpatt_ok p nrows ncols -> tpatt_ok p' nrows ncols -> accepted nrows ncols nmax mmax ->
  (forall i j, 0 <= i < nrows -> 0 <= j < ncols ->
     arr (tp_t RN p') i j = arr (tp_t RN p) i ((- j) mod ncols) /\ arr (tp_p RN p') i j = (- arr (tp_p RN p) i ((- j) mod ncols))%C) ->
  exists c1 c2, vspht_gives be p nmax mmax c1 c2 /\
    vspht_gives be p' nmax mmax (fun n m => - msign m * c1 n (- m)%Z)%C (fun n m => msign m * c2 n (- m)%Z)%C.
Proof.
  intros be p p' R ncols nmax mmax Hb Hp Hp' Ha H.
  destruct (tpatt_comps p R ncols Hp) as [P1 P2]. destruct (tpatt_comps p' R ncols Hp') as [Q1 Q2].
  eexists _, _. split; [apply (vgives_K be p R ncols); auto|].
  eapply vgives_ext; [|apply (vgives_K be p' R ncols); auto]. intros n m Hm Hn. rewrite !msign_sg.
  pose proof (accepted_in R ncols nmax mmax n m (tpatt_even p R ncols Hp) Ha Hm) as Hi.
  apply K_phineg; auto; intros k.
  - rewrite (Xt_phineg_comp (tp_t RN p) _ R ncols P1 Q1 (RtoC 1)); [ring|]. intros i j Hi' Hj. rewrite Cmult_1_l. now apply H.
  - rewrite (Xt_phineg_comp (tp_p RN p) _ R ncols P2 Q2 (- RtoC 1)%C); [ring|]. intros i j Hi' Hj.
    rewrite (proj2 (H i j Hi' Hj)). ring.
Qed.
Print Assumptions C61_phi_reflection.

(** Reflecting the field in the equatorial plane. *)
Theorem C61_theta_reflection : forall be p p' nrows ncols nmax mmax,
  either_backend be nrows -> tpatt_ok p nrows ncols -> tpatt_ok p' nrows ncols -> accepted nrows ncols nmax mmax ->
  (forall i j, 0 <= i < nrows -> 0 <= j < ncols ->
     arr (tp_t RN p') i j = (- arr (tp_t RN p) (nrows - 1 - i) j)%C /\ arr (tp_p RN p') i j = arr (tp_p RN p) (nrows - 1 - i) j) ->
  exists c1 c2, vspht_gives be p nmax mmax c1 c2 /\
    vspht_gives be p' nmax mmax (fun n m => - msign (n + m) * c1 n m)%C (fun n m => msign (n + m) * c2 n m)%C.
Proof.
  intros be p p' R ncols nmax mmax Hb Hp Hp' Ha H.
  destruct (tpatt_comps p R ncols Hp) as [P1 P2]. destruct (tpatt_comps p' R ncols Hp') as [Q1 Q2].
  eexists _, _. split; [apply (vgives_K be p R ncols); auto|].
  eapply vgives_ext; [|apply (vgives_K be p' R ncols); auto]. intros n m Hm Hn. rewrite !msign_sg.
  pose proof (accepted_in R ncols nmax mmax n m (tpatt_even p R ncols Hp) Ha Hm) as Hi. unfold is_mode in Hm.
  apply K_flip; auto; [lia| |]; intros k.
  - rewrite (Xt_flip_comp (tp_t RN p) _ R ncols P1 Q1 (- RtoC 1)%C); [ring|]. intros i j Hi' Hj.
    rewrite (proj1 (H i j Hi' Hj)). ring.
  - rewrite (Xt_flip_comp (tp_p RN p) _ R ncols P2 Q2 (RtoC 1)); [ring|]. intros i j Hi' Hj. rewrite Cmult_1_l. now apply H.
Qed.
Print Assumptions C61_theta_reflection.

(** Turning every vector by a right angle in its tangent plane (up to the factor
    i) exchanges the two kinds of coefficients. *)
Theorem C61_duality : forall be p p' nrows ncols nmax mmax,
  either_backend be nrows -> tpatt_ok p nrows ncols -> tpatt_ok p' nrows ncols -> accepted nrows ncols nmax mmax ->
  (forall i j, 0 <= i < nrows -> 0 <= j < ncols ->
     arr (tp_t RN p') i j = (- Ci * arr (tp_p RN p) i j)%C /\ arr (tp_p RN p') i j = (Ci * arr (tp_t RN p) i j)%C) ->
  exists c1 c2, vspht_gives be p nmax mmax c1 c2 /\ vspht_gives be p' nmax mmax c2 c1.
Proof.
  intros be p p' R ncols nmax mmax Hb Hp Hp' Ha H.
  destruct (tpatt_comps p R ncols Hp) as [P1 P2]. destruct (tpatt_comps p' R ncols Hp') as [Q1 Q2].
  eexists _, _. split; [apply (vgives_K be p R ncols); auto|].
  eapply vgives_ext; [|apply (vgives_K be p' R ncols); auto]. intros n m Hm Hn.
  destruct (K_dual R (ncols / 2) (Xt R (tp_t RN p)) (Xt R (tp_p RN p)) n m) as [E1 E2].
  assert (X1 : forall m k, Xt R (tp_t RN p') m k = (- Ci * Xt R (tp_p RN p) m k)%C).
  { apply (Xt_scal_comp _ _ R ncols); auto. intros i j Hi Hj. now apply H. }
  assert (X2 : forall m k, Xt R (tp_p RN p') m k = (Ci * Xt R (tp_t RN p) m k)%C).
  { apply (Xt_scal_comp _ _ R ncols); auto. intros i j Hi Hj. now apply H. }
  split.
  - etransitivity; [|exact E1]. apply K1_ext; auto.
  - etransitivity; [|exact E2]. apply K2_ext; auto.
Qed.
Print Assumptions C61_duality.

(** The constructor makes such patterns from any two arrays of the same
    shape, and keeps the rows between the poles. *)
Theorem C61_constructed_patterns : forall t p : mat RN, mt_nr RN p = mt_nr RN t -> mt_nc RN p = mt_nc RN t ->
  2 <= mt_nr RN t -> 2 <= mt_nc RN t -> mt_nc RN t mod 2 = 0 ->
  exists v, tp_new RN t p false = Ok v /\ tpatt_ok v (mt_nr RN t) (mt_nc RN t) /\
    (forall i j, 0 < i < mt_nr RN t - 1 -> 0 <= j < mt_nc RN t ->
       arr (tp_t RN v) i j = mget RN t i j /\ arr (tp_p RN v) i j = mget RN p i j) /\
    ((forall i j, 0 <= i < mt_nr RN t -> 0 <= j < mt_nc RN t -> snd (mget RN t i j : C) = 0%R /\ snd (mget RN p i j : C) = 0%R) ->
     forall i j, 0 <= i < mt_nr RN t -> 0 <= j < mt_nc RN t -> snd (arr (tp_t RN v) i j) = 0%R /\ snd (arr (tp_p RN v) i j) = 0%R).
Proof.
  intros t p Er Ec Hr Hc He.
  destruct (continue_sphere_ok t (-1) Hr) as (d & E & N1 & N2 & _ & S & A).
  destruct (continue_sphere_ok p (-1) ltac:(lia)) as (d' & E' & N1' & N2' & _ & S' & A').
  exists (mkTP RN d d'). unfold tp_new, same_shape. rewrite Er, Ec, !Z.eqb_refl. cbn [andb negb]. rewrite E, E'. cbn [bind].
  split; [reflexivity|]. unfold tpatt_ok. cbn [tp_t tp_p]. rewrite Er in *. rewrite Ec in *.
  specialize (S (or_intror eq_refl) He). specialize (S' (or_intror eq_refl) He).
  assert (O : tpatt_ok (mkTP RN d d') (mt_nr RN t) (mt_nc RN t)).
  { unfold tpatt_ok. cbn [tp_t tp_p]. apply symmetric_m1 in S. apply symmetric_m1 in S'. repeat split; auto; lia. }
  split; [exact O|]. destruct (tpatt_comps _ _ _ O) as [O1 O2]. cbn [tp_t tp_p] in O1, O2.
  assert (R1 : forall i j, 0 <= i < mt_nr RN t -> 0 <= j < mt_nc RN t -> arr d i j = mgetR d i j).
  { intros i j Hi Hj. unfold arr, p_array, mrows. assert (p_nrows RN d = mt_nr RN t) by now apply nrows_of. now rewrite mget_mmake by lia. }
  assert (R2 : forall i j, 0 <= i < mt_nr RN t -> 0 <= j < mt_nc RN t -> arr d' i j = mgetR d' i j).
  { intros i j Hi Hj. unfold arr, p_array, mrows. assert (p_nrows RN d' = mt_nr RN t) by now apply nrows_of. now rewrite mget_mmake by lia. }
  split.
  - intros i j Hi Hj. rewrite R1, R2, A, A' by lia.
    destruct (Z.eqb_spec i 0); [lia|]. destruct (Z.eqb_spec i (mt_nr RN t - 1)); [lia|]. auto.
  - intros H i j Hi Hj. rewrite R1, R2, A, A' by lia.
    assert (Q : forall x y : C, snd x = 0%R -> snd y = 0%R -> snd (ds_comb RN (RtoC (IZR (-1)) * x)%C y : C) = 0%R).
    { intros [x x'] [y y'] X Y. cbn [snd] in X, Y. subst. rewrite ds_comb_eq. destruct (ceqb RN _ _).
      - cbn. ring.
      - replace (Cdiv _ _) with ((RtoC (IZR (-1)) * (x, 0%R) + (y, 0%R)) * RtoC (/ 2))%C.
        + cbn. ring.
        + apply injective_projections; cbn; field. }
    assert (B : 0 <= shiftc (mt_nc RN t) j < mt_nc RN t) by (unfold shiftc; apply Z.mod_pos_bound; lia).
    destruct (H i j Hi Hj) as [X1 X2]. destruct (H i _ Hi B) as [X3 X4].
    destruct ((i =? 0) || (i =? mt_nr RN t - 1)); split; auto; now apply Q.
Qed.
Print Assumptions C61_constructed_patterns.

(** Real component arrays, in API terms. *)
Theorem C61_real_arrays : forall be (t p : mat RN) nmax mmax, mt_nr RN p = mt_nr RN t -> mt_nc RN p = mt_nc RN t ->
  2 <= mt_nr RN t -> 2 <= mt_nc RN t -> mt_nc RN t mod 2 = 0 -> either_backend be (mt_nr RN t) ->
  accepted (mt_nr RN t) (mt_nc RN t) nmax mmax ->
  (forall i j, 0 <= i < mt_nr RN t -> 0 <= j < mt_nc RN t -> snd (mget RN t i j : C) = 0%R /\ snd (mget RN p i j : C) = 0%R) ->
  exists v c1 c2, tp_new RN t p false = Ok v /\ vspht_gives be v nmax mmax c1 c2 /\
    forall n m, is_mode nmax mmax n m -> 1 <= n ->
      c1 n (- m) = (- msign m * Cconj (c1 n m))%C /\ c2 n (- m) = (msign m * Cconj (c2 n m))%C.
Proof.
  intros be t p nmax mmax Er Ec Hr Hc He Hb Ha H.
  destruct (C61_constructed_patterns t p Er Ec Hr Hc He) as (v & E & O & _ & Re). specialize (Re H).
  destruct (C61_real_data be v _ _ nmax mmax Hb O Ha Re) as (c1 & c2 & G & S). exists v, c1, c2. auto.
Qed.
Print Assumptions C61_real_arrays.

(** Concrete cases: a real 4 x 6 field sampled arbitrarily, and the field
    (0, sin theta) against itself under rotation by one column. *)
Definition ex4_t : mat RN := mmake RN 4 6 (fun i j => RtoC (IZR (i * i + j))).
Definition ex4_p : mat RN := mmake RN 4 6 (fun i j => RtoC (IZR (7 * i - 3 * j))).
Example C61_nonvacuous_real : exists v c1 c2, tp_new RN ex4_t ex4_p false = Ok v /\ vspht_gives py_backend v 2 1 c1 c2 /\
  c1 2 (-1) = (- msign 1 * Cconj (c1 2 1))%C /\ c2 2 (-1) = (msign 1 * Cconj (c2 2 1))%C.
Proof.
  destruct (C61_real_arrays py_backend ex4_t ex4_p 2 1) as (v & c1 & c2 & E & G & S); try (cbn; lia); auto.
  - now left.
  - unfold accepted. cbn; lia.
  - intros i j Hi Hj. cbn [mt_nr mt_nc ex4_t mmake] in Hi, Hj. unfold ex4_t, ex4_p. rewrite !mget_mmake by lia. split; reflexivity.
  - exists v, c1, c2. split; [exact E|]. split; [exact G|]. apply (S 2 1); [unfold is_mode; lia|lia].
Qed.
Example C61_nonvacuous : exists v v', tp_new RN ex4_t ex4_p false = Ok v /\ tpatt_ok v 4 6 /\ tpatt_ok v' 4 6 /\
  (forall i j, 0 <= i < 4 -> 0 <= j < 6 -> arr (tp_t RN v') i j = arr (tp_t RN v) i ((j - 2) mod 6) /\ arr (tp_p RN v') i j = arr (tp_p RN v) i ((j - 2) mod 6)) /\
  exists c1 c2, vspht_gives py_backend v 2 1 c1 c2 /\
    vspht_gives py_backend v' 2 1 (fun n m => e_i (- (2 * PI * IZR m * IZR 2 / IZR 6)) * c1 n m)%C
                                  (fun n m => e_i (- (2 * PI * IZR m * IZR 2 / IZR 6)) * c2 n m)%C.
Proof.
  destruct (C61_constructed_patterns ex4_t ex4_p) as (v & E & O & _); try (cbn; lia). change (mt_nr RN ex4_t) with 4 in O. change (mt_nc RN ex4_t) with 6 in O.
  pose (roll := fun d : mat RN => mmake RN 6 6 (fun i j => mget RN d i ((j - 2) mod 6))).
  assert (A : forall d, comp_ok d 4 6 -> comp_ok (roll d) 4 6 /\ forall i j, 0 <= i < 4 -> 0 <= j < 6 -> arr (roll d) i j = arr d i ((j - 2) mod 6)).
  { intros d (H1 & H2 & H3 & H4 & H5 & H6). split.
    - unfold comp_ok. repeat (split; [auto; try lia|]).
      intros i j Hi Hj. cbn [roll mmake mt_nr mt_nc] in *.
      unfold across_row, across_col in *. pose proof (Z.mod_pos_bound (6 - i) 6 ltac:(lia)). pose proof (Z.mod_pos_bound (6 / 2 + j) 6 ltac:(lia)).
      unfold roll. cbn [mmake mt_nr mt_nc]. rewrite !mget_mmake by (try lia; auto).
      specialize (H6 i ((j - 2) mod 6)). rewrite H1, H2 in H6. change (2 * 4 - 2) with 6 in H6. rewrite <- H6; [|lia|apply Z.mod_pos_bound; lia]. 
      assert (X : ((6 / 2 + j) mod 6 - 2) mod 6 = (6 / 2 + (j - 2) mod 6) mod 6) by (rewrite Zminus_mod_idemp_l, Zplus_mod_idemp_r; f_equal; lia).
      now rewrite X.
    - intros i j Hi Hj. pose proof (Z.mod_pos_bound (j - 2) 6 ltac:(lia)). unfold arr, p_array, mrows, p_nrows. rewrite H1. unfold roll. cbn [mmake mt_nr mt_nc].
      change ((2 * 4 - 2) / 2 + 1) with 4. change (6 / 2 + 1) with 4. rewrite !mget_mmake by lia. reflexivity. }
  exists v, (mkTP RN (roll (tp_t RN v)) (roll (tp_p RN v))). destruct (tpatt_comps _ _ _ O) as [O1 O2].
  assert (O' : tpatt_ok (mkTP RN (roll (tp_t RN v)) (roll (tp_p RN v))) 4 6).
  { destruct (proj1 (A _ O1)) as (? & ? & ? & ? & ? & ?). destruct (proj1 (A _ O2)) as (? & ? & ? & ? & ? & ?). unfold tpatt_ok. cbn [tp_t tp_p]. tauto. }
  assert (W : forall i j, 0 <= i < 4 -> 0 <= j < 6 -> arr (roll (tp_t RN v)) i j = arr (tp_t RN v) i ((j - 2) mod 6) /\ arr (roll (tp_p RN v)) i j = arr (tp_p RN v) i ((j - 2) mod 6)).
  { intros i j Hi Hj. split; now apply A. }
  split; [exact E|]. split; [exact O|]. split; [exact O'|]. split; [exact W|].
  apply (C61_rotation py_backend v _ 4 6 2 2 1); auto; [now left|unfold accepted; lia].
Qed.
