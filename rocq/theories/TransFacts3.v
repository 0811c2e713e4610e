(** * TransFacts3: the vector transforms. *)
From Coq Require Import ZArith List String Bool Lia Reals Lra.
From Coquelicot Require Import Complex.
From Verif Require Import Py PyFacts Num Exact MCoefs SpecCoefs CoefsFacts CoefsFacts2 CoefsFacts3 MPatt Sums Harm MPysphi MOps Dft PysphiFacts
  TransFacts MTrans TransFacts2.
Import ListNotations.
Open Scope string_scope.
Open Scope list_scope.
Open Scope Z_scope.

(** ** Tables divided by the sine *)
Local Open Scope R_scope.

(** Same three-term recurrence as [Zp], started one power of S lower. *)
Fixpoint Wp (m j : nat) : seq * seq :=
  match j with
  | O => ((fun _ => 0), fun k => match m with O => 0 | S m' => ymm m * Spow m' e0 k end)
  | S j' => let p := Wp m j' in
            (snd p, fun k => (cosq (snd p) k - al m j' * fst p k) / al m (S j'))
  end.
Definition Wt (m j : nat) : seq := snd (Wp m j).

Lemma SqC a k : Sq (cosq a) k = cosq (Sq a) k.
Proof. unfold Sq, cosq, Cq. replace (k - 1 - 1)%Z with (k - 2)%Z by lia. replace (k - 1 + 1)%Z with k by lia.
  replace (k + 1 - 1)%Z with k by lia. replace (k + 1 + 1)%Z with (k + 2)%Z by lia. field. Qed.

Lemma Wp_S m j : (0 < m)%nat ->
  (forall k, Sq (snd (Wp m j)) k = Zt m j k) /\ (forall k, Sq (fst (Wp m j)) k = Zprev m j k).
Proof.
  intros Hm. induction j as [|j [I1 I2]].
  - split; intros k; cbn [Wp snd fst].
    + destruct m as [|m']; [lia|]. change (Zt (S m') 0 k) with (ymm (S m') * Sq (Spow m' e0) k). unfold Sq. ring.
    + rewrite Zprev_0. unfold Sq. ring.
  - split; intros k; [|rewrite Zprev_S; cbn [Wp fst]; apply I1].
    rewrite Zt_S. cbn [Wp snd]. set (w := snd (Wp m j)) in *. set (v := fst (Wp m j)) in *.
    assert (E : cosq (Zt m j) k = Sq (cosq w) k).
    { rewrite SqC. unfold cosq, Cq. now rewrite !I1. }
    rewrite E, <- I2. unfold Sq. field. apply Rgt_not_eq, al_pos.
Qed.

Lemma Wp_supp m j : supp (Z.of_nat (m + j) - 1) (snd (Wp m j)) /\ supp (Z.of_nat (m + j) - 1) (fst (Wp m j)).
Proof.
  induction j as [|j [I1 I2]].
  - split; intros k Hk; cbn [Wp snd fst]; auto. destruct m as [|m']; auto.
    rewrite (supp_Spow m' e0 0 supp_e0) by lia. ring.
  - split; intros k Hk; cbn [Wp snd fst].
    + rewrite (supp_cos _ _ I1) by lia. rewrite I2 by lia. unfold Rdiv. ring.
    + apply I1. lia.
Qed.

Lemma Wt_S m j k : (0 < m)%nat -> Sq (Wt m j) k = Zt m j k.
Proof. intros H. now apply Wp_S. Qed.
Lemma Wt_supp m j : supp (Z.of_nat (m + j) - 1) (Wt m j).
Proof. apply Wp_supp. Qed.

Lemma Sq_inj P a : supp P a -> (forall k, Sq a k = 0) -> forall k, a k = 0.
Proof.
  intros Hs H k.
  assert (E : forall n : nat, a k = a (k + 2 * Z.of_nat n)%Z).
  { induction n as [|n IH]; [f_equal; lia|]. rewrite IH.
    specialize (H (k + 2 * Z.of_nat n + 1)%Z). unfold Sq in H.
    replace (k + 2 * Z.of_nat n + 1 - 1)%Z with (k + 2 * Z.of_nat n)%Z in H by lia.
    replace (k + 2 * Z.of_nat n + 1 + 1)%Z with (k + 2 * Z.of_nat (S n))%Z in H by lia. lra. }
  rewrite (E (Z.to_nat (Z.abs P + Z.abs k + 1))). apply Hs. lia.
Qed.

(** d/dtheta (sin d/dtheta Z) + n(n+1) sin Z = m^2 Z / sin *)
Lemma D_sinD_Z m j k :
  Dq (sinDq (Zt m j)) k = 2 * INR m ^ 2 * Wt m j k + INR (m + j) * (INR (m + j) + 1) / 2 * Sq (Zt m j) k.
Proof.
  set (n := INR (m + j)).
  set (d := fun k => Dq (sinDq (Zt m j)) k - (2 * INR m ^ 2 * Wt m j k + n * (n + 1) / 2 * Sq (Zt m j) k)).
  enough (H : d k = 0) by (unfold d in H; lra).
  revert k. apply (Sq_inj (Z.of_nat (m + j) + 1)).
  - intros k Hk. unfold d. rewrite (supp_D _ _ (supp_sinD _ _ (Zt_supp1 m j)) k) by lia.
    rewrite (Wt_supp m j k) by lia. rewrite (supp_S _ _ (Zt_supp1 m j) k) by lia. ring.
  - intros k. pose proof (Z_ode m j k) as O. fold n in O.
    unfold sinDq in O at 1.
    assert (E : Sq d k = Sq (Dq (sinDq (Zt m j))) k - (2 * INR m ^ 2 * Sq (Wt m j) k + n * (n + 1) / 2 * Sq (Sq (Zt m j)) k)).
    { unfold d. generalize (Dq (sinDq (Zt m j))) (Wt m j) (Sq (Zt m j)). intros A1 A2 A3. unfold Sq. field. }
    rewrite E. destruct m as [|m'].
    + cbn [INR] in *. lra.
    + rewrite Wt_S by lia. lra.
Qed.

Local Close Scope R_scope.
Local Open Scope Z_scope.

(** Y_n^m / (2i sin) as a table, by degree and order. *)
Definition Ws (n m : Z) (k : Z) : R := Wt (Z.to_nat (Z.abs m)) (Z.to_nat (n - Z.abs m)) k.

Lemma Ws_S n m k : m <> 0 -> Sq (Ws n m) k = Yt n m k.
Proof. intros H. unfold Ws, Yt. apply (Wt_S (Z.to_nat (Z.abs m)) _ k). lia. Qed.
Lemma Ws_supp n m k : Z.abs m <= n -> n - 1 < Z.abs k -> Ws n m k = 0%R.
Proof. intros H H1. apply Wt_supp. lia. Qed.
Lemma D_sinD_Y n m k : Z.abs m <= n ->
  Dq (sinDq (Yt n m)) k = (2 * IZR m ^ 2 * Ws n m k + IZR n * (IZR n + 1) / 2 * Sq (Yt n m) k)%R.
Proof.
  intros H. unfold Yt, Ws. set (mm := Z.to_nat (Z.abs m)). set (j := Z.to_nat (n - Z.abs m)).
  change (Dq (sinDq (Zt mm j)) k = 2 * IZR m ^ 2 * Wt mm j k + IZR n * (IZR n + 1) / 2 * Sq (Zt mm j) k)%R.
  rewrite D_sinD_Z. 
  replace (INR mm ^ 2)%R with (IZR m ^ 2)%R.
  - replace (INR (mm + j)) with (IZR n) by (rewrite INR_IZR_INZ; f_equal; lia). reflexivity.
  - rewrite INR_IZR_INZ. unfold mm. rewrite Z2Nat.id by lia. rewrite abs_IZR. apply Rsqr_abs_pow || (symmetry; apply pow2_abs).
Qed.

(** F = i^m sum_n w n Y_n^m, G = the table with sin G = i m F *)
Definition Fw (w : Z -> C) (N m k : Z) : C := (ipow m * sumC (Z.abs m) (N + 1) (fun n => w n * RtoC (Yt n m k)))%C.
Definition Gw (w : Z -> C) (N m k : Z) : C :=
  (RtoC (- 2 * IZR m) * (ipow m * sumC (Z.abs m) (N + 1) (fun n => w n * RtoC (Ws n m k))))%C.

Lemma Fw_supp w N m k : N < Z.abs k -> Fw w N m k = RtoC 0.
Proof. intros H. unfold Fw. rewrite sumC_zero; [ring|]. intros n Hn. rewrite Yt_supp by lia. ring. Qed.
Lemma Gw_supp w N m k : N - 1 < Z.abs k -> Gw w N m k = RtoC 0.
Proof. intros H. unfold Gw. rewrite sumC_zero; [ring|]. intros n Hn. rewrite Ws_supp by lia. ring. Qed.

Lemma sin1_Gw w N m k : sin1 (Gw w N m) k = (Ci * RtoC (IZR m) * Fw w N m k)%C.
Proof.
  destruct (Z.eq_dec m 0) as [->|Hm].
  { unfold Gw, sin1. replace (-2 * IZR 0)%R with 0%R by ring. replace (IZR 0) with 0%R by reflexivity. ring. }
  unfold Gw, Fw.
  rewrite (sin1_scal (RtoC (- 2 * IZR m)) (fun k => ipow m * sumC (Z.abs m) (N + 1) (fun n => w n * RtoC (Ws n m k)))%C).
  rewrite (sin1_scal (ipow m) (fun k => sumC (Z.abs m) (N + 1) (fun n => w n * RtoC (Ws n m k)))%C).
  rewrite (sin1_sum _ _ (fun n k => w n * RtoC (Ws n m k))%C).
  rewrite (sumC_ext _ _ _ (fun n => RtoC (1 / 2) * - Ci * (w n * RtoC (Yt n m k)))%C).
  - rewrite <- sumC_mul. 
    replace (RtoC (-2 * IZR m)) with (RtoC (-2) * RtoC (IZR m))%C by (now rewrite RtoC_mult).
    replace (RtoC (1 / 2)) with (/ RtoC 2)%C by (apply injective_projections; cbn; field).
    replace (RtoC (-2)) with (- RtoC 2)%C by (apply injective_projections; cbn; ring).
    field. apply RtoC_neq. lra.
  - intros n Hn. rewrite sin1_scal. change (fun k0 => RtoC (Ws n m k0)) with (fun k0 => RtoC ((Ws n m) k0)).
    rewrite (sin1_RtoC (Ws n m)), Ws_S by auto. ring.
Qed.

(** k sin(k F) - i m G = sum n(n+1) sin F_n *)
Lemma Lf_Fw w N m k :
  (RtoC (IZR k) * sin1 (fun k => RtoC (IZR k) * Fw w N m k) k - Ci * RtoC (IZR m) * Gw w N m k)%C =
  sin1 (Fw (fun n => RtoC (IZR n * (IZR n + 1)) * w n)%C N m) k.
Proof.
  assert (E1 : sin1 (fun k => RtoC (IZR k) * Fw w N m k)%C k =
    (ipow m * sumC (Z.abs m) (N + 1) (fun n => w n * (- Ci * RtoC (sinDq (Yt n m) k))))%C).
  { rewrite (sin1_ext _ (fun k => ipow m * sumC (Z.abs m) (N + 1) (fun n => w n * RtoC (Dq (Yt n m) k)))%C).
    - rewrite (sin1_scal (ipow m) (fun k => sumC (Z.abs m) (N + 1) (fun n => w n * RtoC (Dq (Yt n m) k)))%C).
      rewrite (sin1_sum _ _ (fun n k => w n * RtoC (Dq (Yt n m) k))%C). f_equal. apply sumC_ext. intros n _.
      rewrite sin1_scal, (sin1_RtoC (Dq (Yt n m))). unfold sinDq. f_equal.
      apply injective_projections; cbn; field.
    - intros j. unfold Fw. rewrite Cmult_assoc, (Cmult_comm (RtoC (IZR j))), <- Cmult_assoc. f_equal.
      rewrite sumC_mul. apply sumC_ext. intros n _. unfold Dq. rewrite RtoC_mult. ring. }
  assert (E2 : sin1 (Fw (fun n => RtoC (IZR n * (IZR n + 1)) * w n)%C N m) k =
    (ipow m * sumC (Z.abs m) (N + 1) (fun n => w n * (- Ci * RtoC (IZR n * (IZR n + 1) / 2 * Sq (Yt n m) k))))%C).
  { unfold Fw.
    rewrite (sin1_scal (ipow m) (fun k => sumC (Z.abs m) (N + 1) (fun n => RtoC (IZR n * (IZR n + 1)) * w n * RtoC (Yt n m k)))%C).
    rewrite (sin1_sum _ _ (fun n k => RtoC (IZR n * (IZR n + 1)) * w n * RtoC (Yt n m k))%C). f_equal. apply sumC_ext. intros n _.
    rewrite sin1_scal, (sin1_RtoC (Yt n m)). destruct (w n) as [a b]. apply injective_projections; cbn; field. }
  rewrite E1, E2. unfold Gw.
  rewrite (sumC_ext _ _ (fun n => w n * (- Ci * RtoC (IZR n * (IZR n + 1) / 2 * Sq (Yt n m) k)))%C
    (fun n => RtoC (IZR k) * (w n * (- Ci * RtoC (sinDq (Yt n m) k))) + - (Ci * RtoC (IZR m) * RtoC (-2 * IZR m)) * (w n * RtoC (Ws n m k)))%C).
  - rewrite sumC_add, <- !sumC_mul. ring.
  - intros n Hn. pose proof (D_sinD_Y n m k ltac:(lia)) as D. unfold Dq in D.
    set (x := sinDq (Yt n m) k) in *. set (y := Ws n m k) in *. set (z := Sq (Yt n m) k) in *.
    replace (IZR n * (IZR n + 1) / 2 * z)%R with (IZR k * x - 2 * IZR m ^ 2 * y)%R by lra.
    destruct (w n) as [a b]. apply injective_projections; cbn; ring.
Qed.

(** ** The normalisation vector and window *)
Definition nv (n : Z) : C := if n =? 0 then RtoC 0 else RtoC (1 / sqrt (IZR n * (IZR n + 1))).

Lemma nvec_ok nmax : 0 <= nmax -> nvec nmax = Ok (vmake (nmax + 1) nv).
Proof.
  intros H. unfold nvec. rewrite np_zeros_ok by lia. cbn [bind].
  match goal with |- mfor ?l ?f ?s = _ =>
    destruct (mfor_inv (fun a v => v = vmake (nmax + 1) (fun i => if i <? a then nv i else RtoC 0)) 1 (nmax + 1) f s) as (v & E & ->) end.
  - lia.
  - apply vmake_ext. intros i Hi. destruct (Z.ltb_spec i 1); auto. assert (i = 0) by lia. now subst.
  - intros i v Hi ->. exists (vmake (nmax + 1) (fun j => if j <? i + 1 then nv j else RtoC 0)). split; auto.
    rewrite py_set_vmake by lia. f_equal. apply vmake_ext. intros j Hj.
    destruct (Z.eqb_spec j i) as [->|].
    + destruct (Z.ltb_spec i (i + 1)); [|lia]. unfold nv. destruct (Z.eqb_spec i 0); [lia|auto].
    + destruct (Z.ltb_spec j i), (Z.ltb_spec j (i + 1)); auto; lia.
  - rewrite E. f_equal. apply vmake_ext. intros i Hi. destruct (Z.ltb_spec i (nmax + 1)); [auto|lia].
Qed.

Lemma windowed_ok c : sc_wf RN c ->
  exists c', windowed c (vmake (sc_nmax RN c + 1) nv) = Ok c' /\ sc_wf RN c' /\
    sc_nmax RN c' = sc_nmax RN c /\ sc_mmax RN c' = sc_mmax RN c /\
    forall n m, is_mode (sc_nmax RN c) (sc_mmax RN c) n m -> cval RN c' n m = (cval RN c n m * nv n)%C.
Proof.
  intros Hw. pose proof Hw as [[Hg1 Hg2] _].
  destruct (sc_window_ok RN c (vmake (sc_nmax RN c + 1) nv) Hw) as (c' & E & W & E1 & E2 & V).
  { rewrite zlen_vmake'; lia. }
  exists c'. split; [|split; [exact W|split; [exact E1|split; [exact E2|]]]].
  - unfold windowed. rewrite E. reflexivity.
  - intros n m Hm. etransitivity; [exact (V n m Hm)|]. 
    change (cval RN c n m * vget (RtoC 0) (vmake (sc_nmax RN c + 1) nv) n = cval RN c n m * nv n)%C.
    f_equal. apply vget_vmake. destruct Hm; lia.
Qed.

(** ** vispht in closed form *)
Definition Fm (N M : Z) (w : Z -> Z -> C) (m k : Z) : C := if Z.abs m <=? M then Fw (fun n => w n m) N m k else RtoC 0.
Definition Gm (N M : Z) (w : Z -> Z -> C) (m k : Z) : C := if Z.abs m <=? M then Gw (fun n => w n m) N m k else RtoC 0.
Definition Tm (N M : Z) (w1 w2 : Z -> Z -> C) (m k : Z) : C :=
  (Ci * Gm N M w1 m k - Ci * (RtoC (IZR k) * Fm N M w2 m k))%C.
Definition Pm (N M : Z) (w1 w2 : Z -> Z -> C) (m k : Z) : C :=
  (RtoC (IZR k) * Fm N M w1 m k + Ci * (Ci * Gm N M w2 m k))%C.

Lemma Fm_supp N M w : fsupp N (Fm N M w).
Proof. intros m k H. unfold Fm. destruct (Z.abs m <=? M); auto. now apply Fw_supp. Qed.
Lemma Gm_supp N M w : fsupp (N - 1) (Gm N M w).
Proof. intros m k H. unfold Gm. destruct (Z.abs m <=? M); auto. now apply Gw_supp. Qed.
Lemma Tm_supp N M w1 w2 : fsupp N (Tm N M w1 w2).
Proof. intros m k H. unfold Tm. rewrite Fm_supp by auto. rewrite Gm_supp by lia. ring. Qed.
Lemma Pm_supp N M w1 w2 : fsupp N (Pm N M w1 w2).
Proof. intros m k H. unfold Pm. rewrite Fm_supp by auto. rewrite Gm_supp by lia. ring. Qed.

Lemma Fsc_Fm c w m k : (forall n m, is_mode (sc_nmax RN c) (sc_mmax RN c) n m -> cval RN c n m = w n m) ->
  Fsc c m k = Fm (sc_nmax RN c) (sc_mmax RN c) w m k.
Proof.
  intros H. unfold Fsc, Fm. destruct (Z.leb_spec (Z.abs m) (sc_mmax RN c)); auto.
  unfold Fw. f_equal. apply sumC_ext. intros n Hn. f_equal. apply H. unfold is_mode. lia.
Qed.

Definition w1_of (vc : vcoefs RN) (n m : Z) : C := (cval RN (vc_1 RN vc) n m * nv n)%C.
Definition w2_of (vc : vcoefs RN) (n m : Z) : C := (cval RN (vc_2 RN vc) n m * nv n)%C.
Definition Tv (vc : vcoefs RN) := Tm (vc_nmax RN vc) (vc_mmax RN vc) (w1_of vc) (w2_of vc).
Definition Pv (vc : vcoefs RN) := Pm (vc_nmax RN vc) (vc_mmax RN vc) (w1_of vc) (w2_of vc).

Lemma L_fc_Fm R B N M w : N + 1 < R -> 0 <= M < B -> 0 <= N ->
  L_fc (tab (2 * R - 2) (2 * B) (Fm N M w)) =
  Ok (tab (2 * R - 2) (2 * B) (fun m k => Ci * Gm N M w m k)%C, tab (2 * R - 2) (2 * B) (fun m k => RtoC (IZR k) * Fm N M w m k)%C).
Proof.
  intros HN HM H0. replace (2 * R - 2) with (2 * (R - 1)) by lia. apply L_fc_tab; try lia.
  - intros m k H. apply Fm_supp. lia.
  - intros k. unfold Fm. destruct (Z.leb_spec (Z.abs B) M); [lia|auto].
  - intros m k H. apply Gm_supp. lia.
  - intros m k Hm. change (sinF (Gm N M w) m k) with (sin1 (Gm N M w m) k). unfold Fm, Gm.
    destruct (Z.leb_spec (Z.abs m) M).
    + change (fun k0 : Z => Gw (fun n => w n m) N m k0) with (Gw (fun n => w n m) N m). now rewrite sin1_Gw.
    + unfold sin1. ring.
Qed.

Lemma sc_copy_ok' c : sc_wf RN c -> sc_copy RN c = Ok c.
Proof. intros [Hg Hl]. unfold sc_copy. rewrite sc_new_ok by auto. now destruct c. Qed.

Lemma vispht_ok vc R B : vc_wf RN vc -> vc_nmax RN vc + 2 <= R -> 2 * vc_mmax RN vc + 2 <= 2 * B ->
  vispht py_backend vc (Some R) (Some (2 * B)) =
  Ok (mkTP RN (mmake RN (2 * R - 2) (2 * B) (synth (2 * R - 2) (2 * B) (Tv vc)))
              (mmake RN (2 * R - 2) (2 * B) (synth (2 * R - 2) (2 * B) (Pv vc)))).
Proof.
  intros Hw HR HB. pose proof Hw as (W1 & W2 & A1 & A2 & A3 & A4 & _). pose proof W1 as [[Hg1 Hg2] _].
  set (N := vc_nmax RN vc) in *. set (M := vc_mmax RN vc) in *. rewrite A2 in Hg1, Hg2. rewrite A1 in Hg2.
  unfold vispht. fold N M. destruct (Z.ltb_spec R (N + 2)); [lia|]. destruct (Z.ltb_spec (2 * B) (2 * M + 2)); [lia|].
  replace (2 * B mod 2 =? 1) with false by (symmetry; apply Z.eqb_neq; lia).
  rewrite nvec_ok by lia. cbn [bind]. rewrite !sc_copy_ok' by auto. cbn [bind].
  destruct (windowed_ok (vc_1 RN vc) W1) as (c1 & E1 & X1 & B1 & B2 & V1).
  destruct (windowed_ok (vc_2 RN vc) W2) as (c2 & E2 & X2 & B3 & B4 & V2).
  rewrite A1, A2 in *. rewrite A3, A4 in *. rewrite E1, E2. cbn [bind py_backend be_sc_to_fc].
  rewrite (py_sc_to_fc_ok c1) by (auto; lia). rewrite (py_sc_to_fc_ok c2) by (auto; lia). cbn [bind].
  assert (T1 : fdata_of c1 (2 * R - 2) (2 * B) = tab (2 * R - 2) (2 * B) (Fm N M (w1_of vc))).
  { apply tab_ext; try lia. intros m k _ _. rewrite <- B1, <- B2. apply Fsc_Fm. rewrite B1, B2. exact V1. }
  assert (T2 : fdata_of c2 (2 * R - 2) (2 * B) = tab (2 * R - 2) (2 * B) (Fm N M (w2_of vc))).
  { apply tab_ext; try lia. intros m k _ _. rewrite <- B3, <- B4. apply Fsc_Fm. rewrite B3, B4. exact V2. }
  rewrite T1, T2. rewrite !L_fc_Fm by lia. cbn [bind fst snd].
  rewrite ew2_tab by lia. cbn [bind]. rewrite ew2_tab by lia. cbn [bind].
  change (fun m k : Z => (Ci * Gm N M (w1_of vc) m k - Ci * (RtoC (IZR k) * Fm N M (w2_of vc) m k))%C) with (Tv vc).
  change (fun m k : Z => (RtoC (IZR k) * Fm N M (w1_of vc) m k + Ci * (Ci * Gm N M (w2_of vc) m k))%C) with (Pv vc).
  rewrite !ifft_scaled_tab by lia. cbn [bind]. unfold tp_new, same_shape. cbn [mt_nr mt_nc mmake].
  rewrite !Z.eqb_refl. reflexivity.
Qed.

(** ** vspht in closed form *)
Definition Xt (R : Z) (d : mat RN) : Z -> Z -> C := trunc (R - 2) (Xhat d).
Definition Lf1 (R B : Z) (p : tpatt RN) : Z -> Z -> C := sLd B (Xt R (tp_t RN p)) (Xt R (tp_p RN p)).
Definition Lf2 (R B : Z) (p : tpatt RN) : Z -> Z -> C :=
  sLd B (fun m k => - Ci * Xt R (tp_p RN p) m k)%C (fun m k => Ci * Xt R (tp_t RN p) m k)%C.

Lemma sLd_supp MM B T P : fsupp (MM - 2) T -> fsupp (MM - 2) P -> fsupp (MM - 1) (sLd B T P).
Proof.
  intros HT HP m k H. unfold sLd. rewrite HT by lia.
  rewrite (fsupp_sinF (MM - 2) P HP) by lia. ring.
Qed.

Lemma vspht_body p R B nmax mmax :
  mt_nr RN (tp_t RN p) = 2 * R - 2 -> mt_nr RN (tp_p RN p) = 2 * R - 2 ->
  mt_nc RN (tp_t RN p) = 2 * B -> mt_nc RN (tp_p RN p) = 2 * B ->
  2 <= R -> 1 <= B -> 0 <= mmax <= nmax -> nmax < R - 1 -> mmax < B ->
  exists vc, vspht py_backend p (Some nmax) (Some mmax) = Ok vc /\ vc_wf RN vc /\
    vc_nmax RN vc = nmax /\ vc_mmax RN vc = mmax /\
    forall n m, is_mode nmax mmax n m ->
      cval RN (vc_1 RN vc) n m = (An R (Lf1 R B p m) m n * nv n)%C /\
      cval RN (vc_2 RN vc) n m = (An R (Lf2 R B p m) m n * nv n)%C.
Proof.
  intros Hr1 Hr2 Hc1 Hc2 HR HB Hm Hn Hm2. unfold vspht. cbn [spht_sizes].
  unfold p_nrows, p_ncols. rewrite Hr1, Hc1. replace ((2 * R - 2) / 2 + 1) with R by lia.
  unfold spht_guard. destruct (Z.gtb_spec mmax nmax); [lia|]. destruct (Z.geb_spec nmax (R - 1)); [lia|].
  destruct (Z.geb_spec (2 * mmax) (2 * B)); [lia|].
  replace (2 * B mod 2 =? 1) with false by (symmetry; apply Z.eqb_neq; lia). cbn [bind].
  rewrite (fft_padded_ok _ R) by lia. cbn [bind]. rewrite (fft_padded_ok _ R) by lia. cbn [bind].
  rewrite Hc1, Hc2. fold (Xt R (tp_t RN p)) (Xt R (tp_p RN p)).
  assert (ST : fsupp (R - 2) (Xt R (tp_t RN p))) by apply fsupp_trunc.
  assert (SP : fsupp (R - 2) (Xt R (tp_p RN p))) by apply fsupp_trunc.
  rewrite sinLdot_fc_tab by (auto; lia). cbn [bind].
  rewrite !ew1_tab by lia.
  rewrite sinLdot_fc_tab; [|lia|lia|]. 2:{ intros m k H2. rewrite ST by auto. ring. }
  cbn [bind py_backend be_fc_to_sc]. fold (Lf1 R B p) (Lf2 R B p).
  destruct (be_fc_tab R (2 * B) (Lf1 R B p) nmax mmax) as (v1 & E1 & L1 & V1); try lia.
  { apply sLd_supp; auto. }
  destruct (be_fc_tab R (2 * B) (Lf2 R B p) nmax mmax) as (v2 & E2 & L2 & V2); try lia.
  { apply sLd_supp; intros m k H2; [rewrite SP by auto|rewrite ST by auto]; ring. }
  rewrite E1, E2. cbn [bind].
  destruct (vc_new_ok RN v1 v2 nmax mmax Hm L1 L2) as (c & Ec & Wc & N1 & N2 & Vc).
  rewrite Ec. cbn [bind]. rewrite nvec_ok by lia. cbn [bind].
  pose proof Wc as (W1 & W2 & A1 & A2 & A3 & A4 & _).
  destruct (windowed_ok (vc_1 RN c) W1) as (c1 & X1 & Y1 & B1 & B2 & U1).
  destruct (windowed_ok (vc_2 RN c) W2) as (c2 & X2 & Y2 & B3 & B4 & U2).
  rewrite A1, N1, A2, N2 in *. rewrite A3, A4 in *. rewrite X1. cbn [bind]. rewrite X2. cbn [bind].
  assert (Z1 : forall n m, is_mode nmax mmax n m ->
      cval RN c1 n m = (An R (Lf1 R B p m) m n * nv n)%C /\ cval RN c2 n m = (An R (Lf2 R B p m) m n * nv n)%C).
  { intros n m Hmode. destruct (Vc n m Hmode) as [Q1 Q2]. specialize (U1 n m Hmode). specialize (U2 n m Hmode).
    rewrite Q1 in U1. rewrite Q2 in U2. split.
    - etransitivity; [exact U1|]. destruct (Z.eqb_spec n 0) as [->|].
      + unfold nv. cbn [Z.eqb]. exact (eq_trans (Cmult_0_r _) (eq_sym (Cmult_0_r _))).
      + f_equal. exact (V1 n m Hmode).
    - etransitivity; [exact U2|]. destruct (Z.eqb_spec n 0) as [->|].
      + unfold nv. cbn [Z.eqb]. exact (eq_trans (Cmult_0_r _) (eq_sym (Cmult_0_r _))).
      + f_equal. exact (V2 n m Hmode). }
  assert (M0 : is_mode nmax mmax 0 0) by (unfold is_mode; lia).
  eexists; split; [reflexivity|]. unfold vc_wf. cbn [vc_1 vc_2 vc_nmax vc_mmax].
  split; [|split; [lia|split; [lia|exact Z1]]].
  destruct (Z1 0 0 M0) as [Q1 Q2].
  split; [exact Y1|split; [exact Y2|]]. repeat (split; [lia|]). split.
  - etransitivity; [exact Q1|]. exact (Cmult_0_r _).
  - etransitivity; [exact Q2|]. exact (Cmult_0_r _).
Qed.

(** ** Vector analysis inverts vector synthesis *)
Lemma nv_sq n : 1 <= n -> (RtoC (IZR n * (IZR n + 1)) * nv n * nv n)%C = RtoC 1.
Proof.
  intros H. unfold nv. destruct (Z.eqb_spec n 0); [lia|]. rewrite <- !RtoC_mult. f_equal.
  assert (P : (0 < IZR n * (IZR n + 1))%R) by (apply IZR_le in H; nra).
  assert (S : (0 < sqrt (IZR n * (IZR n + 1)))%R) by now apply sqrt_lt_R0.
  pose proof (sqrt_sqrt (IZR n * (IZR n + 1)) ltac:(lra)) as Q.
  rewrite <- Q at 1. field. lra.
Qed.

Lemma sLd_Fm N M B w1 w2 m k : Z.abs m <= M -> M < B ->
  sLd B (Tm N M w1 w2) (Pm N M w1 w2) m k =
  sin1 (Fw (fun n => RtoC (IZR n * (IZR n + 1)) * w1 n m)%C N m) k.
Proof.
  intros Hm HB. rewrite <- (Lf_Fw (fun n => w1 n m) N m k). unfold sLd.
  assert (E : mfix B m = m) by (unfold mfix; destruct (Z.eqb_spec m B); lia). rewrite E.
  change (sinF (Pm N M w1 w2) m k) with (sin1 (Pm N M w1 w2 m) k).
  rewrite (sin1_ext _ (fun k => RtoC (IZR k) * Fw (fun n => w1 n m) N m k + RtoC (-1) * Gw (fun n => w2 n m) N m k)%C).
  - rewrite sin1_add, (sin1_scal (RtoC (-1)) (Gw (fun n => w2 n m) N m)), sin1_Gw.
    unfold Tm, Gm, Fm. destruct (Z.leb_spec (Z.abs m) M); [|lia].
    set (X := Fw (fun n => w2 n m) N m k). set (Y := Gw (fun n => w1 n m) N m k).
    set (U := sin1 _ k). replace (RtoC (-1)) with (- RtoC 1)%C by (apply injective_projections; cbn; ring). ring.
  - intros j. unfold Pm, Gm, Fm. destruct (Z.leb_spec (Z.abs m) M); [|lia]. rewrite Cmult_assoc, Ci_sq. reflexivity.
Qed.

Lemma sLd_Fm2 N M B w1 w2 m k : Z.abs m <= M -> M < B ->
  sLd B (fun m k => - Ci * Pm N M w1 w2 m k)%C (fun m k => Ci * Tm N M w1 w2 m k)%C m k =
  sin1 (Fw (fun n => RtoC (IZR n * (IZR n + 1)) * w2 n m)%C N m) k.
Proof.
  intros Hm HB. rewrite <- (sLd_Fm N M B w2 w1 m k Hm HB). unfold sLd.
  f_equal.
  - f_equal. match goal with |- sinF ?a m k = sinF ?b m k => change (sin1 (a m) k = sin1 (b m) k) end.
    apply sin1_ext. intros j. unfold Tm, Pm, Fm, Gm. destruct (Z.leb_spec (Z.abs m) M); [|lia].
    set (X := Gw _ N m j). set (Y := Fw _ N m j).
    replace (Ci * (Ci * X - Ci * (RtoC (IZR j) * Y)))%C with ((Ci * Ci) * X - (Ci * Ci) * (RtoC (IZR j) * Y))%C by ring.
    replace (Ci * (Ci * X))%C with ((Ci * Ci) * X)%C by ring. rewrite Ci_sq.
    replace (RtoC (-1)) with (- RtoC 1)%C by (apply injective_projections; cbn; ring). ring.
  - do 2 f_equal. unfold Tm, Pm, Fm, Gm. destruct (Z.leb_spec (Z.abs m) M); [|lia].
    set (X := Fw _ N m k). set (Y := Gw _ N m k). 
    replace (- Ci * (RtoC (IZR k) * X + Ci * (Ci * Y)))%C with (- Ci * (RtoC (IZR k) * X) - Ci * (Ci * Ci) * Y)%C by ring.
    rewrite Ci_sq. replace (RtoC (-1)) with (- RtoC 1)%C by (apply injective_projections; cbn; ring). ring.
Qed.

Lemma sLd_ext B T T' P P' m : (forall k, T m k = T' m k) -> (forall k, P m k = P' m k) -> forall k, sLd B T P m k = sLd B T' P' m k.
Proof. intros H1 H2 k. unfold sLd, sinF. now rewrite H1, !H2. Qed.

Lemma Lf_vispht vc R B m k : vc_wf RN vc -> vc_nmax RN vc + 2 <= R -> vc_mmax RN vc + 1 <= B -> - B < m < B ->
  let p := mkTP RN (mmake RN (2 * R - 2) (2 * B) (synth (2 * R - 2) (2 * B) (Tv vc)))
                   (mmake RN (2 * R - 2) (2 * B) (synth (2 * R - 2) (2 * B) (Pv vc))) in
  Lf1 R B p m k = sin1 (Fm (vc_nmax RN vc) (vc_mmax RN vc) (fun n m => RtoC (IZR n * (IZR n + 1)) * w1_of vc n m)%C m) k /\
  Lf2 R B p m k = sin1 (Fm (vc_nmax RN vc) (vc_mmax RN vc) (fun n m => RtoC (IZR n * (IZR n + 1)) * w2_of vc n m)%C m) k.
Proof.
  intros Hw HR HB Hm p. pose proof Hw as (W1 & W2 & A1 & A2 & A3 & A4 & _). pose proof W1 as [[Hg1 Hg2] _].
  rewrite A2 in Hg1, Hg2. rewrite A1 in Hg2.
  set (N := vc_nmax RN vc) in *. set (M := vc_mmax RN vc) in *.
  assert (ET : forall k, Xt R (tp_t RN p) m k = Tm N M (w1_of vc) (w2_of vc) m k).
  { intros j. unfold Xt, p. cbn [tp_t]. rewrite trunc_synth; try lia; [reflexivity|]. intros a b Hab. apply Tm_supp. fold N. lia. }
  assert (EP : forall k, Xt R (tp_p RN p) m k = Pm N M (w1_of vc) (w2_of vc) m k).
  { intros j. unfold Xt, p. cbn [tp_p]. rewrite trunc_synth; try lia; [reflexivity|]. intros a b Hab. apply Pm_supp. fold N. lia. }
  assert (Q1 : Lf1 R B p m k = sLd B (Tm N M (w1_of vc) (w2_of vc)) (Pm N M (w1_of vc) (w2_of vc)) m k).
  { unfold Lf1. now apply sLd_ext. }
  assert (Q2 : Lf2 R B p m k = sLd B (fun m k => - Ci * Pm N M (w1_of vc) (w2_of vc) m k)%C (fun m k => Ci * Tm N M (w1_of vc) (w2_of vc) m k)%C m k).
  { unfold Lf2. apply sLd_ext; intros j; [now rewrite EP|now rewrite ET]. }
  rewrite Q1, Q2. destruct (Z.leb_spec (Z.abs m) M) as [H|H].
  - rewrite sLd_Fm, sLd_Fm2 by lia. split; apply sin1_ext; intros j; unfold Fm; (destruct (Z.leb_spec (Z.abs m) M); [auto|lia]).
  - assert (Z0 : forall a b j, Tm N M a b m j = RtoC 0 /\ Pm N M a b m j = RtoC 0).
    { intros a b j. unfold Tm, Pm, Gm, Fm. destruct (Z.leb_spec (Z.abs m) M); [lia|]. split; ring. }
    unfold sLd, sinF, sin1, Fm. destruct (Z.leb_spec (Z.abs m) M); [lia|].
    rewrite !(proj1 (Z0 _ _ _)), !(proj2 (Z0 _ _ _)). split; ring.
Qed.

Lemma An_Fm R N M w n m : Z.abs m <= n -> N <= R - 2 ->
  An R (sin1 (Fm N M w m)) m n = if (Z.abs m <=? M) && (n <=? N) then w n m else RtoC 0.
Proof.
  intros Hn HN. destruct (Z.leb_spec (Z.abs m) M) as [H|H]; cbn [andb].
  - rewrite <- (An_comb R (fun n => w n m) N m n) by lia. apply An_ext. intros nu _. apply sin1_ext. intros k.
    unfold Fm, Fw. destruct (Z.leb_spec (Z.abs m) M); [auto|lia].
  - rewrite (An_ext R _ (fun _ => RtoC 0)); [apply An_zero|]. intros nu _. unfold sin1, Fm.
    destruct (Z.leb_spec (Z.abs m) M); [lia|]. ring.
Qed.
