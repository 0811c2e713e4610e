(** * TransFacts2: closed forms of spht and ispht; analysis inverts synthesis. *)
From Coq Require Import ZArith List String Bool Lia Reals Lra.
From Coquelicot Require Import Complex.
From Verif Require Import Py PyFacts Num Exact MCoefs SpecCoefs CoefsFacts MPatt Sums Harm MPysphi MOps Dft PysphiFacts
  TransFacts MTrans.
Import ListNotations.
Open Scope string_scope.
Open Scope list_scope.
Open Scope Z_scope.

Lemma RtoC_neq (x : R) : x <> 0%R -> RtoC x <> RtoC 0.
Proof. intros H E. apply H. now apply RtoC_inj. Qed.

(** ** The analysis functional of one column *)
Definition An (MM : Z) (f : Z -> C) (m n : Z) : C := bval (hconv MM f) m n.

Lemma hconv_ext MM f g k : (forall nu, - MM <= nu < MM -> f nu = g nu) -> hconv MM f k = hconv MM g k.
Proof. intros H. unfold hconv. f_equal. apply sumC_ext. intros nu Hn. now rewrite H. Qed.
Lemma bval_ext h g m n : (forall k, h k = g k) -> bval h m n = bval g m n.
Proof. intros H. unfold bval. rewrite H. do 2 f_equal. apply sumC_ext. intros. now rewrite H. Qed.
Lemma An_ext MM f g m n : (forall nu, - MM <= nu < MM -> f nu = g nu) -> An MM f m n = An MM g m n.
Proof. intros H. apply bval_ext. intros k. now apply hconv_ext. Qed.

Lemma hconv_add MM f g k : hconv MM (fun nu => f nu + g nu)%C k = (hconv MM f k + hconv MM g k)%C.
Proof.
  unfold hconv. rewrite <- Cmult_plus_distr_l, <- sumC_add. f_equal. apply sumC_ext. intros. ring.
Qed.
Lemma hconv_scal MM c f k : hconv MM (fun nu => c * f nu)%C k = (c * hconv MM f k)%C.
Proof.
  unfold hconv. rewrite Cmult_assoc, (Cmult_comm c), <- Cmult_assoc. f_equal.
  rewrite sumC_mul. apply sumC_ext. intros. ring.
Qed.
Lemma bval_add h g m n : bval (fun k => h k + g k)%C m n = (bval h m n + bval g m n)%C.
Proof.
  unfold bval. rewrite (sumC_ext 1 (n + 1) _ (fun k => h k * RtoC (Yt n m k) + g k * RtoC (Yt n m k))%C) by (intros; ring).
  rewrite sumC_add. ring.
Qed.
Lemma bval_scal c h m n : bval (fun k => c * h k)%C m n = (c * bval h m n)%C.
Proof.
  unfold bval. rewrite (sumC_ext 1 (n + 1) _ (fun k => c * (h k * RtoC (Yt n m k)))%C) by (intros; ring).
  rewrite <- sumC_mul. ring.
Qed.
Lemma An_add MM f g m n : An MM (fun nu => f nu + g nu)%C m n = (An MM f m n + An MM g m n)%C.
Proof. unfold An. rewrite <- bval_add. apply bval_ext. intros. apply hconv_add. Qed.
Lemma An_scal MM c f m n : An MM (fun nu => c * f nu)%C m n = (c * An MM f m n)%C.
Proof. unfold An. rewrite <- bval_scal. apply bval_ext. intros. apply hconv_scal. Qed.
Lemma An_zero MM m n : An MM (fun _ => RtoC 0) m n = RtoC 0.
Proof.
  rewrite (An_ext MM _ (fun _ => RtoC 0 * RtoC 0)%C) by (intros; ring).
  rewrite An_scal. ring.
Qed.
Lemma An_sum MM lo hi (f : Z -> Z -> C) m n :
  An MM (fun nu => sumC lo hi (fun i => f i nu)) m n = sumC lo hi (fun i => An MM (f i) m n).
Proof.
  revert lo hi. apply gsum_ind; intros.
  - rewrite sumC_nil by lia. rewrite <- (An_zero MM m n). apply An_ext. intros. now rewrite sumC_nil by lia.
  - rewrite sumC_cons, <- H0 by lia. rewrite <- An_add. apply An_ext. intros. now rewrite sumC_cons by lia.
Qed.

(** sin(theta) on one column *)
Definition sin1 (g : Z -> C) (k : Z) : C := (RtoC 1 / (RtoC 2 * Ci) * (g (k - 1)%Z - g (k + 1)%Z))%C.

Lemma sig_tau j : sig j = (- Ci * RtoC (tau j))%C.
Proof.
  unfold sig, tau. destruct (Z.odd j) eqn:E; [|ring].
  assert (j <> 0) by (intros ->; discriminate). unfold Cdiv. rewrite RtoC_inv; auto. now apply not_0_IZR.
Qed.

Lemma sin1_RtoC (y : seq) k : sin1 (fun k => RtoC (y k)) k = (RtoC (1 / 2) * - Ci * RtoC (Sq y k))%C.
Proof.
  unfold sin1, Sq. rewrite RtoC_minus.
  replace (RtoC 1 / (RtoC 2 * Ci))%C with (RtoC (1 / 2) * - Ci)%C; [ring|].
  apply injective_projections; cbn; field.
Qed.

(** hconv of a real column after the sine *)
Definition hR (MM : Z) (y : seq) (k : Z) : R := sumR (- MM) (MM + 1) (fun nu => Sq y nu * tau (k - nu))%R.

Lemma hconv_real MM (y : seq) k : 0 <= MM -> supp (MM - 2) y ->
  hconv MM (sin1 (fun k => RtoC (y k))) k = RtoC (- 2 * PI * hR MM y k).
Proof.
  intros HM Hs. unfold hconv, hR. rewrite (sumR_snoc (- MM) MM) by lia.
  rewrite (supp_S (MM - 2) y Hs MM) by lia.
  rewrite (sumC_ext _ _ _ (fun nu => RtoC (- (1 / 2)) * RtoC (Sq y nu * tau (k - nu)))%C).
  - rewrite <- sumC_mul, sumC_RtoC, <- !RtoC_mult. f_equal. field.
  - intros nu _. rewrite sig_tau, sin1_RtoC. rewrite RtoC_mult, RtoC_opp.
    replace (RtoC (1 / 2) * - Ci * RtoC (Sq y nu) * (- Ci * RtoC (tau (k - nu))))%C with
      (RtoC (1 / 2) * (Ci * Ci) * (RtoC (Sq y nu) * RtoC (tau (k - nu))))%C by ring.
    rewrite Ci_sq. apply injective_projections; cbn; ring.
Qed.

Lemma hR_neg MM (y : seq) s k : (forall k, y (- k)%Z = (s * y k)%R) -> hR MM y (- k) = (s * hR MM y k)%R.
Proof.
  intros Hy. unfold hR. rewrite sumR_rev, sumR_mul.
  replace (1 - (MM + 1)) with (- MM) by lia. replace (1 - - MM) with (MM + 1) by lia.
  apply sumR_ext. intros nu _. unfold Sq.
  replace (- k - - nu)%Z with (- (k - nu))%Z by lia. rewrite tau_opp.
  replace (- nu - 1)%Z with (- (nu + 1))%Z by lia. replace (- nu + 1)%Z with (- (nu - 1))%Z by lia.
  rewrite !Hy. ring.
Qed.

Lemma sum_par (f : Z -> R) n : 0 <= n -> (forall k, f (- k)%Z = f k) ->
  sumR (- n) (n + 1) f = (f 0%Z + 2 * sumR 1 (n + 1) f)%R.
Proof.
  intros Hn Hf. rewrite (sumR_split (- n) 0) by lia. rewrite (sumR_cons 0) by lia.
  rewrite (sumR_rev (- n) 0). replace (1 - 0) with 1 by lia. replace (1 - - n) with (n + 1) by lia.
  rewrite (sumR_ext 1 (n + 1) _ f) by (intros; apply Hf). replace (0 + 1) with 1 by lia. ring.
Qed.

Lemma ipow_cancel m : (ipow (- m) * ipow m)%C = RtoC 1.
Proof.
  unfold ipow, cipow. assert (H : 0 <= m mod 4 < 4) by (apply Z.mod_pos_bound; lia).
  destruct (Z.eq_dec (m mod 4) 0) as [E|E]; [rewrite Z.mod_opp_l_z, E by lia; apply injective_projections; cbn; ring|].
  rewrite Z.mod_opp_l_nz by lia.
  assert (m mod 4 = 1 \/ m mod 4 = 2 \/ m mod 4 = 3) as [->|[->| ->]] by lia; apply injective_projections; cbn; ring.
Qed.

Lemma sign_sgn m : (IZR (sgnpow m) * IZR (sgnpow m) = 1)%R.
Proof. unfold sgnpow. destruct (m mod 2 =? 0); cbn; ring. Qed.

(** Analysis of one Fourier table gives the Kronecker symbol. *)
Lemma An_Yt MM m n n' : Z.abs m <= n -> Z.abs m <= n' -> n' <= MM - 2 -> 
  An MM (sin1 (fun k => RtoC (Yt n' m k))) m n = (ipow (- m) * RtoC (if n =? n' then 1 else 0))%C.
Proof.
  intros Hn Hn' HM.
  set (y := Yt n m). set (y' := Yt n' m).
  assert (Sy : supp n y) by (intros k Hk; now apply Yt_supp).
  assert (Sy' : supp n' y') by (intros k Hk; now apply Yt_supp).
  unfold An. rewrite (bval_ext _ (fun k => RtoC (- 2 * PI * hR MM y' k))).
  2:{ intros k. apply (hconv_real MM y'); [lia|]. intros j Hj; apply Sy'; lia. }
  unfold bval. fold y.
  rewrite (sumC_ext _ _ _ (fun k => RtoC (- 2 * PI * hR MM y' k * y k))) by (intros; now rewrite <- RtoC_mult).
  rewrite sumC_RtoC.
  rewrite <- !Cmult_assoc, <- Cmult_plus_distr_l, <- !RtoC_mult, <- RtoC_plus. do 2 f_equal.
  assert (E : (- 2 * PI * hR MM y' 0 * y 0%Z + 2 * sumR 1 (n + 1) (fun k => - 2 * PI * hR MM y' k * y k))%R =
     (- 2 * PI * sumR (- n) (n + 1) (fun k => y k * hR MM y' k))%R).
  { rewrite (sum_par (fun k => y k * hR MM y' k)%R n); [|lia|].
    2:{ intros k. rewrite (hR_neg MM y' (IZR (sgnpow m))) by (intros; apply Yt_neg).
      unfold y. rewrite Yt_neg. pose proof (sign_sgn m) as Hs.
      transitivity (IZR (sgnpow m) * IZR (sgnpow m) * (Yt n m k * hR MM y' k))%R; [ring|rewrite Hs; ring]. }
    rewrite (sumR_ext 1 (n + 1) (fun k => - 2 * PI * hR MM y' k * y k)%R (fun k => - 2 * PI * (y k * hR MM y' k))%R) by (intros; ring).
    rewrite <- sumR_mul. ring. }
  rewrite E. clear E.
  set (j := Z.to_nat (n - Z.abs m)). set (j' := Z.to_nat (n' - Z.abs m)). set (mm := Z.to_nat (Z.abs m)).
  set (N := Z.max MM (Z.of_nat (2 * mm + j + j') + 5)).
  assert (E : sumR (- n) (n + 1) (fun k => y k * hR MM y' k)%R = G N (Zt mm j) (Zt mm j')).
  { unfold G, BF.
    rewrite (sumR_extend (- n) (n + 1) (- N) (N + 1)); try lia.
    - apply sumR_ext. intros k _. unfold hR. 
      rewrite (sumR_extend (- MM) (MM + 1) (- N) (N + 1)); try lia.
      + rewrite sumR_mul. apply sumR_ext. intros v _. unfold y, y', Yt, Sq. fold mm j j'. ring.
      + intros v _ Hv. rewrite (supp_S n' (Zt mm j')); [ring| |lia]. exact Sy'.
    - intros k _ Hk. apply sumR_zero. intros v _. 
      replace (Zt mm j k) with 0%R by (symmetry; apply (Sy k); lia). ring. }
  rewrite E. replace (- 2 * PI)%R with (- (2 * PI))%R by ring. rewrite G_orth by lia.
  destruct (Nat.eqb_spec j j'), (Z.eqb_spec n n'); auto; lia.
Qed.

(** ** The normalised Fourier coefficients of a doubled pattern *)
Definition Xhat (d : mat RN) (m k : Z) : C :=
  (RtoC (/ IZR (mt_nr RN d * mt_nc RN d)) *
   sumC 0 (mt_nr RN d) (fun i => sumC 0 (mt_nc RN d) (fun j =>
     cget d i j * root (mt_nr RN d) (- (i * k)) * root (mt_nc RN d) (- (j * m)))))%C.
Definition trunc (P : Z) (F : Z -> Z -> C) (m k : Z) : C := if Z.abs k <=? P then F m k else RtoC 0.

Lemma fsupp_trunc P F : fsupp P (trunc P F).
Proof. intros m k H. unfold trunc. destruct (Z.leb_spec (Z.abs k) P); [lia|auto]. Qed.
Lemma trunc_id P F m k : fsupp P F -> trunc P F m k = F m k.
Proof. intros H. unfold trunc. destruct (Z.leb_spec (Z.abs k) P); auto. symmetry; apply H; lia. Qed.

Lemma Xhat_per d m k a b : 0 < mt_nr RN d -> 0 < mt_nc RN d ->
  Xhat d (m + mt_nc RN d * b) (k + mt_nr RN d * a) = Xhat d m k.
Proof.
  intros H1 H2. unfold Xhat. f_equal. apply sumC_ext; intros i _. apply sumC_ext; intros j _.
  replace (- (i * (k + mt_nr RN d * a))) with (- (i * k) + mt_nr RN d * (- (i * a))) by ring.
  replace (- (j * (m + mt_nc RN d * b))) with (- (j * m) + mt_nc RN d * (- (j * b))) by ring.
  now rewrite !root_period by auto.
Qed.

Lemma fft_padded_ok d R : mt_nr RN d = 2 * R - 2 -> 2 <= R -> 1 <= mt_nc RN d ->
  fft_padded d = Ok (tab (2 * R) (mt_nc RN d) (trunc (R - 2) (Xhat d))).
Proof.
  intros Hr HR Hc. unfold fft_padded, np_fft2. rewrite Hr. set (nc := mt_nc RN d) in *.
  destruct (Z.ltb_spec (2 * R - 2) 1); [lia|]. destruct (Z.ltb_spec nc 1); [lia|]. cbn [orb bind].
  unfold ew1. cbn [mt_nr mt_nc mmake].
  match goal with |- context [fix_even_row_data_fc (mmake RN ?a ?b ?f)] =>
    replace (mmake RN a b f) with (mmake RN (2 * (R - 1)) nc (fun p q => Xhat d q p)) end.
  2:{ replace (2 * (R - 1)) with (2 * R - 2) by lia. apply mmake_ext; try lia. intros p q Hp Hq.
      change (mkMat RN (2 * R - 2) nc (vmake ((2 * R - 2) * nc) (fun p : Z => _))) with
        (mmake RN (2 * R - 2) nc (fun p q => sumC 0 (2 * R - 2) (fun i => sumC 0 nc (fun j => cget d i j * root (2 * R - 2) (- (i * p)) * root nc (- (j * q)))))%C).
      rewrite cget_mmake by lia. unfold Xhat. rewrite Hr. fold nc. unfold Cdiv.
      rewrite RtoC_inv by (apply not_0_IZR; nia). apply Cmult_comm. }
  rewrite fix_even_eq by lia. cbn [bind]. unfold np_zeros2.
  destruct (Z.ltb_spec (2 * R - 2 + 2) 0); [lia|]. destruct (Z.ltb_spec nc 0); [lia|]. cbn [orb bind].
  replace (2 * (R - 1)) with (2 * R - 2) by lia.
  rewrite (pad_rows_eq R nc); [|lia|lia|cbn [mt_nr mmake]; lia|reflexivity].
  f_equal. unfold tab. apply mmake_ext; try lia. intros p q Hp Hq. unfold trunc.
  assert (EX : forall k k', k' = k \/ k' = k + (2 * R - 2) * 1 -> Xhat d q k' = Xhat d (freqc nc q) k).
  { intros k k' Hk. destruct (Z.eq_dec (freqc nc q) q) as [E|E].
    - rewrite E. destruct Hk as [->| ->]; auto. rewrite <- Hr. rewrite <- (Xhat_per d q k 1 0) by lia. f_equal; lia.
    - replace (freqc nc q) with (q + mt_nc RN d * -1) by (fold nc; unfold freqc in *; destruct (q <=? nc / 2); lia).
      destruct Hk as [->| ->].
      + rewrite <- (Xhat_per d q k 0 (-1)) by lia. f_equal; lia.
      + rewrite <- Hr. rewrite <- (Xhat_per d (q + mt_nc RN d * -1) k 1 1) by lia. f_equal; lia. }
  pose proof (freqc_range (2 * R) p Hp) as Hf. 
  assert (Ef : freqc (2 * R) p = if p <=? R then p else p - 2 * R).
  { unfold freqc. replace (2 * R / 2) with R by lia. reflexivity. }
  rewrite Ef in *.
  destruct (Z.leb_spec p R) as [H3|H3].
  - destruct (Z.leb_spec (Z.abs p) (R - 2)), (Z.ltb_spec p (R - 1)); try lia.
    + destruct (Z.eqb_spec p (R - 1)); [lia|]. apply EX; auto.
    + destruct (Z.ltb_spec (R + 1) p); [lia|auto].
  - destruct (Z.ltb_spec p (R - 1)); [lia|].
    destruct (Z.leb_spec (Z.abs (p - 2 * R)) (R - 2)), (Z.ltb_spec (R + 1) p); try lia; auto.
    destruct (Z.eqb_spec (p - 2) (R - 1)); [lia|]. apply EX. right. lia.
Qed.

(** ** spht in closed form *)
Lemma be_fc_tab R nc G nmax mmax : 2 <= R -> 1 <= nc -> 0 <= mmax <= nmax -> 2 * mmax < nc -> fsupp (R - 1) G ->
  exists v, py_fc_to_sc (tab (2 * R) nc G) nmax mmax = Ok v /\ zlen v = ncoef nmax mmax /\
    forall n m, is_mode nmax mmax n m -> vget (RtoC 0) v (pos nmax n m) = An R (G m) m n.
Proof.
  intros HR Hc Hm Hm2 HG.
  destruct (py_fc_to_sc_ok (tab (2 * R) nc G) nmax mmax R) as (v & E & L & V); try lia; try reflexivity.
  - change (mt_nc RN (tab (2 * R) nc G)) with nc. lia.
  - intros m Hmm. rewrite colf_tab by lia. apply HG. lia.
  - exists v. split; [auto|]. split; [auto|]. intros n m Hmode. rewrite V by auto. unfold bcol. apply An_ext.
    intros nu Hnu. destruct Hmode as (_ & _ & Hmm). destruct (Z.eq_dec nu (- R)) as [->|].
    + rewrite (HG m (- R)) by lia. unfold colf. change (mt_nr RN (tab (2 * R) nc G)) with (2 * R).
      replace (- R mod (2 * R)) with (R mod (2 * R)) by (rewrite <- (Z_mod_plus_full (- R) 1); f_equal; lia).
      change (colf (tab (2 * R) nc G) m R = RtoC 0). rewrite colf_tab by lia. apply HG. lia.
    + apply colf_tab; lia.
Qed.

Definition spht_val (d : mat RN) (R n m : Z) : C := An R (sin1 (trunc (R - 2) (Xhat d) m)) m n.

Lemma spht_body d R nmax mmax : mt_nr RN d = 2 * R - 2 -> 2 <= R -> 1 <= mt_nc RN d ->
  0 <= mmax <= nmax -> 2 * mmax < mt_nc RN d ->
  exists c, (f <- fft_padded d ;; f <- sin_fc f ;; sc <- py_fc_to_sc f nmax mmax ;; sc_new RN sc nmax mmax) = Ok c /\
    sc_wf RN c /\ sc_nmax RN c = nmax /\ sc_mmax RN c = mmax /\
    forall n m, is_mode nmax mmax n m -> cval RN c n m = spht_val d R n m.
Proof.
  intros Hr HR Hc Hm Hm2. rewrite (fft_padded_ok d R) by auto. cbn [bind].
  rewrite sin_fc_tab by (try lia; apply fsupp_trunc). cbn [bind].
  destruct (be_fc_tab R (mt_nc RN d) (sinF (trunc (R - 2) (Xhat d))) nmax mmax) as (v & E & L & V); auto.
  { replace (R - 1) with (R - 2 + 1) by lia. apply fsupp_sinF, fsupp_trunc. }
  rewrite E. cbn [bind]. exists (mkSC RN v nmax mmax).
  assert (W : sc_wf RN (mkSC RN v nmax mmax)) by (split; [exact Hm|exact L]).
  split; [|split; [exact W|split; [reflexivity|split; [reflexivity|]]]].
  - exact (sc_new_ok RN v nmax mmax (proj1 W) (proj2 W)).
  - intros n m Hmode. exact (V n m Hmode).
Qed.

(** ** ispht in closed form *)

(** The inverse transform of a table, on the grid. *)
Definition synth (L nc : Z) (F : Z -> Z -> C) (p q : Z) : C :=
  sumC 0 L (fun i => sumC 0 nc (fun j => F (freqc nc j) (freqc L i) * root L (i * p) * root nc (j * q)))%C.

Lemma ifft_scaled_tab L nc F : 1 <= L -> 1 <= nc ->
  ifft_scaled (tab L nc F) L nc = Ok (mmake RN L nc (synth L nc F)).
Proof.
  intros HL Hc. unfold ifft_scaled, np_ifft2.
  change (mt_nr RN (tab L nc F)) with L. change (mt_nc RN (tab L nc F)) with nc.
  destruct (Z.ltb_spec L 1); [lia|]. destruct (Z.ltb_spec nc 1); [lia|]. cbn [orb bind]. f_equal.
  unfold ew1. cbn [mt_nr mt_nc mmake]. apply mmake_ext; try lia. intros p q Hp Hq.
  rewrite cget_mmake by lia. unfold synth.
  rewrite (sumC_ext 0 L _ (fun i => sumC 0 nc (fun j => F (freqc nc j) (freqc L i) * root L (i * p) * root nc (j * q))%C)).
  - rewrite RtoC_inv, RtoC_mult.
    + field. split; apply RtoC_neq; apply not_0_IZR; lia.
    + apply Rmult_integral_contrapositive_currified; apply not_0_IZR; lia.
  - intros i Hi. apply sumC_ext. intros j Hj. unfold tab. now rewrite cget_mmake by lia.
Qed.

Lemma synth_Xhat L nc F m k : 1 <= L -> 1 <= nc ->
  Xhat (mmake RN L nc (synth L nc F)) m k = F (freqc nc (m mod nc)) (freqc L (k mod L)).
Proof.
  intros HL Hc. set (d := mmake RN L nc (synth L nc F)).
  assert (E : Xhat d m k = Xhat d (m mod nc) (k mod L)).
  { pose proof (Xhat_per d (m mod nc) (k mod L) (k / L) (m / nc)) as H.
    change (mt_nr RN d) with L in H. change (mt_nc RN d) with nc in H. rewrite <- H by lia.
    f_equal; [rewrite (Z.div_mod m nc) at 1 by lia|rewrite (Z.div_mod k L) at 1 by lia]; lia. }
  rewrite E. clear E. pose proof (Z.mod_pos_bound m nc ltac:(lia)) as Hm. pose proof (Z.mod_pos_bound k L ltac:(lia)) as Hk.
  set (q := m mod nc) in *. set (p := k mod L) in *. clearbody p q.
  unfold Xhat. change (mt_nr RN d) with L. change (mt_nc RN d) with nc.
  set (f := fun i j => F (freqc nc j) (freqc L i)).
  change (F (freqc nc q) (freqc L p)) with (f p q).
  assert (E : sumC 0 L (fun i => sumC 0 nc (fun j => cget d i j * root L (- (i * p)) * root nc (- (j * q))))%C =
    (RtoC (IZR L) * (RtoC (IZR nc) * f p q))%C).
  { rewrite <- (dft_inv' L ltac:(lia) (fun i => RtoC (IZR nc) * f i q)%C p) by lia.
    apply sumC_ext. intros i Hi.
    rewrite (sumC_ext 0 nc _ (fun j => (cget d i j * root nc (- (j * q))) * root L (- (i * p)))%C) by (intros; ring).
    rewrite <- sumC_mulr. f_equal.
    rewrite (sumC_ext 0 nc _ (fun j => sumC 0 L (fun a => sumC 0 nc (fun b => f a b * root nc (b * j)) * root nc (- (j * q)) * root L (a * i)))%C).
    - rewrite sumC_exch. apply sumC_ext. intros a Ha. rewrite <- (dft_inv' nc ltac:(lia) (f a) q) by lia.
      now rewrite sumC_mulr.
    - intros j Hj. unfold d. rewrite cget_mmake by lia. unfold synth. rewrite sumC_mulr. apply sumC_ext. intros a Ha.
      rewrite !sumC_mulr. apply sumC_ext. intros b Hb. unfold f. ring. }
  rewrite E. rewrite mult_IZR, RtoC_inv, RtoC_mult.
  - field. split; apply RtoC_neq; apply not_0_IZR; lia.
  - apply Rmult_integral_contrapositive_currified; apply not_0_IZR; lia.
Qed.

(** Frequency form of [synth]: sums over centred frequencies. *)
Lemma sum_freqc L f : 1 <= L -> sumC 0 L (fun i => f (freqc L i)) = sumC (- ((L - 1) / 2)) (L / 2 + 1) f.
Proof.
  intros HL. rewrite (sumC_split 0 (L / 2 + 1) L) by lia.
  rewrite (sumC_split (- ((L - 1) / 2)) 0 (L / 2 + 1)) by lia. rewrite Cplus_comm. f_equal.
  - transitivity (sumC (- ((L - 1) / 2) + L) (0 + L) (fun i => f (freqc L i))); [f_equal; lia|].
    rewrite sumC_shift. apply sumC_ext. intros k Hk.
    unfold freqc. destruct (Z.leb_spec (k + L) (L / 2)); [lia|]. f_equal; lia.
  - apply sumC_ext. intros k Hk. unfold freqc. destruct (Z.leb_spec k (L / 2)); [auto|lia].
Qed.

Lemma root_freqc L i p : 1 <= L -> root L (freqc L i * p) = root L (i * p).
Proof.
  intros HL. unfold freqc. destruct (i <=? L / 2); auto.
  replace ((i - L) * p) with (i * p + L * (- p)) by ring. now rewrite root_period by lia.
Qed.

Lemma synth_freq L nc F P M p q : 1 <= L -> 1 <= nc -> 0 <= P -> 2 * P < L -> 0 <= M -> 2 * M < nc ->
  (forall m k, P < Z.abs k \/ M < Z.abs m -> F m k = RtoC 0) ->
  synth L nc F p q = sumC (- M) (M + 1) (fun m => sumC (- P) (P + 1) (fun k => F m k * root L (k * p))%C * root nc (m * q))%C.
Proof.
  intros HL Hc HP HP2 HM HM2 HF. unfold synth.
  rewrite (sumC_ext 0 L _ (fun i => (fun k => sumC 0 nc (fun j => F (freqc nc j) k * root L (k * p) * root nc (j * q))%C) (freqc L i))).
  2:{ intros i _. apply sumC_ext. intros j _. now rewrite root_freqc by lia. }
  rewrite (sum_freqc L (fun k => sumC 0 nc (fun j => F (freqc nc j) k * root L (k * p) * root nc (j * q))%C)) by lia.
  rewrite (sumC_extend (- P) (P + 1)); try lia.
  2:{ intros k Hk1 Hk2. apply sumC_zero. intros j _. rewrite HF by lia. ring. }
  rewrite (sumC_ext (- P) (P + 1) _ (fun k => sumC (- M) (M + 1) (fun m => F m k * root L (k * p) * root nc (m * q))%C)).
  - rewrite sumC_exch. apply sumC_ext. intros m _. now rewrite sumC_mulr.
  - intros k _.
    rewrite (sumC_ext 0 nc _ (fun j => (fun m => F m k * root L (k * p) * root nc (m * q))%C (freqc nc j))) by
      (intros j _; now rewrite (root_freqc nc j) by lia).
    rewrite (sum_freqc nc (fun m => F m k * root L (k * p) * root nc (m * q))%C) by lia.
    apply sumC_extend; try lia. intros m _ Hm. rewrite HF by lia. ring.
Qed.

(** What the code takes for Y_n^m(theta, phi). *)
Definition Yc (n m : Z) (theta phi : R) : C :=
  (ipow m * cisR (IZR m * phi) * sumC (- n) (n + 1) (fun k => RtoC (Yt n m k) * cisR (IZR k * theta)))%C.

Lemma root_cis L k p : 1 <= L -> root L (k * p) = cisR (IZR k * (2 * PI * IZR p / IZR L)).
Proof. intros HL. unfold root. f_equal. rewrite mult_IZR. field. apply not_0_IZR. lia. Qed.

(** The harmonic expansion with coefficients c n m. *)
Definition expansion (nmax mmax : Z) (c : Z -> Z -> C) (theta phi : R) : C :=
  sumC (- mmax) (mmax + 1) (fun m => sumC (Z.abs m) (nmax + 1) (fun n => c n m * Yc n m theta phi))%C.

Lemma Fsc_supp c m k : sc_wf RN c -> sc_nmax RN c < Z.abs k \/ sc_mmax RN c < Z.abs m -> Fsc c m k = RtoC 0.
Proof.
  intros Hw H. unfold Fsc. destruct (Z.leb_spec (Z.abs m) (sc_mmax RN c)); auto.
  rewrite sumC_zero; [ring|]. intros n Hn. rewrite Yt_supp by lia. ring.
Qed.

Lemma synth_Fsc c L nc p q : sc_wf RN c -> 2 * sc_nmax RN c < L -> 2 * sc_mmax RN c < nc ->
  synth L nc (Fsc c) p q =
  expansion (sc_nmax RN c) (sc_mmax RN c) (cval RN c) (2 * PI * IZR p / IZR L) (2 * PI * IZR q / IZR nc).
Proof.
  intros Hw HL Hc. pose proof Hw as [[Hg1 Hg2] _].
  rewrite (synth_freq L nc (Fsc c) (sc_nmax RN c) (sc_mmax RN c)); try lia; [|intros; now apply Fsc_supp].
  unfold expansion. apply sumC_ext. intros m Hm.
  set (N := sc_nmax RN c) in *. set (M := sc_mmax RN c) in *.
  rewrite (sumC_ext (- N) (N + 1) _ (fun k => sumC (Z.abs m) (N + 1) (fun n => cval RN c n m * ipow m * (RtoC (Yt n m k) * cisR (IZR k * (2 * PI * IZR p / IZR L)))))%C).
  - rewrite sumC_exch, sumC_mulr. apply sumC_ext. intros n Hn. rewrite <- sumC_mul. unfold Yc.
    rewrite (sumC_extend (- n) (n + 1) (- N) (N + 1)); try lia.
    + rewrite (root_cis nc) by lia. ring.
    + intros k _ Hk. rewrite Yt_supp by lia. ring.
  - intros k _. unfold Fsc. fold N M. destruct (Z.leb_spec (Z.abs m) M); [|lia].
    rewrite root_cis by lia. rewrite sumC_mul, sumC_mulr. apply sumC_ext. intros n _. ring.
Qed.

Lemma ispht_body c R B : sc_wf RN c -> sc_nmax RN c + 1 <= 2 * R - 2 -> 2 * sc_mmax RN c + 2 <= 2 * B ->
  (f <- py_sc_to_fc (sc_vec RN c) (sc_nmax RN c) (sc_mmax RN c) (2 * R - 2) (2 * B) ;;
   d <- ifft_scaled f (2 * R - 2) (2 * B) ;; sp_new RN d true)
  = Ok (mmake RN (2 * R - 2) (2 * B) (synth (2 * R - 2) (2 * B) (Fsc c))).
Proof.
  intros Hw HR HB. pose proof Hw as [[Hg1 Hg2] _].
  rewrite py_sc_to_fc_ok by auto. cbn [bind]. change (fdata_of c (2 * R - 2) (2 * B)) with (tab (2 * R - 2) (2 * B) (Fsc c)).
  rewrite ifft_scaled_tab by lia. cbn [bind]. reflexivity.
Qed.

(** ** Analysis inverts synthesis *)
Lemma trunc_synth R B F m k : 2 <= R -> 1 <= B -> - B < m <= B -> fsupp (R - 2) F ->
  trunc (R - 2) (Xhat (mmake RN (2 * R - 2) (2 * B) (synth (2 * R - 2) (2 * B) F))) m k = F m k.
Proof.
  intros HR HB Hm HF. unfold trunc. destruct (Z.leb_spec (Z.abs k) (R - 2)).
  - rewrite synth_Xhat by lia. now rewrite !freqc_of_mod by lia.
  - symmetry. apply HF. lia.
Qed.

Lemma sin1_ext f g : (forall k, f k = g k) -> forall k, sin1 f k = sin1 g k.
Proof. intros H k. unfold sin1. now rewrite !H. Qed.
Lemma sin1_scal c f k : sin1 (fun k => c * f k)%C k = (c * sin1 f k)%C.
Proof. unfold sin1. ring. Qed.
Lemma sin1_add f g k : sin1 (fun k => f k + g k)%C k = (sin1 f k + sin1 g k)%C.
Proof. unfold sin1. ring. Qed.
Lemma sin1_sum lo hi (f : Z -> Z -> C) k : sin1 (fun k => sumC lo hi (fun i => f i k)) k = sumC lo hi (fun i => sin1 (f i) k).
Proof.
  unfold sin1. rewrite <- sumC_sub. rewrite sumC_mul. reflexivity.
Qed.

(** Analysis of i^m sum_n' w n' Y_n'^m. *)
Lemma An_comb MM (w : Z -> C) N m n : Z.abs m <= n -> N <= MM - 2 ->
  An MM (sin1 (fun k => ipow m * sumC (Z.abs m) (N + 1) (fun n' => w n' * RtoC (Yt n' m k)))%C) m n =
  if n <=? N then w n else RtoC 0.
Proof.
  intros Hn HN.
  rewrite (An_ext MM _ (fun nu => sumC (Z.abs m) (N + 1) (fun n' => (ipow m * w n') * sin1 (fun k => RtoC (Yt n' m k)) nu)%C)).
  - rewrite (An_sum MM _ _ (fun n' nu => (ipow m * w n') * sin1 (fun k => RtoC (Yt n' m k)) nu)%C).
    rewrite (sumC_ext _ _ _ (fun n' => if n =? n' then w n else RtoC 0)).
    + destruct (Z.leb_spec n N).
      * rewrite (sumC_single _ _ n); [now rewrite Z.eqb_refl|lia|]. intros k _ Hk. destruct (Z.eqb_spec n k); [lia|auto].
      * apply sumC_zero. intros k Hk. destruct (Z.eqb_spec n k); [lia|auto].
    + intros n' Hn'. rewrite An_scal, An_Yt by lia.
      transitivity (w n' * (ipow (- m) * ipow m) * RtoC (if n =? n' then 1 else 0))%C; [ring|].
      rewrite ipow_cancel. destruct (Z.eqb_spec n n') as [->|]; ring.
  - intros nu _. rewrite sin1_scal.
    rewrite (sin1_sum _ _ (fun n' k => w n' * RtoC (Yt n' m k))%C). rewrite sumC_mul.
    apply sumC_ext. intros n' _. rewrite sin1_scal. ring.
Qed.

Lemma spht_val_Fsc c R B n m : sc_wf RN c -> sc_nmax RN c <= R - 2 -> sc_mmax RN c < B -> - B < m < B -> Z.abs m <= n ->
  spht_val (mmake RN (2 * R - 2) (2 * B) (synth (2 * R - 2) (2 * B) (Fsc c))) R n m =
  if (Z.abs m <=? sc_mmax RN c) && (n <=? sc_nmax RN c) then cval RN c n m else RtoC 0.
Proof.
  intros Hw HR HB Hm Hn. pose proof Hw as [[Hg1 Hg2] _]. unfold spht_val.
  assert (HF : fsupp (R - 2) (Fsc c)) by (intros a b Hab; apply Fsc_supp; auto; lia).
  rewrite (An_ext R _ (sin1 (Fsc c m))).
  2:{ intros nu _. apply sin1_ext. intros k. apply trunc_synth; auto; lia. }
  destruct (Z.leb_spec (Z.abs m) (sc_mmax RN c)) as [H|H]; cbn [andb].
  - rewrite <- (An_comb R (fun n' => cval RN c n' m) (sc_nmax RN c) m n) by lia.
    apply An_ext. intros nu _. apply sin1_ext. intros k. unfold Fsc. destruct (Z.leb_spec (Z.abs m) (sc_mmax RN c)); [auto|lia].
  - rewrite (An_ext R _ (fun _ => RtoC 0)); [apply An_zero|]. intros nu _. unfold sin1.
    rewrite !Fsc_supp by (auto; lia). ring.
Qed.
