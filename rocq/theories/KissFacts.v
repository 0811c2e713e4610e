(** * KissFacts: the kiss_fft model computes the DFT, inside its buffers. *)
From Coq Require Import ZArith List String Bool Reals Lia Lra.
From Coquelicot Require Import Complex.
From Verif Require Import Py PyFacts Num Exact MCoefs Sums MPysphi Dft MKiss.
Import ListNotations.
Open Scope list_scope.
Open Scope Z_scope.

Notation vgc := (vget (RtoC 0)).

Lemma bget_ok {A} (d : A) b i : 0 <= i < zlen b -> bget d b i = Ok (vget d b i).
Proof. unfold bget. intros H. destruct (Z.leb_spec 0 i), (Z.ltb_spec i (zlen b)); auto; lia. Qed.
Lemma cbget_ok b i : 0 <= i < zlen b -> cbget b i = Ok (vgc b i).
Proof. apply bget_ok. Qed.
Lemma bset_ok {A} (b : list A) i x : 0 <= i < zlen b -> bset b i x = Ok (vset b i x).
Proof. unfold bset. intros H. destruct (Z.leb_spec 0 i), (Z.ltb_spec i (zlen b)); auto; lia. Qed.

(** ** Twiddles *)
Section Twiddle.
Variables (nfft sg : Z).
Hypothesis Hn : 0 < nfft.
Definition W (k : Z) : C := root nfft (sg * k).
Lemma W_add a b : W (a + b) = (W a * W b)%C.
Proof. unfold W. rewrite Z.mul_add_distr_l. apply root_add; auto. Qed.
Lemma W_0 : W 0 = RtoC 1.
Proof. unfold W. rewrite Z.mul_0_r. apply root_0; auto. Qed.
Lemma W_n k : W (nfft * k) = RtoC 1.
Proof. unfold W. replace (sg * (nfft * k)) with (nfft * (sg * k)) by ring. apply root_n; auto. Qed.
Lemma W_period a k : W (a + nfft * k) = W a.
Proof. rewrite W_add, W_n. ring. Qed.
Lemma W_mod a : W (a mod nfft) = W a.
Proof. rewrite (Z.div_mod a nfft) at 2 by lia. rewrite Z.add_comm, W_period. reflexivity. Qed.
Lemma W_sub fs p m j : 0 < p -> fs * (p * m) = nfft -> W (fs * m * j) = root p (sg * j).
Proof.
  intros Hp E. unfold W, root. f_equal. rewrite !mult_IZR.
  assert (E' : (IZR nfft = IZR fs * (IZR p * IZR m))%R) by (rewrite <- E, !mult_IZR; auto).
  assert (H0 : IZR nfft <> 0%R) by (apply IZRn; auto).
  assert (H1 : IZR p <> 0%R) by (apply not_0_IZR; lia).
  rewrite E' in *. field. repeat split; intros HH; try tauto; apply H0; rewrite HH; ring.
Qed.
End Twiddle.

Record cfg_ok (st : kcfg) (sg : Z) : Prop := mkCfgOk {
  co_pos : 0 < k_nfft st;
  co_sg : sg = if k_inverse st then 1 else -1;
  co_len : zlen (k_tw st) = k_nfft st;
  co_tw : forall i, 0 <= i < k_nfft st -> vgc (k_tw st) i = W (k_nfft st) sg i }.

(** ** The butterfly loop: every column u is transformed independently. *)
Definition cell (o m u q : Z) : Z := o + (q * m + u).
Definition bfly_spec (W : Z -> C) (out out' : list C) (o fs m p : Z) : Prop :=
  zlen out' = zlen out /\
  (forall q1 u, 0 <= q1 < p -> 0 <= u < m ->
     vgc out' (cell o m u q1) = sumC 0 p (fun q => vgc out (cell o m u q) * W (fs * (q * (q1 * m + u)))%Z)%C) /\
  (forall i, i < o \/ o + p * m <= i -> vgc out' i = vgc out i).
Definition body_spec (W : Z -> C) (out out' : list C) (o fs m p u : Z) : Prop :=
  zlen out' = zlen out /\
  (forall q1, 0 <= q1 < p ->
     vgc out' (cell o m u q1) = sumC 0 p (fun q => vgc out (cell o m u q) * W (fs * (q * (q1 * m + u)))%Z)%C) /\
  (forall i, (forall q, 0 <= q < p -> i <> cell o m u q) -> vgc out' i = vgc out i).

Lemma cell_inj o m u q u' q' : 0 <= u < m -> 0 <= u' < m -> cell o m u q = cell o m u' q' -> u = u' /\ q = q'.
Proof.
  unfold cell. intros H1 H2 E. assert (E' : q * m + u = q' * m + u') by lia. clear E.
  assert (q = q') by nia. subst. lia.
Qed.
Lemma cell_bounds o m u q p : 0 <= u < m -> 0 <= q < p -> o <= cell o m u q < o + p * m.
Proof. unfold cell. intros. nia. Qed.

Lemma bfly_loop W out o fs m p body :
  1 <= m -> 0 <= p -> 0 <= o -> o + p * m <= zlen out ->
  (forall u b, 0 <= u < m -> zlen b = zlen out -> exists b', body u b = Ok b' /\ body_spec W b b' o fs m p u) ->
  exists out', mfor (zrange 0 m) body out = Ok out' /\ bfly_spec W out out' o fs m p.
Proof.
  intros Hm Hp Ho Hl Hb.
  pose (P := fun (k : Z) (b : list C) => zlen b = zlen out /\
     (forall q1 u, 0 <= q1 < p -> 0 <= u < k -> u < m ->
       vgc b (cell o m u q1) = sumC 0 p (fun q => vgc out (cell o m u q) * W (fs * (q * (q1 * m + u)))%Z)%C) /\
     (forall q1 u, 0 <= q1 < p -> k <= u < m -> vgc b (cell o m u q1) = vgc out (cell o m u q1)) /\
     (forall i, i < o \/ o + p * m <= i -> vgc b i = vgc out i)).
  destruct (mfor_inv P 0 m body out) as (out' & E & H1 & H2 & H3 & H4).
  - lia.
  - unfold P. repeat split; auto. intros; lia.
  - intros u b Hu (H1 & H2 & H3 & H4). destruct (Hb u b) as (b' & E & G1 & G2 & G3); auto.
    exists b'. split; auto. unfold P. repeat split.
    + lia.
    + intros q1 u' Hq Hu' Hu''. destruct (Z.eq_dec u' u) as [->|Hne].
      * rewrite G2 by auto. apply sumC_ext. intros q Hq'. rewrite H3 by lia. reflexivity.
      * rewrite G3. apply H2; lia.
        intros q Hq' E'. apply cell_inj in E'; lia.
    + intros q1 u' Hq Hu'. rewrite G3. apply H3; lia. intros q Hq' E'. apply cell_inj in E'; lia.
    + intros i Hi. rewrite G3. apply H4; auto. intros q Hq' ->. pose proof (cell_bounds o m u q p); lia.
  - exists out'. split; auto. unfold bfly_spec. repeat split; auto. intros; apply H2; lia.
Qed.

(** ** Roots of small order *)
Lemma root_red n a b : 0 < n -> a mod n = b -> root n a = root n b.
Proof. intros Hn <-. symmetry. apply root_mod; auto. Qed.
Lemma root_cong n a b : 0 < n -> a mod n = b mod n -> root n a = root n b.
Proof. intros Hn E. rewrite <- (root_mod n Hn a), E. apply root_mod; auto. Qed.
Lemma root2_1 : root 2 1 = (- RtoC 1)%C.
Proof.
  unfold root, cisR. replace (2 * PI * 1 / 2)%R with PI by lra. rewrite cos_PI, sin_PI.
  unfold Copp, RtoC; cbn. apply C_ext; lra.
Qed.
Lemma root4_1 : root 4 1 = Ci.
Proof.
  unfold root, cisR. replace (2 * PI * 1 / 4)%R with (PI / 2)%R by lra. rewrite cos_PI2, sin_PI2. reflexivity.
Qed.
Lemma root_conj n a : 0 < n -> root n (- a) = Cconj (root n a).
Proof.
  intros Hn. unfold root, cisR, Cconj; cbn [fst snd]. rewrite opp_IZR.
  replace (2 * PI * - IZR a / IZR n)%R with (- (2 * PI * IZR a / IZR n))%R.
  rewrite cos_neg, sin_neg; auto. field. apply IZRn; auto.
Qed.
Lemma root3_1_re : fst (root 3 1) = (- / 2)%R.
Proof.
  unfold root, cisR; cbn [fst]. replace (2 * PI * 1 / 3)%R with (2 * (PI / 3))%R by lra.
  rewrite cos_2PI3. lra.
Qed.

Lemma r4_0 a : a mod 4 = 0 -> root 4 a = RtoC 1.
Proof. intros H. rewrite (root_red 4 a 0), root_0 by lia. reflexivity. Qed.
Lemma r4_1 a : a mod 4 = 1 -> root 4 a = Ci.
Proof. intros H. rewrite (root_red 4 a 1), root4_1 by lia. reflexivity. Qed.
Lemma r4_2 a : a mod 4 = 2 -> root 4 a = (- RtoC 1)%C.
Proof.
  intros H. rewrite (root_red 4 a (1 + 1)), root_add, root4_1 by lia.
  unfold Ci, Cmult, Copp, RtoC; cbn. apply C_ext; ring.
Qed.
Lemma r4_3 a : a mod 4 = 3 -> root 4 a = (- Ci)%C.
Proof.
  intros H. rewrite (root_cong 4 a (- (1))), root_conj, root4_1 by (lia || (rewrite H; reflexivity)).
  unfold Ci, Cconj, Copp; cbn. apply C_ext; ring.
Qed.
Lemma r3_0 a : a mod 3 = 0 -> root 3 a = RtoC 1.
Proof. intros H. rewrite (root_red 3 a 0), root_0 by lia. reflexivity. Qed.
Lemma r3_1 a : a mod 3 = 1 -> root 3 a = (- / 2, snd (root 3 1))%R.
Proof. intros H. rewrite (root_red 3 a 1) by lia. rewrite <- root3_1_re. apply surjective_pairing. Qed.
Lemma r3_2 a : a mod 3 = 2 -> root 3 a = (- / 2, - snd (root 3 1))%R.
Proof.
  intros H. rewrite (root_cong 3 a (- (1))), root_conj by (lia || (rewrite H; reflexivity)). rewrite <- root3_1_re. reflexivity.
Qed.
Lemma r5_0 a : a mod 5 = 0 -> root 5 a = RtoC 1.
Proof. intros H. rewrite (root_red 5 a 0), root_0 by lia. reflexivity. Qed.
Lemma r5_1 a : a mod 5 = 1 -> root 5 a = (fst (root 5 1), snd (root 5 1)).
Proof. intros H. rewrite (root_red 5 a 1) by lia. apply surjective_pairing. Qed.
Lemma r5_2 a : a mod 5 = 2 -> root 5 a = (fst (root 5 2), snd (root 5 2)).
Proof. intros H. rewrite (root_red 5 a 2) by lia. apply surjective_pairing. Qed.
Lemma r5_3 a : a mod 5 = 3 -> root 5 a = (fst (root 5 2), - snd (root 5 2))%R.
Proof. intros H. rewrite (root_cong 5 a (- (2))), root_conj by (lia || (rewrite H; reflexivity)). reflexivity. Qed.
Lemma r5_4 a : a mod 5 = 4 -> root 5 a = (fst (root 5 1), - snd (root 5 1))%R.
Proof. intros H. rewrite (root_cong 5 a (- (1))), root_conj by (lia || (rewrite H; reflexivity)). reflexivity. Qed.
Ltac roots :=
  repeat match goal with
  | |- context [root 4 ?a] => first [rewrite (r4_0 a) by reflexivity | rewrite (r4_1 a) by reflexivity
                                   | rewrite (r4_2 a) by reflexivity | rewrite (r4_3 a) by reflexivity]
  end.
Ltac cring := unfold Ci, RtoC, Cminus, Cplus, Cmult, Copp, Cconj; cbn [fst snd]; apply C_ext; field.

(** the twiddle product in a butterfly *)
Lemma W_cell nfft sg fs m p q q1 u : 0 < nfft -> 0 < p -> fs * (p * m) = nfft ->
  W nfft sg (fs * (q * (q1 * m + u))) = (W nfft sg (fs * (q * u)) * root p (sg * (q * q1)))%C.
Proof.
  intros Hn Hp E. replace (fs * (q * (q1 * m + u))) with (fs * (q * u) + fs * m * (q * q1)) by ring.
  rewrite W_add by auto. f_equal. apply W_sub; auto.
Qed.


Section Butterflies.
Variables (st : kcfg) (sg : Z).
Hypothesis Hst : cfg_ok st sg.
Notation nfft := (k_nfft st).
Notation WW := (W nfft sg).
Let Hn : 0 < nfft := co_pos st sg Hst.
Lemma sg_cases : sg = 1 \/ sg = -1.
Proof. rewrite (co_sg _ _ Hst). destruct (k_inverse st); auto. Qed.
Lemma tw_ok i : 0 <= i < nfft -> cbget (k_tw st) i = Ok (WW i).
Proof. intros H. rewrite cbget_ok by (rewrite (co_len _ _ Hst); auto). now rewrite (co_tw _ _ Hst). Qed.

Ltac twd := repeat (rewrite tw_ok by nia; cbn [bind]).
Ltac side Hc := rewrite ?zlen_vset; apply Hc; lia.
Ltac cbs Hc := repeat first
  [ rewrite cbget_ok by side Hc; cbn [bind]
  | rewrite bset_ok by side Hc; cbn [bind] ].
Ltac getset Hc Hi :=
  repeat first
  [ rewrite vget_vset_eq by side Hc
  | rewrite vget_vset_ne by (apply Hi; lia) ].

Lemma bfly2_ok out o fs m : 1 <= m -> 0 <= o -> 0 < fs -> o + 2 * m <= zlen out -> fs * (2 * m) = nfft ->
  exists out', kf_bfly2 out o fs st m = Ok out' /\ bfly_spec WW out out' o fs m 2.
Proof.
  intros Hm Ho Hf Hl E. unfold kf_bfly2. destruct (Z.ltb_spec m 1); [lia|].
  apply bfly_loop; try lia. intros u b Hu Hb.
  assert (Hc : forall q, 0 <= q < 2 -> 0 <= cell o m u q < zlen b)
    by (intros q Hq; pose proof (cell_bounds o m u q 2); lia).
  assert (Hi : forall q q', q <> q' -> cell o m u q <> cell o m u q')
    by (intros q q' Hq E'; apply cell_inj in E'; lia).
  replace (o + m + u) with (cell o m u 1) by (unfold cell; ring).
  replace (o + u) with (cell o m u 0) by (unfold cell; ring).
  replace (u * fs) with (fs * (1 * u)) by ring.
  cbs Hc. twd. cbs Hc. eexists; split; [reflexivity|].
  unfold body_spec. rewrite !zlen_vset. split; auto. split.
  - intros q1 Hq. rewrite (sumC_cons 0), (sumC_cons (0 + 1)), (sumC_nil (0 + 1 + 1)) by lia. cbn [Z.add Pos.add].
    rewrite !(W_cell nfft sg fs m 2) by lia.
    replace (WW (fs * (0 * u))) with (RtoC 1) by (symmetry; rewrite Z.mul_0_r; apply W_0; auto).
    assert (q1 = 0 \/ q1 = 1) as [-> | ->] by lia; getset Hc Hi.
    + rewrite !(root_red 2 (sg * _) 0), root_0 by (destruct sg_cases as [-> | ->]; reflexivity || lia). ring.
    + rewrite (root_red 2 (sg * (0 * 1)) 0), (root_red 2 (sg * (1 * 1)) 1), root_0, root2_1
        by (destruct sg_cases as [-> | ->]; reflexivity || lia). ring.
  - intros i Hi'. pose proof (Hi' 0 ltac:(lia)). pose proof (Hi' 1 ltac:(lia)).
    rewrite !vget_vset_ne by lia. reflexivity.
Qed.

Ltac start4 r Hc Hi := match goal with Hl : ?o + r * ?m <= zlen ?out, Hu : 0 <= ?u < ?m, Hb : zlen ?b = zlen ?out |- _ =>
  assert (Hc : forall q, 0 <= q < r -> 0 <= cell o m u q < zlen b)
    by (intros q Hq; pose proof (cell_bounds o m u q r); lia);
  assert (Hi : forall q q', q <> q' -> cell o m u q <> cell o m u q')
    by (intros q q' Hq E'; apply cell_inj in E'; lia) end.

Lemma bfly4_ok out o fs m : 1 <= m -> 0 <= o -> 0 < fs -> o + 4 * m <= zlen out -> fs * (4 * m) = nfft ->
  exists out', kf_bfly4 out o fs st m = Ok out' /\ bfly_spec WW out out' o fs m 4.
Proof.
  intros Hm Ho Hf Hl E. unfold kf_bfly4. destruct (Z.ltb_spec m 1); [lia|].
  apply bfly_loop; try lia. intros u b Hu Hb. start4 4 Hc Hi.
  replace (o + u + m) with (cell o m u 1) by (unfold cell; ring).
  replace (o + u + 2 * m) with (cell o m u 2) by (unfold cell; ring).
  replace (o + u + 3 * m) with (cell o m u 3) by (unfold cell; ring).
  replace (o + u) with (cell o m u 0) by (unfold cell; ring).
  replace (u * fs) with (fs * (1 * u)) by ring.
  replace (u * (fs * 2)) with (fs * (2 * u)) by ring.
  replace (u * (fs * 3)) with (fs * (3 * u)) by ring.
  pose proof (co_sg _ _ Hst) as Hs.
  destruct (k_inverse st);
  (repeat (cbs Hc; twd); eexists; split; [reflexivity|];
  unfold body_spec; rewrite !zlen_vset; split; auto; split;
  [ intros q1 Hq; rewrite (sumC_cons 0), (sumC_cons (0 + 1)), (sumC_cons (0 + 1 + 1)), (sumC_cons (0 + 1 + 1 + 1)),
      (sumC_nil (0 + 1 + 1 + 1 + 1)) by lia; cbn [Z.add Pos.add];
    rewrite !(W_cell nfft _ fs m 4) by lia;
    replace (W nfft _ (fs * (0 * u))) with (RtoC 1) by (symmetry; rewrite Z.mul_0_r; apply W_0; auto);
    generalize (WW (fs * (1 * u))) (WW (fs * (2 * u))) (WW (fs * (3 * u))); intros w1 w2 w3;
    assert (q1 = 0 \/ q1 = 1 \/ q1 = 2 \/ q1 = 3) as [-> | [-> | [-> | ->]]] by lia; getset Hc Hi; rewrite Hs; roots; cring
  | intros i Hi'; pose proof (Hi' 0 ltac:(lia)); pose proof (Hi' 1 ltac:(lia));
    pose proof (Hi' 2 ltac:(lia)); pose proof (Hi' 3 ltac:(lia));
    rewrite !vget_vset_ne by lia; reflexivity ]).
Qed.

Lemma bfly3_ok out o fs m : 1 <= m -> 0 <= o -> 0 < fs -> o + 3 * m <= zlen out -> fs * (3 * m) = nfft ->
  exists out', kf_bfly3 out o fs st m = Ok out' /\ bfly_spec WW out out' o fs m 3.
Proof.
  intros Hm Ho Hf Hl E. unfold kf_bfly3. destruct (Z.ltb_spec m 1); [lia|]. twd.
  apply bfly_loop; try lia. intros u b Hu Hb. start4 3 Hc Hi.
  replace (o + u + m) with (cell o m u 1) by (unfold cell; ring).
  replace (o + u + 2 * m) with (cell o m u 2) by (unfold cell; ring).
  replace (o + u) with (cell o m u 0) by (unfold cell; ring).
  replace (u * fs) with (fs * (1 * u)) by ring.
  replace (u * (fs * 2)) with (fs * (2 * u)) by ring.
  replace (WW (fs * m)) with (root 3 (sg * 1)) by (symmetry; rewrite <- (W_sub nfft sg Hn fs 3 m 1) by lia; f_equal; ring).
  repeat (cbs Hc; twd). eexists; split; [reflexivity|].
  unfold body_spec; rewrite !zlen_vset; split; auto; split.
  - intros q1 Hq; rewrite (sumC_cons 0), (sumC_cons (0 + 1)), (sumC_cons (0 + 1 + 1)), (sumC_nil (0 + 1 + 1 + 1)) by lia; cbn [Z.add Pos.add].
    rewrite !(W_cell nfft _ fs m 3) by lia.
    replace (WW (fs * (0 * u))) with (RtoC 1) by (symmetry; rewrite Z.mul_0_r; apply W_0; auto).
    generalize (WW (fs * (1 * u))) (WW (fs * (2 * u))). intros w1 w2.
    assert (q1 = 0 \/ q1 = 1 \/ q1 = 2) as [-> | [-> | ->]] by lia; getset Hc Hi;
    destruct sg_cases as [Hs|Hs]; rewrite Hs; 
    repeat match goal with
    | |- context [root 3 ?a] => first [rewrite (r3_0 a) by reflexivity | rewrite (r3_2 a) by reflexivity
           | lazymatch a with 1 => fail | _ => rewrite (r3_1 a) by reflexivity end ]
    end; cring.
  - intros i Hi'; pose proof (Hi' 0 ltac:(lia)); pose proof (Hi' 1 ltac:(lia)); pose proof (Hi' 2 ltac:(lia)).
    rewrite !vget_vset_ne by lia; reflexivity.
Qed.

Lemma bfly5_ok out o fs m : 1 <= m -> 0 <= o -> 0 < fs -> o + 5 * m <= zlen out -> fs * (5 * m) = nfft ->
  exists out', kf_bfly5 out o fs st m = Ok out' /\ bfly_spec WW out out' o fs m 5.
Proof.
  intros Hm Ho Hf Hl E. unfold kf_bfly5. twd.
  apply bfly_loop; try lia. intros u b Hu Hb. start4 5 Hc Hi.
  replace (o + m + u) with (cell o m u 1) by (unfold cell; ring).
  replace (o + 2 * m + u) with (cell o m u 2) by (unfold cell; ring).
  replace (o + 3 * m + u) with (cell o m u 3) by (unfold cell; ring).
  replace (o + 4 * m + u) with (cell o m u 4) by (unfold cell; ring).
  replace (o + u) with (cell o m u 0) by (unfold cell; ring).
  replace (2 * u * fs) with (fs * (2 * u)) by ring.
  replace (3 * u * fs) with (fs * (3 * u)) by ring.
  replace (4 * u * fs) with (fs * (4 * u)) by ring.
  replace (u * fs) with (fs * (1 * u)) by ring.
  replace (WW (fs * m)) with (root 5 (sg * 1)) by (symmetry; rewrite <- (W_sub nfft sg Hn fs 5 m 1) by lia; f_equal; ring).
  replace (WW (fs * 2 * m)) with (root 5 (sg * 2)) by (symmetry; rewrite <- (W_sub nfft sg Hn fs 5 m 2) by lia; f_equal; ring).
  repeat (cbs Hc; twd). eexists; split; [reflexivity|].
  unfold body_spec; rewrite !zlen_vset; split; auto; split.
  - intros q1 Hq; rewrite (sumC_cons 0), (sumC_cons (0 + 1)), (sumC_cons (0 + 1 + 1)), (sumC_cons (0 + 1 + 1 + 1)),
      (sumC_cons (0 + 1 + 1 + 1 + 1)), (sumC_nil (0 + 1 + 1 + 1 + 1 + 1)) by lia; cbn [Z.add Pos.add Pos.succ].
    rewrite !(W_cell nfft _ fs m 5) by lia.
    replace (WW (fs * (0 * u))) with (RtoC 1) by (symmetry; rewrite Z.mul_0_r; apply W_0; auto).
    generalize (WW (fs * (1 * u))) (WW (fs * (2 * u))) (WW (fs * (3 * u))) (WW (fs * (4 * u))). intros w1 w2 w3 w4.
    assert (q1 = 0 \/ q1 = 1 \/ q1 = 2 \/ q1 = 3 \/ q1 = 4) as [-> | [-> | [-> | [-> | ->]]]] by lia; getset Hc Hi;
    destruct sg_cases as [Hs|Hs]; rewrite Hs; 
    repeat match goal with
    | |- context [root 5 ?a] => first [rewrite (r5_0 a) by reflexivity | rewrite (r5_3 a) by reflexivity | rewrite (r5_4 a) by reflexivity
           | lazymatch a with 1 => fail | _ => rewrite (r5_1 a) by reflexivity end
           | lazymatch a with 2 => fail | _ => rewrite (r5_2 a) by reflexivity end ]
    end; cring.
  - intros i Hi'; pose proof (Hi' 0 ltac:(lia)); pose proof (Hi' 1 ltac:(lia)); pose proof (Hi' 2 ltac:(lia));
      pose proof (Hi' 3 ltac:(lia)); pose proof (Hi' 4 ltac:(lia)).
    rewrite !vget_vset_ne by lia; reflexivity.
Qed.
End Butterflies.
