(** * PattFacts: lemmas about patterns. *)
From Coq Require Import ZArith List String Bool Lia Reals Lra Permutation.
From Coquelicot Require Import Complex.
From Verif Require Import Py PyFacts Num Exact MCoefs SpecCoefs CoefsFacts CoefsFacts2 MPatt.
Import ListNotations.
Open Scope string_scope.
Open Scope list_scope.
Open Scope Z_scope.

(** ** Index arithmetic on the doubled sphere *)
Definition flip (R n : Z) : Z := (R - n) mod R.
Definition shiftc (nc m : Z) : Z := (nc / 2 + m) mod nc.

Lemma flip_range R n : 0 < R -> 0 <= flip R n < R.
Proof. intros; unfold flip; apply Z.mod_pos_bound; lia. Qed.
Lemma shiftc_range nc m : 0 < nc -> 0 <= shiftc nc m < nc.
Proof. intros; unfold shiftc; apply Z.mod_pos_bound; lia. Qed.

Lemma flip_eq R n : 0 <= n < R -> flip R n = if n =? 0 then 0 else R - n.
Proof.
  intros H; unfold flip. destruct (Z.eqb_spec n 0).
  - subst. rewrite Z.sub_0_r. apply Z_mod_same_full.
  - apply Z.mod_small; lia.
Qed.
Lemma flip_flip R n : 0 <= n < R -> flip R (flip R n) = n.
Proof.
  intros H. rewrite (flip_eq R n H). destruct (Z.eqb_spec n 0).
  - subst. rewrite flip_eq by lia. reflexivity.
  - rewrite flip_eq by lia. destruct (Z.eqb_spec (R - n) 0); lia.
Qed.
Lemma shiftc_eq h m : 0 <= m < 2 * h -> shiftc (2 * h) m = if m <? h then h + m else m - h.
Proof.
  intros H; unfold shiftc. replace (2 * h / 2) with h by (rewrite Z.mul_comm, Z.div_mul; lia).
  destruct (Z.ltb_spec m h).
  - apply Z.mod_small; lia.
  - replace (h + m) with ((m - h) + 1 * (2 * h)) by lia. rewrite Z_mod_plus_full. apply Z.mod_small; lia.
Qed.
Lemma shiftc_shiftc nc m : nc mod 2 = 0 -> 0 <= m < nc -> shiftc nc (shiftc nc m) = m.
Proof.
  intros He H. replace nc with (2 * (nc / 2)) in * by (pose proof (Z.div_mod nc 2); lia).
  rewrite (shiftc_eq _ m) by lia. destruct (Z.ltb_spec m (nc / 2)).
  - rewrite shiftc_eq by lia. destruct (Z.ltb_spec (nc / 2 + m) (nc / 2)); lia.
  - rewrite shiftc_eq by lia. destruct (Z.ltb_spec (m - nc / 2) (nc / 2)); lia.
Qed.

Section Gen.
Variable K : num.
Notation mget := (mget K).
Notation mmake := (mmake K).

Lemma mzip_get f a b i j : 0 <= i < mt_nr K a -> 0 <= j < mt_nc K a ->
  mget (mzip K f a b) i j = f (mget a i j) (mget b i j).
Proof. intros; unfold mzip. now rewrite mget_mmake. Qed.
Lemma mmap1_get f a i j : 0 <= i < mt_nr K a -> 0 <= j < mt_nc K a ->
  mget (mmap1 K f a) i j = f (mget a i j).
Proof. intros; unfold mmap1. now rewrite mget_mmake. Qed.

Lemma double_sphere_get a sym n m : 0 <= n < mt_nr K a -> 0 <= m < mt_nc K a ->
  mget (double_sphere K a sym) n m =
   ds_comb K (cmul K (cofZ K sym) (mget a (flip (mt_nr K a) n) (shiftc (mt_nc K a) m))) (mget a n m).
Proof. intros; unfold double_sphere. now rewrite mget_mmake. Qed.

(** pfor over two nested ranges: invariant from a per-cell rule *)
Lemma pfor2_ind {S} (P : S -> Prop) nr nc (f : Z -> Z -> S -> S) s :
  P s -> (forall n m s, 0 <= n < nr -> 0 <= m < nc -> P s -> P (f n m s)) ->
  P (pfor (zrange 0 nr) (fun n s => pfor (zrange 0 nc) (fun m s => f n m s) s) s).
Proof.
  intros H0 Hs.
  assert (G : forall l (g : Z -> S -> S) s, P s -> (forall i s, In i l -> P s -> P (g i s)) -> P (pfor l g s)).
  { clear. induction l as [|i l IH]; intros g s Hp Hg; [exact Hp|]. cbn. apply IH.
    - apply Hg; cbn; auto.
    - intros; apply Hg; cbn; auto. }
  apply G; auto. intros n s' Hn Hp. apply In_zrange in Hn. apply G; auto.
  intros m s'' Hm Hp'. apply In_zrange in Hm. apply Hs; auto; lia.
Qed.
End Gen.

(** ** Exact arithmetic *)
Ltac cring := first [ ring | lazymatch goal with |- @eq _ ?a ?b => change (@eq C a b); ring end ].
Ltac cfield := first [ field | lazymatch goal with |- @eq _ ?a ?b => change (@eq C a b); field end ].
Local Open Scope R_scope.
Notation MR := (mat RN).
Notation mgetR := (mget RN).

Lemma ds_comb_eq (s t : C) :
  ds_comb RN s t = if ceqb RN (s * t)%C (RtoC 0) then (s + t)%C else ((s + t) / 2)%C.
Proof.
  unfold ds_comb. rewrite cdiv_RN. reflexivity.
Qed.

Lemma Cmult_integral (x y : C) : (x * y)%C = (RtoC 0) -> x = (RtoC 0) \/ y = (RtoC 0).
Proof.
  intros H. destruct (Ceq_dec x 0); [auto|right].
  replace y with (/ x * (x * y))%C by (cfield; auto). rewrite H. cring.
Qed.

Lemma ds_comb_zero_l (t : C) : ds_comb RN (RtoC 0) t = t.
Proof.
  rewrite ds_comb_eq. replace (0 * t)%C with (RtoC 0) by cring.
  destruct (ceqb RN _ _) eqn:E; [cring|]. exfalso.
  assert (ceqb RN (RtoC 0) (RtoC 0) = true) by now apply ceqb_spec. cbn in *; congruence.
Qed.

Lemma ds_comb_comm (s t : C) : ds_comb RN s t = ds_comb RN t s.
Proof.
  rewrite !ds_comb_eq. replace (t * s)%C with (s * t)%C by cring.
  destruct (ceqb RN _ _); [cring|]. f_equal; cring.
Qed.

Lemma ds_comb_zero_r (t : C) : ds_comb RN t (RtoC 0) = t.
Proof. rewrite ds_comb_comm. apply ds_comb_zero_l. Qed.

Lemma ds_comb_same (t : C) : ds_comb RN t t = t.
Proof.
  rewrite ds_comb_eq. destruct (ceqb RN _ _) eqn:E.
  - apply ceqb_spec in E. apply Cmult_integral in E. destruct E as [-> | ->]; cring.
  - destruct t as [a b]. unfold Cdiv. apply injective_projections; cbn; field.
Qed.

Lemma ds_comb_scale (e s t : C) : (e * e = 1)%C -> ds_comb RN (e * s)%C (e * t)%C = (e * ds_comb RN s t)%C.
Proof.
  intros He. rewrite !ds_comb_eq. replace (e * s * (e * t))%C with (s * t)%C.
  2:{ replace (e * s * (e * t))%C with ((e * e) * (s * t))%C by cring. rewrite He; cring. }
  destruct (ceqb RN _ _); [cring|]. unfold Cdiv. cring.
Qed.

(** Exact double-sphere symmetry with sign [e] (1 scalar, -1 vector). *)
Definition symmetric (e : Z) (d : MR) : Prop :=
  forall i j, (0 <= i < mt_nr RN d)%Z -> (0 <= j < mt_nc RN d)%Z ->
    mgetR d (flip (mt_nr RN d) i) (shiftc (mt_nc RN d) j) = (RtoC (IZR e) * mgetR d i j)%C.

Lemma sign_sq (e : Z) : (e = 1 \/ e = -1)%Z -> (RtoC (IZR e) * RtoC (IZR e) = 1)%C.
Proof. intros [-> | ->]; rewrite <- RtoC_mult; f_equal; cring. Qed.

Lemma double_sphere_symmetric a e : (e = 1 \/ e = -1)%Z -> (mt_nc RN a mod 2 = 0)%Z ->
  symmetric e (double_sphere RN a e).
Proof.
  intros He Hc i j Hi Hj. cbn [mt_nr mt_nc double_sphere mmake] in *.
  change (mt_nr RN (double_sphere RN a e)) with (mt_nr RN a) in *.
  change (mt_nc RN (double_sphere RN a e)) with (mt_nc RN a) in *.
  pose proof (flip_range (mt_nr RN a) i ltac:(lia)). pose proof (shiftc_range (mt_nc RN a) j ltac:(lia)).
  rewrite !double_sphere_get by auto.
  rewrite flip_flip, shiftc_shiftc by auto.
  set (x := mgetR a i j). set (y := mgetR a (flip _ _) (shiftc _ _)).
  change (cofZ RN e) with (RtoC (IZR e)). change (cmul RN) with Cmult.
  rewrite ds_comb_comm. pose proof (sign_sq e He) as Hs.
  rewrite <- ds_comb_scale by auto. f_equal.
  transitivity ((RtoC (IZR e) * RtoC (IZR e)) * y)%C; [rewrite Hs; symmetry; apply Cmult_1_l|symmetry; apply Cmult_assoc].
Qed.

Lemma continue_sphere_ok a e : (2 <= mt_nr RN a)%Z ->
  exists d, continue_sphere RN a e = Ok d /\ mt_nr RN d = (2 * mt_nr RN a - 2)%Z /\ mt_nc RN d = mt_nc RN a /\
    (0 <= mt_nc RN a -> mat_wf RN d)%Z /\
    ((e = 1 \/ e = -1)%Z -> (mt_nc RN a mod 2 = 0)%Z -> symmetric e d) /\
    forall i j, (0 <= i < mt_nr RN a)%Z -> (0 <= j < mt_nc RN a)%Z ->
      mgetR d i j = if (i =? 0)%Z || (i =? mt_nr RN a - 1)%Z
                    then ds_comb RN (RtoC (IZR e) * mgetR a i (shiftc (mt_nc RN a) j))%C (mgetR a i j)
                    else mgetR a i j.
Proof.
  intros Hr. unfold continue_sphere. destruct (Z.ltb_spec (mt_nr RN a - 2) 0); [lia|].
  set (dd := mmake RN _ _ _). exists (double_sphere RN dd e). split; [reflexivity|].
  assert (N : mt_nr RN dd = (2 * mt_nr RN a - 2)%Z) by (unfold dd; cbn [mt_nr mmake]; lia).
  split; [exact N|]. split; [reflexivity|].
  split; [intros; apply mmake_wf; auto; lia|].
  split; [intros; apply double_sphere_symmetric; auto|].
  intros i j Hi Hj. assert (Nc : mt_nc RN dd = mt_nc RN a) by reflexivity.
  rewrite double_sphere_get by lia. rewrite N, Nc.
  assert (Hd : forall i j, (0 <= i < 2 * mt_nr RN a - 2)%Z -> (0 <= j < mt_nc RN a)%Z ->
     mgetR dd i j = if (i <? mt_nr RN a)%Z then mgetR a i j else c0 RN).
  { intros; unfold dd; apply mget_mmake; lia. }
  pose proof (shiftc_range (mt_nc RN a) j ltac:(lia)).
  pose proof (flip_range (2 * mt_nr RN a - 2) i ltac:(lia)).
  rewrite !Hd by lia. rewrite !flip_eq by lia.
  replace (i <? mt_nr RN a)%Z with true by lia.
  change (cofZ RN e) with (RtoC (IZR e)). change (cmul RN) with Cmult.
  destruct (Z.eqb_spec i 0).
  - subst. replace (0 <? mt_nr RN a)%Z with true by lia. reflexivity.
  - destruct (Z.eqb_spec i (mt_nr RN a - 1)); cbn [orb].
    + subst. replace (2 * mt_nr RN a - 2 - (mt_nr RN a - 1))%Z with (mt_nr RN a - 1)%Z by lia.
      replace (mt_nr RN a - 1 <? mt_nr RN a)%Z with true by lia. reflexivity.
    + replace (2 * mt_nr RN a - 2 - i <? mt_nr RN a)%Z with false by lia.
      change (c0 RN) with (RtoC 0).
      replace (RtoC (IZR e) * 0)%C with (RtoC 0) by cring. apply ds_comb_zero_l.
Qed.

Lemma p_array_get d i j : (0 <= i < mt_nr RN d / 2 + 1)%Z -> (i < mt_nr RN d)%Z -> (0 <= j < mt_nc RN d)%Z ->
  mgetR (p_array RN d) i j = mgetR d i j.
Proof. intros; unfold p_array, mrows, p_nrows. apply mget_mmake; lia. Qed.

(** Re-reading the visible half of a symmetric doubled array. *)
Lemma continue_sphere_array e d : (e = 1 \/ e = -1)%Z -> mat_wf RN d ->
  (2 <= mt_nr RN d)%Z -> (mt_nr RN d mod 2 = 0)%Z -> (mt_nc RN d mod 2 = 0)%Z ->
  symmetric e d -> continue_sphere RN (p_array RN d) e = Ok d.
Proof.
  intros He Hw Hr Hre Hce Hs.
  set (h := (mt_nr RN d / 2)%Z).
  assert (H2 : mt_nr RN d = (2 * h)%Z) by (unfold h; pose proof (Z.div_mod (mt_nr RN d) 2); lia).
  assert (Na : mt_nr RN (p_array RN d) = (h + 1)%Z).
  { unfold p_array, mrows, p_nrows; cbn [mt_nr mmake]. fold h. lia. }
  assert (Nc : mt_nc RN (p_array RN d) = mt_nc RN d) by reflexivity.
  destruct (continue_sphere_ok (p_array RN d) e) as (d' & E & N1 & N2 & W & S & V); [lia|].
  rewrite E. f_equal. rewrite Na in N1. rewrite Nc in N2.
  destruct Hw as (Hw1 & Hw2 & Hw3). specialize (W ltac:(lia)).
  specialize (S He ltac:(rewrite Nc; auto)).
  assert (Vis : forall i j, (0 <= i < h + 1)%Z -> (i < 2 * h)%Z -> (0 <= j < mt_nc RN d)%Z -> mgetR d' i j = mgetR d i j).
  { intros i j Hi Hi2 Hj. rewrite V by lia. rewrite Na, Nc.
    pose proof (shiftc_range (mt_nc RN d) j ltac:(lia)).
    assert (P : forall j, (0 <= j < mt_nc RN d)%Z -> mgetR (p_array RN d) i j = mgetR d i j).
    { intros; apply p_array_get; fold h; lia. }
    rewrite !P by auto. destruct ((i =? 0)%Z || (i =? h + 1 - 1)%Z) eqn:Ep; auto.
    assert (Hf : flip (mt_nr RN d) i = i).
    { rewrite flip_eq by lia. destruct (Z.eqb_spec i 0); lia. }
    pose proof (Hs i j ltac:(lia) ltac:(lia)) as Hij. rewrite Hf in Hij. rewrite Hij.
    replace (RtoC (IZR e) * (RtoC (IZR e) * mgetR d i j))%C with ((RtoC (IZR e) * RtoC (IZR e)) * mgetR d i j)%C by cring.
    rewrite sign_sq by auto. rewrite Cmult_1_l. apply ds_comb_same. }
  apply mat_ext; auto; try lia.
  { repeat split; auto. }
  intros i j Hi Hj.
  destruct (Z_lt_ge_dec i (h + 1)).
  - apply Vis; lia.
  - (* hidden rows follow from symmetry of both *)
    set (i' := flip (mt_nr RN d) i). set (j' := shiftc (mt_nc RN d) j).
    assert (Hi' : (0 <= i' < h + 1)%Z).
    { unfold i'. rewrite flip_eq by lia. destruct (Z.eqb_spec i 0); lia. }
    assert (Hj' : (0 <= j' < mt_nc RN d)%Z) by (apply shiftc_range; lia).
    assert (Ei : flip (mt_nr RN d) i' = i) by (apply flip_flip; lia).
    assert (Ej : shiftc (mt_nc RN d) j' = j) by (apply shiftc_shiftc; auto; lia).
    assert (i' < 2 * h)%Z.
    { unfold i'. rewrite flip_eq by lia. destruct (Z.eqb_spec i 0); lia. }
    pose proof (S i' j' ltac:(lia) ltac:(lia)) as S1.
    pose proof (Hs i' j' ltac:(lia) ltac:(lia)) as S2.
    rewrite Ei, Ej in S2.
    replace (mt_nr RN d') with (mt_nr RN d) in S1 by lia. rewrite N2 in S1. rewrite Ei, Ej in S1.
    rewrite S1, S2. f_equal. apply Vis; lia.
Qed.

(** ** is_symmetric *)

(** Relative deviation of a cell from its partner. *)
Definition dev (s t : C) : R :=
  if Ceq_dec s 0 then (if Ceq_dec t 0 then 0 else 1) else Cmod (s - t)%C / Cmod s.

Lemma dev_nonneg s t : 0 <= dev s t.
Proof.
  unfold dev. destruct (Ceq_dec s 0); [destruct (Ceq_dec t 0); lra|].
  apply Rmult_le_pos; [apply Cmod_ge_0|]. apply Rlt_le, Rinv_0_lt_compat, Cmod_gt_0. auto.
Qed.

Definition partner (e : Z) (d : MR) (n m : Z) : C :=
  (RtoC (IZR e) * mgetR d (flip (mt_nr RN d) n) (shiftc (mt_nc RN d) m))%C.

Lemma sv_step_eq e d n m sv : (e = 1 \/ e = -1)%Z -> 0 <= sv ->
  sv_step RN e d n m sv = Rmax sv (dev (partner e d n m) (mgetR d n m)).
Proof.
  intros He Hsv. unfold sv_step.
  fold (flip (mt_nr RN d) n). fold (shiftc (mt_nc RN d) m).
  set (s0 := mgetR d (flip _ _) _). set (t := mgetR d n m).
  assert (Hs : (if (e =? 1)%Z then s0 else copp RN s0) = partner e d n m).
  { unfold partner. fold s0. destruct He as [-> | ->]; cbn [Z.eqb Pos.eqb].
    - rewrite Cmult_1_l. auto.
    - change (copp RN s0) with (- s0)%C. replace (RtoC (-1)) with (- (1))%C by (rewrite <- RtoC_opp; auto). cring. }
  rewrite Hs. generalize (partner e d n m). clear Hs s0. intros s.
  assert (Z : forall x : C, ceqb RN x (c0 RN) = true <-> x = (RtoC 0)) by (intros; apply ceqb_spec).
  assert (Mx : forall v, (if negb (rltb RN v sv) then v else sv) = Rmax sv v).
  { intros v. destruct (rltb RN v sv) eqn:E.
    - apply rltb_spec in E. rewrite Rmax_left; auto. lra.
    - assert (~ v < sv) by (intros Q; apply rltb_spec in Q; congruence). rewrite Rmax_right; auto. lra. }
  unfold dev. destruct (Ceq_dec s 0) as [Es|Es].
  - apply Z in Es. rewrite Es. cbn [negb]. destruct (Ceq_dec t 0) as [Et|Et].
    + apply Z in Et. rewrite Et. cbn [negb]. rewrite Rmax_left; auto.
    + destruct (ceqb RN t (c0 RN)) eqn:Q; [apply Z in Q; contradiction|]. cbn [negb]. apply Mx.
  - destruct (ceqb RN s (c0 RN)) eqn:Q; [apply Z in Q; contradiction|]. cbn [negb].
    rewrite cdiv_RN, cabs_RN. change (csub RN s t) with (s - t)%C.
    rewrite Cmod_div by auto. apply Mx.
Qed.

Lemma sv_loop_spec e d : (e = 1 \/ e = -1)%Z ->
  0 <= sv_loop RN e d /\
  (forall n m, (0 <= n < mt_nr RN d)%Z -> (0 <= m < mt_nc RN d)%Z ->
     dev (partner e d n m) (mgetR d n m) <= sv_loop RN e d) /\
  (sv_loop RN e d = 0 \/ exists n m, (0 <= n < mt_nr RN d)%Z /\ (0 <= m < mt_nc RN d)%Z /\
     sv_loop RN e d = dev (partner e d n m) (mgetR d n m)).
Proof.
  intros He.
  assert (Mono : forall l (g : Z -> R -> R) s, 0 <= s -> (forall i s, 0 <= s -> s <= g i s) -> s <= pfor l g s).
  { clear. induction l as [|i l IH]; intros g s H0 Hg; [cbn; lra|]. cbn.
    assert (s <= g i s) by auto. eapply Rle_trans; [eassumption|]. apply IH; auto. lra. }
  assert (Cov : forall l (g : Z -> R -> R) s i v, In i l -> 0 <= s -> (forall i s, 0 <= s -> s <= g i s) ->
     (forall s, 0 <= s -> v <= g i s) -> v <= pfor l g s).
  { clear -Mono. induction l as [|k l IH]; intros g s i v Hin H0 Hg Hv; [destruct Hin|]. cbn.
    assert (s <= g k s) by auto. destruct Hin as [->|Hin].
    - eapply Rle_trans; [apply Hv; eassumption|]. apply Mono; auto. lra.
    - apply IH with i; auto. lra. }
  assert (St : forall n m s, 0 <= s -> s <= sv_step RN e d n m s).
  { intros. rewrite sv_step_eq by auto. apply Rmax_l. }
  split; [|split].
  - unfold sv_loop. apply (pfor2_ind (fun s => 0 <= s)); [cbn; lra|].
    intros. eapply Rle_trans; [|apply St; auto]. auto.
  - intros n m Hn Hm. unfold sv_loop. apply Cov with n; [apply In_zrange; lia|cbn; lra| |].
    + intros i s H0. apply Mono; auto.
    + intros s H0. apply Cov with m; [apply In_zrange; lia|auto|auto|].
      intros s' H0'. rewrite sv_step_eq by auto. apply Rmax_r.
  - unfold sv_loop. refine (proj2 (pfor2_ind (fun s => 0 <= s /\ (s = 0 \/ exists n m, (0 <= n < mt_nr RN d)%Z /\ (0 <= m < mt_nc RN d)%Z /\
       s = dev (partner e d n m) (mgetR d n m))) _ _ _ _ _ _)).
    + cbn. lra.
    + intros n m s Hn Hm [H0 Hd]. rewrite sv_step_eq by auto. 
      pose proof (dev_nonneg (partner e d n m) (mgetR d n m)).
      destruct (Rle_dec s (dev (partner e d n m) (mgetR d n m))) as [L|L].
      * rewrite Rmax_right by auto. split; auto. right. exists n, m. auto.
      * rewrite Rmax_left by lra. split; auto.
Qed.

Lemma dev_zero_iff s t : dev s t = 0 <-> s = t.
Proof.
  unfold dev. destruct (Ceq_dec s 0) as [->|Hs].
  - destruct (Ceq_dec t 0) as [->|]; split; auto; intros; try lra. congruence.
  - pose proof (proj1 (Cmod_gt_0 s) Hs). split.
    + intros E. assert (Cmod (s - t)%C = 0).
      { apply Rmult_integral in E. destruct E as [E|E]; auto.
        exfalso. apply Rinv_neq_0_compat in E; auto. lra. }
      apply Cmod_eq_0 in H0. replace s with ((s - t) + t)%C by cring. rewrite H0. cring.
    + intros ->. replace (t - t)%C with (RtoC 0) by cring. rewrite Cmod_0. lra.
Qed.

(** ** Sums and maxima *)
Lemma l2_sq_sum (v : list C) : rsum RN (map (cabs2 RN) v) = fold_right (fun x acc => Cmod x ^ 2 + acc) 0 v.
Proof. induction v as [|x v IH]; [reflexivity|]. cbn [map fold_right]. change (rsum RN (?a :: ?l)) with (a + rsum RN l).
  rewrite IH. f_equal. unfold cabs2. rewrite cabs_RN. cbn. cring. Qed.

Lemma sq_sum_nonneg (v : list C) : 0 <= fold_right (fun x acc => Cmod x ^ 2 + acc) 0 v.
Proof. induction v as [|x v IH]; cbn [fold_right]; [lra|]. pose proof (pow2_ge_0 (Cmod x)). lra. Qed.

Lemma sq_sum_zero (v : list C) : fold_right (fun x acc => Cmod x ^ 2 + acc) 0 v = 0 <-> (forall x, In x v -> x = (RtoC 0)).
Proof.
  induction v as [|x v IH]; cbn [fold_right]; [split; auto; intros _ ? []|].
  pose proof (pow2_ge_0 (Cmod x)). pose proof (sq_sum_nonneg v). split.
  - intros E y [<-|Hy].
    + apply Cmod_eq_0. assert (Cmod x ^ 2 = 0) by lra. assert (E2 : Cmod x * Cmod x = 0) by (cbn in *; lra).
      apply Rmult_integral in E2. tauto.
    + apply IH; auto. lra.
  - intros Ha. rewrite (proj2 IH) by (intros; apply Ha; cbn; auto).
    rewrite (Ha x) by (cbn; auto). rewrite Cmod_0. cring.
Qed.

Lemma linf_spec (v : list C) : v <> [] -> exists r, linf RN v = Ok r /\
  (forall x, In x v -> Cmod x <= r) /\ exists x, In x v /\ r = Cmod x.
Proof.
  intros Hv. unfold linf. destruct v as [|x v]; [congruence|]. cbn [map].
  eexists; split; [reflexivity|]. clear Hv. rewrite cabs_RN.
  assert (G : forall (v : list C) m, 
     (m <= fold_left (rmax RN) (map (cabs RN) v) m) /\
     (forall y, In y v -> Cmod y <= fold_left (rmax RN) (map (cabs RN) v) m) /\
     (fold_left (rmax RN) (map (cabs RN) v) m = m \/ exists y, In y v /\ fold_left (rmax RN) (map (cabs RN) v) m = Cmod y)).
  { clear. induction v as [|y v IH]; intros m; cbn [map fold_left].
    - split; [lra|]. split; [intros ? []|auto].
    - destruct (IH (rmax RN m (cabs RN y))) as (A & B & D).
      assert (M : m <= rmax RN m (cabs RN y) /\ Cmod y <= rmax RN m (cabs RN y) /\
                 (rmax RN m (cabs RN y) = m \/ rmax RN m (cabs RN y) = Cmod y)).
      { unfold rmax. rewrite cabs_RN. destruct (rltb RN m (Cmod y)) eqn:E.
        - apply rltb_spec in E. repeat split; auto; lra.
        - assert (~ m < Cmod y) by (intros Q; apply rltb_spec in Q; congruence). repeat split; auto; lra. }
      destruct M as (M1 & M2 & M3). split; [lra|]. split.
      + intros z [<-|Hz]; [lra|auto].
      + destruct D as [D|(z & Hz & D)].
        * rewrite D. destruct M3 as [M3|M3]; rewrite M3; [auto|right; exists y; cbn; auto].
        * right. exists z. cbn; auto. }
  destruct (G v (Cmod x)) as (A & B & D). split.
  - intros y [<-|Hy]; auto.
  - destruct D as [D|(y & Hy & D)]; [exists x|exists y]; cbn; auto.
Qed.
