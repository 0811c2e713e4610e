(** * SbesselFFun: termination of sbesselj, the Hankel functions, correct rounding. *)
From Coq Require Import ZArith List Bool SpecFloat Reals Lia Lra Psatz String.
From Flocq Require Import Core.Core IEEE754.BinarySingleNaN.
From Verif Require Import Py PyFacts Num FloatN FloatText FileFacts2 MPysphi MDouble FlFacts SeedFl SeedFl2 FlSigned MSbesselF SbesselFTerm SbesselFRel SbesselFMain.
From Verif Require Import CoefsFacts PysphiFacts.
Import ListNotations.
Open Scope Z_scope.
#[local] Existing Instance FloatText.prec53.
#[local] Existing Instance FloatText.pe53.

(** ** The double nearest to a real number *)
Definition fround (y : R) : f64 :=
  SpecFloat.binary_normalize 53 1024 (Ztrunc (scaled_mantissa radix2 fx (rnd y))) (cexp radix2 fx (rnd y)) false.
Lemma fround_rnd y : is_rnd (fround y) y.
Proof.
  unfold fround. pose proof (normalize_rnd (Ztrunc (scaled_mantissa radix2 fx (rnd y))) (cexp radix2 fx (rnd y))) as H.
  assert (G : generic_format radix2 fx (rnd y)) by (apply generic_format_round; auto with typeclass_instances).
  rewrite <- G in H. destruct H as (D & H). split; [exact D|]. rewrite (round_generic _ _ _ _ G) in H. destruct H as [H|[H1 H2]]; [left; exact H|right]. split; [|exact H2].
  rewrite H1. f_equal. destruct (Rlt_bool_spec y 0) as [L|L].
  - apply Rlt_bool_true. assert (L' : (rnd y <= 0)%R) by (rewrite <- rnd_0; apply round_le; auto with typeclass_instances; lra).
    destruct (Req_dec (rnd y) 0) as [E|E]; [exfalso; rewrite E, Rabs_R0 in H2; pose proof (bpow_gt_0 radix2 1024); lra|lra].
  - apply Rlt_bool_false. apply rnd_ge_0. exact L.
Qed.

(** ** Every operation gives a double *)
Lemma fin_or x : fin x \/ x = S754_nan \/ exists s, x = S754_infinity s.
Proof. destruct x; try (left; reflexivity); eauto. Qed.
Lemma dbl_op x : dbl x -> fin x \/ x = S754_nan \/ exists s, x = S754_infinity s. Proof. intros _. apply fin_or. Qed.
Lemma dbl_zero s : dbl (S754_zero s). Proof. reflexivity. Qed.
Lemma fmul_dbl x y : dbl x -> dbl y -> dbl (fmul x y).
Proof.
  intros Dx Dy. destruct (fin_or x) as [Fx|[-> |[s ->]]]; destruct (fin_or y) as [Fy|[-> |[t ->]]]; try (exact (is_rnd_dbl _ _ (fmul_rnd x y Dx Dy Fx Fy)));
    try reflexivity; try (destruct x; (discriminate || reflexivity)); try (destruct y; (discriminate || reflexivity)).
Qed.
Lemma fadd_dbl x y : dbl x -> dbl y -> dbl (fadd x y).
Proof.
  intros Dx Dy. destruct (fin_or x) as [Fx|[-> |[s ->]]]; destruct (fin_or y) as [Fy|[-> |[t ->]]]; try (exact (is_rnd_dbl _ _ (fadd_rnd x y Dx Dy Fx Fy)));
    try reflexivity; try (destruct x; (discriminate || reflexivity)); try (destruct y; (discriminate || reflexivity)). destruct s; destruct t; reflexivity.
Qed.
Lemma fsub_dbl x y : dbl x -> dbl y -> dbl (fsub x y).
Proof.
  intros Dx Dy. destruct (fin_or x) as [Fx|[-> |[s ->]]]; destruct (fin_or y) as [Fy|[-> |[t ->]]]; try (exact (is_rnd_dbl _ _ (fsub_rnd x y Dx Dy Fx Fy)));
    try reflexivity; try (destruct x; (discriminate || reflexivity)); try (destruct y; (discriminate || reflexivity)). destruct s; destruct t; reflexivity.
Qed.
Lemma fdiv_dbl x y : dbl x -> dbl y -> dbl (fdiv x y).
Proof.
  intros Dx Dy. destruct (fin_or x) as [Fx|[-> |[s ->]]]; destruct (fin_or y) as [Fy|[-> |[t ->]]]; try reflexivity; try (destruct x; (discriminate || reflexivity)); try (destruct y; (discriminate || reflexivity)).
  destruct (Req_dec (V y) 0) as [E|E]; [destruct (fin_0 y Fy E) as [t ->]; destruct x; reflexivity|]. exact (is_rnd_dbl _ _ (fdiv_rnd x y Dx Dy Fx Fy E)).
Qed.
Lemma fofZ_dbl k : dbl (fofZ k). Proof. exact (is_rnd_dbl _ _ (fofZ_rnd k)). Qed.
Lemma SFopp_dbl x : dbl x -> dbl (SFopp x). Proof. destruct x; auto. Qed.

Lemma mfor_pres {S} (P : S -> Prop) (f : Z -> S -> res S) : (forall i s s', P s -> f i s = Ok s' -> P s') ->
  forall l s s', P s -> mfor l f s = Ok s' -> P s'.
Proof.
  intros H l. induction l as [|i l IH]; intros s s' Hs E; cbn [mfor] in E; [congruence|]. destruct (f i s) as [s1|] eqn:E1; cbn [bind] in E; [|discriminate]. eauto.
Qed.
Lemma bind_Ok {A B} (r : res A) (f : A -> res B) b : bind r f = Ok b -> exists a, r = Ok a /\ f a = Ok b.
Proof. destruct r as [a|]; cbn [bind]; [eauto|discriminate]. Qed.

Definition alld (l : list f64) : Prop := Forall dbl l.
Lemma py_get_dbl l i a : alld l -> py_get z0 l i = Ok a -> dbl a.
Proof.
  unfold py_get. intros H E. destruct (py_index _ _) as [j|]; cbn [bind] in E; [|discriminate]. injection E as <-. unfold vget.
  destruct (j <? 0); [reflexivity|]. change (S754_zero false) with z0. destruct (nth_in_or_default (Z.to_nat j) l z0) as [I| ->]; [|reflexivity]. exact (proj1 (Forall_forall _ _) H _ I).
Qed.
Lemma Forall_vset l i a : alld l -> dbl a -> alld (vset l i a).
Proof.
  intros Hl Ha. apply Forall_forall. intros b Hb. apply (In_nth _ _ z0) in Hb as (n & Hn & <-).
  assert (Hn' : (0 <= Z.of_nat n < zlen l)) by (rewrite <- (zlen_vset l i a); unfold zlen; lia).
  replace (nth n (vset l i a) z0) with (vget z0 (vset l i a) (Z.of_nat n)) by (unfold vget; destruct (Z.ltb_spec (Z.of_nat n) 0); [lia|now rewrite Nat2Z.id]).
  destruct (Z.eq_dec (Z.of_nat n) i) as [E|E]; [subst i; rewrite vget_vset_eq by exact Hn'; exact Ha|]. rewrite vget_vset_ne by exact E.
  unfold vget. destruct (Z.ltb_spec (Z.of_nat n) 0); [lia|]. apply (proj1 (Forall_forall _ _) Hl). apply nth_In. unfold zlen in Hn'. lia.
Qed.
Lemma py_set_dbl l i a l' : alld l -> dbl a -> py_set l i a = Ok l' -> alld l'.
Proof.
  unfold py_set. intros Hl Ha E. destruct (py_index _ _) as [j|]; cbn [bind] in E; [|discriminate]. injection E as <-. apply Forall_vset; auto.
Qed.
Lemma np_zeros_dbl N l : np_zeros N z0 = Ok l -> alld l.
Proof.
  intros E. unfold np_zeros in E. destruct (N <? 0); [discriminate|]. injection E as <-. apply Forall_forall. intros b Hb. unfold vmake in Hb. apply in_map_iff in Hb as (k & <- & _). reflexivity.
Qed.
Lemma xdiv_dbl py a b c : dbl a -> dbl b -> xdiv py a b = Ok c -> dbl c.
Proof. unfold xdiv. intros Ha Hb. destruct (py && is_zero b); [discriminate|]. intros [= <-]. now apply fdiv_dbl. Qed.
Lemma py_set_len {A} (l : list A) i a l' : py_set l i a = Ok l' -> zlen l' = zlen l.
Proof. unfold py_set. destruct (py_index _ _); cbn [bind]; [|discriminate]. intros [= <-]. apply zlen_vset. Qed.

Lemma f_loop_dbl py z : dbl z -> forall k n u v w W, dbl u -> dbl v -> dbl w -> f_loop py k z n u v w = Ok W -> dbl W.
Proof.
  intros Dz k. induction k as [|k IH]; intros n u v w W Du Dv Dw E; cbn [f_loop] in E; apply bind_Ok in E as (q & _ & E); destruct (SFltb _ _); try discriminate; try congruence.
  apply bind_Ok in E as (n2 & E1 & E). apply bind_Ok in E as (a & E2 & E). apply bind_Ok in E as (u' & E3 & E).
  assert (Dn : dbl n2). { unfold i2f in E1. destruct (is_inf _); [discriminate|]. injection E1 as <-. apply fofZ_dbl. }
  assert (Da : dbl a) by (eapply xdiv_dbl; [| |exact E2]; auto using fmul_dbl, fsub_dbl, fofZ_dbl).
  assert (Du' : dbl u') by (eapply xdiv_dbl; [| |exact E3]; auto using fmul_dbl, fsub_dbl, fofZ_dbl).
  eapply IH; [| | |exact E]; auto using fmul_dbl, fsub_dbl, fadd_dbl, fofZ_dbl.
Qed.

Lemma py_set_dbl' l i a l' : alld l -> py_set l i a = Ok l' -> dbl a -> alld l'. Proof. eauto using py_set_dbl. Qed.
Lemma xdiv_dbl' py a b c : xdiv py a b = Ok c -> dbl a -> dbl b -> dbl c. Proof. eauto using xdiv_dbl. Qed.
Section D.
Variables (sn cs sq : f64 -> f64) (py : bool) (x : f64).
Hypothesis Dx : dbl x.
Hypothesis Ds : dbl (sn x).
Hypothesis Dc : dbl (cs x).
Hypothesis Dq : dbl (sq x).
Hint Resolve fmul_dbl fsub_dbl fadd_dbl fdiv_dbl fofZ_dbl SFopp_dbl Dx Ds Dc Dq : dbl.
Lemma xsq_dbl z : xsq sq py x = Ok z -> dbl z.
Proof. unfold xsq. destruct (py && _); [discriminate|]. intros [= <-]. exact Dq. Qed.
Lemma sbessely_dbl N ys : f_sbessely sn cs sq py x N = Ok ys -> alld ys /\ zlen ys = N.
Proof.
  unfold f_sbessely. intros E. apply bind_Ok in E as (o & E1 & E). pose proof (np_zeros_dbl _ _ E1) as D1.
  assert (L1 : zlen o = N) by (unfold np_zeros in E1; destruct (Z.ltb_spec N 0); [discriminate|]; injection E1 as <-; rewrite zlen_vmake; lia).
  apply bind_Ok in E as (o1 & E2 & E). pose proof (py_set_dbl' _ _ _ _ D1 E2 ltac:(auto with dbl)) as D2. pose proof (py_set_len _ _ _ _ E2) as L2.
  apply bind_Ok in E as (z & Ez & E). pose proof (xsq_dbl _ Ez) as Dz.
  apply bind_Ok in E as (o2 & E3 & E). pose proof (py_set_dbl' _ _ _ _ D2 E3 ltac:(auto with dbl)) as D3. pose proof (py_set_len _ _ _ _ E3) as L3.
  refine (mfor_pres (fun s => alld s /\ zlen s = N) _ _ _ _ _ (conj D3 _) E); [|congruence].
  clear E. intros i s s' [Hs Hl] E. apply bind_Ok in E as (q & Eq & E). apply bind_Ok in E as (a & Ea & E). apply bind_Ok in E as (b & Eb & E).
  pose proof (xdiv_dbl' _ _ _ _ Eq ltac:(auto with dbl) Dx). pose proof (py_get_dbl _ _ _ Hs Ea). pose proof (py_get_dbl _ _ _ Hs Eb).
  split; [eapply py_set_dbl; [exact Hs| |exact E]; auto with dbl|]. rewrite (py_set_len _ _ _ _ E). exact Hl.
Qed.
Lemma sbesselj_dbl fuel N js : f_sbesselj sn cs sq py fuel x N = Ok js -> alld js /\ zlen js = N.
Proof.
  unfold f_sbesselj. intros E. apply bind_Ok in E as (o & E1 & E). pose proof (np_zeros_dbl _ _ E1) as D1.
  assert (L1 : zlen o = N) by (unfold np_zeros in E1; destruct (Z.ltb_spec N 0); [discriminate|]; injection E1 as <-; rewrite zlen_vmake; lia).
  apply bind_Ok in E as (z & Ez & E). pose proof (xsq_dbl _ Ez) as Dz.
  apply bind_Ok in E as (o1 & E2 & E). pose proof (py_set_dbl' _ _ _ _ D1 E2 ltac:(auto with dbl)) as D2. pose proof (py_set_len _ _ _ _ E2) as L2.
  apply bind_Ok in E as (v & Ev & E). pose proof (xdiv_dbl' _ _ _ _ Ev Dx ltac:(auto with dbl)) as Dv.
  apply bind_Ok in E as (w & Ew & E). pose proof (f_loop_dbl py z Dz _ _ _ _ _ _ ltac:(auto with dbl) Dv Dv Ew) as Dw.
  apply bind_Ok in E as (o2 & E3 & E). pose proof (py_set_dbl _ _ _ _ D2 Dw E3) as D3. pose proof (py_set_len _ _ _ _ E3) as L3.
  apply bind_Ok in E as (o3 & E4 & E).
  assert (D4 : alld o3 /\ zlen o3 = N).
  { refine (mfor_pres (fun s => alld s /\ zlen s = N) _ _ _ _ _ (conj D3 _) E4); [|congruence].
    clear E E4. intros i s s' [Hs Hl] E. apply bind_Ok in E as (q & Eq & E). apply bind_Ok in E as (a & Ea & E).
    pose proof (xdiv_dbl' _ _ _ _ Eq ltac:(auto with dbl) Dx). pose proof (py_get_dbl _ _ _ Hs Ea).
    split; [eapply py_set_dbl; [exact Hs| |exact E]; auto with dbl|]. rewrite (py_set_len _ _ _ _ E). exact Hl. }
  destruct D4 as [D4 L4]. apply bind_Ok in E as (a0 & Ea0 & E). pose proof (py_get_dbl _ _ _ D4 Ea0) as Da0.
  apply bind_Ok in E as (o4 & E5 & E).
  assert (D5 : alld o4 /\ zlen o4 = N).
  { destruct (SFleb _ _).
    - apply bind_Ok in E5 as (a1 & Ea1 & E5). pose proof (py_get_dbl _ _ _ D4 Ea1). split; [eapply py_set_dbl; [exact D4| |exact E5]; auto with dbl|]. rewrite (py_set_len _ _ _ _ E5). exact L4.
    - split; [eapply py_set_dbl; [exact D4| |exact E5]; auto with dbl|]. rewrite (py_set_len _ _ _ _ E5). exact L4. }
  refine (mfor_pres (fun s => alld s /\ zlen s = N) _ _ _ _ _ D5 E).
  clear E. intros i s s' [Hs Hl] E. apply bind_Ok in E as (a & Ea & E). apply bind_Ok in E as (b & Eb & E).
  pose proof (py_get_dbl _ _ _ Hs Ea). pose proof (py_get_dbl _ _ _ Hs Eb).
  split; [eapply py_set_dbl; [exact Hs| |exact E]; auto with dbl|]. rewrite (py_set_len _ _ _ _ E). exact Hl.
Qed.
End D.

(** ** Termination *)
Definition tres (py : bool) (N : Z) (r : res (list f64)) : Prop :=
  (exists out, r = Ok out /\ zlen out = N) \/ (py = true /\ r = Raise ZeroDivisionError).
Lemma xdiv_np a b : xdiv false a b = Ok (fdiv a b). Proof. reflexivity. Qed.
Lemma f_loop_np z : forall k n u v w, f_loop false k z n u v w <> Raise ZeroDivisionError.
Proof.
  intros k. induction k as [|k IH]; intros n u v w; cbn [f_loop]; rewrite xdiv_np; cbn [bind]; destruct (SFltb _ _); try discriminate.
  unfold i2f. destruct (is_inf _); cbn [bind]; [discriminate|]. rewrite !xdiv_np. cbn [bind]. apply IH.
Qed.
Lemma mfor_tres py N (f : Z -> list f64 -> res (list f64)) : forall l s, (forall i s, In i l -> zlen s = N -> tres py N (f i s)) -> zlen s = N -> tres py N (mfor l f s).
Proof.
  intros l. induction l as [|i l IH]; intros s H Hs; cbn [mfor]; [left; eauto|].
  destruct (H i s (or_introl eq_refl) Hs) as [(o & -> & Ho)|[Hp ->]]; cbn [bind]; [|right; auto]. apply IH; [|exact Ho]. intros j t Hj. apply H. now right.
Qed.
Lemma tres_bind py N (r : res (list f64)) k : tres py N r -> (forall out, zlen out = N -> tres py N (k out)) -> tres py N (bind r k).
Proof. intros [(o & -> & Ho)|[Hp ->]] H; cbn [bind]; [auto|right; auto]. Qed.
Lemma xdiv_tres py N a b k : (forall c, tres py N (k c)) -> tres py N (bind (xdiv py a b) k).
Proof.
  intros H. unfold xdiv. destruct py; cbn [andb]; [|apply H]. destruct (is_zero b); cbn [bind]; [right; auto|apply H].
Qed.
Lemma In_zrange_down hi lo i : In i (zrange_down hi lo) -> lo < i <= hi.
Proof. unfold zrange_down. intros H. apply in_map_iff in H as (k & <- & Hk). apply in_seq in Hk. lia. Qed.

Lemma sbesselj_tres sn cs sq py fuel x N K : dbl (sq x) -> 2 <= N <= 2 ^ 500 -> 1 <= K <= 2 ^ 500 ->
  (fin (sq x) -> (bpow radix2 60 * (Rabs (V (sq x)) + 1) <= IZR (K ^ 2))%R) ->
  (Z.to_nat (K - (N - 1)) + 3 <= fuel)%nat ->
  xsq sq py x = Ok (sq x) -> tres py N (f_sbesselj sn cs sq py fuel x N).
Proof.
  intros Dz HN HK HZ HF EX. unfold f_sbesselj. rewrite np_zeros_ok by lia. cbn [bind]. rewrite EX. cbn [bind].
  set (o := vmake N _). assert (Lo : zlen o = N) by (unfold o; rewrite zlen_vmake; lia). rewrite py_set_ok by lia. cbn [bind].
  apply xdiv_tres. intros v. pose proof (loop_ends py (sq x) (N - 1) v v K Dz ltac:(lia) HK HZ) as En. apply (ends_le _ _ fuel) in En; [|exact HF].
  unfold ends in En. destruct (f_loop py fuel (sq x) (N - 1) (fofZ 1) v v) as [w|e] eqn:EW; cbn [bind].
  2: { destruct e; try contradiction. right. split; [|reflexivity]. destruct py; [reflexivity|]. exfalso. exact (f_loop_np _ _ _ _ _ _ EW). }
  rewrite py_set_ok by (rewrite zlen_vset; lia). cbn [bind].
  apply tres_bind.
  - apply mfor_tres; [|rewrite !zlen_vset; exact Lo]. intros i s Hi Hs. apply In_zrange_down in Hi. apply xdiv_tres. intros q. rewrite py_get_ok by lia. cbn [bind]. rewrite py_set_ok by lia.
    left. eexists. split; [reflexivity|]. rewrite zlen_vset. exact Hs.
  - intros s Hs. rewrite py_get_ok by lia. cbn [bind].
    assert (G : forall s', zlen s' = N -> tres py N (mfor (zrange 1 (N - 1)) (fun (n : Z) (out : list f64) => a <- py_get (fofZ 0) out (n + 1);; b <- py_get (fofZ 0) out n;; py_set out (n + 1) (fmul a b)) s')).
    { intros s' Hs'. apply mfor_tres; [|exact Hs']. intros i t Hi Ht. apply In_zrange in Hi. rewrite !py_get_ok by lia. cbn [bind]. rewrite py_set_ok by lia.
      left. eexists. split; [reflexivity|]. rewrite zlen_vset. exact Ht. }
    destruct (SFleb _ _).
    + rewrite py_get_ok by lia. cbn [bind]. rewrite py_set_ok by lia. cbn [bind]. apply G. rewrite zlen_vset. exact Hs.
    + rewrite py_set_ok by lia. cbn [bind]. apply G. rewrite zlen_vset. exact Hs.
Qed.
Lemma sbessely_tres sn cs sq py x N : 2 <= N -> xsq sq py x = Ok (sq x) -> tres py N (f_sbessely sn cs sq py x N).
Proof.
  intros HN EX. unfold f_sbessely. rewrite np_zeros_ok by lia. cbn [bind].
  set (o := vmake N _). assert (Lo : zlen o = N) by (unfold o; rewrite zlen_vmake; lia). rewrite py_set_ok by lia. cbn [bind]. rewrite EX. cbn [bind].
  rewrite py_set_ok by (rewrite zlen_vset; lia). cbn [bind]. apply mfor_tres; [|rewrite !zlen_vset; exact Lo].
  intros i s Hi Hs. apply In_zrange in Hi. apply xdiv_tres. intros q. rewrite !py_get_ok by lia. cbn [bind]. rewrite py_set_ok by lia.
  left. eexists. split; [reflexivity|]. rewrite zlen_vset. exact Hs.
Qed.

(** ** Hankel functions *)
Definition hk1 (a b : f64) : cf := cfadd (cfre a) (cfmul (fofZ 0, fofZ 1) (cfre b)).
Definition hk2 (a b : f64) : cf := cfsub (cfre a) (cfmul (fofZ 0, fofZ 1) (cfre b)).
Lemma fmul_1 y : dbl y -> fin y -> dbl (fmul one y) /\ fin (fmul one y) /\ V (fmul one y) = V y.
Proof.
  intros D F. destruct one_spec as (D1 & F1 & E1). pose proof (fmul_rnd _ _ D1 D F1 F) as R. rewrite E1, Rmult_1_l in R.
  pose proof (fin_fmt y D F) as G. assert (Er : rnd (V y) = V y) by (apply round_generic; auto with typeclass_instances).
  destruct (is_rnd_fin _ _ R) as [F' E']; [rewrite Er; apply fin_max; auto|]. split; [exact (is_rnd_dbl _ _ R)|]. split; [exact F'|]. rewrite E'. exact Er.
Qed.
Lemma fadd_z s y : dbl y -> fin y -> dbl (fadd (S754_zero s) y) /\ fin (fadd (S754_zero s) y) /\ V (fadd (S754_zero s) y) = V y.
Proof.
  intros D F. pose proof (fadd_rnd (S754_zero s) y (dbl_zero s) D eq_refl F) as R. cbn [SF2R] in R. rewrite Rplus_0_l in R.
  pose proof (fin_fmt y D F) as G. assert (Er : rnd (V y) = V y) by (apply round_generic; auto with typeclass_instances).
  destruct (is_rnd_fin _ _ R) as [F' E']; [rewrite Er; apply fin_max; auto|]. split; [exact (is_rnd_dbl _ _ R)|]. split; [exact F'|]. rewrite E'. exact Er.
Qed.
Lemma fadd_zr s y : dbl y -> fin y -> fin (fadd y (S754_zero s)) /\ V (fadd y (S754_zero s)) = V y.
Proof.
  intros D F. pose proof (fadd_rnd y (S754_zero s) D (dbl_zero s) F eq_refl) as R. cbn [SF2R] in R. rewrite Rplus_0_r in R.
  pose proof (fin_fmt y D F) as G. assert (Er : rnd (V y) = V y) by (apply round_generic; auto with typeclass_instances).
  destruct (is_rnd_fin _ _ R) as [F' E']; [rewrite Er; apply fin_max; auto|]. split; [exact F'|]. rewrite E'. exact Er.
Qed.
Lemma fsub_zr s y : dbl y -> fin y -> fin (fsub y (S754_zero s)) /\ V (fsub y (S754_zero s)) = V y.
Proof.
  intros D F. pose proof (fsub_rnd y (S754_zero s) D (dbl_zero s) F eq_refl) as R. cbn [SF2R] in R. rewrite Rminus_0_r in R.
  pose proof (fin_fmt y D F) as G. assert (Er : rnd (V y) = V y) by (apply round_generic; auto with typeclass_instances).
  destruct (is_rnd_fin _ _ R) as [F' E']; [rewrite Er; apply fin_max; auto|]. split; [exact F'|]. rewrite E'. exact Er.
Qed.
Lemma fsub_zl s y : dbl y -> fin y -> fin (fsub (S754_zero s) y) /\ V (fsub (S754_zero s) y) = (- V y)%R.
Proof.
  intros D F. pose proof (fsub_rnd (S754_zero s) y (dbl_zero s) D eq_refl F) as R. cbn [SF2R] in R. rewrite Rminus_0_l in R.
  pose proof (fin_fmt y D F) as G. assert (Er : rnd (- V y) = (- V y)%R) by (rewrite rnd_opp; f_equal; apply round_generic; auto with typeclass_instances).
  destruct (is_rnd_fin _ _ R) as [F' E']; [rewrite Er, Rabs_Ropp; apply fin_max; auto|]. split; [exact F'|]. rewrite E'. exact Er.
Qed.
Lemma re_zero b : fin b -> exists s, fsub (fmul (fofZ 0) b) (fmul (fofZ 1) (fofZ 0)) = S754_zero s.
Proof. destruct b as [s|s| |s m e]; intros F; try discriminate F; destruct s; eexists; reflexivity. Qed.
Lemma hk_fin a b : dbl b -> fin b ->
  (dbl a -> fin a -> (fin (fst (hk1 a b)) /\ V (fst (hk1 a b)) = V a) /\ (fin (fst (hk2 a b)) /\ V (fst (hk2 a b)) = V a)) /\
  (fin (snd (hk1 a b)) /\ V (snd (hk1 a b)) = V b) /\ (fin (snd (hk2 a b)) /\ V (snd (hk2 a b)) = (- V b)%R).
Proof.
  intros Db Fb. unfold hk1, hk2, cfadd, cfsub, cfmul, cfre. cbn [fst snd]. destruct (re_zero b Fb) as [s ->]. change (fmul (fofZ 0) (fofZ 0)) with (S754_zero false). change (fofZ 0) with (S754_zero false).
  destruct (fmul_1 b Db Fb) as (D1 & F1 & E1). destruct (fadd_z false _ D1 F1) as (D2 & F2 & E2). destruct (fadd_z false _ D2 F2) as (D3 & F3 & E3). destruct (fsub_zl false _ D2 F2) as (F4 & E4).
  split; [|split; split; auto; [rewrite E3, E2; exact E1|rewrite E4, E2, E1; reflexivity]].
  intros Da Fa. split; [apply fadd_zr|apply fsub_zr]; assumption.
Qed.
Lemma fadd_nan_r a : fadd a S754_nan = S754_nan. Proof. destruct a; reflexivity. Qed.
Lemma fsub_nan_r a : fsub a S754_nan = S754_nan. Proof. destruct a; reflexivity. Qed.
Lemma hk_inf a s : hk1 a (S754_infinity s) = (S754_nan, S754_infinity s) /\ hk2 a (S754_infinity s) = (S754_nan, S754_infinity (negb s)).
Proof. unfold hk1, hk2, cfadd, cfsub, cfmul, cfre. cbn [fst snd]. split; f_equal; try (destruct s; reflexivity); (etransitivity; [|apply (fadd_nan_r a) || apply (fsub_nan_r a)]); destruct s; reflexivity. Qed.
Lemma hk_nan a : hk1 a S754_nan = (S754_nan, S754_nan) /\ hk2 a S754_nan = (S754_nan, S754_nan).
Proof. unfold hk1, hk2, cfadd, cfsub, cfmul, cfre. cbn [fst snd]. split; f_equal; try reflexivity; (etransitivity; [|apply (fadd_nan_r a) || apply (fsub_nan_r a)]); reflexivity. Qed.
Lemma zip_nth {A B C} (f : A -> B -> C) d1 d2 d3 : forall u v n, (n < List.length u)%nat -> List.length u = List.length v -> nth n (zip_with f u v) d3 = f (nth n u d1) (nth n v d2).
Proof.
  intros u. induction u as [|a u IH]; intros [|b v] n Hn Hl; cbn [List.length] in *; try lia. destruct n as [|n]; [reflexivity|]. cbn [zip_with nth]. apply IH; lia.
Qed.
Lemma zip_len {A B C} (f : A -> B -> C) : forall u v, List.length u = List.length v -> List.length (zip_with f u v) = List.length u.
Proof. intros u. induction u as [|a u IH]; intros [|b v] Hl; cbn [List.length zip_with] in *; try lia. now rewrite IH by lia. Qed.
