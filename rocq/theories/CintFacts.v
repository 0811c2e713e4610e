(** * CintFacts: the checked-int model of MCint.v against MKiss.v / MCsphi.v.

    [refR ov R x c]: the checked run x and the unchecked run c end the same
    way (results related by R), or - only if [ov] - x reports an overflow. *)
From Coq Require Import ZArith Znumtheory List String Bool Reals Lia Lra.
From Coquelicot Require Import Complex.
From Verif Require Import Py PyFacts Num Exact MCoefs Sums MPysphi Dft Smooth PysphiFacts MKiss KissFacts KissFacts2 MOps MTrans MCsphi CsphiFacts MCint.
Import ListNotations.
Open Scope list_scope.
Open Scope Z_scope.

Lemma Ok_inj {A} (a b : A) : Ok a = Ok b -> a = b.
Proof. intros E. now injection E. Qed.
Lemma bind_Ok_r {A} (x : res A) : bind x (fun a => Ok a) = x.
Proof. now destruct x. Qed.
Definition isint (z : Z) : Prop := INT_MIN <= z <= INT_MAX.
Lemma ck_ok z : isint z -> ck z = Ok z.
Proof. unfold isint, ck. intros [H1 H2]. apply Z.leb_le in H1, H2. now rewrite H1, H2. Qed.
Lemma ck_inv z z' : ck z = Ok z' -> z' = z /\ isint z.
Proof.
  unfold isint, ck. destruct (Z.leb_spec INT_MIN z); cbn [andb]; [|discriminate].
  destruct (Z.leb_spec z INT_MAX); [|discriminate]. intros E. apply Ok_inj in E. lia.
Qed.
Lemma ck_cases z : (ck z = Ok z /\ isint z) \/ ck z = Raise IntOverflow.
Proof.
  unfold isint, ck. destruct (Z.leb_spec INT_MIN z); cbn [andb]; auto. destruct (Z.leb_spec z INT_MAX); auto.
Qed.

Section Ref.
Variable ov : bool.
Definition refR {A B} (R : A -> B -> Prop) (x : res A) (c : res B) : Prop :=
  (ov = true /\ x = Raise IntOverflow) \/ (exists a b, x = Ok a /\ c = Ok b /\ R a b) \/
  (exists e, x = Raise e /\ c = Raise e).

Lemma refR_ok {A B} (R : A -> B -> Prop) a b : R a b -> refR R (Ok a) (Ok b).
Proof. intros. right; left. eauto. Qed.
Lemma refR_refl {A} (x : res A) : refR eq x x.
Proof. right. destruct x; eauto 6. Qed.
Lemma refR_bind {A B A' B'} (R1 : A -> B -> Prop) (R : A' -> B' -> Prop) x c f g :
  refR R1 x c -> (forall a b, x = Ok a -> c = Ok b -> R1 a b -> refR R (f a) (g b)) -> refR R (bind x f) (bind c g).
Proof.
  intros [[H ->]|[(a & b & -> & -> & HR)|(e & -> & ->)]] Hf; cbn [bind].
  - left; auto.
  - auto.
  - right; right; eauto.
Qed.
Lemma refR_same {A A' B'} (R : A' -> B' -> Prop) (x : res A) f g :
  (forall a, x = Ok a -> refR R (f a) (g a)) -> refR R (bind x f) (bind x g).
Proof. intros H. apply (refR_bind eq); [apply refR_refl|]. intros a b Ha _ <-. auto. Qed.
Lemma refR_same_r {A A'} (R : A' -> A -> Prop) (x : res A) f :
  (forall a, x = Ok a -> refR R (f a) (Ok a)) -> refR R (bind x f) x.
Proof. intros H. rewrite <- (bind_Ok_r x) at 2. now apply refR_same. Qed.
Lemma refR_ck {A B} (R : A -> B -> Prop) z f c :
  (ov = false -> isint z) -> (isint z -> refR R (f z) c) -> refR R (bind (ck z) f) c.
Proof.
  intros H Hf. destruct (ck_cases z) as [[-> Hz]| E].
  - cbn [bind]; auto.
  - destruct ov eqn:E1; [rewrite E; left; auto|]. exfalso. rewrite ck_ok in E by auto. discriminate.
Qed.
Lemma refR_ck_val z : (ov = false -> isint z) -> refR eq (ck z) (Ok z).
Proof.
  intros H. destruct (ck_cases z) as [[-> Hz]| E]; [now apply refR_ok|].
  destruct ov eqn:E1; [rewrite E; left; auto|]. exfalso. rewrite ck_ok in E by auto. discriminate.
Qed.
Lemma refR_upto {A B} (R : A -> B -> Prop) a e f c : (ov = false -> a <= e -> isint (e + 1)) ->
  ((a <= e -> isint (e + 1)) -> refR R (f (zrange a (e + 1))) c) -> refR R (bind (upto a e) f) c.
Proof.
  intros H Hf. unfold upto. destruct (Z.ltb_spec e a).
  - cbn [bind]. rewrite zrange_nil in Hf by lia. apply Hf; lia.
  - destruct (ck_cases (e + 1)) as [[E Hz]|E]; rewrite E; cbn [bind]; [auto|].
    destruct ov eqn:E1; [left; auto|]. exfalso. rewrite ck_ok in E by auto. discriminate.
Qed.
Lemma refR_downto {A B} (R : A -> B -> Prop) a e f c : (ov = false -> e <= a -> isint (e - 1)) ->
  ((e <= a -> isint (e - 1)) -> refR R (f (zrange_down a (e - 1))) c) -> refR R (bind (downto a e) f) c.
Proof.
  intros H Hf. unfold downto. destruct (Z.ltb_spec a e).
  - cbn [bind]. assert (E : zrange_down a (e - 1) = []) by (unfold zrange_down; replace (Z.to_nat (a - (e - 1))) with 0%nat by lia; reflexivity).
    rewrite E in Hf. apply Hf; lia.
  - destruct (ck_cases (e - 1)) as [[E Hz]|E]; rewrite E; cbn [bind]; [auto|].
    destruct ov eqn:E1; [left; auto|]. exfalso. rewrite ck_ok in E by auto. discriminate.
Qed.
Lemma refR_mfor {S} l (f g : Z -> S -> res S) : (forall i s, In i l -> refR eq (f i s) (g i s)) ->
  forall s, refR eq (mfor l f s) (mfor l g s).
Proof.
  induction l as [|i l IH]; intros H s; cbn [mfor]; [now apply refR_ok|].
  apply (refR_bind eq); [apply H; left; auto|]. intros a b _ _ <-. apply IH. intros; apply H; right; auto.
Qed.
Lemma refR_mfor_rel {S T} (R : Z -> S -> T -> Prop) lo hi f g s t :
  lo <= hi -> R lo s t ->
  (forall i s t, lo <= i < hi -> R i s t -> refR (R (i + 1)) (f i s) (g i t)) ->
  refR (R hi) (mfor (zrange lo hi) f s) (mfor (zrange lo hi) g t).
Proof.
  intros Hle H0 H. remember (Z.to_nat (hi - lo)) as n eqn:En. revert lo s t Hle H0 H En.
  induction n as [|n IH]; intros lo s t Hle H0 H En.
  - assert (lo = hi) by lia. subst. rewrite zrange_nil by lia. now apply refR_ok.
  - rewrite zrange_cons by lia. cbn [mfor]. apply (refR_bind (R (lo + 1))); [apply H; auto; lia|].
    intros a b _ _ Hab. apply IH; auto; try lia. intros; apply H; auto; lia.
Qed.
Lemma refR_imp {A B} (R R' : A -> B -> Prop) x c : (forall a b, R a b -> R' a b) -> refR R x c -> refR R' x c.
Proof. intros H [K|[(a & b & -> & -> & K)|K]]; [left; auto| |right; right; auto]. right; left. exists a, b. auto. Qed.
End Ref.

Lemma refR_false {A} (x c : res A) : refR false eq x c -> x = c.
Proof. intros [[H _]|[(a & b & -> & -> & ->)|(e & -> & ->)]]; [discriminate| |]; reflexivity. Qed.
Lemma refR_true {A} (x c : res A) : refR true eq x c -> x = c \/ x = Raise IntOverflow.
Proof. intros [[_ H]|[(a & b & -> & -> & ->)|(e & -> & ->)]]; auto. Qed.

Ltac sd := let H := fresh in intros H; unfold isint, INT_MIN, INT_MAX in *; try (specialize_ov H); try lia
with specialize_ov H := repeat match goal with K : ?ov = false -> _ |- _ => specialize (K H) end.
Ltac rstep :=
  cbv beta zeta;
  lazymatch goal with
  | |- refR _ _ (bind (ck _) _) _ => apply refR_ck; [sd|intros ?]
  | |- refR _ _ (bind (upto _ _) _) _ => apply refR_upto; [sd|intros ?]
  | |- refR _ _ (bind (downto _ _) _) _ => apply refR_downto; [sd|intros ?]
  | |- refR _ _ (bind ?x _) (bind ?x _) => apply refR_same; let a := fresh in intros a _
  | |- refR _ eq (mfor ?l _ ?s) (mfor ?l _ ?s) => apply refR_mfor
  | |- refR _ _ (bind (mfor ?l _ ?s) _) (bind (mfor ?l _ ?s) _) => apply (refR_bind _ eq); [apply refR_mfor|let a := fresh in intros ? a _ _ <-]
  | |- refR _ eq ?x ?x => apply refR_refl
  end.

(** ** kiss_fft.c *)
Section Kiss.
Variable ov : bool.
Notation refR := (refR ov).

Lemma x_bfly5_ref out o fs st m : (ov = false -> 0 <= m /\ 4 * m <= INT_MAX) ->
  refR eq (x_bfly5 out o fs st m) (kf_bfly5 out o fs st m).
Proof.
  intros H. unfold x_bfly5, kf_bfly5. do 5 rstep. rstep. intros u s Hu. apply In_zrange' in Hu.
  repeat rstep.
Qed.

Lemma x_bfly_generic_ref junk out o fs st m p :
  (ov = false -> 1 <= m /\ 1 <= p /\ 0 < fs /\ fs * (p * m) = k_nfft st /\ (k_nfft st <= 2 ^ 30 \/ (p = 1 /\ m = 1))) ->
  refR eq (x_bfly_generic junk out o fs st m p) (kf_bfly_generic junk out o fs st m p).
Proof.
  intros H. unfold x_bfly_generic, kf_bfly_generic. rstep. intros u s Hu. apply In_zrange' in Hu.
  destruct (Z_lt_le_dec p 0) as [Hp|Hp].
  { rewrite !zrange_nil by lia. cbn [mfor bind]. now apply refR_ok. }
  assert (B : ov = false -> forall q, 0 <= q < p -> 0 <= u + q * m /\ u + q * m + m <= INT_MAX /\ 0 <= fs * (u + q * m) < k_nfft st).
  { intros E q Hq. destruct (H E) as (H1 & H2 & H3 & H4 & H5). assert (X : 0 <= u + q * m < p * m) by nia.
    split; [lia|]. split; [|rewrite <- H4; split; [nia|apply Z.mul_lt_mono_pos_l; lia]].
    destruct H5 as [H5|[-> ->]]; [|unfold INT_MAX; nia].
    assert (p * m <= k_nfft st) by nia. assert (m <= p * m) by nia. unfold INT_MAX. lia. }
  apply (refR_bind _ (fun (a : list C * Z) b => fst a = b)).
  - apply (refR_imp ov (fun (a : list C * Z) b => fst a = b /\ snd a = u + p * m)); [tauto|].
    apply (refR_mfor_rel ov (fun q (a : list C * Z) b => fst a = b /\ snd a = u + q * m) 0 p); [lia|split; [reflexivity|cbn [snd]; lia]|].
    intros q (b & k) b' Hq (E1 & E2). cbn [fst snd] in E1, E2. subst b' k.
    rstep. apply refR_same_r; intros b1 _. rstep; lazymatch goal with |- refR _ _ _ => idtac | _ => specialize (B q Hq); lia end. apply refR_ok. cbn. split; auto. ring.
  - intros (scr & k0) b' _ _ E. cbn [fst] in E. subst b'. 
    match goal with |- refR _ _ (mfor ?l ?g ?s) => rewrite <- (bind_Ok_r (mfor l g s)) end.
    apply (refR_bind _ (fun (a : list C * Z) b => fst a = b)).
    2:{ intros a b _ _ <-. now apply refR_ok. }
    apply (refR_imp ov (fun (a : list C * Z) b => fst a = b /\ snd a = u + p * m)); [tauto|].
    apply (refR_mfor_rel ov (fun q (a : list C * Z) b => fst a = b /\ snd a = u + q * m) 0 p); [lia|split; [reflexivity|cbn [snd]; lia]|].
    intros q (b & k) b' Hq (E1 & E2). cbn [fst snd] in E1, E2. subst b' k.
    rstep. rstep.
    assert (Hp1 : 1 <= p) by lia.
    apply (refR_bind _ (fun (a b : list C * Z) => a = b)).
    + apply (refR_imp ov (fun (a b : list C * Z) => a = b /\ (ov = false -> 0 <= snd a < k_nfft st))); [tauto|].
      apply (refR_mfor_rel ov (fun _ (a b : list C * Z) => a = b /\ (ov = false -> 0 <= snd a < k_nfft st)) 1 p); [lia| |].
      { split; auto. cbn [snd]. intros E. specialize (B E q Hq). lia. }
      intros q' (b1 & t) b2 Hq' (<- & Ht). cbn [fst snd] in *.
      assert (B2 : ov = false -> p <> 1 /\ 0 <= t < k_nfft st /\ k_nfft st <= 2 ^ 30).
      { intros E. split; [lia|]. split; auto. destruct (H E) as (_ & _ & _ & _ & [K|[K _]]); lia. }
      rstep; lazymatch goal with |- refR _ _ _ => idtac | _ => specialize (B q Hq); lia end.
      destruct (Z.leb_spec (k_nfft st) (t + fs * (u + q * m))) as [Hle|Hle].
      * rstep; lazymatch goal with |- refR _ _ _ => idtac | _ => specialize (B q Hq); lia end.
        repeat rstep. apply refR_ok. split; auto. cbn [snd]. intros E. specialize (B E q Hq). specialize (B2 E). lia.
      * cbn [bind]. repeat rstep. apply refR_ok. split; auto. cbn [snd]. intros E. specialize (B E q Hq). specialize (B2 E). lia.
    + intros a b1 _ _ <-. rstep; lazymatch goal with |- refR _ _ _ => idtac | _ => specialize (B q Hq); lia end. apply refR_ok. cbn. split; auto. ring.
Qed.

(** Radices for which no butterfly can overflow below 2 ^ 31 *)
Definition small_radix (r : Z * Z) : Prop := 2 <= fst r <= 5 \/ r = (1, 1).

Lemma x_bfly_ref junk out o fs st m p :
  (ov = false -> 1 <= m /\ 1 <= p /\ 0 < fs /\ fs * (p * m) = k_nfft st /\ k_nfft st <= INT_MAX /\
     (k_nfft st <= 2 ^ 30 \/ small_radix (p, m))) ->
  refR eq (x_bfly junk out o fs st m p) (kf_bfly junk out o fs st m p).
Proof.
  intros H. unfold x_bfly, kf_bfly.
  destruct (Z.eqb_spec p 2) as [->|]; [apply refR_refl|]. destruct (Z.eqb_spec p 3) as [->|]; [apply refR_refl|].
  destruct (Z.eqb_spec p 4) as [->|]; [apply refR_refl|].
  destruct (Z.eqb_spec p 5) as [->|].
  - apply x_bfly5_ref. intros E. specialize (H E). nia.
  - apply x_bfly_generic_ref. intros E. destruct (H E) as (H1 & H2 & H3 & H4 & H5 & H6). repeat split; auto.
    destruct H6 as [H6|[H6|H6]]; [left; auto|cbn in H6; lia|]. injection H6. auto.
Qed.

Lemma x_kf_work_ref junk st fin is : forall factors n out o fi fs,
  (ov = false -> good_factors n factors /\ fs * n = k_nfft st /\ 0 < fs /\ k_nfft st <= INT_MAX /\
     (k_nfft st <= 2 ^ 30 \/ Forall small_radix factors)) ->
  refR eq (x_kf_work junk st fin is factors out o fi fs) (kf_work junk st fin is factors out o fi fs).
Proof.
  induction factors as [|(p & m) factors IH]; intros n out o fi fs H; cbn [x_kf_work kf_work]; [apply refR_refl|].
  destruct (Z.ltb_spec p 1) as [Hp|Hp]; cbn [orb]; [apply refR_refl|].
  destruct (Z.ltb_spec m 1) as [Hm|Hm]; [apply refR_refl|].
  assert (G : ov = false -> n = p * m /\ (m = 1 \/ good_factors m factors) /\ fs * (p * m) = k_nfft st /\ 0 < fs /\
     k_nfft st <= INT_MAX /\ (k_nfft st <= 2 ^ 30 \/ (small_radix (p, m) /\ Forall small_radix factors))).
  { intros E. destruct (H E) as ((E1 & _ & _ & K) & E2 & E3 & E4 & E5). subst n. repeat split; auto.
    destruct E5 as [E5|E5]; [left; auto|]. right. inversion E5; auto. }
  rstep.
  apply (refR_bind _ eq).
  - destruct (Z.eqb_spec m 1); [apply refR_refl|].
    apply refR_mfor. intros i s _. apply (IH m). intros E. destruct (G E) as (E0 & [E1|E1] & E2 & E3 & E4 & E5); [lia|].
    repeat split; auto; try nia. destruct E5 as [E5|[_ E5]]; auto.
  - intros a b _ _ <-. apply x_bfly_ref. intros E. destruct (G E) as (E0 & E1 & E2 & E3 & E4 & E5).
    repeat split; auto; try lia. destruct E5 as [E5|[E5 _]]; auto.
Qed.
End Kiss.
