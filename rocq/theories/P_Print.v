(** * P_Print: property C62: what printing a container shows. *)
From Coq Require Import ZArith List String Ascii Bool Lia.
From Verif Require Import Py PyFacts Num Exact MCoefs SpecCoefs Obs CoefsFacts CoefsFacts2 CoefsFacts3 MPatt P_Coefs
  MText TextFacts FileFacts MPrint.
Import ListNotations.
Open Scope Z_scope.

(** ** Reading a text back *)

Lemma Ok_inj {A} (x y : A) : Ok x = Ok y -> x = y.
Proof. now injection 1. Qed.

(** A text without the characters for which [stop] holds. *)
Definition free (stop : ascii -> bool) (l : txt) : Prop := forall c, In c l -> stop c = false.

Lemma cut_unique stop a a' x x' r r' : free stop a -> free stop a' -> stop x = true -> stop x' = true ->
  a ++ x :: r = a' ++ x' :: r' -> a = a' /\ x = x' /\ r = r'.
Proof.
  revert a'. induction a as [|c a IH]; intros [|c' a'] F F' S S' E; cbn [app] in E; injection E as E1 E2.
  - auto.
  - subst. rewrite (F' c') in S by (left; auto). discriminate.
  - subst. rewrite (F x') in S' by (left; auto). discriminate.
  - subst. destruct (IH a') as (-> & -> & ->); auto; intros q Hq; [apply F|apply F']; right; auto.
Qed.

Definition is_stop (c : ascii) : bool := Ascii.eqb c "," || Ascii.eqb c ")" || Ascii.eqb c "]" || Ascii.eqb c nl || Ascii.eqb c " ".
Lemma digit_stop c : is_digit c = true -> is_stop c = false.
Proof. unfold is_stop. intros H. repeat match goal with |- context [Ascii.eqb c ?k] => destruct (Ascii.eqb_spec c k) as [->|]; [vm_compute in H; discriminate|] end. reflexivity. Qed.
Lemma fmt_int_free z : free is_stop (fmt_int z).
Proof.
  rewrite fmt_int_sgn. intros c H. apply in_app_or in H as [H|H].
  - destruct (z <? 0); cbn in H; [destruct H as [<-|[]]; reflexivity|destruct H].
  - apply digit_stop. eapply digs_digits; exact H.
Qed.
Lemma fmt_int_inj z z' : fmt_int z = fmt_int z' -> z = z'.
Proof.
  intros E. pose proof (parse_fmt_int [] [] z nil_space nil_space) as P. pose proof (parse_fmt_int [] [] z' nil_space nil_space) as P'.
  cbn [app] in P, P'. rewrite E in P. rewrite P in P'. now injection P'.
Qed.
Lemma fmt_int_cut z z' x x' r r' : is_stop x = true -> is_stop x' = true ->
  fmt_int z ++ x :: r = fmt_int z' ++ x' :: r' -> z = z' /\ x = x' /\ r = r'.
Proof.
  intros S S' E. apply (cut_unique is_stop) in E; auto; try apply fmt_int_free. destruct E as (E & -> & ->).
  apply fmt_int_inj in E. auto.
Qed.

(** What the printed form of one number must not contain for the texts to be
    readable: comma, closing bracket, newline. *)
Definition readable {A} (show : A -> txt) : Prop :=
  (forall x, free (fun c => Ascii.eqb c "," || Ascii.eqb c "]" || Ascii.eqb c nl) (show x)) /\ forall x y, show x = show y -> x = y.
Definition stop3 (c : ascii) : bool := Ascii.eqb c "," || Ascii.eqb c "]" || Ascii.eqb c nl.

Lemma join_cons2 sep x y l : join sep (x :: y :: l) = x ++ sep ++ join sep (y :: l).
Proof. reflexivity. Qed.

(** A printed list of numbers determines the list, also inside more text. *)
Lemma items_inj {A} (show : A -> txt) : readable show -> forall (l l' : list A) r r', l <> [] -> l' <> [] ->
  join (lit ", ") (map show l) ++ lit "]" ++ r = join (lit ", ") (map show l') ++ lit "]" ++ r' -> l = l' /\ r = r'.
Proof.
  intros [F I]. induction l as [|x l IH]; [congruence|]. intros [|x' l'] r r' _ Hn E; [congruence|].
  assert (J : forall y ys q, exists c rest, (c = ","%char \/ c = "]"%char) /\ join (lit ", ") (map show (y :: ys)) ++ lit "]" ++ q = show y ++ c :: rest /\
     ((ys = [] /\ c = "]"%char /\ rest = q) \/ (ys <> [] /\ c = ","%char /\ rest = " "%char :: join (lit ", ") (map show ys) ++ lit "]" ++ q))).
  { intros y ys q. destruct ys as [|z zs].
    - exists "]"%char, q. split; [auto|]. split; [reflexivity|]. auto.
    - exists ","%char, (" "%char :: join (lit ", ") (map show (z :: zs)) ++ lit "]" ++ q). split; [auto|]. split.
      + cbn [map]. rewrite join_cons2. rewrite <- !app_assoc. reflexivity.
      + right. split; [congruence|auto]. }
  destruct (J x l r) as (c & rest & Hc & E1 & D). destruct (J x' l' r') as (c' & rest' & Hc' & E1' & D').
  rewrite E1, E1' in E. apply (cut_unique stop3) in E; [|apply F|apply F|destruct Hc as [->| ->]; reflexivity|destruct Hc' as [->| ->]; reflexivity].
  destruct E as (Ex & -> & ->). apply I in Ex. subst x'.
  destruct D as [(-> & D1 & D2)|(Hl & D1 & D2)]; destruct D' as [(-> & D1' & D2')|(Hl' & D1' & D2')]; try congruence.
  - split; congruence.
  - assert (X : join (lit ", ") (map show l) ++ lit "]" ++ r = join (lit ", ") (map show l') ++ lit "]" ++ r') by congruence.
    apply IH in X; auto. destruct X as [-> ->]. auto.
Qed.
Lemma list_text_inj {A} (show : A -> txt) : readable show -> forall (l l' : list A) r r', l <> [] -> l' <> [] ->
  py_list_text (map show l) ++ r = py_list_text (map show l') ++ r' -> l = l' /\ r = r'.
Proof.
  intros H l l' r r' N N' E. unfold py_list_text in E. rewrite <- !app_assoc in E. cbn [lit list_ascii_of_string app] in E.
  injection E as E. apply (items_inj show H) in E; auto.
Qed.
(** The same for equally many rows. *)
Lemma rows_inj {A} (show : A -> txt) : readable show -> forall (L L' : list (list A)) r r', List.length L = List.length L' ->
  (forall l, In l L -> l <> []) -> (forall l, In l L' -> l <> []) ->
  join (lit ", ") (map (fun l => py_list_text (map show l)) L) ++ r = join (lit ", ") (map (fun l => py_list_text (map show l)) L') ++ r' -> L = L'.
Proof.
  intros H. induction L as [|l L IH]; intros [|l' L'] r r' E N N' X; try discriminate; auto.
  destruct L as [|y ys], L' as [|y' ys']; try discriminate.
  - cbn [map join] in X. apply (list_text_inj show H) in X; [|apply N; left; auto|apply N'; left; auto]. destruct X as [-> _]. auto.
  - cbn [map] in X. rewrite !join_cons2 in X. rewrite <- !app_assoc in X.
    apply (list_text_inj show H) in X; [|apply N; left; auto|apply N'; left; auto]. destruct X as [-> X].
    cbn [lit list_ascii_of_string app] in X. injection X as X.
    f_equal. apply (IH _ r r'); [cbn in *; lia| | |exact X]; intros q Hq; [apply N|apply N']; right; auto.
Qed.

(** The rows printed for a coefficient set. *)
Definition row_of {K} (c : scoefs K) (n : Z) : list (cplx K) :=
  map (cval K c n) (zrange (- Z.min n (sc_mmax K c)) (Z.min n (sc_mmax K c) + 1)).
Lemma row_of_nonempty {K} (c : scoefs K) n : 0 <= n -> 0 <= sc_mmax K c -> row_of c n <> [].
Proof. intros Hn Hm. unfold row_of. rewrite zrange_cons by lia. discriminate. Qed.
Lemma rows_cval {K} (c c' : scoefs K) : sc_nmax K c = sc_nmax K c' -> sc_mmax K c = sc_mmax K c' ->
  map (row_of c) (zrange 0 (sc_nmax K c + 1)) = map (row_of c') (zrange 0 (sc_nmax K c' + 1)) ->
  forall n m, is_mode (sc_nmax K c) (sc_mmax K c) n m -> cval K c n m = cval K c' n m.
Proof.
  intros E1 E2 E n m [H1 H2]. rewrite <- E1 in E.
  assert (R : row_of c n = row_of c' n).
  { apply (ext_in_map E n). apply In_zrange. lia. }
  unfold row_of in R. rewrite <- E2 in R. apply (ext_in_map R m). apply In_zrange. lia.
Qed.

Lemma sc_repr_text {K} (show : cplx K -> txt) (c : scoefs K) : valid K c -> sc_repr K show c =
  Ok (lit "ScalarCoefs((nmax = " ++ fmt_int (sc_nmax K c) ++ lit ", mmax = " ++ fmt_int (sc_mmax K c) ++
      lit ") , " ++ py_list_text (map (fun r => py_list_text (map show r)) (map (row_of c) (zrange 0 (sc_nmax K c + 1)))) ++ lit " )").
Proof. intros Hv. unfold sc_repr. rewrite sc_m_vecs_ok by now apply valid_wf. reflexivity. Qed.

Lemma combine_map_r {A B} (f : A -> B) (l : list A) : combine l (map f l) = map (fun n => (n, f n)) l.
Proof. induction l; cbn [map combine]; congruence. Qed.
Lemma join_concat sep x l : join sep (x :: l) = x ++ List.concat (map (fun y => sep ++ y) l).
Proof.
  revert x. induction l as [|y l IH]; intros x.
  - cbn. now rewrite app_nil_r.
  - rewrite join_cons2, IH. cbn [map List.concat]. now rewrite <- app_assoc.
Qed.
Definition str_head (nmax mmax : Z) : txt := lit "ScalarCoefs(nmax = " ++ fmt_int nmax ++ lit ", mmax = " ++ fmt_int mmax ++ lit "):".
Definition str_line {A} (show : A -> txt) (n : Z) (xs : list A) : txt :=
  lit "n = " ++ fmt_int n ++ lit " :: [" ++ join (lit ", ") (map show xs) ++ lit "]".
Lemma sc_str_text {K} (show : cplx K -> txt) (c : scoefs K) : valid K c -> sc_str K show c =
  Ok (join [nl] (str_head (sc_nmax K c) (sc_mmax K c) :: map (fun n => str_line show n (row_of c n)) (zrange 0 (sc_nmax K c + 1)))).
Proof.
  intros Hv. pose proof Hv as Hw. apply valid_wf in Hw. pose proof Hw as [[Hg1 Hg2] Hl]. unfold sc_str. rewrite sc_m_vecs_ok by auto. cbn [bind].
  rewrite zlen_map, zlen_zrange. replace (Z.max 0 _) with (sc_nmax K c + 1) by lia.
  rewrite combine_map_r, map_map. cbn [fst snd]. unfold str_head, str_line, py_list_text, row_of. repeat f_equal.
Qed.

(** ** C62 *)

(** repr(c) works for every coefficient set and two coefficient sets with the
    same repr have the same sizes and the same coefficients, provided numbers
    print differently when they differ and without comma, ']' or newline. *)
Theorem C62_repr_identifies : forall K (show : cplx K -> txt) (c c' : scoefs K), readable show -> valid K c -> valid K c' ->
  (exists t, sc_repr K show c = Ok t) /\
  (sc_repr K show c = sc_repr K show c' -> sc_nmax K c = sc_nmax K c' /\ sc_mmax K c = sc_mmax K c' /\
     forall n m x, reads K c n m x <-> reads K c' n m x).
Proof.
  intros K show c c' H V V'. rewrite !sc_repr_text by auto. split; [eauto|]. intros E. apply Ok_inj in E.
  apply app_inv_head in E. cbn [lit list_ascii_of_string app] in E.
  apply fmt_int_cut in E; try reflexivity. destruct E as (En & _ & E). injection E as E.
  apply fmt_int_cut in E; try reflexivity. destruct E as (Em & _ & E).
  split; [auto|]. split; [auto|].
  rewrite <- !app_assoc in E. injection E as E.
  pose proof V as W. apply valid_wf in W. destruct W as [[Hg1 Hg2] Hl].
  apply (rows_inj show H) in E.
  - pose proof (rows_cval c c' En Em E) as R. intros n m x. rewrite !reads_iff by auto. rewrite <- En, <- Em.
    split; intros [A B]; (split; [exact A|]); rewrite B; [|symmetry]; now apply R.
  - rewrite !map_length. now rewrite En.
  - intros l Hin. apply in_map_iff in Hin as (n & <- & Hn). apply In_zrange in Hn. apply row_of_nonempty; lia.
  - intros l Hin. apply in_map_iff in Hin as (n & <- & Hn). apply In_zrange in Hn. apply row_of_nonempty; lia.
Qed.
Print Assumptions C62_repr_identifies.

(** ** str *)
Lemma split_join : forall l x, (forall y, In y (x :: l) -> free (fun c => Ascii.eqb c nl) y) -> split_at nl (join [nl] (x :: l)) = x :: l.
Proof.
  assert (N : forall y, free (fun c => Ascii.eqb c nl) y -> split_at nl y = [y]).
  { induction y as [|c y IH]; intros F; cbn [split_at]; auto. rewrite (F c) by (left; auto). rewrite IH; auto. intros q Hq; apply F; right; auto. }
  assert (A : forall y r, free (fun c => Ascii.eqb c nl) y -> split_at nl (y ++ nl :: r) = y :: split_at nl r).
  { induction y as [|c y IH]; intros r F; cbn [app split_at]. 
    - now rewrite Ascii.eqb_refl.
    - rewrite (F c) by (left; auto). rewrite IH; auto. intros q Hq; apply F; right; auto. }
  induction l as [|y l IH]; intros x F.
  - apply N, F. left; auto.
  - rewrite join_cons2. cbn [app]. rewrite A by (apply F; left; auto). f_equal. apply IH. intros z Hz. apply F. right; auto.
Qed.
Lemma free_app stop a b : free stop a -> free stop b -> free stop (a ++ b).
Proof. intros A B c H. apply in_app_or in H as [H|H]; auto. Qed.
Lemma free_join stop sep l : free stop sep -> (forall y, In y l -> free stop y) -> free stop (join sep l).
Proof.
  intros S. induction l as [|x l IH]; intros F; [intros c []|]. destruct l as [|y l].
  - apply F; left; auto.
  - rewrite join_cons2. apply free_app; [apply F; left; auto|]. apply free_app; auto. apply IH. intros z Hz; apply F; right; auto.
Qed.
Lemma free_weaken (s s' : ascii -> bool) l : (forall c, s' c = true -> s c = true) -> free s l -> free s' l.
Proof. intros W F c H. specialize (F c H). specialize (W c). destruct (s' c); auto. rewrite W in F; auto. Qed.
Lemma fmt_int_nl z : free (fun c => Ascii.eqb c nl) (fmt_int z).
Proof. apply (free_weaken is_stop); [|apply fmt_int_free]. intros c E. unfold is_stop. rewrite E, !orb_true_r. reflexivity. Qed.
Lemma lit_free s : existsb (fun c => Ascii.eqb c nl) (lit s) = false -> free (fun c => Ascii.eqb c nl) (lit s).
Proof.
  intros H c Hc. destruct (Ascii.eqb c nl) eqn:E; auto.
  rewrite <- H. symmetry. apply existsb_exists. exists c. auto.
Qed.
Lemma str_head_nl a b : free (fun c => Ascii.eqb c nl) (str_head a b).
Proof. unfold str_head.
  apply free_app; [now apply lit_free|]. apply free_app; [apply fmt_int_nl|]. apply free_app; [now apply lit_free|]. apply free_app; [apply fmt_int_nl|]. now apply lit_free. Qed.
Lemma str_line_nl {A} (show : A -> txt) n xs : (forall x, free (fun c => Ascii.eqb c nl) (show x)) -> free (fun c => Ascii.eqb c nl) (str_line show n xs).
Proof.
  intros F. unfold str_line. apply free_app; [now apply lit_free|]. apply free_app; [apply fmt_int_nl|]. apply free_app; [now apply lit_free|].
  apply free_app; [|now apply lit_free]. apply free_join; [now apply lit_free|]. intros y Hy. apply in_map_iff in Hy as (x & <- & _). auto.
Qed.

(** str(c) is a header line and one line for every n = 0..nmax, which lists
    c[n,-k], ..., c[n,k] for k = min(n, mmax), in this order. *)
Theorem C62_str_lines : forall K (show : cplx K -> txt) (c : scoefs K),
  (forall x, free (fun a => Ascii.eqb a nl) (show x)) -> valid K c ->
  exists t lines, sc_str K show c = Ok t /\ split_at nl t = str_head (sc_nmax K c) (sc_mmax K c) :: lines /\
    zlen lines = sc_nmax K c + 1 /\
    forall n, 0 <= n <= sc_nmax K c -> exists xs, vget [] lines n = str_line show n xs /\
      zlen xs = 2 * Z.min n (sc_mmax K c) + 1 /\
      forall m, - Z.min n (sc_mmax K c) <= m <= Z.min n (sc_mmax K c) -> reads K c n m (vget (c0 K) xs (m + Z.min n (sc_mmax K c))).
Proof.
  intros K show c F V. pose proof V as W. apply valid_wf in W. destruct W as [[Hg1 Hg2] Hl].
  eexists _, _. split; [now apply sc_str_text|]. split.
  { apply split_join. intros y [<-|Hy]; [apply str_head_nl|]. apply in_map_iff in Hy as (n & <- & _). now apply str_line_nl. }
  split; [rewrite zlen_map, zlen_zrange; lia|].
  intros n Hn. exists (row_of c n). split.
  - rewrite (vget_map _ 0) by (rewrite zlen_zrange; lia). rewrite vget_zrange by lia. f_equal; f_equal; lia.
  - split; [unfold row_of; rewrite zlen_map, zlen_zrange; lia|]. intros m Hm. unfold row_of.
    rewrite (vget_map _ 0) by (rewrite zlen_zrange; lia). rewrite vget_zrange by lia.
    replace (_ + _) with m by lia. apply reads_cval; auto. unfold is_mode; lia.
Qed.
Print Assumptions C62_str_lines.

(** str(c) identifies the coefficients too. *)
Theorem C62_str_identifies : forall K (show : cplx K -> txt) (c c' : scoefs K), readable show -> valid K c -> valid K c' ->
  sc_str K show c = sc_str K show c' -> sc_nmax K c = sc_nmax K c' /\ sc_mmax K c = sc_mmax K c' /\
     forall n m x, reads K c n m x <-> reads K c' n m x.
Proof.
  intros K show c c' H V V' E.
  assert (F : forall x, free (fun a => Ascii.eqb a nl) (show x)).
  { intros x. apply (free_weaken stop3); [|apply H]. intros q Eq. unfold stop3. rewrite Eq, !orb_true_r. reflexivity. }
  destruct (C62_str_lines K show c F V) as (t & ls & E1 & S1 & L1 & R1).
  destruct (C62_str_lines K show c' F V') as (t' & ls' & E1' & S1' & L1' & R1').
  rewrite E1, E1' in E. apply Ok_inj in E. subst t'. rewrite S1 in S1'. injection S1' as Eh El. subst ls'.
  cbn [lit list_ascii_of_string app] in Eh.
  apply fmt_int_cut in Eh; try reflexivity. destruct Eh as (En & _ & Eh). injection Eh as Eh.
  apply fmt_int_cut in Eh; try reflexivity. destruct Eh as (Em & _ & _). split; [auto|]. split; [auto|].
  intros n m x. pose proof V as W. apply valid_wf in W. destruct W as [[Hg1 Hg2] Hl].
  assert (Q : is_mode (sc_nmax K c) (sc_mmax K c) n m -> exists y, reads K c n m y /\ reads K c' n m y).
  { intros [Q1 Q2]. destruct (R1 n ltac:(lia)) as (xs & A1 & A2 & A3). destruct (R1' n ltac:(lia)) as (xs' & A1' & A2' & A3').
    rewrite A1 in A1'. unfold str_line in A1'. do 3 apply app_inv_head in A1'.
    assert (A4 : xs = xs').
    { apply (items_inj show H xs xs' [] []).
      - intros ->. unfold zlen in A2. cbn [List.length Z.of_nat] in A2. lia.
      - intros ->. unfold zlen in A2'. cbn [List.length Z.of_nat] in A2'. rewrite <- Em in A2'. lia.
      - rewrite !app_nil_r. exact A1'. }
    subst xs'. rewrite <- Em in *. specialize (A3 m ltac:(lia)). specialize (A3' m ltac:(lia)). eexists. split; [exact A3|exact A3']. }
  split; intros Rd.
  - destruct Q as (y & Y1 & Y2); [now apply (reads_mode K c n m x)|]. apply reads_iff in Rd; auto. apply reads_iff in Y1; auto. destruct Rd as [_ ->], Y1 as [_ ->]. exact Y2.
  - destruct Q as (y & Y1 & Y2); [rewrite En, Em; now apply (reads_mode K c' n m x)|]. apply reads_iff in Rd; auto. apply reads_iff in Y2; auto. destruct Rd as [_ ->], Y2 as [_ ->]. exact Y1.
Qed.
Print Assumptions C62_str_identifies.

(** repr of a VectorCoefs shows the two sizes and nothing else. *)
Theorem C62_vector_repr : forall K (c c' : vcoefs K),
  vc_repr K c = vc_repr K c' <-> vc_nmax K c = vc_nmax K c' /\ vc_mmax K c = vc_mmax K c'.
Proof.
  intros K c c'. unfold vc_repr. split.
  - intros E. apply app_inv_head in E. cbn [lit list_ascii_of_string app] in E.
    apply fmt_int_cut in E; try reflexivity. destruct E as (En & _ & E). injection E as E.
    apply fmt_int_cut in E; try reflexivity. destruct E as (Em & _ & _). auto.
  - intros [-> ->]. reflexivity.
Qed.
Print Assumptions C62_vector_repr.

(** repr of a pattern shows its visible array(s) and nothing else. *)
Theorem C62_pattern_repr : forall K (show_array : mat K -> txt),
  (forall d d', p_array K d = p_array K d' -> sp_repr K show_array d = sp_repr K show_array d') /\
  ((forall a b, show_array a = show_array b -> a = b) -> forall d d', sp_repr K show_array d = sp_repr K show_array d' -> p_array K d = p_array K d') /\
  (forall p p', p_array K (tp_t K p) = p_array K (tp_t K p') -> p_array K (tp_p K p) = p_array K (tp_p K p') -> tp_repr K show_array p = tp_repr K show_array p') /\
  ((forall a b r r', show_array a ++ r = show_array b ++ r' -> a = b /\ r = r') -> forall p p', tp_repr K show_array p = tp_repr K show_array p' ->
     p_array K (tp_t K p) = p_array K (tp_t K p') /\ p_array K (tp_p K p) = p_array K (tp_p K p')).
Proof.
  intros K show_array. unfold sp_repr, tp_repr. split; [|split; [|split]].
  - intros d d' ->. reflexivity.
  - intros I d d' E. apply app_inv_head, app_inv_tail in E. auto.
  - intros p p' -> ->. reflexivity.
  - intros I p p' E. apply app_inv_head in E. apply I in E. destruct E as [E1 E2]. apply app_inv_head in E2. apply I in E2. split; [auto|apply E2].
Qed.
Print Assumptions C62_pattern_repr.

(** Which size is which, and which array comes first: the printed forms name
    nmax and mmax with their own values, and the theta array of a transverse
    pattern stands before the phi array. *)
Definition has_part (s t : txt) : Prop := exists a b, t = a ++ s ++ b.
Theorem C62_labels : forall K (show : cplx K -> txt) (show_array : mat K -> txt),
  (forall c, valid K c -> exists t, sc_repr K show c = Ok t /\
     has_part (lit "ScalarCoefs((nmax = " ++ fmt_int (sc_nmax K c) ++ lit ", ") t /\ has_part (lit "mmax = " ++ fmt_int (sc_mmax K c) ++ lit ")") t) /\
  (forall c, has_part (lit "VectorCoefs(nmax = " ++ fmt_int (vc_nmax K c) ++ lit ", ") (vc_repr K c) /\
     has_part (lit "mmax = " ++ fmt_int (vc_mmax K c) ++ lit ")") (vc_repr K c)) /\
  (forall d, has_part (lit "ScalarPatternUniform(" ++ show_array (p_array K d)) (sp_repr K show_array d)) /\
  (forall p, has_part (lit "(" ++ show_array (p_array K (tp_t K p)) ++ lit ", ") (tp_repr K show_array p) /\
     has_part (lit ", " ++ show_array (p_array K (tp_p K p)) ++ lit ")") (tp_repr K show_array p)).
Proof.
  intros K show show_array. unfold has_part. split; [|split; [|split]].
  - intros c V. eexists. split; [now apply sc_repr_text|]. split.
    + eexists [], (lit "mmax = " ++ _). rewrite <- !app_assoc. cbn [app]. reflexivity.
    + eexists (lit "ScalarCoefs((nmax = " ++ fmt_int (sc_nmax K c) ++ lit ", "), _. rewrite <- !app_assoc. reflexivity.
  - intros c. split.
    + eexists [], (lit "mmax = " ++ _). rewrite <- !app_assoc. cbn [app]. reflexivity.
    + eexists (lit "VectorCoefs(nmax = " ++ fmt_int (vc_nmax K c) ++ lit ", "), []. rewrite app_nil_r, <- !app_assoc. reflexivity.
  - intros d. exists [], (lit ")"). rewrite <- app_assoc. reflexivity.
  - intros p. split.
    + eexists [], _. rewrite <- !app_assoc. reflexivity.
    + eexists (lit "(" ++ show_array (p_array K (tp_t K p))), []. rewrite app_nil_r, <- !app_assoc. reflexivity.
Qed.
Print Assumptions C62_labels.

(** ** The picture of pretty_coefs *)

(** [width] characters of a line from column [k]. *)
Definition cols (line : txt) (k width : Z) : txt := firstn (Z.to_nat width) (skipn (Z.to_nat k) line).
(** [s] in the middle of a field: blanks left and right, as many on both sides
    up to one. *)
Definition centred (width : Z) (s field : txt) : Prop :=
  zlen field = width /\ exists a b, field = repeat " "%char a ++ s ++ repeat " "%char b /\ (a <= S b /\ b <= S a)%nat.

Lemma py_center_ok s : zlen s <= 13 -> centred 13 s (py_center 13 s).
Proof.
  intros H. unfold py_center, centred. pose proof (zlen_nonneg s). destruct (Z.leb_spec (13 - zlen s) 0).
  - split; [lia|]. exists O, O. cbn [repeat app]. rewrite app_nil_r. split; [auto|lia].
  - set (p := 13 - zlen s) in *.
    assert (P : Z.land (Z.land p 13) 1 = p mod 2).
    { rewrite <- Z.land_assoc. change (Z.land 13 1) with (Z.ones 1). now rewrite Z.land_ones by lia. }
    set (l := p / 2 + _). assert (L : l = p / 2 + p mod 2) by (unfold l; now rewrite P).
    pose proof (Z.div_mod p 2 ltac:(lia)). pose proof (Z.mod_pos_bound p 2 ltac:(lia)).
    split.
    + unfold zlen. rewrite !app_length, !repeat_length. unfold zlen in p. lia.
    + exists (Z.to_nat l), (Z.to_nat (p - l)). split; [reflexivity|lia].
Qed.

(** What the formatter may produce: a text s or (s), s not starting with a
    bracket, without newline. *)
Definition formats {A} (fmt2 : A -> txt) (x : A) (s : txt) : Prop :=
  (fmt2 x = s \/ fmt2 x = lit "(" ++ s ++ lit ")") /\ hd " "%char s <> "("%char /\ free (fun c => Ascii.eqb c nl) s.
Lemma tiny_rep_ok {K} (fmt2 : cplx K -> txt) x s : formats fmt2 x s -> tiny_rep K fmt2 x = s.
Proof.
  intros ([E|E] & H & _). 
  - unfold tiny_rep. rewrite E. destruct s as [|c s]; auto. cbn [hd] in H. destruct (Ascii.eqb_spec c "("%char); congruence.
  - unfold tiny_rep. rewrite E. cbn [lit list_ascii_of_string app]. rewrite Ascii.eqb_refl. apply removelast_last.
Qed.
Lemma cols_app a f b k w : zlen a = k -> zlen f = w -> cols (a ++ f ++ b) k w = f.
Proof.
  intros <- <-. unfold cols, zlen. rewrite !Nat2Z.id. rewrite skipn_app, skipn_all, Nat.sub_diag. cbn [app skipn].
  now rewrite firstn_app, firstn_all, Nat.sub_diag, app_nil_r.
Qed.
Lemma py_center_nl s : free (fun c => Ascii.eqb c nl) s -> free (fun c => Ascii.eqb c nl) (py_center 13 s).
Proof.
  intros F. unfold py_center. destruct (_ <=? 0); auto.
  apply free_app; [|apply free_app; auto]; intros c H; apply repeat_spec in H; subst; reflexivity.
Qed.
Lemma pretty_lines (sa : Z -> txt) : (forall k, free (fun c => Ascii.eqb c nl) (sa k)) ->
  split_at nl (pretty_display sa ++ [nl]) =
  [[]; []; lit "c[n, m]"; lit "======="; [];
   lit "2: " ++ sa 7 ++ lit "  " ++ sa 4 ++ lit "  " ++ sa 2 ++ lit "  " ++ sa 6 ++ lit "  " ++ sa 8 ++ lit " ";
   lit "1:                " ++ sa 3 ++ lit "  " ++ sa 1 ++ lit "  " ++ sa 5 ++ lit " ";
   lit "0:                               " ++ sa 0 ++ lit "   ";
   lit "n  -------------  -------------  -------------  -------------  -------------  ";
   lit "       m = -2         m = -1         m = 0          m = 1          m = 2        "; []; []].
Proof.
  intros F. rewrite <- split_join.
  - f_equal. unfold pretty_display. cbn [join]. rewrite <- !app_assoc. cbn [app]. reflexivity.
  - intros y Hy. cbn [In] in Hy.
    repeat match goal with H : _ \/ _ |- _ => destruct H as [<-|Hy] | H : False |- _ => destruct H end;
    repeat first [apply F | now apply lit_free | apply free_app | intros c []].
Qed.

(** A cell: the text between blanks. *)
Definition cell_of (s field : txt) : Prop := exists a b, field = repeat " "%char a ++ s ++ repeat " "%char b.
Lemma py_center_cell s : cell_of s (py_center 13 s).
Proof.
  unfold py_center, cell_of. destruct (_ <=? 0).
  - exists O, O. cbn [repeat app]. now rewrite app_nil_r.
  - eauto.
Qed.

(** pretty_coefs(c), whatever the numbers look like: the row labelled n lists
    c[n,-n], ..., c[n,n] in this order; modes with |m| > mmax are blank. *)
Definition shows {K} (tiny : cplx K -> txt) (c : scoefs K) (n m : Z) (s : txt) : Prop :=
  (forall x, reads K c n m x -> s = tiny x) /\ (sc_mmax K c < Z.abs m -> s = []).

Lemma pretty_table {K} (fmt2 : cplx K -> txt) (tiny : cplx K -> txt) (c : scoefs K) :
  (forall n m x, n <= 2 -> reads K c n m x -> formats fmt2 x (tiny x)) -> valid K c -> 2 <= sc_nmax K c ->
  exists sa, pretty_coefs K fmt2 c = Ok (pretty_display sa ++ [nl]) /\ (forall k, free (fun c => Ascii.eqb c nl) (sa k)) /\
    forall n m k, pretty_slot n m = Some k -> exists s, sa k = py_center 13 s /\ shows tiny c n m s.
Proof.
  intros F V Hn. pose proof V as W. apply valid_wf in W.
  destruct (pretty_cells_ok K (tiny_rep K fmt2) [] (py_center 13) c W Hn) as (cells & E & L & HV).
  unfold pretty_coefs. rewrite E. cbn [bind].
  pose (sa := fun k => vget [] cells k). exists sa. split; [reflexivity|].
  assert (B2 : forall n m k, pretty_slot n m = Some k -> n <= 2).
  { intros n m k H. destruct n as [|[[]|[]|]|]; try discriminate; lia. }
  assert (P : forall n m k, pretty_slot n m = Some k -> exists s, sa k = py_center 13 s /\ free (fun c => Ascii.eqb c nl) s /\ shows tiny c n m s).
  { intros n m k Hk. specialize (HV n m k Hk). change (vget [] cells k) with (sa k) in HV.
    destruct (is_modeb (sc_nmax K c) (sc_mmax K c) n m) eqn:B.
    - apply is_modeb_spec in B. specialize (F n m (cval K c n m) (B2 n m k Hk) (reads_cval K c n m V B)).
      rewrite (tiny_rep_ok fmt2 _ _ F) in HV. cbv beta in HV.
      exists (tiny (cval K c n m)). rewrite HV. split; [reflexivity|]. split; [apply F|].
      split; [|intros Q; unfold is_mode in B; lia]. intros x R. apply reads_iff in R; auto. destruct R as [_ ->]. reflexivity.
    - exists []. split; [exact HV|]. split; [intros q []|]. split; [|auto]. intros x R. apply reads_mode in R.
      apply is_modeb_spec in R. congruence. }
  split.
  - intros k. destruct (Z_lt_le_dec k 0) as [Q|Q].
    + unfold sa, vget. destruct (Z.ltb_spec k 0); [intros q []|lia].
    + destruct (Z_lt_le_dec k 9) as [Q2|Q2].
      * assert (exists n m, pretty_slot n m = Some k) as (n & m & S).
        { assert (T : k = 0 \/ k = 1 \/ k = 2 \/ k = 3 \/ k = 4 \/ k = 5 \/ k = 6 \/ k = 7 \/ k = 8) by lia.
          destruct T as [->|[->|[->|[->|[->|[->|[->|[->| ->]]]]]]]].
          - now exists 0, 0. - now exists 1, 0. - now exists 2, 0. - now exists 1, (-1). - now exists 2, (-1). - now exists 1, 1. - now exists 2, 1. - now exists 2, (-2). - now exists 2, 2. }
        destruct (P n m k S) as (s & S1 & S2 & _). rewrite S1. now apply py_center_nl.
      * unfold sa, vget. destruct (Z.ltb_spec k 0); [intros q []|]. rewrite nth_overflow by (unfold zlen, txt in *; lia). intros q [].
  - intros n m k Hk. destruct (P n m k Hk) as (s & S1 & _ & S2). eauto.
Qed.

Theorem C62_picture_rows : forall K (fmt2 : cplx K -> txt) (tiny : cplx K -> txt) (c : scoefs K),
  (forall n m x, n <= 2 -> reads K c n m x -> formats fmt2 x (tiny x)) -> valid K c -> 2 <= sc_nmax K c ->
  exists t, pretty_coefs K fmt2 c = Ok t /\ forall n, 0 <= n <= 2 ->
    exists cells, vget [] (split_at nl t) (7 - n) =
        fmt_int n ++ lit ":" ++ repeat " "%char (Z.to_nat (1 + 15 * (2 - n))) ++ join (lit "  ") cells ++ repeat " "%char (Z.to_nat (if n =? 0 then 3 else 1)) /\
      zlen cells = 2 * n + 1 /\
      forall m, - n <= m <= n -> exists s, cell_of s (vget [] cells (m + n)) /\ shows tiny c n m s.
Proof.
  intros K fmt2 tiny c F V Hn. destruct (pretty_table fmt2 tiny c F V Hn) as (sa & E & Fs & P).
  eexists. split; [exact E|]. rewrite (pretty_lines sa Fs).
  assert (A : forall n m k, pretty_slot n m = Some k -> exists s, cell_of s (sa k) /\ shows tiny c n m s).
  { intros n m k Hk. destruct (P n m k Hk) as (s & S1 & S2). exists s. rewrite S1. split; [apply py_center_cell|auto]. }
  intros n Hn2. assert (Q : n = 0 \/ n = 1 \/ n = 2) by lia. destruct Q as [->|[->| ->]].
  - exists [sa 0]. split; [reflexivity|]. split; [reflexivity|]. intros m Hm. assert (m = 0) as -> by lia. now apply (A 0 0 0).
  - exists [sa 3; sa 1; sa 5]. split; [cbn [join]; rewrite <- !app_assoc; reflexivity|]. split; [reflexivity|]. intros m Hm.
    assert (Q : m = -1 \/ m = 0 \/ m = 1) by lia. destruct Q as [->|[->| ->]]; [now apply (A 1 (-1) 3)|now apply (A 1 0 1)|now apply (A 1 1 5)].
  - exists [sa 7; sa 4; sa 2; sa 6; sa 8]. split; [cbn [join]; rewrite <- !app_assoc; reflexivity|]. split; [reflexivity|]. intros m Hm.
    assert (Q : m = -2 \/ m = -1 \/ m = 0 \/ m = 1 \/ m = 2) by lia.
    destruct Q as [->|[->|[->|[->| ->]]]]; [now apply (A 2 (-2) 7)|now apply (A 2 (-1) 4)|now apply (A 2 0 2)|now apply (A 2 1 6)|now apply (A 2 2 8)].
Qed.
Print Assumptions C62_picture_rows.

(** When the texts have at most 13 characters, c[n,m] is centred in the 13
    characters above the dashes over the label m. *)
Theorem C62_picture : forall K (fmt2 : cplx K -> txt) (tiny : cplx K -> txt) (c : scoefs K),
  (forall n m x, n <= 2 -> reads K c n m x -> formats fmt2 x (tiny x) /\ zlen (tiny x) <= 13) -> valid K c -> 2 <= sc_nmax K c ->
  exists t, pretty_coefs K fmt2 c = Ok t /\
  let line := vget [] (split_at nl t) in
  forall n m, 0 <= n <= 2 -> Z.abs m <= n ->
    cols (line (7 - n)) 0 2 = fmt_int n ++ lit ":" /\
    cols (line 8) (3 + 15 * (m + 2)) 13 = lit "-------------" /\
    cols (line 9) (7 + 15 * (m + 2)) (zlen (lit "m = " ++ fmt_int m)) = lit "m = " ++ fmt_int m /\
    exists s, centred 13 s (cols (line (7 - n)) (3 + 15 * (m + 2)) 13) /\ shows tiny c n m s.
Proof.
  intros K fmt2 tiny c F V Hn. destruct (pretty_table fmt2 tiny c (fun n m x H1 H2 => proj1 (F n m x H1 H2)) V Hn) as (sa & E & Fs & P0).
  eexists. split; [exact E|]. cbv zeta.
  assert (P : forall n m k, 0 <= n <= 2 -> Z.abs m <= n -> pretty_slot n m = Some k -> exists s, centred 13 s (sa k) /\ shows tiny c n m s).
  { intros n m k Hn2 Hm Hk. destruct (P0 n m k Hk) as (s & S1 & S2). exists s. rewrite S1. split; [|exact S2]. apply py_center_ok.
    pose proof V as W. apply valid_wf in W. destruct W as [[Hg1 Hg2] Hl].
    destruct (Z_lt_le_dec (sc_mmax K c) (Z.abs m)) as [Q|Q].
    - rewrite (proj2 S2 Q). discriminate.
    - pose proof (reads_cval K c n m V ltac:(unfold is_mode; lia)) as R. rewrite (proj1 S2 _ R). apply (F n m _ ltac:(lia) R). }
  assert (C : forall k, 0 <= k < 9 -> zlen (sa k) = 13).
  { intros k Hk. assert (exists n m, 0 <= n <= 2 /\ Z.abs m <= n /\ pretty_slot n m = Some k) as (n & m & H1 & H2 & S).
    { assert (Q : k = 0 \/ k = 1 \/ k = 2 \/ k = 3 \/ k = 4 \/ k = 5 \/ k = 6 \/ k = 7 \/ k = 8) by lia.
      destruct Q as [->|[->|[->|[->|[->|[->|[->|[->| ->]]]]]]]];
      [exists 0, 0|exists 1, 0|exists 2, 0|exists 1, (-1)|exists 2, (-1)|exists 1, 1|exists 2, 1|exists 2, (-2)|exists 2, 2]; (split; [lia|split; [lia|reflexivity]]). }
    destruct (P n m k H1 H2 S) as (s & [S1 _] & _). auto. }
  rewrite (pretty_lines sa Fs).
  intros n m Hn2 Hm.
  assert (Q : (n = 0 /\ m = 0) \/ (n = 1 /\ (m = -1 \/ m = 0 \/ m = 1)) \/
         (n = 2 /\ (m = -2 \/ m = -1 \/ m = 0 \/ m = 1 \/ m = 2))) by lia.
  assert (A : forall k a b line, pretty_slot n m = Some k -> line = a ++ sa k ++ b -> zlen a = 3 + 15 * (m + 2) ->
     exists s, centred 13 s (cols line (3 + 15 * (m + 2)) 13) /\ shows tiny c n m s).
  { intros k a b line Hk -> Ha. destruct (P n m k Hn2 Hm Hk) as (s & S1 & S3). exists s. split; [|exact S3].
    rewrite cols_app; auto. apply S1. }
  assert (Z9 : forall k, 0 <= k < 9 -> List.length (sa k) = 13%nat).
  { intros k Hk. pose proof (C k Hk) as C1. unfold zlen in C1. lia. }
  destruct Q as [[-> ->]|[[-> [->|[->| ->]]]|[-> [->|[->|[->|[->| ->]]]]]]];
    (split; [reflexivity|]); (split; [reflexivity|]); (split; [reflexivity|]).
  - apply (A 0 (lit "0:                               ") (lit "   ")); reflexivity.
  - apply (A 3 (lit "1:                ") (lit "  " ++ sa 1 ++ lit "  " ++ sa 5 ++ lit " ")); reflexivity.
  - apply (A 1 (lit "1:                " ++ sa 3 ++ lit "  ") (lit "  " ++ sa 5 ++ lit " ")); [reflexivity| |].
    + rewrite <- !app_assoc. reflexivity.
    + unfold zlen. rewrite !app_length, !Z9 by lia. reflexivity.
  - apply (A 5 (lit "1:                " ++ sa 3 ++ lit "  " ++ sa 1 ++ lit "  ") (lit " ")); [reflexivity| |].
    + rewrite <- !app_assoc. reflexivity.
    + unfold zlen. rewrite !app_length, !Z9 by lia. reflexivity.
  - apply (A 7 (lit "2: ") (lit "  " ++ sa 4 ++ lit "  " ++ sa 2 ++ lit "  " ++ sa 6 ++ lit "  " ++ sa 8 ++ lit " ")); reflexivity.
  - apply (A 4 (lit "2: " ++ sa 7 ++ lit "  ") (lit "  " ++ sa 2 ++ lit "  " ++ sa 6 ++ lit "  " ++ sa 8 ++ lit " ")); [reflexivity| |].
    + rewrite <- !app_assoc. reflexivity.
    + unfold zlen. rewrite !app_length, !Z9 by lia. reflexivity.
  - apply (A 2 (lit "2: " ++ sa 7 ++ lit "  " ++ sa 4 ++ lit "  ") (lit "  " ++ sa 6 ++ lit "  " ++ sa 8 ++ lit " ")); [reflexivity| |].
    + rewrite <- !app_assoc. reflexivity.
    + unfold zlen. rewrite !app_length, !Z9 by lia. reflexivity.
  - apply (A 6 (lit "2: " ++ sa 7 ++ lit "  " ++ sa 4 ++ lit "  " ++ sa 2 ++ lit "  ") (lit "  " ++ sa 8 ++ lit " ")); [reflexivity| |].
    + rewrite <- !app_assoc. reflexivity.
    + unfold zlen. rewrite !app_length, !Z9 by lia. reflexivity.
  - apply (A 8 (lit "2: " ++ sa 7 ++ lit "  " ++ sa 4 ++ lit "  " ++ sa 2 ++ lit "  " ++ sa 6 ++ lit "  ") (lit " ")); [reflexivity| |].
    + rewrite <- !app_assoc. reflexivity.
    + unfold zlen. rewrite !app_length, !Z9 by lia. reflexivity.
Qed.
Print Assumptions C62_picture.

(** ** Concrete cases *)

(** Integer "complex numbers" printed as a+bj. *)
Definition ex_show (x : cplx ZN) : txt := fmt_int (fst x : Z) ++ lit "+" ++ fmt_int (snd x : Z) ++ lit "j".
Lemma fmt_int_nochar z k : is_digit k = false -> k <> "-"%char -> free (fun c => Ascii.eqb c k) (fmt_int z).
Proof.
  intros D M c H. rewrite fmt_int_sgn in H. destruct (Ascii.eqb_spec c k) as [->|]; auto. exfalso.
  apply in_app_or in H as [H|H].
  - destruct (z <? 0); cbn in H; [destruct H as [<-|[]]; congruence|destruct H].
  - apply digs_digits in H. congruence.
Qed.
Lemma ex_show_readable : readable ex_show.
Proof.
  split.
  - intros x. unfold ex_show.
    assert (F : forall z, free (fun c => Ascii.eqb c "," || Ascii.eqb c "]" || Ascii.eqb c nl) (fmt_int z)).
    { intros z c H. rewrite (fmt_int_nochar z ","%char) by (auto; discriminate). rewrite (fmt_int_nochar z "]"%char) by (auto; discriminate).
      rewrite (fmt_int_nochar z nl) by (auto; discriminate). reflexivity. }
    apply free_app; [apply F|]. apply free_app; [intros c [<-|[]]; reflexivity|]. apply free_app; [apply F|]. intros c [<-|[]]; reflexivity.
  - intros [a b] [a' b'] E. unfold ex_show in E. cbn [fst snd] in E.
    apply (cut_unique (fun c => Ascii.eqb c "+")) in E; try reflexivity; try (apply fmt_int_nochar; [reflexivity|discriminate]).
    destruct E as (E1 & _ & E2). apply fmt_int_inj in E1. apply app_inv_tail in E2. apply fmt_int_inj in E2. now subst.
Qed.
Example C62_nonvacuous : readable ex_show /\ valid ZN ex_c /\
  sc_repr ZN ex_show ex_c = Ok (lit "ScalarCoefs((nmax = 2, mmax = 1) , [[1+0j], [4+0j, 2+0j, 6+0j], [5+0j, 3+0j, 7+0j]] )").
Proof. split; [exact ex_show_readable|]. split; [exact ex_valid|]. vm_compute. reflexivity. Qed.
Example C62_nonvacuous_picture :
  let fmt := fun x => lit "(" ++ ex_show x ++ lit ")" in
  (forall n m x, n <= 2 -> reads ZN ex_c n m x -> formats fmt x (ex_show x) /\ zlen (ex_show x) <= 13) /\
  exists t, pretty_coefs ZN fmt ex_c = Ok t /\ cols (vget [] (split_at nl t) 5) 18 13 = lit "     5+0j    ".
Proof.
  cbv zeta. split.
  - intros n m x _ R. apply reads_iff in R; [|exact ex_valid]. destruct R as [[M1 M2] ->]. cbn [ex_c sc_nmax sc_mmax] in M1, M2.
    assert (N : n = 0 \/ n = 1 \/ n = 2) by lia. assert (M : m = -1 \/ m = 0 \/ m = 1) by lia.
    assert (S : free (fun c => Ascii.eqb c nl) (ex_show (cval ZN ex_c n m))).
    { apply (free_weaken stop3); [|apply ex_show_readable]. intros q Eq. unfold stop3. rewrite Eq, !orb_true_r. reflexivity. }
    split; [split; [now right|split; [|exact S]]|];
    destruct N as [->|[->| ->]]; destruct M as [->|[->| ->]]; try lia; vm_compute; discriminate.
  - eexists. split; [vm_compute; reflexivity|]. vm_compute. reflexivity.
Qed.
