(** * TextFacts: what the text conversions of MText do to text written by
    file.py. *)
From Coq Require Import ZArith List Bool Ascii String SpecFloat Lia.
From Verif Require Import Py PyFacts Num FloatN MText.
Import ListNotations.
Open Scope Z_scope.

Lemma code_chr z : 0 <= z < 256 -> code (chr z) = z.
Proof.
  intros H. unfold code, chr. rewrite N_ascii_embedding by lia. lia.
Qed.

Lemma code_dch d : 0 <= d <= 9 -> code (dch d) = 48 + d.
Proof. intros; unfold dch; apply code_chr; lia. Qed.

Lemma is_digit_dch d : 0 <= d <= 9 -> is_digit (dch d) = true.
Proof. intros H; unfold is_digit; rewrite code_dch by auto. apply andb_true_intro; split; apply Z.leb_le; lia. Qed.

Definition digits (l : txt) : Prop := forall c, In c l -> is_digit c = true.

Lemma digs_digits w : forall z, digits (digs w z).
Proof.
  induction w as [|w IH]; intros z c H; cbn [digs] in H; [destruct H|].
  apply in_app_or in H as [H|[<-|[]]]; [apply (IH _ _ H)|].
  apply is_digit_dch. pose proof (Z.mod_pos_bound z 10). lia.
Qed.

Lemma digs_length w : forall z, List.length (digs w z) = w.
Proof. induction w as [|w IH]; intros z; cbn [digs]; [reflexivity|]. rewrite app_length, IH. cbn. lia. Qed.

Lemma dval_app a b : dval (a ++ b) = fold_left (fun a c => 10 * a + (code c - 48)) b (dval a).
Proof. unfold dval. apply fold_left_app. Qed.

Lemma dval_acc b : forall x, fold_left (fun a c => 10 * a + (code c - 48)) b x = x * 10 ^ zlen b + dval b.
Proof.
  induction b as [|c b IH]; intros x.
  - cbn. change (zlen (@nil ascii)) with 0. unfold dval; cbn. lia.
  - unfold dval. cbn [fold_left]. rewrite !IH. 
    replace (zlen (c :: b)) with (zlen b + 1) by (unfold zlen; cbn [List.length]; lia).
    rewrite Z.pow_add_r by (unfold zlen; lia). lia.
Qed.

Lemma dval_app' a b : dval (a ++ b) = dval a * 10 ^ zlen b + dval b.
Proof. rewrite dval_app. apply dval_acc. Qed.

Lemma dval_digs w : forall z, 0 <= z < 10 ^ Z.of_nat w -> dval (digs w z) = z.
Proof.
  induction w as [|w IH]; intros z H; cbn [digs].
  - cbn in H. unfold dval; cbn. lia.
  - rewrite dval_app'. change (zlen [dch (z mod 10)]) with 1.
    rewrite IH.
    + unfold dval; cbn [fold_left]. pose proof (Z.mod_pos_bound z 10). rewrite code_dch by lia.
      pose proof (Z.div_mod z 10). lia.
    + rewrite Nat2Z.inj_succ, Z.pow_succ_r in H by lia.
      split; [apply Z.div_pos; lia|apply Z.div_lt_upper_bound; lia].
Qed.

Lemma ndig_fuel_spec f : forall z, 0 <= z < 2 ^ (Z.of_nat f + 1) -> z < 10 ^ Z.of_nat (ndig_fuel f z).
Proof.
  induction f as [|f IH]; intros z H; cbn [ndig_fuel].
  - cbn in *. lia.
  - destruct (Z.ltb_spec z 10); [cbn; lia|].
    rewrite Nat2Z.inj_succ, Z.pow_succ_r by lia.
    assert (z / 10 < 10 ^ Z.of_nat (ndig_fuel f (z / 10))).
    { apply IH. split; [apply Z.div_pos; lia|]. apply Z.div_lt_upper_bound; [lia|].
      replace (Z.of_nat (S f) + 1) with (Z.succ (Z.of_nat f + 1)) in H by lia.
      rewrite Z.pow_succ_r in H by lia. lia. }
    pose proof (Z.div_mod z 10). pose proof (Z.mod_pos_bound z 10). lia.
Qed.

Lemma ndig_spec z : 0 <= z -> z < 10 ^ Z.of_nat (ndig z).
Proof.
  intros H. apply ndig_fuel_spec. split; [lia|].
  rewrite Z2Nat.id by apply Z.log2_nonneg.
  destruct (Z.eq_dec z 0) as [->|]; [cbn; lia|].
  rewrite Z.add_1_r. apply Z.log2_spec; lia.
Qed.

Lemma ndig_pos z : (1 <= ndig z)%nat.
Proof. unfold ndig. destruct (Z.to_nat _); cbn; [lia|]. destruct (z <? 10); lia. Qed.

Lemma span_digits_app a c r : digits a -> is_digit c = false -> span_digits (a ++ c :: r) = (a, c :: r).
Proof.
  induction a as [|x a IH]; intros D N; cbn [span_digits app].
  - rewrite N; reflexivity.
  - rewrite (D x (or_introl eq_refl)), IH; auto. intros y Hy; apply D; right; auto.
Qed.
Lemma span_digits_all a : digits a -> span_digits a = (a, []).
Proof.
  induction a as [|x a IH]; intros D; cbn [span_digits]; auto.
  rewrite (D x (or_introl eq_refl)), IH; auto. intros y Hy; apply D; right; auto.
Qed.

Lemma digit_facts c : is_digit c = true ->
  is_space c = false /\ Ascii.eqb c "-"%char = false /\ Ascii.eqb c "+"%char = false /\
  Ascii.eqb c "."%char = false /\ Ascii.eqb c comma = false /\ Ascii.eqb c nl = false /\
  Ascii.eqb c cr = false /\ lower c = c /\ Ascii.eqb c "i"%char = false /\ Ascii.eqb c "n"%char = false.
Proof.
  intros H. destruct c as [[] [] [] [] [] [] [] []]; cbv in H; try discriminate H; repeat split; reflexivity.
Qed.

(** Text without white space. *)
Definition solid (l : txt) : Prop := forall c, In c l -> is_space c = false.
Lemma digits_solid l : digits l -> solid l.
Proof. intros D c H. apply digit_facts, D, H. Qed.
Lemma solid_app a b : solid a -> solid b -> solid (a ++ b).
Proof. intros A B c H. apply in_app_or in H as [H|H]; auto. Qed.
Lemma solid_cons c l : is_space c = false -> solid l -> solid (c :: l).
Proof. intros A B x [<-|H]; auto. Qed.
Lemma solid_nil : solid [].
Proof. intros c []. Qed.
Lemma lstrip_solid l : solid l -> lstrip l = l.
Proof. destruct l as [|c l]; cbn; auto. intros S. rewrite (S c) by (left; auto). reflexivity. Qed.
Lemma solid_rev l : solid l -> solid (rev l).
Proof. intros S c H. apply S, in_rev, H. Qed.

Lemma lstrip_spaces_app w l : (forall c, In c w -> is_space c = true) -> lstrip (w ++ l) = lstrip l.
Proof.
  induction w as [|c w IH]; intros W; cbn [app lstrip]; auto.
  rewrite (W c) by (left; auto). apply IH. intros; apply W; right; auto.
Qed.

(** Surrounding white space is ignored. *)
Lemma strip_pad a l b : (forall c, In c a -> is_space c = true) -> (forall c, In c b -> is_space c = true) ->
  solid l -> l <> [] -> strip (a ++ l ++ b) = l.
Proof.
  intros A B S N. unfold strip. rewrite lstrip_spaces_app by auto.
  destruct l as [|c l]; [congruence|].
  replace (lstrip ((c :: l) ++ b)) with ((c :: l) ++ b).
  2:{ cbn [app lstrip]. rewrite (S c) by (left; auto). reflexivity. }
  rewrite rev_app_distr, lstrip_spaces_app.
  2:{ intros x Hx; apply B, in_rev, Hx. }
  rewrite lstrip_solid by (apply solid_rev, S). apply rev_involutive.
Qed.
Lemma strip_solid l : solid l -> strip l = l.
Proof.
  intros S. unfold strip. rewrite (lstrip_solid l S), lstrip_solid by (apply solid_rev, S).
  apply rev_involutive.
Qed.

Lemma sgn_txt_solid s : solid (sgn_txt s).
Proof. destruct s; cbn; [apply solid_cons; [reflexivity|]|]; apply solid_nil. Qed.

Lemma fmt_exp_solid E : solid (fmt_exp E).
Proof.
  unfold fmt_exp. apply solid_cons; [reflexivity|]. apply solid_cons; [destruct (E <? 0); reflexivity|].
  apply digits_solid, digs_digits.
Qed.
Lemma fmt_dec17_solid s D E : 0 <= D < 10 ^ 17 -> solid (fmt_dec17 s D E).
Proof.
  intros H. unfold fmt_dec17. apply solid_app; [apply sgn_txt_solid|].
  assert (0 <= D / 10 ^ 16 <= 9).
  { split; [apply Z.div_pos; lia|]. assert (D / 10 ^ 16 < 10) by (apply Z.div_lt_upper_bound; lia). lia. }
  apply solid_cons; [apply digit_facts, is_digit_dch; auto|].
  apply solid_cons; [reflexivity|]. apply solid_app; [apply digits_solid, digs_digits|apply fmt_exp_solid].
Qed.

Lemma digs_ex w z : (1 <= w)%nat -> exists d ds, digs w z = d :: ds.
Proof.
  intros H. pose proof (digs_length w z) as L. destruct (digs w z) as [|d ds]; cbn in L; [lia|eauto].
Qed.

Lemma parse_fmt_exp E : parse_exp (fmt_exp E) = Some E.
Proof.
  unfold fmt_exp, parse_exp. change (Ascii.eqb (lower "e"%char) "e"%char) with true. cbn iota.
  set (w := Nat.max 2 (ndig (Z.abs E))).
  assert (V : dval (digs w (Z.abs E)) = Z.abs E).
  { apply dval_digs. split; [lia|]. eapply Z.lt_le_trans; [apply ndig_spec; lia|].
    apply Z.pow_le_mono_r; unfold w; lia. }
  destruct (digs_ex w (Z.abs E)) as (d & ds & Ed); [unfold w; lia|].
  pose proof (span_digits_all _ (digs_digits w (Z.abs E))) as SP.
  rewrite Ed in *.
  destruct (Z.ltb_spec E 0).
  all: change (split_sign ("-"%char :: d :: ds)) with (true, d :: ds).
  all: change (split_sign ("+"%char :: d :: ds)) with (false, d :: ds).
  all: cbv beta iota; rewrite SP; cbv beta iota.
  - f_equal. rewrite V. lia.
  - f_equal. rewrite V. lia.
Qed.

Lemma split_sign_txt s c r : is_digit c = true -> split_sign (sgn_txt s ++ c :: r) = (s, c :: r).
Proof.
  intros H. apply digit_facts in H as (_ & M & P & _).
  destruct s; cbn [sgn_txt app split_sign]; [reflexivity|]. rewrite M, P. reflexivity.
Qed.

(** float() of padded .16e text. *)
Lemma parse_dec17 a b s D E :
  (forall c, In c a -> is_space c = true) -> (forall c, In c b -> is_space c = true) ->
  0 <= D < 10 ^ 17 ->
  parse_float (a ++ fmt_dec17 s D E ++ b) = Ok (dec2f s D (E - 16)).
Proof.
  intros A B H. unfold parse_float.
  rewrite strip_pad; auto; [|apply fmt_dec17_solid; auto|destruct s; discriminate].
  unfold fmt_dec17.
  assert (HD : 0 <= D / 10 ^ 16 <= 9).
  { split; [apply Z.div_pos; lia|]. assert (D / 10 ^ 16 < 10) by (apply Z.div_lt_upper_bound; lia). lia. }
  rewrite split_sign_txt by (apply is_digit_dch; auto).
  pose proof (is_digit_dch _ HD) as Dig.
  pose proof (digit_facts _ Dig) as (_ & _ & _ & _ & _ & _ & _ & Lo & Ni & Nn).
  set (tail := "."%char :: _).
  cbn [map]. rewrite Lo. cbn [lit list_ascii_of_string txt_eqb].
  rewrite Ni, Nn. cbn [andb orb].
  unfold tail.
  change (dch (D / 10 ^ 16) :: "."%char :: digs 16 (D mod 10 ^ 16) ++ fmt_exp E)
    with ([dch (D / 10 ^ 16)] ++ "."%char :: digs 16 (D mod 10 ^ 16) ++ fmt_exp E).
  rewrite span_digits_app; [|intros c [<-|[]]; auto|reflexivity].
  change (Ascii.eqb "."%char "."%char) with true. cbn iota.
  unfold fmt_exp at 1. rewrite span_digits_app; [|apply digs_digits|reflexivity].
  cbn [app]. fold (fmt_exp E). rewrite parse_fmt_exp.
  f_equal. f_equal.
  change (dch (D / 10 ^ 16) :: digs 16 (D mod 10 ^ 16)) with ([dch (D / 10 ^ 16)] ++ digs 16 (D mod 10 ^ 16)).
    rewrite dval_app'. 
    replace (zlen (digs 16 (D mod 10 ^ 16))) with 16 by (unfold zlen; rewrite digs_length; reflexivity).
    rewrite dval_digs by (apply Z.mod_pos_bound; lia).
    unfold dval; cbn [fold_left]. rewrite code_dch by auto.
    pose proof (Z.div_mod D (10 ^ 16)). lia.
Qed.

(** int() of padded integer text. *)
Lemma fmt_nat_solid z : solid (fmt_nat z).
Proof. apply digits_solid, digs_digits. Qed.
Lemma fmt_int_solid z : solid (fmt_int z).
Proof. unfold fmt_int. destruct (z <? 0); [apply solid_cons; [reflexivity|]|]; apply fmt_nat_solid. Qed.

Lemma fmt_int_sgn z : fmt_int z = sgn_txt (z <? 0) ++ fmt_nat (Z.abs z).
Proof. unfold fmt_int. destruct (Z.ltb_spec z 0); cbn [sgn_txt app]; f_equal; f_equal; lia. Qed.

Lemma parse_fmt_int a b z :
  (forall c, In c a -> is_space c = true) -> (forall c, In c b -> is_space c = true) ->
  parse_int (a ++ fmt_int z ++ b) = Ok z.
Proof.
  intros A B. unfold parse_int.
  assert (V : dval (fmt_nat (Z.abs z)) = Z.abs z).
  { apply dval_digs. split; [lia|]. apply ndig_spec; lia. }
  pose proof (digs_digits (ndig (Z.abs z)) (Z.abs z)) as DD. fold (fmt_nat (Z.abs z)) in DD.
  destruct (digs_ex (ndig (Z.abs z)) (Z.abs z) (ndig_pos _)) as (d & ds & Ed).
  fold (fmt_nat (Z.abs z)) in Ed.
  rewrite strip_pad; auto; [|apply fmt_int_solid|].
  2:{ rewrite fmt_int_sgn, Ed. destruct (z <? 0); discriminate. }
  rewrite fmt_int_sgn, Ed.
  rewrite split_sign_txt by (apply DD; rewrite Ed; left; auto).
  rewrite <- Ed. rewrite span_digits_all by auto. rewrite Ed. rewrite <- Ed.
  rewrite V. f_equal. destruct (Z.ltb_spec z 0); lia.
Qed.
