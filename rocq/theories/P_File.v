(** * P_File: properties C37-C41 of file.py (binary64 values, ASCII text). *)
From Coq Require Import ZArith List Bool Ascii String SpecFloat Reals Lia Lra.
From Flocq Require Import Core.Core IEEE754.BinarySingleNaN.
From Verif Require Import Py PyFacts Num MCoefs SpecCoefs Obs MPatt CoefsFacts CoefsFacts2 CoefsFacts3 FloatN MText TextFacts FloatText MFile SpecFile SpecPatt FileFacts FileFacts2.
Import ListNotations.
Open Scope Z_scope.

(** ** C39 *)

(** float("{:.16e}".format(x)) == x, bit for bit, for every finite double
    (subnormals, powers of two and both zeros included), with any
    surrounding white space. *)
Theorem C39_text_identifies_double : forall (x : f64) (before after : txt), fin64 x ->
  (forall c, In c before -> is_space c = true) -> (forall c, In c after -> is_space c = true) ->
  parse_float (before ++ fmt_e16 x ++ after) = Ok x.
Proof.
  intros x a b F A B. apply fmt_parse; auto; [apply F|apply fin64_is_fin, F].
Qed.
Print Assumptions C39_text_identifies_double.

(** The conversion of decimal text used in that statement is the correctly
    rounded one: nearest double, ties to even, infinity beyond the range. *)
Theorem C39_float_is_nearest : forall (neg : bool) (D k : Z), 0 < D ->
  let v := ((if neg then -1 else 1) * IZR D * bpow r10 k)%R in
  let r := round radix2 (FLT_exp (-1074) 53) ZnearestE v in
  ((Rabs r < bpow radix2 1024)%R -> SF2R radix2 (dec2f neg D k) = r /\ fin64 (dec2f neg D k)) /\
  ((bpow radix2 1024 <= Rabs r)%R -> dec2f neg D k = S754_infinity neg).
Proof.
  intros neg D k HD. cbv zeta. destruct D as [|p|p]; try lia.
  cbn [dec2f]. unfold SFdiv.
  assert (P1 : 0 < Zpos p * ppow 10 k) by (apply Z.mul_pos_pos; [lia|apply ppow_pos; lia]).
  assert (P2 : 0 < ppow 10 (- k)) by (apply ppow_pos; lia).
  generalize (Bdiv_correct_aux 53 1024 prec53 pe53 mode_NE neg (Z.to_pos (Zpos p * ppow 10 k)) 0 false (Z.to_pos (ppow 10 (- k))) 0).
  cbv zeta. rewrite !Z2Pos.id by lia.
  destruct (SFdiv_core_binary _ _ _ _ _ _) as [[mz ez] lz].
  rewrite <- round_aux_same.
  set (z := SpecFloat.binary_round_aux _ _ _ _ _ _).
  intros [Vz Hz].
  assert (EQ : (F2R (Float radix2 (SpecFloat.cond_Zopp neg (Z.pos p * ppow 10 k)) 0)
            / F2R (Float radix2 (SpecFloat.cond_Zopp false (ppow 10 (- k))) 0)
        = (if neg then -1 else 1) * IZR (Z.pos p) * bpow r10 k)%R).
  { rewrite <- (ppow_bpow r10). change (radix_val r10) with 10. unfold F2R. cbn [Fnum Fexp bpow].
    destruct neg; cbn [SpecFloat.cond_Zopp]; rewrite ?opp_IZR, ?mult_IZR; field; apply not_0_IZR; lia. }
  rewrite EQ in Hz. change (SpecFloat.fexp 53 1024) with (FLT_exp (-1074) 53) in Hz.
  change (round_mode mode_NE) with ZnearestE in Hz.
  split; intros H.
  - rewrite Rlt_bool_true in Hz by auto. destruct Hz as (H1 & H2 & H3). split; [exact H1|].
    split; [exact Vz|]. fold z. destruct z; auto; discriminate H2.
  - rewrite Rlt_bool_false in Hz by auto. fold z. rewrite Hz. destruct neg; reflexivity.
Qed.
Print Assumptions C39_float_is_nearest.

(** 0.1, the smallest subnormal and the largest double, as the file shows them. *)
Example C39_nonvacuous :
  fin64 (fdiv (fofZ 1) (fofZ 10)) /\ fin64 (S754_finite true 1 (-1074)) /\
  fmt_e16 (fdiv (fofZ 1) (fofZ 10)) = lit "1.0000000000000001e-01" /\
  fmt_e16 (S754_finite true 1 (-1074)) = lit "-4.9406564584124654e-324" /\
  fmt_e16 (S754_finite false 9007199254740991 971) = lit "1.7976931348623157e+308" /\
  parse_float (lit " 1.0e-1") = Ok (fdiv (fofZ 1) (fofZ 10)).
Proof. vm_compute. repeat split; reflexivity. Qed.

(** ** C37 *)

Definition fin_coefs (c : scoefs FN) : Prop := forall x, In x (sc_vec FN c) -> fin_c x.

Lemma vget_In {A} (d : A) v i : 0 <= i < zlen v -> In (vget d v i) v.
Proof.
  intros H. unfold vget. destruct (Z.ltb_spec i 0); [lia|]. apply nth_In. unfold zlen in H. lia.
Qed.

Lemma valid_sizes (c : scoefs FN) : valid FN c ->
  0 <= sc_mmax FN c <= sc_nmax FN c /\ zlen (sc_vec FN c) = ncoef (sc_nmax FN c) (sc_mmax FN c).
Proof. intros V. apply valid_wf in V as [G L]. split; [exact G|exact L]. Qed.

(** save_coef followed by load_coef returns the same sizes and, at every
    mode, the same complex double (up to the sign of a zero component). *)
Theorem C37_coef_roundtrip : forall c : scoefs FN, valid FN c -> fin_coefs c ->
  exists file c', save_coef c = Ok file /\ load_coef file = Ok c' /\
    valid FN c' /\ sc_nmax FN c' = sc_nmax FN c /\ sc_mmax FN c' = sc_mmax FN c /\
    (forall n m x, reads FN c n m x -> exists y, reads FN c' n m y /\ same_c y x).
Proof.
  intros c V F. pose proof (valid_sizes c V) as [Hm L].
  destruct (load_file_of (sc_nmax FN c) (sc_mmax FN c) (sc_vec FN c) [] F Hm (Z.eq_le_incl _ _ L)) as (v & Lv & E & A & _).
  rewrite app_nil_r in E.
  exists (file_of (sc_nmax FN c) (sc_mmax FN c) (sc_vec FN c)), (mkSC FN v (sc_nmax FN c) (sc_mmax FN c)).
  assert (N : sc_new FN v (sc_nmax FN c) (sc_mmax FN c) = Ok (mkSC FN v (sc_nmax FN c) (sc_mmax FN c))).
  { unfold sc_new. destruct (Z.gtb_spec (sc_mmax FN c) (sc_nmax FN c)); [lia|]. rewrite Lv, Z.eqb_refl. reflexivity. }
  split; [apply save_coef_file, valid_wf, V|]. split.
  { rewrite E. change (readlines []) with (@nil txt). cbn [lfor bind]. exact N. }
  assert (V' : valid FN (mkSC FN v (sc_nmax FN c) (sc_mmax FN c))) by (split; [cbn; lia|exact N]).
  split; [exact V'|]. split; [reflexivity|]. split; [reflexivity|].
  intros n m x R. pose proof (reads_mode _ _ _ _ _ R) as M. apply reads_inv in R as [_ ->]; auto.
  eexists. split; [apply reads_cval; [exact V'|exact M]|].
  unfold cval. cbn [sc_vec sc_nmax].
  assert (P : 0 <= pos (sc_nmax FN c) n m < zlen (sc_vec FN c)) by (rewrite L; apply pos_range; auto).
  rewrite A by exact P. 
  pose proof (F _ (vget_In (c0 FN) _ _ P)) as [F1 F2].
  pose proof (entry_same _ _ F1 F2) as S. destruct (vget (c0 FN) (sc_vec FN c) (pos (sc_nmax FN c) n m)). exact S.
Qed.
Print Assumptions C37_coef_roundtrip.

(** Closed runs are evaluated through these projections, so that the
    equality proved by computation is between first-order data. *)
Definition sc_data (r : res (scoefs FN)) : option (list (f64 * f64) * Z * Z) :=
  match r with Ok c => Some (sc_vec FN c, sc_nmax FN c, sc_mmax FN c) | _ => None end.
Lemma sc_data_ok r v n m : sc_data r = Some (v, n, m) -> r = Ok (mkSC FN v n m).
Proof. destruct r as [[v' n' m']|]; [|discriminate]. intros H. injection H as -> -> ->. reflexivity. Qed.
Definition mat_data (r : res (mat FN)) : option (Z * Z * list (f64 * f64)) :=
  match r with Ok c => Some (mt_nr FN c, mt_nc FN c, mt_dat FN c) | _ => None end.
Lemma mat_data_ok r v n m : mat_data r = Some (n, m, v) -> r = Ok (mkMat FN n m v).
Proof. destruct r as [[n' m' v']|]; [|discriminate]. intros H. injection H as -> -> ->. reflexivity. Qed.
Definition vc_data (r : res (vcoefs FN * f64)) : option (list (f64 * f64) * list (f64 * f64) * (Z * Z * Z * Z * Z * Z) * f64) :=
  match r with
  | Ok (c, d) => Some (sc_vec FN (vc_1 FN c), sc_vec FN (vc_2 FN c),
      (sc_nmax FN (vc_1 FN c), sc_mmax FN (vc_1 FN c), sc_nmax FN (vc_2 FN c), sc_mmax FN (vc_2 FN c), vc_nmax FN c, vc_mmax FN c), d)
  | _ => None end.
Lemma vc_data_ok r v w a b c d e f x : vc_data r = Some (v, w, (a, b, c, d, e, f), x) ->
  r = Ok (mkVC FN (mkSC FN v a b) (mkSC FN w c d) e f, x).
Proof. destruct r as [[[[v' a' b'] [w' c' d'] e' f'] x']|]; [|discriminate]. intros H. injection H as -> -> -> -> -> -> -> -> ->. reflexivity. Qed.

(** A set of five coefficients (nmax = 2, mmax = 1 has seven) that meets the
    hypotheses; -0.0 appears so that the exception about zeros is exercised. *)
Definition c37_example : scoefs FN :=
  mkSC FN [(fofZ 1, fdiv (fofZ 1) (fofZ 3)); (S754_zero true, fofZ (-7)); (fofZ 0, S754_zero true);
           (S754_finite true 1 (-1074), fofZ 2)] 1 1.
Example C37_nonvacuous : valid FN c37_example /\ fin_coefs c37_example.
Proof.
  split; [split; [cbn; lia|reflexivity]|].
  intros x [<-|[<-|[<-|[<-|[]]]]]; vm_compute; auto.
Qed.

(** Bit-identity fails for a negative zero (Finding: the sign of zero is
    lost by re + 1j*im). *)
Theorem C37_negative_zero_refuted :
  let c := mkSC FN [(S754_zero true, fofZ 1)] 0 0 in
  valid FN c /\ fin_coefs c /\
  exists file c', save_coef c = Ok file /\ load_coef file = Ok c' /\ c' <> c /\
    sc_vec FN c' = [(S754_zero false, fofZ 1)].
Proof.
  cbv zeta. split; [split; [cbn; lia|reflexivity]|]. split; [intros x [<-|[]]; vm_compute; auto|].
  eexists. eexists. split; [vm_compute; reflexivity|]. split; [apply sc_data_ok; vm_compute; reflexivity|].
  split; [discriminate|reflexivity].
Qed.
Print Assumptions C37_negative_zero_refuted.

(** Without finiteness the round trip fails: 0 + inf j is read back as
    nan + inf j (Finding). *)
Theorem C37_infinite_refuted :
  let c := mkSC FN [(fofZ 0, S754_infinity false)] 0 0 in
  valid FN c /\
  exists file c', save_coef c = Ok file /\ load_coef file = Ok c' /\
    sc_vec FN c' = [(S754_nan, S754_infinity false)].
Proof.
  cbv zeta. split; [split; [cbn; lia|reflexivity]|].
  eexists. eexists. split; [vm_compute; reflexivity|]. split; [apply sc_data_ok; vm_compute; reflexivity|reflexivity].
Qed.
Print Assumptions C37_infinite_refuted.

(** ** C40 *)

Definition is_nl (c : ascii) : bool := Ascii.eqb c nl.
Definition newlines (t : txt) : Z := zlen (filter is_nl t).

Lemma newlines_app a b : newlines (a ++ b) = newlines a + newlines b.
Proof. unfold newlines. rewrite filter_app, zlen_app. reflexivity. Qed.
Lemma newlines_clean b : clean b -> newlines b = 0.
Proof.
  intros C. unfold newlines.
  replace (filter is_nl b) with (@nil ascii); [reflexivity|].
  symmetry. induction b as [|c b IH]; cbn [filter]; auto.
  unfold is_nl at 1. rewrite (proj1 (C c (or_introl eq_refl))). apply IH. intros x Hx; apply C; right; auto.
Qed.
Lemma newlines_nl : newlines [nl] = 1. Proof. reflexivity. Qed.

(** A prefix of a sequence of lines is some complete lines and part of the
    next one. *)
Lemma prefix_app_inv (p a b : txt) : prefix p (a ++ b) ->
  prefix p a \/ exists q, p = a ++ q /\ prefix q b.
Proof.
  revert p. induction a as [|x a IH]; intros p [r E]; cbn [app] in E.
  - right. exists p. split; auto. exists r; auto.
  - destruct p as [|y p]; [left; exists (x :: a); reflexivity|].
    cbn [app] in E. injection E as -> E.
    destruct (IH p (ex_intro _ r E)) as [[r' ->]|(q & -> & Q)].
    + left. exists r'. reflexivity.
    + right. exists q. split; auto.
Qed.
Lemma prefix_body b p : clean b -> prefix p (b ++ [nl]) -> clean p \/ p = b ++ [nl].
Proof.
  intros C P. destruct (prefix_app_inv p b [nl] P) as [[r E]|(q & -> & [r E])].
  - left. subst b. intros c H. apply C, in_or_app; auto.
  - destruct q as [|c q]; [left; rewrite app_nil_r; auto|].
    right. cbn [app] in E. injection E as <- E. destruct q; [reflexivity|discriminate E].
Qed.

Lemma prefix_lines {A} (f : A -> txt) (l : list A) p :
  (forall x, In x l -> exists b, clean b /\ f x = b ++ [nl]) ->
  prefix p (List.concat (map f l)) ->
  exists l1 l2 q, l = l1 ++ l2 /\ p = List.concat (map f l1) ++ q /\ clean q /\
    newlines p = zlen l1 /\ (q = [] \/ exists x l3, l2 = x :: l3 /\ prefix q (f x)).
Proof.
  revert p. induction l as [|x l IH]; intros p H P; cbn [map List.concat] in P.
  - exists [], [], []. destruct P as [r E]. destruct p; [|discriminate E].
    split; [reflexivity|split; [reflexivity|split; [intros c []|split; [reflexivity|left; reflexivity]]]].
  - destruct (H x (or_introl eq_refl)) as (b & C & Eb).
    destruct (prefix_app_inv _ _ _ P) as [P1|(q & -> & Q)].
    + pose proof P1 as P1'. rewrite Eb in P1'.
      destruct (prefix_body b p C P1') as [Cp | ->].
      * exists [], (x :: l), p. split; [reflexivity|split; [reflexivity|split; [exact Cp|split]]].
        -- rewrite newlines_clean; auto.
        -- right. exists x, l. auto.
      * exists [x], l, []. cbn [map List.concat]. rewrite !app_nil_r.
        split; [reflexivity|split; [congruence|split; [intros c []|split; [|left; reflexivity]]]].
        rewrite newlines_app, newlines_clean, newlines_nl by auto. reflexivity.
    + destruct (IH q) as (l1 & l2 & q' & -> & -> & Cq & N & T); auto.
      { intros; apply H; right; auto. }
      exists (x :: l1), l2, q'. cbn [map List.concat app]. rewrite <- app_assoc.
      split; [reflexivity|split; [reflexivity|split; [exact Cq|split; [|exact T]]]].
      rewrite newlines_app, N, Eb, newlines_app, newlines_clean, newlines_nl by auto.
      unfold zlen; cbn [List.length]; lia.
Qed.

Lemma vget_app_l {A} (d : A) u v i : 0 <= i < zlen u -> vget d (u ++ v) i = vget d u i.
Proof.
  intros H. rewrite vget_app by lia. destruct (Z.ltb_spec i (zlen u)); [reflexivity|lia].
Qed.

Ltac zl := repeat match goal with
  | H : context[@zlen ?T ?l] |- _ => progress change (@zlen T l) with (@zlen fc l) in H
  | |- context[@zlen ?T ?l] => progress change (@zlen T l) with (@zlen fc l)
  end.
Ltac zlia := zl; lia.

(** A save interrupted anywhere after the header.  Let [k] be the number of
    coefficient lines completely written.  load_coef either raises, or
    returns an object of the right size whose first k coefficients are right
    and whose coefficients after position k are zero; if the cut is at a line
    end it always succeeds and coefficient k is zero too (Finding: the
    truncation is never reported). *)
Theorem C40_interrupted_save : forall (c : scoefs FN) file p k, valid FN c -> fin_coefs c ->
  save_coef c = Ok file -> prefix p file -> newlines p = k + 1 -> 0 <= k ->
  match load_coef p with
  | Raise e => e = IndexError \/ exists msg, e = ValueError msg
  | Ok c' =>
      valid FN c' /\ sc_nmax FN c' = sc_nmax FN c /\ sc_mmax FN c' = sc_mmax FN c /\
      (forall i, 0 <= i < k -> same_c (vget (c0 FN) (sc_vec FN c') i) (vget (c0 FN) (sc_vec FN c) i)) /\
      (forall i, k < i -> vget (c0 FN) (sc_vec FN c') i = c0 FN)
  end /\
  ((exists q, p = q ++ [nl]) ->
   exists c', load_coef p = Ok c' /\ vget (c0 FN) (sc_vec FN c') k = c0 FN).
Proof.
  intros c file p k V F S P N Hk. pose proof (valid_sizes c V) as [Hm L].
  rewrite save_coef_file in S by (apply valid_wf, V). injection S as <-.
  set (nm := sc_nmax FN c) in *. set (mm := sc_mmax FN c) in *.
  unfold file_of in P.
  assert (HB : exists b, clean b /\ fmt_header nm mm = b ++ [nl]).
  { exists (fmt_int nm ++ comma :: fmt_int mm). split.
    - apply clean_app; [apply word_clean, fmt_int_word|apply clean_comma, word_clean, fmt_int_word].
    - unfold fmt_header. rewrite <- app_assoc. reflexivity. }
  destruct HB as (hb & Ch & Eh).
  assert (Q : exists q, p = fmt_header nm mm ++ q /\ prefix q (List.concat (map fmt_coef_line (sc_vec FN c)))).
  { destruct (prefix_app_inv _ _ _ P) as [P1|Q]; auto.
    rewrite Eh in P1. destruct (prefix_body _ _ Ch P1) as [Cp | ->].
    - rewrite newlines_clean in N by auto. zlia.
    - exists []. rewrite Eh, app_nil_r. split; auto. exists (List.concat (map fmt_coef_line (sc_vec FN c))). reflexivity. }
  destruct Q as (q & -> & Q).
  destruct (prefix_lines fmt_coef_line (sc_vec FN c) q) as (l1 & l2 & r & El & -> & Cr & Nq & T); auto.
  { intros x Hx. apply coef_body, F, Hx. }
  assert (k = zlen l1).
  { rewrite newlines_app, Nq in N. rewrite Eh, newlines_app, newlines_clean, newlines_nl in N by auto. zlia. }
  subst k. clear N Nq.
  assert (F1 : forall x, In x l1 -> fin_c x) by (intros; apply F; rewrite El; apply in_or_app; auto).
  assert (L1 : zlen l1 <= ncoef nm mm) by (rewrite <- L, El, zlen_app; pose proof (zlen_nonneg l2); lia).
  rewrite app_assoc. change (fmt_header nm mm ++ List.concat (map fmt_coef_line l1)) with (file_of nm mm l1).
  destruct (load_file_of nm mm l1 r F1 Hm L1) as (v & Lv & E & A & B). rewrite E. clear E.
  assert (NEW : forall w, zlen w = ncoef nm mm -> sc_new FN w nm mm = Ok (mkSC FN w nm mm)).
  { intros w Lw. unfold sc_new. destruct (Z.gtb_spec mm nm); [lia|]. rewrite Lw, Z.eqb_refl. reflexivity. }
  assert (SAME : forall i, 0 <= i < zlen l1 -> same_c (vget (c0 FN) v i) (vget (c0 FN) (sc_vec FN c) i)).
  { intros i Hi. rewrite A, El, vget_app_l by auto.
    pose proof (F1 _ (vget_In (c0 FN) _ _ Hi)) as [G1 G2].
    pose proof (entry_same _ _ G1 G2) as SE. destruct (vget (c0 FN) l1 i). exact SE. }
  split.
  - destruct r as [|rc r0].
    + change (readlines []) with (@nil txt). cbn [lfor bind]. rewrite NEW by auto.
      split; [split; [cbn; lia|apply NEW; auto]|]. split; [reflexivity|]. split; [reflexivity|]. cbn [sc_vec].
      split; auto. intros i Hi. apply B, Z.lt_le_incl, Hi.
    + rewrite readlines_last by (auto; discriminate). cbn [lfor].
      match goal with |- context[load_coef_line ?a ?b] => destruct (load_coef_line a b) as [[n' w]|e] eqn:EL end; cbn [bind].
      * unfold load_coef_line in EL. 
        destruct (field (split_at comma (rc :: r0)) 0) as [s0|]; cbn [bind] in EL; [|discriminate EL].
        destruct (parse_float s0) as [re|]; cbn [bind] in EL; [|discriminate EL].
        destruct (field (split_at comma (rc :: r0)) 1) as [s1|]; cbn [bind] in EL; [|discriminate EL].
        destruct (parse_float s1) as [im|]; cbn [bind] in EL; [|discriminate EL].
        unfold py_set, py_index in EL.
        match type of EL with context[if ?b then _ else _] => destruct b eqn:IB end.
        2:{ pose proof (zlen_nonneg l1).
            match type of EL with context[if ?b then _ else _] => destruct b eqn:I2 end;
              [apply andb_prop in I2 as [_ I2]; apply Z.ltb_lt in I2; exfalso; apply (Z.lt_irrefl 0); eapply Z.le_lt_trans; eassumption|discriminate EL]. }
        cbn [bind] in EL. apply Ok_inj in EL. injection EL as <- <-.
        rewrite NEW by (rewrite zlen_vset; auto).
        split; [split; [cbn; lia|apply NEW; rewrite zlen_vset; auto]|]. split; [reflexivity|]. split; [reflexivity|].
        cbn [sc_vec]. split.
        -- intros i Hi. rewrite vget_vset_ne by zlia. auto.
        -- intros i Hi. rewrite vget_vset_ne by zlia. apply B. zlia.
      * unfold load_coef_line in EL.
        assert (PF : forall s e', parse_float s = Raise e' -> exists msg, e' = ValueError msg).
        { intros s e'. unfold parse_float. destruct (split_sign (strip s)) as [ng rr].
          destruct (_ || _); [discriminate|]. destruct (txt_eqb _ _); [discriminate|].
          destruct (span_digits rr) as [ip r1]. destruct (match r1 with [] => _ | _ => _ end) as [fp r2].
          destruct (ip ++ fp); [intros Q1; injection Q1 as <-; eauto|].
          destruct (parse_exp r2); [discriminate|]. intros Q1; injection Q1 as <-; eauto. }
        assert (FE : forall l i e', field l i = Raise e' -> e' = IndexError).
        { intros l i e'. unfold field, py_get, py_index. destruct (_ && _); [discriminate|].
          destruct (_ && _); [discriminate|]. cbn [bind]. congruence. }
        destruct (field (split_at comma (rc :: r0)) 0) as [s0|] eqn:E0; cbn [bind] in EL;
          [|injection EL as <-; left; eapply FE; eauto].
        destruct (parse_float s0) as [re|] eqn:E1; cbn [bind] in EL; [|injection EL as <-; right; eapply PF; eauto].
        destruct (field (split_at comma (rc :: r0)) 1) as [s1|] eqn:E2; cbn [bind] in EL;
          [|injection EL as <-; left; eapply FE; eauto].
        destruct (parse_float s1) as [im|] eqn:E3; cbn [bind] in EL; [|injection EL as <-; right; eapply PF; eauto].
        unfold py_set, py_index in EL.
        destruct (_ && _); [discriminate EL|]. destruct (_ && _); [discriminate EL|].
        cbn [bind] in EL. left; congruence.
  - intros (q & Eq).
    assert (r = []).
    { destruct r as [|rc r0] using rev_ind; auto. exfalso. rewrite app_assoc in Eq.
      apply app_inj_tail in Eq as [_ ->].
      assert (I : In nl (r0 ++ [nl])) by (apply in_or_app; right; left; auto).
      apply Cr in I as [I _]. discriminate I. }
    subst r. change (readlines []) with (@nil txt). cbn [lfor bind]. rewrite NEW by auto.
    eexists. split; [reflexivity|]. cbn [sc_vec]. apply B. zlia.
Qed.
Print Assumptions C40_interrupted_save.

(** A save interrupted inside the header line: load_coef raises or returns an
    all-zero set (possibly of a wrong size). *)
Theorem C40_interrupted_header : forall (c : scoefs FN) file p c', valid FN c ->
  save_coef c = Ok file -> prefix p file -> newlines p = 0 ->
  load_coef p = Ok c' -> forall i, vget (c0 FN) (sc_vec FN c') i = c0 FN.
Proof.
  intros c file p c' V S P N E i.
  rewrite save_coef_file in S by (apply valid_wf, V). injection S as <-.
  unfold file_of in P.
  assert (Ch : clean (fmt_int (sc_nmax FN c) ++ comma :: fmt_int (sc_mmax FN c))).
  { apply clean_app; [apply word_clean, fmt_int_word|apply clean_comma, word_clean, fmt_int_word]. }
  set (hb := fmt_int (sc_nmax FN c) ++ comma :: fmt_int (sc_mmax FN c)) in *.
  assert (Eh : fmt_header (sc_nmax FN c) (sc_mmax FN c) = hb ++ [nl]).
  { unfold fmt_header, hb. rewrite <- app_assoc. reflexivity. }
  rewrite Eh in P.
  assert (Cp : clean p).
  { destruct (prefix_app_inv _ _ _ P) as [P1|(q & -> & Q)].
    - destruct (prefix_body _ _ Ch P1) as [Cp | ->]; auto.
      rewrite newlines_app, newlines_nl in N. unfold newlines in N. pose proof (zlen_nonneg (filter is_nl hb)). lia.
    - rewrite !newlines_app, newlines_nl in N. unfold newlines in N.
      pose proof (zlen_nonneg (filter is_nl hb)). pose proof (zlen_nonneg (filter is_nl q)). lia. }
  unfold load_coef in E. destruct p as [|pc p0]; [discriminate E|].
  rewrite readlines_last in E by (auto; discriminate). rewrite field0 in E. cbn [bind tl lfor] in E.
  destruct (field _ 0) as [s0|]; cbn [bind] in E; [|discriminate E].
  destruct (parse_int s0) as [nm|]; cbn [bind] in E; [|discriminate E].
  destruct (field _ 1) as [s1|]; cbn [bind] in E; [|discriminate E].
  destruct (parse_int s1) as [mm|]; cbn [bind] in E; [|discriminate E].
  unfold np_zeros1, np_fill in E. destruct (_ <? 0); cbn [bind] in E; [discriminate E|].
  unfold sc_new in E. destruct (_ >? _); [discriminate E|]. destruct (negb _); [discriminate E|].
  apply Ok_inj in E. subst c'. cbn [sc_vec].
  set (LL := nm + 1 + mm * (2 * nm - mm + 1)).
  destruct (Z.lt_ge_cases i 0) as [|]; [apply vget_out; auto|].
  destruct (Z.lt_ge_cases i LL) as [|].
  - rewrite vget_vmake by lia. reflexivity.
  - apply vget_out. rewrite zlen_vmake. lia.
Qed.
Print Assumptions C40_interrupted_header.

(** One line too many raises IndexError. *)
Theorem C40_extra_lines : forall (c : scoefs FN) file x rest, valid FN c -> fin_coefs c -> fin_c x ->
  save_coef c = Ok file -> load_coef (file ++ fmt_coef_line x ++ rest) = Raise IndexError.
Proof.
  intros c file x rest V F Fx S. pose proof (valid_sizes c V) as [Hm L].
  rewrite save_coef_file in S by (apply valid_wf, V). injection S as <-.
  destruct (load_file_of (sc_nmax FN c) (sc_mmax FN c) (sc_vec FN c) (fmt_coef_line x ++ rest) F Hm (Z.eq_le_incl _ _ L))
    as (v & Lv & E & _). rewrite E.
  pose proof (readlines_lines fmt_coef_line [x] rest) as R. cbn [map List.concat] in R.
  rewrite app_nil_r in R. rewrite R by (intros y [<-|[]]; apply coef_body; auto).
  cbn [app lfor]. rewrite load_coef_line_ok by (auto; apply zlen_nonneg).
  match goal with |- context[?a <? ?b] => destruct (Z.ltb_spec a b) end; [zlia|]. reflexivity.
Qed.
Print Assumptions C40_extra_lines.

(** A cut in the middle of a line can be accepted with a wrong value
    (Finding): 1+12.5j becomes 1+1.25j. *)
Definition c40_coefs : scoefs FN := mkSC FN [(fofZ 1, fdiv (fofZ 25) (fofZ 2))] 0 0.
Theorem C40_truncated_number_refuted :
  valid FN c40_coefs /\ fin_coefs c40_coefs /\
  exists file p c', save_coef c40_coefs = Ok file /\ prefix p file /\ load_coef p = Ok c' /\
    sc_vec FN c' = [(fofZ 1, fdiv (fofZ 5) (fofZ 4))].
Proof.
  split; [split; [cbn; lia|reflexivity]|]. split; [intros x [<-|[]]; vm_compute; auto|].
  eexists. exists (lit "0,0" ++ nl :: lit "1.0000000000000000e+00,1.25"). eexists.
  split; [vm_compute; reflexivity|]. split.
  - exists (lit "00000000000000e+01" ++ [nl]). vm_compute. reflexivity.
  - split; [apply sc_data_ok; vm_compute; reflexivity|reflexivity].
Qed.
Print Assumptions C40_truncated_number_refuted.

(** ** C38 *)

(** The data the pattern object shows are finite. *)
Definition fin_patt (d : mat FN) : Prop :=
  forall i j, 0 <= i < p_nrows FN d -> 0 <= j < mt_nc FN d -> fin_c (mget FN (p_array FN d) i j).

Lemma p_nrows_bounds (d : mat FN) : 1 <= mt_nr FN d -> 1 <= p_nrows FN d <= mt_nr FN d.
Proof.
  intros H. unfold p_nrows. pose proof (Z.div_pos (mt_nr FN d) 2).
  assert (mt_nr FN d / 2 <= mt_nr FN d - 1) by (apply Z.lt_succ_r, Z.div_lt_upper_bound; lia). lia.
Qed.
Lemma p_array_mget (d : mat FN) i j : 1 <= mt_nr FN d -> 0 <= i < p_nrows FN d -> 0 <= j < mt_nc FN d ->
  mget FN (p_array FN d) i j = mget FN d i j.
Proof.
  intros H Hi Hj. pose proof (p_nrows_bounds d H). unfold p_array, mrows. rewrite mget_mmake by lia. reflexivity.
Qed.

(** Loading a pattern file whose first k data lines were written gives the
    first k cells in row-major order and zeros elsewhere. *)
Lemma load_fdata_cut (d : mat FN) k : mat_wf FN d -> 1 <= mt_nr FN d -> fin_patt d ->
  0 <= k <= p_nrows FN d * mt_nc FN d ->
  exists a, load_fdata (patt_file (p_nrows FN d) (mt_nc FN d) (mget FN d) k) = Ok a /\
    mat_wf FN a /\ mt_nr FN a = p_nrows FN d /\ mt_nc FN a = p_ncols FN d /\
    (forall i j, 0 <= i < p_nrows FN d -> 0 <= j < p_ncols FN d ->
       if i * p_ncols FN d + j <? k then same_c (mget FN a i j) (mget FN (p_array FN d) i j)
       else mget FN a i j = c0 FN).
Proof.
  intros (W1 & W2 & W3) H1 F Hk. pose proof (p_nrows_bounds d H1).
  pose proof (load_patt_file (p_nrows FN d) (mt_nc FN d) (mget FN d) k []) as E.
  rewrite app_nil_r in E. change (readlines []) with (@nil txt) in E. cbn [lfor] in E.
  eexists. split.
  - apply E; auto; try lia. intros i j Hi Hj. rewrite <- p_array_mget by (auto; lia). apply F; auto.
  - split; [unfold mat_wf; cbn [mt_nr mt_nc mt_dat]; rewrite zlen_vmake; nia|].
    split; [reflexivity|]. split; [reflexivity|]. unfold p_ncols.
    intros i j Hi Hj. unfold mget at 1. cbn [mt_nc mt_dat].
    assert (BND : 0 <= i * mt_nc FN d + j < p_nrows FN d * mt_nc FN d) by nia.
    assert (D : (i * mt_nc FN d + j) / mt_nc FN d = i) by (rewrite Z.add_comm, Z.div_add by lia; rewrite Z.div_small; lia).
    assert (M : (i * mt_nc FN d + j) mod mt_nc FN d = j) by (rewrite Z.add_comm, Z.mod_add by lia; apply Z.mod_small; lia).
    destruct (Z.ltb_spec (i * mt_nc FN d + j) k).
    + rewrite vget_vmake by exact BND. rewrite D, M. destruct (Z.ltb_spec (i * mt_nc FN d + j) k); [|lia].
      pose proof (F i j Hi Hj) as [G1 G2]. rewrite p_array_mget in * by auto.
      pose proof (entry_same _ _ G1 G2) as SE. destruct (mget FN d i j). exact SE.
    + unfold mget. cbn [mt_nc mt_dat]. rewrite vget_vmake by exact BND.
      destruct (Z.ltb_spec (i * mt_nc FN d + j) k); [lia|]. reflexivity.
Qed.

(** load_fdata after save_patt returns the visible array of the pattern. *)
Theorem C38_raw_data_roundtrip : forall d : mat FN, mat_wf FN d -> 1 <= mt_nr FN d -> fin_patt d ->
  exists file a, save_patt d = Ok file /\ load_fdata file = Ok a /\ mat_wf FN a /\
    mt_nr FN a = p_nrows FN d /\ mt_nc FN a = p_ncols FN d /\
    (forall i j, 0 <= i < p_nrows FN d -> 0 <= j < p_ncols FN d ->
       same_c (mget FN a i j) (mget FN (p_array FN d) i j)).
Proof.
  intros d W H1 F. destruct W as (W1 & W2 & W3).
  pose proof (p_nrows_bounds d H1).
  destruct (load_fdata_cut d (p_nrows FN d * mt_nc FN d) (conj W1 (conj W2 W3)) H1 F) as (a & E & Wa & N1 & N2 & A); [nia|].
  eexists. exists a. split; [apply save_patt_file; auto; split; auto|]. split; [exact E|].
  split; [exact Wa|]. split; [exact N1|]. split; [exact N2|].
  intros i j Hi Hj. specialize (A i j Hi Hj). unfold p_ncols in *.
  destruct (Z.ltb_spec (i * mt_nc FN d + j) (p_nrows FN d * mt_nc FN d)); [exact A|nia].
Qed.
Print Assumptions C38_raw_data_roundtrip.

(** A save_patt cut after k complete data lines loads as the first k cells
    in row-major order followed by zeros (Finding: not reported). *)
Theorem C40_interrupted_pattern_save : forall (d : mat FN) file p k, mat_wf FN d -> 1 <= mt_nr FN d -> fin_patt d ->
  save_patt d = Ok file -> prefix p file -> newlines p = k + 1 -> (exists q, p = q ++ [nl]) ->
  exists a, load_fdata p = Ok a /\ mt_nr FN a = p_nrows FN d /\ mt_nc FN a = p_ncols FN d /\
    (forall i j, 0 <= i < p_nrows FN d -> 0 <= j < p_ncols FN d ->
       if i * p_ncols FN d + j <? k then same_c (mget FN a i j) (mget FN (p_array FN d) i j)
       else mget FN a i j = c0 FN).
Proof.
  intros d file p k W H1 F S P N (q0 & Eq). pose proof (p_nrows_bounds d H1) as NB.
  pose proof W as (W1 & W2 & W3).
  rewrite save_patt_file in S by auto. injection S as <-.
  set (nr := p_nrows FN d) in *. set (nc := mt_nc FN d) in *.
  unfold patt_file in P.
  assert (HB : exists b, clean b /\ fmt_header nr nc = b ++ [nl]).
  { exists (fmt_int nr ++ comma :: fmt_int nc). split.
    - apply clean_app; [apply word_clean, fmt_int_word|apply clean_comma, word_clean, fmt_int_word].
    - unfold fmt_header. rewrite <- app_assoc. reflexivity. }
  destruct HB as (hb & Ch & Eh).
  assert (Q : exists q, p = fmt_header nr nc ++ q /\ prefix q (List.concat (map (pline nc (mget FN d)) (zrange 0 (nr * nc))))).
  { destruct (prefix_app_inv _ _ _ P) as [P1|Q]; auto.
    rewrite Eh in P1. destruct (prefix_body _ _ Ch P1) as [Cp | ->].
    - exfalso. subst p. assert (I : In nl (q0 ++ [nl])) by (apply in_or_app; right; left; auto).
      apply Cp in I as [I _]. discriminate I.
    - exists []. rewrite Eh, app_nil_r. split; auto. eexists. reflexivity. }
  destruct Q as (q & -> & Q).
  destruct (prefix_lines (pline nc (mget FN d)) (zrange 0 (nr * nc)) q) as (l1 & l2 & r & El & -> & Cr & Nq & _); auto.
  { intros x Hx. apply In_zrange in Hx. destruct (cell_bounds nr nc x) as (B1 & B2 & B3); try lia.
    apply patt_body. rewrite <- p_array_mget by auto. apply F; auto. }
  assert (k = zlen l1).
  { rewrite newlines_app, Nq in N. rewrite Eh, newlines_app, newlines_clean, newlines_nl in N by auto. lia. }
  subst k.
  assert (r = []).
  { destruct r as [|rc r0 _] using rev_ind; auto. exfalso. rewrite !app_assoc in Eq.
    apply app_inj_tail in Eq as [_ ->].
    assert (I : In nl (r0 ++ [nl])) by (apply in_or_app; right; left; auto).
    apply Cr in I as [I _]. discriminate I. }
  subst r. rewrite app_nil_r.
  assert (LZ : zlen l1 <= nr * nc).
  { pose proof (zlen_zrange 0 (nr * nc)) as Z1. rewrite El, zlen_app in Z1. pose proof (zlen_nonneg l2). nia. }
  assert (E1 : l1 = zrange 0 (zlen l1)).
  { assert (FS : firstn (Z.to_nat (zlen l1)) (zrange 0 (nr * nc)) = l1).
    { rewrite El. unfold zlen. rewrite Nat2Z.id. rewrite firstn_app, firstn_all, Nat.sub_diag. cbn. apply app_nil_r. }
    rewrite <- FS at 1. rewrite (zrange_app 0 (zlen l1) (nr * nc)) by (pose proof (zlen_nonneg l1); lia).
    assert (LL : zlen (zrange 0 (zlen l1)) = zlen l1) by (rewrite zlen_zrange; pose proof (zlen_nonneg l1); lia).
    rewrite firstn_app. replace (Z.to_nat (zlen l1)) with (List.length (zrange 0 (zlen l1))) by (unfold zlen in LL |- *; lia).
    rewrite firstn_all, Nat.sub_diag. cbn. apply app_nil_r. }
  assert (FE : fmt_header nr nc ++ List.concat (map (pline nc (mget FN d)) l1)
     = patt_file nr nc (mget FN d) (zlen l1)) by (unfold patt_file; rewrite <- E1; reflexivity).
  rewrite FE.
  destruct (load_fdata_cut d (zlen l1) W H1 F) as (a & E & _ & A); [pose proof (zlen_nonneg l1); fold nr nc; lia|].
  exists a. split; [exact E|exact A].
Qed.
Print Assumptions C40_interrupted_pattern_save.

(** load_patt rebuilds the double sphere from the visible rows.  Interior
    rows come back exactly.  A pole-row cell whose mirror cell has the same
    value comes back exactly unless the binary64 product t*t underflows to
    zero, in which case it comes back doubled (Finding). *)
Theorem C38_load_patt_roundtrip : forall d : mat FN, mat_wf FN d -> 2 <= p_nrows FN d -> fin_patt d ->
  exists file d', save_patt d = Ok file /\ load_patt file = Ok d' /\
    mt_nr FN (p_array FN d') = p_nrows FN d /\ mt_nc FN (p_array FN d') = p_ncols FN d /\
    (forall i j, 0 < i < p_nrows FN d - 1 -> 0 <= j < p_ncols FN d ->
       same_c (mget FN (p_array FN d') i j) (mget FN (p_array FN d) i j)) /\
    (forall i j, i = 0 \/ i = p_nrows FN d - 1 -> 0 <= j < p_ncols FN d ->
       let t := mget FN (p_array FN d) i j in
       same_c (mget FN (p_array FN d) i (across_col (p_ncols FN d) j)) t -> fin_c (cadd FN t t) ->
       (ceqb FN (cmul FN t t) (c0 FN) = false -> same_c (mget FN (p_array FN d') i j) t) /\
       (ceqb FN (cmul FN t t) (c0 FN) = true -> same_c (mget FN (p_array FN d') i j) (cadd FN t t))).
Proof.
  intros d W H2 F.
  assert (H1 : 1 <= mt_nr FN d).
  { destruct (Z.le_gt_cases 1 (mt_nr FN d)); auto. unfold p_nrows in H2. 
    assert (mt_nr FN d / 2 < 1) by (apply Z.div_lt_upper_bound; lia). lia. }
  destruct (C38_raw_data_roundtrip d W H1 F) as (file & a & S & E & Wa & N1 & N2 & A).
  exists file.
  assert (FA : forall i j, 0 <= i < mt_nr FN a -> 0 <= j < mt_nc FN a -> fin_c (mget FN a i j)).
  { intros i j Hi Hj. rewrite N1 in Hi. rewrite N2 in Hj. eapply same_c_fin; [apply A; auto|]. apply F; auto. }
  destruct (continue_cells 1 a (or_introl eq_refl) Wa ltac:(lia) FA) as (d' & C & M1 & M2 & I & PO).
  exists d'. split; [exact S|]. split; [unfold load_patt; rewrite E; exact C|].
  rewrite M1, M2, N1, N2. split; [reflexivity|]. split; [reflexivity|]. rewrite N1, N2 in *. split.
  - intros i j Hi Hj. eapply same_c_trans; [apply I; auto|apply A; lia].
  - intros i j Hi Hj t SP F2.
    assert (Hi' : 0 <= i < p_nrows FN d) by lia.
    assert (SA : same_c (mget FN a i j) t) by (apply A; auto).
    assert (AC : 0 <= across_col (p_ncols FN d) j < p_ncols FN d) by (apply Z.mod_pos_bound; lia).
    assert (S1 : same_c (mget FN a i (across_col (p_ncols FN d) j)) (sgn_c 1 (mget FN a i j))).
    { cbn [sgn_c Z.eqb Pos.eqb]. change (sgn_c 1 (mget FN a i j)) with (mget FN a i j).
      eapply same_c_trans; [apply A; auto|]. eapply same_c_trans; [exact SP|apply same_c_sym; auto]. }
    assert (S2 : same_c (cadd FN (mget FN a i j) (mget FN a i j)) (cadd FN t t)) by (apply same_c_add; auto).
    specialize (PO i j Hi Hj S1 (same_c_fin _ _ S2 F2)). cbv zeta in PO.
    rewrite (same_c_eqb0 _ (cmul FN t t)) in PO by (apply same_c_mul; auto).
    destruct (ceqb FN (cmul FN t t) (c0 FN)); split; intros Q; try discriminate Q.
    + eapply same_c_trans; [exact PO|exact S2].
    + eapply same_c_trans; [exact PO|exact SA].
Qed.
Print Assumptions C38_load_patt_roundtrip.

(** A 3 x 2 single-sphere pattern (double sphere 4 x 2) meeting the
    hypotheses, with its file and reload. *)
Definition c38_patt : mat FN :=
  mkMat FN 4 2 [(fofZ 1, fofZ 2); (fofZ 1, fofZ 2); (fofZ 3, fofZ 0); (fofZ 4, fdiv (fofZ 1) (fofZ 7));
                (fofZ 5, fofZ (-1)); (fofZ 5, fofZ (-1)); (fofZ 4, fdiv (fofZ 1) (fofZ 7)); (fofZ 3, fofZ 0)].
Lemma fin64_dec x : (valid_binary 53 1024 x && is_fin x) = true -> fin64 x.
Proof.
  intros H. apply andb_prop in H as [H1 H2]. split; auto. destruct x; auto; discriminate H2.
Qed.
Example C38_nonvacuous : mat_wf FN c38_patt /\ 2 <= p_nrows FN c38_patt /\ fin_patt c38_patt /\
  (forall i j, i = 0 \/ i = 2 -> 0 <= j < 2 ->
     let t := mget FN (p_array FN c38_patt) i j in
     same_c (mget FN (p_array FN c38_patt) i (across_col 2 j)) t /\ fin_c (cadd FN t t) /\
     ceqb FN (cmul FN t t) (c0 FN) = false).
Proof.
  split; [unfold mat_wf; cbn; lia|]. split; [cbn; lia|].
  assert (Q2 : forall j, 0 <= j < 2 -> j = 0 \/ j = 1) by (intros; lia).
  split.
  - intros i j Hi Hj. change (p_nrows FN c38_patt) with 3 in Hi. change (mt_nc FN c38_patt) with 2 in Hj.
    assert (Q : i = 0 \/ i = 1 \/ i = 2) by lia.
    destruct Q as [-> | [-> | ->]], (Q2 j Hj) as [-> | ->]; split; apply fin64_dec; vm_compute; reflexivity.
  - intros i j [-> | ->] Hj; destruct (Q2 j Hj) as [-> | ->]; cbv zeta;
      (split; [split; left; vm_compute; reflexivity|split; [split; apply fin64_dec; vm_compute; reflexivity|vm_compute; reflexivity]]).
Qed.

(** The doubling does happen: a pattern equal to 2^-600 everywhere is read
    back with poles equal to 2^-599 (Finding). *)
Theorem C38_tiny_pole_refuted :
  let t := (fscale 1 (-600), S754_zero false) in
  let d := mkMat FN 4 2 [t; t; t; t; t; t; t; t] in
  exists file d', save_patt d = Ok file /\ load_patt file = Ok d' /\
    mget FN (p_array FN d') 0 0 = (fscale 1 (-599), S754_zero false) /\
    mget FN (p_array FN d') 1 0 = t.
Proof.
  cbv zeta. eexists. eexists. split; [vm_compute; reflexivity|]. split; [apply mat_data_ok; vm_compute; reflexivity|].
  split; vm_compute; reflexivity.
Qed.
Print Assumptions C38_tiny_pole_refuted.

(** load_vpatt: two files written by save_patt become the theta and phi
    components; rows and antisymmetric pole rows come back as above;
    different shapes raise ValueError. *)
Theorem C38_load_vpatt : forall d1 d2 : mat FN,
  mat_wf FN d1 -> 2 <= p_nrows FN d1 -> fin_patt d1 -> mat_wf FN d2 -> 2 <= p_nrows FN d2 -> fin_patt d2 ->
  exists f1 f2, save_patt d1 = Ok f1 /\ save_patt d2 = Ok f2 /\
  (p_nrows FN d1 = p_nrows FN d2 /\ p_ncols FN d1 = p_ncols FN d2 ->
   exists v, load_vpatt f1 f2 = Ok v /\
    forall d d', (d = d1 /\ d' = tp_t FN v) \/ (d = d2 /\ d' = tp_p FN v) ->
    mt_nr FN (p_array FN d') = p_nrows FN d /\ mt_nc FN (p_array FN d') = p_ncols FN d /\
    (forall i j, 0 < i < p_nrows FN d - 1 -> 0 <= j < p_ncols FN d ->
       same_c (mget FN (p_array FN d') i j) (mget FN (p_array FN d) i j)) /\
    (forall i j, i = 0 \/ i = p_nrows FN d - 1 -> 0 <= j < p_ncols FN d ->
       let t := mget FN (p_array FN d) i j in
       same_c (mget FN (p_array FN d) i (across_col (p_ncols FN d) j)) (SFopp (fst t), SFopp (snd t)) ->
       fin_c (cadd FN t t) -> ceqb FN (cmul FN t t) (c0 FN) = false ->
       same_c (mget FN (p_array FN d') i j) t)) /\
  (p_nrows FN d1 <> p_nrows FN d2 \/ p_ncols FN d1 <> p_ncols FN d2 ->
   load_vpatt f1 f2 = Raise (ValueError "shape_tc_pc")).
Proof.
  assert (ONE : forall d : mat FN, mat_wf FN d -> 2 <= p_nrows FN d -> fin_patt d ->
    exists f a, save_patt d = Ok f /\ load_fdata f = Ok a /\ mt_nr FN a = p_nrows FN d /\ mt_nc FN a = p_ncols FN d /\
    exists d', continue_sphere FN a (-1) = Ok d' /\
    mt_nr FN (p_array FN d') = p_nrows FN d /\ mt_nc FN (p_array FN d') = p_ncols FN d /\
    (forall i j, 0 < i < p_nrows FN d - 1 -> 0 <= j < p_ncols FN d ->
       same_c (mget FN (p_array FN d') i j) (mget FN (p_array FN d) i j)) /\
    (forall i j, i = 0 \/ i = p_nrows FN d - 1 -> 0 <= j < p_ncols FN d ->
       let t := mget FN (p_array FN d) i j in
       same_c (mget FN (p_array FN d) i (across_col (p_ncols FN d) j)) (SFopp (fst t), SFopp (snd t)) ->
       fin_c (cadd FN t t) -> ceqb FN (cmul FN t t) (c0 FN) = false ->
       same_c (mget FN (p_array FN d') i j) t)).
  { intros d W H2 F.
    assert (H1 : 1 <= mt_nr FN d).
    { destruct (Z.le_gt_cases 1 (mt_nr FN d)); auto. unfold p_nrows in H2. 
      assert (mt_nr FN d / 2 < 1) by (apply Z.div_lt_upper_bound; lia). lia. }
    destruct (C38_raw_data_roundtrip d W H1 F) as (file & a & S & E & Wa & N1 & N2 & A).
    exists file, a. split; [exact S|]. split; [exact E|]. split; [exact N1|]. split; [exact N2|].
    assert (FA : forall i j, 0 <= i < mt_nr FN a -> 0 <= j < mt_nc FN a -> fin_c (mget FN a i j)).
    { intros i j Hi Hj. rewrite N1 in Hi. rewrite N2 in Hj. eapply same_c_fin; [apply A; auto|]. apply F; auto. }
    destruct (continue_cells (-1) a (or_intror eq_refl) Wa ltac:(lia) FA) as (d' & C & M1 & M2 & I & PO).
    exists d'. split; [exact C|].
    rewrite M1, M2, N1, N2. split; [reflexivity|]. split; [reflexivity|]. rewrite N1, N2 in *. split.
    - intros i j Hi Hj. eapply same_c_trans; [apply I; auto|apply A; lia].
    - intros i j Hi Hj t SP F2 NZ.
      assert (Hi' : 0 <= i < p_nrows FN d) by lia.
      assert (SA : same_c (mget FN a i j) t) by (apply A; auto).
      assert (AC : 0 <= across_col (p_ncols FN d) j < p_ncols FN d) by (apply Z.mod_pos_bound; lia).
      assert (S1 : same_c (mget FN a i (across_col (p_ncols FN d) j)) (sgn_c (-1) (mget FN a i j))).
      { eapply same_c_trans; [apply A; auto|]. eapply same_c_trans; [exact SP|].
        destruct SA as [SA1 SA2]. split; apply same64_opp; apply same64_sym; auto. }
      assert (S2 : same_c (cadd FN (mget FN a i j) (mget FN a i j)) (cadd FN t t)) by (apply same_c_add; auto).
      specialize (PO i j Hi Hj S1 (same_c_fin _ _ S2 F2)). cbv zeta in PO.
      rewrite (same_c_eqb0 _ (cmul FN t t)) in PO by (apply same_c_mul; auto).
      rewrite NZ in PO. eapply same_c_trans; [exact PO|exact SA]. }
  intros d1 d2 W1 R1 F1 W2 R2 F2.
  destruct (ONE d1 W1 R1 F1) as (f1 & a1 & S1 & E1 & N1 & M1 & t1 & C1 & P1).
  destruct (ONE d2 W2 R2 F2) as (f2 & a2 & S2 & E2 & N2 & M2 & t2 & C2 & P2).
  exists f1, f2. split; [exact S1|]. split; [exact S2|].
  unfold load_vpatt. rewrite E1, E2. cbn [bind]. unfold tp_new, same_shape. rewrite N1, N2, M1, M2. split.
  - intros [EN EM]. rewrite EN, EM, !Z.eqb_refl. cbn [andb negb]. rewrite C1, C2. cbn [bind].
    eexists. split; [reflexivity|]. cbn [tp_t tp_p].
    intros d d' [[-> ->]|[-> ->]]; assumption.
  - intros NE. destruct (Z.eqb_spec (p_nrows FN d1) (p_nrows FN d2)), (Z.eqb_spec (p_ncols FN d1) (p_ncols FN d2)); cbn [andb negb]; auto.
    lia.
Qed.
Print Assumptions C38_load_vpatt.

(** ** C41 *)

(** A text that may stand between commas on a line. *)
Definition cell_text (s : txt) : Prop := forall c, In c s -> c <> comma /\ c <> nl /\ c <> cr.
Definition spaces (s : txt) : Prop := forall c, In c s -> is_space c = true /\ c <> nl /\ c <> cr.

(** "a,b\n" *)
Definition line2 (ab : txt * txt) : txt := fst ab ++ comma :: snd ab ++ [nl].
Definition reads_as (ab : txt * txt) (x : f64 * f64) : Prop :=
  cell_text (fst ab) /\ cell_text (snd ab) /\
  parse_float (fst ab) = Ok (fst x) /\ parse_float (snd ab) = Ok (snd x).

Lemma cell_clean s : cell_text s -> clean s.
Proof.
  intros C c H. apply C in H as (_ & A & B). split; [destruct (Ascii.eqb_spec c nl)|destruct (Ascii.eqb_spec c cr)]; congruence.
Qed.
Lemma cell_nocomma s : cell_text s -> forall c, In c s -> Ascii.eqb c comma = false.
Proof. intros C c H. apply C in H as (A & _). destruct (Ascii.eqb_spec c comma); congruence. Qed.
Lemma split_cell a b : cell_text a -> split_at comma (a ++ comma :: b) = a :: split_at comma b.
Proof.
  induction a as [|c a IH]; intros C; cbn [app split_at].
  - rewrite Ascii.eqb_refl. reflexivity.
  - rewrite (cell_nocomma _ C c (or_introl eq_refl)). rewrite IH; auto. intros x Hx; apply C; right; auto.
Qed.
Lemma split_last b : cell_text b -> split_at comma (b ++ [nl]) = [b ++ [nl]].
Proof.
  intros C. apply split_none. intros c H. apply in_app_or in H as [H|[<-|[]]]; auto. apply (cell_nocomma b); auto.
Qed.

Lemma lstrip_keep c l : In c l -> is_space c = false -> In c (lstrip l).
Proof.
  induction l as [|x l IH]; intros H S; cbn [lstrip]; auto.
  destruct (is_space x) eqn:E; auto. destruct H as [->|H]; [congruence|auto].
Qed.
Lemma strip_keep c l : In c l -> is_space c = false -> In c (strip l).
Proof.
  intros H S. unfold strip. apply in_rev. rewrite rev_involutive. apply lstrip_keep; auto.
  apply in_rev. rewrite rev_involutive. apply lstrip_keep; auto.
Qed.
Lemma txt_eqb_eq a b : txt_eqb a b = true -> a = b.
Proof.
  revert b. induction a as [|x a IH]; intros [|y b] H; cbn in H; try discriminate; auto.
  apply andb_prop in H as [H1 H2]. apply Ascii.eqb_eq in H1. subst. f_equal; auto.
Qed.
Lemma txt_eqb_refl a : txt_eqb a a = true.
Proof. induction a as [|x a IH]; cbn; auto. rewrite Ascii.eqb_refl. auto. Qed.
Lemma comma_not_break a b : txt_eqb (strip (a ++ comma :: b)) (lit "break") = false.
Proof.
  destruct (txt_eqb _ _) eqn:E; auto. apply txt_eqb_eq in E.
  assert (I : In comma (strip (a ++ comma :: b))).
  { apply strip_keep; [apply in_or_app; right; left; auto|reflexivity]. }
  rewrite E in I. vm_compute in I. intuition discriminate.
Qed.

(** Trailing newline is ignored by float(). *)
Lemma lstrip_space_end l c : is_space c = true -> lstrip (rev (l ++ [c])) = lstrip (rev l).
Proof. intros H. rewrite rev_app_distr. cbn [rev app lstrip]. rewrite H. reflexivity. Qed.
Lemma lstrip_app_end l c : is_space c = true -> lstrip (l ++ [c]) = lstrip l ++ [c] \/ (lstrip l = [] /\ lstrip (l ++ [c]) = []).
Proof.
  intros H. induction l as [|x l IH]; cbn [app lstrip].
  - rewrite H. right; auto.
  - destruct (is_space x); auto.
Qed.
Lemma strip_end l c : is_space c = true -> strip (l ++ [c]) = strip l.
Proof.
  intros H. unfold strip. destruct (lstrip_app_end l c H) as [-> | [-> ->]]; auto.
  rewrite lstrip_space_end; auto.
Qed.
Lemma parse_float_end l : parse_float (l ++ [nl]) = parse_float l.
Proof. unfold parse_float. rewrite strip_end by reflexivity. reflexivity. Qed.


Lemma line2_body ab x : reads_as ab x -> exists b, clean b /\ line2 ab = b ++ [nl].
Proof.
  intros (A & B & _). exists (fst ab ++ comma :: snd ab). split.
  - apply clean_app; [apply cell_clean, A|apply clean_comma, cell_clean, B].
  - unfold line2. rewrite <- app_assoc. reflexivity.
Qed.
Lemma lines_body ab xs : Forall2 reads_as ab xs -> forall l, In l ab -> exists b, clean b /\ line2 l = b ++ [nl].
Proof.
  induction 1 as [|l x ab xs R _ IH]; intros k [].
  - subst k. eapply line2_body, R.
  - apply IH; auto.
Qed.
Lemma vcoef_line ab x n (iv : bool) u v : reads_as ab x -> 0 <= n < zlen (if iv then v else u) ->
  load_vcoef_line (line2 ab) (n, iv, u, v)
  = Ok (n + 1, iv, if iv then u else vset u n (entry (fst x) (snd x)),
                   if iv then vset v n (entry (fst x) (snd x)) else v).
Proof.
  intros (A & B & P & Q) Hn. unfold load_vcoef_line, line2.
  rewrite comma_not_break, split_cell, split_last by auto.
  rewrite field0, field1. cbn [bind]. rewrite P. cbn [bind]. rewrite parse_float_end, Q. cbn [bind].
  destruct iv; unfold py_set, py_index.
  - replace ((0 <=? n) && (n <? zlen v)) with true by lia. reflexivity.
  - replace ((0 <=? n) && (n <? zlen u)) with true by lia. reflexivity.
Qed.
Lemma vget_cons {A} (d : A) x xs k : 0 <= k -> vget d (x :: xs) (k + 1) = vget d xs k.
Proof.
  intros Hk. unfold vget. destruct (Z.ltb_spec (k + 1) 0); [lia|]. destruct (Z.ltb_spec k 0); [lia|].
  replace (Z.to_nat (k + 1)) with (S (Z.to_nat k)) by lia. reflexivity.
Qed.
Lemma vcoef_lines ab (xs : list fc) (iv : bool) (o : list fc) : Forall2 reads_as ab xs ->
  forall n (w : list fc), 0 <= n -> n + zlen xs <= zlen w ->
  exists w' : list fc,
    lfor (map line2 ab) load_vcoef_line (n, iv, if iv then o else w, if iv then w else o)
      = Ok (n + zlen xs, iv, if iv then o else w', if iv then w' else o) /\
    zlen w' = zlen w /\
    (forall i, n <= i < n + zlen xs ->
       vget (c0 FN) w' i = entry (fst (vget (c0 FN) xs (i - n))) (snd (vget (c0 FN) xs (i - n)))) /\
    (forall i, i < n \/ n + zlen xs <= i -> vget (c0 FN) w' i = vget (c0 FN) w i).
Proof.
  induction 1 as [|l x ab xs R _ IH]; intros n w Hn Hl; cbn [map lfor].
  - change (zlen (@nil fc)) with 0 in *. rewrite Z.add_0_r. exists w. repeat split; auto. intros; zlia.
  - assert (Hz : zlen (x :: xs) = zlen xs + 1) by (unfold zlen; cbn [List.length]; zlia).
    zl. rewrite Hz in Hl |- *. pose proof (zlen_nonneg xs). zl.
    rewrite (vcoef_line l x) by (auto; destruct iv; zlia). cbn [bind].
    destruct (IH (n + 1) (vset w n (entry (fst x) (snd x)))) as (w' & E & L & A & B).
    + zlia.
    + rewrite zlen_vset. zlia.
    + exists w'. split; [|split; [|split]].
      * zl. assert (HZ : n + 1 + @zlen fc xs = n + (@zlen fc xs + 1)) by lia. rewrite <- HZ. destruct iv; exact E.
      * rewrite L, zlen_vset. reflexivity.
      * intros i Hi. destruct (Z.eq_dec i n) as [->|].
        -- rewrite B by zlia. rewrite vget_vset_eq by zlia. rewrite Z.sub_diag. reflexivity.
        -- rewrite A by zlia. replace (i - n) with ((i - (n + 1)) + 1) by zlia.
           rewrite vget_cons by zlia. reflexivity.
      * intros i Hi. rewrite B by zlia. apply vget_vset_ne. zlia.
Qed.
Lemma vcoef_break sp1 sp2 n iv u v : spaces sp1 -> spaces sp2 ->
  load_vcoef_line (sp1 ++ lit "break" ++ sp2 ++ [nl]) (n, iv, u, v) = Ok (0, true, u, v).
Proof.
  intros A B. unfold load_vcoef_line. rewrite strip_pad; [reflexivity| | | |].
  - intros c H; apply A, H.
  - intros c H; apply in_app_or in H as [H|[<-|[]]]; [apply B, H|reflexivity].
  - intros c H. vm_compute in H. decompose [or] H; try subst c; try reflexivity. contradiction.
  - discriminate.
Qed.
Lemma spaces_clean s : spaces s -> clean s.
Proof.
  intros C c H. apply C in H as (_ & A & B). split; [destruct (Ascii.eqb_spec c nl)|destruct (Ascii.eqb_spec c cr)]; congruence.
Qed.
Lemma vcoef_vec (xs w u : list fc) L : 0 <= L -> zlen xs <= L -> (forall x, In x xs -> fin_c x) ->
  u = vmake L (fun _ => c0 FN) -> zlen w = zlen u ->
  (forall i, 0 <= i < 0 + zlen xs ->
       vget (c0 FN) w i = entry (fst (vget (c0 FN) xs (i - 0))) (snd (vget (c0 FN) xs (i - 0)))) ->
  (forall i, i < 0 \/ 0 + zlen xs <= i -> vget (c0 FN) w i = vget (c0 FN) u i) ->
  zlen w = L /\ forall i, 0 <= i < L -> same_c (vget (c0 FN) w i) (vget (c0 FN) xs i).
Proof.
  intros HL Hx F -> Lw A B. rewrite zlen_vmake in Lw. split; [lia|].
  intros i Hi. destruct (Z.lt_ge_cases i (zlen xs)) as [l|g].
  - rewrite A, Z.sub_0_r by lia.
    pose proof (F _ (vget_In (c0 FN) xs i (conj (proj1 Hi) l))) as [F1 F2].
    pose proof (entry_same _ _ F1 F2) as S. destruct (vget (c0 FN) xs i). exact S.
  - rewrite B by lia. rewrite vget_vmake by lia. rewrite vget_out by lia. split; left; reflexivity.
Qed.

(** A file of the form written by the MATLAB code: header
    "nmax,mmax,directivity", at most L lines, a line "break", at most L
    lines.  load_vcoef returns the VectorCoefs whose two sets hold those
    values in order (zeros for missing ones) except that both monopole
    coefficients are zero, and the directivity. *)
Theorem C41_load_vcoef : forall (s0 s1 s2 sp1 sp2 : txt) (nmax mmax : Z) (dir : f64) ab1 ab2 xs1 xs2,
  cell_text s0 -> cell_text s1 -> cell_text s2 -> spaces sp1 -> spaces sp2 ->
  parse_int s0 = Ok nmax -> parse_int s1 = Ok mmax -> parse_float s2 = Ok dir ->
  0 <= mmax <= nmax ->
  Forall2 reads_as ab1 xs1 -> Forall2 reads_as ab2 xs2 ->
  let L := (nmax + 1) ^ 2 - (nmax - mmax) * (nmax - mmax + 1) in
  zlen xs1 <= L -> zlen xs2 <= L ->
  (forall x, In x (xs1 ++ xs2) -> fin_c x) ->
  exists c, load_vcoef (s0 ++ comma :: s1 ++ comma :: s2 ++ [nl] ++
                        List.concat (map line2 ab1) ++ (sp1 ++ lit "break" ++ sp2 ++ [nl]) ++
                        List.concat (map line2 ab2)) = Ok (c, dir) /\
    vvalid FN c /\ vc_nmax FN c = nmax /\ vc_mmax FN c = mmax /\
    (forall i, 0 < i < L ->
       same_c (vget (c0 FN) (sc_vec FN (vc_1 FN c)) i) (vget (c0 FN) xs1 i) /\
       same_c (vget (c0 FN) (sc_vec FN (vc_2 FN c)) i) (vget (c0 FN) xs2 i)) /\
    vget (c0 FN) (sc_vec FN (vc_1 FN c)) 0 = c0 FN /\
    vget (c0 FN) (sc_vec FN (vc_2 FN c)) 0 = c0 FN.
Proof.
  intros s0 s1 s2 sp1 sp2 nmax mmax dir ab1 ab2 xs1 xs2 C0 C1 C2 S1 S2 P0 P1 P2 Hm R1 R2.
  cbv zeta. set (L := (nmax + 1) ^ 2 - (nmax - mmax) * (nmax - mmax + 1)). intros L1 L2 F.
  assert (HL : ncoef nmax mmax = L) by (unfold L, ncoef; nia).
  assert (HL' : (nmax + 1) + mmax * (2 * nmax - mmax + 1) = L) by (unfold L; nia).
  assert (PL : 0 < L) by (rewrite <- HL'; nia).
  set (rest := List.concat (map line2 ab1) ++ (sp1 ++ lit "break" ++ sp2 ++ [nl]) ++ List.concat (map line2 ab2)).
  assert (E0 : readlines (s0 ++ comma :: s1 ++ comma :: s2 ++ [nl] ++ rest)
     = (s0 ++ comma :: s1 ++ comma :: s2 ++ [nl]) ::
       map line2 ab1 ++ (sp1 ++ lit "break" ++ sp2 ++ [nl]) :: map line2 ab2).
  { replace (s0 ++ comma :: s1 ++ comma :: s2 ++ [nl] ++ rest)
      with ((s0 ++ comma :: s1 ++ comma :: s2) ++ nl :: rest)
      by (repeat (rewrite <- app_assoc; cbn [app]); reflexivity).
    rewrite readlines_line.
    2:{ apply clean_app; [apply cell_clean, C0|]. apply clean_comma, clean_app; [apply cell_clean, C1|].
        apply clean_comma, cell_clean, C2. }
    f_equal; [repeat (rewrite <- app_assoc; cbn [app]); reflexivity|].
    unfold rest. rewrite readlines_lines by (eapply lines_body, R1). f_equal.
    replace ((sp1 ++ lit "break" ++ sp2 ++ [nl]) ++ List.concat (map line2 ab2))
      with ((sp1 ++ lit "break" ++ sp2) ++ nl :: List.concat (map line2 ab2))
      by (rewrite <- !app_assoc; reflexivity).
    rewrite readlines_line.
    2:{ apply clean_app; [apply spaces_clean, S1|]. apply clean_app; [|apply spaces_clean, S2].
        intros c H. vm_compute in H. decompose [or] H; try subst c; try (split; reflexivity). contradiction. }
    rewrite <- !app_assoc. f_equal.
    rewrite <- (app_nil_r (List.concat _)). rewrite readlines_lines by (eapply lines_body, R2).
    change (readlines []) with (@nil txt). apply app_nil_r. }
  unfold load_vcoef. rewrite E0, field0. cbn [bind tl]. rewrite !split_cell, split_last by auto.
  rewrite field0, field1, field2. cbn [bind]. rewrite P0. cbn [bind]. rewrite P1. cbn [bind].
  rewrite parse_float_end, P2. cbn [bind]. rewrite HL'.
  unfold np_zeros1, np_fill. destruct (Z.ltb_spec L 0); [lia|]. cbn [bind].
  set (u := vmake L (fun _ => c0 FN)).
  assert (Lu : zlen u = L) by (unfold u; rewrite zlen_vmake; lia).
  destruct (vcoef_lines ab1 xs1 false u R1 0 u) as (w1 & E1 & Z1 & A1 & B1); [lia|rewrite Lu; exact L1|].
  destruct (vcoef_lines ab2 xs2 true w1 R2 0 u) as (w2 & E2 & Z2 & A2 & B2); [lia|rewrite Lu; exact L2|].
  cbv iota in E1, E2.
  rewrite lfor_app. rewrite E1. cbn [bind lfor]. rewrite vcoef_break by auto. cbn [bind]. rewrite E2. cbn [bind].
  destruct (vcoef_vec xs1 w1 u L (Z.lt_le_incl _ _ PL) L1 (fun x H => F x (in_or_app _ _ _ (or_introl H))) eq_refl Z1 A1 B1) as [Zw1 Q1].
  destruct (vcoef_vec xs2 w2 u L (Z.lt_le_incl _ _ PL) L2 (fun x H => F x (in_or_app _ _ _ (or_intror H))) eq_refl Z2 A2 B2) as [Zw2 Q2].
  unfold vc_new. rewrite Zw1, Zw2, Z.eqb_refl. cbn [negb]. destruct (Z.gtb_spec mmax nmax); [lia|].
  rewrite HL, Z.eqb_refl. cbn [negb]. unfold py_set, py_index. rewrite Zw1, Zw2.
  replace ((0 <=? 0) && (0 <? L)) with true by lia. cbn [bind].
  assert (N : forall w : list fc, zlen w = L -> sc_new FN w nmax mmax = Ok (mkSC FN w nmax mmax)).
  { intros w Zw. unfold sc_new. destruct (Z.gtb_spec mmax nmax); [lia|]. rewrite Zw, HL, Z.eqb_refl. reflexivity. }
  rewrite !N by (rewrite zlen_vset; auto). cbn [bind].
  eexists. split; [reflexivity|]. cbn [vc_1 vc_2 vc_nmax vc_mmax sc_vec].
  split; [|split; [reflexivity|split; [reflexivity|split; [|split]]]].
  - apply vvalid_wf. unfold vc_wf. cbn [vc_1 vc_2 vc_nmax vc_mmax sc_nmax sc_mmax].
    assert (W : forall w : list fc, zlen w = L -> sc_wf FN (mkSC FN w nmax mmax)).
    { intros w Zw. apply valid_wf. split; [cbn; lia|apply N, Zw]. }
    split; [apply W; rewrite zlen_vset; auto|]. split; [apply W; rewrite zlen_vset; auto|].
    do 4 (split; [reflexivity|]).
    unfold cval. cbn [sc_vec sc_nmax]. assert (PZ : pos nmax 0 0 = 0) by (unfold pos; cbn; lia).
    rewrite PZ. split; apply vget_vset_eq; zlia.
  - intros i Hi. rewrite !vget_vset_ne by lia. split; [apply Q1|apply Q2]; lia.
  - apply vget_vset_eq. zlia.
  - apply vget_vset_eq. zlia.
Qed.
Print Assumptions C41_load_vcoef.

(** nmax = 1, mmax = 1 (four coefficients a set), three lines in the first
    block and four in the second. *)
Example C41_nonvacuous :
  cell_text (lit "1") /\ cell_text (lit " 1") /\ cell_text (lit "2.5") /\ spaces [] /\ spaces (lit "  ") /\
  parse_int (lit "1") = Ok 1 /\ parse_int (lit " 1") = Ok 1 /\
  parse_float (lit "2.5") = Ok (fdiv (fofZ 5) (fofZ 2)) /\
  reads_as (lit "1.0e0", lit " -2.5E-1") (fofZ 1, fdiv (fofZ (-1)) (fofZ 4)) /\
  exists c, load_vcoef (lit "1, 1,2.5" ++ nl :: lit "5,6" ++ nl :: lit "1.0e0, -2.5E-1" ++ nl :: lit "3,4" ++
     nl :: lit "break  " ++ nl :: lit "9,9" ++ nl :: lit "8,8" ++ nl :: lit "7,7" ++ nl :: lit "6,6" ++ [nl])
    = Ok (c, fdiv (fofZ 5) (fofZ 2)) /\
  sc_vec FN (vc_1 FN c) = [c0 FN; (fofZ 1, fdiv (fofZ (-1)) (fofZ 4)); (fofZ 3, fofZ 4); c0 FN] /\
  sc_vec FN (vc_2 FN c) = [c0 FN; (fofZ 8, fofZ 8); (fofZ 7, fofZ 7); (fofZ 6, fofZ 6)].
Proof.
  assert (CT : forall s, forallb (fun c => negb (Ascii.eqb c comma || Ascii.eqb c nl || Ascii.eqb c cr)) s = true -> cell_text s).
  { intros s E c H. rewrite forallb_forall in E. apply E in H.
    destruct (Ascii.eqb_spec c comma), (Ascii.eqb_spec c nl), (Ascii.eqb_spec c cr); cbn in H; try discriminate H; auto. }
  do 3 (split; [apply CT; reflexivity|]).
  split; [intros c []|]. split; [intros c [<-|[<-|[]]]; repeat split; (reflexivity || discriminate)|].
  do 3 (split; [vm_compute; reflexivity|]). split.
  - unfold reads_as. cbn [fst snd]. do 2 (split; [apply CT; reflexivity|]). split; vm_compute; reflexivity.
  - eexists. split; [apply vc_data_ok; vm_compute; reflexivity|]. split; vm_compute; reflexivity.
Qed.
