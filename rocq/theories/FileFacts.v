(** * FileFacts: lemmas about MFile. *)
From Coq Require Import ZArith List Bool Ascii String SpecFloat Reals Lia Lra.
From Flocq Require Import Core.Core IEEE754.BinarySingleNaN.
From Verif Require Import Py PyFacts Num MCoefs MPatt CoefsFacts FloatN MText TextFacts FloatText MFile SpecFile.
Import ListNotations.
Open Scope Z_scope.

(** ** Arithmetic of [re + 1j*im] *)

Lemma same_double z1 z2 : 
  SpecFloat.valid_binary 53 1024 z1 = true -> SpecFloat.valid_binary 53 1024 z2 = true ->
  is_finite_SF z1 = true -> is_finite_SF z2 = true ->
  SF2R radix2 z1 = SF2R radix2 z2 -> sign_SF z1 = sign_SF z2 -> z1 = z2.
Proof.
  intros V1 V2 F1 F2 E S.
  assert (Q : SF2B (prec:=53) (emax:=1024) z1 V1 = SF2B (prec:=53) (emax:=1024) z2 V2).
  { apply B2R_Bsign_inj; rewrite ?is_finite_SF2B, ?B2R_SF2B, ?Bsign_SF2B; auto. }
  apply (f_equal (B2SF (prec:=53) (emax:=1024))) in Q.
  rewrite !B2SF_SF2B in Q. exact Q.
Qed.

Lemma valid_format z : SpecFloat.valid_binary 53 1024 z = true -> generic_format radix2 fx (SF2R radix2 z).
Proof.
  intros V. rewrite <- (B2R_SF2B 53 1024 z V). apply (generic_format_B2R 53 1024).
Qed.
Lemma valid_lt z : SpecFloat.valid_binary 53 1024 z = true -> (Rabs (SF2R radix2 z) < bpow radix2 1024)%R.
Proof.
  intros V. rewrite <- (B2R_SF2B 53 1024 z V). apply abs_B2R_lt_emax.
Qed.

(** A product of doubles whose exact value is a double. *)
Lemma fmul_exact sx mx ex sy my ey z :
  SpecFloat.valid_binary 53 1024 (S754_finite sx mx ex) = true ->
  SpecFloat.valid_binary 53 1024 (S754_finite sy my ey) = true ->
  SpecFloat.valid_binary 53 1024 z = true -> is_finite_SF z = true ->
  sign_SF z = xorb sx sy ->
  (SF2R radix2 (S754_finite sx mx ex) * SF2R radix2 (S754_finite sy my ey))%R = SF2R radix2 z ->
  fmul (S754_finite sx mx ex) (S754_finite sy my ey) = z.
Proof.
  intros Vx Vy Vz Fz Sz E.
  unfold fmul, SFmul.
  pose proof (Bmult_correct_aux 53 1024 prec53 pe53 mode_NE sx mx ex Vx sy my ey Vy) as H. cbv zeta in H.
  rewrite <- round_aux_same in H. destruct H as [V H].
  change (F2R (Float radix2 (SpecFloat.cond_Zopp sx (Zpos mx)) ex)) with (SF2R radix2 (S754_finite sx mx ex)) in H.
  change (F2R (Float radix2 (SpecFloat.cond_Zopp sy (Zpos my)) ey)) with (SF2R radix2 (S754_finite sy my ey)) in H.
  rewrite E in H.
  rewrite round_generic in H; [|auto with typeclass_instances|apply valid_format; auto].
  rewrite Rlt_bool_true in H by (apply valid_lt; auto).
  destruct H as (H1 & H2 & H3).
  apply same_double; auto. congruence.
Qed.

Lemma fmul_1_l x : fin64 x -> fmul (fofZ 1) x = x.
Proof.
  intros [V F]. destruct x as [s|s| |s m e]; try contradiction; [destruct s; reflexivity|].
  change (fofZ 1) with (S754_finite false 4503599627370496 (-52)).
  apply fmul_exact; auto.
  - destruct s; reflexivity.
  - replace (SF2R radix2 (S754_finite false 4503599627370496 (-52))) with 1%R; [ring|].
    unfold SF2R, F2R; cbn [Fnum Fexp SpecFloat.cond_Zopp].
    change (-52) with (-(52)). rewrite bpow_opp. cbn. lra.
Qed.

Lemma same64_refl x : same64 x x. Proof. left; reflexivity. Qed.
Lemma same64_zero s t : same64 (S754_zero s) (S754_zero t). Proof. right; eauto. Qed.
#[export] Hint Resolve same64_refl same64_zero : same.

Lemma fadd_zero_r x s : fin64 x -> same64 (fadd x (S754_zero s)) x.
Proof.
  intros [V F]. destruct x as [t|t| |t m e]; try contradiction; cbn; auto with same.
  destruct (Bool.eqb t s); auto with same.
Qed.
Lemma fadd_zero_l x s : fin64 x -> same64 (fadd (S754_zero s) x) x.
Proof.
  intros [V F]. destruct x as [t|t| |t m e]; try contradiction; cbn; auto with same.
  destruct (Bool.eqb s t); auto with same.
Qed.
Lemma fmul_zero_l x s : fin64 x -> exists t, fmul (S754_zero s) x = S754_zero t.
Proof. intros [V F]. destruct x as [t|t| |t m e]; try contradiction; cbn; eauto. Qed.
Lemma fmul_zero_r x s : fin64 x -> exists t, fmul x (S754_zero s) = S754_zero t.
Proof. intros [V F]. destruct x as [t|t| |t m e]; try contradiction; cbn; eauto. Qed.
Lemma fsub_zero_zero s t : exists u, fsub (S754_zero s) (S754_zero t) = S754_zero u.
Proof. destruct s, t; cbn; eauto. Qed.
Lemma fadd_zero_zero s t : exists u, fadd (S754_zero s) (S754_zero t) = S754_zero u.
Proof. destruct s, t; cbn; eauto. Qed.
Lemma fin64_zero s : fin64 (S754_zero s). Proof. split; [reflexivity|exact I]. Qed.
#[export] Hint Resolve fin64_zero : same.

Lemma same64_trans a b c : same64 a b -> same64 b c -> same64 a c.
Proof.
  intros [->|(s & t & -> & ->)]; auto. intros [<-|(s' & t' & E & ->)]; [right; eauto|].
  right; eauto.
Qed.
Lemma same64_fin a b : same64 a b -> fin64 b -> fin64 a.
Proof. intros [->|(s & t & -> & ->)]; auto with same. Qed.

Lemma entry_same re im : fin64 re -> fin64 im -> same_c (entry re im) (re, im).
Proof.
  intros Hr Hi. unfold entry, cadd, cofR, cmul, ci. cbn [fst snd FN radd rsub rmul r0 r1 rc].
  split; cbn [fst snd].
  - destruct (fmul_zero_l im false Hi) as [t ->].
    change (fmul (fofZ 1) (S754_zero false)) with (S754_zero false).
    destruct (fsub_zero_zero t false) as [u ->].
    apply fadd_zero_r; auto.
  - rewrite fmul_1_l by auto.
    change (fmul (S754_zero false) (S754_zero false)) with (S754_zero false).
    pose proof (fadd_zero_l im false Hi) as H.
    eapply same64_trans; [apply fadd_zero_l|exact H]. eapply same64_fin; eauto.
Qed.

(** ** Text *)

Definition word (l : txt) : Prop := forall c, In c l -> is_space c = false /\ Ascii.eqb c comma = false.

Lemma word_app a b : word a -> word b -> word (a ++ b).
Proof. intros A B c H. apply in_app_or in H as [H|H]; auto. Qed.
Lemma word_cons c l : is_space c = false -> Ascii.eqb c comma = false -> word l -> word (c :: l).
Proof. intros A B W x [<-|H]; auto. Qed.
Lemma word_nil : word []. Proof. intros c []. Qed.
Lemma digits_word l : digits l -> word l.
Proof. intros D c H. apply D in H. apply digit_facts in H. tauto. Qed.
Lemma fmt_int_word z : word (fmt_int z).
Proof.
  rewrite fmt_int_sgn. apply word_app; [|apply digits_word, digs_digits].
  destruct (z <? 0); cbn; [apply word_cons; auto|]; apply word_nil.
Qed.
Lemma fmt_dec17_word s D E : 0 <= D < 10 ^ 17 -> word (fmt_dec17 s D E).
Proof.
  intros H. unfold fmt_dec17, fmt_exp. 
  assert (0 <= D / 10 ^ 16 <= 9).
  { split; [apply Z.div_pos; lia|]. assert (D / 10 ^ 16 < 10) by (apply Z.div_lt_upper_bound; lia). lia. }
  apply word_app; [destruct s; cbn; [apply word_cons; auto|]; apply word_nil|].
  apply word_cons; try (apply digit_facts, is_digit_dch; auto).
  apply word_cons; auto. apply word_app; [apply digits_word, digs_digits|].
  apply word_cons; auto. apply word_cons; try (destruct (E <? 0); reflexivity).
  apply digits_word, digs_digits.
Qed.

Lemma fin64_is_fin x : fin64 x -> is_fin x = true.
Proof. intros [V F]; destruct x; cbn; auto. Qed.

Lemma fmt_e16_word x : fin64 x -> word (fmt_e16 x).
Proof.
  intros [V F]. destruct x as [s|s| |s m e]; try contradiction; cbn [fmt_e16].
  - apply fmt_dec17_word; lia.
  - pose proof (dec17_spec (Zpos m * ppow 2 e) (ppow 2 (- e)) (ppow_pos 2 (-e) ltac:(lia))) as S.
    assert (EQ : (IZR (Zpos m * ppow 2 e) / IZR (ppow 2 (-e)) = IZR (Zpos m) * bpow radix2 e)%R).
    { rewrite <- (ppow_bpow radix2). change (radix_val radix2) with 2. rewrite mult_IZR. field.
      apply not_0_IZR. pose proof (ppow_pos 2 (-e)). lia. }
    pose proof (finite_range m e V) as [LO HI]. rewrite EQ in S.
    specialize (S (Rlt_le_trans _ _ _ HI bpow_2_10_hi) (Rle_trans _ _ _ bpow_2_10_lo LO)).
    destruct (dec17 _ _) as [D E]. apply fmt_dec17_word. lia.
Qed.

Lemma fmt_parse_fin b x : (forall c, In c b -> is_space c = true) -> fin64 x ->
  parse_float (fmt_e16 x ++ b) = Ok x.
Proof.
  intros B F. apply (fmt_parse [] b x); [intros c []|exact B|apply F|apply fin64_is_fin, F].
Qed.
Lemma nl_space : forall c, In c [nl] -> is_space c = true.
Proof. intros c [<-|[]]. reflexivity. Qed.
Lemma nil_space : forall c, In c (@nil ascii) -> is_space c = true.
Proof. intros c []. Qed.

(** split(',') *)
Lemma split_none l : (forall c, In c l -> Ascii.eqb c comma = false) -> split_at comma l = [l].
Proof.
  induction l as [|c l IH]; intros H; cbn [split_at]; auto.
  rewrite (H c) by (left; auto). rewrite IH; auto. intros; apply H; right; auto.
Qed.
Lemma split_some a b : word a -> split_at comma (a ++ comma :: b) = a :: split_at comma b.
Proof.
  induction a as [|c a IH]; intros H; cbn [app split_at].
  - rewrite Ascii.eqb_refl. reflexivity.
  - rewrite (proj2 (H c (or_introl eq_refl))). rewrite IH; auto. intros x Hx; apply H; right; auto.
Qed.

(** readlines *)
Definition clean (l : txt) : Prop := forall c, In c l -> Ascii.eqb c nl = false /\ Ascii.eqb c cr = false.
Lemma clean_app a b : clean a -> clean b -> clean (a ++ b).
Proof. intros A B c H. apply in_app_or in H as [H|H]; auto. Qed.
Lemma word_clean l : word l -> clean l.
Proof.
  intros W c H. apply W in H as [H _].
  destruct (Ascii.eqb_spec c nl) as [->|]; [discriminate H|].
  destruct (Ascii.eqb_spec c cr) as [->|]; [discriminate H|]. auto.
Qed.
Lemma clean_comma l : clean l -> clean (comma :: l).
Proof. intros C c [<-|H]; auto. Qed.

Lemma univ_nl_clean_app b r : clean b -> univ_nl (b ++ r) = b ++ univ_nl r.
Proof.
  induction b as [|c b IH]; intros C; cbn [app univ_nl]; auto.
  rewrite (proj2 (C c (or_introl eq_refl))). rewrite IH; auto. intros x Hx; apply C; right; auto.
Qed.
Lemma cut_lines_line b r : clean b -> cut_lines (b ++ nl :: r) = (b ++ [nl]) :: cut_lines r.
Proof.
  induction b as [|c b IH]; intros C; cbn [app cut_lines].
  - rewrite Ascii.eqb_refl. reflexivity.
  - rewrite (proj1 (C c (or_introl eq_refl))). rewrite IH; auto. intros x Hx; apply C; right; auto.
Qed.
Lemma cut_lines_last b : clean b -> b <> [] -> cut_lines b = [b].
Proof.
  induction b as [|c b IH]; intros C N; [congruence|]. cbn [cut_lines].
  rewrite (proj1 (C c (or_introl eq_refl))).
  destruct b as [|c' b]; [reflexivity|].
  rewrite IH; [reflexivity| |discriminate]. intros x Hx; apply C; right; auto.
Qed.
Lemma readlines_line b r : clean b -> readlines (b ++ nl :: r) = (b ++ [nl]) :: readlines r.
Proof.
  intros C. unfold readlines. rewrite univ_nl_clean_app by auto.
  cbn [univ_nl]. change (Ascii.eqb nl cr) with false. apply cut_lines_line; auto.
Qed.
Lemma readlines_last b : clean b -> b <> [] -> readlines b = [b].
Proof.
  intros C N. unfold readlines. rewrite <- (app_nil_r b) at 1.
  rewrite univ_nl_clean_app by auto. rewrite app_nil_r. apply cut_lines_last; auto.
Qed.

(** ** Lines of the two formats *)

Lemma header_line a b r : readlines (fmt_header a b ++ r)
   = fmt_header a b :: readlines r.
Proof.
  unfold fmt_header.
  replace ((fmt_int a ++ comma :: fmt_int b ++ [nl]) ++ r)
    with ((fmt_int a ++ comma :: fmt_int b) ++ nl :: r) by (repeat (rewrite <- app_assoc; cbn [app]); reflexivity).
  rewrite readlines_line.
  - f_equal. repeat (rewrite <- app_assoc; cbn [app]). reflexivity.
  - apply clean_app; [apply word_clean, fmt_int_word|apply clean_comma, word_clean, fmt_int_word].
Qed.

Lemma coef_body x : fin_c x -> exists b, clean b /\ fmt_coef_line x = b ++ [nl].
Proof.
  intros [F1 F2]. exists (fmt_e16 (fst x) ++ comma :: fmt_e16 (snd x)). split.
  - apply clean_app; [apply word_clean, fmt_e16_word; auto|apply clean_comma, word_clean, fmt_e16_word; auto].
  - unfold fmt_coef_line. rewrite <- app_assoc. reflexivity.
Qed.
Lemma patt_body i j x : fin_c x -> exists b, clean b /\ fmt_patt_line i j x = b ++ [nl].
Proof.
  intros F. destruct (coef_body x F) as (b & C & E).
  exists (fmt_int i ++ comma :: fmt_int j ++ comma :: b). split.
  - apply clean_app; [apply word_clean, fmt_int_word|]. apply clean_comma.
    apply clean_app; [apply word_clean, fmt_int_word|]. apply clean_comma. auto.
  - unfold fmt_patt_line. rewrite E. repeat (rewrite <- app_assoc; cbn [app]). reflexivity.
Qed.

Lemma readlines_lines {A} (f : A -> txt) l r :
  (forall x, In x l -> exists b, clean b /\ f x = b ++ [nl]) ->
  readlines (List.concat (map f l) ++ r) = map f l ++ readlines r.
Proof.
  induction l as [|x l IH]; intros H; cbn [map List.concat app]; auto.
  destruct (H x (or_introl eq_refl)) as (b & C & E).
  rewrite <- app_assoc, E. rewrite <- app_assoc. cbn [app].
  rewrite readlines_line by auto. f_equal. apply IH. intros; apply H; right; auto.
Qed.

Lemma split_coef_line x : fin_c x ->
  split_at comma (fmt_coef_line x) = [fmt_e16 (fst x); fmt_e16 (snd x) ++ [nl]].
Proof.
  intros [F1 F2]. unfold fmt_coef_line. rewrite split_some by (apply fmt_e16_word; auto).
  rewrite split_none; auto. intros c H. apply in_app_or in H as [H|[<-|[]]]; auto.
  apply (fmt_e16_word _ F2) in H. tauto.
Qed.

Lemma split_header a b : split_at comma (fmt_header a b) = [fmt_int a; fmt_int b ++ [nl]].
Proof.
  unfold fmt_header. rewrite split_some by apply fmt_int_word.
  rewrite split_none; auto. intros c H. apply in_app_or in H as [H|[<-|[]]]; auto.
  apply (fmt_int_word b) in H. tauto.
Qed.

Lemma parse_int_plain z : parse_int (fmt_int z) = Ok z.
Proof. pose proof (parse_fmt_int [] [] z nil_space nil_space) as H. cbn [app] in H. rewrite app_nil_r in H. exact H. Qed.
Lemma parse_int_nl z : parse_int (fmt_int z ++ [nl]) = Ok z.
Proof. exact (parse_fmt_int [] [nl] z nil_space nl_space). Qed.
Lemma parse_float_plain x : fin64 x -> parse_float (fmt_e16 x) = Ok x.
Proof. intros F. rewrite <- (app_nil_r (fmt_e16 x)). apply fmt_parse_fin; auto using nil_space. Qed.
Lemma parse_float_nl x : fin64 x -> parse_float (fmt_e16 x ++ [nl]) = Ok x.
Proof. apply fmt_parse_fin, nl_space. Qed.

Lemma field_nth l k x : nth_error l k = Some x -> field l (Z.of_nat k) = Ok x.
Proof.
  intros H. unfold field, py_get, py_index.
  assert (k < List.length l)%nat by (apply nth_error_Some; congruence).
  destruct ((0 <=? Z.of_nat k) && (Z.of_nat k <? zlen l)) eqn:E; [|unfold zlen in E; lia].
  cbn [bind]. unfold vget. destruct (Z.ltb_spec (Z.of_nat k) 0); [lia|].
  rewrite Nat2Z.id. f_equal. apply nth_error_nth; auto.
Qed.
Lemma field0 a l : field (a :: l) 0 = Ok a.
Proof. apply (field_nth _ 0); reflexivity. Qed.
Lemma field1 a b l : field (a :: b :: l) 1 = Ok b.
Proof. apply (field_nth _ 1); reflexivity. Qed.
Lemma field2 a b c l : field (a :: b :: c :: l) 2 = Ok c.
Proof. apply (field_nth _ 2); reflexivity. Qed.
Lemma field3 a b c d l : field (a :: b :: c :: d :: l) 3 = Ok d.
Proof. apply (field_nth _ 3); reflexivity. Qed.
Lemma field1_short a : field [a] 1 = Raise IndexError.
Proof. reflexivity. Qed.

(** ** load_coef *)

Lemma load_coef_line_ok x n vec : fin_c x -> 0 <= n ->
  load_coef_line (fmt_coef_line x) (n, vec)
  = if n <? zlen vec then Ok (n + 1, vset vec n (entry (fst x) (snd x))) else Raise IndexError.
Proof.
  intros F Hn. unfold load_coef_line. rewrite split_coef_line by auto.
  rewrite field0, field1. cbn [bind]. rewrite parse_float_plain by apply F. cbn [bind].
  rewrite parse_float_nl by apply F. cbn [bind]. unfold py_set, py_index.
  destruct (Z.ltb_spec n (zlen vec)).
  - replace ((0 <=? n) && true) with true by lia. reflexivity.
  - replace ((0 <=? n) && false) with false by lia.
    replace ((- zlen vec <=? n) && (n <? 0)) with false by lia. reflexivity.
Qed.

Lemma lfor_app {A S} (l1 l2 : list A) (f : A -> S -> res S) s :
  lfor (l1 ++ l2) f s = (s' <- lfor l1 f s ;; lfor l2 f s').
Proof.
  revert s. induction l1 as [|a l1 IH]; intros s; cbn [app lfor bind]; auto.
  destruct (f a s); cbn [bind]; auto.
Qed.

(** Contents of the array after reading the entries [xs] from position n. *)
Lemma load_coef_lines xs : forall n vec, (forall x, In x xs -> fin_c x) -> 0 <= n ->
  n + zlen xs <= zlen vec ->
  exists vec', lfor (map fmt_coef_line xs) load_coef_line (n, vec) = Ok (n + zlen xs, vec') /\
    zlen vec' = zlen vec /\
    (forall i, n <= i < n + zlen xs ->
       vget (c0 FN) vec' i = entry (fst (vget (c0 FN) xs (i - n))) (snd (vget (c0 FN) xs (i - n)))) /\
    (forall i, i < n \/ n + zlen xs <= i -> vget (c0 FN) vec' i = vget (c0 FN) vec i).
Proof.
  induction xs as [|x xs IH]; intros n vec F Hn Hl; cbn [map lfor].
  - change (zlen (@nil fc)) with 0 in *. rewrite Z.add_0_r. exists vec. repeat split; auto. intros; lia.
  - assert (Hz : zlen (x :: xs) = zlen xs + 1) by (unfold zlen; cbn [List.length]; lia).
    pose proof (zlen_nonneg xs).
    rewrite load_coef_line_ok by (auto; apply F; left; auto).
    destruct (Z.ltb_spec n (zlen vec)); [|lia]. cbn [bind].
    destruct (IH (n + 1) (vset vec n (entry (fst x) (snd x)))) as (v' & E & L & A & B).
    + intros; apply F; right; auto.
    + lia.
    + rewrite zlen_vset. lia.
    + exists v'. rewrite E, Hz. split; [do 2 f_equal; lia|]. split; [rewrite L; apply zlen_vset|]. split.
      * intros i Hi. destruct (Z.eq_dec i n) as [->|].
        -- rewrite B by lia. rewrite vget_vset_eq by lia. rewrite Z.sub_diag. reflexivity.
        -- rewrite A by lia. replace (i - n) with ((i - (n + 1)) + 1) by lia.
           assert (Q : forall k, 0 <= k -> vget (c0 FN) (x :: xs) (k + 1) = vget (c0 FN) xs k).
           { intros k Hk. unfold vget. destruct (Z.ltb_spec (k + 1) 0); [lia|]. destruct (Z.ltb_spec k 0); [lia|].
             replace (Z.to_nat (k + 1)) with (S (Z.to_nat k)) by lia. reflexivity. }
           rewrite Q by lia. reflexivity.
      * intros i Hi. rewrite B by lia. apply vget_vset_ne. lia.
Qed.

Lemma load_coef_header nmax mmax r : 0 <= (nmax + 1) + mmax * (2 * nmax - mmax + 1) ->
  load_coef (fmt_header nmax mmax ++ r) =
  ('(_, vec) <- lfor (readlines r) load_coef_line
      (0, vmake ((nmax + 1) + mmax * (2 * nmax - mmax + 1)) (fun _ => c0 FN)) ;;
   sc_new FN vec nmax mmax).
Proof.
  intros HL. unfold load_coef. rewrite header_line. rewrite field0. cbn [bind].
  rewrite split_header, field0, field1. cbn [bind].
  rewrite parse_int_plain. cbn [bind]. rewrite parse_int_nl. cbn [bind tl].
  unfold np_zeros1, np_fill. destruct (Z.ltb_spec ((nmax + 1) + mmax * (2 * nmax - mmax + 1)) 0); [lia|].
  reflexivity.
Qed.

Definition file_of (nmax mmax : Z) (xs : list fc) : txt :=
  fmt_header nmax mmax ++ List.concat (map fmt_coef_line xs).

Lemma load_file_of nmax mmax xs r :
  (forall x, In x xs -> fin_c x) -> 0 <= mmax <= nmax ->
  zlen xs <= ncoef nmax mmax ->
  exists vec, zlen vec = ncoef nmax mmax /\
    load_coef (file_of nmax mmax xs ++ r) =
      ('(_, vec) <- lfor (readlines r) load_coef_line (zlen xs, vec) ;; sc_new FN vec nmax mmax) /\
    (forall i, 0 <= i < zlen xs ->
       vget (c0 FN) vec i = entry (fst (vget (c0 FN) xs i)) (snd (vget (c0 FN) xs i))) /\
    (forall i, zlen xs <= i -> vget (c0 FN) vec i = c0 FN).
Proof.
  intros F Hm Hl. unfold file_of. rewrite <- app_assoc.
  assert (HL : ncoef nmax mmax = (nmax + 1) + mmax * (2 * nmax - mmax + 1)) by (unfold ncoef; lia).
  assert (0 <= ncoef nmax mmax) by (rewrite HL; nia).
  rewrite load_coef_header by lia. rewrite <- HL.
  rewrite readlines_lines by (intros; apply coef_body; auto).
  rewrite lfor_app.
  destruct (load_coef_lines xs 0 (vmake (ncoef nmax mmax) (fun _ => c0 FN)) F) as (v & E & L & A & B).
  - lia.
  - rewrite zlen_vmake. lia.
  - exists v. rewrite E. cbn [bind]. rewrite Z.add_0_l. split; [rewrite L, zlen_vmake; lia|].
    split; [reflexivity|]. split.
    + intros i Hi. rewrite A by lia. rewrite Z.sub_0_r. reflexivity.
    + intros i Hi. rewrite B by lia. destruct (Z.lt_ge_cases i (ncoef nmax mmax)).
      * pose proof (zlen_nonneg xs). rewrite vget_vmake by lia. reflexivity.
      * apply vget_out. rewrite zlen_vmake. lia.
Qed.

Lemma save_coef_file (c : scoefs FN) : sc_wf FN c ->
  save_coef c = Ok (file_of (sc_nmax FN c) (sc_mmax FN c) (sc_vec FN c)).
Proof.
  intros [G L]. unfold save_coef, file_of.
  assert (HL : zlen (sc_vec FN c) = (sc_nmax FN c + 1) + sc_mmax FN c * (2 * sc_nmax FN c - sc_mmax FN c + 1))
    by (rewrite L; unfold ncoef; lia).
  rewrite <- HL. clear HL L G.
  set (h := fmt_header _ _). clearbody h. generalize (sc_vec FN c) as v. clear c. intros v.
  assert (Q : forall k, 0 <= k <= zlen v -> mfor (zrange 0 k)
    (fun n out => x <- py_get (c0 FN) v n;; Ok (out ++ fmt_coef_line x)) h
    = Ok (h ++ List.concat (map fmt_coef_line (firstn (Z.to_nat k) v)))).
  { intros k [H0 H1]. revert H1. pattern k. apply natlike_ind; auto.
    - intros _. rewrite zrange_nil by lia. cbn. rewrite app_nil_r. reflexivity.
    - intros x Hx IH Hl. unfold Z.succ in *. rewrite zrange_snoc, mfor_app by lia. rewrite IH by lia. cbn [bind mfor].
      unfold py_get, py_index. replace ((0 <=? x) && (x <? zlen v)) with true by lia. cbn [bind].
      f_equal. rewrite <- app_assoc. f_equal.
      replace (Z.to_nat (x + 1)) with (S (Z.to_nat x)) by lia.
      assert (S1 : firstn (S (Z.to_nat x)) v = firstn (Z.to_nat x) v ++ [vget (c0 FN) v x]).
      { unfold vget. destruct (Z.ltb_spec x 0); [lia|]. unfold zlen in Hl.
        assert (Hn : (Z.to_nat x < List.length v)%nat) by lia. clear - Hn.
        revert v Hn. induction (Z.to_nat x) as [|n IH]; intros [|a v] H; cbn in *; try lia; auto.
        f_equal. apply IH. lia. }
      rewrite S1, map_app, concat_app. cbn. rewrite app_nil_r. reflexivity. }
  rewrite (Q (zlen v)) by (pose proof (zlen_nonneg v); lia).
  unfold zlen. rewrite Nat2Z.id, firstn_all. reflexivity.
Qed.
