(** * FileFacts2: pattern files. *)
From Coq Require Import ZArith List Bool Ascii String SpecFloat Reals Lia Lra.
From Flocq Require Import Core.Core IEEE754.BinarySingleNaN.
From Verif Require Import Py PyFacts Num MCoefs MPatt CoefsFacts CoefsFacts2 PattFacts FloatN MText TextFacts FloatText MFile SpecFile SpecPatt FileFacts.
Import ListNotations.
Open Scope Z_scope.
#[local] Existing Instance prec53.
#[local] Existing Instance pe53.

(** ** Reading a pattern file *)

Lemma split_patt_line i j x : fin_c x ->
  split_at comma (fmt_patt_line i j x) = [fmt_int i; fmt_int j; fmt_e16 (fst x); fmt_e16 (snd x) ++ [nl]].
Proof.
  intros F. unfold fmt_patt_line. rewrite split_some by apply fmt_int_word.
  rewrite split_some by apply fmt_int_word. rewrite split_coef_line by auto. reflexivity.
Qed.

Lemma load_patt_line_ok i j x (a : mat FN) : fin_c x -> 0 <= i < mt_nr FN a -> 0 <= j < mt_nc FN a ->
  load_patt_line (fmt_patt_line i j x) a = Ok (mset FN a i j (entry (fst x) (snd x))).
Proof.
  intros F Hi Hj. unfold load_patt_line. rewrite split_patt_line by auto.
  rewrite field0, field1, field2, field3. cbn [bind]. rewrite !parse_int_plain. cbn [bind].
  rewrite parse_float_plain by apply F. cbn [bind].
  rewrite parse_float_nl by apply F. cbn [bind]. unfold mat_set, py_index.
  destruct ((0 <=? i) && (i <? mt_nr FN a)) eqn:E1; [|lia].
  destruct ((0 <=? j) && (j <? mt_nc FN a)) eqn:E2; [|lia]. reflexivity.
Qed.

(** The k-th line of the file of an nr x nc table f. *)
Definition pline (nc : Z) (f : Z -> Z -> fc) (k : Z) : txt :=
  fmt_patt_line (k / nc) (k mod nc) (f (k / nc) (k mod nc)).
Definition patt_file (nr nc : Z) (f : Z -> Z -> fc) (k : Z) : txt :=
  fmt_header nr nc ++ List.concat (map (pline nc f) (zrange 0 k)).

Lemma cell_bounds nr nc k : 0 <= nr -> 0 <= nc -> 0 <= k < nr * nc ->
  0 <= k / nc < nr /\ 0 <= k mod nc < nc /\ (k / nc) * nc + k mod nc = k.
Proof.
  intros. assert (0 < nc) by nia.
  pose proof (Z.div_mod k nc ltac:(lia)). pose proof (Z.mod_pos_bound k nc ltac:(lia)).
  split; [split; [apply Z.div_pos; lia|apply Z.div_lt_upper_bound; lia]|]. split; [auto|lia].
Qed.

Lemma load_patt_lines nr nc f : 0 <= nr -> 0 <= nc ->
  (forall i j, 0 <= i < nr -> 0 <= j < nc -> fin_c (f i j)) ->
  forall k, 0 <= k <= nr * nc ->
  lfor (map (pline nc f) (zrange 0 k)) load_patt_line (mmake FN nr nc (fun _ _ => c0 FN))
  = Ok (mkMat FN nr nc (vmake (nr * nc)
        (fun p => if p <? k then entry (fst (f (p / nc) (p mod nc))) (snd (f (p / nc) (p mod nc))) else c0 FN))).
Proof.
  intros Hr Hc F k [H0 H1]. revert H1. pattern k. apply natlike_ind; auto.
  - intros _. rewrite zrange_nil by lia. cbn [map lfor]. unfold mmake. do 2 f_equal. apply vmake_ext.
    intros i Hi. destruct (Z.ltb_spec i 0); [lia|]. reflexivity.
  - intros x Hx IH Hl. unfold Z.succ in *. rewrite zrange_snoc, map_app, lfor_app by lia.
    rewrite IH by lia. cbn [bind map lfor].
    destruct (cell_bounds nr nc x Hr Hc) as (B1 & B2 & B3); [lia|].
    unfold pline at 1. rewrite load_patt_line_ok; [|apply F; auto|exact B1|exact B2].
    cbn [bind]. unfold mset. cbn [mt_nr mt_nc mt_dat]. rewrite B3. do 2 f_equal.
    apply vget_ext with (d := c0 FN).
    + rewrite zlen_vset, !zlen_vmake. reflexivity.
    + rewrite zlen_vset, zlen_vmake. intros p Hp.
      rewrite vget_vset by (rewrite zlen_vmake; lia).
      rewrite !vget_vmake by lia.
      destruct (Z.eqb_spec p x) as [->|].
      * destruct (Z.ltb_spec x (x + 1)); [|lia]. reflexivity.
      * destruct (Z.ltb_spec p x), (Z.ltb_spec p (x + 1)); try lia; reflexivity.
Qed.

Lemma load_fdata_header nr nc r : 0 <= nr -> 0 <= nc ->
  load_fdata (fmt_header nr nc ++ r) =
  lfor (readlines r) load_patt_line (mmake FN nr nc (fun _ _ => c0 FN)).
Proof.
  intros Hr Hc. unfold load_fdata. rewrite header_line, field0. cbn [bind].
  rewrite split_header, field0, field1. cbn [bind]. rewrite parse_int_plain. cbn [bind].
  rewrite parse_int_nl. cbn [bind tl]. unfold np_zeros2.
  destruct ((nr <? 0) || (nc <? 0)) eqn:E; [lia|]. reflexivity.
Qed.

Lemma load_patt_file nr nc f k r : 0 <= nr -> 0 <= nc ->
  (forall i j, 0 <= i < nr -> 0 <= j < nc -> fin_c (f i j)) -> 0 <= k <= nr * nc ->
  load_fdata (patt_file nr nc f k ++ r) =
  lfor (readlines r) load_patt_line
    (mkMat FN nr nc (vmake (nr * nc)
        (fun p => if p <? k then entry (fst (f (p / nc) (p mod nc))) (snd (f (p / nc) (p mod nc))) else c0 FN))).
Proof.
  intros Hr Hc F Hk. unfold patt_file. rewrite <- app_assoc, load_fdata_header by auto.
  rewrite readlines_lines.
  - rewrite lfor_app, load_patt_lines by auto. reflexivity.
  - intros p Hp. apply In_zrange in Hp. destruct (cell_bounds nr nc p Hr Hc) as (B1 & B2 & B3); [lia|].
    apply patt_body. apply F; auto.
Qed.

(** ** Writing a pattern file *)

Lemma save_patt_file (d : mat FN) : mat_wf FN d -> 1 <= mt_nr FN d ->
  save_patt d = Ok (patt_file (p_nrows FN d) (mt_nc FN d) (mget FN d) (p_nrows FN d * mt_nc FN d)).
Proof.
  intros (W1 & W2 & W3) H1. unfold save_patt, patt_file, p_ncols.
  assert (NR : 1 <= p_nrows FN d <= mt_nr FN d).
  { unfold p_nrows. pose proof (Z.div_pos (mt_nr FN d) 2). 
    assert (mt_nr FN d / 2 <= mt_nr FN d - 1) by (apply Z.lt_succ_r, Z.div_lt_upper_bound; lia). lia. }
  set (nr := p_nrows FN d) in *. set (nc := mt_nc FN d) in *.
  assert (AR : p_array FN d = mmake FN nr nc (mget FN d)).
  { unfold p_array, mrows. fold nr nc. replace (Z.max 0 (Z.min nr (mt_nr FN d))) with nr by lia. reflexivity. }
  rewrite AR. clear AR.
  set (h := fmt_header nr nc). clearbody h.
  assert (CELL : forall i j, 0 <= i < nr -> 0 <= j < nc -> mat_get (mmake FN nr nc (mget FN d)) i j = Ok (mget FN d i j)).
  { intros i j Hi Hj. unfold mat_get, py_index. cbn [mmake mt_nr mt_nc].
    destruct ((0 <=? i) && (i <? nr)) eqn:E1; [|lia]. destruct ((0 <=? j) && (j <? nc)) eqn:E2; [|lia].
    cbn [bind]. f_equal. apply mget_mmake; auto. }
  assert (ROW : forall i out, 0 <= i < nr -> forall k, 0 <= k <= nc ->
    mfor (zrange 0 k) (fun c0 out => x <- mat_get (mmake FN nr nc (mget FN d)) i c0;; Ok (out ++ fmt_patt_line i c0 x)) out
    = Ok (out ++ List.concat (map (pline nc (mget FN d)) (zrange (i * nc) (i * nc + k))))).
  { intros i out Hi k [K0 K1]. revert K1. pattern k. apply natlike_ind; auto.
    - intros _. rewrite !zrange_nil by lia. cbn. rewrite app_nil_r. reflexivity.
    - intros x Hx IH Hl. unfold Z.succ in *. rewrite zrange_snoc, mfor_app by lia. rewrite IH by lia. cbn [bind mfor].
      rewrite CELL by lia. cbn [bind]. f_equal.
      rewrite Z.add_assoc, (zrange_snoc (i * nc)) by lia. rewrite map_app, concat_app, <- app_assoc. do 2 f_equal.
      cbn [map List.concat]. rewrite app_nil_r. unfold pline.
      assert (D : (i * nc + x) / nc = i) by (rewrite Z.add_comm, Z.div_add by lia; rewrite Z.div_small; lia).
      assert (M : (i * nc + x) mod nc = x) by (rewrite Z.add_comm, Z.mod_add by lia; apply Z.mod_small; lia).
      rewrite D, M. reflexivity. }
  assert (Q : forall k, 0 <= k <= nr ->
    mfor (zrange 0 k) (fun nr0 out => mfor (zrange 0 nc)
      (fun c0 out => x <- mat_get (mmake FN nr nc (mget FN d)) nr0 c0;; Ok (out ++ fmt_patt_line nr0 c0 x)) out) h
    = Ok (h ++ List.concat (map (pline nc (mget FN d)) (zrange 0 (k * nc))))).
  { intros k [K0 K1]. revert K1. pattern k. apply natlike_ind; auto.
    - intros _. rewrite !zrange_nil by lia. cbn. rewrite app_nil_r. reflexivity.
    - intros x Hx IH Hl. unfold Z.succ in *. rewrite zrange_snoc, mfor_app by lia. rewrite IH by lia. cbn [bind mfor].
      rewrite ROW by lia. cbn [bind]. f_equal. rewrite <- app_assoc. f_equal.
      rewrite <- concat_app, <- map_app. do 2 f_equal.
      replace ((x + 1) * nc) with (x * nc + nc) by lia. symmetry. apply zrange_app. nia. }
  apply Q. lia.
Qed.

(** ** Doubling and halving a double *)

Definition half64 : f64 := S754_finite false 4503599627370496 (-53).

Lemma SF2R_half : SF2R radix2 half64 = (/ 2)%R.
Proof.
  unfold half64, SF2R, F2R; cbn [Fnum Fexp SpecFloat.cond_Zopp].
  change (-53) with (-(53)). rewrite bpow_opp. cbn. lra.
Qed.

Lemma round_same s m e : SpecFloat.binary_round 53 1024 s m e = BinarySingleNaN.binary_round 53 1024 mode_NE s m e.
Proof.
  unfold SpecFloat.binary_round, BinarySingleNaN.binary_round, shl_align_fexp.
  destruct (shl_align _ _ _) as [mz ez]. apply round_aux_same.
Qed.

Lemma shl_align_id m e : shl_align m e e = (m, e).
Proof. unfold shl_align. rewrite Z.sub_diag. reflexivity. Qed.

Lemma half_double x : fin64 x -> fin64 (fadd x x) -> fmul (fadd x x) half64 = x.
Proof.
  intros [V F] [V2 F2]. destruct x as [s|s| |s m e]; try contradiction.
  - destruct s; reflexivity.
  - assert (E2 : fadd (S754_finite s m e) (S754_finite s m e) = SpecFloat.binary_round 53 1024 s (m + m) e).
    { unfold fadd, SFadd. rewrite Z.min_id, shl_align_id. cbn [fst].
      destruct s; reflexivity. }
    rewrite E2 in *. rewrite round_same in *.
    destruct (binary_round_correct 53 1024 prec53 pe53 mode_NE s (m + m) e) as [VV H].
    set (y := BinarySingleNaN.binary_round 53 1024 mode_NE s (m + m) e) in *.
    set (x := S754_finite s m e) in *.
    assert (DX : F2R (Float radix2 (SpecFloat.cond_Zopp s (Z.pos (m + m))) e) = (2 * SF2R radix2 x)%R).
    { unfold x, SF2R, F2R. cbn [Fnum Fexp]. rewrite Pos2Z.inj_add.
      destruct s; cbn [SpecFloat.cond_Zopp cond_Zopp]; rewrite ?opp_IZR, plus_IZR; ring. }
    cbv zeta in H. rewrite DX in H.
    assert (FM : generic_format radix2 fx (2 * SF2R radix2 x)).
    { destruct (FLT_format_generic radix2 (-1074) 53 _ (valid_format x V)) as [f Ef B1 B2].
      apply generic_format_FLT. exists (Float radix2 (Fnum f) (Fexp f + 1)); auto.
      - rewrite Ef. unfold F2R. cbn [Fnum Fexp]. rewrite bpow_plus. change (bpow radix2 1) with 2%R. ring.
      - cbn [Fexp]. lia. }
    rewrite round_generic in H; auto with typeclass_instances.
    case_eq (Rlt_bool (Rabs (2 * SF2R radix2 x)) (bpow radix2 1024)); intros RB; rewrite RB in H.
    2:{ rewrite H in F2. contradiction. }
    destruct H as (H1 & H2 & H3).
    assert (NZ : SF2R radix2 x <> 0%R).
    { unfold x, SF2R. apply F2R_neq_0. cbn [Fnum]. destruct s; discriminate. }
    destruct y as [sy|sy| |sy my ey] eqn:EY; try discriminate H2.
    + exfalso. cbn [SF2R] in H1. lra.
    + cbn [sign_SF] in H3. subst sy. apply fmul_exact; auto.
      * unfold x. destruct s; reflexivity.
      * change (SF2R radix2 (S754_finite false 4503599627370496 (-53))) with (SF2R radix2 half64).
        rewrite SF2R_half. rewrite H1. field.
Qed.

(** ** Same value up to the sign of zero is a congruence *)

Lemma same64_mul a b c d : same64 a b -> same64 c d -> same64 (fmul a c) (fmul b d).
Proof.
  intros [<-|(s & t & -> & ->)] [<-|(u & v & -> & ->)]; auto with same.
  - destruct a; cbn; auto with same.
  - destruct c; cbn; auto with same.
  - cbn; auto with same.
Qed.
Lemma same64_add a b c d : same64 a b -> same64 c d -> same64 (fadd a c) (fadd b d).
Proof.
  intros [<-|(s & t & -> & ->)] [<-|(u & v & -> & ->)]; auto with same.
  - destruct a as [w|w| |w m e]; cbn; auto with same. destruct w, u, v; cbn; auto with same.
  - destruct c as [w|w| |w m e]; cbn; auto with same. destruct w, s, t; cbn; auto with same.
  - destruct s, t, u, v; cbn; auto with same.
Qed.
Lemma same64_sub a b c d : same64 a b -> same64 c d -> same64 (fsub a c) (fsub b d).
Proof.
  intros [<-|(s & t & -> & ->)] [<-|(u & v & -> & ->)]; auto with same.
  - destruct a as [w|w| |w m e]; cbn; auto with same. destruct w, u, v; cbn; auto with same.
  - destruct c as [w|w| |w m e]; cbn; auto with same. destruct w, s, t; cbn; auto with same.
  - destruct s, t, u, v; cbn; auto with same.
Qed.
Lemma same64_eqb0 a b : same64 a b -> SFeqb a (S754_zero false) = SFeqb b (S754_zero false).
Proof. intros [<-|(s & t & -> & ->)]; reflexivity. Qed.
Lemma same64_sym a b : same64 a b -> same64 b a.
Proof. intros [<-|(s & t & -> & ->)]; auto with same. Qed.

Lemma same_c_refl a : same_c a a. Proof. split; auto with same. Qed.
Lemma same_c_trans a b c : same_c a b -> same_c b c -> same_c a c.
Proof. intros [] []. split; eapply same64_trans; eauto. Qed.
Lemma same_c_sym a b : same_c a b -> same_c b a.
Proof. intros []. split; apply same64_sym; auto. Qed.
Lemma same_c_fin a b : same_c a b -> fin_c b -> fin_c a.
Proof. intros [] []. split; eapply same64_fin; eauto. Qed.
Lemma same_c_add a b c d : same_c a b -> same_c c d -> same_c (cadd FN a c) (cadd FN b d).
Proof. intros [] []. split; apply same64_add; auto. Qed.
Lemma same_c_mul a b c d : same_c a b -> same_c c d -> same_c (cmul FN a c) (cmul FN b d).
Proof.
  intros [] []. split; cbn [cmul fst snd FN rmul rsub radd];
  [apply same64_sub|apply same64_add]; apply same64_mul; auto.
Qed.
Lemma same_c_eqb0 a b : same_c a b -> ceqb FN a (c0 FN) = ceqb FN b (c0 FN).
Proof.
  intros []. unfold ceqb, c0. cbn [fst snd FN reqb r0].
  apply f_equal2; apply same64_eqb0; auto.
Qed.

Lemma fsub_zero_r x s : fin64 x -> same64 (fsub x (S754_zero s)) x.
Proof.
  intros [V F]. destruct x as [t|t| |t m e]; try contradiction; cbn; auto with same.
  destruct (Bool.eqb t (negb s)); auto with same.
Qed.
Lemma fmul_opp_1 x : fin64 x -> fmul (fofZ (-1)) x = SFopp x.
Proof.
  intros [V F]. destruct x as [s|s| |s m e]; try contradiction; [destruct s; reflexivity|].
  change (fofZ (-1)) with (S754_finite true 4503599627370496 (-52)).
  apply fmul_exact; auto.
  replace (SF2R radix2 (S754_finite true 4503599627370496 (-52))) with (-1)%R.
  2:{ unfold SF2R, F2R; cbn [Fnum Fexp SpecFloat.cond_Zopp].
      change (-52) with (-(52)). rewrite bpow_opp. cbn. lra. }
  unfold SF2R, SFopp, F2R; cbn [Fnum Fexp]. 
  destruct s; cbn [negb SpecFloat.cond_Zopp]; rewrite <- ?Pos2Z.opp_pos, ?opp_IZR; ring.
Qed.
Lemma fin64_opp x : fin64 x -> fin64 (SFopp x).
Proof. intros [V F]; destruct x; split; auto. Qed.
Lemma opp_opp64 x : SFopp (SFopp x) = x.
Proof. destruct x; cbn; rewrite ?negb_involutive; reflexivity. Qed.
Lemma same64_opp a b : same64 a b -> same64 (SFopp a) (SFopp b).
Proof. intros [<-|(s & t & -> & ->)]; cbn; auto with same. Qed.

Definition neg_c (x : f64 * f64) : f64 * f64 := (SFopp (fst x), SFopp (snd x)).
(** The value the partner cell must have for symmetry [sym]. *)
Definition sgn_c (sym : Z) (x : f64 * f64) : f64 * f64 := if sym =? 1 then x else neg_c x.

Lemma cmul_sym sym p : sym = 1 \/ sym = -1 -> fin_c p -> same_c (cmul FN (cofZ FN sym) p) (sgn_c sym p).
Proof.
  destruct p as [p1 p2]. intros Hs [F1 F2]. cbn [fst snd] in F1, F2.
  assert (Z1 : exists u, fmul (S754_zero false) p2 = S754_zero u) by (apply fmul_zero_l; auto).
  assert (Z2 : exists u, fmul (S754_zero false) p1 = S754_zero u) by (apply fmul_zero_l; auto).
  destruct Z1 as [u1 Z1], Z2 as [u2 Z2].
  destruct Hs as [-> | ->]; unfold sgn_c; cbn [Z.eqb Pos.eqb]; split;
    cbn [cmul cofZ cofR fst snd FN rmul rsub radd rofZ r0 neg_c]; rewrite ?Z1, ?Z2, ?fmul_1_l, ?fmul_opp_1 by auto.
  - apply fsub_zero_r; auto.
  - apply fadd_zero_r; auto.
  - apply fsub_zero_r, fin64_opp; auto.
  - apply fadd_zero_r, fin64_opp; auto.
Qed.

(** double_sphere on a cell whose mirror image was not given (zero). *)
Lemma comb_zero sym t : sym = 1 \/ sym = -1 -> fin_c t ->
  same_c (ds_comb FN (cmul FN (cofZ FN sym) (c0 FN)) t) t.
Proof.
  destruct t as [t1 t2]. intros Hs F.
  assert (S0 : same_c (cmul FN (cofZ FN sym) (c0 FN)) (c0 FN)).
  { destruct Hs as [-> | ->]; split; cbn; auto with same. }
  unfold ds_comb. rewrite (same_c_eqb0 _ (cmul FN (c0 FN) (t1, t2))) by (apply same_c_mul; auto using same_c_refl).
  assert (P : same_c (cmul FN (c0 FN) (t1, t2)) (c0 FN)).
  { destruct F as [F1 F2]. cbn [fst snd] in F1, F2. split; cbn [cmul c0 fst snd FN rmul rsub radd r0].
    - destruct (fmul_zero_l _ false F1) as [u ->], (fmul_zero_l _ false F2) as [v ->].
      destruct (fsub_zero_zero u v) as [w ->]. auto with same.
    - destruct (fmul_zero_l _ false F1) as [u ->], (fmul_zero_l _ false F2) as [v ->].
      destruct (fadd_zero_zero v u) as [w ->]. auto with same. }
  rewrite (same_c_eqb0 _ _ P). change (ceqb FN (c0 FN) (c0 FN)) with true. cbn iota.
  eapply same_c_trans; [apply same_c_add; [exact S0|apply same_c_refl]|].
  destruct F as [F1 F2]. split; cbn [cadd c0 fst snd FN radd r0]; apply fadd_zero_l; auto.
Qed.

(** ... and on a cell whose mirror image has the matching value. *)
Lemma comb_pole sym p t : sym = 1 \/ sym = -1 -> fin_c t -> same_c p (sgn_c sym t) -> fin_c (cadd FN t t) ->
  let z := ds_comb FN (cmul FN (cofZ FN sym) p) t in
  if ceqb FN (cmul FN t t) (c0 FN) then same_c z (cadd FN t t) else same_c z t.
Proof.
  destruct t as [t1 t2]. intros Hs F SP F2. cbv zeta.
  assert (FS : fin_c (sgn_c sym (t1, t2))).
  { destruct F. destruct Hs as [-> | ->]; split; auto; apply fin64_opp; auto. }
  assert (S : same_c (cmul FN (cofZ FN sym) p) (t1, t2)).
  { eapply same_c_trans; [apply cmul_sym; auto; eapply same_c_fin; eauto|].
    destruct SP as [S1 S2]. destruct Hs as [-> | ->].
    - split; auto.
    - split; cbn [sgn_c Z.eqb neg_c fst snd] in *; [rewrite <- (opp_opp64 t1)|rewrite <- (opp_opp64 t2)]; apply same64_opp; auto. }
  unfold ds_comb.
  rewrite (same_c_eqb0 (cmul FN (cmul FN (cofZ FN sym) p) (t1, t2)) (cmul FN (t1, t2) (t1, t2)))
    by (apply same_c_mul; auto using same_c_refl).
  destruct (ceqb FN (cmul FN (t1, t2) (t1, t2)) (c0 FN)).
  - apply same_c_add; auto using same_c_refl.
  - unfold cdiv.
    eapply same_c_trans; [apply same_c_mul; [apply same_c_add; [exact S|apply same_c_refl]|apply same_c_refl]|].
    change (cinv FN (cofZ FN 2)) with (half64, S754_zero true).
    destruct F as [Fa Fb], F2 as [Fa2 Fb2]. cbn [cadd fst snd FN radd] in *.
    cbn [cmul cadd fst snd FN radd rmul rsub].
    destruct (fmul_zero_r _ true Fa2) as [u Eu], (fmul_zero_r _ true Fb2) as [v Ev].
    split; cbn [cmul cadd fst snd FN radd rmul rsub]; rewrite half_double, ?Eu, ?Ev by auto.
    + apply fsub_zero_r; auto.
    + apply fadd_zero_l; auto.
Qed.

(** ** The cells of a pattern built from single-sphere data *)

Lemma continue_cells sym (a : mat FN) : sym = 1 \/ sym = -1 -> mat_wf FN a -> 2 <= mt_nr FN a ->
  (forall i j, 0 <= i < mt_nr FN a -> 0 <= j < mt_nc FN a -> fin_c (mget FN a i j)) ->
  exists d, continue_sphere FN a sym = Ok d /\
    mt_nr FN (p_array FN d) = mt_nr FN a /\ mt_nc FN (p_array FN d) = mt_nc FN a /\
    (forall i j, 0 < i < mt_nr FN a - 1 -> 0 <= j < mt_nc FN a ->
       same_c (mget FN (p_array FN d) i j) (mget FN a i j)) /\
    (forall i j, i = 0 \/ i = mt_nr FN a - 1 -> 0 <= j < mt_nc FN a ->
       let t := mget FN a i j in
       same_c (mget FN a i (across_col (mt_nc FN a) j)) (sgn_c sym t) -> fin_c (cadd FN t t) ->
       if ceqb FN (cmul FN t t) (c0 FN) then same_c (mget FN (p_array FN d) i j) (cadd FN t t)
       else same_c (mget FN (p_array FN d) i j) t).
Proof.
  intros Hs W Hr F. unfold continue_sphere.
  destruct (Z.ltb_spec (mt_nr FN a - 2) 0); [lia|].
  set (nr := mt_nr FN a) in *. set (nc := mt_nc FN a) in *.
  set (dd := mmake FN (nr + (nr - 2)) nc _).
  eexists. split; [reflexivity|].
  assert (PA : p_array FN (double_sphere FN dd sym) = mmake FN nr nc (fun i j => mget FN (double_sphere FN dd sym) i j)).
  { unfold p_array, p_nrows, mrows. change (mt_nr FN (double_sphere FN dd sym)) with (nr + (nr - 2)).
    change (mt_nc FN (double_sphere FN dd sym)) with nc.
    replace ((nr + (nr - 2)) / 2 + 1) with nr.
    2:{ replace (nr + (nr - 2)) with ((nr - 1) * 2) by lia. rewrite Z.div_mul; lia. }
    replace (Z.max 0 (Z.min nr (nr + (nr - 2)))) with nr by lia. reflexivity. }
  rewrite PA. split; [reflexivity|]. split; [reflexivity|].
  assert (CELL : forall i j, 0 <= i < nr -> 0 <= j < nc ->
     mget FN (mmake FN nr nc (fun i j => mget FN (double_sphere FN dd sym) i j)) i j
     = ds_comb FN (cmul FN (cofZ FN sym) (mget FN dd ((2 * nr - 2 - i) mod (2 * nr - 2)) (across_col nc j))) (mget FN a i j)).
  { intros i j Hi Hj. rewrite mget_mmake by auto. unfold double_sphere.
    change (mt_nr FN dd) with (nr + (nr - 2)). change (mt_nc FN dd) with nc.
    rewrite mget_mmake by lia. unfold ds_partner.
    change (mt_nr FN dd) with (nr + (nr - 2)). change (mt_nc FN dd) with nc.
    replace (nr + (nr - 2)) with (2 * nr - 2) by lia.
    replace (mget FN dd i j) with (mget FN a i j); [reflexivity|].
    unfold dd. rewrite mget_mmake by lia. destruct (Z.ltb_spec i nr); [reflexivity|lia]. }
  assert (AC : forall j, 0 <= j < nc -> 0 <= across_col nc j < nc).
  { intros j Hj. apply Z.mod_pos_bound. lia. }
  split.
  - intros i j Hi Hj. rewrite CELL by lia.
    replace ((2 * nr - 2 - i) mod (2 * nr - 2)) with (2 * nr - 2 - i) by (rewrite Z.mod_small; lia).
    unfold dd. rewrite mget_mmake by (auto; lia).
    destruct (Z.ltb_spec (2 * nr - 2 - i) nr); [lia|]. apply comb_zero; auto. apply F; lia.
  - intros i j Hi Hj SP F2. rewrite CELL by lia.
    assert (E : mget FN dd ((2 * nr - 2 - i) mod (2 * nr - 2)) (across_col nc j) = mget FN a i (across_col nc j)).
    { replace ((2 * nr - 2 - i) mod (2 * nr - 2)) with i.
      2:{ destruct Hi as [-> | ->].
          - rewrite Z.sub_0_r, Z.mod_same; lia.
          - rewrite Z.mod_small; lia. }
      unfold dd. rewrite mget_mmake by (auto; lia). destruct (Z.ltb_spec i nr); [reflexivity|lia]. }
    rewrite E. apply comb_pole; auto. apply F; lia.
Qed.
