(** * P_Patt: properties C10 (patterns) and C17-C22.

    A pattern object is its doubled array [_dsphere] (two of them for the
    vector class); [p_array d] is the visible half returned by .array. *)
From Coq Require Import ZArith List String Bool Lia Permutation Reals Lra SpecFloat.
From Coquelicot Require Import Complex.
From Verif Require Import Py PyFacts Num Exact FloatN MCoefs SpecCoefs Obs CoefsFacts CoefsFacts2 CoefsFacts3
  MPatt SpecPatt PattFacts P_Coefs.
Import ListNotations.
Open Scope string_scope.
Open Scope list_scope.
Open Scope Z_scope.

(** ** C10 (pattern classes) *)

(** Division by the number 0 of a ScalarPatternUniform gives back an object
    whose data is an exception instance; the vector class raises. *)
Theorem C10_scalar_patt_div_zero : forall K (d : mat K) z, ceqb K z (c0 K) = true ->
  sp_op_left K OpDiv d (SPndNum K z) = Ok (PExc K).
Proof. intros K d z Hz. cbn. rewrite Hz. reflexivity. Qed.
Print Assumptions C10_scalar_patt_div_zero.

Theorem C10_vector_patt_div_zero : forall K (p : tpatt K) z, ceqb K z (c0 K) = true ->
  tp_op_left K OpDiv p (TPndNum K z) = Raise (AttributeError "no attribute 'shape'").
Proof. intros K p z Hz. cbn. rewrite Hz. reflexivity. Qed.
Print Assumptions C10_vector_patt_div_zero.

(** ** C17 *)

Lemma symmetric_1 d : symmetric 1 d <-> sphere_sym RN d.
Proof.
  unfold symmetric, sphere_sym. split; intros H i j Hi Hj; specialize (H i j Hi Hj).
  - etransitivity; [exact H|]. apply Cmult_1_l.
  - etransitivity; [exact H|]. symmetry. apply Cmult_1_l.
Qed.
Lemma Cmult_m1 (x : C) : (RtoC (IZR (-1)) * x)%C = (- x)%C.
Proof. apply injective_projections; cbn; ring. Qed.
Lemma symmetric_m1 d : symmetric (-1) d <-> sphere_antisym RN d.
Proof.
  unfold symmetric, sphere_antisym. split; intros H i j Hi Hj; specialize (H i j Hi Hj).
  - etransitivity; [exact H|]. apply Cmult_m1.
  - etransitivity; [exact H|]. symmetry. apply Cmult_m1.
Qed.

Lemma sv_loop_symmetric e d : (e = 1 \/ e = -1) -> symmetric e d -> sv_loop RN e d = 0%R.
Proof.
  intros He Hs. destruct (sv_loop_spec e d He) as (_ & _ & [E|(n & m & Hn & Hm & E)]); auto.
  etransitivity; [exact E|]. apply dev_zero_iff. unfold partner.
  etransitivity; [apply f_equal; exact (Hs n m Hn Hm)|].
  etransitivity; [apply Cmult_assoc|]. rewrite sign_sq by auto. apply Cmult_1_l.
Qed.

Lemma small_pos k : (0 < 1 / IZR (10 ^ Z.pos k))%R.
Proof. apply Rdiv_lt_0_compat; [lra|]. apply (IZR_lt 0). apply Z.pow_pos_nonneg; lia. Qed.

Theorem C17_scalar_constructor_symmetric : forall a : mat RN, mat_wf RN a ->
  2 <= mt_nr RN a -> mt_nc RN a mod 2 = 0 ->
  exists d, sp_new RN a false = Ok d /\ sphere_sym RN d /\
    sp_single_val RN d = 0%R /\ sp_is_symmetric RN d = true.
Proof.
  intros a Hw Hr Hc. destruct (continue_sphere_ok a 1 Hr) as (d & E & N1 & N2 & W & S & V).
  exists d. split; [exact E|]. specialize (S (or_introl eq_refl) Hc).
  assert (Z : sp_single_val RN d = 0%R) by (apply sv_loop_symmetric; auto).
  split; [now apply symmetric_1|]. split; [exact Z|].
  unfold sp_is_symmetric. rewrite Z. apply rltb_spec. apply (small_pos 14).
Qed.
Print Assumptions C17_scalar_constructor_symmetric.

Theorem C17_vector_constructor_antisymmetric : forall t p : mat RN, mat_wf RN t -> mat_wf RN p ->
  mt_nr RN t = mt_nr RN p -> mt_nc RN t = mt_nc RN p -> 2 <= mt_nr RN t -> mt_nc RN t mod 2 = 0 ->
  exists v, tp_new RN t p false = Ok v /\ sphere_antisym RN (tp_t RN v) /\ sphere_antisym RN (tp_p RN v) /\
    tp_single_val RN v = (0%R, 0%R) /\ tp_is_symmetric RN v = true.
Proof.
  intros t p Wt Wp E1 E2 Hr Hc.
  destruct (continue_sphere_ok t (-1) Hr) as (d & E & N1 & N2 & W & S & V).
  destruct (continue_sphere_ok p (-1)) as (d' & E' & N1' & N2' & W' & S' & V'); [lia|].
  specialize (S (or_intror eq_refl) Hc). rewrite E2 in Hc. specialize (S' (or_intror eq_refl) Hc).
  exists (mkTP RN d d'). unfold tp_new, same_shape. rewrite E1, E2, !Z.eqb_refl. cbn [andb negb].
  rewrite E, E'. split; [reflexivity|].
  split; [now apply symmetric_m1|]. split; [now apply symmetric_m1|].
  assert (Z : tp_single_val RN (mkTP RN d d') = (0%R, 0%R)).
  { unfold tp_single_val. cbn [tp_t]. rewrite sv_loop_symmetric by auto. reflexivity. }
  split; [exact Z|]. unfold tp_is_symmetric. rewrite Z. cbn [fst snd].
  pose proof (proj2 (rltb_spec 0%R _) (small_pos 13)) as Q. cbn [rc RN] in *. 
  apply andb_true_intro; split; exact Q.
Qed.
Print Assumptions C17_vector_constructor_antisymmetric.

(** Building a pattern from the visible array of a symmetric pattern gives
    that pattern back; in particular symmetrisation is idempotent. *)
Theorem C17_idempotent : forall a b : mat RN, mat_wf RN a -> mat_wf RN b ->
  2 <= mt_nr RN a -> mt_nc RN a mod 2 = 0 ->
  (forall d, sp_new RN a false = Ok d -> sp_new RN (p_array RN d) false = Ok d) /\
  (forall v, tp_new RN a b false = Ok v ->
     tp_new RN (p_array RN (tp_t RN v)) (p_array RN (tp_p RN v)) false = Ok v).
Proof.
  intros a b Hw Hwb Hr Hc. pose proof Hw as (Hw1 & Hw2 & Hw3). split.
  - intros d Hd. destruct (continue_sphere_ok a 1 Hr) as (d' & E & N1 & N2 & W & S & V).
    cbn [sp_new] in *. rewrite E in Hd. apply Ok_inj in Hd; subst d'.
    apply continue_sphere_array; auto; lia.
  - intros v Hv. unfold tp_new in Hv. destruct (same_shape RN a b) eqn:SS; [|discriminate].
    unfold same_shape in SS. apply andb_prop in SS. destruct SS as [S1 S2]. apply Z.eqb_eq in S1, S2.
    destruct (continue_sphere_ok a (-1) Hr) as (d & E & N1 & N2 & W & S & V).
    destruct (continue_sphere_ok b (-1)) as (d' & E' & N1' & N2' & W' & S' & V'); [lia|].
    cbn [negb] in Hv. rewrite E, E' in Hv. cbn [bind] in Hv. apply Ok_inj in Hv; subst v. cbn [tp_t tp_p].
    assert (B1 : mt_nr RN (p_array RN d) = mt_nr RN (p_array RN d')).
    { unfold p_array, mrows, p_nrows; cbn [mt_nr mmake]. rewrite N1, N1', S1. reflexivity. }
    assert (B2 : mt_nc RN (p_array RN d) = mt_nc RN (p_array RN d')).
    { unfold p_array, mrows; cbn [mt_nc mmake]. rewrite N2, N2'. auto. }
    unfold tp_new, same_shape. rewrite B1, B2, !Z.eqb_refl. cbn [andb negb].
    rewrite !continue_sphere_array; auto; try lia.
    + apply W'; lia.
    + apply S'; auto; lia.
Qed.
Print Assumptions C17_idempotent.

(** Arrays with fewer than two rows are rejected. *)
Theorem C17_too_few_rows : forall K (a : mat K), mt_nr K a < 2 -> is_ok (sp_new K a false) = false.
Proof. intros K a H. cbn. unfold continue_sphere. destruct (Z.ltb_spec (mt_nr K a - 2) 0); [auto|lia]. Qed.
Print Assumptions C17_too_few_rows.

Definition ex_arr : mat RN := mkMat RN 3 2 [(1,0);(2,0);(3,1);(4,0);(5,0);(5,0)]%R.
Example C17_nonvacuous : mat_wf RN ex_arr /\ 2 <= mt_nr RN ex_arr /\ mt_nc RN ex_arr mod 2 = 0.
Proof. split; [split; [|split]; cbn; auto; lia|]. split; [cbn; lia|reflexivity]. Qed.

(** An odd number of columns is accepted, but then no symmetry results. *)
Theorem C17_odd_columns_refuted : exists (a d : mat RN), mat_wf RN a /\ 2 <= mt_nr RN a /\
  sp_new RN a false = Ok d /\ ~ sphere_sym RN d.
Proof.
  exists (mkMat RN 2 3 [(1,0);(1,0);(1,0);(0,0);(1,0);(0,0)]%R).
  eexists. split; [split; [|split]; cbn; auto; lia|]. split; [cbn; lia|].
  split; [reflexivity|]. intros H. specialize (H 1 1 ltac:(cbn; lia) ltac:(cbn; lia)).
  change (ds_comb RN (RtoC 1 * RtoC 0)%C (RtoC 0) = ds_comb RN (RtoC 1 * RtoC 0)%C (RtoC 1)) in H.
  rewrite Cmult_0_r in H. rewrite !ds_comb_zero_l in H. apply (f_equal fst) in H. cbn in H. lra.
Qed.
Print Assumptions C17_odd_columns_refuted.

(** ** C18 *)

Theorem C18_scalar_data_returned : forall a : mat RN, mat_wf RN a -> 2 <= mt_nr RN a ->
  exists d, sp_new RN a false = Ok d /\
    p_nrows RN d = mt_nr RN a /\ p_ncols RN d = mt_nc RN a /\
    mt_nr RN (p_array RN d) = mt_nr RN a /\ mt_nc RN (p_array RN d) = mt_nc RN a /\
    (forall i j, 0 < i < mt_nr RN a - 1 -> 0 <= j < mt_nc RN a ->
       mget RN (p_array RN d) i j = mget RN a i j) /\
    (forall i j, i = 0 \/ i = mt_nr RN a - 1 -> 0 <= j < mt_nc RN a ->
       let s := mget RN a i (across_col (mt_nc RN a) j) in let t := mget RN a i j in
       (s = t -> mget RN (p_array RN d) i j = t) /\
    mget RN (p_array RN d) i j = (if Ceq_dec (s * t)%C (RtoC 0) then s + t else (s + t) / RtoC 2)%C).
Proof.
  intros a Hw Hr. destruct (continue_sphere_ok a 1 Hr) as (d & E & N1 & N2 & W & S & V).
  exists d. split; [exact E|].
  assert (Hn : p_nrows RN d = mt_nr RN a).
  { unfold p_nrows. rewrite N1. replace (2 * mt_nr RN a - 2) with ((mt_nr RN a - 1) * 2) by lia.
    rewrite Z.div_mul; lia. }
  split; [exact Hn|]. split; [exact N2|].
  split; [unfold p_array, mrows; cbn [mt_nr mmake]; lia|]. split; [exact N2|].
  assert (A : forall i j, 0 <= i < mt_nr RN a -> 0 <= j < mt_nc RN a -> mget RN (p_array RN d) i j = mget RN d i j).
  { intros i j Hi Hj. unfold p_array, mrows. apply mget_mmake; lia. }
  split.
  - intros i j Hi Hj. rewrite A by lia. rewrite V by lia.
    destruct (Z.eqb_spec i 0); [lia|]. destruct (Z.eqb_spec i (mt_nr RN a - 1)); [lia|]. reflexivity.
  - intros i j Hi Hj. rewrite A by lia. rewrite V by lia.
    replace ((i =? 0) || (i =? mt_nr RN a - 1)) with true by (destruct Hi; subst; lia).
    change (shiftc (mt_nc RN a) j) with (across_col (mt_nc RN a) j).
    set (s := mget RN a i (across_col _ j)). set (t := mget RN a i j). cbn zeta.
    split.
    + intros <-. etransitivity; [|apply ds_comb_same]. f_equal. apply Cmult_1_l.
    + etransitivity; [apply (f_equal (fun z => ds_comb RN z t)); apply Cmult_1_l|].
      rewrite ds_comb_eq. destruct (Ceq_dec (s * t)%C (RtoC 0)) as [Q|Q].
      * rewrite (proj2 (ceqb_spec _ _) Q). reflexivity.
      * destruct (ceqb RN (s * t)%C (RtoC 0)) eqn:B; [apply ceqb_spec in B; contradiction|reflexivity].
Qed.
Print Assumptions C18_scalar_data_returned.

Theorem C18_vector_data_returned : forall t p : mat RN, mat_wf RN t -> mat_wf RN p ->
  mt_nr RN t = mt_nr RN p -> mt_nc RN t = mt_nc RN p -> 2 <= mt_nr RN t ->
  exists v, tp_new RN t p false = Ok v /\
    (forall a d, (a = t /\ d = tp_t RN v) \/ (a = p /\ d = tp_p RN v) ->
      mt_nr RN (p_array RN d) = mt_nr RN a /\ mt_nc RN (p_array RN d) = mt_nc RN a /\
      (forall i j, 0 < i < mt_nr RN a - 1 -> 0 <= j < mt_nc RN a ->
         mget RN (p_array RN d) i j = mget RN a i j) /\
      (forall i j, i = 0 \/ i = mt_nr RN a - 1 -> 0 <= j < mt_nc RN a ->
         mget RN a i (across_col (mt_nc RN a) j) = copp RN (mget RN a i j) ->
         mget RN (p_array RN d) i j = mget RN a i j)).
Proof.
  intros t p Wt Wp E1 E2 Hr.
  destruct (continue_sphere_ok t (-1) Hr) as (d & E & N1 & N2 & W & S & V).
  destruct (continue_sphere_ok p (-1)) as (d' & E' & N1' & N2' & W' & S' & V'); [lia|].
  exists (mkTP RN d d'). unfold tp_new, same_shape. rewrite E1, E2, !Z.eqb_refl. cbn [andb negb].
  rewrite E, E'. split; [reflexivity|]. clear E E' S S' W W'.
  assert (G : forall a d, 2 <= mt_nr RN a -> mt_nr RN d = 2 * mt_nr RN a - 2 -> mt_nc RN d = mt_nc RN a ->
     (forall i j, 0 <= i < mt_nr RN a -> 0 <= j < mt_nc RN a ->
      mget RN d i j = if (i =? 0) || (i =? mt_nr RN a - 1)
                    then ds_comb RN (RtoC (IZR (-1)) * mget RN a i (shiftc (mt_nc RN a) j))%C (mget RN a i j)
                    else mget RN a i j) ->
      mt_nr RN (p_array RN d) = mt_nr RN a /\ mt_nc RN (p_array RN d) = mt_nc RN a /\
      (forall i j, 0 < i < mt_nr RN a - 1 -> 0 <= j < mt_nc RN a ->
         mget RN (p_array RN d) i j = mget RN a i j) /\
      (forall i j, i = 0 \/ i = mt_nr RN a - 1 -> 0 <= j < mt_nc RN a ->
         mget RN a i (across_col (mt_nc RN a) j) = copp RN (mget RN a i j) ->
         mget RN (p_array RN d) i j = mget RN a i j)).
  { clear. intros a d Hr N1 N2 V.
    assert (Hn : p_nrows RN d = mt_nr RN a).
    { unfold p_nrows. rewrite N1. replace (2 * mt_nr RN a - 2) with ((mt_nr RN a - 1) * 2) by lia.
      rewrite Z.div_mul; lia. }
    split; [unfold p_array, mrows; cbn [mt_nr mmake]; lia|]. split; [exact N2|].
    assert (A : forall i j, 0 <= i < mt_nr RN a -> 0 <= j < mt_nc RN a -> mget RN (p_array RN d) i j = mget RN d i j).
    { intros i j Hi Hj. unfold p_array, mrows. apply mget_mmake; lia. }
    split.
    - intros i j Hi Hj. rewrite A by lia. rewrite V by lia.
      destruct (Z.eqb_spec i 0); [lia|]. destruct (Z.eqb_spec i (mt_nr RN a - 1)); [lia|]. reflexivity.
    - intros i j Hi Hj Hs. rewrite A by lia. rewrite V by lia.
      replace ((i =? 0) || (i =? mt_nr RN a - 1)) with true by (destruct Hi; subst; lia).
      change (shiftc (mt_nc RN a) j) with (across_col (mt_nc RN a) j).
      etransitivity; [|apply ds_comb_same]. f_equal.
      etransitivity; [apply f_equal; exact Hs|]. apply injective_projections; cbn; ring. }
  intros a dd [[-> ->]|[-> ->]]; cbn [tp_t tp_p]; apply G; auto; lia.
Qed.
Print Assumptions C18_vector_data_returned.

Example C18_nonvacuous : mat_wf RN ex_arr /\ 2 <= mt_nr RN ex_arr /\
  mget RN ex_arr 2 (across_col 2 0) = mget RN ex_arr 2 0.
Proof. split; [split; [|split]; cbn; auto; lia|]. split; [cbn; lia|reflexivity]. Qed.

(** In binary64 the averaging rule fails for tiny pole values: the product
    underflows, and equal antipodal values 2^-700 come back doubled. *)
Theorem C18_float_pole_refuted : exists (a d : mat FN) (x : f64), mat_wf FN a /\ sphere_sym FN a /\
  sp_new FN a false = Ok d /\ mget FN a 0 0 = (x, fofZ 0) /\
  mget FN (p_array FN d) 0 0 = (fadd x x, fofZ 0) /\ SFeqb x (fadd x x) = false.
Proof.
  set (x := fscale 1 (-700)).
  exists (mmake FN 2 2 (fun _ _ => (x, fofZ 0))). eexists. exists x.
  split; [apply mmake_wf; lia|]. split.
  { intros i j Hi Hj. cbn [mt_nr mt_nc mmake] in *. unfold across_row, across_col.
    pose proof (Z.mod_pos_bound (2 - i) 2). pose proof (Z.mod_pos_bound (2 / 2 + j) 2).
    rewrite !mget_mmake by lia. reflexivity. }
  split; [reflexivity|]. vm_compute. auto.
Qed.
Print Assumptions C18_float_pole_refuted.

(** ** C19 *)

Lemma mzip_wf K f (a b : mat K) : mat_wf K a -> mat_wf K (mzip K f a b).
Proof. intros (A & B & _). apply mmake_wf; auto. Qed.
Lemma mmap1_wf K f (a : mat K) : mat_wf K a -> mat_wf K (mmap1 K f a).
Proof. intros (A & B & _). apply mmake_wf; auto. Qed.
Lemma across_range K (d : mat K) i j : 0 <= i < mt_nr K d -> 0 <= j < mt_nc K d ->
  0 <= across_row (mt_nr K d) i < mt_nr K d /\ 0 <= across_col (mt_nc K d) j < mt_nc K d.
Proof. intros. split; [apply flip_range; lia|apply shiftc_range; lia]. Qed.

Theorem C19_scalar_binary : forall K o (a b : mat K), mat_wf K a -> mat_wf K b ->
  (mt_nr K a = mt_nr K b /\ mt_nc K a = mt_nc K b ->
     exists d, sp_op_left K o a (SPndP K b) = Ok (PHolds K d) /\ mat_wf K d /\
       mt_nr K d = mt_nr K a /\ mt_nc K d = mt_nc K a /\
       (forall i j, 0 <= i < mt_nr K a -> 0 <= j < mt_nc K a ->
          mget K d i j = binop_fun K o (mget K a i j) (mget K b i j)) /\
       (sphere_sym K a -> sphere_sym K b -> sphere_sym K d)) /\
  (~ (mt_nr K a = mt_nr K b /\ mt_nc K a = mt_nc K b) ->
     sp_op_left K o a (SPndP K b) = Raise (ValueError "SP_sz_msmtch")) /\
  sp_op_left K o a (SPndOther K) = Raise (TypeError "no_combi_SP").
Proof.
  intros K o a b Wa Wb. split; [|split].
  - intros [E1 E2]. cbn [sp_op_left]. unfold same_shape. rewrite E1, E2, !Z.eqb_refl. cbn [andb].
    eexists; split; [reflexivity|]. split; [now apply mzip_wf|].
    split; [cbn; auto|]. split; [cbn; auto|].
    assert (V : forall i j, 0 <= i < mt_nr K a -> 0 <= j < mt_nc K a ->
          mget K (mzip K (binop_fun K o) a b) i j = binop_fun K o (mget K a i j) (mget K b i j)).
    { intros; now apply mzip_get. }
    split; [rewrite <- E1, <- E2; exact V|].
    intros Sa Sb i j Hi Hj. cbn [mt_nr mt_nc mzip mmake] in *.
    change (mt_nr K (mzip K (binop_fun K o) a b)) with (mt_nr K a) in *.
    change (mt_nc K (mzip K (binop_fun K o) a b)) with (mt_nc K a) in *.
    destruct (across_range K a i j Hi Hj). rewrite !V by auto.
    rewrite (Sa i j) by auto. rewrite E1, E2. rewrite (Sb i j) by lia. reflexivity.
  - intros H. cbn [sp_op_left]. unfold same_shape.
    destruct (Z.eqb_spec (mt_nr K a) (mt_nr K b)); [|reflexivity].
    destruct (Z.eqb_spec (mt_nc K a) (mt_nc K b)); [tauto|reflexivity].
  - reflexivity.
Qed.
Print Assumptions C19_scalar_binary.

Theorem C19_scalar_number : forall K o (a : mat K) z, mat_wf K a ->
  (o = OpDiv -> ceqb K z (c0 K) = false) ->
  (exists d, sp_op_left K o a (SPndNum K z) = Ok (PHolds K d) /\ mat_wf K d /\
     mt_nr K d = mt_nr K a /\ mt_nc K d = mt_nc K a /\
     (forall i j, 0 <= i < mt_nr K a -> 0 <= j < mt_nc K a -> mget K d i j = binop_fun K o (mget K a i j) z) /\
     (sphere_sym K a -> sphere_sym K d)) /\
  (exists d, sp_op_right K o a (SPndNum K z) = Ok (PHolds K d) /\ mat_wf K d /\
     mt_nr K d = mt_nr K a /\ mt_nc K d = mt_nc K a /\
     (forall i j, 0 <= i < mt_nr K a -> 0 <= j < mt_nc K a -> mget K d i j = binop_fun K o z (mget K a i j)) /\
     (sphere_sym K a -> sphere_sym K d)).
Proof.
  intros K o a z Wa Hz.
  assert (G : forall f, mat_wf K (mmap1 K f a) /\ mt_nr K (mmap1 K f a) = mt_nr K a /\ mt_nc K (mmap1 K f a) = mt_nc K a /\
     (forall i j, 0 <= i < mt_nr K a -> 0 <= j < mt_nc K a -> mget K (mmap1 K f a) i j = f (mget K a i j)) /\
     (sphere_sym K a -> sphere_sym K (mmap1 K f a))).
  { intros f. split; [now apply mmap1_wf|]. split; [reflexivity|]. split; [reflexivity|].
    assert (V : forall i j, 0 <= i < mt_nr K a -> 0 <= j < mt_nc K a -> mget K (mmap1 K f a) i j = f (mget K a i j)).
    { intros; now apply mmap1_get. }
    split; [exact V|]. intros Sa i j Hi Hj.
    change (mt_nr K (mmap1 K f a)) with (mt_nr K a) in *. change (mt_nc K (mmap1 K f a)) with (mt_nc K a) in *.
    destruct (across_range K a i j Hi Hj). rewrite !V by auto. rewrite (Sa i j) by auto. reflexivity. }
  split.
  - destruct o; try (eexists; split; [reflexivity|]; apply G).
    cbn [sp_op_left]. rewrite Hz by auto. eexists; split; [reflexivity|]; apply G.
  - eexists; split; [reflexivity|]; apply G.
Qed.
Print Assumptions C19_scalar_number.

(** Transverse patterns: cell-wise action on both components. *)
Theorem C19_vector_binary : forall K o (a b : tpatt K),
  mat_wf K (tp_t K a) -> mat_wf K (tp_p K a) -> mat_wf K (tp_t K b) -> mat_wf K (tp_p K b) ->
  same_shape K (tp_t K a) (tp_p K a) = true -> same_shape K (tp_t K b) (tp_p K b) = true ->
  (same_shape K (tp_t K a) (tp_t K b) = true ->
     exists r, tp_op_left K o a (TPndP K b) = Ok r /\
      same_shape K (tp_t K r) (tp_t K a) = true /\ same_shape K (tp_p K r) (tp_t K a) = true /\
      forall i j, 0 <= i < mt_nr K (tp_t K a) -> 0 <= j < mt_nc K (tp_t K a) ->
        mget K (tp_t K r) i j = binop_fun K o (mget K (tp_t K a) i j) (mget K (tp_t K b) i j) /\
        mget K (tp_p K r) i j = binop_fun K o (mget K (tp_p K a) i j) (mget K (tp_p K b) i j)) /\
  (same_shape K (tp_t K a) (tp_t K b) = false ->
     tp_op_left K o a (TPndP K b) = Raise (ValueError "VP_sz_msmtch")) /\
  tp_op_left K o a (TPndOther K) = Raise (TypeError "no_combi_VP").
Proof.
  intros K o a b W1 W2 W3 W4 Sa Sb. split; [|split].
  - intros S. cbn [tp_op_left]. rewrite S. unfold tp_new.
    assert (E : same_shape K (mzip K (binop_fun K o) (tp_t K a) (tp_t K b)) (mzip K (binop_fun K o) (tp_p K a) (tp_p K b)) = true).
    { unfold same_shape in *. cbn [mt_nr mt_nc mzip mmake]. exact Sa. }
    rewrite E. cbn [negb]. eexists; split; [reflexivity|]. cbn [tp_t tp_p].
    unfold same_shape in Sa. apply andb_prop in Sa. destruct Sa as [S1 S2].
    apply Z.eqb_eq in S1, S2.
    split; [unfold same_shape; cbn; rewrite !Z.eqb_refl; auto|].
    split; [unfold same_shape; cbn; rewrite S1, S2, !Z.eqb_refl; auto|].
    intros i j Hi Hj. split; apply mzip_get; auto; lia.
  - intros S. cbn [tp_op_left]. rewrite S. reflexivity.
  - reflexivity.
Qed.
Print Assumptions C19_vector_binary.

(** Sums, differences and scalings keep the antisymmetry (exact arithmetic);
    stated for one component array, which is how the operators act. *)
Theorem C19_vector_linear_antisym : forall (a b : tpatt RN) z (o : binop),
  sphere_antisym RN (tp_t RN a) -> sphere_antisym RN (tp_p RN a) ->
  sphere_antisym RN (tp_t RN b) -> sphere_antisym RN (tp_p RN b) ->
  same_shape RN (tp_t RN a) (tp_p RN a) = true ->
  same_shape RN (tp_t RN a) (tp_t RN b) = true -> same_shape RN (tp_p RN a) (tp_p RN b) = true ->
  (o = OpAdd \/ o = OpSub -> exists r, tp_op_left RN o a (TPndP RN b) = Ok r /\
     sphere_antisym RN (tp_t RN r) /\ sphere_antisym RN (tp_p RN r)) /\
  (o = OpMul \/ (o = OpDiv /\ z <> RtoC 0) -> exists r, tp_op_left RN o a (TPndNum RN z) = Ok r /\
     sphere_antisym RN (tp_t RN r) /\ sphere_antisym RN (tp_p RN r)).
Proof.
  intros a b z o A1 A2 B1 B2 S1 S2 S3.
  assert (SS : forall f g, same_shape RN (mzip RN f (tp_t RN a) (tp_t RN b)) (mzip RN g (tp_p RN a) (tp_p RN b)) = true).
  { intros. exact S1. }
  assert (SS1 : forall f g, same_shape RN (mmap1 RN f (tp_t RN a)) (mmap1 RN g (tp_p RN a)) = true).
  { intros. exact S1. }
  assert (Z2 : forall (x y : mat RN) f, same_shape RN x y = true -> sphere_antisym RN x -> sphere_antisym RN y ->
     (forall u v : C, f (- u)%C (- v)%C = (- f u v)%C) -> sphere_antisym RN (mzip RN f x y)).
  { clear. intros x y f S X Y F i j Hi Hj.
    change (mt_nr RN (mzip RN f x y)) with (mt_nr RN x) in *. change (mt_nc RN (mzip RN f x y)) with (mt_nc RN x) in *.
    destruct (across_range RN x i j Hi Hj). rewrite !mzip_get by auto.
    rewrite (X i j) by auto. unfold same_shape in S. apply andb_prop in S. destruct S as [E1 E2].
    apply Z.eqb_eq in E1, E2. rewrite E1, E2. rewrite (Y i j) by lia. apply F. }
  assert (Z1 : forall (x : mat RN) f, sphere_antisym RN x ->
     (forall u : C, f (- u)%C = (- f u)%C) -> sphere_antisym RN (mmap1 RN f x)).
  { clear. intros x f X F i j Hi Hj.
    change (mt_nr RN (mmap1 RN f x)) with (mt_nr RN x) in *. change (mt_nc RN (mmap1 RN f x)) with (mt_nc RN x) in *.
    destruct (across_range RN x i j Hi Hj). rewrite !mmap1_get by auto.
    rewrite (X i j) by auto. apply F. }
  split.
  - intros Ho. cbn [tp_op_left]. rewrite S2. unfold tp_new. rewrite SS. cbn [negb].
    eexists; split; [reflexivity|]. cbn [tp_t tp_p].
    assert (F : forall u v : C, binop_fun RN o (- u)%C (- v)%C = (- binop_fun RN o u v)%C).
    { intros u v. destruct Ho as [-> | ->]; apply injective_projections; cbn; ring. }
    split; apply Z2; auto.
  - intros Ho. assert (E : exists f, tp_op_left RN o a (TPndNum RN z) = Ok (mkTP RN (mmap1 RN f (tp_t RN a)) (mmap1 RN f (tp_p RN a)))
        /\ forall u : C, f (- u)%C = (- f u)%C).
    { destruct Ho as [-> | [-> Hz]]; cbn [tp_op_left].
      - unfold tp_new. rewrite SS1. cbn [negb]. eexists; split; [reflexivity|].
        intros u. apply injective_projections; cbn; ring.
      - destruct (ceqb RN z (c0 RN)) eqn:Q; [apply ceqb_spec in Q; contradiction|].
        unfold tp_new. rewrite SS1. cbn [negb]. eexists; split; [reflexivity|].
        intros u. cbn beta. etransitivity; [apply cdiv_RN|]. etransitivity; [|apply (f_equal Copp); symmetry; apply cdiv_RN].
        unfold Cdiv. apply injective_projections; cbn; ring. }
    destruct E as (f & E & F). exists (mkTP RN (mmap1 RN f (tp_t RN a)) (mmap1 RN f (tp_p RN a))).
    split; [exact E|]. split; apply Z1; auto.
Qed.
Print Assumptions C19_vector_linear_antisym.

(** The remaining operators do not: witnesses on a 2 x 2 doubled array. *)
Definition ex_anti : mat RN := mkMat RN 2 2 [(1,0);(-1,0);(2,0);(-2,0)]%R.
Lemma cases2 n : 0 <= n < 2 -> n = 0 \/ n = 1. Proof. lia. Qed.
Lemma ex_anti_ok : sphere_antisym RN ex_anti.
Proof.
  intros i j Hi Hj. cbn [mt_nr mt_nc ex_anti] in *.
  destruct (cases2 i Hi) as [-> | ->], (cases2 j Hj) as [-> | ->].
  - change ((-1, 0)%R = copp RN (1, 0)%R). apply injective_projections; cbn; lra.
  - change ((1, 0)%R = copp RN (-1, 0)%R). apply injective_projections; cbn; lra.
  - change ((-2, 0)%R = copp RN (2, 0)%R). apply injective_projections; cbn; lra.
  - change ((2, 0)%R = copp RN (-2, 0)%R). apply injective_projections; cbn; lra.
Qed.
Lemma ex_anti_nonzero i j : 0 <= i < 2 -> 0 <= j < 2 -> mget RN ex_anti i j <> RtoC 0.
Proof.
  intros Hi Hj Z. apply (f_equal fst) in Z.
  destruct (cases2 i Hi) as [-> | ->], (cases2 j Hj) as [-> | ->].
  - change (1 = 0)%R in Z. lra.
  - change (-1 = 0)%R in Z. lra.
  - change (2 = 0)%R in Z. lra.
  - change (-2 = 0)%R in Z. lra.
Qed.
Theorem C19_product_antisym_refuted : exists (a r : tpatt RN),
  sphere_antisym RN (tp_t RN a) /\ sphere_antisym RN (tp_p RN a) /\
  tp_op_left RN OpMul a (TPndP RN a) = Ok r /\ ~ sphere_antisym RN (tp_t RN r).
Proof.
  exists (mkTP RN ex_anti ex_anti). eexists. split; [exact ex_anti_ok|]. split; [exact ex_anti_ok|].
  split; [reflexivity|]. intros H. specialize (H 0 0 ltac:(cbn; lia) ltac:(cbn; lia)).
  change (cmul RN (-1,0)%R (-1,0)%R = copp RN (cmul RN (1,0)%R (1,0)%R)) in H.
  apply (f_equal fst) in H. cbn in H. lra.
Qed.
Print Assumptions C19_product_antisym_refuted.
Theorem C19_add_number_antisym_refuted : exists (a r : tpatt RN),
  sphere_antisym RN (tp_t RN a) /\ sphere_antisym RN (tp_p RN a) /\
  tp_op_left RN OpAdd a (TPndNum RN (RtoC 1)) = Ok r /\ ~ sphere_antisym RN (tp_t RN r).
Proof.
  exists (mkTP RN ex_anti ex_anti). eexists. split; [exact ex_anti_ok|]. split; [exact ex_anti_ok|].
  split; [reflexivity|]. intros H. specialize (H 0 0 ltac:(cbn; lia) ltac:(cbn; lia)).
  change (cadd RN (-1,0)%R (1,0)%R = copp RN (cadd RN (1,0)%R (1,0)%R)) in H.
  apply (f_equal fst) in H. cbn in H. lra.
Qed.
Print Assumptions C19_add_number_antisym_refuted.
Example C19_nonvacuous : sphere_antisym RN ex_anti /\ mat_wf RN ex_anti /\ same_shape RN ex_anti ex_anti = true.
Proof. split; [exact ex_anti_ok|]. split; [split; [|split]; cbn; auto; lia|reflexivity]. Qed.

(** ** C20 *)

(** single_val is the largest relative deviation: every cell t with partner s
    (after the sign) deviates by at most single_val, and the value is 0 or is
    attained. [dev s t] is |s-t|/|s|, or 1 / 0 when s = 0 and t is not / is 0. *)
Theorem C20_single_val_is_largest_deviation : forall d : mat RN,
  let s i j := mget RN d (across_row (mt_nr RN d) i) (across_col (mt_nc RN d) j) in
  (forall i j, 0 <= i < mt_nr RN d -> 0 <= j < mt_nc RN d ->
     (dev (s i j) (mget RN d i j) <= sp_single_val RN d)%R) /\
  (sp_single_val RN d = 0%R \/
   exists i j, 0 <= i < mt_nr RN d /\ 0 <= j < mt_nc RN d /\
     sp_single_val RN d = dev (s i j) (mget RN d i j)).
Proof.
  intros d s. destruct (sv_loop_spec 1 d (or_introl eq_refl)) as (_ & A & B).
  assert (P : forall i j, partner 1 d i j = s i j) by (intros; apply Cmult_1_l).
  split.
  - intros i j Hi Hj. rewrite <- P. apply A; auto.
  - destruct B as [B|(i & j & Hi & Hj & B)]; [now left|right]. exists i, j. rewrite <- P. auto.
Qed.
Print Assumptions C20_single_val_is_largest_deviation.

Lemma dev_lt s t eps : (0 < eps < 1)%R ->
  (dev s t < eps)%R <-> ((s = RtoC 0 /\ t = RtoC 0) \/ (s <> RtoC 0 /\ (Cmod (s - t)%C < eps * Cmod s)%R)).
Proof.
  intros He. unfold dev. destruct (Ceq_dec s (RtoC 0)) as [->|Hs].
  - destruct (Ceq_dec t (RtoC 0)) as [->|Ht].
    + split; [auto|lra].
    + split; [lra|]. intros [[_ H]|[H _]]; contradiction.
  - pose proof (proj1 (Cmod_gt_0 s) Hs). split.
    + intros H1. right. split; auto. apply (Rmult_lt_compat_r (Cmod s)) in H1; auto.
      unfold Rdiv in H1. rewrite Rmult_assoc, Rinv_l, Rmult_1_r in H1 by lra. exact H1.
    + intros [[H1 _]|[_ H1]]; [contradiction|]. apply (Rmult_lt_reg_r (Cmod s)); auto.
      unfold Rdiv. rewrite Rmult_assoc, Rinv_l, Rmult_1_r by lra. exact H1.
Qed.

Lemma sv_lt_iff e d eps : (e = 1 \/ e = -1) -> (0 < eps)%R ->
  (sv_loop RN e d < eps)%R <->
  forall i j, 0 <= i < mt_nr RN d -> 0 <= j < mt_nc RN d -> (dev (partner e d i j) (mget RN d i j) < eps)%R.
Proof.
  intros He Hp. destruct (sv_loop_spec e d He) as (P & A & B). split.
  - intros H i j Hi Hj. specialize (A i j Hi Hj). lra.
  - intros H. destruct B as [B|(i & j & Hi & Hj & B)].
    + rewrite B. auto.
    + rewrite B. auto.
Qed.

Lemma tol_range k : (0 < 1 / IZR (10 ^ Z.pos k) < 1)%R.
Proof.
  split; [apply small_pos|].
  assert (1 < 10 ^ Z.pos k) by (apply Z.pow_gt_1; lia). apply IZR_lt in H.
  apply (Rmult_lt_reg_r (IZR (10 ^ Z.pos k))); [lra|]. unfold Rdiv.
  rewrite Rmult_assoc, Rinv_l by lra. lra.
Qed.

Theorem C20_is_symmetric_iff : forall d : mat RN,
  sp_is_symmetric RN d = true <->
  forall i j, 0 <= i < mt_nr RN d -> 0 <= j < mt_nc RN d ->
    let s := mget RN d (across_row (mt_nr RN d) i) (across_col (mt_nc RN d) j) in
    let t := mget RN d i j in
    (s = RtoC 0 /\ t = RtoC 0) \/ (s <> RtoC 0 /\ (Cmod (s - t)%C < 1 / 10 ^ 14 * Cmod s)%R).
Proof.
  intros d. unfold sp_is_symmetric, sp_single_val.
  pose proof (rltb_spec (sv_loop RN 1 d) (rdiv RN (r1 RN) (rofZ RN (10 ^ 14)))) as Q.
  etransitivity; [exact Q|]. clear Q.
  change (rdiv RN (r1 RN) (rofZ RN (10 ^ 14))) with (1 / IZR (10 ^ Z.pos 14))%R.
  rewrite sv_lt_iff by (auto; apply small_pos).
  assert (T : (1 / IZR (10 ^ Z.pos 14) = 1 / 10 ^ 14)%R).
  { f_equal. replace (10 ^ Z.pos 14) with 100000000000000 by reflexivity. lra. }
  rewrite <- T.
  split; intros H i j Hi Hj; specialize (H i j Hi Hj).
  - cbn zeta. apply dev_lt; [apply tol_range|]. unfold partner in H. rewrite Cmult_1_l in H. exact H.
  - unfold partner. rewrite Cmult_1_l. apply dev_lt; [apply tol_range|]. exact H.
Qed.
Print Assumptions C20_is_symmetric_iff.

Theorem C20_vector_is_symmetric_iff : forall v : tpatt RN, let d := tp_t RN v in
  tp_is_symmetric RN v = true <->
  forall i j, 0 <= i < mt_nr RN d -> 0 <= j < mt_nc RN d ->
    let s := Copp (mget RN d (across_row (mt_nr RN d) i) (across_col (mt_nc RN d) j)) in
    let t := mget RN d i j in
    (s = RtoC 0 /\ t = RtoC 0) \/ (s <> RtoC 0 /\ (Cmod (s - t)%C < 1 / 10 ^ 13 * Cmod s)%R).
Proof.
  intros v d. unfold tp_is_symmetric, tp_single_val. cbn [fst snd]. fold d. rewrite Bool.andb_diag.
  pose proof (rltb_spec (sv_loop RN (-1) d) (rdiv RN (r1 RN) (rofZ RN (10 ^ 13)))) as Q.
  etransitivity; [exact Q|]. clear Q.
  change (rdiv RN (r1 RN) (rofZ RN (10 ^ 13))) with (1 / IZR (10 ^ Z.pos 13))%R.
  rewrite sv_lt_iff by (auto; apply small_pos).
  assert (T : (1 / IZR (10 ^ Z.pos 13) = 1 / 10 ^ 13)%R).
  { f_equal. replace (10 ^ Z.pos 13) with 10000000000000 by reflexivity. lra. }
  rewrite <- T.
  split; intros H i j Hi Hj; specialize (H i j Hi Hj).
  - cbn zeta. apply dev_lt; [apply tol_range|]. unfold partner in H. rewrite Cmult_m1 in H. exact H.
  - unfold partner. rewrite Cmult_m1. apply dev_lt; [apply tol_range|]. exact H.
Qed.
Print Assumptions C20_vector_is_symmetric_iff.

(** The phi component is never examined, so the natural claim fails. *)
Theorem C20_vector_phi_ignored : forall K (t p p' : mat K),
  tp_is_symmetric K (mkTP K t p) = tp_is_symmetric K (mkTP K t p') /\
  tp_single_val K (mkTP K t p) = tp_single_val K (mkTP K t p').
Proof. intros; split; reflexivity. Qed.
Print Assumptions C20_vector_phi_ignored.
Theorem C20_vector_decides_refuted : exists v : tpatt RN,
  tp_is_symmetric RN v = true /\ ~ sphere_antisym RN (tp_p RN v).
Proof.
  exists (mkTP RN ex_anti (mkMat RN 2 2 [(1,0);(1,0);(1,0);(1,0)]%R)). split.
  - apply C20_vector_is_symmetric_iff. cbn [tp_t mt_nr mt_nc ex_anti]. intros i j Hi Hj. cbn zeta.
    pose proof (ex_anti_ok i j Hi Hj) as E. cbn [mt_nr mt_nc ex_anti] in E.
    assert (NZ : (- mget RN ex_anti (across_row 2 i) (across_col 2 j))%C <> RtoC 0).
    { intros Z. apply (ex_anti_nonzero (across_row 2 i) (across_col 2 j)).
      - apply (flip_range 2); lia.
      - apply (shiftc_range 2); lia.
      - transitivity (- (- mget RN ex_anti (across_row 2 i) (across_col 2 j)))%C.
        + apply injective_projections; cbn; ring.
        + rewrite Z. apply injective_projections; cbn; ring. }
    right. split.
    + intros Z. revert Z. apply NZ.
    + replace (- mget RN ex_anti (across_row 2 i) (across_col 2 j) - mget RN ex_anti i j)%C with (RtoC 0).
      2:{ fold ex_anti. rewrite E. apply injective_projections; cbn; ring. }
      rewrite Cmod_0. apply Rmult_lt_0_compat; [lra|]. apply Cmod_gt_0. intros Z. revert Z. apply NZ.
  - intros H. specialize (H 0 0 ltac:(cbn; lia) ltac:(cbn; lia)). change ((1,0)%R = copp RN (1,0)%R) in H.
    apply (f_equal fst) in H. cbn in H. lra.
Qed.
Print Assumptions C20_vector_decides_refuted.

(** ** C21 *)

Lemma np_full_ok K nr nc x : 0 <= nr -> 0 <= nc -> np_full K nr nc x = Ok (mmake K nr nc (fun _ _ => x)).
Proof. intros; unfold np_full. replace ((nr <? 0) || (nc <? 0)) with false by lia. auto. Qed.

Theorem C21_factory_errors : forall K nrows ncols t x d1 d2,
  (ncols mod 2 = 1 -> const_patt_uniform K x nrows ncols t = Raise (ValueError "ncols_even") /\
     random_patt_uniform K d1 d2 nrows ncols t = Raise (ValueError "ncols_even")) /\
  (ncols mod 2 = 0 -> t <> 0 -> t <> 1 -> const_patt_uniform K x nrows ncols t = Raise (TypeError "ukn_patt_t") /\
     random_patt_uniform K d1 d2 nrows ncols t = Raise (TypeError "ukn_patt_t")).
Proof.
  intros. unfold const_patt_uniform, random_patt_uniform. split.
  - intros ->. split; reflexivity.
  - intros -> H0 H1. cbn [Z.eqb]. destruct (Z.eqb_spec t 0); [lia|]. destruct (Z.eqb_spec t 1); [lia|].
    cbn [orb]. split; [reflexivity|]. destruct (_ || _); reflexivity.
Qed.
Print Assumptions C21_factory_errors.

Lemma const_patt_ok K nrows ncols x : 2 <= nrows -> 0 <= ncols -> ncols mod 2 = 0 ->
  let d := mmake K (2 * nrows - 2) ncols (fun _ _ => x) in
  const_patt_uniform K x nrows ncols 0 = Ok (AnySP K d) /\
  const_patt_uniform K x nrows ncols 1 = Ok (AnyTP K (mkTP K d d)) /\
  p_nrows K d = nrows /\ p_ncols K d = ncols /\
  (forall i j, 0 <= i < 2 * nrows - 2 -> 0 <= j < ncols -> mget K d i j = x).
Proof.
  intros Hr Hc He d. unfold const_patt_uniform. rewrite He. cbn [Z.eqb].
  rewrite np_full_ok by lia. cbn [bind sp_new]. split; [reflexivity|].
  split.
  { unfold tp_new, same_shape. rewrite !Z.eqb_refl. reflexivity. }
  split.
  { unfold p_nrows, d. cbn [mt_nr mmake]. replace (2 * nrows - 2) with ((nrows - 1) * 2) by lia.
    rewrite Z.div_mul; lia. }
  split; [reflexivity|]. intros; unfold d; now apply mget_mmake.
Qed.

(** zeros / ones: the requested shape, every cell (of the doubled array, hence
    of .array) the constant, scalar symmetry always. *)
Theorem C21_constant_factories : forall K nrows ncols, 2 <= nrows -> 0 <= ncols -> ncols mod 2 = 0 ->
  forall x f, (x = c0 K /\ f = zeros_patt_uniform K) \/ (x = c1 K /\ f = ones_patt_uniform K) ->
  exists d, f nrows ncols 0 = Ok (AnySP K d) /\ f nrows ncols 1 = Ok (AnyTP K (mkTP K d d)) /\
    p_nrows K d = nrows /\ p_ncols K d = ncols /\
    mt_nr K (p_array K d) = nrows /\ mt_nc K (p_array K d) = ncols /\
    (forall i j, 0 <= i < nrows -> 0 <= j < ncols -> mget K (p_array K d) i j = x) /\
    sphere_sym K d.
Proof.
  intros K nrows ncols Hr Hc He x f Hf.
  destruct (const_patt_ok K nrows ncols x Hr Hc He) as (A & B & C1 & C2 & V).
  set (d := mmake K (2 * nrows - 2) ncols (fun _ _ => x)) in *. exists d.
  assert (F : f = const_patt_uniform K x) by (destruct Hf as [[-> ->]|[-> ->]]; reflexivity).
  rewrite F. do 4 (split; [assumption|]).
  assert (N : mt_nr K (p_array K d) = nrows).
  { unfold p_array, mrows. rewrite C1. cbn [mt_nr mmake]. unfold d; cbn [mt_nr mmake]. lia. }
  split; [exact N|]. split; [reflexivity|]. split.
  - intros i j Hi Hj. unfold p_array, mrows. rewrite C1. rewrite mget_mmake.
    + apply V; lia.
    + unfold d; cbn [mt_nr mmake]. lia.
    + auto.
  - intros i j Hi Hj. destruct (across_range K d i j Hi Hj) as [X Y].
    rewrite V by (unfold d in *; cbn [mt_nr mt_nc mmake] in *; lia).
    rewrite V by (unfold d in *; cbn [mt_nr mt_nc mmake] in *; lia). reflexivity.
Qed.
Print Assumptions C21_constant_factories.

Theorem C21_zeros_vector_antisym : forall nrows ncols, 2 <= nrows -> 0 <= ncols -> ncols mod 2 = 0 ->
  exists v, zeros_patt_uniform RN nrows ncols 1 = Ok (AnyTP RN v) /\
    sphere_antisym RN (tp_t RN v) /\ sphere_antisym RN (tp_p RN v).
Proof.
  intros nrows ncols Hr Hc He.
  destruct (const_patt_ok RN nrows ncols (c0 RN) Hr Hc He) as (A & B & C1 & C2 & V).
  eexists. split; [exact B|]. cbn [tp_t tp_p].
  match goal with |- ?P /\ _ => assert (X : P) end; [|split; exact X].
  intros i j Hi Hj. match goal with |- mget RN ?d _ _ = _ => destruct (across_range RN d i j Hi Hj) as [X Y] end.
  rewrite V by (cbn [mt_nr mt_nc mmake] in *; lia).
  rewrite V by (cbn [mt_nr mt_nc mmake] in *; lia). apply injective_projections; cbn; ring.
Qed.
Print Assumptions C21_zeros_vector_antisym.

(** ones of the vector type is never antisymmetric. *)
Theorem C21_ones_vector_refuted : forall nrows ncols, 2 <= nrows -> 0 < ncols -> ncols mod 2 = 0 ->
  exists v, ones_patt_uniform RN nrows ncols 1 = Ok (AnyTP RN v) /\
    ~ sphere_antisym RN (tp_t RN v) /\ tp_is_symmetric RN v = false.
Proof.
  intros nrows ncols Hr Hc He.
  destruct (const_patt_ok RN nrows ncols (c1 RN) Hr ltac:(lia) He) as (A & B & C1 & C2 & V).
  set (d := mmake RN (2 * nrows - 2) ncols (fun _ _ => c1 RN)) in *.
  exists (mkTP RN d d). split; [exact B|].
  assert (D : mt_nr RN d = 2 * nrows - 2 /\ mt_nc RN d = ncols) by (split; reflexivity).
  destruct (across_range RN d 0 0 ltac:(lia) ltac:(lia)) as [X Y]. cbn [tp_t].
  split.
  - intros H. specialize (H 0 0 ltac:(lia) ltac:(lia)).
    rewrite !V in H by lia. apply (f_equal fst) in H. cbn in H. lra.
  - destruct (tp_is_symmetric RN (mkTP RN d d)) eqn:Q; auto. exfalso.
    apply (proj1 (C20_vector_is_symmetric_iff _)) with (i := 0) (j := 0) in Q; cbn [tp_t]; try lia.
    cbn [tp_t] in Q. rewrite !V in Q by lia.
    destruct Q as [[Q _]|[_ Q]].
    + apply (f_equal fst) in Q. cbn in Q. lra.
    + replace (- c1 RN - c1 RN)%C with (RtoC (-2)) in Q by (apply injective_projections; cbn; ring).
      replace (- c1 RN)%C with (RtoC (-1)) in Q by (apply injective_projections; cbn; ring).
      rewrite !Cmod_R in Q. rewrite (Rabs_left (-2)), (Rabs_left (-1)) in Q by lra. lra.
Qed.
Print Assumptions C21_ones_vector_refuted.

(** random: the constructor applied to the draws. *)
Theorem C21_random : forall d1 d2 nrows ncols, 2 <= nrows -> 0 <= ncols -> ncols mod 2 = 0 ->
  (exists d, random_patt_uniform RN d1 d2 nrows ncols 0 = Ok (AnySP RN d) /\
     p_nrows RN d = nrows /\ p_ncols RN d = ncols /\ sphere_sym RN d /\
     forall i j, 0 < i < nrows - 1 -> 0 <= j < ncols -> mget RN (p_array RN d) i j = d1 (i * ncols + j)) /\
  (exists v, random_patt_uniform RN d1 d2 nrows ncols 1 = Ok (AnyTP RN v) /\
     p_nrows RN (tp_t RN v) = nrows /\ p_ncols RN (tp_t RN v) = ncols /\
     sphere_antisym RN (tp_t RN v) /\ sphere_antisym RN (tp_p RN v) /\
     forall i j, 0 < i < nrows - 1 -> 0 <= j < ncols ->
       mget RN (p_array RN (tp_t RN v)) i j = d1 (i * ncols + j) /\
       mget RN (p_array RN (tp_p RN v)) i j = d2 (i * ncols + j)).
Proof.
  intros d1 d2 nrows ncols Hr Hc He.
  assert (W : forall f, mat_wf RN (mkMat RN nrows ncols (vmake (nrows * ncols) f))).
  { intros. split; [|split]; cbn [mt_nr mt_nc mt_dat]; try lia. rewrite zlen_vmake. nia. }
  assert (G : forall f i j, 0 <= i < nrows -> 0 <= j < ncols ->
     mget RN (mkMat RN nrows ncols (vmake (nrows * ncols) f)) i j = f (i * ncols + j)).
  { intros f i j Hi Hj. unfold mget; cbn [mt_dat mt_nc]. apply vget_vmake; nia. }
  unfold random_patt_uniform. rewrite He. replace ((nrows <? 0) || (ncols <? 0)) with false by lia.
  cbn [Z.eqb]. split.
  - destruct (C18_scalar_data_returned _ (W d1)) as (d & E & A1 & A2 & A3 & A4 & A5 & _); [cbn; lia|].
    destruct (C17_scalar_constructor_symmetric _ (W d1)) as (d' & E' & S & _); [cbn; lia|exact He|].
    rewrite E in E'. apply Ok_inj in E'; subst d'.
    exists d. rewrite E. split; [reflexivity|]. split; [exact A1|]. split; [exact A2|]. split; [exact S|].
    intros i j Hi Hj. etransitivity; [apply A5; auto|]. apply G; lia.
  - destruct (C18_vector_data_returned _ _ (W d1) (W d2) eq_refl eq_refl) as (v & E & A); [cbn; lia|].
    destruct (C17_vector_constructor_antisymmetric _ _ (W d1) (W d2) eq_refl eq_refl) as (v' & E' & S1 & S2 & _); [cbn; lia|exact He|].
    rewrite E in E'. apply Ok_inj in E'; subst v'.
    exists v. rewrite E. split; [reflexivity|].
    destruct (A _ _ (or_introl (conj eq_refl eq_refl))) as (B1 & B2 & B3 & _).
    destruct (A _ _ (or_intror (conj eq_refl eq_refl))) as (D1 & D2 & D3 & _).
    cbn [mt_nr mt_nc] in *.
    assert (N : p_nrows RN (tp_t RN v) = nrows).
    { unfold tp_new, same_shape in E. cbn [mt_nr mt_nc] in E. rewrite !Z.eqb_refl in E. cbn [andb negb] in E.
      destruct (continue_sphere_ok (mkMat RN nrows ncols (vmake (nrows * ncols) d1)) (-1)) as (q & Q & N1 & N2 & _); [cbn; lia|].
      destruct (continue_sphere_ok (mkMat RN nrows ncols (vmake (nrows * ncols) d2)) (-1)) as (q' & Q' & _); [cbn; lia|].
      cbn [rc RN] in *. rewrite Q, Q' in E. cbn [bind] in E. apply Ok_inj in E. subst v. cbn [tp_t].
      unfold p_nrows. rewrite N1. cbn [mt_nr]. replace (2 * nrows - 2) with ((nrows - 1) * 2) by lia.
      rewrite Z.div_mul; lia. }
    split; [exact N|]. split; [exact B2|]. split; [exact S1|]. split; [exact S2|].
    intros i j Hi Hj. split.
    + etransitivity; [apply B3; auto|]. apply G; lia.
    + etransitivity; [apply D3; auto|]. apply G; lia.
Qed.
Print Assumptions C21_random.
Example C21_nonvacuous : 2 <= 3 /\ 0 <= 4 /\ 4 mod 2 = 0 /\ 5 mod 2 = 1.
Proof. repeat split; lia. Qed.

(** ** C22 *)

Lemma reads_of_cval (c r : scoefs RN) (f : C -> C) : sc_wf RN c -> sc_wf RN r ->
  sc_nmax RN r = sc_nmax RN c -> sc_mmax RN r = sc_mmax RN c ->
  (forall n m, is_mode (sc_nmax RN c) (sc_mmax RN c) n m -> cval RN r n m = f (cval RN c n m)) ->
  forall n m x, reads RN c n m x -> reads RN r n m (f x).
Proof.
  intros Wc Wr E1 E2 H n m x Hx. apply reads_inv in Hx; [|now apply valid_wf]. destruct Hx as [Hm ->].
  apply reads_iff; [now apply valid_wf|]. rewrite E1, E2. split; auto. symmetry; auto.
Qed.

(** abs and mag of a scalar object are the pointwise modulus. *)
Theorem C22_abs_mag_scalar : forall f, f = sp_abs RN \/ f = sp_mag RN ->
  (forall d : mat RN, exists a, f (OSP RN d) = Ok (MArr RN a) /\
     mt_nr RN a = mt_nr RN (p_array RN d) /\ mt_nc RN a = mt_nc RN (p_array RN d) /\
     forall i j, 0 <= i < mt_nr RN a -> 0 <= j < mt_nc RN a ->
       mget RN a i j = RtoC (Cmod (mget RN (p_array RN d) i j))) /\
  (forall c : scoefs RN, valid RN c -> exists r, f (OSC RN c) = Ok (MCoef RN r) /\ valid RN r /\
     sc_nmax RN r = sc_nmax RN c /\ sc_mmax RN r = sc_mmax RN c /\
     forall n m x, reads RN c n m x -> reads RN r n m (RtoC (Cmod x))).
Proof.
  intros f Hf. split.
  - intros d. exists (mmap1 RN (habs RN) (p_array RN d)).
    split; [destruct Hf as [-> | ->]; reflexivity|]. split; [reflexivity|]. split; [reflexivity|].
    intros i j Hi Hj. rewrite mmap1_get by auto. unfold habs. rewrite cabs_RN. reflexivity.
  - intros c Hc. apply valid_wf in Hc. destruct (sc_op_map_ok RN c (habs RN) Hc) as (r & E & W & N1 & N2 & V).
    exists r. split; [destruct Hf as [-> | ->]; cbn [sp_abs sp_mag]; rewrite E; reflexivity|].
    split; [now apply valid_wf|]. split; auto. split; auto.
    apply reads_of_cval; auto. intros n m Hm. rewrite V by auto. unfold habs. rewrite cabs_RN. reflexivity.
Qed.
Print Assumptions C22_abs_mag_scalar.

Lemma sp_abs_vector_raises : forall K p c, sp_abs K (OTP K p) = Raise (TypeError "uknown_typ") /\
  sp_abs K (OVC K c) = Raise (TypeError "uknown_typ").
Proof. intros; split; reflexivity. Qed.

Lemma cabs2_RN (x : C) : cabs2 RN x = (Cmod x ^ 2)%R.
Proof. unfold cabs2. rewrite cabs_RN. cbn. ring. Qed.

(** Vector objects: mag2 = |x|^2+|y|^2, mag = its root; scalar patterns: mag2 = |x|^2. *)
Theorem C22_mag_patterns :
  (forall d : mat RN, exists a, sp_mag2 RN (OSP RN d) = Ok (MArr RN a) /\
     mt_nr RN a = mt_nr RN (p_array RN d) /\ mt_nc RN a = mt_nc RN (p_array RN d) /\
     forall i j, 0 <= i < mt_nr RN a -> 0 <= j < mt_nc RN a ->
       mget RN a i j = RtoC (Cmod (mget RN (p_array RN d) i j) ^ 2)) /\
  (forall v : tpatt RN, mt_nr RN (tp_t RN v) = mt_nr RN (tp_p RN v) -> mt_nc RN (tp_t RN v) = mt_nc RN (tp_p RN v) ->
     exists a b, sp_mag2 RN (OTP RN v) = Ok (MArr RN a) /\ sp_mag RN (OTP RN v) = Ok (MArr RN b) /\
     mt_nr RN a = mt_nr RN (p_array RN (tp_t RN v)) /\ mt_nc RN a = mt_nc RN (p_array RN (tp_t RN v)) /\
     mt_nr RN b = mt_nr RN a /\ mt_nc RN b = mt_nc RN a /\
     forall i j, 0 <= i < mt_nr RN a -> 0 <= j < mt_nc RN a ->
       let s := (Cmod (mget RN (p_array RN (tp_t RN v)) i j) ^ 2 + Cmod (mget RN (p_array RN (tp_p RN v)) i j) ^ 2)%R in
       mget RN a i j = RtoC s /\ mget RN b i j = RtoC (sqrt s)).
Proof.
  split.
  - intros d. eexists. split; [reflexivity|]. split; [reflexivity|]. split; [reflexivity|].
    intros i j Hi Hj. rewrite mmap1_get by auto. unfold habs2. rewrite cabs2_RN. reflexivity.
  - intros v E1 E2.
    assert (A1 : mt_nr RN (p_array RN (tp_p RN v)) = mt_nr RN (p_array RN (tp_t RN v))).
    { unfold p_array, mrows, p_nrows; cbn [mt_nr mmake]. rewrite E1. reflexivity. }
    assert (A2 : mt_nc RN (p_array RN (tp_p RN v)) = mt_nc RN (p_array RN (tp_t RN v))).
    { unfold p_array, mrows; cbn [mt_nc mmake]. rewrite E2. reflexivity. }
    eexists. eexists. split; [reflexivity|]. split; [reflexivity|].
    do 4 (split; [reflexivity|]).
    intros i j Hi Hj. cbn zeta.
    change (mt_nr RN (mzip RN ?f ?a ?b)) with (mt_nr RN a) in *.
    change (mt_nc RN (mzip RN ?f ?a ?b)) with (mt_nc RN a) in *.
    change (mt_nr RN (mmap1 RN ?f ?a)) with (mt_nr RN a) in *.
    change (mt_nc RN (mmap1 RN ?f ?a)) with (mt_nc RN a) in *.
    assert (G : mget RN (mzip RN (cadd RN) (mmap1 RN (habs2 RN) (p_array RN (tp_t RN v)))
                                           (mmap1 RN (habs2 RN) (p_array RN (tp_p RN v)))) i j =
       RtoC (Cmod (mget RN (p_array RN (tp_t RN v)) i j) ^ 2 + Cmod (mget RN (p_array RN (tp_p RN v)) i j) ^ 2)).
    { rewrite mzip_get by auto. rewrite !mmap1_get by lia. unfold habs2. rewrite !cabs2_RN.
      symmetry. apply RtoC_plus. }
    split; [exact G|]. rewrite mmap1_get by auto. rewrite G. reflexivity.
Qed.
Print Assumptions C22_mag_patterns.

Theorem C22_mag_vector_coefs : forall c : vcoefs RN, vvalid RN c ->
  exists a b, sp_mag2 RN (OVC RN c) = Ok (MCoef RN a) /\ sp_mag RN (OVC RN c) = Ok (MCoef RN b) /\
    valid RN a /\ valid RN b /\ sc_nmax RN a = vc_nmax RN c /\ sc_mmax RN a = vc_mmax RN c /\
    sc_nmax RN b = vc_nmax RN c /\ sc_mmax RN b = vc_mmax RN c /\
    forall n m x y, reads RN (vc_1 RN c) n m x -> reads RN (vc_2 RN c) n m y ->
      let s := (Cmod x ^ 2 + Cmod y ^ 2)%R in
      reads RN a n m (RtoC s) /\ reads RN b n m (RtoC (sqrt s)).
Proof.
  intros c Hc. apply vvalid_wf in Hc. destruct Hc as (W1 & W2 & A1 & A2 & A3 & A4 & _).
  destruct (sc_op_map_ok RN (vc_1 RN c) (habs2 RN) W1) as (p & Ep & Wp & P1 & P2 & Vp).
  destruct (sc_op_map_ok RN (vc_2 RN c) (habs2 RN) W2) as (q & Eq & Wq & Q1 & Q2 & Vq).
  apply sc_new_inv in Ep. destruct Ep as (Ep & _). apply sc_new_inv in Eq. destruct Eq as (Eq & _).
  assert (L : zlen (map (habs2 RN) (sc_vec RN (vc_1 RN c))) = zlen (map (habs2 RN) (sc_vec RN (vc_2 RN c)))).
  { rewrite !zlen_map. destruct W1 as [_ ->], W2 as [_ ->]. congruence. }
  pose proof (sc_op_left_SC RN OpAdd p q Wp Wq ltac:(congruence) ltac:(congruence)) as (r & Er & Wr & R1 & R2 & Vr).
  assert (Er' : sc_new RN (zip_with (cadd RN) (map (habs2 RN) (sc_vec RN (vc_1 RN c))) (map (habs2 RN) (sc_vec RN (vc_2 RN c))))
      (vc_nmax RN c) (vc_mmax RN c) = Ok r).
  { subst p q. cbn [sc_op_left sc_vec sc_nmax sc_mmax] in Er. rewrite L, Z.eqb_refl in Er.
    rewrite np_broadcast_eq in Er by exact L. cbn [bind] in Er. rewrite A1, A2 in Er. exact Er. }
  destruct (sc_op_map_ok RN r (hsqrt RN) Wr) as (b & Eb & Wb & B1 & B2 & Vb).
  assert (N1 : sc_nmax RN r = vc_nmax RN c) by congruence.
  assert (N2 : sc_mmax RN r = vc_mmax RN c) by congruence.
  exists r, b. assert (M2 : sp_mag2 RN (OVC RN c) = Ok (MCoef RN r)).
  { cbn [sp_mag2]. rewrite np_broadcast_eq by exact L. cbn [bind]. rewrite Er'. reflexivity. }
  split; [exact M2|]. split.
  { unfold sp_mag. rewrite M2. cbn [bind]. rewrite N1, N2 in Eb. rewrite Eb. reflexivity. }
  split; [now apply valid_wf|]. split; [now apply valid_wf|].
  split; [exact N1|]. split; [exact N2|]. split; [congruence|]. split; [congruence|].
  intros n m x y Hx Hy. cbn zeta.
  apply reads_inv in Hx; [|now apply valid_wf]. apply reads_inv in Hy; [|now apply valid_wf].
  destruct Hx as [Hm ->], Hy as [Hm' ->].
  assert (Hr : cval RN r n m = RtoC (Cmod (cval RN (vc_1 RN c) n m) ^ 2 + Cmod (cval RN (vc_2 RN c) n m) ^ 2)).
  { rewrite Vr by (rewrite P1, P2; auto). rewrite Vp, Vq by auto. unfold habs2. rewrite !cabs2_RN.
    symmetry; apply RtoC_plus. }
  rewrite A1, A2 in Hm. split; apply reads_iff; try (now apply valid_wf).
  - rewrite N1, N2. split; auto.
  - rewrite B1, B2, N1, N2. split; auto. rewrite Vb by (rewrite N1, N2; auto). rewrite Hr. reflexivity.
Qed.
Print Assumptions C22_mag_vector_coefs.

(** mag2 of ScalarCoefs is not the squared magnitude. *)
Theorem C22_mag2_scalar_coefs_is_mag : forall c : scoefs RN, sp_mag2 RN (OSC RN c) = sp_mag RN (OSC RN c).
Proof. reflexivity. Qed.
Print Assumptions C22_mag2_scalar_coefs_is_mag.
Theorem C22_mag2_scalar_coefs_refuted : exists (c r : scoefs RN) x, valid RN c /\
  sp_mag2 RN (OSC RN c) = Ok (MCoef RN r) /\ reads RN c 0 0 x /\ ~ reads RN r 0 0 (RtoC (Cmod x ^ 2)).
Proof.
  exists (mkSC RN [(2,0)%R] 0 0). eexists. exists (2,0)%R.
  split; [split; [cbn; lia|reflexivity]|]. split; [reflexivity|]. split; [reflexivity|].
  intros H. unfold reads in H. cbn [sc_getitem] in H.
  assert (Q : habs RN (2,0)%R = RtoC (Cmod (2,0)%R ^ 2)).
  { change (Ok (ItElem RN (habs RN (2,0)%R)) = Ok (ItElem RN (RtoC (Cmod (2,0)%R ^ 2)))) in H. congruence. }
  unfold habs in Q. rewrite cabs_RN in Q. apply (f_equal fst) in Q.
  change (2,0)%R with (RtoC 2) in Q. rewrite Cmod_R, Rabs_pos_eq in Q by lra. cbn in Q. lra.
Qed.
Print Assumptions C22_mag2_scalar_coefs_refuted.

(** *** Euclidean norms *)

Lemma l2_sq (v : list C) : (0 <= l2 RN v)%R /\ (l2 RN v ^ 2 = sum_sq v)%R.
Proof.
  unfold l2. rewrite l2_sq_sum. change (rsqrt RN) with sqrt. split; [apply sqrt_pos|].
  apply pow2_sqrt. apply sq_sum_nonneg.
Qed.
Lemma l2_zero (v : list C) : l2 RN v = 0%R <-> forall x, In x v -> x = RtoC 0.
Proof.
  destruct (l2_sq v) as [P S]. rewrite <- sq_sum_zero. fold (sum_sq v). rewrite <- S. split.
  - intros ->. ring.
  - set (z := l2 RN v) in *. clearbody z. intros E. assert ((z * z = 0)%R) by (rewrite <- E; ring).
    apply Rmult_integral in H. tauto.
Qed.
Lemma sum_sq_perm l l' : Permutation l l' -> sum_sq l = sum_sq l'.
Proof. unfold sum_sq. induction 1; cbn [fold_right]; lra. Qed.

Definition mode_values (c : scoefs RN) (f : Z -> Z -> C) : list C :=
  map (fun p => f (fst p) (snd p)) (all_modes (sc_nmax RN c) (sc_mmax RN c)).

Lemma mode_values_perm c f : valid RN c ->
  (forall n m, is_mode (sc_nmax RN c) (sc_mmax RN c) n m -> reads RN c n m (f n m)) ->
  Permutation (mode_values c f) (sc_vec RN c).
Proof.
  intros Hv Hf. unfold mode_values.
  rewrite <- (sc_vec_perm RN c) by now apply valid_wf.
  apply Permutation_refl'. apply map_ext_in. intros [n m] Hin. apply In_all_modes in Hin. cbn [fst snd].
  specialize (Hf n m Hin). apply reads_inv in Hf; auto. tauto.
Qed.

(** L2_coef of scalar coefficients: root of the sum over all modes of |c|^2;
    zero exactly when every coefficient is zero. *)
Theorem C22_L2_coef : forall (c : scoefs RN) f, valid RN c ->
  (forall n m, is_mode (sc_nmax RN c) (sc_mmax RN c) n m -> reads RN c n m (f n m)) ->
  (0 <= L2_coef_s RN c)%R /\ (L2_coef_s RN c ^ 2)%R = sum_sq (mode_values c f) /\
  (L2_coef_s RN c = 0%R <-> forall n m, is_mode (sc_nmax RN c) (sc_mmax RN c) n m -> f n m = RtoC 0).
Proof.
  intros c f Hv Hf. pose proof (mode_values_perm c f Hv Hf) as P. unfold L2_coef_s.
  destruct (l2_sq (sc_vec RN c)) as [A B]. split; [exact A|]. split.
  - rewrite (sum_sq_perm _ _ P). exact B.
  - etransitivity; [apply l2_zero|]. split.
    + intros H n m Hm. apply H. eapply Permutation_in; [exact P|].
      unfold mode_values. apply in_map_iff. exists (n, m). split; auto. now apply In_all_modes.
    + intros H x Hx. apply (Permutation_in _ (Permutation_sym P)) in Hx.
      unfold mode_values in Hx. apply in_map_iff in Hx. destruct Hx as ((n, m) & <- & Hin).
      apply In_all_modes in Hin. cbn. auto.
Qed.
Print Assumptions C22_L2_coef.

(** The vector version only looks at scoef1. *)
Theorem C22_L2_vector_coefs_exact : forall c : vcoefs RN,
  L2_coef_v RN c = (sqrt 2 * L2_coef_s RN (vc_1 RN c))%R.
Proof.
  intros c. unfold L2_coef_v, L2_coef_s, hypot2. destruct (l2_sq (sc_vec RN (vc_1 RN c))) as [P _].
  set (x := l2 RN _) in *. change (rsqrt RN) with sqrt. change (radd RN) with Rplus. change (rmul RN) with Rmult.
  replace (x * x + x * x)%R with (2 * (x * x))%R by ring.
  rewrite sqrt_mult by nra. rewrite sqrt_square by auto. reflexivity.
Qed.
Print Assumptions C22_L2_vector_coefs_exact.
Theorem C22_L2_vector_coefs_refuted : exists (c : vcoefs RN) x, vvalid RN c /\
  vreads RN c 1 0 (RtoC 0) x /\ x <> RtoC 0 /\ L2_coef_v RN c = 0%R.
Proof.
  exists (mkVC RN (mkSC RN [(0,0);(0,0)]%R 1 0) (mkSC RN [(0,0);(1,0)]%R 1 0) 1 0), (1,0)%R.
  split; [repeat split; cbn; try lia; reflexivity|]. split; [reflexivity|].
  split; [intros E; apply (f_equal fst) in E; cbn in E; lra|].
  rewrite C22_L2_vector_coefs_exact. etransitivity; [|apply (Rmult_0_r (sqrt 2))]. f_equal.
  apply l2_zero. cbn. intros x [<-|[<-|[]]]; reflexivity.
Qed.
Print Assumptions C22_L2_vector_coefs_refuted.

(** L2_patt: over all cells of the doubled array. *)
Lemma cells_dat K (d : mat K) : mat_wf K d -> cells K d = mt_dat K d.
Proof.
  intros (A & B & L). apply vget_ext with (c0 K).
  - unfold cells. assert (forall l, zlen (flat_map (fun i => map (mget K d i) (zrange 0 (mt_nc K d))) l) = zlen l * mt_nc K d).
    { induction l as [|i l IH]; [reflexivity|]. cbn [flat_map]. rewrite zlen_app, zlen_map, zlen_zrange, IH.
      unfold zlen; cbn [List.length]. lia. }
    rewrite H, zlen_zrange. lia.
  - intros k Hk.
    assert (G : forall hi lo k, 0 <= lo <= hi -> 0 <= k < (hi - lo) * mt_nc K d ->
       vget (c0 K) (flat_map (fun i => map (mget K d i) (zrange 0 (mt_nc K d))) (zrange lo hi)) k
       = vget (c0 K) (mt_dat K d) (lo * mt_nc K d + k)).
    { intros hi lo. remember (Z.to_nat (hi - lo)) as s eqn:Es. revert lo Es.
      induction s as [|s IH]; intros lo Es k' Hl Hk'; [nia|].
      rewrite (zrange_cons lo hi) by lia. cbn [flat_map]. rewrite vget_app by lia.
      rewrite zlen_map, zlen_zrange. replace (Z.max 0 (mt_nc K d - 0)) with (mt_nc K d) by lia.
      destruct (Z.ltb_spec k' (mt_nc K d)).
      - rewrite (vget_map _ 0) by (rewrite zlen_zrange; lia). rewrite vget_zrange by lia. reflexivity.
      - rewrite IH by nia. f_equal. nia. }
    unfold cells in *. rewrite G; [f_equal; lia|lia|].
    assert (forall l, zlen (flat_map (fun i => map (mget K d i) (zrange 0 (mt_nc K d))) l) = zlen l * mt_nc K d).
    { induction l as [|i l IH]; [reflexivity|]. cbn [flat_map]. rewrite zlen_app, zlen_map, zlen_zrange, IH.
      unfold zlen; cbn [List.length]. lia. }
    rewrite H, zlen_zrange in Hk. lia.
Qed.

Theorem C22_L2_patt :
  (forall d : mat RN, mat_wf RN d -> (0 <= L2_patt_s RN d)%R /\ (L2_patt_s RN d ^ 2)%R = sum_sq (cells RN d)) /\
  (forall v : tpatt RN, mat_wf RN (tp_t RN v) -> mat_wf RN (tp_p RN v) ->
     (0 <= L2_patt_v RN v)%R /\
     (L2_patt_v RN v ^ 2 = sum_sq (cells RN (tp_t RN v)) + sum_sq (cells RN (tp_p RN v)))%R).
Proof.
  split.
  - intros d Hd. rewrite cells_dat by auto. apply l2_sq.
  - intros v Ht Hp. rewrite !cells_dat by auto. unfold L2_patt_v, hypot2.
    destruct (l2_sq (mt_dat RN (tp_t RN v))) as [P1 S1]. destruct (l2_sq (mt_dat RN (tp_p RN v))) as [P2 S2].
    rewrite <- S1, <- S2. change (rsqrt RN) with sqrt. change (radd RN) with Rplus. change (rmul RN) with Rmult.
    split; [apply sqrt_pos|]. rewrite pow2_sqrt by nra. ring.
Qed.
Print Assumptions C22_L2_patt.

(** *** Maximum norms *)
Theorem C22_LInf : 
  (forall (c : scoefs RN) f, valid RN c ->
    (forall n m, is_mode (sc_nmax RN c) (sc_mmax RN c) n m -> reads RN c n m (f n m)) ->
    exists r, LInf_coef_s RN c = Ok r /\ is_max (map Cmod (mode_values c f)) r) /\
  (forall d : mat RN, mat_wf RN d -> mt_dat RN d <> [] ->
    exists r, LInf_patt_s RN d = Ok r /\ is_max (map Cmod (cells RN d)) r) /\
  (forall v : tpatt RN, mat_wf RN (tp_t RN v) -> mat_wf RN (tp_p RN v) -> mt_dat RN (tp_t RN v) <> [] -> mt_dat RN (tp_p RN v) <> [] ->
    exists r s, LInf_patt_v RN v = Ok (sqrt (r * r + s * s)) /\
      is_max (map Cmod (cells RN (tp_t RN v))) r /\ is_max (map Cmod (cells RN (tp_p RN v))) s) /\
  (forall (c : vcoefs RN) f g, vvalid RN c ->
    (forall n m, is_mode (vc_nmax RN c) (vc_mmax RN c) n m -> reads RN (vc_1 RN c) n m (f n m) /\ reads RN (vc_2 RN c) n m (g n m)) ->
    exists r s, LInf_coef_v RN c = Ok (sqrt (r * r + s * s)) /\
      is_max (map Cmod (mode_values (vc_1 RN c) f)) r /\ is_max (map Cmod (mode_values (vc_2 RN c) g)) s).
Proof.
  assert (M : forall v : list C, v <> [] -> exists r, linf RN v = Ok r /\ is_max (map Cmod v) r).
  { intros v Hv. destruct (linf_spec v Hv) as (r & E & A & x & Hx & ->). eexists; split; [exact E|]. split.
    - now apply in_map.
    - intros y Hy. apply in_map_iff in Hy. destruct Hy as (z & <- & Hz). auto. }
  assert (P : forall (l l' : list C) r, Permutation l l' -> is_max (map Cmod l') r -> is_max (map Cmod l) r).
  { intros l l' r Hp [H1 H2]. split.
    - eapply Permutation_in; [apply Permutation_map, Permutation_sym; exact Hp|exact H1].
    - intros x Hx. apply H2. eapply Permutation_in; [apply Permutation_map; exact Hp|exact Hx]. }
  assert (NE : forall c, valid RN c -> sc_vec RN c <> []).
  { intros c Hv E. apply valid_wf in Hv. destruct Hv as [Hg Hl]. rewrite E in Hl. unfold good_size, ncoef in *.
    change (zlen (@nil (cplx RN))) with 0 in Hl. nia. }
  split; [|split; [|split]].
  - intros c f Hv Hf. destruct (M _ (NE c Hv)) as (r & E & X). exists r. split; [exact E|].
    eapply P; [apply mode_values_perm; auto|exact X].
  - intros d Hd Hn. rewrite cells_dat by auto. destruct (M _ Hn) as (r & E & X). exists r. auto.
  - intros v Ht Hp N1 N2. rewrite !cells_dat by auto.
    destruct (M _ N1) as (r & E & X). destruct (M _ N2) as (s & E' & X').
    exists r, s. unfold LInf_patt_v. rewrite E, E'. auto.
  - intros c f g Hv H. pose proof Hv as (V1 & V2 & A1 & A2 & A3 & A4 & _).
    destruct (M _ (NE _ V1)) as (r & E & X). destruct (M _ (NE _ V2)) as (s & E' & X').
    exists r, s. unfold LInf_coef_v. rewrite E, E'. split; [reflexivity|].
    split; [eapply P; [apply mode_values_perm; auto|exact X]|eapply P; [apply mode_values_perm; auto|exact X']].
    + rewrite A1, A2. intros; now apply H.
    + rewrite A3, A4. intros; now apply H.
Qed.
Print Assumptions C22_LInf.
(** *** compare_relative: total absolute difference over the modes, relative
    to the total magnitude of the FIRST operand. *)
Lemma sum_abs_perm l l' : Permutation l l' -> sum_abs l = sum_abs l'.
Proof. unfold sum_abs. induction 1; cbn [fold_right]; lra. Qed.
Lemma sum_abs_rsum (l : list C) : rsum RN (map (cabs RN) l) = sum_abs l.
Proof. unfold rsum, sum_abs. induction l as [|x l IH]; cbn [map fold_right]; [reflexivity|]. rewrite IH, cabs_RN. reflexivity. Qed.
Lemma sum_abs_nonneg l : (0 <= sum_abs l)%R.
Proof. unfold sum_abs. induction l as [|x l IH]; cbn [fold_right]; [lra|]. pose proof (Cmod_ge_0 x). lra. Qed.
Lemma sum_abs_zero l : sum_abs l = 0%R <-> forall x, In x l -> x = RtoC 0.
Proof.
  induction l as [|x l IH]; cbn [sum_abs fold_right In]; [split; [tauto|auto]|]. fold (sum_abs l).
  pose proof (Cmod_ge_0 x). pose proof (sum_abs_nonneg l). split.
  - intros E y [<-|Hy]; [apply Cmod_eq_0; lra|]. apply IH; [lra|auto].
  - intros E. rewrite (proj2 IH) by auto. rewrite (E x) by auto. rewrite Cmod_0. lra.
Qed.
Lemma mode_values_zero c f : sum_abs (mode_values c f) = 0%R <->
  forall n m, is_mode (sc_nmax RN c) (sc_mmax RN c) n m -> f n m = RtoC 0.
Proof.
  rewrite sum_abs_zero. unfold mode_values. split.
  - intros H n m Hm. apply H. apply in_map_iff. exists (n, m). split; auto. now apply In_all_modes.
  - intros H x Hx. apply in_map_iff in Hx. destruct Hx as ((n, m) & <- & Hin). apply H. now apply In_all_modes.
Qed.
Theorem C22_compare_relative : forall (a b : scoefs RN) f g, valid RN a -> valid RN b ->
  sc_nmax RN b = sc_nmax RN a -> sc_mmax RN b = sc_mmax RN a ->
  (forall n m, is_mode (sc_nmax RN a) (sc_mmax RN a) n m -> reads RN a n m (f n m) /\ reads RN b n m (g n m)) ->
  (exists n m, is_mode (sc_nmax RN a) (sc_mmax RN a) n m /\ f n m <> RtoC 0) ->
  exists r, compare_relative RN a b = Ok r /\
    (r = sum_abs (mode_values a (fun n m => f n m - g n m)%C) / sum_abs (mode_values a f))%R /\
    (0 < sum_abs (mode_values a f))%R /\ (0 <= r)%R /\
    (r = 0%R <-> forall n m, is_mode (sc_nmax RN a) (sc_mmax RN a) n m -> f n m = g n m).
Proof.
  intros a b f g Va Vb E1 E2 H (n0 & m0 & M0 & N0).
  pose proof (proj1 (valid_wf RN a) Va) as Wa. pose proof (proj1 (valid_wf RN b) Vb) as Wb.
  destruct (sc_op_left_SC RN OpSub a b Wa Wb ltac:(congruence) ltac:(congruence)) as (d & Ed & Wd & D1 & D2 & Vd).
  assert (Hd : forall n m, is_mode (sc_nmax RN d) (sc_mmax RN d) n m -> reads RN d n m (f n m - g n m)%C).
  { intros n m Hm. apply reads_iff; [now apply valid_wf|]. split; [auto|]. rewrite D1, D2 in Hm.
    destruct (H n m Hm) as [Ra Rb]. apply reads_inv in Ra; auto. apply reads_inv in Rb; auto.
    destruct Ra as [_ ->], Rb as [_ ->]. rewrite Vd by auto. reflexivity. }
  assert (L : zlen (sc_vec RN a) = zlen (sc_vec RN b)).
  { destruct Wa as [_ ->], Wb as [_ ->]. congruence. }
  cbn [sc_op_left] in Ed. rewrite L, Z.eqb_refl in Ed. rewrite np_broadcast_eq in Ed by exact L. cbn [bind] in Ed.
  apply sc_new_inv in Ed. destruct Ed as (Ed & _).
  unfold compare_relative. rewrite np_broadcast_eq by exact L. cbn [bind].
  change (zip_with (csub RN) (sc_vec RN a) (sc_vec RN b)) with (zip_with (binop_fun RN OpSub) (sc_vec RN a) (sc_vec RN b)).
  assert (EV : zip_with (binop_fun RN OpSub) (sc_vec RN a) (sc_vec RN b) = sc_vec RN d) by (rewrite Ed; reflexivity).
  rewrite EV. rewrite !sum_abs_rsum.
  rewrite <- (sum_abs_perm _ _ (mode_values_perm d _ (proj2 (valid_wf RN d) Wd) Hd)).
  rewrite <- (sum_abs_perm _ _ (mode_values_perm a f Va (fun n m Hm => proj1 (H n m Hm)))).
  assert (EM : mode_values d (fun n m => f n m - g n m)%C = mode_values a (fun n m => f n m - g n m)%C).
  { unfold mode_values. now rewrite D1, D2. }
  rewrite EM. clear EM.
  set (A := sum_abs (mode_values a f)). set (B := sum_abs (mode_values a _)).
  assert (PA : (0 < A)%R).
  { destruct (sum_abs_nonneg (mode_values a f)) as [|Z]; [assumption|]. exfalso. symmetry in Z.
    apply N0, (proj1 (mode_values_zero a f) Z); auto. }
  assert (PB : (0 <= B)%R) by apply sum_abs_nonneg.
  eexists. split; [reflexivity|]. split; [reflexivity|]. split; [exact PA|].
  change (rdiv RN) with Rdiv.
  split; [apply Rmult_le_pos; [exact PB|left; now apply Rinv_0_lt_compat]|].
  split.
  - intros Q. unfold Rdiv in Q. apply Rmult_integral in Q. destruct Q as [Q|Q]; [|pose proof (Rinv_0_lt_compat _ PA); lra].
    intros n m Hm. pose proof (proj1 (mode_values_zero a _) Q n m Hm) as R. cbv beta in R.
    destruct (f n m) as [f1 f2], (g n m) as [g1 g2]. unfold Cminus, Cplus, Copp in R. cbn [fst snd] in R.
    injection R as R1 R2. apply injective_projections; cbn [fst snd]; lra.
  - intros Q. assert (Z : B = 0%R).
    { apply mode_values_zero. intros n m Hm. rewrite (Q n m Hm). apply injective_projections; cbn; lra. }
    rewrite Z. apply (Rmult_0_l (/ A)).
Qed.
Print Assumptions C22_compare_relative.
Example C22_compare_relative_nonvacuous :
  let a := mkSC RN [(1,0);(2,1);(3,0);(4,5)]%R 1 1 in let b := mkSC RN [(1,0);(2,2);(3,0);(4,5)]%R 1 1 in
  valid RN a /\ valid RN b /\ reads RN a 1 0 (2,1)%R /\ reads RN b 1 0 (2,2)%R /\ (2,1)%R <> RtoC 0.
Proof.
  cbv zeta. split; [split; [cbn; lia|reflexivity]|]. split; [split; [cbn; lia|reflexivity]|].
  split; [reflexivity|]. split; [reflexivity|]. intros E. injection E as E1 E2. lra.
Qed.
Example C22_nonvacuous : mat_wf RN ex_arr /\ mt_dat RN ex_arr <> [] /\ exists c, valid RN c /\ reads RN c 1 0 (2,1)%R.
Proof.
  split; [split; [|split]; cbn; auto; lia|]. split; [discriminate|].
  exists (mkSC RN [(1,0);(2,1);(3,0);(4,5)]%R 1 1). split; [split; [cbn; lia|reflexivity]|reflexivity].
Qed.
