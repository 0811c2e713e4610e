(** * P_Heap: properties C46-C48 (aliasing and in-place modification).

    A history is any list of calls x = f(args), started with no object in
    existence; [val s x] is the value of variable x afterwards (SpecHeap.v). *)
From Coq Require Import ZArith List String Bool Reals Lra Lia.
From Coquelicot Require Import Complex.
From Verif Require Import Py PyFacts Num Exact MCoefs SpecCoefs CoefsFacts MPatt SpecPatt PattFacts Sums MPysphi MOps MTrans MCsphi MHeap SpecHeap HeapFacts HeapFacts2 HeapFacts3 HeapRef HeapRef2 HeapRef3 HeapRef4 HeapRef5 HeapRef6 HeapRef7 HeapRef8 HeapRef9.
Import ListNotations.
Open Scope list_scope.
Open Scope Z_scope.

(** ** C46 *)

(** After any history, a call that does not assign in place returns exactly
    what the storage-free model of the method computes from the values of the
    arguments, changes no other variable, and if it raises changes nothing. *)
Theorem C46_calls_compute_on_values : forall use_cext junk junkr junki (hist : list cmd) (x : nat) (p : prim) (args : list nat),
  let be := backend_of use_cext junk junkr junki in
  let s := run be hist start in
  let s' := step be (Do x p args) s in
  writes p = false ->
  (forall y, y <> x -> val s' y = val s y) /\
  val s' x = match vals s args with
             | Some vs => match peval be p vs with Ok v => Some v | Raise _ => val s x end
             | None => val s x
             end.
Proof.
  intros u j jr ji hist x p args be s s' Hp. apply step_reads; [apply run_wf; exact wf_start|apply backend_wf|exact Hp].
Qed.
Print Assumptions C46_calls_compute_on_values.

(** The result of copy, truncation, an operator, a factory, c[n, :], ... stays
    what it is during any further history that does not use it, whatever is
    done to the objects it was computed from. *)
Theorem C46_new_object_isolated : forall use_cext junk junkr junki (hist rest : list cmd) (x : nat) (p : prim) (args : list nat) vs v,
  let be := backend_of use_cext junk junkr junki in
  let s := run be hist start in
  makes_new p = true -> vals s args = Some vs -> peval be p vs = Ok v ->
  never_mentions x rest ->
  val (run be rest (step be (Do x p args) s)) x = Some v.
Proof.
  intros u j jr ji hist rest x p args vs v be s Hp HV HE HN.
  assert (W : wf s) by (apply run_wf; exact wf_start).
  pose proof (st_wf _ _ _ (step_stepped be (Do x p args) s W)) as W1.
  destruct (new_no_write p Hp) as [Hw _].
  assert (Hx : val (step be (Do x p args) s) x = Some v).
  { destruct (step_reads be x p args s W (backend_wf _ _ _ _) Hw) as [_ R]. rewrite R, HV, HE. reflexivity. }
  rewrite <- Hx. refine (proj2 (proj2 (run_sep be (fun y => y <> x) rest _ x W1 _ _ HN))); [auto|].
  intros a Ha. unfold step. cbn [c_args c_prim c_dst]. rewrite vals_lookups in HV.
  destruct (lookups (s_env s) args) as [os|] eqn:EL; [|discriminate HV]. injection HV as <-.
  pose proof (exec_rel be p os (s_heap s) (backend_wf _ _ _ _) Hw (lookups_ok _ _ _ W EL)) as R. unfold rel in R. rewrite HE in R.
  destruct (exec_new be p os (List.length (s_heap s)) (s_heap s) Hp (le_n _)) as [_ HQ].
  destruct (exec be p os (s_heap s)) as [[o|e] h'] eqn:EX; [|contradiction].
  intros o1 o2 E1 E2 l H1 H2. cbn [s_env] in *. unfold set_var in *. rewrite Nat.eqb_refl in E2. injection E2 as <-.
  destruct (Nat.eqb_spec a x); [contradiction|]. cbn [fst snd] in HQ. destruct (HQ o eq_refl) as [_ HR]. specialize (HR l H2).
  pose proof (reach_lt _ _ _ (W _ _ E1) H1). lia.
Qed.
Print Assumptions C46_new_object_isolated.

(** Conversely, a further history that uses only the new object (and variables
    that were not bound before) changes no object that existed before: writes
    to the result do not reach the operands. *)
Theorem C46_writes_to_new_object_stay_inside : forall use_cext junk junkr junki (hist rest : list cmd) (x : nat) (p : prim) (args : list nat) vs v,
  let be := backend_of use_cext junk junkr junki in
  let s := run be hist start in
  makes_new p = true -> vals s args = Some vs -> peval be p vs = Ok v ->
  touches_only (fun y => y = x \/ val s y = None) rest ->
  forall y, y <> x -> val s y <> None ->
  val (run be rest (step be (Do x p args) s)) y = val s y.
Proof.
  intros u j jr ji hist rest x p args vs v be s Hp HV HE HN y Hy Hb.
  assert (W : wf s) by (apply run_wf; exact wf_start).
  pose proof (st_wf _ _ _ (step_stepped be (Do x p args) s W)) as W1.
  destruct (new_no_write p Hp) as [Hw _].
  destruct (step_reads be x p args s W (backend_wf _ _ _ _) Hw) as [R1 _]. rewrite <- (R1 y Hy).
  refine (proj2 (proj2 (run_sep be _ rest _ y W1 _ _ HN))).
  - intros [E|E]; [contradiction|]. exact (Hb E).
  - intros a Ha. unfold step. cbn [c_args c_prim c_dst]. rewrite vals_lookups in HV.
    destruct (lookups (s_env s) args) as [os|] eqn:EL; [|discriminate HV]. injection HV as <-.
    pose proof (exec_rel be p os (s_heap s) (backend_wf _ _ _ _) Hw (lookups_ok _ _ _ W EL)) as R. unfold rel in R. rewrite HE in R.
    destruct (exec_new be p os (List.length (s_heap s)) (s_heap s) Hp (le_n _)) as [_ HQ].
    destruct (exec be p os (s_heap s)) as [[o|e] h'] eqn:EX; [|contradiction].
    intros o1 o2 E1 E2 l H1 H2. cbn [s_env] in *. unfold set_var in *.
    destruct (Nat.eqb_spec y x); [contradiction|]. destruct (Nat.eqb_spec a x).
    + injection E1 as <-. cbn [fst snd] in HQ. destruct (HQ o eq_refl) as [_ HR]. specialize (HR l H1).
      pose proof (reach_lt _ _ _ (W _ _ E2) H2). lia.
    + destruct Ha as [Ha|Ha]; [contradiction|]. unfold val in Ha. rewrite E1 in Ha. discriminate.
Qed.
Print Assumptions C46_writes_to_new_object_stay_inside.

(** Objects holding no common buffer never influence each other. *)
Theorem C46_separation : forall use_cext junk junkr junki (hist rest : list cmd) (A : nat -> Prop) (y : nat),
  let be := backend_of use_cext junk junkr junki in
  let s := run be hist start in
  (forall a, A a -> apart s a y) -> ~ A y -> touches_only A rest ->
  val (run be rest s) y = val s y.
Proof.
  intros u j jr ji hist rest A y be s HA Hy HT.
  refine (proj2 (proj2 (run_sep be A rest s y _ Hy HA HT))). apply run_wf. exact wf_start.
Qed.
Print Assumptions C46_separation.

(** Whole programs made of calls that return new objects and of item
    assignments and window calls (with different variables as arguments)
    behave exactly as if there was no storage: every variable has the value
    computed by the program on values. *)
Theorem C46_value_semantics : forall use_cext junk junkr junki (prog : list cmd),
  let be := backend_of use_cext junk junkr junki in
  unshared prog ->
  forall x, val (run be prog start) x = vrun be prog (fun _ => None) x.
Proof.
  intros u j jr ji prog be HU x. apply (run_tidy be prog (backend_wf _ _ _ _) HU start tidy_start). reflexivity.
Qed.
Print Assumptions C46_value_semantics.

(** copy() of a ScalarCoefs returns an equal object. *)
Theorem C46_scalar_copy_equal : forall use_cext junk junkr junki (hist : list cmd) (x y : nat) c,
  let be := backend_of use_cext junk junkr junki in
  let s := run be hist start in
  val s x = Some (XSc c) ->
  val (step be (Do y PCopy [x]) s) y = Some (XSc c).
Proof.
  intros u j jr ji hist x y c be s HV. assert (W : wf s) by (apply run_wf; exact wf_start).
  destruct (step_reads be y PCopy [x] s W (backend_wf _ _ _ _) eq_refl) as [_ R]. rewrite R. cbn [vals]. rewrite HV.
  assert (SZ : sizes s) by (apply run_sizes; [apply backend_wf|exact wf_start|exact sizes_start]).
  unfold val in HV. destruct (s_env s x) as [o|] eqn:Eo; [|discriminate HV]. injection HV as HV.
  specialize (SZ x o Eo). rewrite HV in SZ. cbn [sized] in SZ.
  cbn [peval]. unfold sc_copy. rewrite (sizedS_new c SZ). reflexivity.
Qed.
Print Assumptions C46_scalar_copy_equal.

(** copy() of a VectorCoefs clears the (0, 0) entries of the copy (not of the
    original, by C46_calls_compute_on_values) and keeps everything else; so the
    copy is equal whenever these entries are 0. *)
Theorem C46_vector_copy : forall use_cext junk junkr junki (hist : list cmd) (x y : nat) c a1 r1 a2 r2,
  let be := backend_of use_cext junk junkr junki in
  let s := run be hist start in
  val s x = Some (XVc c) ->
  sc_vec RN (vc_1 RN c) = a1 :: r1 -> sc_vec RN (vc_2 RN c) = a2 :: r2 ->
  val (step be (Do y PCopy [x]) s) y =
    Some (XVc (mkVC RN (mkSC RN (RtoC 0 :: r1) (vc_nmax RN c) (vc_mmax RN c))
                       (mkSC RN (RtoC 0 :: r2) (vc_nmax RN c) (vc_mmax RN c)) (vc_nmax RN c) (vc_mmax RN c))) /\
  (a1 = RtoC 0 -> a2 = RtoC 0 -> val (step be (Do y PCopy [x]) s) y = Some (XVc c)).
Proof.
  intros u j jr ji hist x y c a1 r1 a2 r2 be s HV H1 H2. assert (W : wf s) by (apply run_wf; exact wf_start).
  destruct (step_reads be y PCopy [x] s W (backend_wf _ _ _ _) eq_refl) as [_ R]. rewrite R. cbn [vals]. rewrite HV.
  assert (SZ : sizes s) by (apply run_sizes; [apply backend_wf|exact wf_start|exact sizes_start]).
  unfold val in HV. destruct (s_env s x) as [o|] eqn:Eo; [|discriminate HV]. injection HV as HV.
  specialize (SZ x o Eo). rewrite HV in SZ. cbn [sized] in SZ. clear - SZ H1 H2.
  destruct c as [[v1 n1 m1] [v2 n2 m2] n m]. cbn [peval]. unfold vc_copy, sizedV, sizedS in *.
  cbn [vc_1 vc_2 vc_nmax vc_mmax sc_vec sc_nmax sc_mmax] in *.
  destruct SZ as [[A1 A2] [[B1 B2] [D1 [D2 [D3 D4]]]]]. subst.
  assert (HC : vc_new RN (a1 :: r1) (a2 :: r2) n m =
    Ok (mkVC RN (mkSC RN (RtoC 0 :: r1) n m) (mkSC RN (RtoC 0 :: r2) n m) n m)).
  { unfold vc_new. assert (E1 : zlen (a1 :: r1) = zlen (a2 :: r2)) by congruence. rewrite E1, Z.eqb_refl. cbn [negb].
    destruct (Z.gtb_spec m n); [lia|]. rewrite B2, Z.eqb_refl. cbn [negb].
    unfold py_set. rewrite E1. rewrite py_index_in by (unfold zlen; cbn [List.length]; lia). cbn [bind vset Z.to_nat upd].
    unfold vset. cbn [Z.to_nat upd]. unfold sc_new. destruct (Z.gtb_spec m n); [lia|].
    match goal with |- context [negb (ncoef n m =? ?a)] => replace (ncoef n m =? a) with true by (symmetry; apply Z.eqb_eq; exact A2) end.
    cbn [negb bind]. match goal with |- context [negb (ncoef n m =? ?a)] => replace (ncoef n m =? a) with true by (symmetry; apply Z.eqb_eq; exact B2) end.
    reflexivity. }
  rewrite HC. cbn. split; [reflexivity|]. intros -> ->. reflexivity.
Qed.
Print Assumptions C46_vector_copy.

(** ** C47 *)

(** The calls that hand out references - ScalarCoefs(vec, ...), c[:, m],
    a[i:j], c._vec, vc.scoef1, vc.scoef2, p.cdata, p.doublesphere, p.theta, ...
    and the pattern constructors with doublesphere=True - return an object
    that follows its argument through every later history: as long as the
    variables are not rebound, the value of the result is what the same call
    would return now. *)
Theorem C47_references_track : forall use_cext junk junkr junki (hist rest : list cmd) (x : nat) (p : prim) (args : list nat) vs v,
  let be := backend_of use_cext junk junkr junki in
  let s := run be hist start in
  let s2 := run be rest (step be (Do x p args) s) in
  shares p = true -> ~ In x args -> vals s args = Some vs -> peval be p vs = Ok v ->
  never_assigns x rest -> (forall a, In a args -> never_assigns a rest) ->
  exists vs2 v2, vals s2 args = Some vs2 /\ peval be p vs2 = Ok v2 /\ val s2 x = Some v2.
Proof.
  intros u j jr ji hist rest x p args vs v be s s2 Hs Hx HV HE HN HA.
  unfold s2. eapply views_track; eauto; [apply run_wf; exact wf_start|apply backend_wf].
Qed.
Print Assumptions C47_references_track.

(** In particular the coefficients of ScalarCoefs(vec, nmax, mmax) are at all
    times the entries of vec. *)
Theorem C47_scalarcoefs_is_reference : forall use_cext junk junkr junki (hist rest : list cmd) (x v : nat) l nmax mmax,
  let be := backend_of use_cext junk junkr junki in
  let s := run be hist start in
  let s2 := run be rest (step be (Do x (PScalarCoefs nmax mmax) [v]) s) in
  val s v = Some (XArr l) -> mmax <= nmax -> ncoef nmax mmax = zlen l ->
  x <> v -> never_assigns x rest -> never_assigns v rest ->
  exists l2, val s2 v = Some (XArr l2) /\ val s2 x = Some (XSc (mkSC RN l2 nmax mmax)).
Proof.
  intros u j jr ji hist rest x v l nmax mmax be s s2 HV Hm Hn Hxv HNx HNv.
  assert (EC : sc_new RN l nmax mmax = Ok (mkSC RN l nmax mmax)).
  { unfold sc_new. destruct (Z.gtb_spec mmax nmax); [lia|]. change (@zlen (cplx RN)) with (@zlen C). rewrite Hn, Z.eqb_refl. reflexivity. }
  destruct (C47_references_track u j jr ji hist rest x (PScalarCoefs nmax mmax) [v] [XArr l] (XSc (mkSC RN l nmax mmax)))
    as [vs2 [v2 [A [B D]]]]; auto.
  - intros [E|[]]. auto.
  - cbn [vals]. fold be. fold s. rewrite HV. reflexivity.
  - cbn [peval]. rewrite EC. reflexivity.
  - intros a [<-|[]]. exact HNv.
  - fold be in A, D. fold s in A, D. fold s2 in A, D. cbn [vals] in A. destruct (val s2 v) as [w|]; [|discriminate A]. injection A as <-.
    cbn [peval] in B. destruct w as [l2| | | | | | | | |]; try discriminate B. exists l2. split; [reflexivity|]. rewrite D.
    unfold rmap in B. destruct (sc_new RN l2 nmax mmax) as [c|] eqn:EN; [|discriminate B]. cbn in B. injection B as <-.
    apply sc_new_fields in EN. rewrite EN. reflexivity.
Qed.
Print Assumptions C47_scalarcoefs_is_reference.

(** Value of the object assigned to, after one in-place call. *)
Lemma step_assign be d p x s v : wf s -> in_place p = true -> val s x = Some v -> parts_apart s x -> d <> x ->
  val (step be (Do d p [x]) s) x = Some (fst (pwrite p [v])).
Proof.
  intros W Hp HV HP Hd.
  destruct (step_writes be d p x [] s [v] W Hp) as [HE [HX _]]; [cbn [vals]; rewrite HV; reflexivity|exact HP|intros a []|].
  unfold val in HV |- *. destruct (s_env s x) as [o|] eqn:Eo; [|discriminate HV].
  rewrite HE. destruct (snd (pwrite p [v])); unfold set_var; try (destruct (Nat.eqb_spec x d); [congruence|]); rewrite Eo, (HX o eq_refl); reflexivity.
Qed.

(** vec[i] = z changes the coefficients, c[arg] = w changes vec: after either,
    c.vec is vec. *)
Theorem C47_writes_visible_both_ways : forall use_cext junk junkr junki (hist rest : list cmd) (x v d : nat) l l2 nmax mmax,
  let be := backend_of use_cext junk junkr junki in
  let s := run be hist start in
  let s2 := run be rest (step be (Do x (PScalarCoefs nmax mmax) [v]) s) in
  val s v = Some (XArr l) -> mmax <= nmax -> ncoef nmax mmax = zlen l ->
  x <> v -> never_assigns x rest -> never_assigns v rest -> d <> x -> d <> v ->
  val s2 v = Some (XArr l2) ->
  (forall i z,
     let l3 := fst (vec_assign l2 i z) in
     let s3 := step be (Do d (PArrSet i z) [v]) s2 in
     val s3 v = Some (XArr l3) /\ val s3 x = Some (XSc (mkSC RN l3 nmax mmax))) /\
  (forall arg w,
     let c3 := fst (sc_setitem RN (mkSC RN l2 nmax mmax) arg w) in
     let s3 := step be (Do d (PSet arg w) [x]) s2 in
     val s3 x = Some (XSc c3) /\ val s3 v = Some (XArr (sc_vec RN c3))).
Proof.
  intros u j jr ji hist rest x v d l l2 nmax mmax be s s2 HV Hm Hn Hxv HNx HNv Hdx Hdv HV2.
  assert (W : wf s2). { apply run_wf. apply (step_stepped be). apply run_wf. exact wf_start. }
  assert (HX2 : val s2 x = Some (XSc (mkSC RN l2 nmax mmax))).
  { destruct (C47_scalarcoefs_is_reference u j jr ji hist rest x v l nmax mmax HV Hm Hn Hxv HNx HNv) as [l' [A B]].
    fold be s in A, B. fold s2 in A, B. congruence. }
  assert (HR : forall c, c_dst c = d -> exists l3, val (step be c s2) v = Some (XArr l3) /\ val (step be c s2) x = Some (XSc (mkSC RN l3 nmax mmax))).
  { intros c Hc. destruct (C47_scalarcoefs_is_reference u j jr ji hist (rest ++ [c]) x v l nmax mmax HV Hm Hn Hxv) as [l3 [A B]].
    - apply Forall_app. split; [exact HNx|]. constructor; [congruence|constructor].
    - apply Forall_app. split; [exact HNv|]. constructor; [congruence|constructor].
    - fold be s in A, B. rewrite run_app in A, B. fold s2 in A, B. exists l3. auto. }
  assert (NP : forall y o c, val s2 y = Some o -> (forall c, o <> XVc c) -> s_env s2 y <> Some (OVc c)).
  { intros y o c Ho Hc E. unfold val in Ho. rewrite E in Ho. injection Ho as <-. exact (Hc _ eq_refl). }
  split.
  - intros i z l3 s3. destruct (HR (Do d (PArrSet i z) [v]) eq_refl) as [l' [A B]]. fold s3 in A, B.
    assert (E : val s3 v = Some (XArr l3)).
    { unfold s3. rewrite (step_assign be d (PArrSet i z) v s2 (XArr l2) W eq_refl HV2); [reflexivity| |exact Hdv].
      intros c E. exfalso. eapply (NP v); eauto. discriminate. }
    rewrite E in A. injection A as <-. auto.
  - intros arg w c3 s3. destruct (HR (Do d (PSet arg w) [x]) eq_refl) as [l' [A B]]. fold s3 in A, B.
    assert (E : val s3 x = Some (XSc c3)).
    { unfold s3. rewrite (step_assign be d (PSet arg w) x s2 _ W eq_refl HX2); [reflexivity| |exact Hdx].
      intros c E. exfalso. eapply (NP x); eauto. discriminate. }
    split; [exact E|]. rewrite E in B. injection B as B. rewrite A, B. reflexivity.
Qed.
Print Assumptions C47_writes_visible_both_ways.

(** c[:, m] is a view: c[:, m][i] = z is the assignment c[|m| + i, m] = z. *)
Theorem C47_column_is_view : forall use_cext junk junkr junki (hist rest : list cmd) (c x d : nat) w w2 m i z,
  let be := backend_of use_cext junk junkr junki in
  let s := run be hist start in
  let s2 := run be rest (step be (Do x (PGet (STuple [ISlice None None None; IInt m])) [c]) s) in
  val s c = Some (XSc w) -> Z.abs m <= sc_mmax RN w -> 0 <= i <= sc_nmax RN w - Z.abs m ->
  x <> c -> never_assigns x rest -> never_assigns c rest -> d <> c ->
  val s2 c = Some (XSc w2) ->
  val (step be (Do d (PArrSet i z) [x]) s2) c =
    Some (XSc (fst (sc_setitem RN w2 (STuple [IInt (Z.abs m + i); IInt m]) (VNum z)))).
Proof.
  intros u j jr ji hist rest c x d w w2 m i z be s s2 HV Hm Hi Hxc HNx HNc Hdc HV2.
  assert (Ws : wf s) by (apply run_wf; exact wf_start).
  assert (W : wf s2) by (apply run_wf; apply (step_stepped be); exact Ws).
  assert (SZ : sizes s2). { unfold s2. apply run_sizes; [apply backend_wf|apply (step_stepped be); exact Ws|]. apply step_sizes; [apply backend_wf|exact Ws|].
    apply run_sizes; [apply backend_wf|exact wf_start|exact sizes_start]. }
  unfold val in HV. destruct (s_env s c) as [[| |hc| | | | | | |]|] eqn:Ec; try discriminate HV. injection HV as HV.
  assert (Hmm : hs_nmax hc = sc_nmax RN w /\ hs_mmax hc = sc_mmax RN w) by (rewrite <- HV; split; reflexivity). destruct Hmm as [Hnn Hmm].
  destruct (constant_col hc m) as [r Hr].
  assert (exists a, r = Ok a) as [a ->].
  { specialize (Hr []). unfold h_sc_col in Hr. destruct (Z.gtb_spec (Z.abs m) (hs_mmax hc)); [lia|].
    rewrite mindx_closed in Hr by lia. unfold hbind, hlift, hret in Hr. injection Hr as <-. eauto. }
  assert (ES : step be (Do x (PGet (STuple [ISlice None None None; IInt m])) [c]) s = mkSt (set_var (s_env s) x (OArr a)) (s_heap s)).
  { unfold step. cbn [c_args c_prim c_dst lookups]. rewrite Ec. cbn [exec h_getitem]. unfold hbind. rewrite Hr. reflexivity. }
  assert (Ex2 : s_env s2 x = Some (OArr a)).
  { unfold s2. rewrite run_keeps_var by exact HNx. rewrite ES. cbn. unfold set_var. rewrite Nat.eqb_refl. reflexivity. }
  assert (Ec2 : s_env s2 c = Some (OSc hc)).
  { unfold s2. rewrite run_keeps_var by exact HNc. rewrite ES. cbn. unfold set_var. destruct (Nat.eqb_spec c x); [congruence|exact Ec]. }
  unfold val in HV2. rewrite Ec2 in HV2. injection HV2 as HV2. cbn [oval] in HV2.
  pose proof (W c _ Ec2) as Oc. cbn [ok_obj] in Oc. pose proof (SZ c _ Ec2) as Sc. cbn [oval sized] in Sc.
  assert (CW : aset a i z (s_heap s2) = h_sc_set_elem hc (Z.abs m + i) m z (s_heap s2)).
  { apply col_write; [exact Oc|exact Sc|lia| |lia]. rewrite Hr. reflexivity. }
  destruct (srel_set_elem (s_heap s2) hc (Z.abs m + i) m z Oc) as [_ SV]. rewrite HV2 in SV.
  change (lift_res w2 (sc_set_elem RN w2 (Z.abs m + i) m z)) with (sc_setitem RN w2 (STuple [IInt (Z.abs m + i); IInt m]) (VNum z)) in SV.
  rewrite <- SV, <- CW. unfold step. cbn [c_args c_prim c_dst lookups]. rewrite Ex2. cbn [exec]. unfold hvoid, hbind.
  unfold val. destruct (aset a i z (s_heap s2)) as [[[]|e] h']; cbn [hret s_env s_heap snd].
  - unfold set_var. destruct (Nat.eqb_spec c d); [congruence|]. rewrite Ec2. reflexivity.
  - rewrite Ec2. reflexivity.
Qed.
Print Assumptions C47_column_is_view.

(** c[n, :] is a snapshot: it keeps its value whatever happens to c. *)
Theorem C47_row_is_snapshot : forall use_cext junk junkr junki (hist rest : list cmd) (c x : nat) w n row,
  let be := backend_of use_cext junk junkr junki in
  let s := run be hist start in
  val s c = Some (XSc w) -> sc_get_row RN w n = Ok row -> never_mentions x rest ->
  val (run be rest (step be (Do x (PGet (STuple [IInt n; ISlice None None None])) [c]) s)) x = Some (XArr row).
Proof.
  intros u j jr ji hist rest c x w n row be s HV HR HN.
  apply (C46_new_object_isolated u j jr ji hist rest x _ [c] [XSc w]); auto.
  - cbn [vals]. fold be. fold s. rewrite HV. reflexivity.
  - cbn [peval]. unfold sc_getitem. rewrite HR. reflexivity.
Qed.
Print Assumptions C47_row_is_snapshot.

(** VectorCoefs(v1, v2, nmax, mmax) keeps references to both arrays ... *)
Theorem C47_vectorcoefs_is_reference : forall use_cext junk junkr junki (hist rest : list cmd) (x v1 v2 : nat) l1 l2 nmax mmax,
  let be := backend_of use_cext junk junkr junki in
  let s := run be hist start in
  let s2 := run be rest (step be (Do x (PVectorCoefs nmax mmax) [v1; v2]) s) in
  val s v1 = Some (XArr l1) -> val s v2 = Some (XArr l2) ->
  zlen l1 = zlen l2 -> mmax <= nmax -> ncoef nmax mmax = zlen l1 -> 0 < zlen l1 ->
  x <> v1 -> x <> v2 -> never_assigns x rest -> never_assigns v1 rest -> never_assigns v2 rest ->
  exists k1 k2, val s2 v1 = Some (XArr k1) /\ val s2 v2 = Some (XArr k2) /\
    val s2 x = Some (XVc (mkVC RN (mkSC RN k1 nmax mmax) (mkSC RN k2 nmax mmax) nmax mmax)).
Proof.
  intros u j jr ji hist rest x v1 v2 l1 l2 nmax mmax be s s2 H1 H2 HL Hm Hn Hp Hx1 Hx2 HNx HN1 HN2.
  assert (Ws : wf s) by (apply run_wf; exact wf_start).
  unfold val in H1, H2. destruct (s_env s v1) as [[a1| | | | | | | | |]|] eqn:E1; try discriminate H1.
  destruct (s_env s v2) as [[a2| | | | | | | | |]|] eqn:E2; try discriminate H2. injection H1 as H1. injection H2 as H2.
  pose proof (Ws _ _ E1) as O1. pose proof (Ws _ _ E2) as O2. cbn [ok_obj] in O1, O2.
  assert (L1 : a_len a1 = zlen l1) by (rewrite <- H1, (zlen_rd_ok _ _ _ O1); reflexivity).
  assert (L2 : a_len a2 = zlen l2) by (rewrite <- H2, (zlen_rd_ok _ _ _ O2); reflexivity).
  pose proof (vc_new_succeeds (s_heap s) a1 a2 nmax mmax O1 ltac:(lia) Hm ltac:(lia) ltac:(lia)) as EN.
  set (o := mkHVC (mkHSC a1 nmax mmax) (mkHSC a2 nmax mmax) nmax mmax) in *.
  assert (ES : s_env (step be (Do x (PVectorCoefs nmax mmax) [v1; v2]) s) = set_var (s_env s) x (OVc o)).
  { unfold step. cbn [c_args c_prim c_dst lookups]. rewrite E1, E2. cbn [exec]. unfold hbind at 1. rewrite EN. reflexivity. }
  assert (Ex : s_env s2 x = Some (OVc o)).
  { unfold s2. rewrite run_keeps_var by exact HNx. rewrite ES. unfold set_var. rewrite Nat.eqb_refl. reflexivity. }
  assert (F1 : s_env s2 v1 = Some (OArr a1)).
  { unfold s2. rewrite run_keeps_var by exact HN1. rewrite ES. unfold set_var. destruct (Nat.eqb_spec v1 x); [congruence|exact E1]. }
  assert (F2 : s_env s2 v2 = Some (OArr a2)).
  { unfold s2. rewrite run_keeps_var by exact HN2. rewrite ES. unfold set_var. destruct (Nat.eqb_spec v2 x); [congruence|exact E2]. }
  exists (rd (s_heap s2) a1), (rd (s_heap s2) a2). unfold val. rewrite Ex, F1, F2. auto.
Qed.
Print Assumptions C47_vectorcoefs_is_reference.

(** ... and clears their first entries: the caller's arrays are modified (even
    if they overlap); if they hold different buffers, nothing else in them
    changes. *)
Theorem C47_vectorcoefs_clears_callers_arrays : forall use_cext junk junkr junki (hist : list cmd) (x v1 v2 : nat) a1 r1 a2 r2 nmax mmax,
  let be := backend_of use_cext junk junkr junki in
  let s := run be hist start in
  let s2 := step be (Do x (PVectorCoefs nmax mmax) [v1; v2]) s in
  val s v1 = Some (XArr (a1 :: r1)) -> val s v2 = Some (XArr (a2 :: r2)) ->
  List.length r1 = List.length r2 -> mmax <= nmax -> ncoef nmax mmax = zlen (a1 :: r1) ->
  x <> v1 -> x <> v2 ->
  (exists k1 k2, val s2 v1 = Some (XArr (RtoC 0 :: k1)) /\ val s2 v2 = Some (XArr (RtoC 0 :: k2))) /\
  (apart s v1 v2 -> val s2 v1 = Some (XArr (RtoC 0 :: r1)) /\ val s2 v2 = Some (XArr (RtoC 0 :: r2))).
Proof.
  intros u j jr ji hist x v1 v2 b1 r1 b2 r2 nmax mmax be s s2 H1 H2 HL Hm Hn Hx1 Hx2.
  assert (Ws : wf s) by (apply run_wf; exact wf_start).
  unfold val in H1, H2. destruct (s_env s v1) as [[a1| | | | | | | | |]|] eqn:E1; try discriminate H1.
  destruct (s_env s v2) as [[a2| | | | | | | | |]|] eqn:E2; try discriminate H2. injection H1 as H1. injection H2 as H2.
  pose proof (Ws _ _ E1) as O1. pose proof (Ws _ _ E2) as O2. cbn [ok_obj] in O1, O2.
  assert (L1 : a_len a1 = zlen (b1 :: r1)) by (rewrite <- H1, (zlen_rd_ok _ _ _ O1); reflexivity).
  assert (L2 : a_len a2 = zlen (b2 :: r2)) by (rewrite <- H2, (zlen_rd_ok _ _ _ O2); reflexivity).
  assert (LL : a_len a1 = a_len a2) by (rewrite L1, L2; unfold zlen; cbn [List.length]; lia).
  assert (LP : 0 < a_len a1) by (rewrite L1; unfold zlen; cbn [List.length]; lia).
  pose proof (vc_new_succeeds (s_heap s) a1 a2 nmax mmax O1 LL Hm ltac:(lia) LP) as EN.
  set (h1 := snd (hstore (a_loc a1) (a_off a1 + 0) [RtoC 0] (s_heap s))) in *.
  set (h2 := snd (hstore (a_loc a2) (a_off a2 + 0) [RtoC 0] h1)) in *.
  assert (ES : val s2 v1 = Some (XArr (rd h2 a1)) /\ val s2 v2 = Some (XArr (rd h2 a2))).
  { unfold s2, val, step. cbn [c_args c_prim c_dst lookups]. rewrite E1, E2. cbn [exec]. unfold hbind at 1 2 3 4. rewrite EN.
    cbn [hret s_env s_heap]. unfold set_var. destruct (Nat.eqb_spec v1 x); [congruence|]. destruct (Nat.eqb_spec v2 x); [congruence|].
    rewrite E1, E2. auto. }
  destruct ES as [V1 V2]. rewrite V1, V2.
  assert (P1 : post (List.length (s_heap s)) [a_loc a1] (s_heap s) h1).
  { apply (spec_store (List.length (s_heap s)) [a_loc a1] (s_heap s) (a_loc a1) (a_off a1 + 0) [RtoC 0] (fun _ _ => True)); [left; left; reflexivity|auto]. }
  assert (G : forall a, ok_arr (s_heap s) a -> forall i, 0 <= i < a_len a -> vget (RtoC 0) (rd h2 a) i =
    if (Nat.eqb (a_loc a) (a_loc a2)) && (a_off a + i =? a_off a2 + 0) then RtoC 0
    else if (Nat.eqb (a_loc a) (a_loc a1)) && (a_off a + i =? a_off a1 + 0) then RtoC 0 else vget (RtoC 0) (rd (s_heap s) a) i).
  { intros a Oa i Hi. unfold h2. rewrite rd_store_at; [|eapply ok_arr_mono; eauto|destruct P1; destruct O2; lia|exact Hi].
    destruct (Nat.eqb (a_loc a) (a_loc a2) && (a_off a + i =? a_off a2 + 0)); [reflexivity|].
    unfold h1. rewrite rd_store_at; [reflexivity|exact Oa|apply O1|exact Hi]. }
  assert (Z1 : vget (RtoC 0) (rd h2 a1) 0 = RtoC 0).
  { rewrite G by (auto; lia). destruct (_ && _); [reflexivity|]. rewrite Nat.eqb_refl, Z.eqb_refl. reflexivity. }
  assert (Z2 : vget (RtoC 0) (rd h2 a2) 0 = RtoC 0).
  { rewrite G by (auto; lia). rewrite Nat.eqb_refl, Z.eqb_refl. reflexivity. }
  assert (CONS : forall l : list C, 0 < zlen l -> vget (RtoC 0) l 0 = RtoC 0 -> exists k, l = RtoC 0 :: k).
  { intros [|a k] Hl Ha; [cbn in Hl; lia|]. cbn in Ha. subst. eauto. }
  split.
  - destruct (CONS (rd h2 a1)) as [k1 ->]; [rewrite (zlen_rd_ok _ _ _ O1); lia|exact Z1|].
    destruct (CONS (rd h2 a2)) as [k2 ->]; [rewrite (zlen_rd_ok _ _ _ O2); lia|exact Z2|]. eauto.
  - intro AP. assert (NE : a_loc a1 <> a_loc a2).
    { intro E. apply (AP _ _ E1 E2 (a_loc a1)); [left; reflexivity|left; auto]. }
    assert (TL : forall a b r, ok_arr (s_heap s) a -> rd (s_heap s) a = b :: r -> (a = a1 \/ a = a2) -> rd h2 a = RtoC 0 :: r).
    { intros a b r Oa Ea Hor. apply (vget_ext (RtoC 0)); [rewrite (zlen_rd_ok _ _ _ Oa), <- (zlen_rd_ok _ (s_heap s) _ Oa), Ea; reflexivity|].
      rewrite (zlen_rd_ok _ _ _ Oa). intros i Hi. rewrite G by auto. destruct (Z.eq_dec i 0) as [->|Hi0].
      - change (vget (RtoC 0) (RtoC 0 :: r) 0) with (RtoC 0). rewrite Ea.
        destruct Hor as [->| ->]; rewrite ?Nat.eqb_refl, ?Z.eqb_refl; cbn [andb]; [destruct (_ && _)|]; reflexivity.
      - assert (X : forall a', a = a' -> (a_off a + i =? a_off a' + 0) = false) by (intros a' ->; apply Z.eqb_neq; lia).
        assert (Y : vget (RtoC 0) (rd (s_heap s) a) i = vget (RtoC 0) (RtoC 0 :: r) i).
        { rewrite Ea. unfold vget. destruct (Z.to_nat i) eqn:Ei; [lia|]. reflexivity. }
        destruct Hor as [->| ->].
        + rewrite (X a1 eq_refl), Bool.andb_false_r. destruct (Nat.eqb_spec (a_loc a1) (a_loc a2)); [contradiction|]. exact Y.
        + rewrite (X a2 eq_refl), Bool.andb_false_r. destruct (Nat.eqb_spec (a_loc a2) (a_loc a1)); [congruence|]. exact Y. }
    rewrite (TL a1 b1 r1), (TL a2 b2 r2); auto.
Qed.
Print Assumptions C47_vectorcoefs_clears_callers_arrays.

(** A rejected call modifies nothing. *)
Theorem C47_vectorcoefs_rejected_untouched : forall use_cext junk junkr junki (hist : list cmd) (x v1 v2 : nat) l1 l2 nmax mmax,
  let be := backend_of use_cext junk junkr junki in
  let s := run be hist start in
  val s v1 = Some (XArr l1) -> val s v2 = Some (XArr l2) ->
  zlen l1 <> zlen l2 \/ nmax < mmax \/ ncoef nmax mmax <> zlen l1 \/ l1 = [] ->
  forall y, val (step be (Do x (PVectorCoefs nmax mmax) [v1; v2]) s) y = val s y.
Proof.
  intros u j jr ji hist x v1 v2 l1 l2 nmax mmax be s H1 H2 HG y.
  assert (Ws : wf s) by (apply run_wf; exact wf_start).
  unfold val in H1, H2. destruct (s_env s v1) as [[a1| | | | | | | | |]|] eqn:E1; try discriminate H1.
  destruct (s_env s v2) as [[a2| | | | | | | | |]|] eqn:E2; try discriminate H2. injection H1 as H1. injection H2 as H2.
  pose proof (Ws _ _ E1) as O1. pose proof (Ws _ _ E2) as O2. cbn [ok_obj] in O1, O2.
  assert (L1 : a_len a1 = zlen l1) by (rewrite <- H1, (zlen_rd_ok _ _ _ O1); reflexivity).
  assert (L2 : a_len a2 = zlen l2) by (rewrite <- H2, (zlen_rd_ok _ _ _ O2); reflexivity).
  unfold step. cbn [c_args c_prim c_dst lookups]. rewrite E1, E2. cbn [exec]. unfold hbind.
  assert (R : exists e, fst (h_vc_new a1 a2 nmax mmax (s_heap s)) = Raise e).
  { unfold h_vc_new. destruct (Z.eqb_spec (a_len a1) (a_len a2)); [|eexists; reflexivity]. cbn [negb].
    destruct (Z.gtb_spec mmax nmax); [eexists; reflexivity|].
    destruct (Z.eqb_spec (ncoef nmax mmax) (a_len a1)); [|eexists; reflexivity]. cbn [negb].
    destruct HG as [HG|[HG|[HG| ->]]]; try lia. unfold hbind, aset, hlift. unfold hbind. rewrite L1.
    cbn. eexists; reflexivity. }
  destruct R as [e R]. pose proof (vc_new_fails _ _ _ _ _ _ R) as HF.
  destruct (h_vc_new a1 a2 nmax mmax (s_heap s)) as [[o|e'] h']; [discriminate R|]. cbn [snd] in HF. subst h'. reflexivity.
Qed.
Print Assumptions C47_vectorcoefs_rejected_untouched.

(** Giving the same array twice makes the two components equal for ever. *)
Theorem C47_same_array_twice : forall use_cext junk junkr junki (hist rest : list cmd) (x v : nat) l nmax mmax,
  let be := backend_of use_cext junk junkr junki in
  let s := run be hist start in
  let s2 := run be rest (step be (Do x (PVectorCoefs nmax mmax) [v; v]) s) in
  val s v = Some (XArr l) -> mmax <= nmax -> ncoef nmax mmax = zlen l -> 0 < zlen l ->
  x <> v -> never_assigns x rest -> never_assigns v rest ->
  exists c, val s2 x = Some (XVc c) /\ vc_1 RN c = vc_2 RN c.
Proof.
  intros u j jr ji hist rest x v l nmax mmax be s s2 HV Hm Hn Hp Hx HNx HNv.
  destruct (C47_vectorcoefs_is_reference u j jr ji hist rest x v v l l nmax mmax HV HV eq_refl Hm Hn Hp Hx Hx HNx HNv HNv)
    as [k1 [k2 [A [B D]]]]. fold be s in A, B, D. fold s2 in A, B, D.
  rewrite A in B. injection B as <-. eexists. split; [exact D|]. reflexivity.
Qed.
Print Assumptions C47_same_array_twice.

(** c.window(c[:, 0]) does not scale by the column given: the column is a view,
    and it is modified by the first step.  With all four coefficients of a
    (1, 1) object equal to 2 the entries (1, -1) and (1, 1) become 8, where
    windowing with a copy of the column gives 4. *)
Theorem C47_window_by_own_column_refuted : forall use_cext junk junkr junki,
  let be := backend_of use_cext junk junkr junki in
  let two := RtoC 2 in
  let prog := [Do 0 (PArray [two; two; two; two]) []; Do 1 (PScalarCoefs 1 1) [0%nat];
               Do 2 (PGet (STuple [ISlice None None None; IInt 0])) [1%nat]; Do 3 PWindow [1%nat; 2%nat]] in
  val (run be prog start) 1%nat = Some (XSc (mkSC RN [RtoC 4; RtoC 4; RtoC 8; RtoC 8] 1 1)) /\
  fst (sc_window RN (mkSC RN [two; two; two; two] 1 1) [two; two]) = mkSC RN [RtoC 4; RtoC 4; RtoC 4; RtoC 4] 1 1.
Proof.
  intros u j jr ji be two.
  assert (E4 : RtoC 4 = Cmult two two) by (unfold two; apply injective_projections; cbn [fst snd Cmult RtoC]; ring).
  assert (E8 : RtoC 8 = Cmult two (Cmult two two)) by (unfold two; apply injective_projections; cbn [fst snd Cmult RtoC]; ring).
  rewrite E4, E8. clear E4 E8. clearbody two be. intro prog. unfold prog. split.
  - unfold val, run. cbn [fold_left]. lazy -[Cmult RtoC]. reflexivity.
  - lazy -[Cmult RtoC]. reflexivity.
Qed.
Print Assumptions C47_window_by_own_column_refuted.

(** vc.scoef1 is the object vc holds, so vc.scoef1[0, 0] = z gives vc a nonzero
    (0, 0) mode, which vc[0, 0] = ... refuses; copy() of such an object is then
    not equal to it. *)
Theorem C47_monopole_through_scoef1_refuted : forall use_cext junk junkr junki (z : C), z <> RtoC 0 ->
  let be := backend_of use_cext junk junkr junki in
  let O := RtoC 0 in
  let prog := [Do 0 (PCoefs (fun _ => O) (fun _ => O) 1 1 1) []; Do 1 PScoef1 [0%nat];
               Do 2 (PSet (STuple [IInt 0; IInt 0]) (VNum z)) [1%nat]; Do 3 PCopy [0%nat]] in
  let s := run be prog start in
  let c := mkVC RN (mkSC RN [z; O; O; O] 1 1) (mkSC RN [O; O; O; O] 1 1) 1 1 in
  let d := mkVC RN (mkSC RN [O; O; O; O] 1 1) (mkSC RN [O; O; O; O] 1 1) 1 1 in
  val s 0%nat = Some (XVc c) /\ val s 3%nat = Some (XVc d) /\ c <> d.
Proof.
  intros u j jr ji z HZ be O prog s c d. split; [|split].
  - unfold s, prog, c, val, run. clear HZ. clearbody be. cbn [fold_left]. lazy -[RtoC]. reflexivity.
  - unfold s, prog, d, val, run. clear HZ. clearbody be. cbn [fold_left]. lazy -[RtoC]. reflexivity.
  - unfold c, d. intro E. injection E as E. exact (HZ E).
Qed.
Print Assumptions C47_monopole_through_scoef1_refuted.

(** p.cdata is a view of the first rows of the doubled table: writing to it
    changes the pattern on one side only, and breaks the symmetry that every
    constructor establishes. *)
Theorem C47_write_to_cdata_refuted : forall use_cext junk junkr junki (z : C), z <> RtoC 0 ->
  let be := backend_of use_cext junk junkr junki in
  let prog := [Do 0 (PConstPatt (RtoC 0) 3 2 0) []; Do 1 PCdata [0%nat]] in
  (exists d, val (run be prog start) 0%nat = Some (XSp d) /\ sphere_sym RN d) /\
  (exists d, val (run be (prog ++ [Do 2 (PArrSet2 1 0 z) [1%nat]]) start) 0%nat = Some (XSp d) /\
             mget RN d 1 0 = z /\ ~ sphere_sym RN d).
Proof.
  intros u j jr ji z HZ be prog. unfold prog. clear prog. clearbody be. split.
  - eexists. split; [unfold val, run; cbn [fold_left]; lazy -[RtoC]; reflexivity|].
    intros i k Hi Hk. cbn [mt_nr mt_nc] in *.
    assert (Ei : i = 0 \/ i = 1 \/ i = 2 \/ i = 3) by lia. assert (Ek : k = 0 \/ k = 1) by lia.
    destruct Ei as [->|[->|[->| ->]]]; destruct Ek as [->| ->]; reflexivity.
  - eexists. split; [unfold val, run; cbn [fold_left app]; clear HZ; lazy -[RtoC]; reflexivity|].
    split; [reflexivity|]. intro S. specialize (S 1 0). cbn [mt_nr mt_nc] in S. specialize (S ltac:(lia) ltac:(lia)).
    apply HZ. symmetry. exact S.
Qed.
Print Assumptions C47_write_to_cdata_refuted.

(** ** C48 *)

(** spht, vspht, ispht, vispht and the slow variants change no variable other
    than the one the result is assigned to - in particular not their argument -
    and return what the storage-free model (MTrans.v) returns, in either
    setting of use_cext. *)
Theorem C48_spht : forall use_cext junk junkr junki (hist : list cmd) (x y : nat) d nmax mmax,
  let be := backend_of use_cext junk junkr junki in
  let s := run be hist start in
  let s' := step be (Do x (PSpht nmax mmax) [y]) s in
  val s y = Some (XSp d) ->
  (forall z, z <> x -> val s' z = val s z) /\
  val s' x = match spht be d nmax mmax with Ok c => Some (XSc c) | Raise _ => val s x end.
Proof.
  intros u j jr ji hist x y d nmax mmax be s s' HV.
  destruct (C46_calls_compute_on_values u j jr ji hist x (PSpht nmax mmax) [y] eq_refl) as [A B].
  split; [exact A|]. fold be s in B. fold s' in B. rewrite B. cbn [vals]. rewrite HV. cbn [peval]. destruct (spht be d nmax mmax); reflexivity.
Qed.
Print Assumptions C48_spht.
Theorem C48_vspht : forall use_cext junk junkr junki (hist : list cmd) (x y : nat) p nmax mmax,
  let be := backend_of use_cext junk junkr junki in
  let s := run be hist start in
  let s' := step be (Do x (PVspht nmax mmax) [y]) s in
  val s y = Some (XTp p) ->
  (forall z, z <> x -> val s' z = val s z) /\
  val s' x = match vspht be p nmax mmax with Ok c => Some (XVc c) | Raise _ => val s x end.
Proof.
  intros u j jr ji hist x y d nmax mmax be s s' HV.
  destruct (C46_calls_compute_on_values u j jr ji hist x (PVspht nmax mmax) [y] eq_refl) as [A B].
  split; [exact A|]. fold be s in B. fold s' in B. rewrite B. cbn [vals]. rewrite HV. cbn [peval]. destruct (vspht be d nmax mmax); reflexivity.
Qed.
Print Assumptions C48_vspht.
Theorem C48_ispht : forall use_cext junk junkr junki (hist : list cmd) (x y : nat) c nrows ncols,
  let be := backend_of use_cext junk junkr junki in
  let s := run be hist start in
  let s' := step be (Do x (PIspht nrows ncols) [y]) s in
  val s y = Some (XSc c) ->
  (forall z, z <> x -> val s' z = val s z) /\
  val s' x = match ispht be c nrows ncols with Ok d => Some (XSp d) | Raise _ => val s x end.
Proof.
  intros u j jr ji hist x y d nmax mmax be s s' HV.
  destruct (C46_calls_compute_on_values u j jr ji hist x (PIspht nmax mmax) [y] eq_refl) as [A B].
  split; [exact A|]. fold be s in B. fold s' in B. rewrite B. cbn [vals]. rewrite HV. cbn [peval]. destruct (ispht be d nmax mmax); reflexivity.
Qed.
Print Assumptions C48_ispht.
Theorem C48_vispht : forall use_cext junk junkr junki (hist : list cmd) (x y : nat) c nrows ncols,
  let be := backend_of use_cext junk junkr junki in
  let s := run be hist start in
  let s' := step be (Do x (PVispht nrows ncols) [y]) s in
  val s y = Some (XVc c) ->
  (forall z, z <> x -> val s' z = val s z) /\
  val s' x = match vispht be c nrows ncols with Ok p => Some (XTp p) | Raise _ => val s x end.
Proof.
  intros u j jr ji hist x y d nmax mmax be s s' HV.
  destruct (C46_calls_compute_on_values u j jr ji hist x (PVispht nmax mmax) [y] eq_refl) as [A B].
  split; [exact A|]. fold be s in B. fold s' in B. rewrite B. cbn [vals]. rewrite HV. cbn [peval]. destruct (vispht be d nmax mmax); reflexivity.
Qed.
Print Assumptions C48_vispht.
Theorem C48_slow : forall use_cext junk junkr junki (hist : list cmd) (x y : nat),
  let be := backend_of use_cext junk junkr junki in
  let s := run be hist start in
  (forall d nmax mmax, val s y = Some (XSp d) ->
     let s' := step be (Do x (PSphtSlow nmax mmax) [y]) s in
     (forall z, z <> x -> val s' z = val s z) /\
     val s' x = match spht_slow d nmax mmax with Ok c => Some (XSc c) | Raise _ => val s x end) /\
  (forall c nrows ncols, val s y = Some (XSc c) ->
     let s' := step be (Do x (PIsphtSlow nrows ncols) [y]) s in
     (forall z, z <> x -> val s' z = val s z) /\
     val s' x = match ispht_slow c nrows ncols with Ok d => Some (XSp d) | Raise _ => val s x end).
Proof.
  intros u j jr ji hist x y be s. split.
  - intros d nmax mmax HV s'.
    destruct (C46_calls_compute_on_values u j jr ji hist x (PSphtSlow nmax mmax) [y] eq_refl) as [A B].
    split; [exact A|]. fold be s in B. fold s' in B. rewrite B. cbn [vals]. rewrite HV. cbn [peval]. destruct (spht_slow d nmax mmax); reflexivity.
  - intros d nmax mmax HV s'.
    destruct (C46_calls_compute_on_values u j jr ji hist x (PIsphtSlow nmax mmax) [y] eq_refl) as [A B].
    split; [exact A|]. fold be s in B. fold s' in B. rewrite B. cbn [vals]. rewrite HV. cbn [peval]. destruct (ispht_slow d nmax mmax); reflexivity.
Qed.
Print Assumptions C48_slow.

(** The result and the argument share nothing: whatever later happens to the
    other objects leaves the result as it is, and whatever later happens to the
    result alone leaves the argument (and everything else) as it is. *)
Theorem C48_result_and_argument_independent : forall use_cext junk junkr junki (hist rest : list cmd) (x y : nat) p w v n m r k nn mm rr kk,
  let be := backend_of use_cext junk junkr junki in
  let s := run be hist start in
  let s' := step be (Do x p [y]) s in
  In p [PSpht n m; PVspht n m; PIspht r k; PVispht r k; PSphtSlow nn mm; PIsphtSlow rr kk] ->
  val s y = Some w -> peval be p [w] = Ok v -> x <> y ->
  (never_mentions x rest -> val (run be rest s') x = Some v) /\
  (touches_only (fun z => z = x \/ val s z = None) rest -> val (run be rest s') y = Some w).
Proof.
  intros u j jr ji hist rest x y p w v n m r k nn mm rr kk be s s' Hp HV HE Hxy.
  assert (HN : makes_new p = true) by (cbn in Hp; intuition (subst; reflexivity)).
  assert (HVS : vals s [y] = Some [w]) by (cbn [vals]; rewrite HV; reflexivity). split; intro HR.
  - eapply C46_new_object_isolated; eauto.
  - rewrite <- HV. eapply C46_writes_to_new_object_stay_inside; eauto. fold be s. rewrite HV. discriminate.
Qed.
Print Assumptions C48_result_and_argument_independent.

(** ** The hypotheses are met *)

(** A history with an array, a ScalarCoefs on it, a column view, a copy and a
    sum: every kind of hypothesis above is satisfied. *)
Definition demo : list cmd :=
  [Do 0 (PArray [RtoC 1; RtoC 2; RtoC 3; RtoC 4]) []; Do 1 (PScalarCoefs 1 1) [0%nat];
   Do 2 (PGet (STuple [ISlice None None None; IInt 0])) [1%nat]; Do 3 PCopy [1%nat]].
Example demo_state : forall use_cext junk junkr junki,
  let s := run (backend_of use_cext junk junkr junki) demo start in
  let c := mkSC RN [RtoC 1; RtoC 2; RtoC 3; RtoC 4] 1 1 in
  val s 0%nat = Some (XArr (sc_vec RN c)) /\ val s 1%nat = Some (XSc c) /\ val s 2%nat = Some (XArr [RtoC 1; RtoC 2]) /\
  val s 3%nat = Some (XSc c) /\ apart s 1 3 /\ ~ apart s 0 1 /\ ~ apart s 1 2.
Proof.
  intros u j jr ji s c. unfold s, c, demo, val, apart, run. clear s c. generalize (backend_of u j jr ji). intro be. cbn [fold_left].
  generalize (RtoC 1) (RtoC 2) (RtoC 3) (RtoC 4). intros z1 z2 z3 z4.
  split; [lazy -[RtoC]; reflexivity|]. split; [lazy -[RtoC]; reflexivity|]. split; [lazy -[RtoC]; reflexivity|]. split; [lazy -[RtoC]; reflexivity|].
  split; [|split].
  - intros o o' E1 E2. lazy -[RtoC reach In] in E1, E2. injection E1 as <-. injection E2 as <-. intros l [<-|[]] [E|[]]. discriminate E.
  - intro H. eapply (H _ _ eq_refl eq_refl 0%nat); left; reflexivity.
  - intro H. eapply (H _ _ eq_refl eq_refl 0%nat); left; reflexivity.
Qed.
Example demo_rest : forall z, let rest := [Do 4 (PArrSet 0 z) [0%nat]; Do 5 (PSet (STuple [IInt 1; IInt 1]) (VNum z)) [1%nat]; Do 6 PWindow [1%nat; 2%nat]] in
  never_mentions 3 rest /\ never_assigns 0 rest /\ never_assigns 1 rest /\ never_assigns 2 rest.
Proof. intros z rest. unfold rest, never_mentions, touches_only, never_assigns. repeat split; repeat constructor; cbn; lia. Qed.
Example demo_unshared : forall z, unshared
  [Do 0 (PArray [z; z]) []; Do 1 (PCoefs (fun _ => z) (fun _ => z) 1 1 0) []; Do 2 PCopy [1%nat];
   Do 3 PWindow [2%nat; 0%nat]; Do 4 (PBin OpAdd) [1%nat; 2%nat]; Do 5 (PSet (STuple [IInt 1; IInt 0]) (VNum z)) [4%nat]].
Proof.
  intro z. unfold unshared. repeat (apply Forall_cons; [first [left; reflexivity | right; split; [reflexivity|]; cbn [c_args]; repeat constructor; cbn; intuition discriminate]|]).
  constructor.
Qed.
Example demo_vc : forall use_cext junk junkr junki,
  let s := run (backend_of use_cext junk junkr junki)
    [Do 0 (PArray [RtoC 1; RtoC 2; RtoC 3; RtoC 4]) []; Do 1 (PArray [RtoC 5; RtoC 6; RtoC 7; RtoC 8]) []] start in
  val s 0%nat = Some (XArr [RtoC 1; RtoC 2; RtoC 3; RtoC 4]) /\ val s 1%nat = Some (XArr [RtoC 5; RtoC 6; RtoC 7; RtoC 8]) /\
  apart s 0 1 /\ ncoef 1 1 = 4.
Proof.
  intros u j jr ji s. unfold s, val, apart, run. generalize (backend_of u j jr ji). intro be. cbn [fold_left].
  generalize (RtoC 1) (RtoC 2) (RtoC 3) (RtoC 4) (RtoC 5) (RtoC 6) (RtoC 7) (RtoC 8). intros.
  split; [lazy -[RtoC]; reflexivity|]. split; [lazy -[RtoC]; reflexivity|]. split; [|reflexivity].
  intros o o' E1 E2. lazy -[RtoC reach In] in E1, E2. injection E1 as <-. injection E2 as <-. intros l [<-|[]] [E|[]]. discriminate E.
Qed.
(** A pattern and a coefficient object to transform. *)
Example demo_patt : forall use_cext junk junkr junki,
  let s := run (backend_of use_cext junk junkr junki)
    [Do 0 (PConstPatt (RtoC 1) 3 4 0) []; Do 1 (PCoefs (fun _ => RtoC 1) (fun _ => RtoC 1) 1 1 0) []] start in
  (exists d, val s 0%nat = Some (XSp d)) /\ (exists c, val s 1%nat = Some (XSc c)).
Proof.
  intros u j jr ji s. unfold s, val, run. generalize (backend_of u j jr ji). intro be. cbn [fold_left].
  generalize (RtoC 1). intros z. split; eexists; lazy -[RtoC]; reflexivity.
Qed.
