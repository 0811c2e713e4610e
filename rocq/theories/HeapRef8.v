(** * HeapRef8: programs without sharing behave as programs on values. *)
From Coq Require Import ZArith List String Bool Reals Lia.
From Coquelicot Require Import Complex.
From Verif Require Import Py PyFacts Num Exact MCoefs CoefsFacts MPatt PattFacts Sums MPysphi MOps MTrans MHeap SpecHeap HeapFacts HeapFacts2 HeapFacts3 HeapRef HeapRef2 HeapRef3 HeapRef4 HeapRef5 HeapRef6 HeapRef7.
Import ListNotations.
Open Scope list_scope.
Open Scope Z_scope.

(** An in-place call writes only to the buffers of its first argument. *)
Lemma exec_in_place be p o os h n0 : in_place p = true -> (n0 <= List.length h)%nat -> Forall (ok_obj h) (o :: os) ->
  spec n0 (reach o) h (exec be p (o :: os)) (fun r _ => r = ONone).
Proof.
  intros Hp Hn Ho. apply ok_args in Ho.
  destruct p; try discriminate Hp; cbn [exec]; unfold hvoid, bad_args;
    repeat match goal with |- spec _ _ _ (match ?l with _ => _ end) _ => is_var l; destruct l end; try apply spec_raise;
    cbn [reach ok_obj] in *; fwd.
  all: eapply (spec_bind _ _ _ _ _ _ _ (fun _ _ => True)); [|intros; apply spec_ret; reflexivity].
  - apply spec_aset. left. left. reflexivity.
  - apply spec_aset2. left. left. reflexivity.
  - apply spec_setitem; [exact Hn|]. left. left. reflexivity.
  - apply spec_vc_setitem; [left; left; reflexivity|left; right; left; reflexivity].
  - apply spec_setitem; [exact Hn|]. left. left. reflexivity.
  - apply spec_vc_setitem; [left; left; reflexivity|left; right; left; reflexivity].
  - eapply spec_conseq; [apply spec_window; [exact Hn|assumption|left; left; reflexivity]|auto].
Qed.

Lemma total_aset2 h b i j x : match aset2 b i j x h with (Raise _, h') => h' = h | _ => True end.
Proof.
  unfold aset2, hbind, hlift. destruct (py_index (b_nr b) i); [|reflexivity]. destruct (py_index (b_nc b) j); [|reflexivity].
  exact I.
Qed.
Lemma aset2_value h b i j x : ok_arr2 h b ->
  fst (aset2 b i j x h) = snd (mat_assign (rd2 h b) i j x) /\ rd2 (snd (aset2 b i j x h)) b = fst (mat_assign (rd2 h b) i j x).
Proof.
  intros [O1 [O2 [O3 [O4 O5]]]]. unfold aset2, mat_assign, hbind, hlift. cbn [rd2 mt_nr mt_nc].
  destruct (py_index (b_nr b) i) as [a|e] eqn:Ei; [|split; reflexivity].
  destruct (py_index (b_nc b) j) as [c|e] eqn:Ej; [|split; reflexivity].
  apply py_index_range in Ei, Ej. cbn [fst snd hstore]. split; [reflexivity|].
  unfold rd2, mmake. f_equal. apply (vget_ext (RtoC 0)); rewrite !zlen_vmake; [reflexivity|].
  intros k Hk. rewrite Z.max_r in Hk by nia. rewrite !vget_vmake by lia.
  unfold buf at 1. rewrite nth_upd, Nat.eqb_refl. destruct (Nat.ltb_spec (b_loc b) (List.length h)); [|lia]. cbn [andb].
  unfold wrb. rewrite vget_vmake by nia. unfold zlen at 1; cbn [List.length].
  assert (Hd : k = b_nc b * (k / b_nc b) + k mod b_nc b) by (apply Z.div_mod; lia).
  pose proof (Z.mod_pos_bound k (b_nc b) ltac:(lia)) as Hm.
  assert (HO : mget RN (rd2 h b) (k / b_nc b) (k mod b_nc b) = vget (RtoC 0) (buf h (b_loc b)) (b_off b + k)).
  { unfold mget. cbn [rd2 mt_nc mt_dat]. replace (k / b_nc b * b_nc b + k mod b_nc b) with k by lia.
    change (@vget (cplx RN)) with (@vget C). change (c0 RN) with (RtoC 0). rewrite vget_vmake by lia. reflexivity. }
  assert (HN : k <> a * b_nc b + c -> (if (b_off b + (a * b_nc b + c) <=? b_off b + k) && (b_off b + k <? b_off b + (a * b_nc b + c) + Z.of_nat 1)
     then vget (RtoC 0) [x] (b_off b + k - (b_off b + (a * b_nc b + c))) else vget (RtoC 0) (buf h (b_loc b)) (b_off b + k)) = vget (RtoC 0) (buf h (b_loc b)) (b_off b + k)).
  { intro Hne. destruct (Z.leb_spec (b_off b + (a * b_nc b + c)) (b_off b + k)); [|reflexivity].
    destruct (Z.ltb_spec (b_off b + k) (b_off b + (a * b_nc b + c) + Z.of_nat 1)); [lia|reflexivity]. }
  destruct (Z.eqb_spec (k / b_nc b) a), (Z.eqb_spec (k mod b_nc b) c); cbn [andb].
  - subst. replace (b_off b + k - (b_off b + (k / b_nc b * b_nc b + k mod b_nc b))) with 0 by lia.
    destruct (Z.leb_spec (b_off b + (k / b_nc b * b_nc b + k mod b_nc b)) (b_off b + k)); [|lia].
    destruct (Z.ltb_spec (b_off b + k) (b_off b + (k / b_nc b * b_nc b + k mod b_nc b) + Z.of_nat 1)); [|lia]. reflexivity.
  - rewrite HN; [symmetry; exact HO|]. intro Hk'. apply n. rewrite Hk'. rewrite Z.add_comm, Z.mod_add by lia. apply Z.mod_small. lia.
  - rewrite HN; [symmetry; exact HO|]. intro Hk'. apply n. rewrite Hk'. rewrite Z.add_comm, Z.div_add by lia. rewrite Z.div_small by lia. lia.
  - rewrite HN; [symmetry; exact HO|]. intro Hk'. apply n. rewrite Hk'. rewrite Z.add_comm, Z.div_add by lia. rewrite Z.div_small by lia. lia.
Qed.
Lemma aset_value h a i x : ok_arr h a ->
  fst (aset a i x h) = snd (vec_assign (rd h a) i x) /\ rd (snd (aset a i x h)) a = fst (vec_assign (rd h a) i x).
Proof.
  intro O. pose proof (rel_aset h a i x O) as R. unfold rel, vec_assign in *.
  assert (K : match aset a i x h with (Raise _, h') => h' = h | _ => True end).
  { unfold aset, hbind, hlift. destruct (py_index (a_len a) i); [exact I|reflexivity]. }
  destruct (aset a i x h) as [[[]|e] h'], (py_set (rd h a) i x); try contradiction; cbn [fst snd]; auto.
  subst. auto.
Qed.
Lemma hvoid_fst m h : match fst (hvoid m h) with Ok _ => fst (m h) = Ok tt | Raise e => fst (m h) = Raise e end.
Proof. unfold hvoid, hbind. destruct (m h) as [[[]|e] h']; reflexivity. Qed.
Lemma hvoid_snd m h : snd (hvoid m h) = snd (m h).
Proof. unfold hvoid, hbind. destruct (m h) as [[[]|e] h']; reflexivity. Qed.

Definition res_like {A B} (r : res A) (r' : res B) : Prop :=
  match r, r' with Ok _, Ok _ => True | Raise e, Raise e' => e = e' | _, _ => False end.
Lemma hvoid_like m h r v (f : heap -> value) : fst (m h) = r -> f (snd (m h)) = v ->
  res_like (fst (hvoid m h)) r /\ f (snd (hvoid m h)) = v.
Proof. unfold hvoid, hbind, res_like. destruct (m h) as [[[]|e] h']; cbn [fst snd hret]; intros <- <-; auto. Qed.

Lemma exec_pwrite be p o os h : in_place p = true -> Forall (ok_obj h) (o :: os) -> obj_parts o ->
  (forall o', In o' os -> forall l, In l (reach o) -> In l (reach o') -> False) ->
  res_like (fst (exec be p (o :: os) h)) (snd (pwrite p (map (oval h) (o :: os)))) /\
  oval (snd (exec be p (o :: os) h)) o = fst (pwrite p (map (oval h) (o :: os))).
Proof.
  intros Hp Ho Hpt Hap. apply ok_args in Ho.
  destruct p; try discriminate Hp; cbn [exec map].
  - destruct o as [a|b|c|c|d| |p|y z|y|]; try solve [split; reflexivity]. destruct os as [|o2 [|]]; try solve [split; reflexivity].
    cbn [map oval pwrite on_fst fst snd]. destruct (aset_value h a i x Ho) as [A B].
    apply (hvoid_like (aset a i x) h _ _ (fun h => XArr (rd h a))); [exact A|cbn [map oval on_fst fst snd]; f_equal; exact B].
  - destruct o as [a|b|c|c|d| |p|y z|y|]; try solve [split; reflexivity]. destruct os as [|o2 [|]]; try solve [split; reflexivity].
    cbn [map oval pwrite on_fst fst snd]. destruct (aset2_value h b i j x Ho) as [A B].
    apply (hvoid_like (aset2 b i j x) h _ _ (fun h => XArr2 (rd2 h b))); [exact A|cbn [map oval on_fst fst snd]; f_equal; exact B].
  - destruct o as [a|b|c|c|d| |p|y z|y|]; try solve [split; reflexivity]; destruct os as [|o2 [|]]; try solve [split; reflexivity];
      cbn [map oval pwrite on_fst fst snd ok_obj] in *.
    + destruct (srel_setitem h c arg (HVal v) Ho I) as [A B].
      apply (hvoid_like (h_sc_setitem c arg (HVal v)) h _ _ (fun h => XSc (scv h c))); [exact A|cbn [map oval on_fst fst snd]; f_equal; exact B].
    + destruct (srel_vc_setitem h c arg v Ho Hpt) as [A B].
      apply (hvoid_like (h_vc_setitem c arg v) h _ _ (fun h => XVc (vcv h c))); [exact A|cbn [map oval on_fst fst snd]; f_equal; exact B].
  - destruct o as [a|b|c|c|d| |p|y z|y|]; try solve [split; reflexivity]; (destruct os as [|o2 [|]]; try solve [split; reflexivity]);
      destruct o2 as [a'|b'|c'|c'|d'| |p'|y' z'|y'|]; try solve [split; reflexivity]; 
      cbn [map oval pwrite on_fst fst snd ok_obj] in *; destruct Ho as [O1 O2].
    + destruct (srel_setitem h c arg (HArr a') O1) as [A B].
      { split; [exact O2|]. intro E. apply (Hap (OArr a') (or_introl eq_refl) (a_loc a')); [left; auto|left; reflexivity]. }
      apply (hvoid_like (h_sc_setitem c arg (HArr a')) h _ _ (fun h => XSc (scv h c))); [exact A|cbn [map oval on_fst fst snd]; f_equal; exact B].
    + replace (vc_setitem RN (vcv h c) arg (VArr (rd h a'))) with (vc_setitem RN (vcv h c) arg VNone).
      2:{ unfold vc_setitem. reflexivity. }
      destruct (srel_vc_setitem h c arg VNone O1 Hpt) as [A B].
      apply (hvoid_like (h_vc_setitem c arg VNone) h _ _ (fun h => XVc (vcv h c))); [exact A|cbn [map oval on_fst fst snd]; f_equal; exact B].
  - destruct o as [a|b|c|c|d| |p|y z|y|]; try solve [split; reflexivity]; (destruct os as [|o2 [|]]; try solve [split; reflexivity]);
      destruct o2 as [a'|b'|c'|c'|d'| |p'|y' z'|y'|]; try solve [split; reflexivity]; 
      cbn [map oval pwrite on_fst fst snd ok_obj] in *; destruct Ho as [O1 O2].
    destruct (srel_window h c a' O1 O2) as [A B].
    { intro E. apply (Hap (OArr a') (or_introl eq_refl) (a_loc a')); [left; auto|left; reflexivity]. }
    apply (hvoid_like (h_sc_window c a') h _ _ (fun h => XSc (scv h c))); [exact A|cbn [map oval on_fst fst snd]; f_equal; exact B].
Qed.

Lemma env_ext (e e' : env) : (forall y, e y = e' y) -> forall l, lookups e l = lookups e' l.
Proof. intros H. induction l as [|x l IH]; cbn; [reflexivity|]. rewrite H, IH. reflexivity. Qed.

Lemma step_writes be d p x xs s vs : wf s -> in_place p = true -> vals s (x :: xs) = Some vs ->
  parts_apart s x -> (forall a, In a xs -> apart s x a) ->
  let s' := step be (Do d p (x :: xs)) s in
  s_env s' = match snd (pwrite p vs) with Ok _ => set_var (s_env s) d ONone | Raise _ => s_env s end /\
  (forall o, s_env s x = Some o -> oval (s_heap s') o = fst (pwrite p vs)) /\
  (forall y o, s_env s y = Some o -> apart s x y -> oval (s_heap s') o = oval (s_heap s) o).
Proof.
  intros W Hp HV HPA HA. rewrite vals_lookups in HV. cbv zeta. unfold step. cbn [c_args c_prim c_dst].
  destruct (lookups (s_env s) (x :: xs)) as [os|] eqn:EL; [|discriminate HV]. injection HV as <-.
  pose proof (lookups_ok _ _ _ W EL) as OK. pose proof (lookups_spec _ _ _ EL) as FL.
  inversion FL as [|? o0 ? os0 Ex Fx]; subst.
  assert (HPT : obj_parts o0). { destruct o0; cbn; auto. unfold parts. apply HPA. exact Ex. }
  assert (HAP : forall o', In o' os0 -> forall l, In l (reach o0) -> In l (reach o') -> False).
  { intros o' Hin l H1 H2. clear - Fx HA Hin H1 H2 Ex. induction Fx as [|a b xs os Ha Fx IH]; [destruct Hin|].
    destruct Hin as [->|Hin].
    - apply (HA a (or_introl eq_refl) o0 o' Ex Ha l H1 H2).
    - apply IH; auto. intros a' Ha'. apply HA. right. exact Ha'. }
  destruct (exec_pwrite be p o0 os0 (s_heap s) Hp OK HPT HAP) as [HR HV].
  destruct (exec_in_place be p o0 os0 (s_heap s) (List.length (s_heap s)) Hp (le_n _) OK) as [HP HQ].
  cbn [map] in *. unfold res_like in HR.
  destruct (exec be p (o0 :: os0) (s_heap s)) as [r h'] eqn:EX; cbn [fst snd] in *.
  destruct r as [o|e], (snd (pwrite p (oval (s_heap s) o0 :: map (oval (s_heap s)) os0))); try contradiction; cbn [s_env s_heap].
  - rewrite (HQ o eq_refl). split; [reflexivity|]. split.
    + intros o' E. rewrite Ex in E. injection E as <-. exact HV.
    + intros y o' Ey Hap. apply oval_ext. intros l Hl. destruct HP as [_ [HP _]]. apply HP; [eapply reach_lt; eauto|].
      intro Hin. eapply Hap; eauto.
  - split; [reflexivity|]. split.
    + intros o' E. rewrite Ex in E. injection E as <-. exact HV.
    + intros y o' Ey Hap. apply oval_ext. intros l Hl. destruct HP as [_ [HP _]]. apply HP; [eapply reach_lt; eauto|].
      intro Hin. eapply Hap; eauto.
Qed.

(** ** Programs without sharing *)
Record tidy (s : state) : Prop := {
  ti_wf : wf s;
  ti_apart : forall x y, x <> y -> apart s x y;
  ti_parts : forall x, parts_apart s x
}.
Lemma vlookups_val s l : vlookups (val s) l = vals s l.
Proof. induction l as [|x l IH]; cbn; [reflexivity|]. rewrite IH. reflexivity. Qed.
Lemma vlookups_ext e e' l : (forall x, e x = e' x) -> vlookups e l = vlookups e' l.
Proof. intro H. induction l as [|x l IH]; cbn; [reflexivity|]. rewrite H, IH. reflexivity. Qed.
Lemma vstep_ext be c e e' : (forall x, e x = e' x) -> forall x, vstep be c e x = vstep be c e' x.
Proof.
  intros H x. unfold vstep. rewrite (vlookups_ext e e' _ H). destruct (vlookups e' (c_args c)) as [vs|]; [|apply H].
  destruct (in_place (c_prim c)).
  - destruct (c_args c); [apply H|]. destruct (snd (pwrite (c_prim c) vs)); unfold vset_var; repeat (destruct (Nat.eqb x _); [reflexivity|]); apply H.
  - destruct (peval be (c_prim c) vs); unfold vset_var; [destruct (Nat.eqb x _); [reflexivity|]|]; apply H.
Qed.
Lemma new_no_write p : makes_new p = true -> writes p = false /\ in_place p = false.
Proof. destruct p; try discriminate; auto. Qed.

Lemma step_tidy_new be d p args s : be_wf be -> tidy s -> makes_new p = true ->
  tidy (step be (Do d p args) s) /\ forall x, val (step be (Do d p args) s) x = vstep be (Do d p args) (val s) x.
Proof.
  intros WB T Hp. destruct (new_no_write p Hp) as [Hw Hi].
  destruct (step_new be d p args s (ti_wf s T) Hp) as [HE [HV HA]].
  pose proof (step_stepped be (Do d p args) s (ti_wf s T)) as S. split.
  - split; [apply (st_wf _ _ _ S)| |].
    + intros x y Hxy. destruct (Nat.eq_dec x d) as [->|Hx]; [|destruct (Nat.eq_dec y d) as [->|Hy]].
      * destruct HA as [HA|HA]; [|apply HA; auto]. intros o o' E1 E2. rewrite HA in E1. rewrite HE in E2 by auto.
        exact (ti_apart s T d y Hxy o o' E1 E2).
      * destruct HA as [HA|HA].
        -- intros o o' E1 E2. rewrite HA in E2. rewrite HE in E1 by auto. exact (ti_apart s T x d Hxy o o' E1 E2).
        -- intros o o' E1 E2 l H1 H2. exact (HA x Hx o' o E2 E1 l H2 H1).
      * intros o o' E1 E2. rewrite HE in E1 by auto. rewrite HE in E2 by auto. exact (ti_apart s T x y Hxy o o' E1 E2).
    + intros x c Ec. destruct (Nat.eq_dec x d) as [->|Hx]; [|rewrite HE in Ec by auto; exact (ti_parts s T x c Ec)].
      unfold step in Ec. cbn [c_args c_prim c_dst] in Ec. destruct (lookups (s_env s) args) as [os|]; [|exact (ti_parts s T d c Ec)].
      pose proof (exec_parts be p os (s_heap s) Hp) as EP. unfold ens in EP.
      destruct (exec be p os (s_heap s)) as [[o|e] h']; cbn [s_env fst] in *; [|exact (ti_parts s T d c Ec)].
      unfold set_var in Ec. rewrite Nat.eqb_refl in Ec. injection Ec as ->. exact (EP (OVc c) eq_refl).
  - intro x. destruct (step_reads be d p args s (ti_wf s T) WB Hw) as [R1 R2].
    unfold vstep. cbn [c_args c_prim c_dst]. rewrite vlookups_val, Hi.
    destruct (Nat.eq_dec x d) as [->|Hx].
    + rewrite R2. destruct (vals s args) as [vs|]; [|reflexivity]. destruct (peval be p vs); [|reflexivity].
      unfold vset_var. rewrite Nat.eqb_refl. reflexivity.
    + rewrite R1 by exact Hx. destruct (vals s args) as [vs|]; [|reflexivity]. destruct (peval be p vs); [|reflexivity].
      unfold vset_var. destruct (Nat.eqb_spec x d); [contradiction|reflexivity].
Qed.

Lemma step_tidy_write be d p args s : tidy s -> in_place p = true -> NoDup args ->
  tidy (step be (Do d p args) s) /\ forall x, val (step be (Do d p args) s) x = vstep be (Do d p args) (val s) x.
Proof.
  intros T Hi ND. pose proof (ti_wf s T) as W.
  pose proof (step_stepped be (Do d p args) s W) as S.
  destruct args as [|x xs].
  - assert (E : exec be p [] (s_heap s) = (Raise (TypeError "arguments"), s_heap s)) by (destruct p; try discriminate Hi; reflexivity).
    unfold step, vstep. cbn [c_args c_prim c_dst lookups vlookups]. rewrite E, Hi. split; [destruct s; exact T|].
    destruct s; reflexivity.
  - unfold vstep. cbn [c_args c_prim c_dst]. rewrite vlookups_val, Hi.
    destruct (vals s (x :: xs)) as [vs|] eqn:EV.
    2:{ rewrite vals_lookups in EV. unfold step. cbn [c_args c_prim c_dst]. destruct (lookups (s_env s) (x :: xs)); [discriminate EV|]. auto. }
    inversion ND as [|? ? Hnin ND']; subst.
    destruct (step_writes be d p x xs s vs W Hi EV (ti_parts s T x)) as [HE [HX HY]].
    { intros a Ha. apply (ti_apart s T). intros ->. contradiction. }
    assert (Hold : forall y o, s_env (step be (Do d p (x :: xs)) s) y = Some o -> s_env s y = Some o \/ o = ONone).
    { intros y o. rewrite HE. destruct (snd (pwrite p vs)); [|auto]. unfold set_var.
      destruct (Nat.eqb y d); [intro E; injection E as <-; auto|auto]. }
    split.
    + split; [apply (st_wf _ _ _ S)| |].
      * intros y z Hyz o o' E1 E2. apply Hold in E1, E2.
        destruct E1 as [E1| ->]; [|intros l []]. destruct E2 as [E2| ->]; [|intros l _ []]. exact (ti_apart s T y z Hyz o o' E1 E2).
      * intros y c Ec. apply Hold in Ec. destruct Ec as [Ec|Ec]; [exact (ti_parts s T y c Ec)|discriminate].
    + assert (Hval : forall y, match s_env s y with Some o => Some (oval (s_heap (step be (Do d p (x :: xs)) s)) o) | None => None end
        = vset_var (val s) x (fst (pwrite p vs)) y).
      { intro y. unfold vset_var, val. destruct (Nat.eqb_spec y x) as [->|Hy].
        - destruct (s_env s x) as [o|] eqn:Eo; [rewrite (HX o eq_refl); reflexivity|].
          cbn [vals] in EV. unfold val in EV. rewrite Eo in EV. discriminate EV.
        - destruct (s_env s y) as [o|] eqn:Eo; [|reflexivity]. rewrite (HY y o Eo); [reflexivity|]. apply (ti_apart s T). auto. }
      intro y. unfold val at 1. rewrite HE. destruct (snd (pwrite p vs)); [|apply Hval].
      unfold set_var. unfold vset_var at 1. destruct (Nat.eqb y d); [reflexivity|apply Hval].
Qed.

Lemma tidy_start : tidy start.
Proof. split; [exact wf_start| |]; intros x; intros; intros ? ?; discriminate. Qed.
Lemma run_tidy be prog : be_wf be -> unshared prog -> forall s, tidy s ->
  tidy (run be prog s) /\ forall e, (forall x, val s x = e x) -> forall x, val (run be prog s) x = vrun be prog e x.
Proof.
  intros WB HU. induction HU as [|[d p args] prog Hc HU IH]; intros s T; cbn [run vrun fold_left]; [auto|].
  assert (ST : tidy (step be (Do d p args) s) /\ forall x, val (step be (Do d p args) s) x = vstep be (Do d p args) (val s) x).
  { cbn [c_prim c_args] in Hc. destruct Hc as [Hp|[Hi ND]]; [apply step_tidy_new; auto|apply step_tidy_write; auto]. }
  destruct ST as [T' E]. destruct (IH _ T') as [T'' R]. split; [exact T''|]. intros e He. apply R.
  intro x. rewrite E. apply vstep_ext. exact He.
Qed.
