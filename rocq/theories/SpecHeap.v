(** * SpecHeap: vocabulary of the storage properties C46-C48. *)
From Coq Require Import ZArith List String Bool Reals.
From Coquelicot Require Import Complex.
From Verif Require Import Py Num Exact MCoefs MPatt Sums MPysphi MOps MTrans MHeap.
Import ListNotations.
Open Scope list_scope.
Open Scope Z_scope.

(** What can be observed of an object: the values of all its entries, and its
    fields that are not arrays. *)
Inductive value : Type :=
| XArr (v : list C)
| XArr2 (m : mat RN)
| XSc (c : scoefs RN)
| XVc (c : vcoefs RN)
| XSp (m : mat RN)
| XSpExc
| XTp (p : tpatt RN)
| XTup (x y : value)
| XNum (x : C)
| XNone.

Fixpoint oval (h : heap) (o : obj) : value :=
  match o with
  | OArr a => XArr (rd h a)
  | OArr2 b => XArr2 (rd2 h b)
  | OSc c => XSc (scv h c)
  | OVc c => XVc (vcv h c)
  | OSp d => XSp (rd2 h d)
  | OSpExc => XSpExc
  | OTp p => XTp (tpv h p)
  | OTup x y => XTup (oval h x) (oval h y)
  | ONum x => XNum x
  | ONone => XNone
  end.

(** The value of variable x, if it is bound. *)
Definition val (s : state) (x : nat) : option value :=
  match s_env s x with Some o => Some (oval (s_heap s) o) | None => None end.

(** The numpy buffers an object holds. *)
Fixpoint reach (o : obj) : list nat :=
  match o with
  | OArr a => [a_loc a]
  | OArr2 b => [b_loc b]
  | OSc c => [a_loc (hs_arr c)]
  | OVc c => [a_loc (hs_arr (hv_1 c)); a_loc (hs_arr (hv_2 c))]
  | OSp d => [b_loc d]
  | OTp p => [b_loc (fst p); b_loc (snd p)]
  | OTup x y => reach x ++ reach y
  | OSpExc | ONum _ | ONone => []
  end.
(** Variables x and y of state s hold no common buffer (trivially so when one
    of them is unbound). *)
Definition apart (s : state) (x y : nat) : Prop :=
  forall o o', s_env s x = Some o -> s_env s y = Some o' ->
  forall l, In l (reach o) -> In l (reach o') -> False.

(** The two components of the VectorCoefs in x hold different buffers. *)
Definition parts_apart (s : state) (x : nat) : Prop :=
  forall c, s_env s x = Some (OVc c) -> a_loc (hs_arr (hv_1 c)) <> a_loc (hs_arr (hv_2 c)).

(** The empty program state: no variable, no buffer. *)
Definition start : state := mkSt (fun _ => None) [].

(** A program touches only the variables satisfying A. *)
Definition touches_only (A : nat -> Prop) (p : list cmd) : Prop :=
  Forall (fun c => A (c_dst c) /\ Forall A (c_args c)) p.
Definition never_mentions (x : nat) (p : list cmd) : Prop := touches_only (fun y => y <> x) p.
(** A program does not rebind x (it may modify the object). *)
Definition never_assigns (x : nat) (p : list cmd) : Prop := Forall (fun c => c_dst c <> x) p.

(** The calls documented as returning a new object: np.array and np.copy, the
    two copy methods, c[n, m], c[n, :] and c[0:k, :], the operators, the
    pattern constructors without doublesphere, the factories, abs, mag, mag2
    and the transforms.  (The others: the coefficient constructors, c[:, m],
    the attribute accessors, the pattern constructors with doublesphere=True,
    and everything that writes in place.) *)
Definition makes_new (p : prim) : bool :=
  match p with
  | PArray _ | PArray2 _ _ _ | PNpCopy | PCopy | PBin _ | PBinNum _ _ | PNumBin _ _
  | PScalarPattern false | PTransversePattern false | PCoefs _ _ _ _ _ | PConstPatt _ _ _ _
  | PRandomPatt _ _ _ _ _ | PAbs | PMag | PMag2 | PSpht _ _ | PVspht _ _ | PIspht _ _ | PVispht _ _
  | PSphtSlow _ _ | PIsphtSlow _ _ => true
  | PGet (STuple [ISlice _ _ _; IInt _]) => false
  | PGet _ => true
  | _ => false
  end.

(** The calls that write through their arguments: item assignment, window, and
    VectorCoefs(vec1, vec2, nmax, mmax), which clears vec1[0] and vec2[0]. *)
Definition writes (p : prim) : bool :=
  match p with
  | PArrSet _ _ | PArrSet2 _ _ _ | PSet _ _ | PSetArr _ | PWindow | PVectorCoefs _ _ => true
  | _ => false
  end.

(** The calls that hand out a reference to storage that already exists. *)
Definition shares (p : prim) : bool := negb (makes_new p) && negb (writes p).

(** What a call that does not write returns, as a function of the values of
    its arguments alone: the functions of MCoefs.v, MPatt.v and MTrans.v, where
    there is no storage. *)
Definition rmap {A B} (f : A -> B) (r : res A) : res B := x <- r ;; Ok (f x).
Definition bad_value : res value := Raise (TypeError "arguments").
Definition sc_item_value (x : sc_item RN) : value :=
  match x with ItElem z => XNum z | ItVec l => XArr l | ItCoefs c => XSc c end.
Definition vc_item_value (x : vc_item RN) : value :=
  match x with
  | VItElem y z => XTup (XNum y) (XNum z)
  | VItVec l1 l2 => XTup (XArr l1) (XArr l2)
  | VItCoefs c => XVc c
  end.
Definition sp_res_value (x : sp_res RN) : value := match x with PHolds d => XSp d | PExc => XSpExc end.
Definition any_value (x : anycoefs RN) : value := match x with AnyS c => XSc c | AnyV c => XVc c end.
Definition anypatt_value (x : anypatt RN) : value := match x with AnySP d => XSp d | AnyTP p => XTp p end.
Definition mres_value (x : mres RN) : value := match x with MArr a => XArr2 a | MCoef c => XSc c end.
Definition sobj_of (v : value) : sobj RN :=
  match v with XSp d => OSP RN d | XTp p => OTP RN p | XSc c => OSC RN c | XVc c => OVC RN c | _ => OOther RN end.
Definition sc_opnd_of (v : value) : sc_operand RN :=
  match v with XSc c => OpndSC RN c | XNum x => OpndNum RN x | _ => OpndOther RN end.
Definition vc_opnd_of (v : value) : vc_operand RN :=
  match v with XVc c => VOpndVC RN c | XNum x => VOpndNum RN x | _ => VOpndOther RN end.
Definition sp_opnd_of (v : value) : sp_operand RN :=
  match v with XSp d => SPndP RN d | XNum x => SPndNum RN x | _ => SPndOther RN end.
Definition tp_opnd_of (v : value) : tp_operand RN :=
  match v with XTp p => TPndP RN p | XNum x => TPndNum RN x | _ => TPndOther RN end.
(** the visible rows of the doubled tables *)
Definition tp_rows (p : tpatt RN) (d : mat RN) : mat RN := mrows RN d (p_nrows RN (tp_t RN p)).

Definition peval (be : backend) (p : prim) (args : list value) : res value :=
  match p, args with
  | PArray l, [] => Ok (XArr l)
  | PArray2 nr nc f, [] => if (nr <? 0) || (nc <? 0) then Raise NumpyError else Ok (XArr2 (mmake RN nr nc f))
  | PArrSlice i j, [XArr v] => Ok (XArr (py_slice v i j))
  | PRow2 i, [XArr2 m] => rmap XArr (row_get m i)
  | PNpCopy, [XArr v] => Ok (XArr v)
  | PNpCopy, [XArr2 m] => Ok (XArr2 m)
  | PScalarCoefs n m, [XArr v] => rmap XSc (sc_new RN v n m)
  | PCopy, [XSc c] => rmap XSc (sc_copy RN c)
  | PCopy, [XVc c] => rmap XVc (vc_copy RN c)
  | PGet arg, [XSc c] => rmap sc_item_value (sc_getitem RN c arg)
  | PGet arg, [XVc c] => rmap vc_item_value (vc_getitem RN c arg)
  | PScoef1, [XVc c] => Ok (XSc (vc_1 RN c))
  | PScoef2, [XVc c] => Ok (XSc (vc_2 RN c))
  | PVec, [XSc c] => Ok (XArr (sc_vec RN c))
  | PBin o, [XSc c; y] => rmap XSc (sc_op_left RN o c (sc_opnd_of y))
  | PBin o, [XVc c; y] => rmap XVc (vc_op_left RN o c (vc_opnd_of y))
  | PBin o, [XSp c; y] => rmap sp_res_value (sp_op_left RN o c (sp_opnd_of y))
  | PBin o, [XTp c; y] => rmap XTp (tp_op_left RN o c (tp_opnd_of y))
  | PBinNum o x, [XSc c] => rmap XSc (sc_op_left RN o c (OpndNum RN x))
  | PBinNum o x, [XVc c] => rmap XVc (vc_op_left RN o c (VOpndNum RN x))
  | PBinNum o x, [XSp c] => rmap sp_res_value (sp_op_left RN o c (SPndNum RN x))
  | PBinNum o x, [XTp c] => rmap XTp (tp_op_left RN o c (TPndNum RN x))
  | PNumBin o x, [XSc c] => rmap XSc (sc_op_right RN o c (OpndNum RN x))
  | PNumBin o x, [XVc c] => rmap XVc (vc_op_right RN o c (VOpndNum RN x))
  | PNumBin o x, [XSp c] => rmap sp_res_value (sp_op_right RN o c (SPndNum RN x))
  | PNumBin o x, [XTp c] => rmap XTp (tp_op_right RN o c (TPndNum RN x))
  | PScalarPattern ds, [XArr2 m] => rmap XSp (sp_new RN m ds)
  | PTransversePattern ds, [XArr2 t; XArr2 p] => rmap XTp (tp_new RN t p ds)
  | PCdata, [XSp d] => Ok (XArr2 (p_array RN d))
  | PCdata, [XTp p] => Ok (XTup (XArr2 (tp_rows p (tp_t RN p))) (XArr2 (tp_rows p (tp_p RN p))))
  | PDouble, [XSp d] => Ok (XArr2 d)
  | PDouble, [XTp p] => Ok (XTup (XArr2 (tp_t RN p)) (XArr2 (tp_p RN p)))
  | PTheta, [XTp p] => Ok (XArr2 (tp_rows p (tp_t RN p)))
  | PPhi, [XTp p] => Ok (XArr2 (tp_rows p (tp_p RN p)))
  | PThetaDouble, [XTp p] => Ok (XArr2 (tp_t RN p))
  | PPhiDouble, [XTp p] => Ok (XArr2 (tp_p RN p))
  | PCoefs f1 f2 n m t, [] => rmap any_value (coefs_factory RN f1 f2 n m t)
  | PConstPatt x nr nc t, [] => rmap anypatt_value (const_patt_uniform RN x nr nc t)
  | PRandomPatt d1 d2 nr nc t, [] => rmap anypatt_value (random_patt_uniform RN d1 d2 nr nc t)
  | PAbs, [v] => rmap mres_value (sp_abs RN (sobj_of v))
  | PMag, [v] => rmap mres_value (sp_mag RN (sobj_of v))
  | PMag2, [v] => rmap mres_value (sp_mag2 RN (sobj_of v))
  | PSpht n m, [XSp d] => rmap XSc (spht be d n m)
  | PVspht n m, [XTp p] => rmap XVc (vspht be p n m)
  | PIspht r k, [XSc c] => rmap XSp (ispht be c r k)
  | PVispht r k, [XVc c] => rmap XTp (vispht be c r k)
  | PSphtSlow n m, [XSp d] => rmap XSc (spht_slow d n m)
  | PIsphtSlow r k, [XSc c] => rmap XSp (ispht_slow c r k)
  | _, _ => bad_value
  end.

(** The values of a list of variables, if all are bound. *)
Fixpoint vals (s : state) (l : list nat) : option (list value) :=
  match l with
  | [] => Some []
  | x :: l => match val s x, vals s l with Some v, Some vs => Some (v :: vs) | _, _ => None end
  end.

(** ** Programs that never share storage *)

(** Item assignment and window: the new value of the object assigned to, and
    the result, as functions of the values. *)
Definition in_place (p : prim) : bool :=
  match p with PArrSet _ _ | PArrSet2 _ _ _ | PSet _ _ | PSetArr _ | PWindow => true | _ => false end.
(** a[i] = x and b[i, j] = x on arrays *)
Definition vec_assign (v : list C) (i : Z) (x : C) : list C * res unit :=
  match py_set v i x with Ok w => (w, Ok tt) | Raise e => (v, Raise e) end.
Definition mat_assign (m : mat RN) (i j : Z) (x : C) : mat RN * res unit :=
  match py_index (mt_nr RN m) i, py_index (mt_nc RN m) j with
  | Ok i, Ok j =>
      (mmake RN (mt_nr RN m) (mt_nc RN m) (fun a b => if (a =? i) && (b =? j) then x else mget RN m a b), Ok tt)
  | Ok _, Raise e | Raise e, _ => (m, Raise e)
  end.
Definition on_fst {A B D} (f : A -> B) (x : A * D) : B * D := (f (fst x), snd x).
Definition pwrite (p : prim) (args : list value) : value * res unit :=
  match p, args with
  | PArrSet i x, [XArr v] => on_fst XArr (vec_assign v i x)
  | PArrSet2 i j x, [XArr2 m] => on_fst XArr2 (mat_assign m i j x)
  | PSet arg w, [XSc c] => on_fst XSc (sc_setitem RN c arg w)
  | PSet arg w, [XVc c] => on_fst XVc (vc_setitem RN c arg w)
  | PSetArr arg, [XSc c; XArr v] => on_fst XSc (sc_setitem RN c arg (VArr v))
  | PSetArr arg, [XVc c; XArr v] => on_fst XVc (vc_setitem RN c arg (VArr v))
  | PWindow, [XSc c; XArr v] => on_fst XSc (sc_window RN c v)
  | _, v :: _ => (v, Raise (TypeError "arguments"))
  | _, [] => (XNone, Raise (TypeError "arguments"))
  end.

(** Every call either makes a new object, or assigns in place to its first
    argument, with different variables as arguments. *)
Definition unshared (p : list cmd) : Prop :=
  Forall (fun c => makes_new (c_prim c) = true \/ (in_place (c_prim c) = true /\ NoDup (c_args c))) p.

(** The same programs over an environment of values, without a store. *)
Definition venv : Type := nat -> option value.
Definition vset_var (e : venv) (x : nat) (v : value) : venv := fun y => if Nat.eqb y x then Some v else e y.
Fixpoint vlookups (e : venv) (l : list nat) : option (list value) :=
  match l with
  | [] => Some []
  | x :: l => match e x, vlookups e l with Some v, Some vs => Some (v :: vs) | _, _ => None end
  end.
Definition vstep (be : backend) (c : cmd) (e : venv) : venv :=
  match vlookups e (c_args c) with
  | None => e
  | Some vs =>
      if in_place (c_prim c) then
        match c_args c with
        | [] => e
        | x :: _ =>
            let e' := vset_var e x (fst (pwrite (c_prim c) vs)) in
            match snd (pwrite (c_prim c) vs) with
            | Ok _ => vset_var e' (c_dst c) XNone
            | Raise _ => e'
            end
        end
      else match peval be (c_prim c) vs with
           | Ok v => vset_var e (c_dst c) v
           | Raise _ => e
           end
  end.
Definition vrun (be : backend) (p : list cmd) (e : venv) : venv := fold_left (fun e c => vstep be c e) p e.
