(** * MHeap: storage.  The same methods as in MCoefs.v, MPatt.v, MOps.v and
    MTrans.v, now as programs over a store of mutable numpy buffers, so that
    aliasing and in-place modification are visible.

    A location is the index of a buffer; np.array / np.zeros / np.copy and
    every arithmetic expression allocate a new buffer at the end of the store.
    A numpy array is a contiguous window into a buffer: a 1-D array [arr], or
    a 2-D row-major array [arr2] (arrays with other strides, which only the
    user can build, are not modelled).  The objects of the library are
    immutable records holding array references: no method of the library
    rebinds a field.  The numbers are the exact complex numbers of Exact.v;
    dtype (float64 against complex128) is not modelled.

    An exception keeps the modifications made before it. *)
From Coq Require Import ZArith List String Bool Reals.
From Coquelicot Require Import Complex.
From Verif Require Import Py Num Exact MCoefs MPatt Sums MPysphi MOps MTrans.
Import ListNotations.
Open Scope string_scope.
Open Scope list_scope.
Open Scope Z_scope.

(** ** Store and effects *)
Definition heap : Type := list (list C).
Definition buf (h : heap) (l : nat) : list C := nth l h [].

Definition hm (A : Type) : Type := heap -> res A * heap.
Definition hret {A} (a : A) : hm A := fun h => (Ok a, h).
Definition hlift {A} (r : res A) : hm A := fun h => (r, h).
Definition hraise {A} (e : exn) : hm A := fun h => (Raise e, h).
Definition hread {A} (f : heap -> A) : hm A := fun h => (Ok (f h), h).
Definition hbind {A B} (m : hm A) (f : A -> hm B) : hm B :=
  fun h => match m h with
           | (Ok a, h') => f a h'
           | (Raise e, h') => (Raise e, h')
           end.
Notation "x <~ e ;; k" := (hbind e (fun x => k))
  (at level 100, e at next level, right associativity).

(** for i in l: body *)
Fixpoint hfor (l : list Z) (f : Z -> hm unit) : hm unit :=
  match l with
  | [] => hret tt
  | i :: l => _ <~ f i ;; hfor l f
  end.

(** ** 1-D arrays *)
Record arr : Type := mkArr { a_loc : nat; a_off : Z; a_len : Z }.
Definition rd (h : heap) (a : arr) : list C :=
  vmake (a_len a) (fun i => vget (RtoC 0) (buf h (a_loc a)) (a_off a + i)).
(** The buffer [b] with the entries from [off] on replaced by [w]. *)
Definition wrb (b : list C) (off : Z) (w : list C) : list C :=
  vmake (zlen b) (fun k =>
    if (off <=? k) && (k <? off + zlen w) then vget (RtoC 0) w (k - off) else vget (RtoC 0) b k).
Definition hstore (l : nat) (off : Z) (w : list C) : hm unit :=
  fun h => (Ok tt, upd h l (wrb (buf h l) off w)).
(** A new buffer. *)
Definition halloc (v : list C) : hm nat := fun h => (Ok (List.length h), h ++ [v]).
(** A new array with contents v. *)
Definition np_new (v : list C) : hm arr := l <~ halloc v ;; hret (mkArr l 0 (zlen v)).
(** np.copy(a) *)
Definition np_copy (a : arr) : hm arr := v <~ hread (fun h => rd h a) ;; np_new v.
(** a[i] and a[i] = x *)
Definition aget (a : arr) (i : Z) : hm C :=
  v <~ hread (fun h => rd h a) ;; hlift (py_get (RtoC 0) v i).
Definition aset (a : arr) (i : Z) (x : C) : hm unit :=
  k <~ hlift (py_index (a_len a) i) ;; hstore (a_loc a) (a_off a + k) [x].
(** a[i:j] is a view *)
Definition aview (a : arr) (i j : Z) : arr :=
  let i' := slice_bound (a_len a) i in
  let j' := slice_bound (a_len a) j in
  mkArr (a_loc a) (a_off a + i') (Z.max 0 (j' - i')).
(** a[i:j] = w; a length-1 right hand side is repeated.  numpy reads an
    overlapping source as if it had been copied first. *)
Definition asetslice (a : arr) (i j : Z) (w : list C) : hm unit :=
  let v := aview a i j in
  if zlen w =? a_len v then hstore (a_loc v) (a_off v) w
  else match w with
       | [x] => hstore (a_loc v) (a_off v) (vmake (a_len v) (fun _ => x))
       | _ => hraise NumpyError
       end.

(** ** 2-D arrays *)
Record arr2 : Type := mkArr2 { b_loc : nat; b_off : Z; b_nr : Z; b_nc : Z }.
Definition rd2 (h : heap) (b : arr2) : mat RN :=
  mkMat RN (b_nr b) (b_nc b)
    (vmake (b_nr b * b_nc b) (fun i => vget (RtoC 0) (buf h (b_loc b)) (b_off b + i))).
(** A new array of the shape of [m] with its nr * nc entries (a shape has no
    negative entries). *)
Definition np_new2 (m : mat RN) : hm arr2 :=
  let nr := Z.max 0 (mt_nr RN m) in
  let nc := Z.max 0 (mt_nc RN m) in
  l <~ halloc (vmake (nr * nc) (fun i => vget (RtoC 0) (mt_dat RN m) i)) ;;
  hret (mkArr2 l 0 nr nc).
(** b[:, :] = m *)
Definition fill2 (b : arr2) (m : mat RN) : hm unit :=
  hstore (b_loc b) (b_off b) (vmake (b_nr b * b_nc b) (fun i => vget (RtoC 0) (mt_dat RN m) i)).
(** b[i, j] = x *)
Definition aset2 (b : arr2) (i j : Z) (x : C) : hm unit :=
  i <~ hlift (py_index (b_nr b) i) ;;
  j <~ hlift (py_index (b_nc b) j) ;;
  hstore (b_loc b) (b_off b + (i * b_nc b + j)) [x].
(** b[0:k, :] is a view of the first rows *)
Definition arows (b : arr2) (k : Z) : arr2 :=
  mkArr2 (b_loc b) (b_off b) (Z.max 0 (Z.min k (b_nr b))) (b_nc b).
(** b[i, :] is a view *)
Definition arow (b : arr2) (i : Z) : hm arr :=
  i <~ hlift (py_index (b_nr b) i) ;; hret (mkArr (b_loc b) (b_off b + i * b_nc b) (b_nc b)).

(** ** ScalarCoefs *)
Record hsc : Type := mkHSC { hs_arr : arr; hs_nmax : Z; hs_mmax : Z }.
(** The value of the object in a store: what MCoefs.v talks about. *)
Definition scv (h : heap) (c : hsc) : scoefs RN := mkSC RN (rd h (hs_arr c)) (hs_nmax c) (hs_mmax c).

(** spherepy.py:194-206 __init__: _vec is the caller's array *)
Definition h_sc_new (vec : arr) (nmax mmax : Z) : hm hsc :=
  if mmax >? nmax then hraise (ValueError "nmax_g_mmax")
  else if negb (ncoef nmax mmax =? a_len vec) then hraise (ValueError "scoef_size")
  else hret (mkHSC vec nmax mmax).

(** spherepy.py:234-243 copy *)
Definition h_sc_copy (c : hsc) : hm hsc :=
  vec <~ np_copy (hs_arr c) ;; h_sc_new vec (hs_nmax c) (hs_mmax c).

(** spherepy.py:426-432, 492-498: the index computation (no storage involved) *)
Definition h_sc_index (c : hsc) (n m : Z) : res Z :=
  if (n <? 0) || (n >? hs_nmax c) then Raise (AttributeError "n_out_bound")
  else if (Z.abs m >? n) || (Z.abs m >? hs_mmax c) then Raise (AttributeError "m_out_bound")
  else i <- mindx m (hs_nmax c) (hs_mmax c) ;; Ok (i + n - Z.abs m).

(** spherepy.py:487-500 c[n, m] *)
Definition h_sc_get_elem (c : hsc) (n m : Z) : hm C :=
  i <~ hlift (h_sc_index c n m) ;; aget (hs_arr c) i.

(** spherepy.py:444-462 c[:, m]: a view of _vec *)
Definition h_sc_col (c : hsc) (m : Z) : hm arr :=
  if Z.abs m >? hs_mmax c then hraise (AttributeError "m_out_bound")
  else
    a <~ hlift (mindx m (hs_nmax c) (hs_mmax c)) ;;
    hret (aview (hs_arr c) a (a + hs_nmax c - Z.abs m + 1)).

Definition h_nn (c : hsc) (n : Z) : Z := if n <=? hs_mmax c then n else hs_mmax c.

(** spherepy.py:464-485 c[n, :]: the list mlst is turned into a new array *)
Fixpoint h_collect (l : list Z) (f : Z -> hm C) : hm (list C) :=
  match l with
  | [] => hret []
  | m :: l => x <~ f m ;; r <~ h_collect l f ;; hret (x :: r)
  end.
Definition h_sc_row (c : hsc) (n : Z) : hm arr :=
  if (n >? hs_nmax c) || (n <? 0) then hraise (AttributeError "m_out_bound")
  else
    let nn := h_nn c n in
    l <~ h_collect (zrange (- nn) (nn + 1)) (fun m => h_sc_get_elem c n m) ;;
    np_new l.

(** spherepy.py:502-538 c[0:k, :]: a new zero array, filled column by column *)
Definition h_sc_trunc (c : hsc) (stop : Z) : hm hsc :=
  if stop >? hs_nmax c then hraise (AttributeError "n_out_bound")
  else
    let nmax := hs_nmax c in
    let mmax := hs_mmax c in
    let new_nmax := stop in
    let new_mmax := if new_nmax >? mmax then mmax else new_nmax in
    let NC := ncoef new_nmax new_mmax in
    z <~ hlift (np_zeros NC (RtoC 0)) ;;
    vec <~ np_new z ;;
    w <~ hread (fun h => rd h (aview (hs_arr c) 0 (new_nmax + 1))) ;;
    _ <~ asetslice vec 0 (new_nmax + 1) w ;;
    _ <~ hfor (zrange 1 (new_mmax + 1)) (fun m =>
           let ln := new_nmax - Z.abs m + 1 in
           idx <~ hlift (mindx (- m) nmax mmax) ;;
           nidx <~ hlift (mindx (- m) new_nmax new_mmax) ;;
           w <~ hread (fun h => rd h (aview (hs_arr c) idx (idx + ln))) ;;
           _ <~ asetslice vec nidx (nidx + ln) w ;;
           idx <~ hlift (mindx m nmax mmax) ;;
           nidx <~ hlift (mindx m new_nmax new_mmax) ;;
           w <~ hread (fun h => rd h (aview (hs_arr c) idx (idx + ln))) ;;
           asetslice vec nidx (nidx + ln) w) ;;
    h_sc_new vec new_nmax new_mmax.

(** The right hand side of c[...] = val: a Python value, or an array. *)
Inductive hval : Type := HVal (v : pyval C) | HArr (a : arr).
Definition hval_len (v : hval) : res Z :=
  match v with HVal v => val_len v | HArr a => Ok (a_len a) end.
Definition hval_list (v : hval) : hm (list C) :=
  match v with HVal v => hret (val_list v) | HArr a => hread (fun h => rd h a) end.

(** spherepy.py:421-434 c[n, m] = x *)
Definition h_sc_set_elem (c : hsc) (n m : Z) (x : C) : hm unit :=
  i <~ hlift (h_sc_index c n m) ;; aset (hs_arr c) i x.

(** spherepy.py:375-395 c[:, m] = val *)
Definition h_sc_set_col (c : hsc) (m : Z) (val : hval) : hm unit :=
  if Z.abs m >? hs_mmax c then hraise (AttributeError "m_out_bound")
  else
    a <~ hlift (mindx m (hs_nmax c) (hs_mmax c)) ;;
    let b := a + hs_nmax c - Z.abs m + 1 in
    lv <~ hlift (hval_len val) ;;
    if negb (lv =? a_len (aview (hs_arr c) a b)) then hraise (AttributeError "dim_no_mtch")
    else w <~ hval_list val ;; asetslice (hs_arr c) a b w.

(** spherepy.py:397-419 c[n, :] = val: val[k] is read at every step *)
Definition h_sc_set_row (c : hsc) (n : Z) (val : hval) : hm unit :=
  if (n >? hs_nmax c) || (n <? 0) then hraise (AttributeError "n_out_bound")
  else
    lv <~ hlift (hval_len val) ;;
    if negb (lv =? 2 * n + 1) then hraise (AttributeError "dim_no_mtch")
    else
      let nn := h_nn c n in
      hfor (zrange (- nn) (nn + 1)) (fun m =>
        v <~ hval_list val ;;
        x <~ hlift (py_get (RtoC 0) v (m + nn)) ;;
        h_sc_set_elem c n m x).

(** spherepy.py:371-437 __setitem__ *)
Definition h_sc_setitem (c : hsc) (arg : subscript) (val : hval) : hm unit :=
  match arg with
  | SNoLen => hraise (TypeError "object has no len()")
  | STuple [i0; i1] =>
      match i0, i1 with
      | ISlice None None None, IInt m => h_sc_set_col c m val
      | ISlice _ _ _, IInt _ => hraise (AttributeError "slice_noper")
      | IInt n, ISlice None None None => h_sc_set_row c n val
      | IInt _, ISlice _ _ _ => hraise (AttributeError "slice_noper")
      | IInt n, IInt m =>
          match val with
          | HVal (VNum x) => h_sc_set_elem c n m x
          | _ => _ <~ hlift (h_sc_index c n m) ;; hraise NumpyError
          end
      | _, _ => hraise (AttributeError "idx_no_rec")
      end
  | STuple _ => hraise (AttributeError "tuple_2_el")
  end.

(** spherepy.py:245-269 window(vec).  self[:, m] * vec[m:] is a new array;
    vec is read again at each step. *)
Definition h_window_col (c : hsc) (m : Z) (w : arr) : hm unit :=
  col <~ h_sc_col c m ;;
  u <~ hread (fun h => rd h col) ;;
  v <~ hread (fun h => rd h w) ;;
  p <~ hlift (np_broadcast Cmult u v) ;;
  p <~ np_new p ;;
  h_sc_set_col c m (HArr p).
Definition h_sc_window (c : hsc) (vec : arr) : hm unit :=
  _ <~ h_window_col c 0 vec ;;
  hfor (zrange 1 (hs_mmax c + 1)) (fun m =>
    _ <~ h_window_col c (- m) (aview vec m (a_len vec)) ;;
    h_window_col c m (aview vec m (a_len vec))).

(** Operands: an object, a number, anything else. *)
Inductive hopnd : Type := HoSC (c : hsc) | HoNum (x : C) | HoOther.

(** spherepy.py:542-562 with 576-625 *)
Definition h_sc_op_left (o : binop) (c : hsc) (b : hopnd) : hm hsc :=
  u <~ hread (fun h => rd h (hs_arr c)) ;;
  match b with
  | HoSC c' =>
      if a_len (hs_arr c) =? a_len (hs_arr c') then
        v <~ hread (fun h => rd h (hs_arr c')) ;;
        w <~ hlift (np_broadcast (binop_fun RN o) u v) ;;
        vec <~ np_new w ;;
        h_sc_new vec (hs_nmax c) (hs_mmax c)
      else hraise (ValueError "SC_sz_msmtch")
  | HoNum x =>
      match o with
      | OpDiv =>
          if ceqb RN x (c0 RN) then
            (if hs_mmax c >? hs_nmax c then hraise (ValueError "nmax_g_mmax")
             else hraise (TypeError "object has no len()"))
          else vec <~ np_new (map (fun a => binop_fun RN OpDiv a x) u) ;; h_sc_new vec (hs_nmax c) (hs_mmax c)
      | _ => vec <~ np_new (map (fun a => binop_fun RN o a x) u) ;; h_sc_new vec (hs_nmax c) (hs_mmax c)
      end
  | HoOther => hraise (TypeError "no_combi_SC")
  end.
(** spherepy.py:564-574 with 580-634 *)
Definition h_sc_op_right (o : binop) (c : hsc) (b : hopnd) : hm hsc :=
  match b with
  | HoNum x =>
      u <~ hread (fun h => rd h (hs_arr c)) ;;
      vec <~ np_new (map (fun a => binop_fun RN o x a) u) ;;
      h_sc_new vec (hs_nmax c) (hs_mmax c)
  | _ => hraise (TypeError "no_combi_SC")
  end.

(** ** VectorCoefs *)
Record hvc : Type := mkHVC { hv_1 : hsc; hv_2 : hsc; hv_nmax : Z; hv_mmax : Z }.
Definition vcv (h : heap) (c : hvc) : vcoefs RN := mkVC RN (scv h (hv_1 c)) (scv h (hv_2 c)) (hv_nmax c) (hv_mmax c).

(** spherepy.py:640-660 __init__: the caller's arrays are modified and kept *)
Definition h_vc_new (vec1 vec2 : arr) (nmax mmax : Z) : hm hvc :=
  if negb (a_len vec1 =? a_len vec2) then hraise (ValueError "vec1_s_vec2")
  else if mmax >? nmax then hraise (ValueError "nmax_g_mmax")
  else if negb (ncoef nmax mmax =? a_len vec1) then hraise (ValueError "vcoef_size")
  else
    _ <~ aset vec1 0 (RtoC 0) ;;
    _ <~ aset vec2 0 (RtoC 0) ;;
    s1 <~ h_sc_new vec1 nmax mmax ;;
    s2 <~ h_sc_new vec2 nmax mmax ;;
    hret (mkHVC s1 s2 nmax mmax).

(** spherepy.py:681-691 copy *)
Definition h_vc_copy (c : hvc) : hm hvc :=
  vec1 <~ np_copy (hs_arr (hv_1 c)) ;;
  vec2 <~ np_copy (hs_arr (hv_2 c)) ;;
  h_vc_new vec1 vec2 (hv_nmax c) (hv_mmax c).

(** try: m; except IndexError: (an AttributeError is built, not raised) *)
Definition h_try_index (m : hm unit) : hm unit :=
  fun h => match m h with (Raise IndexError, h') => (Ok tt, h') | r => r end.
(** spherepy.py:717-749 __setitem__; val is a list or tuple of two numbers *)
Definition h_vc_setitem (c : hvc) (arg : subscript) (val : pyval C) : hm unit :=
  match arg with
  | SNoLen => hraise (TypeError "object has no len()")
  | STuple [i0; i1] =>
      ab <~ hlift (vc_pair RN val) ;;
      match i0, i1 with
      | ISlice _ _ _, IInt _ => hraise (AttributeError "set_sc1")
      | IInt n, ISlice _ _ _ =>
          if n =? 0 then hraise (AttributeError "no_v0_mode") else hraise (AttributeError "set_sc2")
      | IInt n, IInt m =>
          if n =? 0 then hraise (AttributeError "no_v0_mode")
          else
            h_try_index (_ <~ h_sc_set_elem (hv_1 c) n m (fst ab) ;;
                         h_sc_set_elem (hv_2 c) n m (snd ab))
      | _, _ => hraise (AttributeError "idx_no_rec")
      end
  | STuple _ => hraise (AttributeError "tuple_2_el")
  end.

(** spherepy.py:780-806 v[0:k, :] *)
Definition h_vc_trunc (c : hvc) (k : Z) : hm hvc :=
  if k >? hv_nmax c then hraise (AttributeError "n_out_bound")
  else
    let new_mmax := if k >? hv_mmax c then hv_mmax c else k in
    t1 <~ h_sc_trunc (hv_1 c) k ;;
    t2 <~ h_sc_trunc (hv_2 c) k ;;
    h_vc_new (hs_arr t1) (hs_arr t2) k new_mmax.

Inductive hvopnd : Type := HoVC (c : hvc) | HoVNum (x : C) | HoVOther.
(** spherepy.py:816-841; the always true length test of line 822 is omitted *)
Definition h_vc_op_left (o : binop) (c : hvc) (b : hvopnd) : hm hvc :=
  u1 <~ hread (fun h => rd h (hs_arr (hv_1 c))) ;;
  u2 <~ hread (fun h => rd h (hs_arr (hv_2 c))) ;;
  match b with
  | HoVC c' =>
      v1 <~ hread (fun h => rd h (hs_arr (hv_1 c'))) ;;
      w1 <~ hlift (np_broadcast (binop_fun RN o) u1 v1) ;;
      a1 <~ np_new w1 ;;
      v2 <~ hread (fun h => rd h (hs_arr (hv_2 c'))) ;;
      w2 <~ hlift (np_broadcast (binop_fun RN o) u2 v2) ;;
      a2 <~ np_new w2 ;;
      h_vc_new a1 a2 (hv_nmax c) (hv_mmax c)
  | HoVNum x =>
      if (match o with OpDiv => ceqb RN x (c0 RN) | _ => false end)
      then hraise (AttributeError "no attribute 'shape'")
      else
        a1 <~ np_new (map (fun a => binop_fun RN o a x) u1) ;;
        a2 <~ np_new (map (fun a => binop_fun RN o a x) u2) ;;
        h_vc_new a1 a2 (hv_nmax c) (hv_mmax c)
  | HoVOther => hraise (TypeError "no_combi_VC")
  end.
(** spherepy.py:843-854 *)
Definition h_vc_op_right (o : binop) (c : hvc) (b : hvopnd) : hm hvc :=
  match b with
  | HoVNum x =>
      u1 <~ hread (fun h => rd h (hs_arr (hv_1 c))) ;;
      u2 <~ hread (fun h => rd h (hs_arr (hv_2 c))) ;;
      a1 <~ np_new (map (fun a => binop_fun RN o x a) u1) ;;
      a2 <~ np_new (map (fun a => binop_fun RN o x a) u2) ;;
      h_vc_new a1 a2 (hv_nmax c) (hv_mmax c)
  | _ => hraise (TypeError "no_combi_VC")
  end.

(** ** Patterns *)

(** spherepy.py:1741-1748 continue_sphere: two new arrays (np.zeros, then the
    result of double_sphere); the argument is only read *)
Definition h_continue_sphere (b : arr2) (sym : Z) : hm arr2 :=
  a <~ hread (fun h => rd2 h b) ;;
  d <~ hlift (continue_sphere RN a sym) ;;
  np_new2 d.
(** spherepy.py:990-995: with doublesphere=True the caller's array is kept *)
Definition h_sp_new (b : arr2) (doublesphere : bool) : hm arr2 :=
  if doublesphere then hret b else h_continue_sphere b 1.
(** spherepy.py:1027-1037 array / cdata (and theta, phi 1205-1216): a view of
    the first int(rows/2) + 1 rows *)
Definition h_cdata (d : arr2) : arr2 := arows d (b_nr d / 2 + 1).

(** spherepy.py:1173-1183 *)
Definition h_tp_new (t p : arr2) (doublesphere : bool) : hm (arr2 * arr2) :=
  if negb ((b_nr t =? b_nr p) && (b_nc t =? b_nc p)) then hraise (ValueError "shape_tc_pc")
  else if doublesphere then hret (t, p)
  else
    t <~ h_continue_sphere t (-1) ;;
    p <~ h_continue_sphere p (-1) ;;
    hret (t, p).
Definition tpv (h : heap) (p : arr2 * arr2) : tpatt RN := mkTP RN (rd2 h (fst p)) (rd2 h (snd p)).

Inductive hpopnd : Type := HoSP (d : arr2) | HoPNum (x : C) | HoPOther.
(** spherepy.py:1073-1165.  [None]: a pattern whose field is a
    ZeroDivisionError instance. *)
Definition h_sp_op_left (o : binop) (d : arr2) (b : hpopnd) : hm (option arr2) :=
  u <~ hread (fun h => rd2 h d) ;;
  match b with
  | HoSP d' =>
      if (b_nr d =? b_nr d') && (b_nc d =? b_nc d') then
        v <~ hread (fun h => rd2 h d') ;;
        w <~ np_new2 (mzip RN (binop_fun RN o) u v) ;;
        w <~ h_sp_new w true ;; hret (Some w)
      else hraise (ValueError "SP_sz_msmtch")
  | HoPNum x =>
      if (match o with OpDiv => ceqb RN x (c0 RN) | _ => false end) then hret None
      else
        w <~ np_new2 (mmap1 RN (fun a => binop_fun RN o a x) u) ;;
        w <~ h_sp_new w true ;; hret (Some w)
  | HoPOther => hraise (TypeError "no_combi_SP")
  end.
Definition h_sp_op_right (o : binop) (d : arr2) (b : hpopnd) : hm (option arr2) :=
  match b with
  | HoPNum x =>
      u <~ hread (fun h => rd2 h d) ;;
      w <~ np_new2 (mmap1 RN (fun a => binop_fun RN o x a) u) ;;
      w <~ h_sp_new w true ;; hret (Some w)
  | _ => hraise (TypeError "no_combi_SP")
  end.

Inductive htopnd : Type := HoTP (t p : arr2) | HoTNum (x : C) | HoTOther.
(** spherepy.py:1269-1352 *)
Definition h_tp_op_left (o : binop) (a : arr2 * arr2) (b : htopnd) : hm (arr2 * arr2) :=
  ut <~ hread (fun h => rd2 h (fst a)) ;;
  up <~ hread (fun h => rd2 h (snd a)) ;;
  match b with
  | HoTP t' p' =>
      if (b_nr (fst a) =? b_nr t') && (b_nc (fst a) =? b_nc t') then
        vt <~ hread (fun h => rd2 h t') ;;
        vp <~ hread (fun h => rd2 h p') ;;
        wt <~ np_new2 (mzip RN (binop_fun RN o) ut vt) ;;
        wp <~ np_new2 (mzip RN (binop_fun RN o) up vp) ;;
        h_tp_new wt wp true
      else hraise (ValueError "VP_sz_msmtch")
  | HoTNum x =>
      if (match o with OpDiv => ceqb RN x (c0 RN) | _ => false end)
      then hraise (AttributeError "no attribute 'shape'")
      else
        wt <~ np_new2 (mmap1 RN (fun a => binop_fun RN o a x) ut) ;;
        wp <~ np_new2 (mmap1 RN (fun a => binop_fun RN o a x) up) ;;
        h_tp_new wt wp true
  | HoTOther => hraise (TypeError "no_combi_VP")
  end.
(** spherepy.py:1294-1304 *)
Definition h_tp_op_right (o : binop) (a : arr2 * arr2) (b : htopnd) : hm (arr2 * arr2) :=
  match b with
  | HoTNum x =>
      ut <~ hread (fun h => rd2 h (fst a)) ;;
      up <~ hread (fun h => rd2 h (snd a)) ;;
      wt <~ np_new2 (mmap1 RN (fun a => binop_fun RN o x a) ut) ;;
      wp <~ np_new2 (mmap1 RN (fun a => binop_fun RN o x a) up) ;;
      h_tp_new wt wp true
  | _ => hraise (TypeError "no_combi_VP")
  end.

(** ** Factories *)

(** spherepy.py:1376-1523 zeros_coefs, ones_coefs, random_coefs *)
Inductive hany : Type := HAnyS (c : hsc) | HAnyV (c : hvc).
Definition h_coefs_factory (f1 f2 : Z -> C) (nmax mmax coef_type : Z) : hm hany :=
  if mmax >? nmax then hraise (ValueError "nmax_g_mmax")
  else if coef_type =? 0 then
    v <~ hlift (np_fill RN (fac_len nmax mmax) f1) ;;
    vec <~ np_new v ;;
    c <~ h_sc_new vec nmax mmax ;; hret (HAnyS c)
  else if coef_type =? 1 then
    v <~ hlift (np_fill RN (fac_len nmax mmax) f1) ;;
    vec1 <~ np_new v ;;
    _ <~ aset vec1 0 (RtoC 0) ;;
    v <~ hlift (np_fill RN (fac_len nmax mmax) f2) ;;
    vec2 <~ np_new v ;;
    _ <~ aset vec2 0 (RtoC 0) ;;
    c <~ h_vc_new vec1 vec2 nmax mmax ;; hret (HAnyV c)
  else hraise (TypeError "ukn_coef_t").

(** spherepy.py:1526-1680 zeros/ones/random_patt_uniform: the new arrays *)
Inductive hanyp : Type := HAnySP (d : arr2) | HAnyTP (p : arr2 * arr2).
Definition h_const_patt (x : C) (nrows ncols patt_type : Z) : hm hanyp :=
  if ncols mod 2 =? 1 then hraise (ValueError "ncols_even")
  else if patt_type =? 0 then
    d <~ hlift (np_full RN (2 * nrows - 2) ncols x) ;;
    d <~ np_new2 d ;;
    d <~ h_sp_new d true ;; hret (HAnySP d)
  else if patt_type =? 1 then
    t <~ hlift (np_full RN (2 * nrows - 2) ncols x) ;;
    t <~ np_new2 t ;;
    p <~ hlift (np_full RN (2 * nrows - 2) ncols x) ;;
    p <~ np_new2 p ;;
    q <~ h_tp_new t p true ;; hret (HAnyTP q)
  else hraise (TypeError "ukn_patt_t").
Definition h_random_patt (d1 d2 : Z -> C) (nrows ncols patt_type : Z) : hm hanyp :=
  if ncols mod 2 =? 1 then hraise (ValueError "ncols_even")
  else if (nrows <? 0) || (ncols <? 0) then
    (if (patt_type =? 0) || (patt_type =? 1) then hraise NumpyError else hraise (TypeError "ukn_patt_t"))
  else if patt_type =? 0 then
    b <~ np_new2 (mkMat RN nrows ncols (vmake (nrows * ncols) d1)) ;;
    d <~ h_sp_new b false ;; hret (HAnySP d)
  else if patt_type =? 1 then
    t <~ np_new2 (mkMat RN nrows ncols (vmake (nrows * ncols) d1)) ;;
    p <~ np_new2 (mkMat RN nrows ncols (vmake (nrows * ncols) d2)) ;;
    q <~ h_tp_new t p false ;; hret (HAnyTP q)
  else hraise (TypeError "ukn_patt_t").

(** ** abs, mag, mag2 (spherepy.py:1701-1734): [f] is sp_abs, sp_mag or
    sp_mag2 of MPatt.v applied to the current value; the arrays of the result
    are new *)
Inductive hmag : Type := HMArr (b : arr2) | HMCoef (c : hsc).
Definition h_mag (f : sobj RN -> res (mres RN)) (o : heap -> sobj RN) : hm hmag :=
  v <~ hread o ;;
  r <~ hlift (f v) ;;
  match r with
  | MArr a => b <~ np_new2 a ;; hret (HMArr b)
  | MCoef c => vec <~ np_new (sc_vec RN c) ;; hret (HMCoef (mkHSC vec (sc_nmax RN c) (sc_mmax RN c)))
  end.

(** ** ops.py in place *)

(** b[:, :] = f(b) *)
Definition inplace (f : mat RN -> res (mat RN)) (b : arr2) : hm unit :=
  a <~ hread (fun h => rd2 h b) ;; a' <~ hlift (f a) ;; fill2 b a'.
(** ops.py:55-66 *)
Definition h_fix_even_row_data_fc (b : arr2) : hm unit := inplace fix_even_row_data_fc b.
(** ops.py:68-81: only fext is written *)
Definition h_pad_rows_fdata (fdata fext : arr2) : hm unit :=
  f <~ hread (fun h => rd2 h fdata) ;; inplace (fun e => pad_rows_fdata f e) fext.
(** ops.py:83-102: two rows are cleared, then the shifted difference *)
Definition sin_shift (f : mat RN) : mat RN :=
  let nrows := mt_nr RN f in
  let work1 p q := if p =? 0 then cget f (nrows - 1) q else cget f (p - 1) q in
  let work2 p q := if p =? nrows - 1 then cget f 0 q else cget f (p + 1) q in
  mmake RN nrows (mt_nc RN f) (fun p q => RtoC 1 / (RtoC 2 * Ci) * (work1 p q - work2 p q))%C.
Definition h_sin_fc (b : arr2) : hm unit :=
  _ <~ inplace (fun a => row_zero a (b_nr b / 2 - 1)) b ;;
  _ <~ inplace (fun a => row_zero a (b_nr b / 2 + 1)) b ;;
  inplace (fun a => Ok (sin_shift a)) b.
(** ops.py:104-119, 121-137, 140-157 *)
Definition h_divsin_fc (b : arr2) : hm unit := inplace divsin_fc b.
Definition h_dtheta_fc (b : arr2) : hm unit := inplace dtheta_fc b.
Definition h_dphi_fc (b : arr2) : hm unit := inplace dphi_fc b.
(** ops.py:159-168: both arguments are modified, the result is new *)
Definition h_sinLdot_fc (t p : arr2) : hm arr2 :=
  _ <~ h_dphi_fc t ;;
  _ <~ h_sin_fc p ;;
  _ <~ h_dtheta_fc p ;;
  a <~ hread (fun h => rd2 h t) ;;
  b <~ hread (fun h => rd2 h p) ;;
  r <~ hlift (ew2 (fun a b => Ci * (a - b))%C a b) ;;
  np_new2 r.
(** ops.py:170-180: the argument is modified *)
Definition h_L_fc (b : arr2) : hm (arr2 * arr2) :=
  a <~ hread (fun h => rd2 h b) ;;
  fd <~ np_new2 a ;;
  _ <~ h_dphi_fc b ;;
  _ <~ h_divsin_fc b ;;
  _ <~ h_dtheta_fc fd ;;
  a <~ hread (fun h => rd2 h b) ;;
  x <~ np_new2 (ew1 (fun x => Ci * x)%C a) ;;
  a <~ hread (fun h => rd2 h fd) ;;
  y <~ np_new2 (ew1 (fun x => - Ci * x)%C a) ;;
  hret (x, y).

(** ** Transforms *)

(** spherepy.py:1883-1888, 1927-1931, 1933-1937, 2007-2012 *)
Definition h_fft_padded (d : arr2) : hm arr2 :=
  a <~ hread (fun h => rd2 h d) ;;
  f <~ hlift (np_fft2 a) ;;
  f <~ np_new2 f ;;
  a <~ hread (fun h => rd2 h f) ;;
  fdata <~ np_new2 (ew1 (fun x => x / RtoC (IZR (b_nr d * b_nc d)))%C a) ;;
  _ <~ h_fix_even_row_data_fc fdata ;;
  z <~ hlift (np_zeros2 (b_nr d + 2) (b_nc d)) ;;
  ext <~ np_new2 z ;;
  _ <~ h_pad_rows_fdata fdata ext ;;
  hret ext.

(** pysphi.fc_to_sc / csphi.fc_to_sc: they read fdata and the result is an
    array nobody else holds *)
Definition h_fc_to_sc (be : backend) (fdata : arr2) (nmax mmax : Z) : hm arr :=
  f <~ hread (fun h => rd2 h fdata) ;;
  v <~ hlift (be_fc_to_sc be f nmax mmax) ;;
  np_new v.
Definition h_sc_to_fc (be : backend) (vec : arr) (nmax mmax dnrows ncols : Z) : hm arr2 :=
  v <~ hread (fun h => rd h vec) ;;
  f <~ hlift (be_sc_to_fc be v nmax mmax dnrows ncols) ;;
  np_new2 f.

(** spherepy.py:1831-1900 *)
Definition h_spht (be : backend) (d : arr2) (nmax mmax : option Z) : hm hsc :=
  let nrows := b_nr d / 2 + 1 in
  let '(nmax, mmax) := spht_sizes nrows (b_nc d) nmax mmax in
  _ <~ hlift (spht_guard nrows (b_nc d) nmax mmax) ;;
  f <~ h_fft_padded d ;;
  _ <~ h_sin_fc f ;;
  z <~ hlift (np_zeros (ncoef nmax mmax) (RtoC 0)) ;;
  _ <~ np_new z ;;
  sc <~ h_fc_to_sc be f nmax mmax ;;
  h_sc_new sc nmax mmax.

(** spherepy.py:1958-1961, 2104-2106 *)
Definition h_nvec (nmax : Z) : hm arr :=
  z <~ hlift (np_zeros (nmax + 1) (RtoC 0)) ;;
  v <~ np_new z ;;
  _ <~ hfor (zrange 1 (nmax + 1)) (fun n => aset v n (RtoC (1 / sqrt (IZR n * (IZR n + 1))))) ;;
  hret v.

(** spherepy.py:1902-1966 *)
Definition h_vspht (be : backend) (p : arr2 * arr2) (nmax mmax : option Z) : hm hvc :=
  let t := fst p in
  let nrows := b_nr t / 2 + 1 in
  let '(nmax, mmax) := spht_sizes nrows (b_nc t) nmax mmax in
  _ <~ hlift (spht_guard nrows (b_nc t) nmax mmax) ;;
  ft <~ h_fft_padded t ;;
  pt <~ h_fft_padded (snd p) ;;
  a <~ hread (fun h => rd2 h ft) ;; ftmp <~ np_new2 a ;;
  a <~ hread (fun h => rd2 h pt) ;; ptmp <~ np_new2 a ;;
  Lf1 <~ h_sinLdot_fc ft pt ;;
  a <~ hread (fun h => rd2 h ptmp) ;; x <~ np_new2 (ew1 (fun x => - Ci * x)%C a) ;;
  a <~ hread (fun h => rd2 h ftmp) ;; y <~ np_new2 (ew1 (fun x => Ci * x)%C a) ;;
  Lf2 <~ h_sinLdot_fc x y ;;
  sc1 <~ h_fc_to_sc be Lf1 nmax mmax ;;
  sc2 <~ h_fc_to_sc be Lf2 nmax mmax ;;
  vc <~ h_vc_new sc1 sc2 nmax mmax ;;
  v <~ h_nvec nmax ;;
  _ <~ h_sc_window (hv_1 vc) v ;;
  _ <~ h_sc_window (hv_2 vc) v ;;
  hret vc.

(** spherepy.py:1968-2018 *)
Definition h_spht_slow (d : arr2) (nmax mmax : Z) : hm hsc :=
  if mmax >? nmax then hraise (ValueError "nmax_g_mmax")
  else if (b_nr d mod 2 =? 1) || (b_nc d mod 2 =? 1) then hraise (ValueError "ncols_even")
  else
  f <~ h_fft_padded d ;;
  _ <~ h_sin_fc f ;;
  sc <~ h_fc_to_sc py_backend f nmax mmax ;;
  h_sc_new sc nmax mmax.

(** np.fft.ifft2(fdata) * dnrows * ncols *)
Definition h_ifft_scaled (f : arr2) (dnrows ncols : Z) : hm arr2 :=
  a <~ hread (fun h => rd2 h f) ;;
  d <~ hlift (ifft_scaled a dnrows ncols) ;;
  np_new2 d.

(** spherepy.py:2020-2079 *)
Definition h_ispht (be : backend) (c : hsc) (nrows ncols : option Z) : hm arr2 :=
  let nrows := match nrows with None => hs_nmax c + 2 | Some r => r end in
  let ncols := match ncols with None => 2 * hs_mmax c + 2 | Some r => r end in
  if nrows <=? hs_nmax c then hraise (ValueError "inverse_terr")
  else if ncols <? 2 * hs_mmax c + 2 then hraise (ValueError "inverse_terr")
  else
  let dnrows := 2 * nrows - 2 in
  if ncols mod 2 =? 1 then hraise (ValueError "ncols_even")
  else
  fdata <~ h_sc_to_fc be (hs_arr c) (hs_nmax c) (hs_mmax c) dnrows ncols ;;
  ds <~ h_ifft_scaled fdata dnrows ncols ;;
  h_sp_new ds true.

(** spherepy.py:2081-2139 *)
Definition h_vispht (be : backend) (vc : hvc) (nrows ncols : option Z) : hm (arr2 * arr2) :=
  let nrows := match nrows with None => hv_nmax vc + 2 | Some r => r end in
  let ncols := match ncols with None => 2 * hv_mmax vc + 2 | Some r => r end in
  if nrows <? hv_nmax vc + 2 then hraise (ValueError "inverse_terr")
  else if ncols <? 2 * hv_mmax vc + 2 then hraise (ValueError "inverse_terr")
  else
  let dnrows := 2 * nrows - 2 in
  if ncols mod 2 =? 1 then hraise (ValueError "ncols_even")
  else
  v <~ h_nvec (hv_nmax vc) ;;
  sc1 <~ h_sc_copy (hv_1 vc) ;;
  sc2 <~ h_sc_copy (hv_2 vc) ;;
  _ <~ h_sc_window sc1 v ;;
  _ <~ h_sc_window sc2 v ;;
  fdata1 <~ h_sc_to_fc be (hs_arr sc1) (hs_nmax sc1) (hs_mmax sc1) dnrows ncols ;;
  fdata2 <~ h_sc_to_fc be (hs_arr sc2) (hs_nmax sc2) (hs_mmax sc2) dnrows ncols ;;
  f1 <~ h_L_fc fdata1 ;;
  f2 <~ h_L_fc fdata2 ;;
  a <~ hread (fun h => rd2 h (fst f1)) ;; b <~ hread (fun h => rd2 h (snd f2)) ;;
  ft <~ hlift (ew2 (fun a b => a - Ci * b)%C a b) ;;
  ftheta <~ np_new2 ft ;;
  a <~ hread (fun h => rd2 h (snd f1)) ;; b <~ hread (fun h => rd2 h (fst f2)) ;;
  fp <~ hlift (ew2 (fun a b => a + Ci * b)%C a b) ;;
  fphi <~ np_new2 fp ;;
  dtheta <~ h_ifft_scaled ftheta dnrows ncols ;;
  dphi <~ h_ifft_scaled fphi dnrows ncols ;;
  h_tp_new dtheta dphi true.

(** spherepy.py:2141-2182 *)
Definition h_ispht_slow (c : hsc) (nrows ncols : Z) : hm arr2 :=
  let dnrows := 2 * nrows - 2 in
  if ncols mod 2 =? 1 then hraise (ValueError "ncols_even")
  else
  fdata <~ h_sc_to_fc py_backend (hs_arr c) (hs_nmax c) (hs_mmax c) dnrows ncols ;;
  ds <~ h_ifft_scaled fdata dnrows ncols ;;
  h_sp_new ds true.

(** ** Programs: straight-line histories of calls on variables *)

Inductive obj : Type :=
| OArr (a : arr)
| OArr2 (b : arr2)
| OSc (c : hsc)
| OVc (c : hvc)
| OSp (d : arr2)
| OSpExc                          (* a pattern holding an exception object *)
| OTp (p : arr2 * arr2)
| OTup (x y : obj)
| ONum (x : C)
| ONone.

(** One call.  The arguments that are objects are given separately. *)
Inductive prim : Type :=
| PArray (l : list C)                             (* np.array(l) *)
| PArray2 (nr nc : Z) (f : Z -> Z -> C)           (* np.array of shape (nr, nc) *)
| PArrSet (i : Z) (x : C)                         (* a[i] = x *)
| PArrSlice (i j : Z)                             (* a[i:j] *)
| PArrSet2 (i j : Z) (x : C)                      (* b[i, j] = x *)
| PRow2 (i : Z)                                   (* b[i, :] *)
| PNpCopy                                         (* np.copy(a) *)
| PScalarCoefs (nmax mmax : Z)                    (* ScalarCoefs(a, nmax, mmax) *)
| PVectorCoefs (nmax mmax : Z)                    (* VectorCoefs(a, b, nmax, mmax) *)
| PCopy                                           (* c.copy() *)
| PGet (arg : subscript)                          (* c[arg] *)
| PSet (arg : subscript) (v : pyval C)            (* c[arg] = v *)
| PSetArr (arg : subscript)                       (* c[arg] = a *)
| PWindow                                         (* c.window(a) *)
| PScoef1 | PScoef2                               (* c.scoef1, c.scoef2 *)
| PVec                                            (* c._vec *)
| PBin (o : binop)                                (* x op y *)
| PBinNum (o : binop) (x : C)                     (* c op x *)
| PNumBin (o : binop) (x : C)                     (* x op c *)
| PScalarPattern (ds : bool)
| PTransversePattern (ds : bool)
| PCdata                                          (* p.cdata, p.array *)
| PDouble                                         (* p.doublesphere *)
| PTheta | PPhi | PThetaDouble | PPhiDouble
| PCoefs (f1 f2 : Z -> C) (nmax mmax t : Z)       (* zeros/ones/random_coefs *)
| PConstPatt (x : C) (nrows ncols t : Z)          (* zeros/ones_patt_uniform *)
| PRandomPatt (d1 d2 : Z -> C) (nrows ncols t : Z)
| PAbs | PMag | PMag2
| PSpht (nmax mmax : option Z)
| PVspht (nmax mmax : option Z)
| PIspht (nrows ncols : option Z)
| PVispht (nrows ncols : option Z)
| PSphtSlow (nmax mmax : Z)
| PIsphtSlow (nrows ncols : Z).

Definition bad_args {A} : hm A := hraise (TypeError "arguments").
Definition hvoid (m : hm unit) : hm obj := _ <~ m ;; hret ONone.
Definition of_any (x : hany) : obj := match x with HAnyS c => OSc c | HAnyV c => OVc c end.
Definition of_anyp (x : hanyp) : obj := match x with HAnySP d => OSp d | HAnyTP p => OTp p end.
Definition of_mag (x : hmag) : obj := match x with HMArr b => OArr2 b | HMCoef c => OSc c end.
Definition of_spo (x : option arr2) : obj := match x with Some d => OSp d | None => OSpExc end.
Definition mag_arg (o : obj) (h : heap) : sobj RN :=
  match o with
  | OSp d => OSP RN (rd2 h d)
  | OTp p => OTP RN (tpv h p)
  | OSc c => OSC RN (scv h c)
  | OVc c => OVC RN (vcv h c)
  | _ => OOther RN
  end.

(** c[arg] *)
Definition h_getitem (o : obj) (arg : subscript) : hm obj :=
  match o with
  | OSc c =>
      match arg with
      | SNoLen => hraise (TypeError "object has no len()")
      | STuple [i0; i1] =>
          match i0, i1 with
          | ISlice None None None, IInt m => a <~ h_sc_col c m ;; hret (OArr a)
          | ISlice _ _ _, IInt _ => hraise (AttributeError "slice_noper")
          | IInt n, ISlice None None None => a <~ h_sc_row c n ;; hret (OArr a)
          | IInt _, ISlice _ _ _ => hraise (AttributeError "slice_noper")
          | IInt n, IInt m => x <~ h_sc_get_elem c n m ;; hret (ONum x)
          | ISlice (Some 0) (Some k) None, ISlice None None None =>
              t <~ h_sc_trunc c k ;; hret (OSc t)
          | _, _ => hraise (AttributeError "idx_no_rec")
          end
      | STuple _ => hraise (AttributeError "tuple_2_el")
      end
  | OVc c =>
      match arg with
      | SNoLen => hraise (TypeError "object has no len()")
      | STuple [i0; i1] =>
          match i0, i1 with
          | ISlice None None None, IInt m =>
              a <~ h_sc_col (hv_1 c) m ;; b <~ h_sc_col (hv_2 c) m ;; hret (OTup (OArr a) (OArr b))
          | ISlice _ _ _, IInt _ => hraise (AttributeError "slice_noper")
          | IInt n, ISlice s0 s1 s2 =>
              if n =? 0 then hraise (AttributeError "no_v0_mode")
              else match s0, s1, s2 with
                   | None, None, None =>
                       a <~ h_sc_row (hv_1 c) n ;; b <~ h_sc_row (hv_2 c) n ;; hret (OTup (OArr a) (OArr b))
                   | _, _, _ => hraise (AttributeError "slice_noper")
                   end
          | IInt n, IInt m =>
              if n =? 0 then hraise (AttributeError "no_v0_mode")
              else x <~ h_sc_get_elem (hv_1 c) n m ;; y <~ h_sc_get_elem (hv_2 c) n m ;;
                   hret (OTup (ONum x) (ONum y))
          | ISlice (Some 0) (Some k) None, ISlice None None None =>
              t <~ h_vc_trunc c k ;; hret (OVc t)
          | _, _ => hraise (AttributeError "idx_no_rec")
          end
      | STuple _ => hraise (AttributeError "tuple_2_el")
      end
  | _ => bad_args
  end.

(** Arguments of a type the method does not take are an error of the program,
    except for the operators, whose own TypeError is modelled. *)
Definition exec (be : backend) (p : prim) (args : list obj) : hm obj :=
  match p, args with
  | PArray l, [] => a <~ np_new l ;; hret (OArr a)
  | PArray2 nr nc f, [] =>
      if (nr <? 0) || (nc <? 0) then hraise NumpyError
      else b <~ np_new2 (mmake RN nr nc f) ;; hret (OArr2 b)
  | PArrSet i x, [OArr a] => hvoid (aset a i x)
  | PArrSlice i j, [OArr a] => hret (OArr (aview a i j))
  | PArrSet2 i j x, [OArr2 b] => hvoid (aset2 b i j x)
  | PRow2 i, [OArr2 b] => a <~ arow b i ;; hret (OArr a)
  | PNpCopy, [OArr a] => b <~ np_copy a ;; hret (OArr b)
  | PNpCopy, [OArr2 b] => a <~ hread (fun h => rd2 h b) ;; b <~ np_new2 a ;; hret (OArr2 b)
  | PScalarCoefs n m, [OArr a] => c <~ h_sc_new a n m ;; hret (OSc c)
  | PVectorCoefs n m, [OArr a; OArr b] => c <~ h_vc_new a b n m ;; hret (OVc c)
  | PCopy, [OSc c] => d <~ h_sc_copy c ;; hret (OSc d)
  | PCopy, [OVc c] => d <~ h_vc_copy c ;; hret (OVc d)
  | PGet arg, [o] => h_getitem o arg
  | PSet arg v, [OSc c] => hvoid (h_sc_setitem c arg (HVal v))
  | PSet arg v, [OVc c] => hvoid (h_vc_setitem c arg v)
  | PSetArr arg, [OSc c; OArr a] => hvoid (h_sc_setitem c arg (HArr a))
  | PSetArr arg, [OVc c; OArr a] => hvoid (h_vc_setitem c arg VNone)
  | PWindow, [OSc c; OArr a] => hvoid (h_sc_window c a)
  | PScoef1, [OVc c] => hret (OSc (hv_1 c))
  | PScoef2, [OVc c] => hret (OSc (hv_2 c))
  | PVec, [OSc c] => hret (OArr (hs_arr c))
  | PBin o, [OSc c; y] =>
      d <~ h_sc_op_left o c (match y with OSc c' => HoSC c' | ONum x => HoNum x | _ => HoOther end) ;; hret (OSc d)
  | PBin o, [OVc c; y] =>
      d <~ h_vc_op_left o c (match y with OVc c' => HoVC c' | ONum x => HoVNum x | _ => HoVOther end) ;; hret (OVc d)
  | PBin o, [OSp c; y] =>
      d <~ h_sp_op_left o c (match y with OSp c' => HoSP c' | ONum x => HoPNum x | _ => HoPOther end) ;; hret (of_spo d)
  | PBin o, [OTp c; y] =>
      d <~ h_tp_op_left o c (match y with OTp c' => HoTP (fst c') (snd c') | ONum x => HoTNum x | _ => HoTOther end) ;; hret (OTp d)
  | PBinNum o x, [OSc c] => d <~ h_sc_op_left o c (HoNum x) ;; hret (OSc d)
  | PBinNum o x, [OVc c] => d <~ h_vc_op_left o c (HoVNum x) ;; hret (OVc d)
  | PBinNum o x, [OSp c] => d <~ h_sp_op_left o c (HoPNum x) ;; hret (of_spo d)
  | PBinNum o x, [OTp c] => d <~ h_tp_op_left o c (HoTNum x) ;; hret (OTp d)
  | PNumBin o x, [OSc c] => d <~ h_sc_op_right o c (HoNum x) ;; hret (OSc d)
  | PNumBin o x, [OVc c] => d <~ h_vc_op_right o c (HoVNum x) ;; hret (OVc d)
  | PNumBin o x, [OSp c] => d <~ h_sp_op_right o c (HoPNum x) ;; hret (of_spo d)
  | PNumBin o x, [OTp c] => d <~ h_tp_op_right o c (HoTNum x) ;; hret (OTp d)
  | PScalarPattern ds, [OArr2 b] => d <~ h_sp_new b ds ;; hret (OSp d)
  | PTransversePattern ds, [OArr2 t; OArr2 p] => d <~ h_tp_new t p ds ;; hret (OTp d)
  | PCdata, [OSp d] => hret (OArr2 (h_cdata d))
  | PCdata, [OTp p] => hret (OTup (OArr2 (arows (fst p) (b_nr (fst p) / 2 + 1)))
                                  (OArr2 (arows (snd p) (b_nr (fst p) / 2 + 1))))
  | PDouble, [OSp d] => hret (OArr2 d)
  | PDouble, [OTp p] => hret (OTup (OArr2 (fst p)) (OArr2 (snd p)))
  | PTheta, [OTp p] => hret (OArr2 (arows (fst p) (b_nr (fst p) / 2 + 1)))
  | PPhi, [OTp p] => hret (OArr2 (arows (snd p) (b_nr (fst p) / 2 + 1)))
  | PThetaDouble, [OTp p] => hret (OArr2 (fst p))
  | PPhiDouble, [OTp p] => hret (OArr2 (snd p))
  | PCoefs f1 f2 n m t, [] => c <~ h_coefs_factory f1 f2 n m t ;; hret (of_any c)
  | PConstPatt x nr nc t, [] => c <~ h_const_patt x nr nc t ;; hret (of_anyp c)
  | PRandomPatt d1 d2 nr nc t, [] => c <~ h_random_patt d1 d2 nr nc t ;; hret (of_anyp c)
  | PAbs, [o] => r <~ h_mag (sp_abs RN) (mag_arg o) ;; hret (of_mag r)
  | PMag, [o] => r <~ h_mag (sp_mag RN) (mag_arg o) ;; hret (of_mag r)
  | PMag2, [o] => r <~ h_mag (sp_mag2 RN) (mag_arg o) ;; hret (of_mag r)
  | PSpht n m, [OSp d] => c <~ h_spht be d n m ;; hret (OSc c)
  | PVspht n m, [OTp p] => c <~ h_vspht be p n m ;; hret (OVc c)
  | PIspht r k, [OSc c] => d <~ h_ispht be c r k ;; hret (OSp d)
  | PVispht r k, [OVc c] => d <~ h_vispht be c r k ;; hret (OTp d)
  | PSphtSlow n m, [OSp d] => c <~ h_spht_slow d n m ;; hret (OSc c)
  | PIsphtSlow r k, [OSc c] => d <~ h_ispht_slow c r k ;; hret (OSp d)
  | _, _ => bad_args
  end.

(** x = p(args): variables are numbers; unbound variables are an error.  An
    exception leaves the variables as they were (the program goes on, as after
    an except clause). *)
Record cmd : Type := Do { c_dst : nat; c_prim : prim; c_args : list nat }.
Definition env : Type := nat -> option obj.
Record state : Type := mkSt { s_env : env; s_heap : heap }.
Definition set_var (e : env) (x : nat) (o : obj) : env := fun y => if Nat.eqb y x then Some o else e y.
Fixpoint lookups (e : env) (l : list nat) : option (list obj) :=
  match l with
  | [] => Some []
  | x :: l => match e x, lookups e l with Some o, Some os => Some (o :: os) | _, _ => None end
  end.
Definition step (be : backend) (c : cmd) (s : state) : state :=
  match lookups (s_env s) (c_args c) with
  | None => s
  | Some os =>
      match exec be (c_prim c) os (s_heap s) with
      | (Ok o, h) => mkSt (set_var (s_env s) (c_dst c) o) h
      | (Raise _, h) => mkSt (s_env s) h
      end
  end.
Definition run (be : backend) (p : list cmd) (s : state) : state := fold_left (fun s c => step be c s) p s.
