(** * MCoefs: model of ScalarCoefs, VectorCoefs, the coefficient factories
    and helpers (spherepy/spherepy.py:138-914, 1376-1523, 1784-1828) and of
    [mindx] (spherepy/pysphi.py:205-225). *)
From Coq Require Import ZArith List String Bool.
From Verif Require Import Py Num.
Import ListNotations.
Open Scope string_scope.
Open Scope list_scope.
Open Scope Z_scope.

(** pysphi.py:205-225 [mindx(m, nmax, mmax)].  The loop carries (ind, ii). *)
Definition mindx (m nmax mmax : Z) : res Z :=
  let NN := nmax + 1 in
  if Z.abs m >? mmax then Raise (PlainException "|m| cannot be larger than mmax")
  else if m =? 0 then Ok 0
  else
    let '(ind, ii) :=
      pfor (zrange 1 (Z.abs m))
           (fun i s => let '(ind, ii) := s in (ind + 2 * (NN - i), i + 1))
           (NN, 1) in
    if m >? 0 then Ok (ind + NN - ii) else Ok ind.

(** Number of coefficients: spherepy.py:199-200 (and 229-230, 520-521,
    648-649: the same formula N + mmax (2N - mmax - 1), N = nmax+1). *)
Definition ncoef (nmax mmax : Z) : Z :=
  let N := nmax + 1 in N + mmax * (2 * N - mmax - 1).

Section Coefs.
Variable K : num.
Notation C := (cplx K).

(** The object: fields _vec, _nmax, _mmax (spherepy.py:204-206). Sharing of
    _vec between objects is modelled in MHeap.v, not here. *)
Record scoefs : Type := mkSC { sc_vec : list C; sc_nmax : Z; sc_mmax : Z }.

(** spherepy.py:194-206 ScalarCoefs.__init__ *)
Definition sc_new (vec : list C) (nmax mmax : Z) : res scoefs :=
  if mmax >? nmax then Raise (ValueError "nmax_g_mmax")
  else if negb (ncoef nmax mmax =? zlen vec) then Raise (ValueError "scoef_size")
  else Ok (mkSC vec nmax mmax).

(** spherepy.py:218-232 size (the assert never fails for constructed objects) *)
Definition sc_size (c : scoefs) : Z := ncoef (sc_nmax c) (sc_mmax c).

(** spherepy.py:234-243 copy *)
Definition sc_copy (c : scoefs) : res scoefs := sc_new (sc_vec c) (sc_nmax c) (sc_mmax c).

(** spherepy.py:426-432 / 492-498: guards of the int,int branch *)
Definition sc_elem_index (c : scoefs) (n m : Z) : res Z :=
  if (n <? 0) || (n >? sc_nmax c) then Raise (AttributeError "n_out_bound")
  else if (Z.abs m >? n) || (Z.abs m >? sc_mmax c) then Raise (AttributeError "m_out_bound")
  else i <- mindx m (sc_nmax c) (sc_mmax c) ;; Ok (i + n - Z.abs m).

(** spherepy.py:487-500 __getitem__ with (int, int) *)
Definition sc_get_elem (c : scoefs) (n m : Z) : res C :=
  i <- sc_elem_index c n m ;; py_get (c0 K) (sc_vec c) i.

(** spherepy.py:444-462 __getitem__ with ([:], int): returns a view; here its
    contents. *)
Definition sc_get_col (c : scoefs) (m : Z) : res (list C) :=
  if Z.abs m >? sc_mmax c then Raise (AttributeError "m_out_bound")
  else
    a <- mindx m (sc_nmax c) (sc_mmax c) ;;
    Ok (py_slice (sc_vec c) a (a + sc_nmax c - Z.abs m + 1)).

(** nn = n if n <= mmax else mmax (spherepy.py:411-414, 476-479, 347-350) *)
Definition sc_nn (c : scoefs) (n : Z) : Z := if n <=? sc_mmax c then n else sc_mmax c.

(** spherepy.py:464-485 __getitem__ with (int, [:]) *)
Definition sc_get_row (c : scoefs) (n : Z) : res (list C) :=
  if (n >? sc_nmax c) || (n <? 0) then Raise (AttributeError "m_out_bound")
  else
    let nn := sc_nn c n in
    mmap (fun m => sc_get_elem c n m) (zrange (- nn) (nn + 1)).

(** spherepy.py:502-538 __getitem__ with (0:k, [:]) *)
Definition sc_trunc (c : scoefs) (stop : Z) : res scoefs :=
  if stop >? sc_nmax c then Raise (AttributeError "n_out_bound")
  else
    let nmax := sc_nmax c in
    let mmax := sc_mmax c in
    let new_nmax := stop in
    let new_mmax := if new_nmax >? mmax then mmax else new_nmax in
    let NC := ncoef new_nmax new_mmax in
    (* np.zeros(NC) raises for a negative length *)
    vec <- (if NC <? 0 then Raise NumpyError
            else Ok (vmake NC (fun _ => c0 K))) ;;
    vec <- py_slice_set vec 0 (new_nmax + 1) (py_slice (sc_vec c) 0 (new_nmax + 1)) ;;
    vec <- mfor (zrange 1 (new_mmax + 1))
      (fun m vec =>
         idx <- mindx (- m) nmax mmax ;;
         nidx <- mindx (- m) new_nmax new_mmax ;;
         let ln := new_nmax - Z.abs m + 1 in
         vec <- py_slice_set vec nidx (nidx + ln) (py_slice (sc_vec c) idx (idx + ln)) ;;
         idx <- mindx m nmax mmax ;;
         nidx <- mindx m new_nmax new_mmax ;;
         let ln := new_nmax - Z.abs m + 1 in
         py_slice_set vec nidx (nidx + ln) (py_slice (sc_vec c) idx (idx + ln)))
      vec ;;
    sc_new vec new_nmax new_mmax.

(** What __getitem__ may return. *)
Inductive sc_item : Type :=
| ItElem (x : C)
| ItVec (l : list C)
| ItCoefs (c : scoefs).

(** spherepy.py:439-540 ScalarCoefs.__getitem__ *)
Definition sc_getitem (c : scoefs) (arg : subscript) : res sc_item :=
  match arg with
  | SNoLen => Raise (TypeError "object has no len()")
  | STuple [i0; i1] =>
      match i0, i1 with
      | ISlice None None None, IInt m => l <- sc_get_col c m ;; Ok (ItVec l)
      | ISlice _ _ _, IInt _ => Raise (AttributeError "slice_noper")
      | IInt n, ISlice None None None => l <- sc_get_row c n ;; Ok (ItVec l)
      | IInt _, ISlice _ _ _ => Raise (AttributeError "slice_noper")
      | IInt n, IInt m => x <- sc_get_elem c n m ;; Ok (ItElem x)
      | ISlice (Some 0) (Some k) None, ISlice None None None =>
          t <- sc_trunc c k ;; Ok (ItCoefs t)
      | ISlice _ _ _, ISlice _ _ _ => Raise (AttributeError "idx_no_rec")
      | _, _ => Raise (AttributeError "idx_no_rec")
      end
  | STuple _ => Raise (AttributeError "tuple_2_el")
  end.

(** spherepy.py:421-434 __setitem__ with (int, int) and a number *)
Definition sc_set_elem (c : scoefs) (n m : Z) (v : C) : res scoefs :=
  i <- sc_elem_index c n m ;;
  vec <- py_set (sc_vec c) i v ;;
  Ok (mkSC vec (sc_nmax c) (sc_mmax c)).

(** A method that mutates [self]: the object after the call, and the outcome. *)
Definition lift_res {A} (c : A) (r : res A) : A * res unit :=
  match r with Ok c' => (c', Ok tt) | Raise e => (c, Raise e) end.

(** Loop of mutating calls: stops at the first exception, keeping the
    mutations made so far. *)
Fixpoint sfor {S} (l : list Z) (f : Z -> S -> S * res unit) (s : S) : S * res unit :=
  match l with
  | [] => (s, Ok tt)
  | i :: l' => match f i s with
               | (s', Ok _) => sfor l' f s'
               | (s', Raise e) => (s', Raise e)
               end
  end.

(** spherepy.py:375-395 __setitem__ with ([:], int) *)
Definition sc_set_col (c : scoefs) (m : Z) (val : pyval C) : scoefs * res unit :=
  if Z.abs m >? sc_mmax c then (c, Raise (AttributeError "m_out_bound"))
  else
    lift_res c
     (a <- mindx m (sc_nmax c) (sc_mmax c) ;;
      let b := a + sc_nmax c - Z.abs m + 1 in
      let L := zlen (py_slice (sc_vec c) a b) in
      lv <- val_len val ;;
      if negb (lv =? L) then Raise (AttributeError "dim_no_mtch")
      else
        vec <- py_slice_set (sc_vec c) a b (val_list val) ;;
        Ok (mkSC vec (sc_nmax c) (sc_mmax c))).

(** spherepy.py:397-419 __setitem__ with (int, [:]); val[k] is read before
    each element assignment. *)
Definition sc_set_row (c : scoefs) (n : Z) (val : pyval C) : scoefs * res unit :=
  if (n >? sc_nmax c) || (n <? 0) then (c, Raise (AttributeError "n_out_bound"))
  else
    match val_len val with
    | Raise e => (c, Raise e)
    | Ok lv =>
        if negb (lv =? 2 * n + 1) then (c, Raise (AttributeError "dim_no_mtch"))
        else
          let nn := sc_nn c n in
          sfor (zrange (- nn) (nn + 1))
            (fun m c => lift_res c
               (x <- py_get (c0 K) (val_list val) (m + nn) ;; sc_set_elem c n m x))
            c
    end.

(** spherepy.py:371-437 ScalarCoefs.__setitem__.  Assigning a sequence to a
    single element is rejected inside numpy (1-element arrays, which numpy
    converts with a deprecation warning, are treated as rejected too). *)
Definition sc_setitem (c : scoefs) (arg : subscript) (val : pyval C) : scoefs * res unit :=
  match arg with
  | SNoLen => (c, Raise (TypeError "object has no len()"))
  | STuple [i0; i1] =>
      match i0, i1 with
      | ISlice None None None, IInt m => sc_set_col c m val
      | ISlice _ _ _, IInt _ => (c, Raise (AttributeError "slice_noper"))
      | IInt n, ISlice None None None => sc_set_row c n val
      | IInt _, ISlice _ _ _ => (c, Raise (AttributeError "slice_noper"))
      | IInt n, IInt m =>
          match val with
          | VNum x => lift_res c (sc_set_elem c n m x)
          | _ => (c, i <- sc_elem_index c n m ;; Raise NumpyError)
          end
      | _, _ => (c, Raise (AttributeError "idx_no_rec"))
      end
  | STuple _ => (c, Raise (AttributeError "tuple_2_el"))
  end.

(** spherepy.py:245-269 window(vec), vec a 1-D array.  [vec[m:]] is a slice. *)
Definition sc_window_col (m : Z) (w : list C) (c : scoefs) : scoefs * res unit :=
  match (col <- sc_get_col c m ;; np_broadcast (cmul K) col w) with
  | Raise e => (c, Raise e)
  | Ok p => sc_set_col c m (VArr p)
  end.

Definition seq_unit {S} (x : S * res unit) (f : S -> S * res unit) : S * res unit :=
  match x with (s, Ok _) => f s | (s, Raise e) => (s, Raise e) end.

Definition sc_window (c : scoefs) (vec : list C) : scoefs * res unit :=
  seq_unit (sc_window_col 0 vec c) (fun c =>
    sfor (zrange 1 (sc_mmax c + 1))
      (fun m c =>
         let w := py_slice vec m (zlen vec) in
         seq_unit (sc_window_col (- m) w c) (fun c => sc_window_col m w c))
      c).

(** spherepy.py:341-354 _reshape_m_vecs: one list per n *)
Definition sc_m_vecs (c : scoefs) : res (list (list C)) :=
  mmap (fun n =>
          let nn := sc_nn c n in
          mmap (fun m => sc_get_elem c n m) (zrange (- nn) (nn + 1)))
       (zrange 0 (sc_nmax c + 1)).

(** spherepy.py:330-339 _reshape_n_vecs: columns 0, -1, 1, -2, 2, ... *)
Definition sc_n_vecs (c : scoefs) : res (list (list C)) :=
  v0 <- sc_get_col c 0 ;;
  rest <- mmap (fun m => a <- sc_get_col c (- m) ;; b <- sc_get_col c m ;; Ok [a; b])
               (zrange 1 (sc_mmax c + 1)) ;;
  Ok (v0 :: List.concat rest).

(** |x|^2 as computed by np.abs(x) ** 2 *)
Definition cabs2 (x : C) : rc K := rmul K (cabs K x) (cabs K x).

(** spherepy.py:271-294 angular_power_spectrum *)
Definition sc_angular_power (c : scoefs) : res (list (rc K)) :=
  modes <- sc_m_vecs c ;;
  Ok (map (fun mode => rsum K (map cabs2 mode)) modes).

(** spherepy.py:296-311 power *)
Definition sc_power (c : scoefs) : rc K := rsum K (map cabs2 (sc_vec c)).

(** 2-D arrays: shape and row-major contents (numpy C order). *)
Record mat : Type := mkMat { mt_nr : Z; mt_nc : Z; mt_dat : list C }.

Definition mget (a : mat) (i j : Z) : C := vget (c0 K) (mt_dat a) (i * mt_nc a + j).
Definition mmake (nr nc : Z) (f : Z -> Z -> C) : mat :=
  mkMat nr nc (vmake (nr * nc) (fun k => f (k / nc) (k mod nc))).
Definition mset (a : mat) (i j : Z) (x : C) : mat :=
  mkMat (mt_nr a) (mt_nc a) (vset (mt_dat a) (i * mt_nc a + j) x).
Definition mat_wf (a : mat) : Prop :=
  0 <= mt_nr a /\ 0 <= mt_nc a /\ zlen (mt_dat a) = mt_nr a * mt_nc a.

(** a[i0:i1, j] = col, as performed in _array_2d_repr; numpy raises when the
    lengths differ (length-1 columns broadcast). *)
Definition mset_col (a : mat) (i0 i1 j : Z) (col : list C) : res mat :=
  if zlen col =? i1 - i0 then
    Ok (pfor (zrange i0 i1) (fun i a => mset a i j (vget (c0 K) col (i - i0))) a)
  else match col with
       | [x] => Ok (pfor (zrange i0 i1) (fun i a => mset a i j x) a)
       | _ => Raise NumpyError
       end.

(** spherepy.py:314-328 _array_2d_repr *)
Definition sc_array_2d (c : scoefs) : res mat :=
  let a := mmake (sc_nmax c + 1) (2 * sc_mmax c + 1) (fun _ _ => c0 K) in
  lst <- sc_n_vecs c ;;
  l0 <- py_get [] lst 0 ;;
  a <- mset_col a 0 (sc_nmax c + 1) (sc_mmax c) l0 ;;
  mfor (zrange 1 (sc_mmax c + 1))
    (fun m a =>
       lm <- py_get [] lst (2 * m - 1) ;;
       a <- mset_col a m (sc_nmax c + 1) (sc_mmax c - m) lm ;;
       lp <- py_get [] lst (2 * m) ;;
       mset_col a m (sc_nmax c + 1) (sc_mmax c + m) lp) a.

(** ** Operators (spherepy.py:542-634) *)

Inductive binop : Type := OpAdd | OpSub | OpMul | OpDiv.

Definition binop_fun (o : binop) : C -> C -> C :=
  match o with
  | OpAdd => cadd K | OpSub => csub K | OpMul => cmul K | OpDiv => cdiv K
  end.

(** The right operand of an overloaded operator. *)
Inductive sc_operand : Type :=
| OpndSC (c : scoefs)
| OpndNum (x : C)
| OpndOther.

(** spherepy.py:542-562 _scalar_coef_op_left applied to 576-625
    (__add__, __sub__, __mul__, __div__/__truediv__).  For division by a
    number 0 the wrapped function *returns* a ZeroDivisionError instance,
    which ScalarCoefs.__init__ then passes to len(): TypeError. *)
Definition sc_op_left (o : binop) (c : scoefs) (b : sc_operand) : res scoefs :=
  match b with
  | OpndSC c' =>
      if zlen (sc_vec c) =? zlen (sc_vec c') then
        v <- np_broadcast (binop_fun o) (sc_vec c) (sc_vec c') ;;
        sc_new v (sc_nmax c) (sc_mmax c)
      else Raise (ValueError "SC_sz_msmtch")
  | OpndNum x =>
      match o with
      | OpDiv =>
          if ceqb K x (c0 K) then
            (if sc_mmax c >? sc_nmax c then Raise (ValueError "nmax_g_mmax")
             else Raise (TypeError "object has no len()"))
          else sc_new (map (fun a => cdiv K a x) (sc_vec c)) (sc_nmax c) (sc_mmax c)
      | _ => sc_new (map (fun a => binop_fun o a x) (sc_vec c)) (sc_nmax c) (sc_mmax c)
      end
  | OpndOther => Raise (TypeError "no_combi_SC")
  end.

(** spherepy.py:564-574, 580-634 _scalar_coef_op_right: x op c.  In __rdiv__ /
    __rtruediv__ the test isinstance(a, Number) is about the array a, so it is
    False and b / a is returned. *)
Definition sc_op_right (o : binop) (c : scoefs) (b : sc_operand) : res scoefs :=
  match b with
  | OpndNum x => sc_new (map (fun a => binop_fun o x a) (sc_vec c)) (sc_nmax c) (sc_mmax c)
  | _ => Raise (TypeError "no_combi_SC")
  end.

(** ** VectorCoefs (spherepy.py:637-914) *)

Record vcoefs : Type := mkVC {
  vc_1 : scoefs; vc_2 : scoefs; vc_nmax : Z; vc_mmax : Z }.

(** spherepy.py:640-660 __init__.  vec1[0] = 0 raises IndexError on an empty
    array. The caller's arrays are modified too: see MHeap.v. *)
Definition vc_new (vec1 vec2 : list C) (nmax mmax : Z) : res vcoefs :=
  if negb (zlen vec1 =? zlen vec2) then Raise (ValueError "vec1_s_vec2")
  else if mmax >? nmax then Raise (ValueError "nmax_g_mmax")
  else if negb (ncoef nmax mmax =? zlen vec1) then Raise (ValueError "vcoef_size")
  else
    v1 <- py_set vec1 0 (c0 K) ;;
    v2 <- py_set vec2 0 (c0 K) ;;
    s1 <- sc_new v1 nmax mmax ;;
    s2 <- sc_new v2 nmax mmax ;;
    Ok (mkVC s1 s2 nmax mmax).

(** spherepy.py:681-691 copy *)
Definition vc_copy (c : vcoefs) : res vcoefs :=
  vc_new (sc_vec (vc_1 c)) (sc_vec (vc_2 c)) (vc_nmax c) (vc_mmax c).

(** The value assigned by vc[...] = val: spherepy.py:722-726 accepts only a
    list or tuple of length 2. *)
Definition vc_pair (val : pyval C) : res (C * C) :=
  match val with
  | VList [a; b] => Ok (a, b)
  | _ => Raise (AttributeError "val_2tuple")
  end.

(** spherepy.py:717-749 __setitem__.  The try/except IndexError block creates
    an AttributeError without raising it; no IndexError can reach it here. *)
Definition vc_setitem (c : vcoefs) (arg : subscript) (val : pyval C) : vcoefs * res unit :=
  match arg with
  | SNoLen => (c, Raise (TypeError "object has no len()"))
  | STuple [i0; i1] =>
      match vc_pair val with
      | Raise e => (c, Raise e)
      | Ok (a, b) =>
        match i0, i1 with
        | ISlice _ _ _, IInt _ => (c, Raise (AttributeError "set_sc1"))
        | IInt n, ISlice _ _ _ =>
            if n =? 0 then (c, Raise (AttributeError "no_v0_mode"))
            else (c, Raise (AttributeError "set_sc2"))
        | IInt n, IInt m =>
            if n =? 0 then (c, Raise (AttributeError "no_v0_mode"))
            else
              match sc_setitem (vc_1 c) (STuple [IInt n; IInt m]) (VNum a) with
              | (s1, Ok _) =>
                  match sc_setitem (vc_2 c) (STuple [IInt n; IInt m]) (VNum b) with
                  | (s2, r) => (mkVC s1 s2 (vc_nmax c) (vc_mmax c),
                                match r with Raise IndexError => Ok tt | _ => r end)
                  end
              | (s1, Raise IndexError) =>
                  (mkVC s1 (vc_2 c) (vc_nmax c) (vc_mmax c), Ok tt)
              | (s1, Raise e) =>
                  (mkVC s1 (vc_2 c) (vc_nmax c) (vc_mmax c), Raise e)
              end
        | _, _ => (c, Raise (AttributeError "idx_no_rec"))
        end
      end
  | STuple _ => (c, Raise (AttributeError "tuple_2_el"))
  end.

Inductive vc_item : Type :=
| VItElem (x y : C)
| VItVec (l1 l2 : list C)
| VItCoefs (c : vcoefs).

(** spherepy.py:751-814 __getitem__ *)
Definition vc_getitem (c : vcoefs) (arg : subscript) : res vc_item :=
  match arg with
  | SNoLen => Raise (TypeError "object has no len()")
  | STuple [i0; i1] =>
      match i0, i1 with
      | ISlice None None None, IInt m =>
          a <- sc_get_col (vc_1 c) m ;; b <- sc_get_col (vc_2 c) m ;; Ok (VItVec a b)
      | ISlice _ _ _, IInt _ => Raise (AttributeError "slice_noper")
      | IInt n, ISlice s0 s1 s2 =>
          if n =? 0 then Raise (AttributeError "no_v0_mode")
          else match s0, s1, s2 with
               | None, None, None =>
                   a <- sc_get_row (vc_1 c) n ;; b <- sc_get_row (vc_2 c) n ;;
                   Ok (VItVec a b)
               | _, _, _ => Raise (AttributeError "slice_noper")
               end
      | IInt n, IInt m =>
          if n =? 0 then Raise (AttributeError "no_v0_mode")
          else a <- sc_get_elem (vc_1 c) n m ;; b <- sc_get_elem (vc_2 c) n m ;;
               Ok (VItElem a b)
      | ISlice (Some 0) (Some k) None, ISlice None None None =>
          if k >? vc_nmax c then Raise (AttributeError "n_out_bound")
          else
            let new_mmax := if k >? vc_mmax c then vc_mmax c else k in
            t1 <- sc_trunc (vc_1 c) k ;;
            t2 <- sc_trunc (vc_2 c) k ;;
            t <- vc_new (sc_vec t1) (sc_vec t2) k new_mmax ;;
            Ok (VItCoefs t)
      | ISlice _ _ _, ISlice _ _ _ => Raise (AttributeError "idx_no_rec")
      | _, _ => Raise (AttributeError "idx_no_rec")
      end
  | STuple _ => Raise (AttributeError "tuple_2_el")
  end.

Inductive vc_operand : Type :=
| VOpndVC (c : vcoefs)
| VOpndNum (x : C)
| VOpndOther.

(** spherepy.py:816-841 _vector_coef_op_left.  The guard on line 822 compares
    len(vcoef.scoef1._vec) with itself, so it is always true.  Division by
    the number 0 passes ZeroDivisionError instances to VectorCoefs.__init__,
    whose first test reads .shape: AttributeError. *)
Definition vc_op_left (o : binop) (c : vcoefs) (b : vc_operand) : res vcoefs :=
  match b with
  | VOpndVC c' =>
      if zlen (sc_vec (vc_1 c')) =? zlen (sc_vec (vc_1 c')) then
        v1 <- np_broadcast (binop_fun o) (sc_vec (vc_1 c)) (sc_vec (vc_1 c')) ;;
        v2 <- np_broadcast (binop_fun o) (sc_vec (vc_2 c)) (sc_vec (vc_2 c')) ;;
        vc_new v1 v2 (vc_nmax c) (vc_mmax c)
      else Raise (ValueError "VC_sz_msmtch")
  | VOpndNum x =>
      match o with
      | OpDiv =>
          if ceqb K x (c0 K) then Raise (AttributeError "no attribute 'shape'")
          else vc_new (map (fun a => cdiv K a x) (sc_vec (vc_1 c)))
                      (map (fun a => cdiv K a x) (sc_vec (vc_2 c))) (vc_nmax c) (vc_mmax c)
      | _ => vc_new (map (fun a => binop_fun o a x) (sc_vec (vc_1 c)))
                    (map (fun a => binop_fun o a x) (sc_vec (vc_2 c))) (vc_nmax c) (vc_mmax c)
      end
  | VOpndOther => Raise (TypeError "no_combi_VC")
  end.

(** spherepy.py:843-854 _vector_coef_op_right *)
Definition vc_op_right (o : binop) (c : vcoefs) (b : vc_operand) : res vcoefs :=
  match b with
  | VOpndNum x => vc_new (map (fun a => binop_fun o x a) (sc_vec (vc_1 c)))
                         (map (fun a => binop_fun o x a) (sc_vec (vc_2 c))) (vc_nmax c) (vc_mmax c)
  | _ => Raise (TypeError "no_combi_VC")
  end.

(** ** Factories (spherepy.py:1376-1523) *)

Inductive anycoefs : Type := AnyS (c : scoefs) | AnyV (c : vcoefs).

(** spherepy.py:1412 (and 1416, 1459, 1463, 1509, 1514) *)
Definition fac_len (nmax mmax : Z) : Z := (nmax + 1) + mmax * (2 * nmax - mmax + 1).

(** np.zeros/np.ones/np.random.normal of length L; negative L raises. *)
Definition np_fill (L : Z) (f : Z -> C) : res (list C) :=
  if L <? 0 then Raise NumpyError else Ok (vmake L f).

(** Common shape of zeros_coefs (1408-1421), ones_coefs (1455-1470) and
    random_coefs (1505-1523): [f1]/[f2] give the entries before the explicit
    vec[0] = 0 of the vector branches. For random_coefs they are the oracle
    supplying np.random.normal(mu,sigma,L) + 1j*np.random.normal(mu,sigma,L). *)
Definition coefs_factory (f1 f2 : Z -> C) (nmax mmax coef_type : Z) : res anycoefs :=
  if mmax >? nmax then Raise (ValueError "nmax_g_mmax")
  else if coef_type =? 0 then
    vec <- np_fill (fac_len nmax mmax) f1 ;;
    c <- sc_new vec nmax mmax ;; Ok (AnyS c)
  else if coef_type =? 1 then
    vec1 <- np_fill (fac_len nmax mmax) f1 ;;
    vec1 <- py_set vec1 0 (c0 K) ;;
    vec2 <- np_fill (fac_len nmax mmax) f2 ;;
    vec2 <- py_set vec2 0 (c0 K) ;;
    c <- vc_new vec1 vec2 nmax mmax ;; Ok (AnyV c)
  else Raise (TypeError "ukn_coef_t").

Definition zeros_coefs := coefs_factory (fun _ => c0 K) (fun _ => c0 K).
Definition ones_coefs := coefs_factory (fun _ => c1 K) (fun _ => c1 K).
Definition random_coefs (draw1 draw2 : Z -> C) := coefs_factory draw1 draw2.

(** ** pretty_coefs (spherepy.py:1790-1828)

    The number formatting "{0:.2}".format(c) (_tiny_rep, 1784-1788) and
    str.center(13) are left abstract as [tiny] and [center]. The result is the
    list of the nine strings passed to pretty_display_string.format. *)
Definition pretty_cells {S} (tiny : C -> S) (empty : S) (center : S -> S) (c : scoefs)
  : res (list S) :=
  cfit <- sc_trunc c 2 ;;
  let sa := map tiny (sc_vec cfit) in
  (* while len(sa) < 9: sa.append("") *)
  let sa := sa ++ repeat empty (9 - List.length sa) in
  (* [sa[n].center(13) for n in range(0, 9)] *)
  mmap (fun n => x <- py_get empty sa n ;; Ok (center x)) (zrange 0 9).

(** spherepy.py:121-131 pretty_display_string: the placeholder printed in row
    n (2, 1, 0) and column m (-2 .. 2) of the picture:
      2: {7}  {4}  {2}  {6}  {8}
      1:      {3}  {1}  {5}
      0:           {0}           *)
Definition pretty_slot (n m : Z) : option Z :=
  match n, m with
  | 2, -2 => Some 7 | 2, -1 => Some 4 | 2, 0 => Some 2 | 2, 1 => Some 6 | 2, 2 => Some 8
  | 1, -1 => Some 3 | 1, 0 => Some 1 | 1, 1 => Some 5
  | 0, 0 => Some 0
  | _, _ => None
  end.

End Coefs.
