(** * Py: the fragment of Python / numpy semantics used by the model.

    Nothing here models a particular line of /repo; these are the meanings of
    the Python constructs (exceptions, xrange, list/ndarray indexing and
    slicing) that the modelled functions are built from.  They are part of the
    trusted base: see DESIGN.md section 3. *)
From Coq Require Import ZArith List String Bool.
Import ListNotations.
Open Scope Z_scope.

(** Exceptions.  [ValueError k] etc. carry the key into [err_msg]
    (spherepy/spherepy.py:75-121) or the literal message.
    [NumpyError]: an exception raised inside numpy itself (broadcasting,
    "setting an array element with a sequence"; the concrete class depends on
    the numpy version and is not modelled).
    [OutOfBounds]: C code touched memory outside a buffer (undefined
    behaviour).  [OutOfFuel]: the loop did not finish within the fuel.
    [IntOverflow]: a C int computation left the range of int (MCint.v). *)
Inductive exn : Type :=
| ValueError (msg : string)
| AttributeError (msg : string)
| TypeError (msg : string)
| IndexError
| PlainException (msg : string)
| NotImplementedError
| NumpyError
| ZeroDivisionError
| OutOfBounds
| OutOfFuel
| IntOverflow.

Inductive res (A : Type) : Type :=
| Ok (a : A)
| Raise (e : exn).
Arguments Ok {A} a.
Arguments Raise {A} e.

Definition bind {A B} (x : res A) (f : A -> res B) : res B :=
  match x with Ok a => f a | Raise e => Raise e end.

Notation "x <- e ;; k" := (bind e (fun x => k))
  (at level 100, e at next level, right associativity).
Notation "' p <- e ;; k" := (bind e (fun p => k))
  (at level 100, p pattern, e at next level, right associativity).

Definition is_ok {A} (x : res A) : bool :=
  match x with Ok _ => true | Raise _ => false end.

(** xrange(lo, hi) / range(lo, hi). *)
Definition zrange (lo hi : Z) : list Z :=
  map (fun k => lo + Z.of_nat k) (seq 0 (Z.to_nat (hi - lo))).

(** xrange(hi, lo, -1): hi, hi-1, ..., lo+1. *)
Definition zrange_down (hi lo : Z) : list Z :=
  map (fun k => hi - Z.of_nat k) (seq 0 (Z.to_nat (hi - lo))).

(** xrange(hi, lo, -2): hi, hi-2, ... while > lo. *)
Definition zrange_down2 (hi lo : Z) : list Z :=
  map (fun k => hi - 2 * Z.of_nat k) (seq 0 (Z.to_nat ((hi - lo + 1) / 2))).

(** [for i in l: s = f(i, s)], pure and exception-raising bodies. *)
Definition pfor {S} (l : list Z) (f : Z -> S -> S) (s : S) : S :=
  fold_left (fun s i => f i s) l s.

Fixpoint mfor {S} (l : list Z) (f : Z -> S -> res S) (s : S) : res S :=
  match l with
  | [] => Ok s
  | i :: l' => s' <- f i s ;; mfor l' f s'
  end.

(** Comprehension whose element may raise. *)
Fixpoint mmap {A B} (f : A -> res B) (l : list A) : res (list B) :=
  match l with
  | [] => Ok []
  | a :: l' => b <- f a ;; bs <- mmap f l' ;; Ok (b :: bs)
  end.

(** len(v) *)
Definition zlen {A} (v : list A) : Z := Z.of_nat (List.length v).

(** Raw element access at a non-negative position (default outside). *)
Definition vget {A} (d : A) (v : list A) (i : Z) : A :=
  if i <? 0 then d else nth (Z.to_nat i) v d.

Fixpoint upd {A} (v : list A) (i : nat) (x : A) : list A :=
  match v, i with
  | [], _ => []
  | _ :: v', O => x :: v'
  | a :: v', S i' => a :: upd v' i' x
  end.

Definition vset {A} (v : list A) (i : Z) (x : A) : list A :=
  if i <? 0 then v else upd v (Z.to_nat i) x.

(** Build a list from an index function (np.zeros followed by filling each
    cell once, or a comprehension). *)
Definition vmake {A} (n : Z) (f : Z -> A) : list A := map f (zrange 0 n).

(** Python index normalisation: v[i] with negative wrap, IndexError outside. *)
Definition py_index (len i : Z) : res Z :=
  if (0 <=? i) && (i <? len) then Ok i
  else if (- len <=? i) && (i <? 0) then Ok (i + len)
  else Raise IndexError.

Definition py_get {A} (d : A) (v : list A) (i : Z) : res A :=
  k <- py_index (zlen v) i ;; Ok (vget d v k).

Definition py_set {A} (v : list A) (i : Z) (x : A) : res (list A) :=
  k <- py_index (zlen v) i ;; Ok (vset v k x).

(** Slice bounds normalisation for step 1 (CPython PySlice_AdjustIndices). *)
Definition slice_bound (len i : Z) : Z :=
  if i <? 0 then Z.max 0 (i + len) else Z.min i len.

(** v[a:b] *)
Definition py_slice {A} (v : list A) (a b : Z) : list A :=
  let a' := slice_bound (zlen v) a in
  let b' := slice_bound (zlen v) b in
  firstn (Z.to_nat (b' - a')) (skipn (Z.to_nat a') v).

(** v[a:b] = w for equal lengths (ndarray). numpy broadcasts a length-1 right
    hand side and raises otherwise. *)
Definition py_slice_set {A} (v : list A) (a b : Z) (w : list A)
  : res (list A) :=
  let a' := slice_bound (zlen v) a in
  let b' := Z.max a' (slice_bound (zlen v) b) in
  let n := b' - a' in
  if zlen w =? n
  then Ok (firstn (Z.to_nat a') v ++ w ++ skipn (Z.to_nat b') v)
  else match w with
       | [x] => Ok (firstn (Z.to_nat a') v ++ repeat x (Z.to_nat n)
                      ++ skipn (Z.to_nat b') v)
       | _ => Raise NumpyError
       end.

(** Elementwise binary operation on 1-D arrays with numpy broadcasting. *)
Fixpoint zip_with {A B C} (f : A -> B -> C) (u : list A) (v : list B) : list C :=
  match u, v with
  | a :: u', b :: v' => f a b :: zip_with f u' v'
  | _, _ => []
  end.

Definition np_broadcast {A B C} (f : A -> B -> C) (u : list A) (v : list B)
  : res (list C) :=
  if zlen u =? zlen v then Ok (zip_with f u v)
  else match u, v with
       | [a], _ => Ok (map (fun b => f a b) v)
       | _, [b] => Ok (map (fun a => f a b) u)
       | _, _ => Raise NumpyError
       end.

(** Index expressions that may appear in c[arg].  Python ints (and bools),
    slices with optional start/stop/step, anything else (numpy ints, floats,
    strings, ...). *)
Inductive idx : Type :=
| IInt (z : Z)
| ISlice (start stop step : option Z)
| IOther.

(** [:] *)
Definition IAll : idx := ISlice None None None.

(** The subscript: a tuple of index expressions, or an object without len
    (an int, a slice), for which len(arg) raises TypeError. *)
Inductive subscript : Type :=
| STuple (l : list idx)
| SNoLen.

(** A value on the right of an item assignment or passed as an operand. *)
Inductive pyval (A : Type) : Type :=
| VNum (x : A)            (* a number *)
| VList (l : list A)      (* list or tuple of numbers *)
| VArr (l : list A)       (* 1-D ndarray *)
| VNone.                  (* any object without len that is not a number *)
Arguments VNum {A} x.
Arguments VList {A} l.
Arguments VArr {A} l.
Arguments VNone {A}.

Definition val_len {A} (v : pyval A) : res Z :=
  match v with
  | VList l | VArr l => Ok (zlen l)
  | VNum _ | VNone => Raise (TypeError "object has no len()")
  end.

Definition val_list {A} (v : pyval A) : list A :=
  match v with VList l | VArr l => l | _ => [] end.
