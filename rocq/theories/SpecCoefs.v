(** * SpecCoefs: what the coefficient containers are supposed to mean,
    independently of the storage layout. *)
From Coq Require Import ZArith List Bool.
From Verif Require Import Py.
Import ListNotations.
Open Scope Z_scope.

(** (n,m) is a mode of a set of coefficients with the given nmax and mmax. *)
Definition is_mode (nmax mmax n m : Z) : Prop :=
  0 <= n <= nmax /\ Z.abs m <= n /\ Z.abs m <= mmax.

Definition is_modeb (nmax mmax n m : Z) : bool :=
  (0 <=? n) && (n <=? nmax) && (Z.abs m <=? n) && (Z.abs m <=? mmax).

(** All modes, row by row. *)
Definition row_modes (mmax n : Z) : list (Z * Z) :=
  let nn := Z.min n mmax in map (fun m => (n, m)) (zrange (- nn) (nn + 1)).

Definition all_modes (nmax mmax : Z) : list (Z * Z) :=
  flat_map (row_modes mmax) (zrange 0 (nmax + 1)).

(** Sizes for which a coefficient set makes sense. *)
Definition good_size (nmax mmax : Z) : Prop := 0 <= mmax <= nmax.

(** Intended effect of c[arg] = val on the map (n,m) |-> coefficient, and
    whether the assignment is accepted. *)
Section SpecSet.
Context {A : Type} (d : A).

Definition spec_accepts (nmax mmax : Z) (arg : subscript) (val : pyval A) : bool :=
  match arg, val with
  | STuple [IInt n; IInt m], VNum _ => is_modeb nmax mmax n m
  | STuple [ISlice None None None; IInt m], (VList l | VArr l) =>
      (Z.abs m <=? mmax) && (zlen l =? nmax - Z.abs m + 1)
  | STuple [IInt n; ISlice None None None], (VList l | VArr l) =>
      (0 <=? n) && (n <=? nmax) && (zlen l =? 2 * n + 1)
  | _, _ => false
  end.

Definition spec_set (nmax mmax : Z) (arg : subscript) (val : pyval A)
  (f : Z -> Z -> A) : Z -> Z -> A :=
  if negb (spec_accepts nmax mmax arg val) then f
  else
  match arg, val with
  | STuple [IInt n; IInt m], VNum x =>
      fun n' m' => if (n' =? n) && (m' =? m) then x else f n' m'
  | STuple [ISlice None None None; IInt m], (VList l | VArr l) =>
      (* entry k of the value goes to mode (|m|+k, m) *)
      fun n' m' => if m' =? m then vget d l (n' - Z.abs m) else f n' m'
  | STuple [IInt n; ISlice None None None], (VList l | VArr l) =>
      (* entry k of the value goes to mode (n, k - min(n,mmax)) *)
      fun n' m' => if n' =? n then vget d l (m' + Z.min n mmax) else f n' m'
  | _, _ => f
  end.

Definition spec_run (nmax mmax : Z) (hist : list (subscript * pyval A))
  (f : Z -> Z -> A) : Z -> Z -> A :=
  fold_left (fun f p => spec_set nmax mmax (fst p) (snd p) f) hist f.
End SpecSet.
