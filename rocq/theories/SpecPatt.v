(** * SpecPatt: what patterns on the doubled sphere are supposed to satisfy. *)
From Coq Require Import ZArith List Bool Reals.
From Coquelicot Require Import Complex.
From Verif Require Import Py Num Exact MCoefs.
Import ListNotations.
Open Scope Z_scope.

(** The point diametrically reflected through the pole: row i goes to row
    (R - i) mod R of the doubled array, column j to column (C/2 + j) mod C. *)
Definition across_row (R i : Z) : Z := (R - i) mod R.
Definition across_col (C j : Z) : Z := (C / 2 + j) mod C.

(** Scalar double-sphere symmetry of an array of any arithmetic. *)
Definition sphere_sym (K : num) (d : mat K) : Prop :=
  forall i j, 0 <= i < mt_nr K d -> 0 <= j < mt_nc K d ->
    mget K d (across_row (mt_nr K d) i) (across_col (mt_nc K d) j) = mget K d i j.

(** Vector double-sphere antisymmetry. *)
Definition sphere_antisym (K : num) (d : mat K) : Prop :=
  forall i j, 0 <= i < mt_nr K d -> 0 <= j < mt_nc K d ->
    mget K d (across_row (mt_nr K d) i) (across_col (mt_nc K d) j) = copp K (mget K d i j).

(** Largest element of a finite family of reals, given as a list. *)
Definition is_max (l : list R) (r : R) : Prop := In r l /\ forall x, In x l -> (x <= r)%R.

(** All cells of an array, row by row. *)
Definition cells (K : num) (d : mat K) : list (cplx K) :=
  flat_map (fun i => map (mget K d i) (zrange 0 (mt_nc K d))) (zrange 0 (mt_nr K d)).
Definition sum_abs (l : list C) : R := fold_right (fun x acc => (Cmod x + acc)%R) 0%R l.
Definition sum_sq (l : list C) : R := fold_right (fun x acc => (Cmod x ^ 2 + acc)%R) 0%R l.
