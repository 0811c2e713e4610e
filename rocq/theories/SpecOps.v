(** * SpecOps: what a two dimensional Fourier table stands for, and the kernel
    of the convolution; independent of the model of ops.py / pysphi.py. *)
From Coq Require Import ZArith Reals.
From Coquelicot Require Import Coquelicot.
From Verif Require Import Num Exact MCoefs Sums SpecHarm.
Open Scope Z_scope.

(** The table [a] has 2 MM rows and 2 B columns; the entry at row k mod 2MM,
    column m mod 2B is the coefficient of exp(i k theta) exp(i m phi),
    -MM < k <= MM, -B < m <= B.  [table_value a] is that trigonometric
    polynomial. *)
Definition table_value (a : mat RN) (theta phi : R) : C :=
  let MM := mt_nr RN a / 2 in let B := mt_nc RN a / 2 in
  sumC (- B + 1) (B + 1) (fun m => sumC (- MM + 1) (MM + 1) (fun k =>
    mget RN a (k mod mt_nr RN a) (m mod mt_nc RN a) *
    (cos (IZR k * theta), sin (IZR k * theta)) * (cos (IZR m * phi), sin (IZR m * phi))))%C.

(** Frequency k in theta does not occur. *)
Definition row_free (a : mat RN) (k : Z) : Prop :=
  forall j, 0 <= j < mt_nc RN a -> mget RN a (k mod mt_nr RN a) j = RtoC 0.
(** Frequency m in phi does not occur. *)
Definition col_free (a : mat RN) (m : Z) : Prop :=
  forall i, 0 <= i < mt_nr RN a -> mget RN a i (m mod mt_nc RN a) = RtoC 0.

(** -i/nu for odd nu, 0 for even nu. *)
Definition inv_odd (nu : Z) : C := if Z.odd nu then (0%R, (- / IZR nu)%R) else RtoC 0.

(** Derivative with respect to phi. *)
Definition dphi (f : R -> R -> C) (theta phi : R) : C := derive_C (fun s => f theta s) phi.
Definition dtheta (f : R -> R -> C) (theta phi : R) : C := derive_C (fun s => f s phi) theta.
