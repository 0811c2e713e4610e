(** * MOpsF: the operators of spherepy/ops.py in double precision.

    The counterparts of MOps' [dtheta_fc], [dphi_fc], [divsin_fc], [sinLdot_fc]
    and [L_fc] on arrays of pairs of binary64 numbers ([f_sin_fc],
    [f_fix_even] and [f_pad_rows] are in MTransF).  Arrays are flat lists with
    their shape given; NumPy's product of complex numbers is the textbook
    formula [cfmul] (loops.c.src), sums are by parts. *)
From Coq Require Import ZArith List Bool String SpecFloat.
From Verif Require Import Py FloatN MOps MCoefs MDouble MKissF MTransF.
Import ListNotations.
Open Scope string_scope.
Open Scope list_scope.
Open Scope Z_scope.

(** the literals 1j, -1j and 2 * 1j (CPython's product of 2+0j and 0+1j) *)
Definition f_1j : cf := (fofZ 0, fofZ 1).
Definition f_m1j : cf := (SFopp (fofZ 0), fofZ (-1)).
Definition f_2j : cf := cfmul (fofZ 2, fofZ 0) f_1j.

(** g[i, :] (read) and g[i, :] = v *)
Definition f_row_get (nr nc : Z) (a : list cf) (i : Z) : res (list cf) :=
  r <- py_index nr i ;; Ok (vmake nc (fun q => fget nc a r q)).
Definition f_row_set (nr nc : Z) (a : list cf) (i : Z) (v : list cf) : res (list cf) :=
  r <- py_index nr i ;; Ok (fmake nr nc (fun p q => if p =? r then vget cf0 v q else fget nc a p q)).

(** ops.py:104-119 divsin_fc *)
Definition f_divsin_fc (nr nc : Z) (fdata : list cf) : res (list cf) :=
  let L := nr / 2 in
  let L2 := L - 2 in
  if (nr <? 0) || (nc <? 0) then Raise NumpyError
  else
  let g := fmake nr nc (fun _ _ => cf0) in
  r <- f_row_get nr nc fdata (L - 1) ;;
  g <- f_row_set nr nc g L2 (map (fun x => cfmul f_2j x) r) ;;
  mfor (zrange_down L2 (- L2)) (fun k g =>
    fk <- f_row_get nr nc fdata k ;;
    gk <- f_row_get nr nc g (k + 1) ;;
    f_row_set nr nc g (k - 1) (zip_with (fun x y => cfadd (cfmul f_2j x) y) fk gk)) g.

(** ops.py:121-137 dtheta_fc: 1j * dtheta * fdata is (1j * dtheta) * fdata *)
Definition f_dtheta_fc (nr nc : Z) (fdata : list cf) : res (list cf) :=
  let B := nr / 2 in
  if negb (2 * B =? nr) && negb (nc =? 0) then Raise NumpyError
  else Ok (fmake nr nc (fun p q => cfmul (cfmul f_1j (cfre (fofZ (freq B p)))) (fget nc fdata p q))).

(** ops.py:140-157 dphi_fc *)
Definition f_dphi_fc (nr nc : Z) (fdata : list cf) : res (list cf) :=
  let B := nc / 2 in
  if negb (2 * B =? nc) && negb (nr =? 0) then Raise NumpyError
  else Ok (fmake nr nc (fun p q => cfmul (cfmul f_1j (cfre (fofZ (freq B q)))) (fget nc fdata p q))).

(** ops.py:159-168 sinLdot_fc, both arguments nr by nc *)
Definition f_sinLdot_fc (nr nc : Z) (tfdata pfdata : list cf) : res (list cf) :=
  t <- f_dphi_fc nr nc tfdata ;;
  p <- f_sin_fc nr nc pfdata ;;
  p <- f_dtheta_fc nr nc p ;;
  Ok (fmake nr nc (fun i j => cfmul f_1j (cfsubk (fget nc t i j) (fget nc p i j)))).

(** ops.py:170-180 L_fc *)
Definition f_L_fc (nr nc : Z) (fdata : list cf) : res (list cf * list cf) :=
  f <- f_dphi_fc nr nc fdata ;;
  f <- f_divsin_fc nr nc f ;;
  fd <- f_dtheta_fc nr nc fdata ;;
  Ok (fmake nr nc (fun p q => cfmul f_1j (fget nc f p q)), fmake nr nc (fun p q => cfmul f_m1j (fget nc fd p q))).
