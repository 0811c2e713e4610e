(** * MOps: model of spherepy/ops.py (whole file), exact arithmetic.

    Each routine works in place on the 2-D array it is given; the model
    returns the new contents of that array (which caller arrays are mutated is
    recorded in MHeap.v). *)
From Coq Require Import ZArith List String Bool Reals.
From Coquelicot Require Import Complex.
From Verif Require Import Py Num Exact MCoefs Sums MPysphi.
Import ListNotations.
Open Scope string_scope.
Open Scope list_scope.
Open Scope Z_scope.

(** a[i, :] = 0 *)
Definition row_zero (a : mat RN) (i : Z) : res (mat RN) :=
  r <- py_index (mt_nr RN a) i ;;
  Ok (mmake RN (mt_nr RN a) (mt_nc RN a) (fun p q => if p =? r then RtoC 0 else cget a p q)).

(** ops.py:55-66 fix_even_row_data_fc *)
Definition fix_even_row_data_fc (fdata : mat RN) : res (mat RN) :=
  let L := mt_nr RN fdata in
  if L mod 2 =? 0 then row_zero fdata (L / 2) else Ok fdata.

(** The row indices selected by [-1:-M:-1] in an array with len rows
    (CPython slice rules for a negative step). *)
Definition neg_slice (len M : Z) : list Z :=
  let start := if len - 1 <? 0 then -1 else len - 1 in
  let stop := if - M <? 0 then Z.max (-1) (len - M) else Z.min (- M) (len - 1) in
  zrange_down start stop.

(** ops.py:68-81 pad_rows_fdata: the new contents of fdata_extended, which has
    Le rows and as many columns as fdata. *)
Definition pad_rows_fdata (fdata : mat RN) (fext : mat RN) : res (mat RN) :=
  let Le := mt_nr RN fext in
  let L := mt_nr RN fdata in
  if Le <? L then Raise (PlainException "Make sure fdata_extended has equal or more rows than fdata")
  else if negb (mt_nc RN fext =? mt_nc RN fdata) then Raise NumpyError
  else
    let M := L / 2 in
    let rows := combine (neg_slice Le M) (neg_slice L M) in
    if negb (zlen (neg_slice Le M) =? zlen (neg_slice L M)) then Raise NumpyError
    else
    let e1 := mmake RN Le (mt_nc RN fext) (fun p q => if p <? M then cget fdata p q else RtoC 0) in
    Ok (fold_left (fun e pr =>
          mmake RN Le (mt_nc RN fext)
            (fun p q => if p =? fst pr then cget fdata (snd pr) q else cget e p q)) rows e1).

(** ops.py:83-102 sin_fc: work1 is fdata shifted down cyclically by one row,
    work2 shifted up.  int(nrows/2 - 1) is the floor for nrows >= 2. *)
Definition sin_fc (fdata : mat RN) : res (mat RN) :=
  let nrows := mt_nr RN fdata in
  let ncols := mt_nc RN fdata in
  f <- row_zero fdata (nrows / 2 - 1) ;;
  f <- row_zero f (nrows / 2 + 1) ;;
  let work1 p q := if p =? 0 then cget f (nrows - 1) q else cget f (p - 1) q in
  let work2 p q := if p =? nrows - 1 then cget f 0 q else cget f (p + 1) q in
  Ok (mmake RN nrows ncols (fun p q => RtoC 1 / (RtoC 2 * Ci) * (work1 p q - work2 p q))%C).

(** Rows as vectors: g[k, :] (read) and g[k, :] = v *)
Definition row_get (a : mat RN) (i : Z) : res (list C) :=
  r <- py_index (mt_nr RN a) i ;; Ok (vmake (mt_nc RN a) (fun q => cget a r q)).
Definition row_set (a : mat RN) (i : Z) (v : list C) : res (mat RN) :=
  r <- py_index (mt_nr RN a) i ;;
  Ok (mmake RN (mt_nr RN a) (mt_nc RN a) (fun p q => if p =? r then vget (RtoC 0) v q else cget a p q)).

(** ops.py:104-119 divsin_fc *)
Definition divsin_fc (fdata : mat RN) : res (mat RN) :=
  let nrows := mt_nr RN fdata in
  let ncols := mt_nc RN fdata in
  let L := nrows / 2 in
  let L2 := L - 2 in
  g <- np_zeros2 nrows ncols ;;
  r <- row_get fdata (L - 1) ;;
  g <- row_set g L2 (map (fun x => RtoC 2 * Ci * x)%C r) ;;
  mfor (zrange_down L2 (- L2)) (fun k g =>
    fk <- row_get fdata k ;;
    gk <- row_get g (k + 1) ;;
    row_set g (k - 1) (zip_with (fun x y => RtoC 2 * Ci * x + y)%C fk gk)) g.

(** The list 0, 1, .., B-1, -B, .., -1 of ops.py:128-130 and 148-150 *)
Definition freq (B k : Z) : Z := if k <? B then k else k - 2 * B.

(** ops.py:121-137 dtheta_fc; assigning the 2B-long list to a column of nrows
    entries fails when nrows is odd. *)
Definition dtheta_fc (fdata : mat RN) : res (mat RN) :=
  let nrows := mt_nr RN fdata in
  let B := nrows / 2 in
  if negb (2 * B =? nrows) && negb (mt_nc RN fdata =? 0) then Raise NumpyError
  else Ok (mmake RN nrows (mt_nc RN fdata) (fun p q => Ci * RtoC (IZR (freq B p)) * cget fdata p q)%C).

(** ops.py:140-157 dphi_fc *)
Definition dphi_fc (fdata : mat RN) : res (mat RN) :=
  let ncols := mt_nc RN fdata in
  let B := ncols / 2 in
  if negb (2 * B =? ncols) && negb (mt_nr RN fdata =? 0) then Raise NumpyError
  else Ok (mmake RN (mt_nr RN fdata) ncols (fun p q => Ci * RtoC (IZR (freq B q)) * cget fdata p q)%C).

(** Elementwise operations on arrays of equal shape. *)
Definition ew2 (f : C -> C -> C) (a b : mat RN) : res (mat RN) :=
  if (mt_nr RN a =? mt_nr RN b) && (mt_nc RN a =? mt_nc RN b)
  then Ok (mmake RN (mt_nr RN a) (mt_nc RN a) (fun p q => f (cget a p q) (cget b p q)))
  else Raise NumpyError.
Definition ew1 (f : C -> C) (a : mat RN) : mat RN :=
  mmake RN (mt_nr RN a) (mt_nc RN a) (fun p q => f (cget a p q)).

(** ops.py:159-168 sinLdot_fc *)
Definition sinLdot_fc (tfdata pfdata : mat RN) : res (mat RN) :=
  t <- dphi_fc tfdata ;;
  p <- sin_fc pfdata ;;
  p <- dtheta_fc p ;;
  ew2 (fun a b => Ci * (a - b))%C t p.

(** ops.py:170-180 L_fc *)
Definition L_fc (fdata : mat RN) : res (mat RN * mat RN) :=
  let fd := fdata in
  f <- dphi_fc fdata ;;
  f <- divsin_fc f ;;
  fd <- dtheta_fc fd ;;
  Ok (ew1 (fun x => Ci * x)%C f, ew1 (fun x => - Ci * x)%C fd).
