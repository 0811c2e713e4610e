(** * MTransF: spherepy.py's spht and ispht with the C backend in double precision.

    MTrans reads the same lines over the real numbers with the transforms of
    np.fft replaced by the sums that define them.  Here every operation is on
    binary64 pairs, and np.fft.fft2 / np.fft.ifft2 are parameters [fft2],
    [ifft2] (pocketfft is not modelled; the theorems assume how accurate it is).
    An array of nr rows and nc columns is the list of its entries by rows.
    Complex products and quotients are the ones of NumPy's loops and of
    CPython, without fused multiply-adds.  Ints are unbounded (C63). *)
From Coq Require Import ZArith List Bool String SpecFloat.
From Verif Require Import Py FloatN MCoefs MDouble MPysphi MOps MTrans MCsphi MKissF MCsphiF.
Import ListNotations.
Open Scope string_scope.
Open Scope list_scope.
Open Scope Z_scope.

(** a[p, q] and the array with entries f p q *)
Definition fget (nc : Z) (a : list cf) (p q : Z) : cf := vget cf0 a (p * nc + q).
Definition fmake (nr nc : Z) (f : Z -> Z -> cf) : list cf := vmake (nr * nc) (fun j => f (j / nc) (j mod nc)).

(** csphi.c:513-567 sc_to_fc: the contents of fdata afterwards *)
Definition ff_sc_to_fc (junkr : Z -> f64) (junki : Z -> Z)
    (fdata : list cf) (Nrow Ncol : Z) (sc : list cf) (Nmax Mmax : Z) : res (list cf) :=
  let y := vmake (Nmax + 1) junkr in
  inds <- c_inds Nmax Mmax junki ;;
  r <- mfor (zrange 0 (Z.quot Ncol 2 + 1)) (fun k (r : list cf * list f64) =>
         if k <? Mmax then
           pt <- ibget inds (2 * k) ;;
           r <- fc_fcvec_m_sc sc pt k Nmax Nrow Ncol k (Nmax + 1) r ;;
           pt <- ibget inds (2 * (k + 1) - 1) ;;
           fc_fcvec_m_sc sc pt (- (k + 1)) Nmax Nrow Ncol (Ncol - 1 - k) (Nmax + 1) r
         else if k =? Mmax then
           pt <- ibget inds (2 * k) ;;
           fc_fcvec_m_sc sc pt k Nmax Nrow Ncol k (Nmax + 1) r
         else Ok r) (fdata, y) ;;
  Ok (fst r).

(** spherepy.py:2020-2079 ispht for the coefficients sc (sizes nmax, mmax) with
    use_cext: the shape and the entries of the double sphere array ds.
    np.fft refuses arrays with a zero dimension. *)
Definition f_ispht (ifft2 : Z -> Z -> list cf -> list cf) (junkr : Z -> f64) (junki : Z -> Z)
    (sc : list cf) (nmax mmax : Z) (nrows ncols : option Z) : res (Z * Z * list cf) :=
  let nrows := match nrows with None => nmax + 2 | Some r => r end in
  let ncols := match ncols with None => 2 * mmax + 2 | Some r => r end in
  if nrows <=? nmax then Raise (ValueError "inverse_terr")
  else if ncols <? 2 * mmax + 2 then Raise (ValueError "inverse_terr")
  else
  let dnrows := 2 * nrows - 2 in
  if ncols mod 2 =? 1 then Raise (ValueError "ncols_even")
  else
  fdata <- np_zeros (dnrows * ncols) cf0 ;;
  fdata <- ff_sc_to_fc junkr junki fdata dnrows ncols sc nmax mmax ;;
  if (dnrows <? 1) || (ncols <? 1) then Raise NumpyError
  else
  Ok (dnrows, ncols,
      map (fun x => cfmul (cfmul x (cfre (fofZ dnrows))) (cfre (fofZ ncols))) (ifft2 dnrows ncols fdata)).

(** NumPy's quotient of a complex number by q + 0j, q > 0 (loops.c.src: the
    branch |q| >= |0|) *)
Definition npdiv (x : cf) (q : f64) : cf :=
  let rat := fdiv (fofZ 0) q in
  let scl := fdiv (fofZ 1) (fadd q (fmul (fofZ 0) rat)) in
  (fmul (fadd (fst x) (fmul (snd x) rat)) scl, fmul (fsub (snd x) (fmul (fst x) rat)) scl).

(** a[i, :] = 0 *)
Definition f_row_zero (nr nc : Z) (a : list cf) (i : Z) : res (list cf) :=
  r <- py_index nr i ;;
  Ok (fmake nr nc (fun p q => if p =? r then cf0 else fget nc a p q)).

(** ops.py:55-66 fix_even_row_data_fc *)
Definition f_fix_even (L nc : Z) (fdata : list cf) : res (list cf) :=
  if L mod 2 =? 0 then f_row_zero L nc fdata (L / 2) else Ok fdata.

(** ops.py:68-81 pad_rows_fdata, fdata_extended = np.zeros([Le, nc]) *)
Definition f_pad_rows (L Le nc : Z) (fdata : list cf) : res (list cf) :=
  if Le <? L then Raise (PlainException "Make sure fdata_extended has equal or more rows than fdata")
  else
    let M := L / 2 in
    let rows := combine (neg_slice Le M) (neg_slice L M) in
    if negb (zlen (neg_slice Le M) =? zlen (neg_slice L M)) then Raise NumpyError
    else
    let e1 := fmake Le nc (fun p q => if p <? M then fget nc fdata p q else cf0) in
    Ok (fold_left (fun e pr =>
          fmake Le nc (fun p q => if p =? fst pr then fget nc fdata (snd pr) q else fget nc e p q)) rows e1).

(** ops.py:83-102 sin_fc.  1.0 / (2 * 1j) is computed by CPython: 2 * 1j = 0+2j
    exactly, and its quotient is 0-0.5j (complexobject.c: ratio 0, denominator
    2, real part (1*0 + 0)/2, imaginary part (0*0 - 1)/2). *)
Definition f_inv2i : cf := (fdiv (fofZ 0) (fofZ 2), fdiv (fofZ (-1)) (fofZ 2)).
Definition f_sin_fc (nrows ncols : Z) (fdata : list cf) : res (list cf) :=
  f <- f_row_zero nrows ncols fdata (nrows / 2 - 1) ;;
  f <- f_row_zero nrows ncols f (nrows / 2 + 1) ;;
  let work1 p q := if p =? 0 then fget ncols f (nrows - 1) q else fget ncols f (p - 1) q in
  let work2 p q := if p =? nrows - 1 then fget ncols f 0 q else fget ncols f (p + 1) q in
  Ok (fmake nrows ncols (fun p q => cfmul f_inv2i (cfsubk (work1 p q) (work2 p q)))).

(** spherepy.py:1831-1900 spht for a double sphere array d of dnrows rows and
    ncols columns, with use_cext: nmax, mmax and the coefficients *)
Definition f_spht (fft2 : Z -> Z -> list cf -> list cf) (cosf sinf : f64 -> f64)
    (junk : Z -> cf) (junkr : Z -> f64) (junki : Z -> Z)
    (dnrows ncols : Z) (d : list cf) (nmax mmax : option Z) : res (Z * Z * list cf) :=
  let nrows := dnrows / 2 + 1 in
  let '(nmax, mmax) := spht_sizes nrows ncols nmax mmax in
  _ <- spht_guard nrows ncols nmax mmax ;;
  if (dnrows <? 1) || (ncols <? 1) then Raise NumpyError
  else
  let fdata := map (fun x => npdiv x (fofZ (dnrows * ncols))) (fft2 dnrows ncols d) in
  fdata <- f_fix_even dnrows ncols fdata ;;
  ext <- f_pad_rows dnrows (dnrows + 2) ncols fdata ;;
  ext <- f_sin_fc (dnrows + 2) ncols ext ;;
  sc <- np_zeros (ncoef nmax mmax) cf0 ;;
  sc <- ff_fc_to_sc cosf sinf junk junkr junki ext (dnrows + 2) ncols sc nmax mmax ;;
  Ok (nmax, mmax, sc).
