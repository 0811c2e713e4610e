(** * MHkmP: spht with the Python backend in double precision.

    The counterpart of MCsphiF and of MTransF's [f_spht] for use_cext = False:
    pysphi.py's s_data, hkm_fc, bnm_vec_fc and fc_to_sc on binary64 pairs, with the
    sums of MDouble.  np.fft.fft, ifft and fft2, np.sum and the values [ipw m] of
    1j ** m are parameters. *)
From Coq Require Import ZArith List Bool String SpecFloat.
From Verif Require Import Py FloatN MCoefs MOps MDouble MPysphi MTrans MKissF MTransF.
Import ListNotations.
Open Scope string_scope.
Open Scope list_scope.
Open Scope Z_scope.

(** -1j / nu.  -1j is the negation of 1j, -0-1j; CPython (complexobject.c, _Py_c_quot)
    divides by nu + 0j in the branch |nu| >= |0|: ratio = 0/nu, denom = nu + 0*ratio *)
Definition fsig_py (nu : Z) : cf :=
  let b := fofZ nu in
  let ratio := fdiv (fofZ 0) b in
  let denom := fadd b (fmul (fofZ 0) ratio) in
  let mz := S754_zero true in
  (fdiv (fadd mz (fmul (fofZ (-1)) ratio)) denom, fdiv (fsub (fofZ (-1)) (fmul mz ratio)) denom).

(** pysphi.py:121-147 s_data *)
Definition fp_s_data (nrows_fdata Nmax Q : Z) : res (list cf) :=
  if nrows_fdata mod 2 =? 1 then Raise (PlainException "nrows_fdata must be even.")
  else
    let L1 := nrows_fdata in
    s <- np_zeros Q cf0 ;;
    let MM := L1 / 2 in
    mfor (zrange (- MM) (MM + Nmax + 1)) (fun nu s =>
      if nu mod 2 =? 1 then py_set s (nu - MM) (fsig_py nu) else Ok s) s.

(** pysphi.py:149-169 hkm_fc, fdata of nr rows and nc columns; 4 * np.pi * v
    multiplies by the double 4.0 * np.pi made complex *)
Definition fp_hkm_fc (fft ifft : list cf -> list cf) (nr nc : Z) (fdata : list cf) (Nmax m : Z) (s : list cf) : res (list cf) :=
  j <- py_index nc m ;;
  let f := vmake nr (fun i => fget nc fdata i j) in
  let L1 := zlen f in
  let MM := L1 / 2 in
  let Q := zlen s in
  ff <- np_zeros Q cf0 ;;
  ff <- mfor (zrange MM L1) (fun n ff =>
          x <- py_get cf0 f (n - MM) ;; py_set ff n x) ff ;;
  ff <- mfor (zrange 0 MM) (fun n ff =>
          x <- py_get cf0 f (n + MM) ;; py_set ff n x) ff ;;
  if zlen ff <? 1 then Raise NumpyError else
  let F := fft ff in
  let S := fft s in
  FS <- np_broadcast cfmul F S ;;
  Ok (py_slice (map (cfmul (cfre (fmul (fofZ 4) f_pi))) (ifft FS)) 0 (Nmax + 1)).

(** pysphi.py:171-191 bnm_vec_fc; [sum] is np.sum, [ipw m] the value of 1j ** m *)
Definition fp_bnm_vec_fc (sum : list cf -> cf) (ipw : Z -> cf) (fft ifft : list cf -> list cf)
    (nr nc : Z) (fdata : list cf) (Nmax m : Z) : res (list cf) :=
  Q <- smallest_prime_factor (nr + Nmax) ;;
  s <- fp_s_data nr Nmax Q ;;
  h <- fp_hkm_fc fft ifft nr nc fdata Nmax m s ;;
  f_bnm_vec sum (ipw (- m)) h Nmax m.

(** pysphi.py:193-203 fc_to_sc *)
Definition fp_fc_to_sc (sum : list cf -> cf) (ipw : Z -> cf) (fft ifft : list cf -> list cf)
    (nr nc : Z) (gcoef : list cf) (Nmax Mmax : Z) : res (list cf) :=
  c <- fp_bnm_vec_fc sum ipw fft ifft nr nc gcoef Nmax 0 ;;
  mfor (zrange 1 (Mmax + 1)) (fun m c =>
    a <- fp_bnm_vec_fc sum ipw fft ifft nr nc gcoef Nmax (- m) ;;
    let c := c ++ a in
    a <- fp_bnm_vec_fc sum ipw fft ifft nr nc gcoef Nmax m ;;
    Ok (c ++ a)) c.

(** spherepy.py:1831-1900 spht for a double sphere array d of dnrows rows and
    ncols columns, without use_cext: nmax, mmax and the coefficients.  The array
    sc of zeros the code makes first is replaced; np.zeros raises for a negative size. *)
Definition fp_spht (fft2 : Z -> Z -> list cf -> list cf) (sum : list cf -> cf) (ipw : Z -> cf) (fft ifft : list cf -> list cf)
    (dnrows ncols : Z) (d : list cf) (nmax mmax : option Z) : res (Z * Z * list cf) :=
  let nrows := dnrows / 2 + 1 in
  let '(nmax, mmax) := spht_sizes nrows ncols nmax mmax in
  _ <- spht_guard nrows ncols nmax mmax ;;
  if (dnrows <? 1) || (ncols <? 1) then Raise NumpyError
  else
  let fdata := map (fun x => npdiv x (fofZ (dnrows * ncols))) (fft2 dnrows ncols d) in
  fdata <- f_fix_even dnrows ncols fdata ;;
  ext <- f_pad_rows dnrows (dnrows + 2) ncols fdata ;;
  ext <- f_sin_fc (dnrows + 2) ncols ext ;;
  _ <- np_zeros (ncoef nmax mmax) cf0 ;;
  sc <- fp_fc_to_sc sum ipw fft ifft (dnrows + 2) ncols ext nmax mmax ;;
  Ok (nmax, mmax, sc).
