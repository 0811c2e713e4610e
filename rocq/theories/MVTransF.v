(** * MVTransF: spherepy.py's vispht in double precision, with either backend.

    The counterpart of MTrans' [vispht] on binary64 numbers: the normalisation
    of MVecF, the Fourier sums of MTransF (C backend) or MTransP (Python
    backend), [f_L_fc] of MOpsF, and np.fft.ifft2 as a parameter. *)
From Coq Require Import ZArith List Bool String SpecFloat.
From Verif Require Import Py Num FloatN MCoefs MPysphi MDouble MKissF MTransF MTransP MOpsF MVecF.
Import ListNotations.
Open Scope string_scope.
Open Scope list_scope.
Open Scope Z_scope.

(** np.fft.ifft2(f) * dnrows * ncols (spherepy.py:2136-2137) *)
Definition f_ifft_scaled (ifft2 : Z -> Z -> list cf -> list cf) (dnrows ncols : Z) (f : list cf) : list cf :=
  map (fun x => cfmul (cfmul x (cfre (fofZ dnrows))) (cfre (fofZ ncols))) (ifft2 dnrows ncols f).

(** spherepy.py:2081-2139 vispht of the object with components v1, v2 (sizes
    nmax, mmax); [s2f vec nmax mmax dnrows ncols] is the sc_to_fc of the
    backend.  The result: the shape and the two double sphere arrays.  The
    copies sc1, sc2 of the components are fresh objects, so the windows do not
    touch the argument.  np.fft refuses arrays with a zero dimension. *)
Definition f_vispht (s2f : list cf -> Z -> Z -> Z -> Z -> res (list cf)) (ifft2 : Z -> Z -> list cf -> list cf)
    (v1 v2 : scoefs FN) (nmax mmax : Z) (nrows ncols : option Z) : res (Z * Z * (list cf * list cf)) :=
  let nrows := match nrows with None => nmax + 2 | Some r => r end in
  let ncols := match ncols with None => 2 * mmax + 2 | Some r => r end in
  if nrows <? nmax + 2 then Raise (ValueError "inverse_terr")
  else if ncols <? 2 * mmax + 2 then Raise (ValueError "inverse_terr")
  else
  let dnrows := 2 * nrows - 2 in
  if ncols mod 2 =? 1 then Raise (ValueError "ncols_even")
  else
  sc1 <- f_normalise v1 nmax ;;
  sc2 <- f_normalise v2 nmax ;;
  fdata1 <- s2f (sc_vec FN sc1) (sc_nmax FN sc1) (sc_mmax FN sc1) dnrows ncols ;;
  fdata2 <- s2f (sc_vec FN sc2) (sc_nmax FN sc2) (sc_mmax FN sc2) dnrows ncols ;;
  f1 <- f_L_fc dnrows ncols fdata1 ;;
  f2 <- f_L_fc dnrows ncols fdata2 ;;
  let ftheta := fmake dnrows ncols (fun p q => cfsubk (fget ncols (fst f1) p q) (cfmul f_1j (fget ncols (snd f2) p q))) in
  let fphi := fmake dnrows ncols (fun p q => cfadd (fget ncols (snd f1) p q) (cfmul f_1j (fget ncols (fst f2) p q))) in
  if (dnrows <? 1) || (ncols <? 1) then Raise NumpyError
  else
  Ok (dnrows, ncols, (f_ifft_scaled ifft2 dnrows ncols ftheta, f_ifft_scaled ifft2 dnrows ncols fphi)).

(** spherepy.py:2113-2119: csphi.sc_to_fc on a zeroed array.  (The second call
    passes sc1.nmax, sc1.mmax; the two components have the same sizes.) *)
Definition c_s2f (junkr : Z -> f64) (junki : Z -> Z) (sc : list cf) (nmax mmax dnrows ncols : Z) : res (list cf) :=
  fdata <- np_zeros (dnrows * ncols) cf0 ;;
  ff_sc_to_fc junkr junki fdata dnrows ncols sc nmax mmax.
(** spherepy.py:2121-2128: pysphi.sc_to_fc *)
Definition p_s2f (ipw : Z -> cf) (sc : list cf) (nmax mmax dnrows ncols : Z) : res (list cf) :=
  fp_sc_to_fc ipw sc nmax mmax dnrows ncols.
