(** * MTransP: spherepy.py's ispht with the Python backend in double precision.

    The counterpart of MTransF's [f_ispht] for use_cext = False: pysphi.py's
    sc_to_fc on binary64 pairs, with the columns of MDouble.  np.fft.ifft2 and
    the values [ipw m] of 1j ** m are parameters: for |m| > 100 CPython computes
    the power with pow, atan2, cos and sin of the C library. *)
From Coq Require Import ZArith List Bool String SpecFloat.
From Verif Require Import Py FloatN MCoefs MDouble MPysphi MKissF MTransF.
Import ListNotations.
Open Scope string_scope.
Open Scope list_scope.
Open Scope Z_scope.

(** fdata[:, kk] = v, fdata of nr rows and nc columns *)
Definition f_col_set (nr nc : Z) (fdata : list cf) (kk : Z) (v : list cf) : res (list cf) :=
  j <- py_index nc kk ;;
  if zlen v =? nr then Ok (fmake nr nc (fun p q => if q =? j then vget cf0 v p else fget nc fdata p q))
  else Raise NumpyError.

(** pysphi.py:259-261 / 264-266 / 270-272: one column *)
Definition fp_sc_to_fc_col (ipw : Z -> cf) (spvec : list cf) (nmax mmax nrows ncols kk : Z) (fdata : list cf) : res (list cf) :=
  ind <- mindx kk nmax mmax ;;
  let vec := py_slice spvec ind (ind + nmax - Z.abs kk + 1) in
  v <- f_fcvec_m_sc (ipw kk) vec kk nmax nrows ;;
  f_col_set nrows ncols fdata kk v.

(** pysphi.py:251-274 sc_to_fc *)
Definition fp_sc_to_fc (ipw : Z -> cf) (spvec : list cf) (nmax mmax nrows ncols : Z) : res (list cf) :=
  if (nrows <? 0) || (ncols <? 0) then Raise NumpyError
  else
  mfor (zrange 0 (ncols / 2)) (fun k fdata =>
    fdata <- (if k <? mmax then
                fdata <- fp_sc_to_fc_col ipw spvec nmax mmax nrows ncols k fdata ;;
                fp_sc_to_fc_col ipw spvec nmax mmax nrows ncols (- (k + 1)) fdata
              else Ok fdata) ;;
    if k =? mmax then fp_sc_to_fc_col ipw spvec nmax mmax nrows ncols k fdata else Ok fdata)
    (fmake nrows ncols (fun _ _ => cf0)).

(** spherepy.py:2020-2079 ispht without use_cext *)
Definition fp_ispht (ifft2 : Z -> Z -> list cf -> list cf) (ipw : Z -> cf)
    (sc : list cf) (nmax mmax : Z) (nrows ncols : option Z) : res (Z * Z * list cf) :=
  let nrows := match nrows with None => nmax + 2 | Some r => r end in
  let ncols := match ncols with None => 2 * mmax + 2 | Some r => r end in
  if nrows <=? nmax then Raise (ValueError "inverse_terr")
  else if ncols <? 2 * mmax + 2 then Raise (ValueError "inverse_terr")
  else
  let dnrows := 2 * nrows - 2 in
  if ncols mod 2 =? 1 then Raise (ValueError "ncols_even")
  else
  fdata <- fp_sc_to_fc ipw sc nmax mmax dnrows ncols ;;
  if (dnrows <? 1) || (ncols <? 1) then Raise NumpyError
  else
  Ok (dnrows, ncols,
      map (fun x => cfmul (cfmul x (cfre (fofZ dnrows))) (cfre (fofZ ncols))) (ifft2 dnrows ncols fdata)).
