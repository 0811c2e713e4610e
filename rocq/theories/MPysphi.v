(** * MPysphi: model of spherepy/pysphi.py (whole file except mindx, which is
    in MCoefs.v), in exact arithmetic: Python floats / float64 are reals,
    complex128 are Coquelicot complex numbers.  2-D arrays are [mat RN].
    np.fft.* is numpy, not repo code: it is modelled by the defining DFT sums. *)
From Coq Require Import ZArith List String Bool Reals.
From Coquelicot Require Import Complex.
From Verif Require Import Py Num Exact MCoefs Sums.
Import ListNotations.
Open Scope string_scope.
Open Scope list_scope.
Open Scope Z_scope.

(** a[i, j] *)
Definition cget (a : mat RN) (i j : Z) : C := mget RN a i j.

(** ** numpy primitives used below *)

(** np.exp(1j * t) *)
Definition cisR (t : R) : C := (cos t, sin t).
(** exp(2 pi i k / n) *)
Definition root (n k : Z) : C := cisR (2 * PI * IZR k / IZR n).
(** np.fft.fft of a 1-D array (numpy raises on an empty array) *)
Definition np_fft (l : list C) : res (list C) :=
  let n := zlen l in
  if n <? 1 then Raise NumpyError
  else Ok (vmake n (fun k => sumC 0 n (fun j => vget (RtoC 0) l j * root n (- (j * k))))%C).
(** np.fft.ifft *)
Definition np_ifft (l : list C) : res (list C) :=
  let n := zlen l in
  if n <? 1 then Raise NumpyError
  else Ok (vmake n (fun k => RtoC (/ IZR n) * sumC 0 n (fun j => vget (RtoC 0) l j * root n (j * k)))%C).
(** np.fft.fft2 / np.fft.ifft2 of a 2-D array (numpy raises when a dimension is 0) *)
Definition np_fft2 (a : mat RN) : res (mat RN) :=
  let nr := mt_nr RN a in let nc := mt_nc RN a in
  if (nr <? 1) || (nc <? 1) then Raise NumpyError
  else Ok (mmake RN nr nc (fun p q =>
    sumC 0 nr (fun i => sumC 0 nc (fun j => cget a i j * root nr (- (i * p)) * root nc (- (j * q)))))%C).
Definition np_ifft2 (a : mat RN) : res (mat RN) :=
  let nr := mt_nr RN a in let nc := mt_nc RN a in
  if (nr <? 1) || (nc <? 1) then Raise NumpyError
  else Ok (mmake RN nr nc (fun p q =>
    RtoC (/ (IZR nr * IZR nc)) *
    sumC 0 nr (fun i => sumC 0 nc (fun j => cget a i j * root nr (i * p) * root nc (j * q))))%C).
(** np.zeros(n) and np.zeros([nr, nc]) *)
Definition np_zeros {A} (n : Z) (z : A) : res (list A) :=
  if n <? 0 then Raise NumpyError else Ok (vmake n (fun _ => z)).
Definition np_zeros2 (nr nc : Z) : res (mat RN) :=
  if (nr <? 0) || (nc <? 0) then Raise NumpyError else Ok (mmake RN nr nc (fun _ _ => RtoC 0)).
(** a[:, m] (read) *)
Definition col_get (a : mat RN) (m : Z) : res (list C) :=
  j <- py_index (mt_nc RN a) m ;; Ok (vmake (mt_nr RN a) (fun i => cget a i j)).
(** a[:, m] = v *)
Definition col_set (a : mat RN) (m : Z) (v : list C) : res (mat RN) :=
  j <- py_index (mt_nc RN a) m ;; mset_col RN a 0 (mt_nr RN a) j v.
(** np.sum *)
Definition np_sumC (l : list C) : C := fold_right Cplus (RtoC 0) l.
(** 1j ** m *)
Definition ipow (m : Z) : C := cipow RN m.

(** ** pysphi.py *)

(** pysphi.py:54-73 ynnm *)
Definition ynnm (n m : Z) : R :=
  let a := (1 / sqrt (4 * PI))%R in
  let pm := Z.abs m in
  if n <? pm then 0%R
  else if n =? 0 then a
  else
    let out := pfor (zrange 1 (n + 1))
                 (fun k out => out * sqrt ((2 * IZR k + 1) / 8 / IZR k))%R a in
    if n =? pm then out
    else pfor (zrange_down (n - 1) (pm - 1))
           (fun k out => out * sqrt ((IZR n + IZR k + 1) / (IZR n - IZR k)))%R out.

(** pysphi.py:75-98 ynunm *)
Definition ynunm (n m L : Z) : res (list R) :=
  out <- np_zeros L 0%R ;;
  if Z.abs m <=? n then
    out <- py_set out n (ynnm n m) ;;
    let k := n - 2 in
    if 0 <=? k then
      let tmp1 := ((IZR n - IZR k - 1) * (IZR n + IZR k + 2))%R in
      let tmp2 := ((IZR n - IZR k - 2) * (IZR n + IZR k + 3) - 4 * IZR (m ^ 2))%R in
      let tmp4 := ((IZR n - IZR k) * (IZR n + IZR k + 1))%R in
      x2 <- py_get 0%R out (k + 2) ;;
      out <- py_set out k ((tmp1 + tmp2) * x2 / tmp4)%R ;;
      mfor (zrange_down2 (n - 4) (-1)) (fun k out =>
        let tmp1 := ((IZR n - IZR k - 1) * (IZR n + IZR k + 2))%R in
        let tmp2 := ((IZR n - IZR k - 2) * (IZR n + IZR k + 3) - 4 * IZR (m ^ 2))%R in
        let tmp3 := ((IZR n - IZR k - 3) * (IZR n + IZR k + 4))%R in
        let tmp4 := ((IZR n - IZR k) * (IZR n + IZR k + 1))%R in
        x2 <- py_get 0%R out (k + 2) ;;
        x4 <- py_get 0%R out (k + 4) ;;
        py_set out k (((tmp1 + tmp2) * x2 - tmp3 * x4) / tmp4)%R) out
    else Ok out
  else Ok out.

(** pysphi.py:101-119 smallest_prime_factor.  The Python floats produced by
    A / 2 etc. are exact there (integers below 2^53) and are modelled by
    integers.  [fuel]: number of loop iterations. *)
Fixpoint spf_loop (fuel : nat) (A Q : Z) : res Z :=
  match fuel with
  | O => Raise OutOfFuel
  | S fuel =>
      if A =? 1 then Ok Q
      else if A mod 2 =? 0 then spf_loop fuel (A / 2) Q
      else if A mod 3 =? 0 then spf_loop fuel (A / 3) Q
      else if A mod 5 =? 0 then spf_loop fuel (A / 5) Q
      else if A mod 7 =? 0 then spf_loop fuel (A / 7) Q
      else spf_loop fuel (Q + 1) (Q + 1)
  end.
(** The loop needs at most (Q + 1) rounds of at most log2 (2Q) + 2 steps
    (theorem C35): this fuel never runs out for Q >= 1. *)
Definition spf_fuel (Q : Z) : nat := Z.to_nat ((Q + 1) * (Z.log2 (2 * Q) + 3)).
Definition smallest_prime_factor (Q : Z) : res Z := spf_loop (spf_fuel Q) Q Q.

(** pysphi.py:121-147 s_data.  np.mod(nu, 2) == 1 for odd nu of either sign. *)
Definition s_data (nrows_fdata Nmax Q : Z) : res (list C) :=
  if nrows_fdata mod 2 =? 1 then Raise (PlainException "nrows_fdata must be even.")
  else
    let L1 := nrows_fdata in
    s <- np_zeros Q (RtoC 0) ;;
    let MM := L1 / 2 in
    mfor (zrange (- MM) (MM + Nmax + 1)) (fun nu s =>
      if nu mod 2 =? 1 then py_set s (nu - MM) (- Ci / RtoC (IZR nu))%C else Ok s) s.

(** pysphi.py:149-169 hkm_fc *)
Definition hkm_fc (fdata : mat RN) (Nmax m : Z) (s : list C) : res (list C) :=
  f <- col_get fdata m ;;
  let L1 := zlen f in
  let MM := L1 / 2 in
  let Q := zlen s in
  ff <- np_zeros Q (RtoC 0) ;;
  ff <- mfor (zrange MM L1) (fun n ff =>
          x <- py_get (RtoC 0) f (n - MM) ;; py_set ff n x) ff ;;
  ff <- mfor (zrange 0 MM) (fun n ff =>
          x <- py_get (RtoC 0) f (n + MM) ;; py_set ff n x) ff ;;
  F <- np_fft ff ;;
  S <- np_fft s ;;
  FS <- np_broadcast Cmult F S ;;
  o <- np_ifft FS ;;
  Ok (py_slice (map (Cmult (RtoC (4 * PI))) o) 0 (Nmax + 1)).

(** pysphi.py:171-191 bnm_vec_fc *)
Definition bnm_vec_fc (fdata : mat RN) (Nmax m : Z) : res (list C) :=
  let nrows := mt_nr RN fdata in
  Q <- smallest_prime_factor (nrows + Nmax) ;;
  s <- s_data nrows Nmax Q ;;
  h <- hkm_fc fdata Nmax m s ;;
  let absm := Z.abs m in
  out <- np_zeros (Nmax - absm + 1) (RtoC 0) ;;
  mfor (zrange absm (Nmax + 1)) (fun n out =>
    ynm <- ynunm n m (n + 1) ;;
    h0 <- py_get (RtoC 0) h 0 ;;
    y0 <- py_get 0%R ynm 0 ;;
    out <- py_set out (n - absm) (ipow (- m) * h0 * RtoC y0)%C ;;
    if negb (n =? 0) then
      x <- py_get (RtoC 0) out (n - absm) ;;
      hy <- np_broadcast (fun a b => a * RtoC b)%C (py_slice h 1 (n + 1)) (py_slice ynm 1 (n + 1)) ;;
      py_set out (n - absm) (x + ipow (- m) * RtoC 2 * np_sumC hy)%C
    else Ok out) out.

(** pysphi.py:193-203 fc_to_sc *)
Definition py_fc_to_sc (gcoef : mat RN) (Nmax Mmax : Z) : res (list C) :=
  c <- bnm_vec_fc gcoef Nmax 0 ;;
  mfor (zrange 1 (Mmax + 1)) (fun m c =>
    a <- bnm_vec_fc gcoef Nmax (- m) ;;
    let c := c ++ a in
    a <- bnm_vec_fc gcoef Nmax m ;;
    Ok (c ++ a)) c.

(** v[0:b] += w  (numpy: w must broadcast to the shape of the slice) *)
Definition slice_iadd (v : list C) (b : Z) (w : list C) : res (list C) :=
  let u := py_slice v 0 b in
  if zlen u =? zlen w then py_slice_set v 0 b (zip_with Cplus u w)
  else match w with
       | [x] => py_slice_set v 0 b (map (fun a => a + x)%C u)
       | _ => Raise NumpyError
       end.

(** pysphi.py:227-249 fcvec_m_sc.  H: nrows/2 - 1 or (nrows-1)/2, both floors
    ([int] truncates: only -1.0 at nrows = 0, the same). *)
Definition fcvec_m_sc (vec : list C) (m nmax nrows : Z) : res (list C) :=
  F <- np_zeros nrows (RtoC 0) ;;
  let K := nmax + 1 in
  F <- mfor (zrange (Z.abs m) K) (fun n F =>
         ynm <- ynunm n m K ;;
         x <- py_get (RtoC 0) vec (n - Z.abs m) ;;
         slice_iadd F (nmax + 1) (map (fun y => x * RtoC y)%C ynm)) F ;;
  F <- py_slice_set F 0 K (map (fun a => a * ipow m)%C (py_slice F 0 K)) ;;
  let mm := sgnpow m in
  let H := if nrows mod 2 =? 0 then nrows / 2 - 1 else (nrows - 1) / 2 in
  mfor (zrange 0 H) (fun k F =>
    x <- py_get (RtoC 0) F (k + 1) ;;
    py_set F (- (k + 1)) (RtoC (IZR mm) * x)%C) F.

(** One assignment of sc_to_fc: pysphi.py:258-261, 263-266, 269-272 *)
Definition sc_to_fc_col (spvec : list C) (nmax mmax nrows kk : Z) (fdata : mat RN) : res (mat RN) :=
  ind <- mindx kk nmax mmax ;;
  let vec := py_slice spvec ind (ind + nmax - Z.abs kk + 1) in
  v <- fcvec_m_sc vec kk nmax nrows ;;
  col_set fdata kk v.

(** pysphi.py:251-274 sc_to_fc *)
Definition py_sc_to_fc (spvec : list C) (nmax mmax nrows ncols : Z) : res (mat RN) :=
  fdata <- np_zeros2 nrows ncols ;;
  mfor (zrange 0 (ncols / 2)) (fun k fdata =>
    fdata <- (if k <? mmax then
                fdata <- sc_to_fc_col spvec nmax mmax nrows k fdata ;;
                sc_to_fc_col spvec nmax mmax nrows (- (k + 1)) fdata
              else Ok fdata) ;;
    if k =? mmax then sc_to_fc_col spvec nmax mmax nrows k fdata else Ok fdata) fdata.
