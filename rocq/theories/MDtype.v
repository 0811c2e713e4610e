(** * MDtype: storage types of the coefficient arrays, and the SWIG wrapper
    src/csphi_wrap.c between spherepy.py and csphi.c.

    The other files treat every array as an array of complex numbers.  Here a
    ScalarCoefs carries the layout of its array [_vec] (element type,
    dimensions, contiguity, byte order) and the class of its nmax and mmax
    (Python int or numpy integer), and the operations of spherepy.py are
    given with numpy's rules for the type of their result.

    numpy's rules that are used (numpy is outside /repo):
    - a new array made by + - * / or np.abs is contiguous and in native byte
      order; the element type of + - * is the larger operand type in
      int64 < float64 < complex128 (a Python number counts with its own
      class), / of two integer arrays gives float64, np.abs of complex128
      gives float64;
    - np.copy keeps the element type and byte order and gives a contiguous
      array;
    - a[i] = x with a Python complex x raises TypeError unless a is
      complex128; a Python float is truncated in an int64 array;
    - a[i:j] = v with an array v converts each element: the imaginary part
      (to float64) and the fraction (to int64) are dropped. *)
From Coq Require Import ZArith List String Bool Reals.
From Coquelicot Require Import Complex.
From Verif Require Import Py Num Exact MCoefs MPatt Sums MPysphi MOps MTrans MKiss MCsphi MCint.
Import ListNotations.
Open Scope string_scope.
Open Scope list_scope.
Open Scope Z_scope.

Inductive dtype : Type := DInt | DFloat | DComplex.   (* int64, float64, complex128 *)
Record layout : Type := mkLay { l_dt : dtype; l_ndim : Z; l_contig : bool; l_native : bool }.
(** an array just made by numpy *)
Definition fresh (dt : dtype) (nd : Z) : layout := mkLay dt nd true true.

Definition djoin (a b : dtype) : dtype :=
  match a, b with
  | DComplex, _ | _, DComplex => DComplex
  | DFloat, _ | _, DFloat => DFloat
  | DInt, DInt => DInt
  end.
Definition op_dtype (o : binop) (a b : dtype) : dtype :=
  match o, djoin a b with
  | OpDiv, DInt => DFloat
  | _, d => d
  end.

(** A Python number, with its class *)
Inductive pynum : Type := NInt (z : Z) | NFloat (x : R) | NComplex (z : C).
Definition num_dtype (x : pynum) : dtype := match x with NInt _ => DInt | NFloat _ => DFloat | NComplex _ => DComplex end.
Definition num_val (x : pynum) : C := match x with NInt z => RtoC (IZR z) | NFloat r => RtoC r | NComplex z => z end.

(** truncation towards zero *)
Definition rtrunc (x : R) : Z := if Rle_dec 0 x then Int_part x else (- Int_part (- x))%Z.
(** the value stored when z is converted to the element type *)
Definition cast (d : dtype) (z : C) : C :=
  match d with
  | DComplex => z
  | DFloat => RtoC (fst z)
  | DInt => RtoC (IZR (rtrunc (fst z)))
  end.

(** ** ScalarCoefs *)

(** class of nmax, mmax: Python int, or numpy integer *)
Inductive ikind : Type := KPy | KNp.
Record tcoefs : Type := mkTC { tc_lay : layout; tc_kn : ikind; tc_km : ikind; tc_c : scoefs RN }.
Definition tc_dt (t : tcoefs) : dtype := l_dt (tc_lay t).

(** The values of an array are values of its element type. *)
Definition fits (d : dtype) (z : C) : Prop :=
  match d with
  | DComplex => True
  | DFloat => snd z = 0%R
  | DInt => exists k, z = RtoC (IZR k)
  end.

(** spherepy.py:542-562, 576-625: c1 op c2 and c op x *)
Definition t_op (o : binop) (a b : tcoefs) : res tcoefs :=
  c <- sc_op_left RN o (tc_c a) (OpndSC RN (tc_c b)) ;;
  Ok (mkTC (fresh (op_dtype o (tc_dt a) (tc_dt b)) 1) (tc_kn a) (tc_km a) c).
Definition t_op_num (o : binop) (a : tcoefs) (x : pynum) : res tcoefs :=
  c <- sc_op_left RN o (tc_c a) (OpndNum RN (num_val x)) ;;
  Ok (mkTC (fresh (op_dtype o (tc_dt a) (num_dtype x)) 1) (tc_kn a) (tc_km a) c).
(** spherepy.py:564-574, 580-634: x op c *)
Definition t_op_num_r (o : binop) (x : pynum) (a : tcoefs) : res tcoefs :=
  c <- sc_op_right RN o (tc_c a) (OpndNum RN (num_val x)) ;;
  Ok (mkTC (fresh (op_dtype o (num_dtype x) (tc_dt a)) 1) (tc_kn a) (tc_km a) c).

(** spherepy.py:1701-1707 abs of a ScalarCoefs; 1709-1713 and 1723-1727: mag2
    and mag do the same *)
Definition abs_dtype (d : dtype) : dtype := match d with DComplex => DFloat | d => d end.
Definition t_abs (a : tcoefs) : res tcoefs :=
  r <- sp_abs RN (OSC RN (tc_c a)) ;;
  match r with
  | MCoef c => Ok (mkTC (fresh (abs_dtype (tc_dt a)) 1) (tc_kn a) (tc_km a) c)
  | MArr _ => Raise (TypeError "uknown_typ")
  end.

(** spherepy.py:234-244 copy *)
Definition t_copy (a : tcoefs) : res tcoefs :=
  c <- sc_copy RN (tc_c a) ;;
  Ok (mkTC (mkLay (tc_dt a) (l_ndim (tc_lay a)) true (l_native (tc_lay a))) (tc_kn a) (tc_km a) c).

(** spherepy.py:502-536 c[0:k, :]: always np.zeros(.., complex128); new_nmax is
    the Python int k, new_mmax is k or self.mmax *)
Definition t_trunc (a : tcoefs) (k : Z) : res tcoefs :=
  c <- sc_trunc RN (tc_c a) k ;;
  Ok (mkTC (fresh DComplex 1) KPy (if k >? sc_mmax RN (tc_c a) then tc_km a else KPy) c).

(** spherepy.py:421-434 c[n, m] = x, x a Python number *)
Definition t_set_elem (a : tcoefs) (n m : Z) (x : pynum) : res tcoefs :=
  i <- sc_elem_index RN (tc_c a) n m ;;
  match num_dtype x, tc_dt a with
  | DComplex, DInt | DComplex, DFloat =>
      _ <- py_set (sc_vec RN (tc_c a)) i (RtoC 0) ;;   (* the position is checked first *)
      Raise (TypeError "can't convert complex to float")
  | _, _ =>
      c <- sc_set_elem RN (tc_c a) n m (cast (tc_dt a) (num_val x)) ;;
      Ok (mkTC (tc_lay a) (tc_kn a) (tc_km a) c)
  end.

(** spherepy.py:375-395 c[:, m] = v, v a 1-D array *)
Definition t_set_col (a : tcoefs) (m : Z) (v : list C) : tcoefs * res unit :=
  let '(c, r) := sc_set_col RN (tc_c a) m (VArr (map (cast (tc_dt a)) v)) in
  (mkTC (tc_lay a) (tc_kn a) (tc_km a) c, r).

(** spherepy.py:245-269 window(w) *)
Definition t_window_col (m : Z) (w : list C) (a : tcoefs) : tcoefs * res unit :=
  match (col <- sc_get_col RN (tc_c a) m ;; np_broadcast (cmul RN) col w) with
  | Raise e => (a, Raise e)
  | Ok p => t_set_col a m p
  end.
Definition t_window (a : tcoefs) (vec : list C) : tcoefs * res unit :=
  seq_unit (t_window_col 0 vec a) (fun a =>
    sfor (zrange 1 (sc_mmax RN (tc_c a) + 1))
      (fun m a =>
         let w := py_slice vec m (zlen vec) in
         seq_unit (t_window_col (- m) w a) (fun a => t_window_col m w a))
      a).

(** a mutating call as a step of a program *)
Definition after (x : tcoefs * res unit) : res tcoefs := _ <- snd x ;; Ok (fst x).

(** spherepy.py:1411-1415, 1458-1462, 1507-1513 zeros_coefs, ones_coefs,
    random_coefs (scalar): dtype=complex128, or the sum of a float and an
    imaginary array; nmax and mmax are the caller's objects *)
Definition t_factory (f : Z -> C) (kn km : ikind) (nmax mmax : Z) : res tcoefs :=
  r <- coefs_factory RN f f nmax mmax 0 ;;
  match r with
  | AnyS c => Ok (mkTC (fresh DComplex 1) kn km c)
  | AnyV _ => Raise (TypeError "ukn_coef_t")
  end.

(** ** The SWIG wrapper *)

(** csphi_wrap.c:3234-3262 obj_to_array_no_conversion, 3439-3455
    require_dimensions, 3406-3417 require_contiguous, 3422-3434 require_native,
    in the order of 4179-4181 *)
Definition inplace_array (nd : Z) (l : layout) : res unit :=
  match l_dt l with
  | DComplex =>
      if negb (l_ndim l =? nd) then Raise (TypeError "Array must have dimensions")
      else if negb (l_contig l) then Raise (TypeError "Array must be contiguous")
      else if negb (l_native l) then Raise (TypeError "Array must have native byteorder")
      else Ok tt
  | _ => Raise (TypeError "Array of type 'complex double' required")
  end.

(** csphi_wrap.c:3062-3114 SWIG_AsVal_long, SWIG_AsVal_int (Python 3; without
    SWIG_PYTHON_CAST_MODE): a numpy integer is not a Python int; a Python int
    that is not a C int gives OverflowError *)
Definition swig_int (k : ikind) (z : Z) : res Z :=
  match k with
  | KNp => Raise (TypeError "in method, argument of type 'int'")
  | KPy => if (INT_MIN <=? z) && (z <=? INT_MAX) then Ok z else Raise (PlainException "OverflowError")
  end.

(** (int) array_size(..): the low 32 bits (csphi_wrap.c:4183-4184) *)
Definition to_int (z : Z) : Z := (z + 2 ^ 31) mod 2 ^ 32 - 2 ^ 31.

(** csphi_wrap.c:4156-4211 _wrap_fc_to_sc: the contents of sc afterwards *)
Definition w_fc_to_sc (junk : Z -> C) (junkr : Z -> R) (junki : Z -> Z)
    (lf : layout) (f : mat RN) (ls : layout) (sc : list C) (kn : ikind) (nmax : Z) (km : ikind) (mmax : Z) : res (list C) :=
  _ <- inplace_array 2 lf ;;
  _ <- inplace_array 1 ls ;;
  n <- swig_int kn nmax ;;
  m <- swig_int km mmax ;;
  x_fc_to_sc junk junkr junki (mt_dat RN f) (to_int (mt_nr RN f)) (to_int (mt_nc RN f)) sc n m.

(** csphi_wrap.c:4286-4341 _wrap_sc_to_fc: the contents of fdata afterwards *)
Definition w_sc_to_fc (junkr : Z -> R) (junki : Z -> Z)
    (lf : layout) (f : mat RN) (ls : layout) (sc : list C) (kn : ikind) (nmax : Z) (km : ikind) (mmax : Z) : res (list C) :=
  _ <- inplace_array 2 lf ;;
  _ <- inplace_array 1 ls ;;
  n <- swig_int kn nmax ;;
  m <- swig_int km mmax ;;
  x_sc_to_fc junkr junki (mt_dat RN f) (to_int (mt_nr RN f)) (to_int (mt_nc RN f)) sc n m.

(** spherepy.py:1831-1900 spht with use_cext true.  A size argument is given
    with its class; those computed by default are Python ints. *)
Definition w_sizes (nrows ncols : Z) (nmax mmax : option (ikind * Z)) : (ikind * Z) * (ikind * Z) :=
  match nmax with
  | None => ((KPy, nrows - 2), (KPy, ncols / 2 - 1))
  | Some n => match mmax with None => (n, n) | Some m => (n, m) end
  end.
Definition w_spht (junk : Z -> C) (junkr : Z -> R) (junki : Z -> Z) (d : mat RN) (nmax mmax : option (ikind * Z)) : res tcoefs :=
  let '((kn, nmax), (km, mmax)) := w_sizes (p_nrows RN d) (p_ncols RN d) nmax mmax in
  _ <- spht_guard (p_nrows RN d) (p_ncols RN d) nmax mmax ;;
  f <- fft_padded d ;;
  f <- sin_fc f ;;
  sc <- np_zeros (ncoef nmax mmax) (RtoC 0) ;;
  v <- w_fc_to_sc junk junkr junki (fresh DComplex 2) f (fresh DComplex 1) sc kn nmax km mmax ;;
  c <- sc_new RN v nmax mmax ;;
  Ok (mkTC (fresh DComplex 1) kn km c).
(** the same with use_cext false *)
Definition p_spht (d : mat RN) (nmax mmax : option (ikind * Z)) : res tcoefs :=
  let '((kn, n), (km, m)) := w_sizes (p_nrows RN d) (p_ncols RN d) nmax mmax in
  c <- spht py_backend d (option_map snd nmax) (option_map snd mmax) ;;
  Ok (mkTC (fresh DComplex 1) kn km c).

(** The call for the Fourier coefficients in ispht (spherepy.py:2068-2075) and
    vispht (2113-2129), by the value of use_cext.  With the C extension _vec goes to
    the wrapper as it is; pysphi.sc_to_fc reads the entries of _vec one by one
    and computes in complex128, whatever their type. *)
Definition w_s2f (junkr : Z -> R) (junki : Z -> Z) (t : tcoefs) (dnrows ncols : Z) : res (mat RN) :=
  let c := tc_c t in
  fdata <- np_zeros2 dnrows ncols ;;
  d <- w_sc_to_fc junkr junki (fresh DComplex 2) fdata (tc_lay t) (sc_vec RN c) (tc_kn t) (sc_nmax RN c) (tc_km t) (sc_mmax RN c) ;;
  Ok (mkMat RN dnrows ncols d).
Definition p_s2f (t : tcoefs) (dnrows ncols : Z) : res (mat RN) :=
  py_sc_to_fc (sc_vec RN (tc_c t)) (sc_nmax RN (tc_c t)) (sc_mmax RN (tc_c t)) dnrows ncols.

(** spherepy.py:2020-2079 ispht *)
Definition t_ispht (s2f : tcoefs -> Z -> Z -> res (mat RN)) (t : tcoefs) (nrows ncols : option Z) : res (mat RN) :=
  let c := tc_c t in
  let nrows := match nrows with None => sc_nmax RN c + 2 | Some r => r end in
  let ncols := match ncols with None => 2 * sc_mmax RN c + 2 | Some r => r end in
  if nrows <=? sc_nmax RN c then Raise (ValueError "inverse_terr")
  else if ncols <? 2 * sc_mmax RN c + 2 then Raise (ValueError "inverse_terr")
  else
  let dnrows := 2 * nrows - 2 in
  if ncols mod 2 =? 1 then Raise (ValueError "ncols_even")
  else
  fdata <- s2f t dnrows ncols ;;
  ds <- ifft_scaled fdata dnrows ncols ;;
  sp_new RN ds true.
Definition w_ispht (junkr : Z -> R) (junki : Z -> Z) := t_ispht (w_s2f junkr junki).
Definition p_ispht := t_ispht p_s2f.

(** ** VectorCoefs: two ScalarCoefs of equal nmax, mmax (the same objects) *)
Record tvcoefs : Type := mkTV { tv_lay1 : layout; tv_lay2 : layout; tv_kn : ikind; tv_km : ikind; tv_c : vcoefs RN }.
Definition tv_1 (t : tvcoefs) : tcoefs := mkTC (tv_lay1 t) (tv_kn t) (tv_km t) (vc_1 RN (tv_c t)).
Definition tv_2 (t : tvcoefs) : tcoefs := mkTC (tv_lay2 t) (tv_kn t) (tv_km t) (vc_2 RN (tv_c t)).

(** spherepy.py:2081-2139 vispht.  nvec is complex128 with real entries *)
Definition t_vispht (s2f : tcoefs -> Z -> Z -> res (mat RN)) (t : tvcoefs) (nrows ncols : option Z) : res (tpatt RN) :=
  let vc := tv_c t in
  let nrows := match nrows with None => vc_nmax RN vc + 2 | Some r => r end in
  let ncols := match ncols with None => 2 * vc_mmax RN vc + 2 | Some r => r end in
  if nrows <? vc_nmax RN vc + 2 then Raise (ValueError "inverse_terr")
  else if ncols <? 2 * vc_mmax RN vc + 2 then Raise (ValueError "inverse_terr")
  else
  let dnrows := 2 * nrows - 2 in
  if ncols mod 2 =? 1 then Raise (ValueError "ncols_even")
  else
  v <- nvec (vc_nmax RN vc) ;;
  sc1 <- t_copy (tv_1 t) ;;
  sc2 <- t_copy (tv_2 t) ;;
  sc1 <- after (t_window sc1 v) ;;
  sc2 <- after (t_window sc2 v) ;;
  fdata1 <- s2f sc1 dnrows ncols ;;
  fdata2 <- s2f sc2 dnrows ncols ;;
  f1 <- L_fc fdata1 ;;
  f2 <- L_fc fdata2 ;;
  ftheta <- ew2 (fun a b => a - Ci * b)%C (fst f1) (snd f2) ;;
  fphi <- ew2 (fun a b => a + Ci * b)%C (snd f1) (fst f2) ;;
  dtheta <- ifft_scaled ftheta dnrows ncols ;;
  dphi <- ifft_scaled fphi dnrows ncols ;;
  tp_new RN dtheta dphi true.
Definition w_vispht (junkr : Z -> R) (junki : Z -> Z) := t_vispht (w_s2f junkr junki).
Definition p_vispht := t_vispht p_s2f.

(** ** Expressions: how a program can come by a ScalarCoefs *)
Inductive texpr : Type :=
| TGiven (t : tcoefs)                    (* ScalarCoefs(vec, nmax, mmax) of the caller's array *)
| TFactory (f : Z -> C) (kn km : ikind) (nmax mmax : Z)
| TSpht (d : mat RN) (nmax mmax : option (ikind * Z))
| TOp (o : binop) (a b : texpr)
| TOpNum (o : binop) (a : texpr) (x : pynum)
| TOpNumR (o : binop) (x : pynum) (a : texpr)
| TAbs (a : texpr)
| TCopy (a : texpr)
| TTrunc (a : texpr) (k : Z)
| TSetElem (a : texpr) (n m : Z) (x : pynum)
| TSetCol (a : texpr) (m : Z) (v : list C)
| TWindow (a : texpr) (w : list C).
Fixpoint teval (e : texpr) : res tcoefs :=
  match e with
  | TGiven t => Ok t
  | TFactory f kn km nmax mmax => t_factory f kn km nmax mmax
  | TSpht d nmax mmax => p_spht d nmax mmax
  | TOp o a b => a <- teval a ;; b <- teval b ;; t_op o a b
  | TOpNum o a x => a <- teval a ;; t_op_num o a x
  | TOpNumR o x a => a <- teval a ;; t_op_num_r o x a
  | TAbs a => a <- teval a ;; t_abs a
  | TCopy a => a <- teval a ;; t_copy a
  | TTrunc a k => a <- teval a ;; t_trunc a k
  | TSetElem a n m x => a <- teval a ;; t_set_elem a n m x
  | TSetCol a m v => a <- teval a ;; after (t_set_col a m v)
  | TWindow a w => a <- teval a ;; after (t_window a w)
  end.
