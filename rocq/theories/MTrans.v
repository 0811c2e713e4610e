(** * MTrans: model of the transforms of spherepy/spherepy.py (lines 1831-2182)
    and of sph_harmonic_tp (2221-2246), in exact arithmetic.

    [backend] is what the module-level switch use_cext (spherepy.py:67-69)
    selects: [py_backend] is pysphi; the C backend is defined in MCsphi.v. *)
From Coq Require Import ZArith List String Bool Reals.
From Coquelicot Require Import Complex.
From Verif Require Import Py Num Exact MCoefs MPatt Sums MPysphi MOps.
Import ListNotations.
Open Scope string_scope.
Open Scope list_scope.
Open Scope Z_scope.

(** The two low level routines called by the transforms.
    [be_fc_to_sc fdata nmax mmax]: the coefficient vector (spherepy.py:1893-1898,
    1945-1954: for the C routine the zero vector of NC entries handed to it,
    with the values it stores there).
    [be_sc_to_fc vec nmax mmax dnrows ncols]: the Fourier data
    (spherepy.py:2067-2075, 2115-2131, 2173-2176). *)
Record backend : Type := mkBE {
  be_fc_to_sc : mat RN -> Z -> Z -> res (list C);
  be_sc_to_fc : list C -> Z -> Z -> Z -> Z -> res (mat RN)
}.
Definition py_backend : backend := mkBE py_fc_to_sc py_sc_to_fc.

(** spherepy.py:1862-1866 / 1906-1910: the default values of nmax, mmax *)
Definition spht_sizes (nrows ncols : Z) (nmax mmax : option Z) : Z * Z :=
  match nmax with
  | None => (nrows - 2, ncols / 2 - 1)
  | Some n => match mmax with None => (n, n) | Some m => (n, m) end
  end.

(** spherepy.py:1868-1881 / 1912-1925: the guards.  [nrows] is the visible
    number of rows; mmax >= ncols / 2 is a comparison of floats (true
    division), i.e. 2 mmax >= ncols. *)
Definition spht_guard (nrows ncols nmax mmax : Z) : res unit :=
  if mmax >? nmax then Raise (ValueError "nmax_g_mmax")
  else if nmax >=? nrows - 1 then Raise (ValueError "nmax_too_lrg")
  else if 2 * mmax >=? ncols then Raise (ValueError "mmax_too_lrg")
  else if ncols mod 2 =? 1 then Raise (ValueError "ncols_even")
  else Ok tt.

(** np.fft.fft2(d) / (dnrows * ncols), fix_even_row_data_fc, zero extension by
    two rows (spherepy.py:1883-1888, 1927-1931, 1933-1937, 2007-2012) *)
Definition fft_padded (d : mat RN) : res (mat RN) :=
  let dnrows := mt_nr RN d in
  let ncols := mt_nc RN d in
  f <- np_fft2 d ;;
  let fdata := ew1 (fun x => x / RtoC (IZR (dnrows * ncols)))%C f in
  fdata <- fix_even_row_data_fc fdata ;;
  ext <- np_zeros2 (dnrows + 2) ncols ;;
  pad_rows_fdata fdata ext.

(** spherepy.py:1831-1900 spht *)
Definition spht (be : backend) (d : mat RN) (nmax mmax : option Z) : res (scoefs RN) :=
  let '(nmax, mmax) := spht_sizes (p_nrows RN d) (p_ncols RN d) nmax mmax in
  _ <- spht_guard (p_nrows RN d) (p_ncols RN d) nmax mmax ;;
  f <- fft_padded d ;;
  f <- sin_fc f ;;
  _ <- np_zeros (ncoef nmax mmax) (RtoC 0) ;;
  sc <- be_fc_to_sc be f nmax mmax ;;
  sc_new RN sc nmax mmax.

(** spherepy.py:1958-1961 / 2104-2106: nvec *)
Definition nvec (nmax : Z) : res (list C) :=
  v <- np_zeros (nmax + 1) (RtoC 0) ;;
  mfor (zrange 1 (nmax + 1)) (fun n v => py_set v n (RtoC (1 / sqrt (IZR n * (IZR n + 1))))) v.

(** c.window(v) as a statement: the modified object, or the exception *)
Definition windowed (c : scoefs RN) (v : list C) : res (scoefs RN) :=
  let '(c', r) := sc_window RN c v in _ <- r ;; Ok c'.

(** spherepy.py:1902-1966 vspht *)
Definition vspht (be : backend) (p : tpatt RN) (nmax mmax : option Z) : res (vcoefs RN) :=
  let t := tp_t RN p in
  let '(nmax, mmax) := spht_sizes (p_nrows RN t) (p_ncols RN t) nmax mmax in
  _ <- spht_guard (p_nrows RN t) (p_ncols RN t) nmax mmax ;;
  ft_extended <- fft_padded t ;;
  (* pt is divided by the same dnrows * ncols and padded to the same shape *)
  pt_extended <- fft_padded (tp_p RN p) ;;
  let ftmp := ft_extended in
  let ptmp := pt_extended in
  Lf1 <- sinLdot_fc ft_extended pt_extended ;;
  Lf2 <- sinLdot_fc (ew1 (fun x => - Ci * x)%C ptmp) (ew1 (fun x => Ci * x)%C ftmp) ;;
  sc1 <- be_fc_to_sc be Lf1 nmax mmax ;;
  sc2 <- be_fc_to_sc be Lf2 nmax mmax ;;
  vc <- vc_new RN sc1 sc2 nmax mmax ;;
  v <- nvec nmax ;;
  s1 <- windowed (vc_1 RN vc) v ;;
  s2 <- windowed (vc_2 RN vc) v ;;
  Ok (mkVC RN s1 s2 (vc_nmax RN vc) (vc_mmax RN vc)).

(** spherepy.py:1968-2018 spht_slow *)
Definition spht_slow (d : mat RN) (nmax mmax : Z) : res (scoefs RN) :=
  if mmax >? nmax then Raise (ValueError "nmax_g_mmax")
  else if (mt_nr RN d mod 2 =? 1) || (mt_nc RN d mod 2 =? 1) then Raise (ValueError "ncols_even")
  else
  f <- fft_padded d ;;
  f <- sin_fc f ;;
  sc <- py_fc_to_sc f nmax mmax ;;
  sc_new RN sc nmax mmax.

(** np.fft.ifft2(fdata) * dnrows * ncols (spherepy.py:2077, 2136-2137, 2180) *)
Definition ifft_scaled (f : mat RN) (dnrows ncols : Z) : res (mat RN) :=
  d <- np_ifft2 f ;; Ok (ew1 (fun x => x * RtoC (IZR dnrows) * RtoC (IZR ncols))%C d).

(** spherepy.py:2020-2079 ispht *)
Definition ispht (be : backend) (c : scoefs RN) (nrows ncols : option Z) : res (mat RN) :=
  let nrows := match nrows with None => sc_nmax RN c + 2 | Some r => r end in
  let ncols := match ncols with None => 2 * sc_mmax RN c + 2 | Some r => r end in
  if nrows <=? sc_nmax RN c then Raise (ValueError "inverse_terr")
  else if ncols <? 2 * sc_mmax RN c + 2 then Raise (ValueError "inverse_terr")
  else
  let dnrows := 2 * nrows - 2 in
  if ncols mod 2 =? 1 then Raise (ValueError "ncols_even")
  else
  fdata <- be_sc_to_fc be (sc_vec RN c) (sc_nmax RN c) (sc_mmax RN c) dnrows ncols ;;
  ds <- ifft_scaled fdata dnrows ncols ;;
  sp_new RN ds true.

(** spherepy.py:2081-2139 vispht *)
Definition vispht (be : backend) (vc : vcoefs RN) (nrows ncols : option Z) : res (tpatt RN) :=
  let nrows := match nrows with None => vc_nmax RN vc + 2 | Some r => r end in
  let ncols := match ncols with None => 2 * vc_mmax RN vc + 2 | Some r => r end in
  if nrows <? vc_nmax RN vc + 2 then Raise (ValueError "inverse_terr")
  else if ncols <? 2 * vc_mmax RN vc + 2 then Raise (ValueError "inverse_terr")
  else
  let dnrows := 2 * nrows - 2 in
  if ncols mod 2 =? 1 then Raise (ValueError "ncols_even")
  else
  v <- nvec (vc_nmax RN vc) ;;
  sc1 <- sc_copy RN (vc_1 RN vc) ;;
  sc2 <- sc_copy RN (vc_2 RN vc) ;;
  sc1 <- windowed sc1 v ;;
  sc2 <- windowed sc2 v ;;
  fdata1 <- be_sc_to_fc be (sc_vec RN sc1) (sc_nmax RN sc1) (sc_mmax RN sc1) dnrows ncols ;;
  (* the C branch passes sc1.nmax, sc1.mmax here too; the two objects of a
     VectorCoefs have equal sizes *)
  fdata2 <- be_sc_to_fc be (sc_vec RN sc2) (sc_nmax RN sc2) (sc_mmax RN sc2) dnrows ncols ;;
  f1 <- L_fc fdata1 ;;
  f2 <- L_fc fdata2 ;;
  ftheta <- ew2 (fun a b => a - Ci * b)%C (fst f1) (snd f2) ;;
  fphi <- ew2 (fun a b => a + Ci * b)%C (snd f1) (fst f2) ;;
  dtheta <- ifft_scaled ftheta dnrows ncols ;;
  dphi <- ifft_scaled fphi dnrows ncols ;;
  tp_new RN dtheta dphi true.

(** spherepy.py:2141-2182 ispht_slow *)
Definition ispht_slow (c : scoefs RN) (nrows ncols : Z) : res (mat RN) :=
  let dnrows := 2 * nrows - 2 in
  if ncols mod 2 =? 1 then Raise (ValueError "ncols_even")
  else
  fdata <- py_sc_to_fc (sc_vec RN c) (sc_nmax RN c) (sc_mmax RN c) dnrows ncols ;;
  ds <- ifft_scaled fdata dnrows ncols ;;
  sp_new RN ds true.

(** np.linspace(0, b, num): entry i; num = 1 gives [0] *)
Definition linspace0 (b : R) (num : Z) : list R :=
  vmake num (fun i => if num =? 1 then 0%R else (IZR i * (b / (IZR num - 1)))%R).

(** spherepy.py:2221-2246 sph_harmonic_tp.  np.linspace is called for phi
    without a count: numpy's default is 50 points.  For n < 0 the model
    follows the code only in that no harmonic exists (the arrays are empty and
    the result is the zero table); n >= 0 is the documented domain. *)
Definition sph_harmonic_tp (nrows ncols n m : Z) : res (mat RN) :=
  nuvec <- ynunm n m (n + 1) ;;
  let num := map (fun y => y * IZR (sgnpow m))%R (py_slice nuvec 1 (zlen nuvec)) in
  let yvec := rev num ++ nuvec in
  if nrows <? 0 then Raise NumpyError else
  let theta := linspace0 PI nrows in
  if ncols =? 0 then Raise ZeroDivisionError else
  let phi := linspace0 (2 * PI - 2 * PI / IZR ncols)%R 50 in
  let nu := zrange (- n) (n + 1) in
  out <- np_zeros2 nrows ncols ;;
  mfor (zrange 0 nrows) (fun nn out =>
    th <- py_get 0%R theta nn ;;
    let exp_vec := map (fun k => cisR (IZR k * th)) nu in
    mfor (zrange 0 ncols) (fun mm out =>
      p <- np_broadcast (fun y e => RtoC y * e)%C yvec exp_vec ;;
      let vl := np_sumC p in
      ph <- py_get 0%R phi mm ;;
      Ok (mmake RN nrows ncols (fun a b =>
            if (a =? nn) && (b =? mm) then (ipow m * cisR (IZR m * ph) * vl)%C else cget out a b)))
      out) out.
