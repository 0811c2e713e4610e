(** * MPlot: model of spherepy/plot_sphere.py

    Drawing by matplotlib is not modelled; what is modelled is everything the
    module computes and hands to matplotlib: each routine returns the list of
    drawing calls it makes.  Colours, line widths and the calls that only
    create figures (plt.figure, add_subplot, colorbar) are left out.  Values are
    exact reals; np.inf is [None] in the arrays of [plot_coefs]. *)
From Coq Require Import ZArith List String Bool Reals.
From Coquelicot Require Import Coquelicot.
From Verif Require Import Py Num Exact MCoefs MPatt MPysphi MTrans.
Import ListNotations.
Open Scope Z_scope.

(** A real 2-D array, row-major. *)
Record rarr : Type := mkRA { ra_nr : Z; ra_nc : Z; ra_dat : list R }.
Definition raget (a : rarr) (i j : Z) : R := vget 0%R (ra_dat a) (i * ra_nc a + j).
Definition ramake (nr nc : Z) (f : Z -> Z -> R) : rarr :=
  mkRA nr nc (vmake (nr * nc) (fun k => f (k / nc) (k mod nc))).

(** The calls made on matplotlib. *)
Inductive draw : Type :=
| DSurface (x y z : rarr)                              (* ax.plot_surface *)
| DPoint (x y z : R)                                   (* ax.plot([x],[y],[z],'w') *)
| DMesh (x y z : rarr) (vmin vmax : R)                 (* plt.pcolormesh *)
| DLine (x : list R) (y : list (option R))             (* plt.plot *)
| DAxis (x0 x1 y0 y1 : R)                              (* plt.axis *)
| DTitle (s : string) | DXLabel (s : string) | DYLabel (s : string) | DZLabel (s : string)
| DShow.

(** a.max(), a.min() *)
Definition np_max (l : list R) : res R :=
  match l with [] => Raise (ValueError "zero-size array to reduction operation") | x :: l => Ok (fold_left Rmax l x) end.
Definition np_min (l : list R) : res R :=
  match l with [] => Raise (ValueError "zero-size array to reduction operation") | x :: l => Ok (fold_left Rmin l x) end.

(** np.mgrid[-1:2:2, -1:2:2, -1:2:2] flattened: the three sign patterns *)
Definition mgrid0 : list R := [-1; -1; -1; -1; 1; 1; 1; 1]%R.
Definition mgrid1 : list R := [-1; -1; 1; 1; -1; -1; 1; 1]%R.
Definition mgrid2 : list R := [-1; 1; -1; 1; -1; 1; -1; 1]%R.

Fixpoint zip3 (a b c : list R) : list (R * R * R) :=
  match a, b, c with x :: a, y :: b, z :: c => (x, y, z) :: zip3 a b c | _, _, _ => [] end.

(** plot_sphere.py:91-127 (and the same text at 134-173): from the magnitudes T
    of an nrows x ncols grid to the surface and its bounding box.  np.linspace
    raises for a negative number of points, which a shape never is.  numpy
    would broadcast if T's shape were not (nrows, ncols); the model raises. *)
Definition sphere_surface (T : rarr) (nrows ncols : Z) : res (list draw) :=
  let lphi := linspace0 (2 * PI) (ncols + 1) in
  let ltheta := linspace0 PI nrows in
  if ra_nc T <=? 0 then Raise IndexError else
  let T1 := ramake (ra_nr T) (ra_nc T + 1) (fun i j => if j <? ra_nc T then raget T i j else raget T i 0) in
  if negb ((ra_nr T1 =? nrows) && (ra_nc T1 =? ncols + 1)) then Raise NumpyError else
  let phi j := vget 0%R lphi j in
  let theta i := vget 0%R ltheta i in
  let X := ramake nrows (ncols + 1) (fun i j => raget T1 i j * cos (phi j) * sin (theta i))%R in
  let Y := ramake nrows (ncols + 1) (fun i j => raget T1 i j * sin (phi j) * sin (theta i))%R in
  let Z := ramake nrows (ncols + 1) (fun i j => raget T1 i j * cos (theta i))%R in
  xM <- np_max (ra_dat X) ;; xm <- np_min (ra_dat X) ;;
  yM <- np_max (ra_dat Y) ;; ym <- np_min (ra_dat Y) ;;
  zM <- np_max (ra_dat Z) ;; zm <- np_min (ra_dat Z) ;;
  max_range <- np_max [xM - xm; yM - ym; zM - zm]%R ;;
  let Xb := map (fun g => 0.5 * max_range * g + 0.5 * (xM + xm))%R mgrid0 in
  let Yb := map (fun g => 0.5 * max_range * g + 0.5 * (yM + ym))%R mgrid1 in
  let Zb := map (fun g => 0.5 * max_range * g + 0.5 * (zM + zm))%R mgrid2 in
  Ok ([DSurface X Y Z] ++ map (fun p => DPoint (fst (fst p)) (snd (fst p)) (snd p)) (zip3 Xb Yb Zb) ++
      [DXLabel "X"; DYLabel "Y"; DZLabel "Z"; DShow]).

(** plot_sphere.py:62-72 matplotlibensure (an ImportError is raised) *)
Definition matplotlibensure (installed : bool) (f : res (list draw)) : res (list draw) :=
  if installed then f else Raise (PlainException "ImportError").

(** plot_sphere.py:88-127 plot_mag_on_sphere *)
Definition plot_mag_on_sphere (installed : bool) (T : rarr) : res (list draw) :=
  matplotlibensure installed (sphere_surface T (ra_nr T) (ra_nc T)).

(** the real array of moduli that np.abs / sp.mag return (the model of mag
    returns a complex array with zero imaginary parts) *)
Definition re_arr (a : mat RN) : rarr := mkRA (mt_nr RN a) (mt_nc RN a) (map fst (mt_dat RN a)).

(** plot_sphere.py:129-173 plot_sphere_mag.  For coefficients mag succeeds and
    patt.nrows is then an AttributeError; 2*np.pi/ncols (delta, unused) is a
    ZeroDivisionError when ncols = 0. *)
Definition plot_sphere_mag (installed : bool) (patt : sobj RN) : res (list draw) :=
  matplotlibensure installed (
    T <- sp_mag RN patt ;;
    match T, patt with
    | MArr T, OSP d =>
        if p_ncols RN d =? 0 then Raise ZeroDivisionError else sphere_surface (re_arr T) (p_nrows RN d) (p_ncols RN d)
    | MArr T, OTP v =>
        if p_ncols RN (tp_t RN v) =? 0 then Raise ZeroDivisionError
        else sphere_surface (re_arr T) (p_nrows RN (tp_t RN v)) (p_ncols RN (tp_t RN v))
    | _, _ => Raise (AttributeError "nrows")
    end).

(** plot_sphere.py:78-86 simple_plot *)
Definition simple_plot (installed : bool) (be : backend) (n m : Z) : res (list draw) :=
  matplotlibensure installed (
    c <- zeros_coefs RN 48 48 0 ;;
    match c with
    | AnyS c =>
        let '(c, r) := sc_setitem RN c (STuple [IInt n; IInt m]) (VNum (RtoC 1)) in
        _ <- r ;;
        p <- ispht be c (Some 100) (Some 100) ;;
        plot_mag_on_sphere installed (re_arr (mmap1 RN (habs RN) (p_array RN p)))
    | AnyV _ => Raise (TypeError "unreachable")
    end).

(** plot_sphere.py:175-196 pcolor_coefs.  For VectorCoefs _array_2d_repr returns
    a pair of arrays, np.abs makes a 3-D array of it and np.concatenate with
    the 2-D row raises ValueError. *)
Definition pcolor_coefs (installed : bool) (coefs : anycoefs RN) : res (list draw) :=
  matplotlibensure installed (
    match coefs with
    | AnyS c =>
        A <- sc_array_2d RN c ;;
        let mmax := sc_mmax RN c in let nmax := sc_nmax RN c in
        let z := re_arr (mmap1 RN (habs RN) A) in
        if negb (ra_nc z =? 2 * mmax + 1) then Raise (ValueError "concatenate") else
        let z := ramake (ra_nr z + 1) (ra_nc z) (fun i j => if i <? ra_nr z then raget z i j else 0%R) in
        if negb (ra_nr z =? nmax + 2) then Raise (ValueError "concatenate") else
        let z := ramake (ra_nr z) (ra_nc z + 1) (fun i j => if j <? ra_nc z then raget z i j else 0%R) in
        z_min <- np_min (ra_dat z) ;; z_max <- np_max (ra_dat z) ;;
        let xs := map (fun m => IZR m - 0.5)%R (zrange (- mmax) (mmax + 2)) in
        let ys := map (fun n => IZR n - 0.5)%R (zrange 0 (nmax + 2)) in
        let x := ramake (zlen ys) (zlen xs) (fun i j => vget 0%R xs j) in
        let y := ramake (zlen ys) (zlen xs) (fun i j => vget 0%R ys i) in
        x0 <- np_min (ra_dat x) ;; x1 <- np_max (ra_dat x) ;; y0 <- np_min (ra_dat y) ;; y1 <- np_max (ra_dat y) ;;
        Ok [DMesh x y z z_min z_max; DTitle "Spherical Coefficients"; DXLabel "m"; DYLabel "n"; DAxis x0 x1 y0 y1; DShow]
    | AnyV v =>
        _ <- sc_array_2d RN (vc_1 RN v) ;; _ <- sc_array_2d RN (vc_2 RN v) ;; Raise (ValueError "concatenate")
    end).

(** plot_sphere.py:198-219 plot_coefs; entries are [None] for np.inf.  For
    VectorCoefs z is a tuple: the first assignment of the loop (n = 0, m = 1)
    is a TypeError; without one np.concatenate raises ValueError. *)
Definition plot_coefs (installed : bool) (coefs : anycoefs RN) : res (list draw) :=
  matplotlibensure installed (
    match coefs with
    | AnyS c =>
        A <- sc_array_2d RN c ;;
        let mmax := sc_mmax RN c in let nmax := sc_nmax RN c in
        let nr := mt_nr RN A in let nc := mt_nc RN A in
        let z := vmake (nr * nc) (fun k => Some (vget (RtoC 0) (mt_dat RN A) k)) in
        z <- mfor (zrange 0 (nmax + 1)) (fun n z =>
               mfor (zrange 1 (mmax + 1)) (fun m z =>
                 if Z.abs m >? n then Ok (vset (vset z (n * nc + (m + mmax)) None) (n * nc + (- m + mmax)) None)
                 else Ok z) z) z ;;
        if negb (nc =? 2 * mmax + 1) then Raise (ValueError "concatenate") else
        let z := z ++ vmake (2 * mmax + 1) (fun _ => Some (RtoC 0)) in
        let az := map (option_map Cmod) z in
        let xs := map IZR (zrange 0 (nmax + 2)) in
        Ok (map (fun j => DLine xs (vmake (nr + 1) (fun i => vget (Some 0%R) az (i * nc + j)))) (zrange 0 nc) ++
            [DXLabel "m"; DShow])
    | AnyV v =>
        _ <- sc_array_2d RN (vc_1 RN v) ;; _ <- sc_array_2d RN (vc_2 RN v) ;;
        if (0 <=? vc_nmax RN v) && (1 <=? vc_mmax RN v) then Raise (TypeError "tuple") else Raise (ValueError "concatenate")
    end).
