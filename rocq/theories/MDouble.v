(** * MDouble: the Fourier tables of the spherical harmonics, and the sums that
    use them, in IEEE double precision (round to nearest, ties to even).

    MPysphi and MCsphi read the same lines over the real numbers.  Here every
    +, -, *, / and sqrt of the source is the binary64 operation of FloatN
    (Coq's SpecFloat), with overflow to infinity, gradual underflow and NaN.
    Python ints and C ints appearing in a float expression are converted by
    [fofZ] where the language converts them.  Not modelled in double
    precision: np.fft (kiss_fft is, in MKissF); the outcome [h] of the FFTs is here an
    arbitrary list of complex doubles (theorems hold for every h). *)
From Coq Require Import ZArith List Bool SpecFloat Permutation.
From Verif Require Import Py Num FloatN MCoefs MPysphi MKiss MCsphi.
Import ListNotations.
Open Scope Z_scope.

Definition fsqrt : f64 -> f64 := SFsqrt 53 1024.

(** np.pi, and the literal 3.14159265358979323846 of csphi.h:57: both the double
    nearest to pi. *)
Definition f_pi : f64 := S754_finite false 7074237752028440 (-51).

(** pysphi.py:56 and csphi.c:55, 1.0 / sqrt(4.0 * pi) *)
Definition f_a : f64 := fdiv (fofZ 1) (fsqrt (fmul (fofZ 4) f_pi)).

(** pysphi.py:68, np.sqrt((2.0 * k + 1.0) / 8.0 / k) *)
Definition f_s (k : Z) : f64 :=
  fsqrt (fdiv (fdiv (fadd (fmul (fofZ 2) (fofZ k)) (fofZ 1)) (fofZ 8)) (fofZ k)).
(** pysphi.py:72, np.sqrt((n + k + 1.0) / (n - k)) *)
Definition f_t (n k : Z) : f64 :=
  fsqrt (fdiv (fadd (fofZ (n + k)) (fofZ 1)) (fofZ (n - k))).

(** pysphi.py:54-73 ynnm *)
Definition f_ynnm (n m : Z) : f64 :=
  let pm := Z.abs m in
  if n <? pm then fofZ 0
  else if n =? 0 then f_a
  else
    let out := pfor (zrange 1 (n + 1)) (fun k out => fmul out (f_s k)) f_a in
    if n =? pm then out
    else pfor (zrange_down (n - 1) (pm - 1)) (fun k out => fmul out (f_t n k)) out.

(** csphi.c:67, sqrt((2.0*k+1)/(8.0*k)) *)
Definition fc_s (k : Z) : f64 :=
  fsqrt (fdiv (fadd (fmul (fofZ 2) (fofZ k)) (fofZ 1)) (fmul (fofZ 8) (fofZ k))).
(** csphi.c:71, sqrt(1.0*(n+k+1.0)/(n-k)) *)
Definition fc_t (n k : Z) : f64 :=
  fsqrt (fdiv (fmul (fofZ 1) (fadd (fofZ (n + k)) (fofZ 1))) (fofZ (n - k))).

(** csphi.c:50-76 ynnm *)
Definition fc_ynnm (n m : Z) : f64 :=
  let pm := Z.abs m in
  if n <? pm then fofZ 0
  else if n =? 0 then f_a
  else
    let y := pfor (zrange 1 (n + 1)) (fun k y => fmul (fc_s k) y) f_a in
    if negb (n =? pm) then pfor (zrange_down (n - 1) (pm - 1)) (fun k y => fmul (fc_t n k) y) y
    else y.

(** pysphi.py:75-98 ynunm *)
Definition f_ynunm (n m L : Z) : res (list f64) :=
  out <- np_zeros L (fofZ 0) ;;
  if Z.abs m <=? n then
    out <- py_set out n (f_ynnm n m) ;;
    let tmp1 k := fmul (fsub (fofZ (n - k)) (fofZ 1)) (fadd (fofZ (n + k)) (fofZ 2)) in
    let tmp2 k := fsub (fmul (fsub (fofZ (n - k)) (fofZ 2)) (fadd (fofZ (n + k)) (fofZ 3)))
                       (fmul (fofZ 4) (fofZ (m ^ 2))) in
    let tmp3 k := fmul (fsub (fofZ (n - k)) (fofZ 3)) (fadd (fofZ (n + k)) (fofZ 4)) in
    let tmp4 k := fmul (fofZ (n - k)) (fadd (fofZ (n + k)) (fofZ 1)) in
    let k := n - 2 in
    if 0 <=? k then
      x2 <- py_get (fofZ 0) out (k + 2) ;;
      out <- py_set out k (fdiv (fmul (fadd (tmp1 k) (tmp2 k)) x2) (tmp4 k)) ;;
      mfor (zrange_down2 (n - 4) (-1)) (fun k out =>
        x2 <- py_get (fofZ 0) out (k + 2) ;;
        x4 <- py_get (fofZ 0) out (k + 4) ;;
        py_set out k (fdiv (fsub (fmul (fadd (tmp1 k) (tmp2 k)) x2) (fmul (tmp3 k) x4)) (tmp4 k))) out
    else Ok out
  else Ok out.

(** csphi.c:37 #define B(n,v) (((n)-(v))*((n)+(v)+1.0)), for a double v and
    for an int v *)
Definition fBd (n : Z) (v : f64) : f64 := fmul (fsub (fofZ n) v) (fadd (fadd (fofZ n) v) (fofZ 1)).
Definition fBi (n v : Z) : f64 := fmul (fofZ (n - v)) (fadd (fofZ (n + v)) (fofZ 1)).
(** csphi.c:101, B(en,k+1.0)+B(en,k+2.0) - 4.0*em*em *)
Definition fc_b (n m k : Z) : f64 :=
  fsub (fadd (fBd n (fadd (fofZ k) (fofZ 1))) (fBd n (fadd (fofZ k) (fofZ 2))))
       (fmul (fmul (fofZ 4) (fofZ m)) (fofZ m)).

(** csphi.c:89-107 ynunm: the contents of y afterwards *)
Definition fc_ynunm (en em : Z) (y : list f64) (len : Z) : res (list f64) :=
  y <- mfor (zrange 0 len) (fun k y => bset y k (fofZ 0)) y ;;
  if Z.abs em <=? en then
    y <- bset y en (fc_ynnm en em) ;;
    let k := en - 2 in
    if 0 <=? k then
      y2 <- bget (fofZ 0) y (k + 2) ;;
      y <- bset y k (fdiv (fmul (fc_b en em k) y2) (fBi en k)) ;;
      mfor (zrange_down2 (k - 2) (-1)) (fun k y =>
        y2 <- bget (fofZ 0) y (k + 2) ;;
        y4 <- bget (fofZ 0) y (k + 4) ;;
        bset y k (fdiv (fsub (fmul (fc_b en em k) y2) (fmul (fBd en (fadd (fofZ k) (fofZ 3))) y4)) (fBi en k))) y
    else Ok y
  else Ok y.

(** ** Complex doubles *)
Definition cf := (f64 * f64)%type.
Definition cf0 : cf := (fofZ 0, fofZ 0).
Definition cfadd (x y : cf) : cf := (fadd (fst x) (fst y), fadd (snd x) (snd y)).
Definition cfmul (x y : cf) : cf :=
  (fsub (fmul (fst x) (fst y)) (fmul (snd x) (snd y)), fadd (fmul (fst x) (snd y)) (fmul (snd x) (fst y))).
(** a real double used as a complex one *)
Definition cfre (x : f64) : cf := (x, fofZ 0).

(** What np.sum may return: numpy adds in blocks, in an order it does not
    specify, possibly starting from zero. *)
Inductive sums : list cf -> cf -> Prop :=
| sums_nil : sums [] cf0
| sums_one x : sums [x] x
| sums_add l1 l2 l x y : sums l1 x -> sums l2 y -> Permutation (l1 ++ l2) l -> sums l (cfadd x y).

(** pysphi.py:176-189, the loop of bnm_vec_fc, given h = hkm_fc(...), a summation
    routine and the value [w] of 1j ** (-m) *)
Definition f_bnm_vec (sum : list cf -> cf) (w : cf) (h : list cf) (Nmax m : Z) : res (list cf) :=
  let absm := Z.abs m in
  out <- np_zeros (Nmax - absm + 1) cf0 ;;
  mfor (zrange absm (Nmax + 1)) (fun n out =>
    ynm <- f_ynunm n m (n + 1) ;;
    h0 <- py_get cf0 h 0 ;;
    y0 <- py_get (fofZ 0) ynm 0 ;;
    out <- py_set out (n - absm) (cfmul (cfmul w h0) (cfre y0)) ;;
    if negb (n =? 0) then
      x <- py_get cf0 out (n - absm) ;;
      hy <- np_broadcast (fun a b => cfmul a (cfre b)) (py_slice h 1 (n + 1)) (py_slice ynm 1 (n + 1)) ;;
      py_set out (n - absm) (cfadd x (cfmul (cfmul w (cfre (fofZ 2))) (sum hy)))
    else Ok out) out.

(** pysphi.py:193-203 fc_to_sc, [hk m] = the h computed for column m *)
Definition f_fc_to_sc (sum : list cf -> cf) (ipw : Z -> cf) (hk : Z -> list cf) (Nmax Mmax : Z) : res (list cf) :=
  c <- f_bnm_vec sum (ipw 0) (hk 0) Nmax 0 ;;
  mfor (zrange 1 (Mmax + 1)) (fun m c =>
    a <- f_bnm_vec sum (ipw m) (hk (- m)) Nmax (- m) ;;
    let c := c ++ a in
    a <- f_bnm_vec sum (ipw (- m)) (hk m) Nmax m ;;
    Ok (c ++ a)) c.

(** pysphi.py:227-249 fcvec_m_sc, with [w] = 1j ** m; (-1) ** m is the Python
    int [sgnpow m] made complex *)
Definition f_fcvec_m_sc (w : cf) (vec : list cf) (m nmax nrows : Z) : res (list cf) :=
  F <- np_zeros nrows cf0 ;;
  let K := nmax + 1 in
  F <- mfor (zrange (Z.abs m) K) (fun n F =>
         ynm <- f_ynunm n m K ;;
         x <- py_get cf0 vec (n - Z.abs m) ;;
         let t := map (fun y => cfmul x (cfre y)) ynm in
         let u := py_slice F 0 K in
         if zlen u =? zlen t then py_slice_set F 0 K (zip_with cfadd u t) else Raise NumpyError) F ;;
  F <- py_slice_set F 0 K (map (fun a => cfmul a w) (py_slice F 0 K)) ;;
  let mm := powm1 m in
  let H := if nrows mod 2 =? 0 then nrows / 2 - 1 else (nrows - 1) / 2 in
  mfor (zrange 0 H) (fun k F =>
    x <- py_get cf0 F (k + 1) ;;
    py_set F (- (k + 1)) (cfmul (cfre (fofZ mm)) x)) F.

(** csphi.c:282-306, the loop of bnm_fc given hkm, vec = sc + off: the contents
    of sc and y afterwards.  pow(-1.0, e) is exact. *)
Definition fc_bnm (hkm : list cf) (Nmax m off Ly : Z) (st : list cf * list f64) : res (list cf * list f64) :=
  let absm := Z.abs m in
  mfor (zrange absm (Nmax + 1)) (fun n (r : list cf * list f64) =>
    let '(sc, y) := r in
    y <- fc_ynunm n m y Ly ;;
    h0 <- bget cf0 hkm 0 ;;
    y0 <- bget (fofZ 0) y 0 ;;
    sc <- bset sc (off + (n - absm)) (fmul (fst h0) y0, fmul (snd h0) y0) ;;
    sc <- mfor (zrange 1 (n + 1)) (fun k sc =>
            hk <- bget cf0 hkm k ;;
            yk <- bget (fofZ 0) y k ;;
            v <- bget cf0 sc (off + (n - absm)) ;;
            bset sc (off + (n - absm))
              (fadd (fst v) (fmul (fmul (fofZ 2) (fst hk)) yk), fadd (snd v) (fmul (fmul (fofZ 2) (snd hk)) yk))) sc ;;
    v <- bget cf0 sc (off + (n - absm)) ;;
    sc <- (if Z.rem absm 2 =? 1 then
             let e := fofZ (powm1 (Z.quot (m - 1) 2)) in
             bset sc (off + (n - absm)) (fmul e (snd v), fmul (SFopp e) (fst v))
           else
             let e := fofZ (powm1 (Z.quot m 2)) in
             bset sc (off + (n - absm)) (fmul e (fst v), fmul e (snd v))) ;;
    Ok (sc, y)) st.

(** csphi.c:327-423 fc_to_sc, [hk m] = the contents of hkm after hkm_fc for
    column m: the contents of sc afterwards *)
Definition fc_fc_to_sc (hk : Z -> list cf) (junkr : Z -> f64) (junki : Z -> Z) (sc : list cf) (Nmax Mmax : Z) : res (list cf) :=
  inds <- c_inds Nmax Mmax junki ;;
  st <- fc_bnm (hk 0) Nmax 0 0 (Nmax + 1) (sc, vmake (Nmax + 1) junkr) ;;
  st <- mfor (zrange 1 (Mmax + 1)) (fun m st =>
          pt <- ibget inds (2 * m - 1) ;;
          st <- fc_bnm (hk (- m)) Nmax (- m) pt (Nmax + 1) st ;;
          pt <- ibget inds (2 * m) ;;
          fc_bnm (hk m) Nmax m pt (Nmax + 1) st) st ;;
  Ok (fst st).

(** csphi.c:438-484 fcvec_m_sc, vec = sc + off: the contents of fdata and y
    afterwards *)
Definition fc_fcvec_m_sc (sc : list cf) (off m Nmax Nrow Ncol M len : Z) (st : list cf * list f64)
    : res (list cf * list f64) :=
  let '(fdata, y) := st in
  let K := Nmax + 1 in
  let absm := Z.abs m in
  r <- mfor (zrange absm (Nmax + 1)) (fun n (r : list cf * list f64) =>
         let '(fdata, y) := r in
         y <- fc_ynunm n m y len ;;
         fdata <- mfor (zrange 0 K) (fun k fdata =>
                    tmp <- bget cf0 fdata (k * Ncol + M) ;;
                    v <- bget cf0 sc (off + (n - absm)) ;;
                    yk <- bget (fofZ 0) y k ;;
                    bset fdata (k * Ncol + M) (fadd (fst tmp) (fmul (fst v) yk), fadd (snd tmp) (fmul (snd v) yk))) fdata ;;
         Ok (fdata, y)) (fdata, y) ;;
  let '(fdata, y) := r in
  fdata <- mfor (zrange 0 K) (fun k fdata =>
             tmp <- bget cf0 fdata (k * Ncol + M) ;;
             if Z.rem (Z.abs m) 2 =? 1 then
               let e := fofZ (powm1 (Z.quot (m - 1) 2)) in
               bset fdata (k * Ncol + M) (fmul (SFopp e) (snd tmp), fmul e (fst tmp))
             else
               let e := fofZ (powm1 (Z.quot m 2)) in
               bset fdata (k * Ncol + M) (fmul e (fst tmp), fmul e (snd tmp))) fdata ;;
  let mm := fofZ (powm1 m) in
  let H := if Z.rem Nrow 2 =? 0 then Z.quot Nrow 2 - 1 else Z.quot (Nrow - 1) 2 in
  fdata <- mfor (zrange 0 H) (fun k fdata =>
             x <- bget cf0 fdata (Ncol * (k + 1) + M) ;;
             bset fdata (Ncol * (Nrow - 1 - k) + M) (fmul mm (fst x), fmul mm (snd x))) fdata ;;
  Ok (fdata, y).
