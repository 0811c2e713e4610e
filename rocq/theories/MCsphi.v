(** * MCsphi: model of src/csphi.c, in exact arithmetic (SFLOAT is R, SCOMPLEX
    is Coquelicot's C as a pair (r, i), int is Z without wrap around), over
    bounds-checked buffers (MKiss.v: an access outside a buffer gives
    [OutOfBounds]).  C's integer / and % are Z.quot and Z.rem.  A pointer into
    a buffer is an offset.  malloc is assumed to succeed and returns memory
    with arbitrary contents [junk]. *)
From Coq Require Import ZArith List String Bool Reals.
From Coquelicot Require Import Complex.
From Verif Require Import Py Num Exact MCoefs MPatt Sums MPysphi MOps MTrans MKiss.
Import ListNotations.
Open Scope list_scope.
Open Scope Z_scope.

Definition rbget : list R -> Z -> res R := bget 0%R.
Definition ibget : list Z -> Z -> res Z := bget 0.
(** memset(buf, 0, n * sizeof) *)
Definition cfill {A} (z : A) (buf : list A) (n : Z) : res (list A) :=
  mfor (zrange 0 n) (fun k b => bset b k z) buf.
(** pow(-1.0, e) for an integer e *)
Definition powm1 (e : Z) : Z := if Z.even e then 1 else -1.

(** csphi.c:37 #define B(n,v) *)
Definition Bm (n v : R) : R := ((n - v) * (n + v + 1))%R.

(** csphi.c:50-75 ynnm *)
Definition c_ynnm (n m : Z) : R :=
  let a := (1 / sqrt (4 * PI))%R in
  let pm := Z.abs m in
  if n <? pm then 0%R
  else if n =? 0 then a
  else
    let y := pfor (zrange 1 (n + 1)) (fun k y => sqrt ((2 * IZR k + 1) / (8 * IZR k)) * y)%R a in
    if negb (n =? pm) then
      pfor (zrange_down (n - 1) (pm - 1))
        (fun k y => sqrt (1 * (IZR n + IZR k + 1) / IZR (n - k)) * y)%R y
    else y.

(** csphi.c:89-107 ynunm: the contents of y afterwards *)
Definition c_ynunm (en em : Z) (y : list R) (len : Z) : res (list R) :=
  y <- mfor (zrange 0 len) (fun k y => bset y k 0%R) y ;;
  if Z.abs em <=? en then
    y <- bset y en (c_ynnm en em) ;;
    let k := en - 2 in
    if 0 <=? k then
      y2 <- rbget y (k + 2) ;;
      y <- bset y k ((Bm (IZR en) (IZR k + 1) + Bm (IZR en) (IZR k + 2) - 4 * IZR em * IZR em) * y2 / Bm (IZR en) (IZR k))%R ;;
      mfor (zrange_down2 (k - 2) (-1)) (fun k y =>
        y2 <- rbget y (k + 2) ;;
        y4 <- rbget y (k + 4) ;;
        bset y k (((Bm (IZR en) (IZR k + 1) + Bm (IZR en) (IZR k + 2) - 4 * IZR em * IZR em) * y2
                   - Bm (IZR en) (IZR k + 3) * y4) / Bm (IZR en) (IZR k))%R) y
    else Ok y
  else Ok y.

(** csphi.c:116-139 FindQ.  [fuel]: iterations of the while loop. *)
Fixpoint findq_loop (fuel : nat) (A Q : Z) : res Z :=
  match fuel with
  | O => Raise OutOfFuel
  | S fuel =>
      if A =? 1 then Ok Q
      else if Z.rem A 2 =? 0 then findq_loop fuel (Z.quot A 2) Q
      else if Z.rem A 3 =? 0 then findq_loop fuel (Z.quot A 3) Q
      else if Z.rem A 5 =? 0 then findq_loop fuel (Z.quot A 5) Q
      else findq_loop fuel (Q + 1) (Q + 1)
  end.
Definition FindQ (S : Z) : res Z := findq_loop (spf_fuel S) S S.

(** csphi.c:149-166 SData; s[j].i = x *)
Definition set_im (s : list C) (j : Z) (x : R) : res (list C) :=
  v <- cbget s j ;; bset s j (fst v, x).
Definition SData (s : list C) (Q Nrows Nmax : Z) : res (list C) :=
  let nn := Nmax + 1 in
  s <- cfill (RtoC 0) s Q ;;
  let mm := Z.quot Nrows 2 in
  s <- mfor (zrange mm (mm + nn - 1 + 1)) (fun k s =>
         if Z.rem k 2 =? 1 then set_im s (k - mm) (-1 / IZR k)%R else Ok s) s ;;
  mfor (zrange (- mm) mm) (fun k s =>
    if Z.rem (Z.abs k) 2 =? 1 then set_im s (Q + k - mm) (-1 / IZR k)%R else Ok s) s.

(** csphi.c:188-238 hkm_fc: the contents of hkm and ff afterwards *)
Definition c_hkm_fc (junk : Z -> C) (gcoef : list C) (Nrow Ncol n m : Z) (hkm : list C) (len : Z)
    (ss : list C) (Q : Z) (ff : list C) (fw bw : kcfg) : res (list C * list C) :=
  ff <- cfill (RtoC 0) ff Q ;;
  hkm <- cfill (RtoC 0) hkm len ;;
  let ind := if 0 <=? m then m else Ncol + m in
  let mm := Z.quot Nrow 2 in
  ff <- mfor (zrange 0 mm) (fun k ff =>
          x <- cbget gcoef (Ncol * (mm + k) + ind) ;;
          ff <- bset ff k x ;;
          x <- cbget gcoef (Ncol * k + ind) ;;
          bset ff (mm + k) x) ff ;;
  ff <- kiss_fft_inplace junk fw ff ;;
  ff <- mfor (zrange 0 Q) (fun k ff =>
          f <- cbget ff k ;;
          s <- cbget ss k ;;
          bset ff k (fst s * fst f - snd s * snd f, fst s * snd f + snd s * fst f)%R) ff ;;
  ff <- kiss_fft_inplace junk bw ff ;;
  hkm <- mfor (zrange 0 len) (fun k hkm =>
           f <- cbget ff k ;;
           bset hkm k (4 * PI * fst f / IZR Q, 4 * PI * snd f / IZR Q)%R) hkm ;;
  Ok (hkm, ff).

(** csphi.c:262-312 bnm_fc, vec = sc + off: the contents of sc, ff, hkm, y
    afterwards *)
Definition c_bnm_fc (junk : Z -> C) (fdata : list C) (Nrow Ncol Nmax m : Z) (off : Z)
    (ss : list C) (Q : Z) (Lhkm Ly : Z) (fw bw : kcfg) (st : list C * list C * list C * list R)
    : res (list C * list C * list C * list R) :=
  let '(sc, ff, hkm, y) := st in
  let absm := Z.abs m in
  h <- c_hkm_fc junk fdata Nrow Ncol Nmax m hkm Lhkm ss Q ff fw bw ;;
  let '(hkm, ff) := h in
  r <- mfor (zrange absm (Nmax + 1)) (fun n (r : list C * list R) =>
         let '(sc, y) := r in
         y <- c_ynunm n m y Ly ;;
         h0 <- cbget hkm 0 ;;
         y0 <- rbget y 0 ;;
         sc <- bset sc (off + (n - absm)) (fst h0 * y0, snd h0 * y0)%R ;;
         sc <- mfor (zrange 1 (n + 1)) (fun k sc =>
                 hk <- cbget hkm k ;;
                 yk <- rbget y k ;;
                 v <- cbget sc (off + (n - absm)) ;;
                 bset sc (off + (n - absm)) (fst v + 2 * fst hk * yk, snd v + 2 * snd hk * yk)%R) sc ;;
         v <- cbget sc (off + (n - absm)) ;;
         sc <- (if Z.rem absm 2 =? 1 then
                  let e := IZR (powm1 (Z.quot (m - 1) 2)) in
                  bset sc (off + (n - absm)) (e * snd v, - e * fst v)%R
                else
                  let e := IZR (powm1 (Z.quot m 2)) in
                  bset sc (off + (n - absm)) (e * fst v, e * snd v)%R) ;;
         Ok (sc, y)) (sc, y) ;;
  let '(sc, y) := r in
  Ok (sc, ff, hkm, y).

(** csphi.c:363-377 and 514-529: the table inds *)
Definition c_inds (Nmax Mmax : Z) (junki : Z -> Z) : res (list Z) :=
  inds <- cfill 0 (vmake (2 * Mmax + 1) junki) (2 * Mmax + 1) ;;
  inds <- bset inds 0 0 ;;
  r <- mfor (zrange 1 (Mmax + 1)) (fun m (r : list Z * Z * Z) =>
         let '(inds, N, QQ) := r in
         inds <- bset inds (2 * m - 1) N ;;
         let N := N + QQ in
         inds <- bset inds (2 * m) N ;;
         let N := N + QQ in
         Ok (inds, N, QQ - 1)) (inds, Nmax + 1, Nmax) ;;
  Ok (fst (fst r)).

(** csphi.c:327-423 fc_to_sc: the contents of sc afterwards *)
Definition c_fc_to_sc (junk : Z -> C) (junkr : Z -> R) (junki : Z -> Z)
    (fdata : list C) (Nrow Ncol : Z) (sc : list C) (Nmax Mmax : Z) : res (list C) :=
  Q <- FindQ (Nrow + Nmax) ;;
  s <- SData (vmake Q junk) Q Nrow Nmax ;;
  fw <- kiss_fft_alloc Q false ;;
  bw <- kiss_fft_alloc Q true ;;
  s <- kiss_fft_inplace junk fw s ;;
  let hkm := vmake (Nmax + 1) junk in
  let y := vmake (Nmax + 1) junkr in
  let ff := vmake Q junk in
  inds <- c_inds Nmax Mmax junki ;;
  st <- c_bnm_fc junk fdata Nrow Ncol Nmax 0 0 s Q (Nmax + 1) (Nmax + 1) fw bw (sc, ff, hkm, y) ;;
  st <- mfor (zrange 1 (Mmax + 1)) (fun m st =>
          pt <- ibget inds (2 * m - 1) ;;
          st <- c_bnm_fc junk fdata Nrow Ncol Nmax (- m) pt s Q (Nmax + 1) (Nmax + 1) fw bw st ;;
          pt <- ibget inds (2 * m) ;;
          c_bnm_fc junk fdata Nrow Ncol Nmax m pt s Q (Nmax + 1) (Nmax + 1) fw bw st) st ;;
  let '(sc, _, _, _) := st in
  Ok sc.

(** csphi.c:438-500 fcvec_m_sc, vec = sc + off: the contents of fdata and y
    afterwards *)
Definition c_fcvec_m_sc (sc : list C) (off m Nmax Nrow Ncol M len : Z) (st : list C * list R)
    : res (list C * list R) :=
  let '(fdata, y) := st in
  let K := Nmax + 1 in
  let absm := Z.abs m in
  r <- mfor (zrange absm (Nmax + 1)) (fun n (r : list C * list R) =>
         let '(fdata, y) := r in
         y <- c_ynunm n m y len ;;
         fdata <- mfor (zrange 0 K) (fun k fdata =>
                    tmp <- cbget fdata (k * Ncol + M) ;;
                    v <- cbget sc (off + (n - absm)) ;;
                    yk <- rbget y k ;;
                    bset fdata (k * Ncol + M) (fst tmp + fst v * yk, snd tmp + snd v * yk)%R) fdata ;;
         Ok (fdata, y)) (fdata, y) ;;
  let '(fdata, y) := r in
  fdata <- mfor (zrange 0 K) (fun k fdata =>
             tmp <- cbget fdata (k * Ncol + M) ;;
             if Z.rem (Z.abs m) 2 =? 1 then
               let e := IZR (powm1 (Z.quot (m - 1) 2)) in
               bset fdata (k * Ncol + M) (- e * snd tmp, e * fst tmp)%R
             else
               let e := IZR (powm1 (Z.quot m 2)) in
               bset fdata (k * Ncol + M) (e * fst tmp, e * snd tmp)%R) fdata ;;
  let mm := IZR (powm1 m) in
  let H := if Z.rem Nrow 2 =? 0 then Z.quot Nrow 2 - 1 else Z.quot (Nrow - 1) 2 in
  fdata <- mfor (zrange 0 H) (fun k fdata =>
             x <- cbget fdata (Ncol * (k + 1) + M) ;;
             bset fdata (Ncol * (Nrow - 1 - k) + M) (mm * fst x, mm * snd x)%R) fdata ;;
  Ok (fdata, y).

(** csphi.c:513-567 sc_to_fc: the contents of fdata afterwards *)
Definition c_sc_to_fc (junkr : Z -> R) (junki : Z -> Z)
    (fdata : list C) (Nrow Ncol : Z) (sc : list C) (Nmax Mmax : Z) : res (list C) :=
  let y := vmake (Nmax + 1) junkr in
  inds <- c_inds Nmax Mmax junki ;;
  r <- mfor (zrange 0 (Z.quot Ncol 2 + 1)) (fun k (r : list C * list R) =>
         if k <? Mmax then
           pt <- ibget inds (2 * k) ;;
           r <- c_fcvec_m_sc sc pt k Nmax Nrow Ncol k (Nmax + 1) r ;;
           pt <- ibget inds (2 * (k + 1) - 1) ;;
           c_fcvec_m_sc sc pt (- (k + 1)) Nmax Nrow Ncol (Ncol - 1 - k) (Nmax + 1) r
         else if k =? Mmax then
           pt <- ibget inds (2 * k) ;;
           c_fcvec_m_sc sc pt k Nmax Nrow Ncol k (Nmax + 1) r
         else Ok r) (fdata, y) ;;
  Ok (fst r).

(** The calls from spherepy.py through the SWIG wrapper (src/csphi.i: arrays
    passed in place, row-major): spherepy.py:1890-1896 / 1946-1951 and
    2069-2070 / 2114-2119. *)
Definition c_backend (junk : Z -> C) (junkr : Z -> R) (junki : Z -> Z) : backend :=
  mkBE (fun fdata nmax mmax =>
          sc <- np_zeros (ncoef nmax mmax) (RtoC 0) ;;
          c_fc_to_sc junk junkr junki (mt_dat RN fdata) (mt_nr RN fdata) (mt_nc RN fdata) sc nmax mmax)
       (fun vec nmax mmax dnrows ncols =>
          fdata <- np_zeros2 dnrows ncols ;;
          d <- c_sc_to_fc junkr junki (mt_dat RN fdata) dnrows ncols vec nmax mmax ;;
          Ok (mkMat RN dnrows ncols d)).

(** spherepy.py:67-69: use_cext is the JSON value of pkg_info.json (a string
    there: "True"); [if use_cext:] tests Python truth. *)
Inductive json_switch : Type := JBool (b : bool) | JStr (s : string) | JNull | JNum (z : Z).
Definition truthy (j : json_switch) : bool :=
  match j with
  | JBool b => b
  | JStr s => negb (String.eqb s "")
  | JNull => false
  | JNum z => negb (z =? 0)
  end.
Definition backend_of (use_cext : json_switch) (junk : Z -> C) (junkr : Z -> R) (junki : Z -> Z) : backend :=
  if truthy use_cext then c_backend junk junkr junki else py_backend.
