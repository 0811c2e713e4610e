(** * MCint: src/csphi.c and src/kiss_fft.c once more, with the C type int.

    The same functions as in MCsphi.v and MKiss.v (prefix x_), statement by
    statement, but every value of type int that the C code computes passes
    [ck], which gives [Raise IntOverflow] when it does not fit in 32 bits
    (undefined behaviour for + - * and unary - of int; implementation-defined
    for the one conversion from size_t to int, in kf_bfly_generic).  A loop
    variable of a loop [k <= e] is incremented once beyond e and that of a
    loop [k >= e; k--] is decremented once below e; both pass [ck] too.
    size_t and pointers are 64 bit wide and do not wrap for any object that
    fits in memory; they are not checked.  int arguments of the functions
    are assumed to be ints.

    kf_factor computes floor(sqrt((double) n)) in IEEE binary64
    ([c_floor_sqrt]).

    Where an int expression occurs inside a floating point one, as in
    (n + k + 1.0) / (n - k), only its int part is checked and the value is
    that of MCsphi.v. *)
From Coq Require Import ZArith List String Bool Reals.
From Coq.Floats Require Import SpecFloat.
From Coquelicot Require Import Complex.
From Verif Require Import Py Num Exact MCoefs MPatt FloatN Sums MPysphi MOps MTrans MKiss MCsphi.
Import ListNotations.
Open Scope list_scope.
Open Scope Z_scope.

(** 32 bit int *)
Definition INT_MIN : Z := -2147483648.
Definition INT_MAX : Z := 2147483647.
Definition ck (z : Z) : res Z :=
  if (INT_MIN <=? z) && (z <=? INT_MAX) then Ok z else Raise IntOverflow.

(** The values of k in [for (k = a; k <= e; k++)] and
    [for (k = a; k >= e; k--)] *)
Definition upto (a e : Z) : res (list Z) :=
  if e <? a then Ok [] else b <- ck (e + 1) ;; Ok (zrange a b).
Definition downto (a e : Z) : res (list Z) :=
  if a <? e then Ok [] else b <- ck (e - 1) ;; Ok (zrange_down a b).

(** ** kiss_fft.c *)

(** kiss_fft.c:21-134: kf_bfly2 computes no int but --m, which ends at 0;
    kf_bfly3 and kf_bfly4 take m as size_t. *)

(** kiss_fft.c:136-196 kf_bfly5: the ints 2*m, 3*m, 4*m, 2*u, 3*u, 4*u *)
Definition x_bfly5 (out : list C) (o fstride : Z) (st : kcfg) (m : Z) : res (list C) :=
  ya <- cbget (k_tw st) (fstride * m) ;;
  yb <- cbget (k_tw st) (fstride * 2 * m) ;;
  m2 <- ck (2 * m) ;;
  m3 <- ck (3 * m) ;;
  m4 <- ck (4 * m) ;;
  mfor (zrange 0 m) (fun u out =>
    s0 <- cbget out (o + u) ;;
    x1 <- cbget out (o + m + u) ;; w1 <- cbget (k_tw st) (u * fstride) ;;
    u2 <- ck (2 * u) ;;
    x2 <- cbget out (o + m2 + u) ;; w2 <- cbget (k_tw st) (u2 * fstride) ;;
    u3 <- ck (3 * u) ;;
    x3 <- cbget out (o + m3 + u) ;; w3 <- cbget (k_tw st) (u3 * fstride) ;;
    u4 <- ck (4 * u) ;;
    x4 <- cbget out (o + m4 + u) ;; w4 <- cbget (k_tw st) (u4 * fstride) ;;
    let s1 := (x1 * w1)%C in
    let s2 := (x2 * w2)%C in
    let s3 := (x3 * w3)%C in
    let s4 := (x4 * w4)%C in
    let s7 := (s1 + s4)%C in
    let s10 := (s1 - s4)%C in
    let s8 := (s2 + s3)%C in
    let s9 := (s2 - s3)%C in
    out <- bset out (o + u) (fst s0 + (fst s7 + fst s8), snd s0 + (snd s7 + snd s8))%R ;;
    let s5 := (fst s0 + fst s7 * fst ya + fst s8 * fst yb, snd s0 + snd s7 * fst ya + snd s8 * fst yb)%R : C in
    let s6 := (snd s10 * snd ya + snd s9 * snd yb, - (fst s10 * snd ya) - fst s9 * snd yb)%R : C in
    out <- bset out (o + m + u) (s5 - s6)%C ;;
    out <- bset out (o + m4 + u) (s5 + s6)%C ;;
    let s11 := (fst s0 + fst s7 * fst yb + fst s8 * fst ya, snd s0 + snd s7 * fst yb + snd s8 * fst ya)%R : C in
    let s12 := (- (snd s10 * snd yb) + snd s9 * snd ya, fst s10 * snd yb - fst s9 * snd ya)%R : C in
    out <- bset out (o + m2 + u) (s11 + s12)%C ;;
    bset out (o + m3 + u) (s11 - s12)%C) out.

(** kiss_fft.c:198-236 kf_bfly_generic: k += m and twidx += fstride * k (the
    sum is a size_t, converted to int) *)
Definition x_bfly_generic (junk : Z -> C) (out : list C) (o fstride : Z) (st : kcfg) (m p : Z) : res (list C) :=
  let Norig := k_nfft st in
  mfor (zrange 0 m) (fun u out =>
    r <- mfor (zrange 0 p) (fun q1 (r : list C * Z) =>
           let '(s, k) := r in
           x <- cbget out (o + k) ;;
           s <- bset s q1 x ;;
           k <- ck (k + m) ;;
           Ok (s, k)) (vmake p junk, u) ;;
    let '(scratch, _) := r in
    r <- mfor (zrange 0 p) (fun q1 (r : list C * Z) =>
           let '(out, k) := r in
           s0 <- cbget scratch 0 ;;
           out <- bset out (o + k) s0 ;;
           r <- mfor (zrange 1 p) (fun q (r : list C * Z) =>
                  twidx <- ck (snd r + fstride * k) ;;
                  twidx <- (if Norig <=? twidx then ck (twidx - Norig) else Ok twidx) ;;
                  sq <- cbget scratch q ;;
                  w <- cbget (k_tw st) twidx ;;
                  x <- cbget (fst r) (o + k) ;;
                  out <- bset (fst r) (o + k) (x + sq * w)%C ;;
                  Ok (out, twidx)) (out, 0) ;;
           k <- ck (k + m) ;;
           Ok (fst r, k)) (out, u) ;;
    Ok (fst r)) out.

Definition x_bfly (junk : Z -> C) (out : list C) (o fstride : Z) (st : kcfg) (m p : Z) : res (list C) :=
  if p =? 2 then kf_bfly2 out o fstride st m
  else if p =? 3 then kf_bfly3 out o fstride st m
  else if p =? 4 then kf_bfly4 out o fstride st m
  else if p =? 5 then x_bfly5 out o fstride st m
  else x_bfly_generic junk out o fstride st m p.

(** kiss_fft.c:238-300 kf_work: the int p*m (line 251) *)
Fixpoint x_kf_work (junk : Z -> C) (st : kcfg) (fin : list C) (in_stride : Z) (factors : list (Z * Z))
    (out : list C) (o fi fstride : Z) {struct factors} : res (list C) :=
  match factors with
  | [] => Raise OutOfBounds
  | (p, m) :: factors =>
      if (p <? 1) || (m <? 1) then Raise OutOfBounds else
      _ <- ck (p * m) ;;
      out <- (if m =? 1 then
                mfor (zrange 0 p) (fun i out =>
                  x <- cbget fin (fi + i * (fstride * in_stride)) ;; bset out (o + i) x) out
              else
                mfor (zrange 0 p) (fun i out =>
                  x_kf_work junk st fin in_stride factors out (o + i * m) (fi + i * (fstride * in_stride)) (fstride * p)) out) ;;
      x_bfly junk out o fstride st m p
  end.

(** kiss_fft.c:306-329 kf_factor: p += 2, and floor(sqrt((double) n)) in
    binary64.  [dbl_floor]: the integer value of floor(x), x >= 0. *)
Fixpoint x_factor_next (fuel : nat) (n fsqrt p : Z) : res Z :=
  match fuel with
  | O => Raise OutOfFuel
  | S fuel =>
      if n mod p =? 0 then Ok p
      else
        p <- (if p =? 4 then Ok 2 else if p =? 2 then Ok 3 else ck (p + 2)) ;;
        let p := if fsqrt <? p then n else p in
        x_factor_next fuel n fsqrt p
  end.
Fixpoint x_factor_loop (fuel : nat) (n fsqrt p : Z) : res (list (Z * Z)) :=
  match fuel with
  | O => Raise OutOfFuel
  | S fuel =>
      p <- x_factor_next (Z.to_nat (fsqrt + 5)) n fsqrt p ;;
      let n := n / p in
      if 1 <? n then rest <- x_factor_loop fuel n fsqrt p ;; Ok ((p, n) :: rest)
      else Ok [(p, n)]
  end.
Definition dbl_floor (x : f64) : Z :=
  match x with
  | S754_finite false m e => if 0 <=? e then Zpos m * 2 ^ e else Zpos m / 2 ^ (- e)
  | _ => 0
  end.
Definition c_floor_sqrt (n : Z) : Z := dbl_floor (SFsqrt 53 1024 (fofZ n)).
Definition x_kf_factor (n : Z) : res (list (Z * Z)) :=
  x_factor_loop (Z.to_nat (Z.log2 n + 2)) n (c_floor_sqrt n) 4.

(** kiss_fft.c:339-368 kiss_fft_alloc: the int nfft - 1 (line 343) *)
Definition x_fft_alloc (nfft : Z) (inverse : bool) : res kcfg :=
  _ <- ck (nfft - 1) ;;
  let tw := vmake nfft (fun i =>
    let phase := (-2 * PI * IZR i / IZR nfft)%R in
    let phase := if inverse then (phase * -1)%R else phase in
    (cos phase, sin phase) : C) in
  fac <- x_kf_factor nfft ;;
  if MAXFACTORS <? zlen fac then Raise OutOfBounds
  else Ok (mkCfg nfft inverse fac tw).

(** kiss_fft.c:371-384 kiss_fft_stride *)
Definition x_fft_stride (junk : Z -> C) (st : kcfg) (fin fout : list C) (in_stride : Z) : res (list C) :=
  x_kf_work junk st fin in_stride (k_factors st) fout 0 0 1.
Definition x_fft_inplace (junk : Z -> C) (st : kcfg) (buf : list C) : res (list C) :=
  tmp <- x_kf_work junk st buf 1 (k_factors st) (vmake (k_nfft st) junk) 0 0 1 ;;
  memcpy (k_nfft st) tmp buf.

(** kiss_fft.c:395-408 kiss_fft_next_fast_size: n++ *)
Fixpoint x_next_fast_loop (fuel : nat) (n : Z) : res Z :=
  match fuel with
  | O => Raise OutOfFuel
  | S fuel =>
      let k := Z.to_nat (Z.log2 (Z.abs n) + 2) in
      m <- strip k 2 n ;;
      m <- strip k 3 m ;;
      m <- strip k 5 m ;;
      if m <=? 1 then Ok n else n <- ck (n + 1) ;; x_next_fast_loop fuel n
  end.
Definition x_next_fast_size (n : Z) : res Z := x_next_fast_loop (S (Z.to_nat n)) n.

(** ** csphi.c *)

(** csphi.c:50-75 ynnm *)
Definition x_ynnm (n m : Z) : res R :=
  let a := (1 / sqrt (4 * PI))%R in
  pm <- ck (Z.abs m) ;;
  if n <? pm then Ok 0%R
  else if n =? 0 then Ok a
  else
    l <- upto 1 n ;;
    let y := pfor l (fun k y => sqrt ((2 * IZR k + 1) / (8 * IZR k)) * y)%R a in
    if negb (n =? pm) then
      n1 <- ck (n - 1) ;;
      l <- downto n1 pm ;;
      mfor l (fun k y =>
        s <- ck (n + k) ;;
        d <- ck (n - k) ;;
        Ok (sqrt (1 * (IZR s + 1) / IZR d) * y)%R) y
    else Ok y.

(** csphi.c:89-107 ynunm; the ints of B(en,k) are en-k and en+k *)
Definition x_ynunm (en em : Z) (y : list R) (len : Z) : res (list R) :=
  y <- mfor (zrange 0 len) (fun k y => bset y k 0%R) y ;;
  am <- ck (Z.abs em) ;;
  if am <=? en then
    v <- x_ynnm en em ;;
    y <- bset y en v ;;
    k <- ck (en - 2) ;;
    if 0 <=? k then
      y2 <- rbget y (k + 2) ;;
      d <- ck (en - k) ;;
      s <- ck (en + k) ;;
      y <- bset y k ((Bm (IZR en) (IZR k + 1) + Bm (IZR en) (IZR k + 2) - 4 * IZR em * IZR em) * y2 / (IZR d * (IZR s + 1)))%R ;;
      k <- ck (k - 2) ;;
      mfor (zrange_down2 k (-1)) (fun k y =>
        y2 <- rbget y (k + 2) ;;
        y4 <- rbget y (k + 4) ;;
        d <- ck (en - k) ;;
        s <- ck (en + k) ;;
        y <- bset y k (((Bm (IZR en) (IZR k + 1) + Bm (IZR en) (IZR k + 2) - 4 * IZR em * IZR em) * y2
                   - Bm (IZR en) (IZR k + 3) * y4) / (IZR d * (IZR s + 1)))%R ;;
        _ <- ck (k - 2) ;;
        Ok y) y
    else Ok y
  else Ok y.

(** csphi.c:116-139 FindQ *)
Fixpoint x_findq_loop (fuel : nat) (A Q : Z) : res Z :=
  match fuel with
  | O => Raise OutOfFuel
  | S fuel =>
      if A =? 1 then Ok Q
      else if Z.rem A 2 =? 0 then x_findq_loop fuel (Z.quot A 2) Q
      else if Z.rem A 3 =? 0 then x_findq_loop fuel (Z.quot A 3) Q
      else if Z.rem A 5 =? 0 then x_findq_loop fuel (Z.quot A 5) Q
      else A <- ck (Q + 1) ;; x_findq_loop fuel A A
  end.
Definition x_FindQ (S : Z) : res Z := x_findq_loop (spf_fuel S) S S.

(** csphi.c:149-166 SData *)
Definition x_SData (s : list C) (Q Nrows Nmax : Z) : res (list C) :=
  nn <- ck (Nmax + 1) ;;
  s <- cfill (RtoC 0) s Q ;;
  let mm := Z.quot Nrows 2 in
  e <- ck (mm + nn) ;;
  e <- ck (e - 1) ;;
  l <- upto mm e ;;
  s <- mfor l (fun k s =>
         if Z.rem k 2 =? 1 then j <- ck (k - mm) ;; set_im s j (-1 / IZR k)%R else Ok s) s ;;
  mm' <- ck (- mm) ;;
  mfor (zrange mm' mm) (fun k s =>
    ak <- ck (Z.abs k) ;;
    if Z.rem ak 2 =? 1 then j <- ck (Q + k) ;; j <- ck (j - mm) ;; set_im s j (-1 / IZR k)%R else Ok s) s.

(** csphi.c:188-238 hkm_fc *)
Definition x_hkm_fc (junk : Z -> C) (gcoef : list C) (Nrow Ncol n m : Z) (hkm : list C) (len : Z)
    (ss : list C) (Q : Z) (ff : list C) (fw bw : kcfg) : res (list C * list C) :=
  ff <- cfill (RtoC 0) ff Q ;;
  hkm <- cfill (RtoC 0) hkm len ;;
  ind <- (if 0 <=? m then Ok m else ck (Ncol + m)) ;;
  let mm := Z.quot Nrow 2 in
  ff <- mfor (zrange 0 mm) (fun k ff =>
          i <- ck (mm + k) ;;
          i <- ck (Ncol * i) ;;
          i <- ck (i + ind) ;;
          x <- cbget gcoef i ;;
          ff <- bset ff k x ;;
          i <- ck (Ncol * k) ;;
          i <- ck (i + ind) ;;
          x <- cbget gcoef i ;;
          j <- ck (mm + k) ;;
          bset ff j x) ff ;;
  ff <- x_fft_inplace junk fw ff ;;
  ff <- mfor (zrange 0 Q) (fun k ff =>
          f <- cbget ff k ;;
          s <- cbget ss k ;;
          bset ff k (fst s * fst f - snd s * snd f, fst s * snd f + snd s * fst f)%R) ff ;;
  ff <- x_fft_inplace junk bw ff ;;
  hkm <- mfor (zrange 0 len) (fun k hkm =>
           f <- cbget ff k ;;
           bset hkm k (4 * PI * fst f / IZR Q, 4 * PI * snd f / IZR Q)%R) hkm ;;
  Ok (hkm, ff).

(** csphi.c:262-312 bnm_fc *)
Definition x_bnm_fc (junk : Z -> C) (fdata : list C) (Nrow Ncol Nmax m : Z) (off : Z)
    (ss : list C) (Q : Z) (Lhkm Ly : Z) (fw bw : kcfg) (st : list C * list C * list C * list R)
    : res (list C * list C * list C * list R) :=
  let '(sc, ff, hkm, y) := st in
  absm <- ck (Z.abs m) ;;
  h <- x_hkm_fc junk fdata Nrow Ncol Nmax m hkm Lhkm ss Q ff fw bw ;;
  let '(hkm, ff) := h in
  l <- upto absm Nmax ;;
  r <- mfor l (fun n (r : list C * list R) =>
         let '(sc, y) := r in
         y <- x_ynunm n m y Ly ;;
         i <- ck (n - absm) ;;
         h0 <- cbget hkm 0 ;;
         y0 <- rbget y 0 ;;
         sc <- bset sc (off + i) (fst h0 * y0, snd h0 * y0)%R ;;
         n1 <- ck (n + 1) ;;
         sc <- mfor (zrange 1 n1) (fun k sc =>
                 hk <- cbget hkm k ;;
                 yk <- rbget y k ;;
                 v <- cbget sc (off + i) ;;
                 bset sc (off + i) (fst v + 2 * fst hk * yk, snd v + 2 * snd hk * yk)%R) sc ;;
         v <- cbget sc (off + i) ;;
         sc <- (if Z.rem absm 2 =? 1 then
                  m1 <- ck (m - 1) ;;
                  let e := IZR (powm1 (Z.quot m1 2)) in
                  bset sc (off + i) (e * snd v, - e * fst v)%R
                else
                  let e := IZR (powm1 (Z.quot m 2)) in
                  bset sc (off + i) (e * fst v, e * snd v)%R) ;;
         Ok (sc, y)) (sc, y) ;;
  let '(sc, y) := r in
  Ok (sc, ff, hkm, y).

(** csphi.c:363-377 and 514-529: N, QQ and the table inds *)
Definition x_inds (Nmax Mmax : Z) (junki : Z -> Z) : res (list Z) :=
  N <- ck (Nmax + 1) ;;
  len <- ck (2 * Mmax) ;;
  len <- ck (len + 1) ;;
  inds <- cfill 0 (vmake len junki) len ;;
  inds <- bset inds 0 0 ;;
  l <- upto 1 Mmax ;;
  r <- mfor l (fun m (r : list Z * Z * Z) =>
         let '(inds, N, QQ) := r in
         i <- ck (2 * m) ;;
         j <- ck (i - 1) ;;
         inds <- bset inds j N ;;
         N <- ck (N + QQ) ;;
         inds <- bset inds i N ;;
         N <- ck (N + QQ) ;;
         QQ <- ck (QQ - 1) ;;
         Ok (inds, N, QQ)) (inds, N, Nmax) ;;
  Ok (fst (fst r)).

(** csphi.c:327-423 fc_to_sc; the argument Nmax - abs(m) + 1 of bnm_fc is
    computed but not used *)
Definition x_fc_to_sc (junk : Z -> C) (junkr : Z -> R) (junki : Z -> Z)
    (fdata : list C) (Nrow Ncol : Z) (sc : list C) (Nmax Mmax : Z) : res (list C) :=
  S <- ck (Nrow + Nmax) ;;
  Q <- x_FindQ S ;;
  s <- x_SData (vmake Q junk) Q Nrow Nmax ;;
  fw <- x_fft_alloc Q false ;;
  bw <- x_fft_alloc Q true ;;
  s <- x_fft_inplace junk fw s ;;
  n1 <- ck (Nmax + 1) ;;
  let hkm := vmake n1 junk in
  let y := vmake n1 junkr in
  let ff := vmake Q junk in
  inds <- x_inds Nmax Mmax junki ;;
  st <- x_bnm_fc junk fdata Nrow Ncol Nmax 0 0 s Q n1 n1 fw bw (sc, ff, hkm, y) ;;
  l <- upto 1 Mmax ;;
  st <- mfor l (fun m st =>
          i <- ck (2 * m) ;;
          j <- ck (i - 1) ;;
          pt <- ibget inds j ;;
          m' <- ck (- m) ;;
          am <- ck (Z.abs m) ;;
          L <- ck (Nmax - am) ;;
          _ <- ck (L + 1) ;;
          st <- x_bnm_fc junk fdata Nrow Ncol Nmax m' pt s Q n1 n1 fw bw st ;;
          pt <- ibget inds i ;;
          x_bnm_fc junk fdata Nrow Ncol Nmax m pt s Q n1 n1 fw bw st) st ;;
  let '(sc, _, _, _) := st in
  Ok sc.

(** csphi.c:438-500 fcvec_m_sc; k*Ncol is an int, adding M to fdata + k*Ncol
    is pointer arithmetic *)
Definition x_fcvec_m_sc (sc : list C) (off m Nmax Nrow Ncol M len : Z) (st : list C * list R)
    : res (list C * list R) :=
  let '(fdata, y) := st in
  K <- ck (Nmax + 1) ;;
  absm <- ck (Z.abs m) ;;
  l <- upto absm Nmax ;;
  r <- mfor l (fun n (r : list C * list R) =>
         let '(fdata, y) := r in
         y <- x_ynunm n m y len ;;
         fdata <- mfor (zrange 0 K) (fun k fdata =>
                    i <- ck (k * Ncol) ;;
                    tmp <- cbget fdata (i + M) ;;
                    j <- ck (n - absm) ;;
                    v <- cbget sc (off + j) ;;
                    yk <- rbget y k ;;
                    bset fdata (i + M) (fst tmp + fst v * yk, snd tmp + snd v * yk)%R) fdata ;;
         Ok (fdata, y)) (fdata, y) ;;
  let '(fdata, y) := r in
  fdata <- mfor (zrange 0 K) (fun k fdata =>
             i <- ck (k * Ncol) ;;
             tmp <- cbget fdata (i + M) ;;
             am <- ck (Z.abs m) ;;
             if Z.rem am 2 =? 1 then
               m1 <- ck (m - 1) ;;
               let e := IZR (powm1 (Z.quot m1 2)) in
               bset fdata (i + M) (- e * snd tmp, e * fst tmp)%R
             else
               let e := IZR (powm1 (Z.quot m 2)) in
               bset fdata (i + M) (e * fst tmp, e * snd tmp)%R) fdata ;;
  let mm := IZR (powm1 m) in
  H <- (if Z.rem Nrow 2 =? 0 then ck (Z.quot Nrow 2 - 1) else r1 <- ck (Nrow - 1) ;; Ok (Z.quot r1 2)) ;;
  fdata <- mfor (zrange 0 H) (fun k fdata =>
             k1 <- ck (k + 1) ;;
             i <- ck (Ncol * k1) ;;
             i <- ck (i + M) ;;
             x <- cbget fdata i ;;
             r1 <- ck (Nrow - 1) ;;
             r1 <- ck (r1 - k) ;;
             j <- ck (Ncol * r1) ;;
             j <- ck (j + M) ;;
             bset fdata j (mm * fst x, mm * snd x)%R) fdata ;;
  Ok (fdata, y).

(** csphi.c:513-567 sc_to_fc; floor(Ncol/2) is a double with an int value *)
Definition x_sc_to_fc (junkr : Z -> R) (junki : Z -> Z)
    (fdata : list C) (Nrow Ncol : Z) (sc : list C) (Nmax Mmax : Z) : res (list C) :=
  n1 <- ck (Nmax + 1) ;;
  let y := vmake n1 junkr in
  inds <- x_inds Nmax Mmax junki ;;
  l <- upto 0 (Z.quot Ncol 2) ;;
  r <- mfor l (fun k (r : list C * list R) =>
         if k <? Mmax then
           i <- ck (2 * k) ;;
           pt <- ibget inds i ;;
           r <- x_fcvec_m_sc sc pt k Nmax Nrow Ncol k n1 r ;;
           k1 <- ck (k + 1) ;;
           i <- ck (2 * k1) ;;
           i <- ck (i - 1) ;;
           pt <- ibget inds i ;;
           k1' <- ck (- k1) ;;
           c1 <- ck (Ncol - 1) ;;
           M <- ck (c1 - k) ;;
           x_fcvec_m_sc sc pt k1' Nmax Nrow Ncol M n1 r
         else if k =? Mmax then
           i <- ck (2 * k) ;;
           pt <- ibget inds i ;;
           x_fcvec_m_sc sc pt k Nmax Nrow Ncol k n1 r
         else Ok r) (fdata, y) ;;
  Ok (fst r).

(** The compiled C extension: [c_backend] with C ints. *)
Definition x_backend (junk : Z -> C) (junkr : Z -> R) (junki : Z -> Z) : backend :=
  mkBE (fun fdata nmax mmax =>
          sc <- np_zeros (ncoef nmax mmax) (RtoC 0) ;;
          x_fc_to_sc junk junkr junki (mt_dat RN fdata) (mt_nr RN fdata) (mt_nc RN fdata) sc nmax mmax)
       (fun vec nmax mmax dnrows ncols =>
          fdata <- np_zeros2 dnrows ncols ;;
          d <- x_sc_to_fc junkr junki (mt_dat RN fdata) dnrows ncols vec nmax mmax ;;
          Ok (mkMat RN dnrows ncols d)).
