(** * MKiss: model of src/kiss_fft.c (floating point build, no FIXED_POINT,
    USE_SIMD or _OPENMP), in exact arithmetic: kiss_fft_scalar (double) is R,
    kiss_fft_cpx is Coquelicot's C, C int / size_t are Z (no wrap around).

    Every array access goes through [bget] / [bset], which give [OutOfBounds]
    (undefined behaviour in C) outside the buffer.  A pointer into the output
    buffer is its offset.  Memory obtained from malloc has arbitrary contents
    [junk].  malloc is assumed to succeed. *)
From Coq Require Import ZArith List String Bool Reals.
From Coquelicot Require Import Complex.
From Verif Require Import Py Num Exact Sums MPysphi.
Import ListNotations.
Open Scope list_scope.
Open Scope Z_scope.

Definition bget {A} (d : A) (b : list A) (i : Z) : res A :=
  if (0 <=? i) && (i <? zlen b) then Ok (vget d b i) else Raise OutOfBounds.
Definition bset {A} (b : list A) (i : Z) (x : A) : res (list A) :=
  if (0 <=? i) && (i <? zlen b) then Ok (vset b i x) else Raise OutOfBounds.
Definition cbget : list C -> Z -> res C := bget (RtoC 0).

(** _kiss_fft_guts.h:29-34 struct kiss_fft_state; factors are the pairs
    (p, m) stored at 2i, 2i+1. *)
Record kcfg : Type := mkCfg {
  k_nfft : Z; k_inverse : bool; k_factors : list (Z * Z); k_tw : list C }.

(** C_MUL, C_ADD, C_SUB, C_ADDTO (guts.h:83-127) are complex *, +, -.
    C_FIXDIV is a no-op. *)

(** kiss_fft.c:21-42 kf_bfly2.  [do .. while (--m)] runs m times for m >= 1;
    for m <= 0 it runs off the array. *)
Definition kf_bfly2 (out : list C) (o fstride : Z) (st : kcfg) (m : Z) : res (list C) :=
  if m <? 1 then Raise OutOfBounds else
  mfor (zrange 0 m) (fun u out =>
    x2 <- cbget out (o + m + u) ;;
    w <- cbget (k_tw st) (u * fstride) ;;
    let t := (x2 * w)%C in
    x0 <- cbget out (o + u) ;;
    out <- bset out (o + m + u) (x0 - t)%C ;;
    bset out (o + u) (x0 + t)%C) out.

(** kiss_fft.c:44-89 kf_bfly4 *)
Definition kf_bfly4 (out : list C) (o fstride : Z) (st : kcfg) (m : Z) : res (list C) :=
  if m <? 1 then Raise OutOfBounds else
  let m2 := 2 * m in
  let m3 := 3 * m in
  mfor (zrange 0 m) (fun u out =>
    x1 <- cbget out (o + u + m) ;; w1 <- cbget (k_tw st) (u * fstride) ;;
    x2 <- cbget out (o + u + m2) ;; w2 <- cbget (k_tw st) (u * (fstride * 2)) ;;
    x3 <- cbget out (o + u + m3) ;; w3 <- cbget (k_tw st) (u * (fstride * 3)) ;;
    let s0 := (x1 * w1)%C in
    let s1 := (x2 * w2)%C in
    let s2 := (x3 * w3)%C in
    x0 <- cbget out (o + u) ;;
    let s5 := (x0 - s1)%C in
    out <- bset out (o + u) (x0 + s1)%C ;;
    let s3 := (s0 + s2)%C in
    let s4 := (s0 - s2)%C in
    y0 <- cbget out (o + u) ;;
    out <- bset out (o + u + m2) (y0 - s3)%C ;;
    out <- bset out (o + u) (y0 + s3)%C ;;
    if k_inverse st then
      out <- bset out (o + u + m) (fst s5 - snd s4, snd s5 + fst s4)%R ;;
      bset out (o + u + m3) (fst s5 + snd s4, snd s5 - fst s4)%R
    else
      out <- bset out (o + u + m) (fst s5 + snd s4, snd s5 - fst s4)%R ;;
      bset out (o + u + m3) (fst s5 - snd s4, snd s5 + fst s4)%R) out.

(** kiss_fft.c:91-134 kf_bfly3 *)
Definition kf_bfly3 (out : list C) (o fstride : Z) (st : kcfg) (m : Z) : res (list C) :=
  if m <? 1 then Raise OutOfBounds else
  let m2 := 2 * m in
  epi3 <- cbget (k_tw st) (fstride * m) ;;
  mfor (zrange 0 m) (fun u out =>
    x1 <- cbget out (o + u + m) ;; w1 <- cbget (k_tw st) (u * fstride) ;;
    x2 <- cbget out (o + u + m2) ;; w2 <- cbget (k_tw st) (u * (fstride * 2)) ;;
    let s1 := (x1 * w1)%C in
    let s2 := (x2 * w2)%C in
    let s3 := (s1 + s2)%C in
    let s0 := (s1 - s2)%C in
    x0 <- cbget out (o + u) ;;
    let ym := (fst x0 - fst s3 * / 2, snd x0 - snd s3 * / 2)%R in
    out <- bset out (o + u + m) ym ;;
    let s0 := (fst s0 * snd epi3, snd s0 * snd epi3)%R in
    out <- bset out (o + u) (x0 + s3)%C ;;
    ym <- cbget out (o + u + m) ;;
    out <- bset out (o + u + m2) (fst ym + snd s0, snd ym - fst s0)%R ;;
    bset out (o + u + m) (fst ym - snd s0, snd ym + fst s0)%R) out.

(** kiss_fft.c:136-196 kf_bfly5 *)
Definition kf_bfly5 (out : list C) (o fstride : Z) (st : kcfg) (m : Z) : res (list C) :=
  ya <- cbget (k_tw st) (fstride * m) ;;
  yb <- cbget (k_tw st) (fstride * 2 * m) ;;
  mfor (zrange 0 m) (fun u out =>
    s0 <- cbget out (o + u) ;;
    x1 <- cbget out (o + m + u) ;; w1 <- cbget (k_tw st) (u * fstride) ;;
    x2 <- cbget out (o + 2 * m + u) ;; w2 <- cbget (k_tw st) (2 * u * fstride) ;;
    x3 <- cbget out (o + 3 * m + u) ;; w3 <- cbget (k_tw st) (3 * u * fstride) ;;
    x4 <- cbget out (o + 4 * m + u) ;; w4 <- cbget (k_tw st) (4 * u * fstride) ;;
    let s1 := (x1 * w1)%C in
    let s2 := (x2 * w2)%C in
    let s3 := (x3 * w3)%C in
    let s4 := (x4 * w4)%C in
    let s7 := (s1 + s4)%C in
    let s10 := (s1 - s4)%C in
    let s8 := (s2 + s3)%C in
    let s9 := (s2 - s3)%C in
    out <- bset out (o + u) (fst s0 + (fst s7 + fst s8), snd s0 + (snd s7 + snd s8))%R ;;
    let s5 := (fst s0 + fst s7 * fst ya + fst s8 * fst yb, snd s0 + snd s7 * fst ya + snd s8 * fst yb)%R : C in
    let s6 := (snd s10 * snd ya + snd s9 * snd yb, - (fst s10 * snd ya) - fst s9 * snd yb)%R : C in
    out <- bset out (o + m + u) (s5 - s6)%C ;;
    out <- bset out (o + 4 * m + u) (s5 + s6)%C ;;
    let s11 := (fst s0 + fst s7 * fst yb + fst s8 * fst ya, snd s0 + snd s7 * fst yb + snd s8 * fst ya)%R : C in
    let s12 := (- (snd s10 * snd yb) + snd s9 * snd ya, fst s10 * snd yb - fst s9 * snd ya)%R : C in
    out <- bset out (o + 2 * m + u) (s11 + s12)%C ;;
    bset out (o + 3 * m + u) (s11 - s12)%C) out.

(** kiss_fft.c:198-236 kf_bfly_generic *)
Definition kf_bfly_generic (junk : Z -> C) (out : list C) (o fstride : Z) (st : kcfg) (m p : Z) : res (list C) :=
  let Norig := k_nfft st in
  mfor (zrange 0 m) (fun u out =>
    scratch <- mfor (zrange 0 p) (fun q1 s =>
                 x <- cbget out (o + (u + q1 * m)) ;; bset s q1 x) (vmake p junk) ;;
    mfor (zrange 0 p) (fun q1 out =>
      let k := u + q1 * m in
      s0 <- cbget scratch 0 ;;
      out <- bset out (o + k) s0 ;;
      r <- mfor (zrange 1 p) (fun q (r : list C * Z) =>
             let twidx := snd r + fstride * k in
             let twidx := if Norig <=? twidx then twidx - Norig else twidx in
             sq <- cbget scratch q ;;
             w <- cbget (k_tw st) twidx ;;
             x <- cbget (fst r) (o + k) ;;
             out <- bset (fst r) (o + k) (x + sq * w)%C ;;
             Ok (out, twidx)) (out, 0) ;;
      Ok (fst r)) out) out.

(** The switch of kiss_fft.c:293-299 *)
Definition kf_bfly (junk : Z -> C) (out : list C) (o fstride : Z) (st : kcfg) (m p : Z) : res (list C) :=
  if p =? 2 then kf_bfly2 out o fstride st m
  else if p =? 3 then kf_bfly3 out o fstride st m
  else if p =? 4 then kf_bfly4 out o fstride st m
  else if p =? 5 then kf_bfly5 out o fstride st m
  else kf_bfly_generic junk out o fstride st m p.

(** kiss_fft.c:238-300 kf_work.  [o], [fi]: the pointers Fout and f.  The
    do-while loops run p times when p, m >= 1 and off the array otherwise. *)
Fixpoint kf_work (junk : Z -> C) (st : kcfg) (fin : list C) (in_stride : Z) (factors : list (Z * Z))
    (out : list C) (o fi fstride : Z) {struct factors} : res (list C) :=
  match factors with
  | [] => Raise OutOfBounds
  | (p, m) :: factors =>
      if (p <? 1) || (m <? 1) then Raise OutOfBounds else
      out <- (if m =? 1 then
                mfor (zrange 0 p) (fun i out =>
                  x <- cbget fin (fi + i * (fstride * in_stride)) ;; bset out (o + i) x) out
              else
                mfor (zrange 0 p) (fun i out =>
                  kf_work junk st fin in_stride factors out (o + i * m) (fi + i * (fstride * in_stride)) (fstride * p)) out) ;;
      kf_bfly junk out o fstride st m p
  end.

(** kiss_fft.c:306-329 kf_factor: the pairs written to facbuf.  The inner
    while loop [factor_next] (kiss_fft.c:315-323) finds the next radix. *)
Fixpoint factor_next (fuel : nat) (n fsqrt p : Z) : res Z :=
  match fuel with
  | O => Raise OutOfFuel
  | S fuel =>
      if n mod p =? 0 then Ok p
      else
        let p := if p =? 4 then 2 else if p =? 2 then 3 else p + 2 in
        let p := if fsqrt <? p then n else p in
        factor_next fuel n fsqrt p
  end.
Fixpoint factor_loop (fuel : nat) (n fsqrt p : Z) : res (list (Z * Z)) :=
  match fuel with
  | O => Raise OutOfFuel
  | S fuel =>
      p <- factor_next (Z.to_nat (fsqrt + 5)) n fsqrt p ;;
      let n := n / p in
      if 1 <? n then rest <- factor_loop fuel n fsqrt p ;; Ok ((p, n) :: rest)
      else Ok [(p, n)]
  end.
(** floor(sqrt((double) n)) is the integer square root. *)
Definition kf_factor (n : Z) : res (list (Z * Z)) :=
  factor_loop (Z.to_nat (Z.log2 n + 2)) n (Z.sqrt n) 4.

(** _kiss_fft_guts.h:23 *)
Definition MAXFACTORS : Z := 32.

(** kiss_fft.c:339-368 kiss_fft_alloc (mem = lenmem = NULL).  The factor
    buffer holds MAXFACTORS pairs. *)
Definition kiss_fft_alloc (nfft : Z) (inverse : bool) : res kcfg :=
  let tw := vmake nfft (fun i =>
    let phase := (-2 * PI * IZR i / IZR nfft)%R in
    let phase := if inverse then (phase * -1)%R else phase in
    (cos phase, sin phase) : C) in
  fac <- kf_factor nfft ;;
  if MAXFACTORS <? zlen fac then Raise OutOfBounds
  else Ok (mkCfg nfft inverse fac tw).

(** kiss_fft.c:371-384 kiss_fft_stride; [kiss_fft_inplace]: fin == fout, the
    result is computed in a temporary buffer and its nfft entries copied. *)
Definition kiss_fft_stride (junk : Z -> C) (st : kcfg) (fin fout : list C) (in_stride : Z) : res (list C) :=
  kf_work junk st fin in_stride (k_factors st) fout 0 0 1.
Definition memcpy (n : Z) (src dst : list C) : res (list C) :=
  if (n <=? zlen src) && (n <=? zlen dst) then Ok (vmake (zlen dst) (fun i => if i <? n then vget (RtoC 0) src i else vget (RtoC 0) dst i))
  else Raise OutOfBounds.
Definition kiss_fft_inplace (junk : Z -> C) (st : kcfg) (buf : list C) : res (list C) :=
  tmp <- kf_work junk st buf 1 (k_factors st) (vmake (k_nfft st) junk) 0 0 1 ;;
  memcpy (k_nfft st) tmp buf.
(** kiss_fft.c:386-389 kiss_fft with fin != fout *)
Definition kiss_fft (junk : Z -> C) (st : kcfg) (fin fout : list C) : res (list C) :=
  kiss_fft_stride junk st fin fout 1.

(** kiss_fft.c:395-408 kiss_fft_next_fast_size.  [strip]: one of the inner
    loops [while ((m % p) == 0) m /= p] (the division is exact, so Coq's Z.div
    and C's truncating division agree).  Running out of fuel (more steps than
    any positive m admits) stands for divergence. *)
Fixpoint strip (fuel : nat) (p m : Z) : res Z :=
  match fuel with
  | O => Raise OutOfFuel
  | S fuel => if m mod p =? 0 then strip fuel p (m / p) else Ok m
  end.
Fixpoint next_fast_loop (fuel : nat) (n : Z) : res Z :=
  match fuel with
  | O => Raise OutOfFuel
  | S fuel =>
      let k := Z.to_nat (Z.log2 (Z.abs n) + 2) in
      m <- strip k 2 n ;;
      m <- strip k 3 m ;;
      m <- strip k 5 m ;;
      if m <=? 1 then Ok n else next_fast_loop fuel (n + 1)
  end.
Definition kiss_fft_next_fast_size (n : Z) : res Z := next_fast_loop (S (Z.to_nat n)) n.
