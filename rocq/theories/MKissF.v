(** * MKissF: src/kiss_fft.c in IEEE double precision.

    MKiss reads the same lines over the real numbers.  Here kiss_fft_scalar is
    binary64 (FloatN, round to nearest even), every +, - and * of the source is
    one rounded operation in the order the source gives (the compiler fuses no
    multiplication with an addition).  cos and sin of the C library are
    parameters; theorems state the accuracy they need.  Buffers, offsets, junk
    and the factorisation are those of MKiss. *)
From Coq Require Import ZArith List Bool SpecFloat.
From Verif Require Import Py Num FloatN MPysphi MKiss MDouble.
Import ListNotations.
Open Scope list_scope.
Open Scope Z_scope.

Definition fbget : list cf -> Z -> res cf := bget cf0.

(** _kiss_fft_guts.h:29-34 struct kiss_fft_state *)
Record kcfgf : Type := mkCfgF {
  kf_nfft : Z; kf_inverse : bool; kf_factors : list (Z * Z); kf_tw : list cf }.

(** _kiss_fft_guts.h:109-114 C_SUB.  C_ADD and C_ADDTO (guts.h:103-108, 115-120)
    are [cfadd], C_MUL (guts.h:86-88) is [cfmul] of MDouble. *)
Definition cfsubk (x y : cf) : cf := (fsub (fst x) (fst y), fsub (snd x) (snd y)).
(** guts.h:90-92 C_MULBYSCALAR *)
Definition cfscale (x : cf) (s : f64) : cf := (fmul (fst x) s, fmul (snd x) s).
(** guts.h:142, the literal .5 of HALF_OF *)
Definition f_half : f64 := S754_finite false 4503599627370496 (-53).

(** kiss_fft.c:21-42 kf_bfly2 *)
Definition ff_bfly2 (out : list cf) (o fstride : Z) (st : kcfgf) (m : Z) : res (list cf) :=
  if m <? 1 then Raise OutOfBounds else
  mfor (zrange 0 m) (fun u out =>
    x2 <- fbget out (o + m + u) ;;
    w <- fbget (kf_tw st) (u * fstride) ;;
    let t := cfmul x2 w in
    x0 <- fbget out (o + u) ;;
    out <- bset out (o + m + u) (cfsubk x0 t) ;;
    bset out (o + u) (cfadd x0 t)) out.

(** kiss_fft.c:44-89 kf_bfly4 *)
Definition ff_bfly4 (out : list cf) (o fstride : Z) (st : kcfgf) (m : Z) : res (list cf) :=
  if m <? 1 then Raise OutOfBounds else
  let m2 := 2 * m in
  let m3 := 3 * m in
  mfor (zrange 0 m) (fun u out =>
    x1 <- fbget out (o + u + m) ;; w1 <- fbget (kf_tw st) (u * fstride) ;;
    x2 <- fbget out (o + u + m2) ;; w2 <- fbget (kf_tw st) (u * (fstride * 2)) ;;
    x3 <- fbget out (o + u + m3) ;; w3 <- fbget (kf_tw st) (u * (fstride * 3)) ;;
    let s0 := cfmul x1 w1 in
    let s1 := cfmul x2 w2 in
    let s2 := cfmul x3 w3 in
    x0 <- fbget out (o + u) ;;
    let s5 := cfsubk x0 s1 in
    out <- bset out (o + u) (cfadd x0 s1) ;;
    let s3 := cfadd s0 s2 in
    let s4 := cfsubk s0 s2 in
    y0 <- fbget out (o + u) ;;
    out <- bset out (o + u + m2) (cfsubk y0 s3) ;;
    out <- bset out (o + u) (cfadd y0 s3) ;;
    if kf_inverse st then
      out <- bset out (o + u + m) (fsub (fst s5) (snd s4), fadd (snd s5) (fst s4)) ;;
      bset out (o + u + m3) (fadd (fst s5) (snd s4), fsub (snd s5) (fst s4))
    else
      out <- bset out (o + u + m) (fadd (fst s5) (snd s4), fsub (snd s5) (fst s4)) ;;
      bset out (o + u + m3) (fsub (fst s5) (snd s4), fadd (snd s5) (fst s4))) out.

(** kiss_fft.c:91-134 kf_bfly3 *)
Definition ff_bfly3 (out : list cf) (o fstride : Z) (st : kcfgf) (m : Z) : res (list cf) :=
  if m <? 1 then Raise OutOfBounds else
  let m2 := 2 * m in
  epi3 <- fbget (kf_tw st) (fstride * m) ;;
  mfor (zrange 0 m) (fun u out =>
    x1 <- fbget out (o + u + m) ;; w1 <- fbget (kf_tw st) (u * fstride) ;;
    x2 <- fbget out (o + u + m2) ;; w2 <- fbget (kf_tw st) (u * (fstride * 2)) ;;
    let s1 := cfmul x1 w1 in
    let s2 := cfmul x2 w2 in
    let s3 := cfadd s1 s2 in
    let s0 := cfsubk s1 s2 in
    x0 <- fbget out (o + u) ;;
    let ym := (fsub (fst x0) (fmul (fst s3) f_half), fsub (snd x0) (fmul (snd s3) f_half)) in
    out <- bset out (o + u + m) ym ;;
    let s0 := cfscale s0 (snd epi3) in
    out <- bset out (o + u) (cfadd x0 s3) ;;
    ym <- fbget out (o + u + m) ;;
    out <- bset out (o + u + m2) (fadd (fst ym) (snd s0), fsub (snd ym) (fst s0)) ;;
    bset out (o + u + m) (fsub (fst ym) (snd s0), fadd (snd ym) (fst s0))) out.

(** kiss_fft.c:136-196 kf_bfly5 *)
Definition ff_bfly5 (out : list cf) (o fstride : Z) (st : kcfgf) (m : Z) : res (list cf) :=
  ya <- fbget (kf_tw st) (fstride * m) ;;
  yb <- fbget (kf_tw st) (fstride * 2 * m) ;;
  mfor (zrange 0 m) (fun u out =>
    s0 <- fbget out (o + u) ;;
    x1 <- fbget out (o + m + u) ;; w1 <- fbget (kf_tw st) (u * fstride) ;;
    x2 <- fbget out (o + 2 * m + u) ;; w2 <- fbget (kf_tw st) (2 * u * fstride) ;;
    x3 <- fbget out (o + 3 * m + u) ;; w3 <- fbget (kf_tw st) (3 * u * fstride) ;;
    x4 <- fbget out (o + 4 * m + u) ;; w4 <- fbget (kf_tw st) (4 * u * fstride) ;;
    let s1 := cfmul x1 w1 in
    let s2 := cfmul x2 w2 in
    let s3 := cfmul x3 w3 in
    let s4 := cfmul x4 w4 in
    let s7 := cfadd s1 s4 in
    let s10 := cfsubk s1 s4 in
    let s8 := cfadd s2 s3 in
    let s9 := cfsubk s2 s3 in
    out <- bset out (o + u) (fadd (fst s0) (fadd (fst s7) (fst s8)), fadd (snd s0) (fadd (snd s7) (snd s8))) ;;
    let s5 := (fadd (fadd (fst s0) (fmul (fst s7) (fst ya))) (fmul (fst s8) (fst yb)),
               fadd (fadd (snd s0) (fmul (snd s7) (fst ya))) (fmul (snd s8) (fst yb))) in
    let s6 := (fadd (fmul (snd s10) (snd ya)) (fmul (snd s9) (snd yb)),
               fsub (SFopp (fmul (fst s10) (snd ya))) (fmul (fst s9) (snd yb))) in
    out <- bset out (o + m + u) (cfsubk s5 s6) ;;
    out <- bset out (o + 4 * m + u) (cfadd s5 s6) ;;
    let s11 := (fadd (fadd (fst s0) (fmul (fst s7) (fst yb))) (fmul (fst s8) (fst ya)),
                fadd (fadd (snd s0) (fmul (snd s7) (fst yb))) (fmul (snd s8) (fst ya))) in
    let s12 := (fadd (SFopp (fmul (snd s10) (snd yb))) (fmul (snd s9) (snd ya)),
                fsub (fmul (fst s10) (snd yb)) (fmul (fst s9) (snd ya))) in
    out <- bset out (o + 2 * m + u) (cfadd s11 s12) ;;
    bset out (o + 3 * m + u) (cfsubk s11 s12)) out.

(** kiss_fft.c:198-236 kf_bfly_generic *)
Definition ff_bfly_generic (junk : Z -> cf) (out : list cf) (o fstride : Z) (st : kcfgf) (m p : Z) : res (list cf) :=
  let Norig := kf_nfft st in
  mfor (zrange 0 m) (fun u out =>
    scratch <- mfor (zrange 0 p) (fun q1 s =>
                 x <- fbget out (o + (u + q1 * m)) ;; bset s q1 x) (vmake p junk) ;;
    mfor (zrange 0 p) (fun q1 out =>
      let k := u + q1 * m in
      s0 <- fbget scratch 0 ;;
      out <- bset out (o + k) s0 ;;
      r <- mfor (zrange 1 p) (fun q (r : list cf * Z) =>
             let twidx := snd r + fstride * k in
             let twidx := if Norig <=? twidx then twidx - Norig else twidx in
             sq <- fbget scratch q ;;
             w <- fbget (kf_tw st) twidx ;;
             x <- fbget (fst r) (o + k) ;;
             out <- bset (fst r) (o + k) (cfadd x (cfmul sq w)) ;;
             Ok (out, twidx)) (out, 0) ;;
      Ok (fst r)) out) out.

(** The switch of kiss_fft.c:293-299 *)
Definition ff_bfly (junk : Z -> cf) (out : list cf) (o fstride : Z) (st : kcfgf) (m p : Z) : res (list cf) :=
  if p =? 2 then ff_bfly2 out o fstride st m
  else if p =? 3 then ff_bfly3 out o fstride st m
  else if p =? 4 then ff_bfly4 out o fstride st m
  else if p =? 5 then ff_bfly5 out o fstride st m
  else ff_bfly_generic junk out o fstride st m p.

(** kiss_fft.c:238-300 kf_work *)
Fixpoint ff_work (junk : Z -> cf) (st : kcfgf) (fin : list cf) (in_stride : Z) (factors : list (Z * Z))
    (out : list cf) (o fi fstride : Z) {struct factors} : res (list cf) :=
  match factors with
  | [] => Raise OutOfBounds
  | (p, m) :: factors =>
      if (p <? 1) || (m <? 1) then Raise OutOfBounds else
      out <- (if m =? 1 then
                mfor (zrange 0 p) (fun i out =>
                  x <- fbget fin (fi + i * (fstride * in_stride)) ;; bset out (o + i) x) out
              else
                mfor (zrange 0 p) (fun i out =>
                  ff_work junk st fin in_stride factors out (o + i * m) (fi + i * (fstride * in_stride)) (fstride * p)) out) ;;
      ff_bfly junk out o fstride st m p
  end.

(** kiss_fft.c:356-359, the phase of twiddle i: -2*pi*i / nfft and phase *= -1 *)
Definition ff_phase (nfft : Z) (inverse : bool) (i : Z) : f64 :=
  let phase := fdiv (fmul (fmul (fofZ (-2)) f_pi) (fofZ i)) (fofZ nfft) in
  if inverse then fmul phase (fofZ (-1)) else phase.
(** kiss_fft.c:339-368 kiss_fft_alloc (mem = lenmem = NULL) *)
Definition ff_alloc (cosf sinf : f64 -> f64) (nfft : Z) (inverse : bool) : res kcfgf :=
  let tw := vmake nfft (fun i => let phase := ff_phase nfft inverse i in (cosf phase, sinf phase)) in
  fac <- kf_factor nfft ;;
  if MAXFACTORS <? zlen fac then Raise OutOfBounds
  else Ok (mkCfgF nfft inverse fac tw).

(** kiss_fft.c:371-389 kiss_fft_stride and kiss_fft, on distinct buffers and in place *)
Definition ff_memcpy (n : Z) (src dst : list cf) : res (list cf) :=
  if (n <=? zlen src) && (n <=? zlen dst) then Ok (vmake (zlen dst) (fun i => if i <? n then vget cf0 src i else vget cf0 dst i))
  else Raise OutOfBounds.
Definition ff_fft_inplace (junk : Z -> cf) (st : kcfgf) (buf : list cf) : res (list cf) :=
  tmp <- ff_work junk st buf 1 (kf_factors st) (vmake (kf_nfft st) junk) 0 0 1 ;;
  ff_memcpy (kf_nfft st) tmp buf.
Definition ff_fft_stride (junk : Z -> cf) (st : kcfgf) (fin fout : list cf) (stride : Z) : res (list cf) :=
  ff_work junk st fin stride (kf_factors st) fout 0 0 1.
Definition ff_fft (junk : Z -> cf) (st : kcfgf) (fin fout : list cf) : res (list cf) := ff_fft_stride junk st fin fout 1.
