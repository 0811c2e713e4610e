(** * MCsphiF: csphi.c's fc_to_sc as a whole in double precision.

    MCsphi reads the same lines over the real numbers; MDouble has the loop of
    bnm_fc in binary64 ([fc_bnm]) for given contents of hkm.  Here the missing
    part, SData and hkm_fc with its two FFTs (MKissF), is added, so that the
    routine is modelled from its argument fdata to its result sc.  Ints are
    unbounded (C63 is about the 32 bit ones); [junk], [junkr], [junki] are the
    contents of memory obtained from malloc; [cosf], [sinf] the math library.
    An access outside a buffer is [OutOfBounds]. *)
From Coq Require Import ZArith List Bool SpecFloat.
From Verif Require Import Py FloatN MDouble MPysphi MKiss MCsphi MKissF.
Import ListNotations.
Open Scope list_scope.
Open Scope Z_scope.

(** csphi.c:149-166 SData; s[j].i = x *)
Definition set_imf (s : list cf) (j : Z) (x : f64) : res (list cf) :=
  v <- fbget s j ;; bset s j (fst v, x).
Definition SDataF (s : list cf) (Q Nrows Nmax : Z) : res (list cf) :=
  let nn := Nmax + 1 in
  s <- cfill cf0 s Q ;;
  let mm := Z.quot Nrows 2 in
  s <- mfor (zrange mm (mm + nn - 1 + 1)) (fun k s =>
         if Z.rem k 2 =? 1 then set_imf s (k - mm) (fdiv (fofZ (-1)) (fofZ k)) else Ok s) s ;;
  mfor (zrange (- mm) mm) (fun k s =>
    if Z.rem (Z.abs k) 2 =? 1 then set_imf s (Q + k - mm) (fdiv (fofZ (-1)) (fofZ k)) else Ok s) s.

(** csphi.c:228-229: 4.0*PI*x/(SFLOAT)Q, read from left to right *)
Definition scale4pi (Q : Z) (x : f64) : f64 := fdiv (fmul (fmul (fofZ 4) f_pi) x) (fofZ Q).
(** csphi.c:188-238 hkm_fc: the contents of hkm and ff afterwards *)
Definition ff_hkm_fc (junk : Z -> cf) (gcoef : list cf) (Nrow Ncol n m : Z) (hkm : list cf) (len : Z)
    (ss : list cf) (Q : Z) (ff : list cf) (fw bw : kcfgf) : res (list cf * list cf) :=
  ff <- cfill cf0 ff Q ;;
  hkm <- cfill cf0 hkm len ;;
  let ind := if 0 <=? m then m else Ncol + m in
  let mm := Z.quot Nrow 2 in
  ff <- mfor (zrange 0 mm) (fun k ff =>
          x <- fbget gcoef (Ncol * (mm + k) + ind) ;;
          ff <- bset ff k x ;;
          x <- fbget gcoef (Ncol * k + ind) ;;
          bset ff (mm + k) x) ff ;;
  ff <- ff_fft_inplace junk fw ff ;;
  ff <- mfor (zrange 0 Q) (fun k ff =>
          f <- fbget ff k ;;
          s <- fbget ss k ;;
          bset ff k (cfmul s f)) ff ;;
  ff <- ff_fft_inplace junk bw ff ;;
  hkm <- mfor (zrange 0 len) (fun k hkm =>
           f <- fbget ff k ;;
           bset hkm k (scale4pi Q (fst f), scale4pi Q (snd f))) hkm ;;
  Ok (hkm, ff).

(** csphi.c:262-312 bnm_fc, vec = sc + off: the contents of sc, ff, hkm, y afterwards *)
Definition ff_bnm_fc (junk : Z -> cf) (fdata : list cf) (Nrow Ncol Nmax m : Z) (off : Z)
    (ss : list cf) (Q : Z) (Lhkm Ly : Z) (fw bw : kcfgf) (st : list cf * list cf * list cf * list f64)
    : res (list cf * list cf * list cf * list f64) :=
  let '(sc, ff, hkm, y) := st in
  h <- ff_hkm_fc junk fdata Nrow Ncol Nmax m hkm Lhkm ss Q ff fw bw ;;
  let '(hkm, ff) := h in
  r <- fc_bnm hkm Nmax m off Ly (sc, y) ;;
  Ok (fst r, ff, hkm, snd r).

(** csphi.c:327-423 fc_to_sc: the contents of sc afterwards *)
Definition ff_fc_to_sc (cosf sinf : f64 -> f64) (junk : Z -> cf) (junkr : Z -> f64) (junki : Z -> Z)
    (fdata : list cf) (Nrow Ncol : Z) (sc : list cf) (Nmax Mmax : Z) : res (list cf) :=
  Q <- FindQ (Nrow + Nmax) ;;
  s <- SDataF (vmake Q junk) Q Nrow Nmax ;;
  fw <- ff_alloc cosf sinf Q false ;;
  bw <- ff_alloc cosf sinf Q true ;;
  s <- ff_fft_inplace junk fw s ;;
  let hkm := vmake (Nmax + 1) junk in
  let y := vmake (Nmax + 1) junkr in
  let ff := vmake Q junk in
  inds <- c_inds Nmax Mmax junki ;;
  st <- ff_bnm_fc junk fdata Nrow Ncol Nmax 0 0 s Q (Nmax + 1) (Nmax + 1) fw bw (sc, ff, hkm, y) ;;
  st <- mfor (zrange 1 (Mmax + 1)) (fun m st =>
          pt <- ibget inds (2 * m - 1) ;;
          st <- ff_bnm_fc junk fdata Nrow Ncol Nmax (- m) pt s Q (Nmax + 1) (Nmax + 1) fw bw st ;;
          pt <- ibget inds (2 * m) ;;
          ff_bnm_fc junk fdata Nrow Ncol Nmax m pt s Q (Nmax + 1) (Nmax + 1) fw bw st) st ;;
  let '(sc, _, _, _) := st in
  Ok sc.
