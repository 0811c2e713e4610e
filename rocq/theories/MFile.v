(** * MFile: spherepy/file.py over binary64 values and ASCII file contents.

    A file is its contents.  [save_*] return the text the program has written
    when it returns; a save interrupted by a crash leaves a prefix of that
    text.  [load_*] take the text.  Opening and closing files (and their
    failures) are not modelled. *)
From Coq Require Import ZArith List Bool Ascii String SpecFloat.
From Verif Require Import Py Num MCoefs MPatt FloatN MText.
Import ListNotations.
Open Scope Z_scope.

Notation fc := (cplx FN).

(** "{0},{1}\n".format(a, b) (file.py:64 and 90) *)
Definition fmt_header (a b : Z) : txt := fmt_int a ++ comma :: fmt_int b ++ [nl].

(** "{0:.16e},{1:.16e}\n".format(x.real, x.imag) (file.py:85, 92-93) *)
Definition fmt_coef_line (x : fc) : txt :=
  fmt_e16 (fst x) ++ comma :: fmt_e16 (snd x) ++ [nl].

(** "{0},{1},{2:.16e},{3:.16e}\n" (file.py:59, 67-68) *)
Definition fmt_patt_line (nr nc : Z) (x : fc) : txt :=
  fmt_int nr ++ comma :: fmt_int nc ++ comma :: fmt_coef_line x.

(** file.py:71-94 save_coef *)
Definition save_coef (c : scoefs FN) : res txt :=
  let nmax := sc_nmax FN c in
  let mmax := sc_mmax FN c in
  let L := (nmax + 1) + mmax * (2 * nmax - mmax + 1) in
  mfor (zrange 0 L)
    (fun n out => x <- py_get (c0 FN) (sc_vec FN c) n ;; Ok (out ++ fmt_coef_line x))
    (fmt_header nmax mmax).

(** ar[nr, nc] with numpy's bounds checks *)
Definition mat_get (a : mat FN) (i j : Z) : res fc :=
  i <- py_index (mt_nr FN a) i ;; j <- py_index (mt_nc FN a) j ;; Ok (mget FN a i j).
(** patt[n, m] = x *)
Definition mat_set (a : mat FN) (i j : Z) (x : fc) : res (mat FN) :=
  i <- py_index (mt_nr FN a) i ;; j <- py_index (mt_nc FN a) j ;; Ok (mset FN a i j x).

(** file.py:44-68 save_patt of a ScalarPatternUniform with field _dsphere = d *)
Definition save_patt (d : mat FN) : res txt :=
  let nrows := p_nrows FN d in
  let ncols := p_ncols FN d in
  let ar := p_array FN d in
  mfor (zrange 0 nrows)
    (fun nr out =>
       mfor (zrange 0 ncols)
         (fun nc out => x <- mat_get ar nr nc ;; Ok (out ++ fmt_patt_line nr nc x)) out)
    (fmt_header nrows ncols).

(** re + 1j * im in Python complex arithmetic: 1j * im is
    (0*im - 1*0) + (0*0 + 1*im) j, and re is promoted to re + 0j. *)
Definition entry (re im : f64) : fc := cadd FN (cofR FN re) (cmul FN (ci FN) (cofR FN im)).

Definition field (lst : list txt) (i : Z) : res txt := @py_get txt [] lst i.

(** for x in l: s = f(x, s) *)
Fixpoint lfor {A S} (l : list A) (f : A -> S -> res S) (s : S) : res S :=
  match l with
  | [] => Ok s
  | a :: l' => s' <- f a s ;; lfor l' f s'
  end.

(** np.zeros([a, b]) *)
Definition np_zeros2 (a b : Z) : res (mat FN) :=
  if (a <? 0) || (b <? 0) then Raise NumpyError
  else Ok (mmake FN a b (fun _ _ => c0 FN)).

(** file.py:109-115 (and 133-139, 151-157, 173-179): one line of a pattern file *)
Definition load_patt_line (line : txt) (patt : mat FN) : res (mat FN) :=
  let lst := split_at comma line in
  s0 <- field lst 0 ;; n <- parse_int s0 ;;
  s1 <- field lst 1 ;; m <- parse_int s1 ;;
  s2 <- field lst 2 ;; re <- parse_float s2 ;;
  s3 <- field lst 3 ;; im <- parse_float s3 ;;
  mat_set patt n m (entry re im).

(** file.py:161-181 load_fdata; the same statements are repeated in load_patt
    (96-115) and twice in load_vpatt (119-157). *)
Definition load_fdata (file : txt) : res (mat FN) :=
  let lines := readlines file in
  l0 <- field lines 0 ;;
  let lst := split_at comma l0 in
  s0 <- field lst 0 ;; a <- parse_int s0 ;;
  s1 <- field lst 1 ;; b <- parse_int s1 ;;
  patt <- np_zeros2 a b ;;
  lfor (tl lines) load_patt_line patt.

(** file.py:96-117 load_patt *)
Definition load_patt (file : txt) : res (mat FN) :=
  patt <- load_fdata file ;; sp_new FN patt false.

(** file.py:119-159 load_vpatt *)
Definition load_vpatt (file1 file2 : txt) : res (tpatt FN) :=
  patt1 <- load_fdata file1 ;;
  patt2 <- load_fdata file2 ;;
  tp_new FN patt1 patt2 false.

(** np.zeros(L, dtype=np.complex128) *)
Definition np_zeros1 (L : Z) : res (list fc) := np_fill FN L (fun _ => c0 FN).

(** file.py:200-204: one coefficient line; the loop state is (n, vec). *)
Definition load_coef_line (line : txt) (st : Z * list fc) : res (Z * list fc) :=
  let '(n, vec) := st in
  let lst := split_at comma line in
  s0 <- field lst 0 ;; re <- parse_float s0 ;;
  s1 <- field lst 1 ;; im <- parse_float s1 ;;
  vec <- py_set vec n (entry re im) ;;
  Ok (n + 1, vec).

(** file.py:183-206 load_coef: the loop state is (n, vec). *)
Definition load_coef (file : txt) : res (scoefs FN) :=
  let lines := readlines file in
  l0 <- field lines 0 ;;
  let lst := split_at comma l0 in
  s0 <- field lst 0 ;; nmax <- parse_int s0 ;;
  s1 <- field lst 1 ;; mmax <- parse_int s1 ;;
  let L := (nmax + 1) + mmax * (2 * nmax - mmax + 1) in
  vec <- np_zeros1 L ;;
  '(_, vec) <- lfor (tl lines) load_coef_line (0, vec) ;;
  sc_new FN vec nmax mmax.

(** file.py:231-245: one line of a VectorCoefs file; the loop state is
    (n, in_vec2, vec1, vec2). *)
Definition load_vcoef_line (line : txt) (st : Z * bool * list fc * list fc) : res (Z * bool * list fc * list fc) :=
  let '(n, in_vec2, vec1, vec2) := st in
  if txt_eqb (strip line) (lit "break") then Ok (0, true, vec1, vec2)
  else
    let lst := split_at comma line in
    s0 <- field lst 0 ;; re <- parse_float s0 ;;
    s1 <- field lst 1 ;; im <- parse_float s1 ;;
    (if in_vec2 then
       vec2 <- py_set vec2 n (entry re im) ;; Ok (n + 1, in_vec2, vec1, vec2)
     else
       vec1 <- py_set vec1 n (entry re im) ;; Ok (n + 1, in_vec2, vec1, vec2)).

(** file.py:208-248 load_vcoef. *)
Definition load_vcoef (file : txt) : res (vcoefs FN * f64) :=
  let lines := readlines file in
  l0 <- field lines 0 ;;
  let lst := split_at comma l0 in
  s0 <- field lst 0 ;; nmax <- parse_int s0 ;;
  s1 <- field lst 1 ;; mmax <- parse_int s1 ;;
  s2 <- field lst 2 ;; directivity <- parse_float s2 ;;
  let L := (nmax + 1) + mmax * (2 * nmax - mmax + 1) in
  vec1 <- np_zeros1 L ;;
  vec2 <- np_zeros1 L ;;
  '(_, _, vec1, vec2) <- lfor (tl lines) load_vcoef_line (0, false, vec1, vec2) ;;
  c <- vc_new FN vec1 vec2 nmax mmax ;;
  Ok (c, directivity).
