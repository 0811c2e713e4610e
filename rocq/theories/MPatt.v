(** * MPatt: model of ScalarPatternUniform, TransversePatternUniform, the
    pattern factories, continue_sphere / double_sphere, magnitudes and norms
    (spherepy/spherepy.py:917-1364, 1525-1782, 2184-2218). *)
From Coq Require Import ZArith List String Bool.
From Verif Require Import Py Num MCoefs.
Import ListNotations.
Open Scope string_scope.
Open Scope list_scope.
Open Scope Z_scope.

Section Patt.
Variable K : num.
Notation C := (cplx K).
Notation mat := (mat K).

(** Same shape (a.shape == b.shape for 2-D arrays). *)
Definition same_shape (a b : mat) : bool :=
  (mt_nr K a =? mt_nr K b) && (mt_nc K a =? mt_nc K b).

(** a op b for 2-D arrays of equal shape; a op x for a number x. *)
Definition mzip (f : C -> C -> C) (a b : mat) : mat :=
  mmake K (mt_nr K a) (mt_nc K a) (fun i j => f (mget K a i j) (mget K b i j)).
Definition mmap1 (f : C -> C) (a : mat) : mat :=
  mmake K (mt_nr K a) (mt_nc K a) (fun i j => f (mget K a i j)).

(** a[0:k, :] *)
Definition mrows (a : mat) (k : Z) : mat :=
  mmake K (Z.max 0 (Z.min k (mt_nr K a))) (mt_nc K a) (fun i j => mget K a i j).

(** spherepy.py:1751-1782 double_sphere(cdata, sym): the two loops write each
    cell of ddata once, reading only cdata, so ddata is given cell by cell. *)
Definition ds_partner (sym : Z) (a : mat) (n m : Z) : C :=
  cmul K (cofZ K sym)
    (mget K a ((mt_nr K a - n) mod (mt_nr K a)) ((mt_nc K a / 2 + m) mod (mt_nc K a))).
Definition ds_comb (s t : C) : C :=
  if ceqb K (cmul K s t) (c0 K) then cadd K s t
  else cdiv K (cadd K s t) (cofZ K 2).
Definition double_sphere (cdata : mat) (sym : Z) : mat :=
  mmake K (mt_nr K cdata) (mt_nc K cdata)
    (fun n m => ds_comb (ds_partner sym cdata n m) (mget K cdata n m)).

(** spherepy.py:1741-1748 continue_sphere(cdata, sym); np.zeros raises for a
    negative number of rows. *)
Definition continue_sphere (cdata : mat) (sym : Z) : res mat :=
  if mt_nr K cdata - 2 <? 0 then Raise NumpyError
  else
    let ddata := mmake K (mt_nr K cdata + (mt_nr K cdata - 2)) (mt_nc K cdata)
                   (fun i j => if i <? mt_nr K cdata then mget K cdata i j else c0 K) in
    Ok (double_sphere ddata sym).

(** ** ScalarPatternUniform: the object is its field _dsphere. *)

(** spherepy.py:990-995 __init__ *)
Definition sp_new (cdata : mat) (doublesphere : bool) : res mat :=
  if doublesphere then Ok cdata else continue_sphere cdata 1.

(** spherepy.py:1001-1018 nrows, ncols, shape (and 1189-1199 for
    TransversePatternUniform).  int(x / 2) of a shape. *)
Definition p_nrows (d : mat) : Z := mt_nr K d / 2 + 1.
Definition p_ncols (d : mat) : Z := mt_nc K d.

(** spherepy.py:1027-1037 array, cdata (1205-1216 for the vector class) *)
Definition p_array (d : mat) : mat := mrows d (p_nrows d).

(** Body of the loop of single_val (spherepy.py:1056-1071) and _sv
    (1252-1267): sgn is 1 resp. -1. [sabs >= sv] is rendered as
    not (sabs < sv): NaN is outside the model. *)
Definition sv_step (sgn : Z) (d : mat) (n m : Z) (sv : rc K) : rc K :=
  let s0 := mget K d ((mt_nr K d - n) mod (mt_nr K d)) ((mt_nc K d / 2 + m) mod (mt_nc K d)) in
  let s := if sgn =? 1 then s0 else copp K s0 in
  let t := mget K d n m in
  if negb (ceqb K s (c0 K)) then
    let sabs := cabs K (cdiv K (csub K s t) s) in
    if negb (rltb K sabs sv) then sabs else sv
  else if negb (ceqb K t (c0 K)) then
    let sabs := r1 K in
    if negb (rltb K sabs sv) then sabs else sv
  else sv.
Definition sv_loop (sgn : Z) (d : mat) : rc K :=
  pfor (zrange 0 (mt_nr K d)) (fun n sv =>
    pfor (zrange 0 (mt_nc K d)) (fun m sv => sv_step sgn d n m sv) sv) (r0 K).

(** spherepy.py:1048-1071 single_val, 1039-1045 is_symmetric *)
Definition sp_single_val (d : mat) : rc K := sv_loop 1 d.
Definition sp_is_symmetric (d : mat) : bool :=
  rltb K (sp_single_val d) (rdiv K (r1 K) (rofZ K (10 ^ 14))).

(** Right operand of a pattern operator. *)
Inductive sp_operand : Type := SPndP (d : mat) | SPndNum (x : C) | SPndOther.

(** Result of an operator: [PHolds d] is a pattern with _dsphere = d,
    [PExc] is a pattern whose _dsphere is a ZeroDivisionError instance
    (spherepy.py:1132-1135, 1150-1153 return the exception object). *)
Inductive sp_res : Type := PHolds (d : mat) | PExc.

(** spherepy.py:1073-1093 _scalar_pattern_uniform_op_left with 1107-1156 *)
Definition sp_op_left (o : binop) (d : mat) (b : sp_operand) : res sp_res :=
  match b with
  | SPndP d' =>
      if same_shape d d' then Ok (PHolds (mzip (binop_fun K o) d d'))
      else Raise (ValueError "SP_sz_msmtch")
  | SPndNum x =>
      match o with
      | OpDiv => if ceqb K x (c0 K) then Ok PExc else Ok (PHolds (mmap1 (fun a => cdiv K a x) d))
      | _ => Ok (PHolds (mmap1 (fun a => binop_fun K o a x) d))
      end
  | SPndOther => Raise (TypeError "no_combi_SP")
  end.

(** spherepy.py:1095-1105 _scalar_pattern_uniform_op_right with 1111-1165 *)
Definition sp_op_right (o : binop) (d : mat) (b : sp_operand) : res sp_res :=
  match b with
  | SPndNum x => Ok (PHolds (mmap1 (fun a => binop_fun K o x a) d))
  | _ => Raise (TypeError "no_combi_SP")
  end.

(** ** TransversePatternUniform *)

Record tpatt : Type := mkTP { tp_t : mat; tp_p : mat }.

(** spherepy.py:1173-1183 __init__ *)
Definition tp_new (tc pc : mat) (doublesphere : bool) : res tpatt :=
  if negb (same_shape tc pc) then Raise (ValueError "shape_tc_pc")
  else if doublesphere then Ok (mkTP tc pc)
  else
    t <- continue_sphere tc (-1) ;;
    p <- continue_sphere pc (-1) ;;
    Ok (mkTP t p).

(** spherepy.py:1235-1243 single_val: both entries use _tdsphere *)
Definition tp_single_val (p : tpatt) : rc K * rc K := (sv_loop (-1) (tp_t p), sv_loop (-1) (tp_t p)).
(** spherepy.py:1227-1232 is_symmetric *)
Definition tp_is_symmetric (p : tpatt) : bool :=
  let tol := rdiv K (r1 K) (rofZ K (10 ^ 13)) in
  rltb K (fst (tp_single_val p)) tol && rltb K (snd (tp_single_val p)) tol.

Inductive tp_operand : Type := TPndP (p : tpatt) | TPndNum (x : C) | TPndOther.

(** spherepy.py:1269-1292 _vector_pattern_uniform_op_left with 1306-1352.
    Division by the number 0 hands ZeroDivisionError instances to __init__,
    which reads their .shape: AttributeError. *)
Definition tp_op_left (o : binop) (a : tpatt) (b : tp_operand) : res tpatt :=
  match b with
  | TPndP b =>
      if same_shape (tp_t a) (tp_t b) then
        tp_new (mzip (binop_fun K o) (tp_t a) (tp_t b)) (mzip (binop_fun K o) (tp_p a) (tp_p b)) true
      else Raise (ValueError "VP_sz_msmtch")
  | TPndNum x =>
      match o with
      | OpDiv => if ceqb K x (c0 K) then Raise (AttributeError "no attribute 'shape'")
                 else tp_new (mmap1 (fun a => cdiv K a x) (tp_t a)) (mmap1 (fun a => cdiv K a x) (tp_p a)) true
      | _ => tp_new (mmap1 (fun a => binop_fun K o a x) (tp_t a)) (mmap1 (fun a => binop_fun K o a x) (tp_p a)) true
      end
  | TPndOther => Raise (TypeError "no_combi_VP")
  end.

(** spherepy.py:1294-1304 _vector_pattern_uniform_op_right *)
Definition tp_op_right (o : binop) (a : tpatt) (b : tp_operand) : res tpatt :=
  match b with
  | TPndNum x => tp_new (mmap1 (fun a => binop_fun K o x a) (tp_t a)) (mmap1 (fun a => binop_fun K o x a) (tp_p a)) true
  | _ => Raise (TypeError "no_combi_VP")
  end.

(** ** Factories *)

Inductive anypatt : Type := AnySP (d : mat) | AnyTP (p : tpatt).

Definition np_full (nr nc : Z) (x : C) : res mat :=
  if (nr <? 0) || (nc <? 0) then Raise NumpyError else Ok (mmake K nr nc (fun _ _ => x)).

(** spherepy.py:1560-1573 zeros_patt_uniform and 1609-1622 ones_patt_uniform
    (x = 0 resp. 1) *)
Definition const_patt_uniform (x : C) (nrows ncols patt_type : Z) : res anypatt :=
  if ncols mod 2 =? 1 then Raise (ValueError "ncols_even")
  else if patt_type =? 0 then
    d <- np_full (2 * nrows - 2) ncols x ;;
    d <- sp_new d true ;; Ok (AnySP d)
  else if patt_type =? 1 then
    t <- np_full (2 * nrows - 2) ncols x ;;
    p <- np_full (2 * nrows - 2) ncols x ;;
    q <- tp_new t p true ;; Ok (AnyTP q)
  else Raise (TypeError "ukn_patt_t").
Definition zeros_patt_uniform := const_patt_uniform (c0 K).
Definition ones_patt_uniform := const_patt_uniform (c1 K).

(** spherepy.py:1659-1680 random_patt_uniform. [d1], [d2] are the drawn
    vectors (normal + 1j*normal) reshaped row-major to (nrows, ncols). *)
Definition random_patt_uniform (d1 d2 : Z -> C) (nrows ncols patt_type : Z) : res anypatt :=
  if ncols mod 2 =? 1 then Raise (ValueError "ncols_even")
  else if (nrows <? 0) || (ncols <? 0) then
    (if (patt_type =? 0) || (patt_type =? 1) then Raise NumpyError else Raise (TypeError "ukn_patt_t"))
  else if patt_type =? 0 then
    d <- sp_new (mkMat K nrows ncols (vmake (nrows * ncols) d1)) false ;; Ok (AnySP d)
  else if patt_type =? 1 then
    q <- tp_new (mkMat K nrows ncols (vmake (nrows * ncols) d1))
                (mkMat K nrows ncols (vmake (nrows * ncols) d2)) false ;; Ok (AnyTP q)
  else Raise (TypeError "ukn_patt_t").

(** ** Magnitudes and norms *)

(** Argument of the generic functions. *)
Inductive sobj : Type :=
| OSP (d : mat) | OTP (p : tpatt) | OSC (c : scoefs K) | OVC (c : vcoefs K) | OOther.
Inductive mres : Type := MArr (a : mat) | MCoef (c : scoefs K).

Definition habs (x : C) : C := cofR K (cabs K x).
Definition habs2 (x : C) : C := cofR K (cabs2 K x).

(** spherepy.py:1701-1707 abs *)
Definition sp_abs (o : sobj) : res mres :=
  match o with
  | OSP d => Ok (MArr (mmap1 habs (p_array d)))
  | OSC c => r <- sc_new K (map habs (sc_vec K c)) (sc_nmax K c) (sc_mmax K c) ;; Ok (MCoef r)
  | _ => Raise (TypeError "uknown_typ")
  end.

(** spherepy.py:1709-1721 mag2 (the ScalarCoefs branch does not square) *)
Definition sp_mag2 (o : sobj) : res mres :=
  match o with
  | OSP d => Ok (MArr (mmap1 habs2 (p_array d)))
  | OSC c => r <- sc_new K (map habs (sc_vec K c)) (sc_nmax K c) (sc_mmax K c) ;; Ok (MCoef r)
  | OTP p => Ok (MArr (mzip (cadd K) (mmap1 habs2 (p_array (tp_t p))) (mmap1 habs2 (p_array (tp_p p)))))
  | OVC c =>
      v <- np_broadcast (cadd K) (map habs2 (sc_vec K (vc_1 K c))) (map habs2 (sc_vec K (vc_2 K c))) ;;
      r <- sc_new K v (vc_nmax K c) (vc_mmax K c) ;; Ok (MCoef r)
  | OOther => Raise (TypeError "uknown_typ")
  end.

Definition hsqrt (x : C) : C := cofR K (rsqrt K (fst x)).

(** spherepy.py:1723-1734 mag *)
Definition sp_mag (o : sobj) : res mres :=
  match o with
  | OSP d => Ok (MArr (mmap1 habs (p_array d)))
  | OSC c => r <- sc_new K (map habs (sc_vec K c)) (sc_nmax K c) (sc_mmax K c) ;; Ok (MCoef r)
  | OTP p => r <- sp_mag2 o ;;
             match r with MArr a => Ok (MArr (mmap1 hsqrt a)) | MCoef _ => Raise (TypeError "uknown_typ") end
  | OVC c => r <- sp_mag2 o ;;
             match r with
             | MCoef d => e <- sc_new K (map hsqrt (sc_vec K d)) (vc_nmax K c) (vc_mmax K c) ;; Ok (MCoef e)
             | MArr _ => Raise (TypeError "uknown_typ") end
  | OOther => Raise (TypeError "uknown_typ")
  end.

(** spherepy.py:1736-1739 compare_relative *)
Definition compare_relative (a b : scoefs K) : res (rc K) :=
  d <- np_broadcast (csub K) (sc_vec K a) (sc_vec K b) ;;
  Ok (rdiv K (rsum K (map (cabs K) d)) (rsum K (map (cabs K) (sc_vec K a)))).

Definition l2 (v : list C) : rc K := rsqrt K (rsum K (map (cabs2 K) v)).
Definition hypot2 (x y : rc K) : rc K := rsqrt K (radd K (rmul K x x) (rmul K y y)).

(** np.max of |.| over a non-empty array *)
Definition rmax (x y : rc K) : rc K := if rltb K x y then y else x.
Definition linf (v : list C) : res (rc K) :=
  match map (cabs K) v with
  | [] => Raise (ValueError "zero-size array to reduction operation")
  | x :: l => Ok (fold_left rmax l x)
  end.

(** spherepy.py:2184-2191 L2_coef (scoef1 is used twice) *)
Definition L2_coef_s (c : scoefs K) : rc K := l2 (sc_vec K c).
Definition L2_coef_v (c : vcoefs K) : rc K :=
  hypot2 (l2 (sc_vec K (vc_1 K c))) (l2 (sc_vec K (vc_1 K c))).
(** spherepy.py:2193-2200 L2_patt (over the doubled sphere) *)
Definition L2_patt_s (d : mat) : rc K := l2 (mt_dat K d).
Definition L2_patt_v (p : tpatt) : rc K := hypot2 (l2 (mt_dat K (tp_t p))) (l2 (mt_dat K (tp_p p))).
(** spherepy.py:2202-2209 LInf_coef *)
Definition LInf_coef_s (c : scoefs K) : res (rc K) := linf (sc_vec K c).
Definition LInf_coef_v (c : vcoefs K) : res (rc K) :=
  a <- linf (sc_vec K (vc_1 K c)) ;; b <- linf (sc_vec K (vc_2 K c)) ;; Ok (hypot2 a b).
(** spherepy.py:2211-2218 LInf_patt *)
Definition LInf_patt_s (d : mat) : res (rc K) := linf (mt_dat K d).
Definition LInf_patt_v (p : tpatt) : res (rc K) :=
  a <- linf (mt_dat K (tp_t p)) ;; b <- linf (mt_dat K (tp_p p)) ;; Ok (hypot2 a b).

End Patt.
