(** * MPrint: the printed forms of the containers: __repr__, __str__ and
    pretty_coefs (spherepy/spherepy.py).

    What Python prints for one complex number, [str]/[repr] of a numpy complex
    and "{0:.2}".format(x), is a parameter ([show], [fmt2]); so is the repr of
    a numpy array.  Everything around them is concrete text. *)
From Coq Require Import ZArith List String Ascii Bool.
From Verif Require Import Py Num MCoefs MPatt MText.
Import ListNotations.
Open Scope Z_scope.

(** sep.join(l) *)
Fixpoint join (sep : txt) (l : list txt) : txt :=
  match l with
  | [] => []
  | [x] => x
  | x :: r => x ++ sep ++ join sep r
  end.

(** str of a Python list whose elements print as [l] *)
Definition py_list_text (l : list txt) : txt := lit "[" ++ join (lit ", ") l ++ lit "]".

(** s.center(width) with blanks: CPython puts pad/2 + (pad & width & 1) blanks
    to the left *)
Definition py_center (width : Z) (s : txt) : txt :=
  let pad := width - zlen s in
  if pad <=? 0 then s
  else
    let left := pad / 2 + Z.land (Z.land pad width) 1 in
    repeat " "%char (Z.to_nat left) ++ s ++ repeat " "%char (Z.to_nat (pad - left)).

Section Print.
Variable K : num.
Variable show : cplx K -> txt.
Variable fmt2 : cplx K -> txt.
Variable show_array : mat K -> txt.

(** spherepy.py:356-360 ScalarCoefs.__repr__ *)
Definition sc_repr (c : scoefs K) : res txt :=
  rs <- sc_m_vecs K c ;;
  Ok (lit "ScalarCoefs((nmax = " ++ fmt_int (sc_nmax K c) ++ lit ", mmax = " ++ fmt_int (sc_mmax K c) ++
      lit ") , " ++ py_list_text (map (fun r => py_list_text (map show r)) rs) ++ lit " )").

(** spherepy.py:362-370 ScalarCoefs.__str__ *)
Definition sc_str (c : scoefs K) : res txt :=
  rs <- sc_m_vecs K c ;;
  let st0 := lit "ScalarCoefs(nmax = " ++ fmt_int (sc_nmax K c) ++ lit ", mmax = " ++ fmt_int (sc_mmax K c) ++ lit "):" in
  let st := map (fun nx => lit "n = " ++ fmt_int (fst nx) ++ lit " :: " ++ py_list_text (map show (snd nx)))
                (combine (zrange 0 (zlen rs)) rs) in
  Ok (join [nl] (st0 :: st)).

(** spherepy.py:713-715 VectorCoefs.__repr__; there is no __str__, so str()
    gives the same *)
Definition vc_repr (c : vcoefs K) : txt :=
  lit "VectorCoefs(nmax = " ++ fmt_int (vc_nmax K c) ++ lit ", mmax = " ++ fmt_int (vc_mmax K c) ++ lit ")".

(** spherepy.py:997-999 ScalarPatternUniform.__repr__ *)
Definition sp_repr (d : mat K) : txt :=
  lit "ScalarPatternUniform(" ++ show_array (p_array K d) ++ lit ")".

(** spherepy.py:1185-1187 TransversePatternUniform.__repr__: the repr of a
    pair of arrays *)
Definition tp_repr (p : tpatt K) : txt :=
  lit "(" ++ show_array (p_array K (tp_t K p)) ++ lit ", " ++ show_array (p_array K (tp_p K p)) ++ lit ")".

(** spherepy.py:1784-1788 _tiny_rep: sr[0] of an empty string would raise;
    a formatted number is never empty *)
Definition tiny_rep (x : cplx K) : txt :=
  let sr := fmt2 x in
  match sr with
  | c :: r => if Ascii.eqb c "("%char then removelast r else sr
  | [] => sr
  end.

(** spherepy.py:121-131 pretty_display_string.format(sa[0], ..., sa[8]) *)
Definition pretty_display (sa : Z -> txt) : txt :=
  [nl; nl] ++ lit "c[n, m]" ++ [nl] ++ lit "=======" ++ [nl; nl] ++
  lit "2: " ++ sa 7 ++ lit "  " ++ sa 4 ++ lit "  " ++ sa 2 ++ lit "  " ++ sa 6 ++ lit "  " ++ sa 8 ++ lit " " ++ [nl] ++
  lit "1:                " ++ sa 3 ++ lit "  " ++ sa 1 ++ lit "  " ++ sa 5 ++ lit " " ++ [nl] ++
  lit "0:                               " ++ sa 0 ++ lit "   " ++ [nl] ++
  lit "n  -------------  -------------  -------------  -------------  -------------  " ++ [nl] ++
  lit "       m = -2         m = -1         m = 0          m = 1          m = 2        " ++ [nl].

(** spherepy.py:1790-1828 pretty_coefs: what it prints *)
Definition pretty_coefs (c : scoefs K) : res txt :=
  cells <- pretty_cells K tiny_rep [] (py_center 13) c ;;
  Ok (pretty_display (fun k => vget [] cells k) ++ [nl]).
End Print.
