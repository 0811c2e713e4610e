(** * MIpow: the powers 1j ** m of pysphi.py as CPython computes them.

    pysphi.py:186, 189 and 238 evaluate 1j ** (-m) and 1j ** m with m a Python
    int.  CPython (Objects/complexobject.c, complex_pow, c_powi, c_powu,
    _Py_c_prod, _Py_c_quot, _Py_c_pow; the same in all versions 2.7 - 3.12)
    multiplies complex doubles for |m| <= 100 and calls hypot, pow, atan2, cos
    and sin of the C library otherwise.  CPython is not part of /repo: this is a
    model of the interpreter the code runs on.  In the library branch hypot(0, 1)
    and pow(1, m) are 1 (C99 Annex F); the value [at2] of atan2(1, 0) and the
    functions cos and sin are parameters.  No signs of zero are lost: all
    operations are those of binary64. *)
From Coq Require Import ZArith List Bool SpecFloat.
From Verif Require Import Py FloatN MDouble.
Open Scope Z_scope.

Definition f_zero : f64 := fofZ 0.
Definition f_abs_neg (x : f64) : f64 := if SFltb x f_zero then SFopp x else x.

(** the literals 1j and 1 + 0j (pysphi.py:186, 189, 238) *)
Definition c_j : cf := (fofZ 0, fofZ 1).
Definition c_one : cf := (fofZ 1, fofZ 0).

(** _Py_c_quot: [None] for the EDOM error (ZeroDivisionError) *)
Definition c_quot (a b : cf) : option cf :=
  let abr := f_abs_neg (fst b) in
  let abi := f_abs_neg (snd b) in
  if SFleb abi abr then
    if SFeqb abr f_zero then None
    else
      let ratio := fdiv (snd b) (fst b) in
      let denom := fadd (fst b) (fmul (snd b) ratio) in
      Some (fdiv (fadd (fst a) (fmul (snd a) ratio)) denom, fdiv (fsub (snd a) (fmul (fst a) ratio)) denom)
  else if SFleb abr abi then
    let ratio := fdiv (fst b) (snd b) in
    let denom := fadd (fmul (fst b) ratio) (snd b) in
    Some (fdiv (fadd (fmul (fst a) ratio) (snd a)) denom, fdiv (fsub (fmul (snd a) ratio) (fst a)) denom)
  else Some (S754_nan, S754_nan).

(** c_powu: square and multiply, from the lowest bit *)
Fixpoint c_powu_loop (r p : cf) (n : positive) : cf :=
  match n with
  | xH => cfmul r p
  | xO n' => c_powu_loop r (cfmul p p) n'
  | xI n' => c_powu_loop (cfmul r p) (cfmul p p) n'
  end.
Definition c_powu (x : cf) (n : Z) : cf :=
  match n with Zpos p => c_powu_loop c_one x p | _ => c_one end.

(** _Py_c_pow at a = 1j and a non-zero real exponent m: len = 1.0, phase = at * m *)
Definition c_pow_j (at2 : f64) (cosf sinf : f64 -> f64) (m : Z) : cf :=
  let phase := fmul at2 (fofZ m) in
  (fmul (fofZ 1) (cosf phase), fmul (fofZ 1) (sinf phase)).

(** complex_pow and c_powi: 1j ** m *)
Definition py_ipow (at2 : f64) (cosf sinf : f64 -> f64) (m : Z) : option cf :=
  if (100 <? m) || (m <? -100) then Some (c_pow_j at2 cosf sinf m)
  else if 0 <? m then Some (c_powu c_j m)
  else c_quot c_one (c_powu c_j (- m)).
