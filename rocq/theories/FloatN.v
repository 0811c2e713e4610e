(** * FloatN: binary64 instance of [num] (Coq's executable specification of
    IEEE floats, no axioms), used for witnesses about rounding.  Only the
    four operations, square root and the comparisons are meaningful; pi, sin
    and cos are not provided (set to trivial functions and never used). *)
From Coq Require Import ZArith List Bool SpecFloat.
From Verif Require Import Py Num.
Open Scope Z_scope.

Definition f64 := spec_float.
Definition fadd := SFadd 53 1024.
Definition fsub := SFsub 53 1024.
Definition fmul := SFmul 53 1024.
Definition fdiv := SFdiv 53 1024.
Definition fofZ (z : Z) : f64 :=
  match z with
  | Z0 => S754_zero false
  | Zpos p => binary_normalize 53 1024 (Zpos p) 0 false
  | Zneg p => binary_normalize 53 1024 (Zneg p) 0 true
  end.
(** z * 2^e *)
Definition fscale (z e : Z) : f64 := binary_normalize 53 1024 z e false.

Definition FN : num :=
  mkNum f64 (S754_zero false) (fofZ 1) fadd fsub fmul fdiv SFopp fofZ (SFsqrt 53 1024)
        (fofZ 3) (fun x => x) (fun x => x) SFltb SFeqb.
