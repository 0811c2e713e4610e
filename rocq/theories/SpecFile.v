(** * SpecFile: vocabulary of the file properties (C37-C41), independent of
    the model of file.py. *)
From Coq Require Import ZArith List Bool Ascii SpecFloat.
From Verif Require Import Py Num FloatN MText.
Import ListNotations.
Open Scope Z_scope.

(** A finite binary64 number. *)
Definition fin64 (x : f64) : Prop :=
  valid_binary 53 1024 x = true /\
  match x with S754_zero _ | S754_finite _ _ _ => True | _ => False end.
Definition fin_c (z : f64 * f64) : Prop := fin64 (fst z) /\ fin64 (snd z).

(** Same double, except that the sign of a zero may differ. *)
Definition same64 (a b : f64) : Prop :=
  a = b \/ (exists s t, a = S754_zero s /\ b = S754_zero t).
Definition same_c (a b : f64 * f64) : Prop := same64 (fst a) (fst b) /\ same64 (snd a) (snd b).

(** [p] is what is left of [t] when writing it was interrupted. *)
Definition prefix (p t : txt) : Prop := exists rest, t = p ++ rest.
