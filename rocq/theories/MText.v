(** * MText: Python's text <-> number conversions used by file.py.

    file.py writes numbers with ["{0},{1}"] (integers) and ["{:.16e}"]
    (floats) and reads them back with [int()] and [float()].  This file gives
    the meaning of those four builtins over ASCII text ([list ascii]).  They
    are Python builtins, not code of /repo: this meaning is part of the
    trusted base (DESIGN.md).  Simplifications: the underscore separators
    ("1_000") and non-ASCII digits that newer Python versions accept are
    rejected here; save_coef/save_patt never write them. *)
From Coq Require Import ZArith List Bool Ascii String SpecFloat.
From Verif Require Import Py Num FloatN.
Import ListNotations.
Open Scope Z_scope.

Definition txt := list ascii.
Definition lit (s : string) : txt := list_ascii_of_string s.

Definition code (c : ascii) : Z := Z.of_N (N_of_ascii c).
Definition chr (z : Z) : ascii := ascii_of_N (Z.to_N z).
Definition comma : ascii := ","%char.
Definition nl : ascii := chr 10.
Definition cr : ascii := chr 13.

(** ** Writing *)

(** The decimal digit character of 0 <= d <= 9. *)
Definition dch (d : Z) : ascii := chr (48 + d).

(** Exactly [w] digits of [z] (its value modulo 10^w), most significant first. *)
Fixpoint digs (w : nat) (z : Z) : txt :=
  match w with
  | O => []
  | S w' => digs w' (z / 10) ++ [dch (z mod 10)]
  end.

(** Number of decimal digits of z >= 0 (1 for 0). *)
Fixpoint ndig_fuel (f : nat) (z : Z) : nat :=
  match f with
  | O => 1%nat
  | S f' => if z <? 10 then 1%nat else S (ndig_fuel f' (z / 10))
  end.
Definition ndig (z : Z) : nat := ndig_fuel (Z.to_nat (Z.log2 z)) z.

(** "{0}".format(z) for an int. *)
Definition fmt_nat (z : Z) : txt := digs (ndig z) z.
Definition fmt_int (z : Z) : txt :=
  if z <? 0 then "-"%char :: fmt_nat (- z) else fmt_nat z.

(** Exponent field of the e format: sign and at least two digits. *)
Definition fmt_exp (e : Z) : txt :=
  "e"%char :: (if e <? 0 then "-"%char else "+"%char)
           :: digs (Nat.max 2 (ndig (Z.abs e))) (Z.abs e).

(** a / b rounded to the nearest integer, ties to even (b > 0). *)
Definition rhe (a b : Z) : Z :=
  let q := a / b in
  let r := a mod b in
  if 2 * r <? b then q
  else if b <? 2 * r then q + 1
  else if Z.even q then q else q + 1.

Definition ppow (b e : Z) : Z := b ^ Z.max e 0.

(** 10^E <= n/d *)
Definition p10_le (E n d : Z) : bool := ppow 10 E * d <=? n * ppow 10 (- E).

(** Largest decimal exponent not above the value, searched downwards. *)
Fixpoint dexp (fuel : nat) (E n d : Z) : Z :=
  match fuel with
  | O => E
  | S f => if p10_le E n d then E else dexp f (E - 1) n d
  end.

(** 17 significant digits (D, E) of n/d > 0: 10^16 <= D < 10^17 and
    n/d ~ D * 10^(E-16), correctly rounded, ties to even. *)
Definition dec17 (n d : Z) : Z * Z :=
  let E := dexp 700 310 n d in
  let D := rhe (n * ppow 10 (16 - E)) (d * ppow 10 (E - 16)) in
  if D =? 10 ^ 17 then (10 ^ 16, E + 1) else (D, E).

Definition sgn_txt (s : bool) : txt := if s then ["-"%char] else [].

Definition fmt_dec17 (s : bool) (D E : Z) : txt :=
  sgn_txt s ++ dch (D / 10 ^ 16) :: "."%char :: digs 16 (D mod 10 ^ 16) ++ fmt_exp E.

(** "{0:.16e}".format(x) for a Python/numpy float x. *)
Definition fmt_e16 (x : f64) : txt :=
  match x with
  | S754_zero s => fmt_dec17 s 0 0
  | S754_infinity s => sgn_txt s ++ lit "inf"
  | S754_nan => lit "nan"
  | S754_finite s m e =>
      let '(D, E) := dec17 (Zpos m * ppow 2 e) (ppow 2 (- e)) in
      fmt_dec17 s D E
  end.

(** ** Reading *)

Definition is_digit (c : ascii) : bool := (48 <=? code c) && (code c <=? 57).

(** str.strip() / the whitespace int() and float() ignore. *)
Definition is_space (c : ascii) : bool :=
  ((9 <=? code c) && (code c <=? 13)) || ((28 <=? code c) && (code c <=? 32)).
Fixpoint lstrip (l : txt) : txt :=
  match l with
  | [] => []
  | c :: r => if is_space c then lstrip r else l
  end.
Definition strip (l : txt) : txt := rev (lstrip (rev (lstrip l))).

Fixpoint span_digits (l : txt) : txt * txt :=
  match l with
  | [] => ([], [])
  | c :: r => if is_digit c then let '(a, b) := span_digits r in (c :: a, b) else ([], l)
  end.

Definition dval (ds : txt) : Z := fold_left (fun a c => 10 * a + (code c - 48)) ds 0.

Definition split_sign (l : txt) : bool * txt :=
  match l with
  | c :: r => if Ascii.eqb c "-"%char then (true, r)
              else if Ascii.eqb c "+"%char then (false, r) else (false, l)
  | [] => (false, [])
  end.

(** int(s) *)
Definition parse_int (l : txt) : res Z :=
  let '(neg, r) := split_sign (strip l) in
  match span_digits r with
  | (c :: ds, []) => Ok (if neg then - dval (c :: ds) else dval (c :: ds))
  | _ => Raise (ValueError "invalid literal for int()")
  end.

Definition lower (c : ascii) : ascii :=
  if (65 <=? code c) && (code c <=? 90) then chr (code c + 32) else c.
Fixpoint txt_eqb (a b : txt) : bool :=
  match a, b with
  | [], [] => true
  | x :: a', y :: b' => Ascii.eqb x y && txt_eqb a' b'
  | _, _ => false
  end.

(** Optional exponent part. *)
Definition parse_exp (l : txt) : option Z :=
  match l with
  | [] => Some 0
  | c :: r =>
      if Ascii.eqb (lower c) "e"%char then
        let '(neg, r') := split_sign r in
        match span_digits r' with
        | (d :: ds, []) => Some (if neg then - dval (d :: ds) else dval (d :: ds))
        | _ => None
        end
      else None
  end.

(** The double nearest to (-1)^neg * D * 10^k, ties to even, D >= 0
    ([SFdiv] rounds the exact quotient of its two arguments once). *)
Definition dec2f (neg : bool) (D k : Z) : f64 :=
  match D with
  | Zpos p =>
      SFdiv 53 1024 (S754_finite neg (Z.to_pos (D * ppow 10 k)) 0)
                    (S754_finite false (Z.to_pos (ppow 10 (- k))) 0)
  | _ => S754_zero neg
  end.

(** float(s) *)
Definition parse_float (l : txt) : res f64 :=
  let '(neg, r) := split_sign (strip l) in
  let low := map lower r in
  if txt_eqb low (lit "inf") || txt_eqb low (lit "infinity") then Ok (S754_infinity neg)
  else if txt_eqb low (lit "nan") then Ok S754_nan
  else
    let '(ip, r1) := span_digits r in
    let '(fp, r2) :=
      match r1 with
      | c :: r' => if Ascii.eqb c "."%char then span_digits r' else ([], r1)
      | [] => ([], [])
      end in
    match ip ++ fp with
    | [] => Raise (ValueError "could not convert string to float")
    | ds =>
        match parse_exp r2 with
        | None => Raise (ValueError "could not convert string to float")
        | Some ex => Ok (dec2f neg (dval ds) (ex - zlen fp))
        end
    end.

(** ** Splitting *)

(** s.split(',') *)
Fixpoint split_at (sep : ascii) (l : txt) : list txt :=
  match l with
  | [] => [[]]
  | c :: r =>
      if Ascii.eqb c sep then [] :: split_at sep r
      else match split_at sep r with
           | [] => [[c]]
           | w :: ws => (c :: w) :: ws
           end
  end.

(** Universal-newline translation of a text-mode read. *)
Fixpoint univ_nl (l : txt) : txt :=
  match l with
  | [] => []
  | c :: r =>
      if Ascii.eqb c cr then
        match r with
        | c' :: r' => if Ascii.eqb c' nl then nl :: univ_nl r' else nl :: univ_nl r
        | [] => [nl]
        end
      else c :: univ_nl r
  end.

(** f.readlines(): lines keep their terminator; no empty last line. *)
Fixpoint cut_lines (l : txt) : list txt :=
  match l with
  | [] => []
  | c :: r =>
      if Ascii.eqb c nl then [c] :: cut_lines r
      else match cut_lines r with
           | [] => [[c]]
           | w :: ws => (c :: w) :: ws
           end
  end.
Definition readlines (l : txt) : list txt := cut_lines (univ_nl l).
