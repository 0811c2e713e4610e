(** * Num: the arithmetic the model is parametric in.

    [num] collects the real-number operations that the code applies to Python
    floats / numpy float64 / C doubles.  Complex numbers are pairs with the
    textbook formulas (numpy complex128, struct SCOMPLEX {r,i} of
    src/csphi.h, kiss_fft_cpx {r,i} of src/kiss_fft.h).  Container theorems
    are proved for every [num]; theorems that need algebra use the exact
    instance [RN] of file Exact.v. *)
From Coq Require Import ZArith List Bool.
From Verif Require Import Py.
Import ListNotations.
Open Scope Z_scope.

Record num : Type := mkNum {
  rc : Type;
  r0 : rc;
  r1 : rc;
  radd : rc -> rc -> rc;
  rsub : rc -> rc -> rc;
  rmul : rc -> rc -> rc;
  rdiv : rc -> rc -> rc;
  ropp : rc -> rc;
  rofZ : Z -> rc;
  rsqrt : rc -> rc;
  rpi : rc;
  rsin : rc -> rc;
  rcos : rc -> rc;
  rltb : rc -> rc -> bool;
  reqb : rc -> rc -> bool
}.

Section Complex.
Variable K : num.

Definition cplx : Type := (rc K * rc K)%type.

Definition c0 : cplx := (r0 K, r0 K).
Definition c1 : cplx := (r1 K, r0 K).
Definition ci : cplx := (r0 K, r1 K).
Definition cofR (x : rc K) : cplx := (x, r0 K).
Definition cofZ (z : Z) : cplx := cofR (rofZ K z).
Definition cadd (x y : cplx) : cplx := (radd K (fst x) (fst y), radd K (snd x) (snd y)).
Definition copp (x : cplx) : cplx := (ropp K (fst x), ropp K (snd x)).
Definition csub (x y : cplx) : cplx := cadd x (copp y).
Definition cmul (x y : cplx) : cplx :=
  (rsub K (rmul K (fst x) (fst y)) (rmul K (snd x) (snd y)),
   radd K (rmul K (fst x) (snd y)) (rmul K (snd x) (fst y))).
Definition cnorm2 (x : cplx) : rc K :=
  radd K (rmul K (fst x) (fst x)) (rmul K (snd x) (snd x)).
Definition cinv (x : cplx) : cplx :=
  (rdiv K (fst x) (cnorm2 x), rdiv K (ropp K (snd x)) (cnorm2 x)).
Definition cdiv (x y : cplx) : cplx := cmul x (cinv y).
(** np.abs *)
Definition cabs (x : cplx) : rc K := rsqrt K (cnorm2 x).
(** x == y on complex numbers *)
Definition ceqb (x y : cplx) : bool := reqb K (fst x) (fst y) && reqb K (snd x) (snd y).
(** np.exp(1j * t) for real t *)
Definition cis (t : rc K) : cplx := (rcos K t, rsin K t).
(** 1j ** m for an int m (CPython complex pow with integer exponent). *)
Definition cipow (m : Z) : cplx :=
  match m mod 4 with
  | 0 => (r1 K, r0 K)
  | 1 => (r0 K, r1 K)
  | 2 => (ropp K (r1 K), r0 K)
  | _ => (r0 K, ropp K (r1 K))
  end.
(** (-1) ** m for an int m, as an int. *)
Definition sgnpow (m : Z) : Z := if m mod 2 =? 0 then 1 else -1.

(** np.sum over real / complex sequences (exact arithmetic: the order numpy
    uses is irrelevant; with rounding only this order is modelled). *)
Definition rsum (l : list (rc K)) : rc K := fold_right (radd K) (r0 K) l.
Definition csum (l : list cplx) : cplx := fold_right cadd c0 l.
End Complex.

Arguments cplx K : clear implicits.
