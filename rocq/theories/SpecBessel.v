(** * SpecBessel: the spherical Bessel functions, independently of the code.

    j_n by its power series (DLMF 10.53.1), y_n by its elementary closed forms
    and three-term recurrence (DLMF 10.49.5, 10.51.1), and the spherical
    Bessel differential equation (DLMF 10.47.1). *)
From Coq Require Import Reals.
From Coquelicot Require Import Coquelicot.
Open Scope R_scope.

(** (2 m - 1)!! = 1 * 3 * ... * (2 m - 1) *)
Fixpoint odd_fact (m : nat) : R :=
  match m with O => 1 | S m => (2 * INR m + 1) * odd_fact m end.

(** x^n * sum_k (-x^2/2)^k / (k! (2n + 2k + 1)!!) *)
Definition sph_j (n : nat) (x : R) : R :=
  x ^ n * Series (fun k => (- (x ^ 2 / 2)) ^ k / (INR (Factorial.fact k) * odd_fact (n + 1 + k))).

Fixpoint sph_y2 (n : nat) (x : R) : R * R :=
  match n with
  | O => (- cos x / x, - cos x / x ^ 2 - sin x / x)
  | S n => let '(a, b) := sph_y2 n x in (b, (2 * INR n + 3) / x * b - a)
  end.
(** y_n: y_0 = -cos x / x, y_1 = -cos x / x^2 - sin x / x,
    y_(n+2) = (2 n + 3) / x * y_(n+1) - y_n *)
Definition sph_y (n : nat) (x : R) : R := fst (sph_y2 n x).

(** f satisfies x^2 f'' + 2 x f' + (x^2 - n (n+1)) f = 0 at every x <> 0. *)
Definition solves_bessel (n : nat) (f : R -> R) : Prop :=
  exists f1 f2 : R -> R, forall x, x <> 0 ->
    is_derive f x (f1 x) /\ is_derive f1 x (f2 x) /\
    x ^ 2 * f2 x + 2 * x * f1 x + (x ^ 2 - INR n * (INR n + 1)) * f x = 0.

(** Numerators and denominators of the convergents of the continued fraction
      x / (b_0 - x^2 / (b_1 - x^2 / (b_2 - ...))),   b_i = 2 (n + i) + 1,
    by the fundamental recurrence: the pair (entry k-1, entry k). *)
Fixpoint cf_num (x : R) (n k : nat) : R * R :=
  match k with
  | O => (0, x)
  | S k => let '(p, c) := cf_num x n k in (c, (2 * INR (n + S k) + 1) * c - x ^ 2 * p)
  end.
Fixpoint cf_den (x : R) (n k : nat) : R * R :=
  match k with
  | O => (1, 2 * INR n + 1)
  | S k => let '(p, c) := cf_den x n k in (c, (2 * INR (n + S k) + 1) * c - x ^ 2 * p)
  end.
Definition cf_convergent (x : R) (n k : nat) : R := snd (cf_num x n k) / snd (cf_den x n k).
