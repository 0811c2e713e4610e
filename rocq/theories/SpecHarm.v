(** * SpecHarm: the textbook definition of the spherical harmonics, independent
    of the code and of the model. *)
From Coq Require Import ZArith Reals.
From Coquelicot Require Import Coquelicot.
From Verif Require Import Sums.
Open Scope R_scope.

(** Legendre polynomials by Bonnet's recurrence
    (n+2) P_{n+2}(x) = (2n+3) x P_{n+1}(x) - (n+1) P_n(x). *)
Fixpoint legendre (n : nat) (x : R) : R :=
  match n with
  | O => 1
  | S n' => match n' with
            | O => x
            | S n'' => ((2 * INR n'' + 3) * x * legendre n' x - (INR n'' + 1) * legendre n'' x) / (INR n'' + 2)
            end
  end.

(** Associated Legendre function P_n^m(cos theta), 0 <= m, theta in [0, pi],
    with the Condon-Shortley phase: (-1)^m sin^m(theta) (d/dx)^m P_n at x = cos theta. *)
Definition assoc_legendre_cos (n m : nat) (theta : R) : R :=
  (-1) ^ m * sin theta ^ m * Derive_n (legendre n) m (cos theta).

(** Orthonormal spherical harmonics, order m >= 0. *)
Definition norm_factor (n m : nat) : R :=
  sqrt ((2 * INR n + 1) / (4 * PI) * (INR (fact (n - m)) / INR (fact (n + m)))).
Definition sph_harm_pos (n m : nat) (theta phi : R) : C :=
  (RtoC (norm_factor n m * assoc_legendre_cos n m theta) * (cos (INR m * phi), sin (INR m * phi)))%C.

(** All orders: Y_n^{-m} = (-1)^m conj (Y_n^m). *)
Definition sph_harm (n m : Z) (theta phi : R) : C :=
  if (0 <=? m)%Z then sph_harm_pos (Z.to_nat n) (Z.to_nat m) theta phi
  else (RtoC ((-1) ^ Z.to_nat (- m)) * Cconj (sph_harm_pos (Z.to_nat n) (Z.to_nat (- m)) theta phi))%C.

(** The harmonic series with coefficients c n m, degrees up to nmax, orders up
    to mmax ([sumC lo hi f] is the sum of f k over lo <= k < hi). *)
Definition harm_series (nmax mmax : Z) (c : Z -> Z -> C) (theta phi : R) : C :=
  sumC (- mmax) (mmax + 1) (fun m => sumC (Z.abs m) (nmax + 1) (fun n => c n m * sph_harm n m theta phi))%C.

(** Derivative of a complex valued function of a real variable. *)
Definition derive_C (f : R -> C) (t : R) : C := (Derive (fun s => fst (f s)) t, Derive (fun s => snd (f s)) t).
Definition dtheta_sph_harm (n m : Z) (theta phi : R) : C := derive_C (fun t => sph_harm n m t phi) theta.

(** Vector spherical harmonics: with L = -i r x grad, the theta and phi
    components of (c1 L Y + i c2 rhat x L Y) / sqrt (n (n+1)) off the poles. *)
Definition vsh_theta (n m : Z) (c1 c2 : C) (theta phi : R) : C :=
  (- RtoC (1 / sqrt (IZR n * (IZR n + 1))) *
   (c1 * (RtoC (IZR m / sin theta) * sph_harm n m theta phi) + c2 * dtheta_sph_harm n m theta phi))%C.
Definition vsh_phi (n m : Z) (c1 c2 : C) (theta phi : R) : C :=
  (- Ci * RtoC (1 / sqrt (IZR n * (IZR n + 1))) *
   (c1 * dtheta_sph_harm n m theta phi + c2 * (RtoC (IZR m / sin theta) * sph_harm n m theta phi)))%C.
Definition vharm_series (vsh : Z -> Z -> C -> C -> R -> R -> C) (nmax mmax : Z) (c1 c2 : Z -> Z -> C) (theta phi : R) : C :=
  sumC (- mmax) (mmax + 1) (fun m => sumC (Z.abs m) (nmax + 1) (fun n => vsh n m (c1 n m) (c2 n m) theta phi)).
