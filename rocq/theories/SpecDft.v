(** * SpecDft: the discrete Fourier transform, independent of the code. *)
From Coq Require Import ZArith Reals.
From Coquelicot Require Import Complex.
From Verif Require Import Sums.
Open Scope R_scope.

(** X_k = sum over 0 <= j < n of x_j exp(s 2 pi i j k / n); s = -1 forward,
    s = 1 inverse (unnormalised). *)
Definition dft (s : R) (n : Z) (x : Z -> C) (k : Z) : C :=
  sumC 0 n (fun j => x j * (cos (s * (2 * PI * IZR j * IZR k / IZR n)), sin (s * (2 * PI * IZR j * IZR k / IZR n))))%C.
