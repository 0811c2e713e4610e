(** * MVecF: the normalisation of the vector transforms in double precision.

    The counterparts of MTrans' [nvec] and [windowed] on binary64 numbers.  The
    window itself is MCoefs' [sc_window] at the number structure of doubles
    (NumPy's product of two complex arrays is the textbook formula). *)
From Coq Require Import ZArith List Bool SpecFloat.
From Verif Require Import Py Num FloatN MCoefs MDouble MPysphi.
Import ListNotations.
Open Scope list_scope.
Open Scope Z_scope.

(** spherepy.py:1961 / 2105: 1.0 / np.sqrt(n * (n + 1.0)), n an int *)
Definition f_norm (n : Z) : f64 := fdiv (fofZ 1) (fsqrt (fmul (fofZ n) (fadd (fofZ n) (fofZ 1)))).

(** spherepy.py:1958-1961 / 2103-2105: nvec, an array of complex128 (the real
    value assigned becomes the real part, the imaginary part is 0.0) *)
Definition f_nvec (nmax : Z) : res (list cf) :=
  v <- np_zeros (nmax + 1) cf0 ;;
  mfor (zrange 1 (nmax + 1)) (fun n v => py_set v n (cfre (f_norm n))) v.

(** spherepy.py:1963-1964 / 2110-2111: c.window(nvec), as a statement *)
Definition f_normalise (c : scoefs FN) (nmax : Z) : res (scoefs FN) :=
  v <- f_nvec nmax ;;
  let '(c', r) := sc_window FN c v in _ <- r ;; Ok c'.
