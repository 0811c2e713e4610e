(** * MSbessel: model of spherepy/sbessel.py (whole file), in exact
    arithmetic: floats are reals, np.sin / np.cos are the real functions.

    A division by zero is [Raise ZeroDivisionError].  Python floats raise it;
    numpy scalars give inf or nan with a warning instead, which exact
    arithmetic does not have: the model stops there in both cases. *)
From Coq Require Import ZArith List String Bool Reals.
From Coquelicot Require Import Complex.
From Verif Require Import Py MPysphi.
Import ListNotations.
Open Scope list_scope.
Open Scope Z_scope.

Definition divR (a b : R) : res R :=
  if Req_EM_T b 0 then Raise ZeroDivisionError else Ok (a / b)%R.

(** sbessel.py:49-65 sbessely *)
Definition sbessely (x : R) (N : Z) : res (list R) :=
  out <- np_zeros N 0%R ;;
  a <- divR (- cos x) x ;;
  out <- py_set out 0 a ;;
  a <- divR (- cos x) (x ^ 2) ;;
  b <- divR (sin x) x ;;
  out <- py_set out 1 (a - b)%R ;;
  mfor (zrange 2 N) (fun n out =>
    q <- divR (2 * IZR n - 1) x ;;
    a <- py_get 0%R out (n - 1) ;;
    b <- py_get 0%R out (n - 2) ;;
    py_set out n (q * a - b)%R) out.

(** sbessel.py:87-91: the while loop; the state is (n, u, v, w).  [fuel]
    bounds the number of iterations: [OutOfFuel] means "still running". *)
Fixpoint sbesselj_loop (fuel : nat) (z : R) (n : Z) (u v w : R) : res R :=
  q <- divR v w ;;
  if Rlt_dec (1 / 10 ^ 20) (Rabs q) then
    match fuel with
    | O => Raise OutOfFuel
    | S fuel =>
        let n := n + 1 in
        a <- divR (z * u) (4 * IZR (n ^ 2) - 1) ;;
        u <- divR 1 (1 - a) ;;
        let v := (v * (u - 1))%R in
        let w := (w + v)%R in
        sbesselj_loop fuel z n u v w
    end
  else Ok w.

(** sbessel.py:67-106 sbesselj *)
Definition sbesselj (fuel : nat) (x : R) (N : Z) : res (list R) :=
  let nmax := N - 1 in
  out <- np_zeros N 0%R ;;
  let z := (x ^ 2)%R in
  a <- divR (sin x) x ;;
  out <- py_set out 0 a ;;
  a <- divR (sin x) z ;;
  b <- divR (cos x) x ;;
  let j1 := (a - b)%R in
  v <- divR x (2 * IZR nmax + 1) ;;
  w <- sbesselj_loop fuel z nmax 1 v v ;;
  out <- py_set out nmax w ;;
  out <- mfor (zrange_down (nmax - 1) 0) (fun n out =>
    q <- divR (2 * IZR n + 1) x ;;
    a <- py_get 0%R out (n + 1) ;;
    r <- divR 1 (q - a) ;;
    py_set out n r) out ;;
  o0 <- py_get 0%R out 0 ;;
  out <- (if Rle_dec (Rabs j1) (Rabs o0) then
            o1 <- py_get 0%R out 1 ;; py_set out 1 (o1 * o0)%R
          else py_set out 1 j1) ;;
  mfor (zrange 1 nmax) (fun n out =>
    a <- py_get 0%R out (n + 1) ;;
    b <- py_get 0%R out n ;;
    py_set out (n + 1) (a * b)%R) out.

(** sbessel.py:108-122 sbesselh1, sbesselh2 *)
Definition sbesselh1 (fuel : nat) (x : R) (N : Z) : res (list C) :=
  jn <- sbesselj fuel x N ;;
  yn <- sbessely x N ;;
  np_broadcast (fun a b => RtoC a + Ci * RtoC b)%C jn yn.
Definition sbesselh2 (fuel : nat) (x : R) (N : Z) : res (list C) :=
  jn <- sbesselj fuel x N ;;
  yn <- sbessely x N ;;
  np_broadcast (fun a b => RtoC a - Ci * RtoC b)%C jn yn.

(** sbessel.py:128-149 sbesselj_array and 151-170 sbessely_array, [f] being
    the function of x.  The accumulator is None until the first pass; out.T
    is then applied to the list of rows.  An empty xvec leaves [out] unbound
    (UnboundLocalError). The rows all have N entries. *)
Fixpoint rows_of (f : R -> res (list R)) (xvec : list R) (out : option (list (list R))) : res (option (list (list R))) :=
  match xvec with
  | [] => Ok out
  | x :: xvec =>
      a <- f x ;;
      rows_of f xvec (match out with None => Some [a] | Some o => Some (o ++ [a]) end)
  end.
(** out.T for a list of rows of N entries each *)
Definition transpose (N : Z) (rows : list (list R)) : list (list R) :=
  vmake N (fun i => vmake (zlen rows) (fun k => vget 0%R (vget [] rows k) i)).
Definition array_of (f : R -> res (list R)) (N : Z) (xvec : list R) : res (list (list R)) :=
  o <- rows_of f xvec None ;;
  match o with
  | None => Raise (PlainException "UnboundLocalError: out")
  | Some rows => Ok (transpose N rows)
  end.
Definition sbesselj_array (fuel : nat) (xvec : list R) (N : Z) : res (list (list R)) :=
  array_of (fun x => sbesselj fuel x N) N xvec.
Definition sbessely_array (xvec : list R) (N : Z) : res (list (list R)) :=
  array_of (fun x => sbessely x N) N xvec.

(** sbessel.py:172-190 sbesselj_sum.  The sum does not depend on the order,
    so np.sort is omitted; [eps] is np.spacing(1). *)
Definition sbesselj_sum (eps : R) (fuel : nat) (z : R) (N : Z) : res R :=
  b <- sbesselj fuel z N ;;
  let sm := fold_right Rplus 0%R (vmake N (fun n => (2 * IZR n + 1) * (vget 0 b n) ^ 2)%R) in
  q <- divR (sm - 1) sm ;;
  Ok (Rabs q + eps)%R.

(** sbessel.py:192-210 sbessel_test_cross_product; y1[:-1] etc. are read
    entry by entry; np.max of an empty array raises. *)
Definition sbessel_test_cross_product (fuel : nat) (z : R) (N : Z) : res R :=
  y1 <- sbessely z (N + 1) ;;
  j1 <- sbesselj fuel z (N + 1) ;;
  let w := vmake N (fun n => vget 0%R y1 n * vget 0%R j1 (n + 1) - vget 0%R j1 n * vget 0%R y1 (n + 1))%R in
  wp <- divR 1 (z ^ 2) ;;
  e <- mmap (fun n => divR (Rabs (vget 0%R w n - wp)) wp) (zrange 0 N) ;;
  match e with
  | [] => Raise (ValueError "zero-size array to reduction operation")
  | a :: l => Ok (fold_left Rmax l a)
  end.
