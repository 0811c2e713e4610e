(** * MSbesselF: spherepy/sbessel.py in IEEE double precision.

    MSbessel reads the file over the real numbers.  Here every operation is the
    binary64 one (FloatN).  np.sin, np.cos and x ** 2 (the C library's pow) are
    parameters [sn], [cs], [sq]; theorems say what they need of them.

    [py] says what x is: a Python float ([true]: dividing by zero raises
    ZeroDivisionError, an overflow in x ** 2 raises OverflowError) or a numpy
    float64 ([false]: inf and nan).  np.sin(x) and the elements of out are
    numpy float64 in both cases.  Not modelled: xs that are ints or arrays. *)
From Coq Require Import ZArith List String Bool SpecFloat.
From Verif Require Import Py Num FloatN MPysphi MDouble.
Import ListNotations.
Open Scope Z_scope.

Section SbesselF.
Variables (sn cs sq : f64 -> f64).
Variable py : bool.

Definition is_zero (x : f64) : bool := match x with S754_zero _ => true | _ => false end.
Definition is_inf (x : f64) : bool := match x with S754_infinity _ => true | _ => false end.
(** a / b where both are of the class of x *)
Definition xdiv (a b : f64) : res f64 :=
  if py && is_zero b then Raise ZeroDivisionError else Ok (fdiv a b).
(** x ** 2 *)
Definition xsq (x : f64) : res f64 :=
  if py && (is_inf (sq x) && negb (is_inf x)) then Raise (PlainException "OverflowError") else Ok (sq x).
(** an int made a float: OverflowError if it is too large *)
Definition i2f (n : Z) : res f64 :=
  if is_inf (fofZ n) then Raise (PlainException "OverflowError") else Ok (fofZ n).

(** the double nearest to 1e-20 *)
Definition f_eps : f64 := S754_finite false 6646139978924579 (-119).

(** sbessel.py:49-65 sbessely *)
Definition f_sbessely (x : f64) (N : Z) : res (list f64) :=
  out <- np_zeros N (fofZ 0) ;;
  out <- py_set out 0 (fdiv (SFopp (cs x)) x) ;;
  z <- xsq x ;;
  out <- py_set out 1 (fsub (fdiv (SFopp (cs x)) z) (fdiv (sn x) x)) ;;
  mfor (zrange 2 N) (fun n out =>
    q <- xdiv (fsub (fmul (fofZ 2) (fofZ n)) (fofZ 1)) x ;;
    a <- py_get (fofZ 0) out (n - 1) ;;
    b <- py_get (fofZ 0) out (n - 2) ;;
    py_set out n (fsub (fmul q a) b)) out.

(** sbessel.py:87-91, the while loop; [OutOfFuel] means "still running" *)
Fixpoint f_loop (fuel : nat) (z : f64) (n : Z) (u v w : f64) : res f64 :=
  q <- xdiv v w ;;
  if SFltb f_eps (SFabs q) then
    match fuel with
    | O => Raise OutOfFuel
    | S fuel =>
        let n := n + 1 in
        n2 <- i2f (n ^ 2) ;;
        a <- xdiv (fmul z u) (fsub (fmul (fofZ 4) n2) (fofZ 1)) ;;
        u <- xdiv (fofZ 1) (fsub (fofZ 1) a) ;;
        let v := fmul v (fsub u (fofZ 1)) in
        let w := fadd w v in
        f_loop fuel z n u v w
    end
  else Ok w.

(** sbessel.py:67-106 sbesselj *)
Definition f_sbesselj (fuel : nat) (x : f64) (N : Z) : res (list f64) :=
  let nmax := N - 1 in
  out <- np_zeros N (fofZ 0) ;;
  z <- xsq x ;;
  out <- py_set out 0 (fdiv (sn x) x) ;;
  let j1 := fsub (fdiv (sn x) z) (fdiv (cs x) x) in
  v <- xdiv x (fadd (fmul (fofZ 2) (fofZ nmax)) (fofZ 1)) ;;
  w <- f_loop fuel z nmax (fofZ 1) v v ;;
  out <- py_set out nmax w ;;
  out <- mfor (zrange_down (nmax - 1) 0) (fun n out =>
    q <- xdiv (fadd (fmul (fofZ 2) (fofZ n)) (fofZ 1)) x ;;
    a <- py_get (fofZ 0) out (n + 1) ;;
    py_set out n (fdiv (fofZ 1) (fsub q a))) out ;;
  o0 <- py_get (fofZ 0) out 0 ;;
  out <- (if SFleb (SFabs j1) (SFabs o0) then
            o1 <- py_get (fofZ 0) out 1 ;; py_set out 1 (fmul o1 o0)
          else py_set out 1 j1) ;;
  mfor (zrange 1 nmax) (fun n out =>
    a <- py_get (fofZ 0) out (n + 1) ;;
    b <- py_get (fofZ 0) out n ;;
    py_set out (n + 1) (fmul a b)) out.

(** sbessel.py:108-122 sbesselh1, sbesselh2: the real arrays are made complex *)
Definition cfsub (x y : cf) : cf := (fsub (fst x) (fst y), fsub (snd x) (snd y)).
Definition f_sbesselh1 (fuel : nat) (x : f64) (N : Z) : res (list cf) :=
  jn <- f_sbesselj fuel x N ;;
  yn <- f_sbessely x N ;;
  np_broadcast (fun a b => cfadd (cfre a) (cfmul (fofZ 0, fofZ 1) (cfre b))) jn yn.
Definition f_sbesselh2 (fuel : nat) (x : f64) (N : Z) : res (list cf) :=
  jn <- f_sbesselj fuel x N ;;
  yn <- f_sbessely x N ;;
  np_broadcast (fun a b => cfsub (cfre a) (cfmul (fofZ 0, fofZ 1) (cfre b))) jn yn.
End SbesselF.
