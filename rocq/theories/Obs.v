(** * Obs: observation vocabulary for coefficient objects, used to state the
    properties.  Only the public interface appears: item access and the
    constructor. *)
From Coq Require Import ZArith List Bool.
From Verif Require Import Py Num MCoefs SpecCoefs.
Import ListNotations.
Open Scope Z_scope.

Section Obs.
Variable K : num.
Notation C := (cplx K).

(** c[n,m] evaluates to x *)
Definition reads (c : scoefs K) (n m : Z) (x : C) : Prop :=
  sc_getitem K c (STuple [IInt n; IInt m]) = Ok (ItElem K x).

(** vc[n,m] evaluates to the pair (x, y) *)
Definition vreads (c : vcoefs K) (n m : Z) (x y : C) : Prop :=
  vc_getitem K c (STuple [IInt n; IInt m]) = Ok (VItElem K x y).

(** c is an object with sensible sizes that the constructor accepts *)
Definition valid (c : scoefs K) : Prop :=
  0 <= sc_mmax K c /\ sc_new K (sc_vec K c) (sc_nmax K c) (sc_mmax K c) = Ok c.

(** Every ScalarCoefs a program can obtain from a constructor call with
    mmax >= 0 by item assignment (accepted or rejected, any index
    expression), window, copy, truncation to k >= 0 and the operators. *)
Inductive sc_reach : scoefs K -> Prop :=
| R_new vec nmax mmax c : 0 <= mmax -> sc_new K vec nmax mmax = Ok c -> sc_reach c
| R_set c arg val : sc_reach c -> sc_reach (fst (sc_setitem K c arg val))
| R_window c w : sc_reach c -> sc_reach (fst (sc_window K c w))
| R_copy c c' : sc_reach c -> sc_copy K c = Ok c' -> sc_reach c'
| R_trunc c k c' : sc_reach c -> 0 <= k ->
    sc_getitem K c (STuple [ISlice (Some 0) (Some k) None; IAll]) = Ok (ItCoefs K c') -> sc_reach c'
| R_opl c o b c' : sc_reach c -> sc_op_left K o c b = Ok c' -> sc_reach c'
| R_opr c o b c' : sc_reach c -> sc_op_right K o c b = Ok c' -> sc_reach c'.

(** The same for VectorCoefs. *)
Inductive vc_reach : vcoefs K -> Prop :=
| VR_new v1 v2 nmax mmax c : 0 <= mmax -> vc_new K v1 v2 nmax mmax = Ok c -> vc_reach c
| VR_fac f1 f2 nmax mmax t c : 0 <= mmax ->
    coefs_factory K f1 f2 nmax mmax t = Ok (AnyV K c) -> vc_reach c
| VR_set c arg val : vc_reach c -> vc_reach (fst (vc_setitem K c arg val))
| VR_copy c c' : vc_reach c -> vc_copy K c = Ok c' -> vc_reach c'
| VR_trunc c k c' : vc_reach c -> 0 <= k ->
    vc_getitem K c (STuple [ISlice (Some 0) (Some k) None; IAll]) = Ok (VItCoefs K c') -> vc_reach c'
| VR_opl c o b c' : vc_reach c -> vc_op_left K o c b = Ok c' -> vc_reach c'
| VR_opr c o b c' : vc_reach c -> vc_op_right K o c b = Ok c' -> vc_reach c'.

(** A VectorCoefs whose two components are valid, of the announced size, and
    without monopole. *)
Definition vvalid (c : vcoefs K) : Prop :=
  valid (vc_1 K c) /\ valid (vc_2 K c) /\
  sc_nmax K (vc_1 K c) = vc_nmax K c /\ sc_mmax K (vc_1 K c) = vc_mmax K c /\
  sc_nmax K (vc_2 K c) = vc_nmax K c /\ sc_mmax K (vc_2 K c) = vc_mmax K c /\
  reads (vc_1 K c) 0 0 (c0 K) /\ reads (vc_2 K c) 0 0 (c0 K).

End Obs.
