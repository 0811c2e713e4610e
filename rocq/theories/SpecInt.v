(** * SpecInt: integrals over the sphere, independent of the code. *)
From Coq Require Import ZArith Reals.
From Coquelicot Require Import Coquelicot.
From Verif Require Import Sums.
Open Scope R_scope.

(** Riemann integral of a complex valued function of a real variable. *)
Definition is_CInt (f : R -> C) (a b : R) (l : C) : Prop :=
  is_RInt (fun x => fst (f x)) a b (fst l) /\ is_RInt (fun x => snd (f x)) a b (snd l).

(** l is the integral of F(theta, phi) sin(theta) over 0 <= phi <= 2 pi,
    0 <= theta <= pi (F is only looked at off the poles theta = 0 and theta = pi). *)
Definition is_sphere_int (F : R -> R -> C) (l : C) : Prop :=
  exists g : R -> C,
    (forall theta, 0 < theta < PI -> is_CInt (fun phi => F theta phi) 0 (2 * PI) (g theta)) /\
    is_CInt (fun theta => g theta * RtoC (sin theta))%C 0 PI l.

(** Trigonometric polynomials of degree P in theta and M in phi. *)
Definition e_i (t : R) : C := (cos t, sin t).
Definition trig_poly (P M : Z) (a : Z -> Z -> C) (theta phi : R) : C :=
  sumC (- M) (M + 1) (fun m => sumC (- P) (P + 1) (fun k =>
    a m k * e_i (IZR k * theta) * e_i (IZR m * phi)))%C.

(** A function of (theta, phi) that is a function on the sphere: going through
    the pole is the same as turning by pi. *)
Definition on_sphere (F : R -> R -> C) : Prop := forall theta phi, F (- theta) (phi + PI) = F theta phi.

(** The theta and phi components of a tangent vector field on the sphere: past
    the pole both unit vectors have turned round. *)
Definition tangent_on_sphere (F : R -> R -> C) : Prop := forall theta phi, F (- theta) (phi + PI) = (- F theta phi)%C.

(** l is the inner product of the tangent vector fields (Ft, Fp) and (Gt, Gp). *)
Definition vinner (Ft Fp Gt Gp : R -> R -> C) (l : C) : Prop :=
  is_sphere_int (fun theta phi => Ft theta phi * Cconj (Gt theta phi) + Fp theta phi * Cconj (Gp theta phi))%C l.

(** The integral is unique. *)
Lemma is_CInt_unique f a b l l' : is_CInt f a b l -> is_CInt f a b l' -> l = l'.
Proof.
  intros [A B] [A' B']. apply injective_projections.
  - rewrite <- (is_RInt_unique _ _ _ _ A). now apply is_RInt_unique.
  - rewrite <- (is_RInt_unique _ _ _ _ B). now apply is_RInt_unique.
Qed.
Lemma is_sphere_int_unique F l l' : is_sphere_int F l -> is_sphere_int F l' -> l = l'.
Proof.
  intros (g & G & H) (g' & G' & H'). eapply is_CInt_unique; [exact H|].
  assert (E : forall t, 0 < t < PI -> g t = g' t) by (intros t Ht; eapply is_CInt_unique; [apply (G t Ht)|apply (G' t Ht)]).
  destruct H' as [A B]. pose proof PI_RGT_0.
  split; (eapply is_RInt_ext; [|eassumption]); intros x Hx; cbv beta; rewrite E; auto;
    rewrite Rmin_left, Rmax_right in Hx by (apply Rlt_le; exact PI_RGT_0); exact Hx.
Qed.
