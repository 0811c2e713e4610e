(** * Exact: the exact-arithmetic instance of [num] (Coq's reals), and its
    agreement with Coquelicot's complex numbers. *)
From Coq Require Import ZArith List Bool Reals Lra.
From Coquelicot Require Import Complex.
From Verif Require Import Py Num.
Import ListNotations.

Open Scope R_scope.

Definition rltb_R (x y : R) : bool := if Rlt_dec x y then true else false.
Definition reqb_R (x y : R) : bool := if Req_EM_T x y then true else false.

Definition RN : num :=
  mkNum R 0 1 Rplus Rminus Rmult Rdiv Ropp IZR sqrt PI sin cos rltb_R reqb_R.

Lemma cadd_RN : forall x y : C, cadd RN x y = Cplus x y. Proof. reflexivity. Qed.
Lemma copp_RN : forall x : C, copp RN x = Copp x. Proof. reflexivity. Qed.
Lemma csub_RN : forall x y : C, csub RN x y = Cminus x y. Proof. reflexivity. Qed.
Lemma cmul_RN : forall x y : C, cmul RN x y = Cmult x y. Proof. reflexivity. Qed.
Lemma c0_RN : c0 RN = RtoC 0. Proof. reflexivity. Qed.
Lemma c1_RN : c1 RN = RtoC 1. Proof. reflexivity. Qed.
Lemma ci_RN : ci RN = Ci. Proof. reflexivity. Qed.
Lemma cofR_RN : forall x : R, cofR RN x = RtoC x. Proof. reflexivity. Qed.
Lemma cofZ_RN : forall x : Z, cofZ RN x = RtoC (IZR x). Proof. reflexivity. Qed.

Lemma cinv_RN : forall x : C, cinv RN x = Cinv x.
Proof. intros [a b]. unfold cinv, Cinv, cnorm2; cbn. f_equal; f_equal; ring. Qed.

Lemma cdiv_RN : forall x y : C, cdiv RN x y = Cdiv x y.
Proof. intros x y. unfold cdiv, Cdiv. rewrite cinv_RN. reflexivity. Qed.

Lemma cabs_RN : forall x : C, cabs RN x = Cmod x.
Proof. intros [a b]. unfold cabs, Cmod, cnorm2; cbn. f_equal; ring. Qed.

Lemma rltb_spec x y : rltb RN x y = true <-> (x < y).
Proof. cbn; unfold rltb_R. destruct (Rlt_dec x y); split; intros; auto; discriminate. Qed.

Lemma reqb_spec x y : reqb RN x y = true <-> (x = y).
Proof. cbn; unfold reqb_R. destruct (Req_EM_T x y); split; intros; auto; discriminate. Qed.

Lemma ceqb_spec (x y : C) : ceqb RN x y = true <-> x = y.
Proof.
  unfold ceqb. rewrite Bool.andb_true_iff, !reqb_spec. destruct x, y; cbn. split.
  - intros [-> ->]; auto.
  - intros E; inversion E; auto.
Qed.

Lemma cabs_sq (x : C) : cabs RN x * cabs RN x = fst x * fst x + snd x * snd x.
Proof. unfold cabs, cnorm2; cbn. apply sqrt_sqrt. nra. Qed.
