(** * Smooth: numbers without large prime factors, and the size-search loop
    (mathematics; the loop [gloop] is the common shape of
    smallest_prime_factor in pysphi.py and FindQ in csphi.c). *)
From Coq Require Import ZArith List Lia Bool Znumtheory.
From Verif Require Import Py PyFacts MPysphi.
Import ListNotations.
Open Scope Z_scope.

(** q >= 1 has no prime factor outside ps *)
Definition smooth (ps : list Z) (q : Z) : Prop :=
  1 <= q /\ forall p, prime p -> (p | q) -> In p ps.

(** q is the least smooth number >= Q *)
Definition least_smooth (ps : list Z) (Q q : Z) : Prop :=
  Q <= q /\ smooth ps q /\ forall k, Q <= k < q -> ~ smooth ps k.

Lemma prime_divisor n : 1 < n -> exists p, prime p /\ (p | n).
Proof.
  remember (Z.to_nat n) as k eqn:E. revert n E.
  induction k as [k IH] using (well_founded_induction lt_wf). intros n E Hn.
  destruct (prime_dec n) as [Hp|Hp].
  - exists n; split; auto. apply Z.divide_refl.
  - destruct (not_prime_divide n Hn Hp) as (d & Hd & Hdv).
    destruct (IH (Z.to_nat d)) with (n := d) as (p & P1 & P2); try lia.
    exists p; split; auto. eapply Z.divide_trans; eauto.
Qed.

Fixpoint gloop (ps : list Z) (fuel : nat) (A Q : Z) : res Z :=
  match fuel with
  | O => Raise OutOfFuel
  | S fuel =>
      if A =? 1 then Ok Q
      else match find (fun p => A mod p =? 0) ps with
           | Some p => gloop ps fuel (A / p) Q
           | None => gloop ps fuel (Q + 1) (Q + 1)
           end
  end.

Lemma smooth_div ps A p : In p ps -> prime p -> (p | A) -> 1 <= A ->
  (smooth ps (A / p) <-> smooth ps A).
Proof.
  intros Hin Hp [q ->] HA. pose proof (prime_ge_2 p Hp) as H2.
  rewrite Z.div_mul by lia. split; intros [H1 H]; split; try nia.
  - intros r Hr Hd. apply prime_mult in Hd; auto. destruct Hd as [Hd|Hd]; auto.
    apply prime_div_prime in Hd; auto. subst; auto.
  - intros r Hr Hd. apply H; auto. now apply Z.divide_mul_l.
Qed.
Lemma smooth_1 ps : smooth ps 1.
Proof.
  split; [lia|]. intros p Hp Hd. apply Z.divide_1_r_nonneg in Hd; [|apply prime_ge_2 in Hp; lia].
  subst. exfalso. now apply not_prime_1.
Qed.
Lemma smooth_pow2 ps k : In 2 ps -> 0 <= k -> smooth ps (2 ^ k).
Proof.
  intros H2 Hk. split; [assert (0 < 2 ^ k) by (apply Z.pow_pos_nonneg; lia); lia|].
  intros p Hp. revert k Hk. apply (natlike_ind (fun k => (p | 2 ^ k) -> In p ps)).
  - intros Hd. exfalso. apply Z.divide_1_r_nonneg in Hd; [|apply prime_ge_2 in Hp; lia].
    subst. now apply not_prime_1.
  - intros x Hx IH Hd. rewrite Z.pow_succ_r in Hd by lia. apply prime_mult in Hd; auto.
    destruct Hd as [Hd|Hd]; auto. apply prime_div_prime in Hd; auto using prime_2. subst; auto.
Qed.

Lemma gloop_ok ps T B : In 2 ps -> (forall p, In p ps -> prime p) -> smooth ps T ->
  (forall Q, Q <= T -> Z.log2 Q + 2 <= B) ->
  forall fuel A Q, 1 <= A -> 1 <= Q <= T -> (smooth ps A <-> smooth ps Q) ->
    (T - Q) * B + Z.log2 A + 1 < Z.of_nat fuel ->
    exists q, gloop ps fuel A Q = Ok q /\ least_smooth ps Q q /\ q <= T.
Proof.
  intros H2 Hps HT HB. induction fuel as [|fuel IH]; intros A Q HA HQ HE HF.
  - exfalso. pose proof (Z.log2_nonneg A). pose proof (HB 1 ltac:(lia)). cbn in H0. nia.
  - cbn [gloop]. destruct (Z.eqb_spec A 1) as [->|Hne].
    + exists Q. split; auto. split; [|lia]. split; [lia|]. split; [apply HE, smooth_1|]. intros; lia.
    + destruct (find (fun p => A mod p =? 0) ps) as [p|] eqn:Ef.
      * apply find_some in Ef. destruct Ef as [Hin Hm]. apply Z.eqb_eq in Hm.
        pose proof (prime_ge_2 p (Hps p Hin)) as Hp2.
        assert (Hd : (p | A)) by (apply Z.mod_divide; lia).
        assert (HA' : 1 <= A / p < A).
        { destruct Hd as [q ->]. rewrite Z.div_mul by lia. nia. }
        apply IH; auto; try lia.
        -- rewrite smooth_div; auto.
        -- assert (Z.log2 (A / p) + 1 <= Z.log2 A); [|lia].
           assert (2 * (A / p) <= A) by (destruct Hd as [q ->]; rewrite Z.div_mul by lia; nia).
           pose proof (Z.log2_double (A / p) ltac:(lia)). pose proof (Z.log2_le_mono (2 * (A / p)) A). lia.
      * assert (Hns : ~ smooth ps A).
        { intros [_ Hs]. destruct (prime_divisor A) as (p & Hp & Hd); [lia|].
          pose proof (find_none _ _ Ef p (Hs p Hp Hd)) as Hf. cbv beta in Hf. apply Z.eqb_neq in Hf.
          apply Hf. apply Z.mod_divide; auto. apply prime_ge_2 in Hp; lia. }
        rewrite HE in Hns.
        assert (Q < T) by (destruct (Z.eq_dec Q T); [subst; tauto|lia]).
        destruct (IH (Q + 1) (Q + 1)) as (q & Eq & (L1 & L2 & L3) & L4); try lia.
        -- tauto.
        -- pose proof (HB (Q + 1) ltac:(lia)). pose proof (Z.log2_nonneg A). nia.
        -- exists q. split; auto. split; auto. split; [lia|]. split; auto.
           intros k Hk. destruct (Z.eq_dec k Q); [subst; auto|apply L3; lia].
Qed.

Definition search_fuel (Q : Z) : nat := Z.to_nat ((Q + 1) * (Z.log2 (2 * Q) + 3)).

Theorem gloop_least ps Q : In 2 ps -> (forall p, In p ps -> prime p) -> 1 <= Q ->
  exists q, gloop ps (search_fuel Q) Q Q = Ok q /\ least_smooth ps Q q /\ q < 2 * Q.
Proof.
  intros H2 Hps HQ.
  set (T := 2 ^ Z.log2_up Q).
  assert (HT : Q <= T < 2 * Q).
  { unfold T. destruct (Z.eq_dec Q 1) as [->|]; [cbn; lia|].
    pose proof (Z.log2_up_spec Q ltac:(lia)) as [L1 L2].
    assert (H : 0 <= Z.pred (Z.log2_up Q)) by (pose proof (Z.log2_up_pos Q); lia).
    replace (Z.log2_up Q) with (Z.succ (Z.pred (Z.log2_up Q))) in * by lia.
    rewrite Z.pred_succ in L1. rewrite Z.pow_succ_r in * by lia. lia. }
  destruct (gloop_ok ps T (Z.log2 (2 * Q) + 3) H2 Hps) with (fuel := search_fuel Q) (A := Q) (Q := Q)
    as (q & E & L & LT); try lia.
  - apply smooth_pow2; auto. apply Z.log2_up_nonneg.
  - intros k Hk. pose proof (Z.log2_le_mono k (2 * Q)). lia.
  - tauto.
  - unfold search_fuel. pose proof (Z.log2_nonneg (2 * Q)). pose proof (Z.log2_le_mono Q (2 * Q) ltac:(lia)).
    pose proof (Z.log2_nonneg Q). rewrite Z2Nat.id by nia. nia.
  - exists q. repeat split; auto; try apply L. lia.
Qed.

Lemma spf_gloop fuel A Q : spf_loop fuel A Q = gloop [2; 3; 5; 7] fuel A Q.
Proof.
  revert A Q; induction fuel as [|fuel IH]; intros A Q; auto. cbn [spf_loop gloop find].
  destruct (A =? 1); auto. destruct (A mod 2 =? 0); auto. destruct (A mod 3 =? 0); auto.
  destruct (A mod 5 =? 0); auto. destruct (A mod 7 =? 0); auto.
Qed.

Lemma prime_5 : prime 5.
Proof. constructor; [lia|]. intros n Hn. assert (n = 1 \/ n = 2 \/ n = 3 \/ n = 4) as [-> | [-> | [-> | ->]]] by lia;
  apply Zgcd_1_rel_prime; reflexivity. Qed.
Lemma prime_7 : prime 7.
Proof. constructor; [lia|]. intros n Hn. assert (n = 1 \/ n = 2 \/ n = 3 \/ n = 4 \/ n = 5 \/ n = 6) as [-> | [-> | [-> | [-> | [-> | ->]]]]] by lia;
  apply Zgcd_1_rel_prime; reflexivity. Qed.

Lemma spf_ok Q : 1 <= Q -> exists q, smallest_prime_factor Q = Ok q /\ least_smooth [2; 3; 5; 7] Q q /\ q < 2 * Q.
Proof.
  intros H. unfold smallest_prime_factor. rewrite spf_gloop. change (spf_fuel Q) with (search_fuel Q).
  apply gloop_least; auto.
  - cbn; auto.
  - intros p [<-|[<-|[<-|[<-|[]]]]]; auto using prime_2, prime_3, prime_5, prime_7.
Qed.

(** For Q <= 0 the loop never ends. *)
Lemma spf_nonpos fuel A Q : A <= 0 -> Q <= 0 -> (Q = 0 -> A = 0) -> spf_loop fuel A Q = Raise OutOfFuel.
Proof.
  revert A Q; induction fuel as [|fuel IH]; intros A Q HA HQ H0; auto. cbn [spf_loop].
  assert (D : forall p, 0 < p -> A / p <= 0 /\ (Q = 0 -> A / p = 0)).
  { intros p Hp. split.
    - apply Z.div_le_upper_bound; lia.
    - intros E. rewrite (H0 E). now apply Z.div_0_l; lia. }
  destruct (Z.eqb_spec A 1); [lia|].
  destruct (Z.eqb_spec (A mod 2) 0); [apply IH; auto; apply (D 2); lia|].
  destruct (Z.eqb_spec (A mod 3) 0); [apply IH; auto; apply (D 3); lia|].
  destruct (Z.eqb_spec (A mod 5) 0); [apply IH; auto; apply (D 5); lia|].
  destruct (Z.eqb_spec (A mod 7) 0); [apply IH; auto; apply (D 7); lia|].
  assert (Q <> 0) by (intros E; rewrite (H0 E) in *; cbn in *; lia).
  apply IH; lia.
Qed.
