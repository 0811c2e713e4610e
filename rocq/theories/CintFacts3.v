(** * CintFacts3: kf_factor, FindQ and the routines of csphi.c with C ints *)
From Coq Require Import ZArith Znumtheory List String Bool Reals Lia Lra.
From Coquelicot Require Import Complex.
From Verif Require Import Py PyFacts Num Exact MCoefs Sums MPysphi Dft Smooth PysphiFacts MKiss KissFacts KissFacts2 MOps MTrans MCsphi CsphiFacts MCint CintFacts CintFacts2.
Import ListNotations.
Open Scope list_scope.
Open Scope Z_scope.

(** ** kf_factor and kiss_fft_alloc *)
Lemma x_factor_next_eq n fsqrt : 1 <= n -> 0 <= fsqrt <= 2 ^ 16 -> forall fuel p,
  0 <= p -> p = 4 \/ p <= fsqrt \/ p = n ->
  x_factor_next fuel n fsqrt p = factor_next fuel n fsqrt p /\
  forall q, factor_next fuel n fsqrt p = Ok q -> 0 <= q /\ (q = 4 \/ q <= fsqrt \/ q = n) .
Proof.
  intros Hn Hf. induction fuel as [|fuel IH]; intros p Hp H; cbn [x_factor_next factor_next].
  - split; [reflexivity|discriminate].
  - destruct (Z.eqb_spec (n mod p) 0) as [E|E].
    + split; [reflexivity|]. intros q Eq. apply Ok_inj in Eq. subst; auto.
    + assert (p <> n) by (intros ->; rewrite Z_mod_same_full in E; auto).
      assert (Hck : (if p =? 4 then Ok 2 else if p =? 2 then Ok 3 else ck (p + 2)) = Ok (if p =? 4 then 2 else if p =? 2 then 3 else p + 2)).
      { destruct (p =? 4); [reflexivity|]. destruct (p =? 2); [reflexivity|]. apply ck_ok. unfold isint, INT_MIN, INT_MAX. lia. }
      rewrite Hck. cbn [bind]. apply IH.
      * destruct (fsqrt <? _); [lia|]. destruct (p =? 4); [lia|]. destruct (p =? 2); lia.
      * destruct (Z.ltb_spec fsqrt (if p =? 4 then 2 else if p =? 2 then 3 else p + 2)); auto.
Qed.
Lemma x_factor_loop_eq fsqrt : 0 <= fsqrt <= 2 ^ 16 -> forall fuel n p, 1 <= n -> 0 <= p -> p = 4 \/ p <= fsqrt \/ p = n ->
  x_factor_loop fuel n fsqrt p = factor_loop fuel n fsqrt p.
Proof.
  intros Hf. induction fuel as [|fuel IH]; intros n p Hn Hp H; cbn [x_factor_loop factor_loop]; [reflexivity|].
  destruct (x_factor_next_eq n fsqrt Hn Hf (Z.to_nat (fsqrt + 5)) p Hp H) as [-> K].
  destruct (factor_next _ n fsqrt p) as [q|e]; cbn [bind]; [|reflexivity]. specialize (K q eq_refl).
  destruct (Z.ltb_spec 1 (n / q)); [|reflexivity]. rewrite IH; auto; try lia.
  destruct K as (K0 & [K|[K|K]]); auto. subst q. rewrite Z_div_same in H0 by lia. lia.
Qed.
Lemma x_kf_factor_eq n : 1 <= n <= INT_MAX -> x_kf_factor n = kf_factor n.
Proof.
  unfold INT_MAX. intros Hn. unfold x_kf_factor, kf_factor. rewrite c_floor_sqrt_ok by lia. apply x_factor_loop_eq; try lia.
  split; [apply Z.sqrt_nonneg|]. transitivity (Z.sqrt (2 ^ 32)); [apply Z.sqrt_le_mono; lia|reflexivity].
Qed.
Lemma x_fft_alloc_eq n inv : 1 <= n <= INT_MAX -> x_fft_alloc n inv = kiss_fft_alloc n inv.
Proof.
  intros Hn. unfold x_fft_alloc, kiss_fft_alloc. rewrite ck_ok by (unfold isint, INT_MIN, INT_MAX in *; lia). cbn [bind].
  now rewrite x_kf_factor_eq.
Qed.

(** ** 5-smooth numbers *)
Lemma smooth235_form : forall q, smooth [2; 3; 5] q -> exists a b c, 0 <= a /\ 0 <= b /\ 0 <= c /\ q = 2 ^ a * 3 ^ b * 5 ^ c.
Proof.
  intros q. remember (Z.to_nat q) as k eqn:E. revert q E.
  induction k as [k IH] using (well_founded_induction lt_wf). intros q E Hs.
  pose proof Hs as [H1 Hp]. destruct (Z.eq_dec q 1) as [->|Hne].
  - exists 0, 0, 0. repeat split; lia.
  - destruct (prime_divisor q) as (p & Pp & Pd); [lia|].
    pose proof (Hp p Pp Pd) as Hin. pose proof (prime_ge_2 p Pp) as P2.
    assert (Hsd : smooth [2; 3; 5] (q / p)) by (apply smooth_div; auto).
    destruct Pd as [r ->]. rewrite Z.div_mul in Hsd by lia.
    destruct (IH (Z.to_nat r)) with (q := r) as (a & b & c & Ha & Hb & Hc & ->); auto; try nia.
    destruct Hin as [<-|[<-|[<-|[]]]].
    + exists (a + 1), b, c. repeat split; try lia. rewrite (Z.pow_add_r 2) by lia. ring.
    + exists a, (b + 1), c. repeat split; try lia. rewrite (Z.pow_add_r 3) by lia. ring.
    + exists a, b, (c + 1). repeat split; try lia. rewrite (Z.pow_add_r 5) by lia. ring.
Qed.
(** The largest int without a prime factor above 5 *)
Definition LAST5 : Z := 2125764000.
Definition gap_check : bool :=
  forallb (fun a => forallb (fun b => forallb (fun c =>
    let q := 2 ^ a * 3 ^ b * 5 ^ c in (q <=? LAST5) || (INT_MAX <? q)) (zrange 0 14)) (zrange 0 20)) (zrange 0 31).
Lemma gap_check_ok : gap_check = true.
Proof. vm_compute. reflexivity. Qed.
Lemma In_zrange_intro i lo hi : lo <= i < hi -> In i (zrange lo hi).
Proof. intros H. apply In_zrange. auto. Qed.
Lemma smooth_gap q : smooth [2; 3; 5] q -> LAST5 < q -> INT_MAX < q.
Proof.
  intros Hs Hq. destruct (smooth235_form q Hs) as (a & b & c & Ha & Hb & Hc & E).
  destruct (Z_lt_le_dec INT_MAX q) as [|Hle]; [auto|exfalso]. unfold INT_MAX in Hle.
  assert (P2 : 0 < 2 ^ a) by (apply Z.pow_pos_nonneg; lia). assert (P3 : 0 < 3 ^ b) by (apply Z.pow_pos_nonneg; lia).
  assert (P5 : 0 < 5 ^ c) by (apply Z.pow_pos_nonneg; lia).
  assert (Q1 : 1 <= 2 ^ a * 3 ^ b) by nia.
  assert (B2 : 2 ^ a <= q) by nia. assert (B3 : 3 ^ b <= q) by nia. assert (B5 : 5 ^ c <= q) by nia.
  assert (A1 : a < 31) by (apply (Z.pow_lt_mono_r_iff 2); try lia; change (2 ^ 31) with 2147483648; lia).
  assert (A2 : b < 20) by (apply (Z.pow_lt_mono_r_iff 3); try lia; change (3 ^ 20) with 3486784401; lia).
  assert (A3 : c < 14) by (apply (Z.pow_lt_mono_r_iff 5); try lia; change (5 ^ 14) with 6103515625; lia).
  pose proof gap_check_ok as G. unfold gap_check in G. rewrite forallb_forall in G.
  specialize (G a (In_zrange_intro a 0 31 ltac:(lia))). cbv beta in G. rewrite forallb_forall in G.
  specialize (G b (In_zrange_intro b 0 20 ltac:(lia))). cbv beta in G. rewrite forallb_forall in G.
  specialize (G c (In_zrange_intro c 0 14 ltac:(lia))). cbv beta zeta in G. rewrite <- E in G.
  apply orb_prop in G. destruct G as [G|G]; [apply Z.leb_le in G; lia|apply Z.ltb_lt in G; unfold INT_MAX in G; lia].
Qed.
Lemma smooth_mul235 a b c : 0 <= a -> 0 <= b -> 0 <= c -> smooth [2; 3; 5] (2 ^ a * 3 ^ b * 5 ^ c).
Proof.
  intros Ha Hb Hc.
  assert (G : forall p k x, In p [2; 3; 5] -> prime p -> 0 <= k -> smooth [2; 3; 5] x -> smooth [2; 3; 5] (x * p ^ k)).
  { intros p k x Hin Hp Hk Hx. revert k Hk. apply natlike_ind; [now rewrite Z.mul_1_r|].
    intros k Hk IH. rewrite Z.pow_succ_r by lia. replace (x * (p * p ^ k)) with (x * p ^ k * p) by ring.
    pose proof (prime_ge_2 p Hp). destruct IH as [I1 I2].
    apply (smooth_div _ _ p); auto; [exists (x * p ^ k); reflexivity|nia|]. rewrite Z.div_mul by lia. split; auto. }
  apply G; auto using prime_5; [cbn; auto|]. apply G; auto using prime_3; [cbn; auto|].
  rewrite <- (Z.mul_1_l (2 ^ a)). apply G; auto using prime_2, smooth_1. cbn; auto.
Qed.
Lemma LAST5_smooth : smooth [2; 3; 5] LAST5.
Proof. change LAST5 with (2 ^ 5 * 3 ^ 12 * 5 ^ 3). apply smooth_mul235; lia. Qed.

(** ** FindQ *)
Lemma findq_mono : forall fuel A Q q, findq_loop fuel A Q = Ok q -> Q <= q.
Proof.
  induction fuel as [|fuel IH]; intros A Q q E; cbn [findq_loop] in E; [discriminate|].
  destruct (A =? 1); [apply Ok_inj in E; lia|].
  destruct (Z.rem A 2 =? 0); [eauto|]. destruct (Z.rem A 3 =? 0); [eauto|]. destruct (Z.rem A 5 =? 0); [eauto|].
  apply IH in E. lia.
Qed.
Lemma x_findq_ref ov : forall fuel A Q, (ov = false -> exists q, findq_loop fuel A Q = Ok q /\ q <= INT_MAX) -> 0 <= Q ->
  refR ov eq (x_findq_loop fuel A Q) (findq_loop fuel A Q).
Proof.
  induction fuel as [|fuel IH]; intros A Q H HQ; cbn [x_findq_loop findq_loop] in *; [apply refR_refl|].
  destruct (A =? 1); [apply refR_refl|].
  destruct (Z.rem A 2 =? 0); [auto|]. destruct (Z.rem A 3 =? 0); [auto|]. destruct (Z.rem A 5 =? 0); [auto|].
  apply refR_ck.
  - intros E. destruct (H E) as (q & Eq & Hq). apply findq_mono in Eq. unfold isint, INT_MIN, INT_MAX in *. lia.
  - intros _. apply IH; auto. lia.
Qed.
Lemma x_findq_int : forall fuel A Q q, x_findq_loop fuel A Q = Ok q -> isint Q -> Q <= q /\ isint q.
Proof.
  induction fuel as [|fuel IH]; intros A Q q E HQ; cbn [x_findq_loop] in E; [discriminate|].
  destruct (A =? 1); [apply Ok_inj in E; subst; split; [lia|auto]|].
  destruct (Z.rem A 2 =? 0); [eauto|]. destruct (Z.rem A 3 =? 0); [eauto|]. destruct (Z.rem A 5 =? 0); [eauto|].
  destruct (ck_cases (Q + 1)) as [[E1 Hi]|E1]; rewrite E1 in E; cbn [bind] in E; [|discriminate].
  apply IH in E; auto. split; [lia|tauto].
Qed.
Lemma x_FindQ_ref ov S : 0 <= S -> (ov = false -> 1 <= S <= LAST5) -> refR ov eq (x_FindQ S) (FindQ S).
Proof.
  intros HS H. apply x_findq_ref; auto. intros E. specialize (H E).
  destruct (FindQ_ok S) as (q & Eq & (L1 & L2 & L3) & _); [lia|]. exists q. split; [exact Eq|].
  destruct (Z_le_gt_dec q LAST5); [unfold INT_MAX, LAST5 in *; lia|].
  exfalso. apply (L3 LAST5); [lia|]. apply LAST5_smooth.
Qed.
Lemma x_FindQ_eq S : 1 <= S <= LAST5 -> x_FindQ S = FindQ S.
Proof. intros H. apply refR_false, x_FindQ_ref; auto; lia. Qed.
Lemma x_FindQ_overflow S : LAST5 < S <= INT_MAX -> x_FindQ S = Raise IntOverflow.
Proof.
  intros H. unfold LAST5, INT_MAX in H. destruct (refR_true _ _ (x_FindQ_ref true S ltac:(lia) ltac:(discriminate))) as [E|E]; auto.
  exfalso. destruct (FindQ_ok S) as (q & Eq & (L1 & L2 & L3) & _); [lia|]. rewrite Eq in E.
  apply x_findq_int in E; [|unfold isint, INT_MIN, INT_MAX; lia]. destruct E as [_ [_ E]].
  pose proof (smooth_gap q L2 ltac:(unfold LAST5; lia)). lia.
Qed.

(** ** kiss_fft_next_fast_size *)
Lemma next_fast_mono : forall fuel n q, next_fast_loop fuel n = Ok q -> n <= q.
Proof.
  induction fuel as [|fuel IH]; intros n q E; cbn [next_fast_loop] in E; [discriminate|]. cbv zeta in E.
  destruct (strip _ 2 n) as [m|]; cbn [bind] in E; [|discriminate]. destruct (strip _ 3 m) as [m'|]; cbn [bind] in E; [|discriminate].
  destruct (strip _ 5 m') as [m2|]; cbn [bind] in E; [|discriminate].
  destruct (m2 <=? 1); [apply Ok_inj in E; lia|]. apply IH in E. lia.
Qed.
Lemma x_next_fast_ref ov : forall fuel n, (ov = false -> exists q, next_fast_loop fuel n = Ok q /\ q <= INT_MAX) -> 0 <= n ->
  refR ov eq (x_next_fast_loop fuel n) (next_fast_loop fuel n).
Proof.
  induction fuel as [|fuel IH]; intros n H Hn; cbn [x_next_fast_loop next_fast_loop] in *; [apply refR_refl|]. cbv zeta in *.
  apply refR_same. intros m Em. rewrite Em in H. cbn [bind] in H. apply refR_same. intros m2 Em2. rewrite Em2 in H. cbn [bind] in H.
  apply refR_same. intros m3 Em3. rewrite Em3 in H. cbn [bind] in H. destruct (m3 <=? 1); [apply refR_refl|].
  apply refR_ck.
  - intros E. destruct (H E) as (q & Eq & Hq). apply next_fast_mono in Eq. unfold isint, INT_MIN, INT_MAX in *. lia.
  - intros _. apply IH; auto. lia.
Qed.
Lemma x_next_fast_int : forall fuel n q, x_next_fast_loop fuel n = Ok q -> isint n -> isint q.
Proof.
  induction fuel as [|fuel IH]; intros n q E Hn; cbn [x_next_fast_loop] in E; [discriminate|]. cbv zeta in E.
  destruct (strip _ 2 n) as [m|]; cbn [bind] in E; [|discriminate]. destruct (strip _ 3 m) as [m'|]; cbn [bind] in E; [|discriminate].
  destruct (strip _ 5 m') as [m2|]; cbn [bind] in E; [|discriminate].
  destruct (m2 <=? 1); [apply Ok_inj in E; subst; auto|].
  destruct (ck_cases (n + 1)) as [[E1 Hi]|E1]; rewrite E1 in E; cbn [bind] in E; [eauto|discriminate].
Qed.
Lemma x_next_fast_eq n : 1 <= n <= LAST5 -> x_next_fast_size n = kiss_fft_next_fast_size n.
Proof.
  intros Hn. apply refR_false, x_next_fast_ref; [|lia]. intros _.
  destruct (next_fast_ok n) as (q & Eq & (L1 & L2 & L3) & _); [lia|]. exists q. split; [exact Eq|].
  destruct (Z_le_gt_dec q LAST5); [unfold INT_MAX, LAST5 in *; lia|].
  exfalso. apply (L3 LAST5); [lia|]. apply LAST5_smooth.
Qed.
Lemma x_next_fast_overflow n : LAST5 < n <= INT_MAX -> x_next_fast_size n = Raise IntOverflow.
Proof.
  intros H. unfold LAST5, INT_MAX in H. unfold x_next_fast_size.
  destruct (refR_true _ _ (x_next_fast_ref true (S (Z.to_nat n)) n ltac:(discriminate) ltac:(lia))) as [E|E]; auto.
  exfalso. destruct (next_fast_ok n) as (q & Eq & (L1 & L2 & L3) & _); [lia|]. unfold kiss_fft_next_fast_size in Eq. rewrite Eq in E.
  apply x_next_fast_int in E; [|unfold isint, INT_MIN, INT_MAX; lia]. destruct E as [_ E].
  pose proof (smooth_gap q L2 ltac:(unfold LAST5; lia)). lia.
Qed.
