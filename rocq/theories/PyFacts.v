(** Facts about the Python fragment of [Py]. *)
From Coq Require Import ZArith List String Bool Lia ZifyBool ZifyNat FinFun Wf_nat.
From Verif Require Import Py.
Import ListNotations.
Open Scope Z_scope.

Lemma zlen_nonneg {A} (v : list A) : 0 <= zlen v.
Proof. unfold zlen; lia. Qed.

Lemma zlen_app {A} (u v : list A) : zlen (u ++ v) = zlen u + zlen v.
Proof. unfold zlen; rewrite app_length; lia. Qed.

Lemma zlen_map {A B} (f : A -> B) v : zlen (map f v) = zlen v.
Proof. unfold zlen; rewrite map_length; auto. Qed.

Lemma zlen_zrange lo hi : zlen (zrange lo hi) = Z.max 0 (hi - lo).
Proof. unfold zlen, zrange; rewrite map_length, seq_length; lia. Qed.

Lemma zlen_vmake {A} n (f : Z -> A) : zlen (vmake n f) = Z.max 0 n.
Proof. unfold vmake; rewrite zlen_map, zlen_zrange; lia. Qed.

Lemma In_zrange lo hi i : In i (zrange lo hi) <-> lo <= i < hi.
Proof.
  unfold zrange; rewrite in_map_iff; split.
  - intros (k & <- & Hk); apply in_seq in Hk; lia.
  - intros H; exists (Z.to_nat (i - lo)); split; [lia|]. apply in_seq; lia.
Qed.

Lemma zrange_nil lo hi : hi <= lo -> zrange lo hi = [].
Proof. intros; unfold zrange; replace (Z.to_nat (hi - lo)) with O by lia; auto. Qed.

Lemma zrange_cons lo hi : lo < hi -> zrange lo hi = lo :: zrange (lo + 1) hi.
Proof.
  intros; unfold zrange.
  replace (Z.to_nat (hi - lo)) with (S (Z.to_nat (hi - (lo + 1)))) by lia.
  cbn [seq map]; f_equal; [lia|].
  rewrite <- seq_shift, map_map; apply map_ext; intros; lia.
Qed.

Lemma zrange_snoc lo hi : lo <= hi -> zrange lo (hi + 1) = zrange lo hi ++ [hi].
Proof.
  intros; unfold zrange.
  replace (Z.to_nat (hi + 1 - lo)) with (S (Z.to_nat (hi - lo))) by lia.
  rewrite seq_S, map_app; cbn [map]; f_equal; f_equal; lia.
Qed.

Lemma zrange_app lo mid hi : lo <= mid <= hi ->
  zrange lo hi = zrange lo mid ++ zrange mid hi.
Proof.
  intros H. remember (Z.to_nat (mid - lo)) as n eqn:Hn.
  revert lo H Hn; induction n as [|n IH]; intros lo H Hn.
  - assert (mid = lo) by lia; subst; rewrite (zrange_nil lo lo) by lia; auto.
  - rewrite (zrange_cons lo hi), (zrange_cons lo mid) by lia; cbn [app]; f_equal.
    apply IH; lia.
Qed.

Lemma zrange_shift lo hi d : zrange (lo + d) (hi + d) = map (fun i => i + d) (zrange lo hi).
Proof.
  unfold zrange; rewrite map_map.
  replace (hi + d - (lo + d)) with (hi - lo) by lia.
  apply map_ext; intros; lia.
Qed.

Lemma nth_zrange lo hi k d : (k < Z.to_nat (hi - lo))%nat ->
  nth k (zrange lo hi) d = lo + Z.of_nat k.
Proof.
  intros H; unfold zrange.
  rewrite nth_indep with (d' := lo + Z.of_nat 0)
    by (rewrite map_length, seq_length; lia).
  rewrite map_nth with (f := fun k => lo + Z.of_nat k), seq_nth by lia; lia.
Qed.

Lemma NoDup_zrange lo hi : NoDup (zrange lo hi).
Proof.
  unfold zrange; apply Injective_map_NoDup; [|apply seq_NoDup].
  intros x y; lia.
Qed.

(** ** vget / vset / vmake *)

Lemma upd_length {A} (v : list A) i x : List.length (upd v i x) = List.length v.
Proof. revert i; induction v; destruct i; cbn; auto. Qed.

Lemma nth_upd {A} (v : list A) i j x d : (i < List.length v)%nat ->
  nth j (upd v i x) d = if Nat.eqb j i then x else nth j v d.
Proof.
  revert i j; induction v as [|a v IH]; intros i j H; cbn in H; [lia|].
  destruct i, j; cbn; auto. rewrite IH by lia; auto.
Qed.

Lemma zlen_vset {A} (v : list A) i x : zlen (vset v i x) = zlen v.
Proof. unfold vset, zlen; destruct (i <? 0); auto; now rewrite upd_length. Qed.

Lemma vget_vset {A} (d : A) v i j x : 0 <= i < zlen v ->
  vget d (vset v i x) j = if j =? i then x else vget d v j.
Proof.
  unfold vget, vset, zlen; intros H.
  destruct (Z.ltb_spec i 0); [lia|].
  destruct (Z.ltb_spec j 0).
  - destruct (Z.eqb_spec j i); [lia|auto].
  - rewrite nth_upd by lia.
    destruct (Z.eqb_spec j i), (Nat.eqb_spec (Z.to_nat j) (Z.to_nat i)); auto; lia.
Qed.

Lemma vget_vset_eq {A} (d : A) v i x : 0 <= i < zlen v -> vget d (vset v i x) i = x.
Proof. intros; rewrite vget_vset by auto; now rewrite Z.eqb_refl. Qed.

Lemma vget_vset_ne {A} (d : A) v i j x : j <> i -> vget d (vset v i x) j = vget d v j.
Proof.
  unfold vget, vset; intros H.
  destruct (Z.ltb_spec i 0); auto.
  destruct (Z.ltb_spec j 0); auto.
  destruct (le_lt_dec (List.length v) (Z.to_nat i)).
  - f_equal. revert l; generalize (Z.to_nat i) as k; clear.
    induction v; destruct k; cbn; auto; try lia; intros; f_equal; apply IHv; lia.
  - rewrite nth_upd by lia.
    destruct (Nat.eqb_spec (Z.to_nat j) (Z.to_nat i)); auto; lia.
Qed.

Lemma vget_vmake {A} (d : A) n f i : 0 <= i < n -> vget d (vmake n f) i = f i.
Proof.
  intros H; unfold vget, vmake. destruct (Z.ltb_spec i 0); [lia|].
  rewrite nth_indep with (d' := f 0) by (rewrite map_length; unfold zrange; rewrite map_length, seq_length; lia).
  rewrite map_nth, nth_zrange by lia. f_equal; lia.
Qed.

Lemma vget_out {A} (d : A) v i : i < 0 \/ zlen v <= i -> vget d v i = d.
Proof.
  unfold vget, zlen; intros H; destruct (Z.ltb_spec i 0); auto.
  apply nth_overflow; lia.
Qed.

Lemma vget_app {A} (d : A) u v i : 0 <= i ->
  vget d (u ++ v) i = if i <? zlen u then vget d u i else vget d v (i - zlen u).
Proof.
  unfold vget, zlen; intros H. destruct (Z.ltb_spec i 0); [lia|].
  destruct (Z.ltb_spec i (Z.of_nat (List.length u))).
  - apply app_nth1; lia.
  - destruct (Z.ltb_spec (i - Z.of_nat (List.length u)) 0); [lia|].
    rewrite app_nth2 by lia. f_equal; lia.
Qed.

Lemma vget_map {A B} (f : A -> B) d d' v i : 0 <= i < zlen v ->
  vget d' (map f v) i = f (vget d v i).
Proof.
  unfold vget, zlen; intros H. destruct (Z.ltb_spec i 0); [lia|].
  rewrite nth_indep with (d' := f d) by (rewrite map_length; lia).
  apply map_nth.
Qed.

Lemma vget_zrange d lo hi i : 0 <= i < hi - lo -> vget d (zrange lo hi) i = lo + i.
Proof.
  intros H. unfold vget. destruct (Z.ltb_spec i 0); [lia|].
  rewrite nth_zrange by lia. lia.
Qed.

Lemma vget_ext {A} (d : A) u v : zlen u = zlen v ->
  (forall i, 0 <= i < zlen u -> vget d u i = vget d v i) -> u = v.
Proof.
  unfold zlen; intros Hl H. apply nth_ext with d d; [lia|].
  intros n Hn. specialize (H (Z.of_nat n)). unfold vget in H.
  destruct (Z.ltb_spec (Z.of_nat n) 0); [lia|].
  rewrite !Nat2Z.id in H. apply H; lia.
Qed.

Lemma vmake_vget {A} (d : A) v : vmake (zlen v) (vget d v) = v.
Proof.
  apply vget_ext with d; rewrite zlen_vmake; pose proof (zlen_nonneg v).
  - lia.
  - intros; apply vget_vmake; lia.
Qed.

Lemma vmake_ext {A} n (f g : Z -> A) : (forall i, 0 <= i < n -> f i = g i) ->
  vmake n f = vmake n g.
Proof.
  intros H; unfold vmake; apply map_ext_in; intros i Hi; apply In_zrange in Hi; auto.
Qed.

Lemma vget_firstn {A} (d : A) v n i : 0 <= i < n -> vget d (firstn (Z.to_nat n) v) i = vget d v i.
Proof.
  unfold vget; intros H; destruct (Z.ltb_spec i 0); [lia|].
  assert (Hk : (Z.to_nat i < Z.to_nat n)%nat) by lia.
  revert Hk; generalize (Z.to_nat i) as k, (Z.to_nat n) as m; clear.
  intros k m; revert v m; induction k; intros v m Hk; destruct v, m; cbn; auto; try lia.
  apply IHk; lia.
Qed.

Lemma vget_skipn {A} (d : A) v n i : 0 <= i -> 0 <= n ->
  vget d (skipn (Z.to_nat n) v) i = vget d v (n + i).
Proof.
  unfold vget; intros Hi Hn.
  destruct (Z.ltb_spec i 0); [lia|]. destruct (Z.ltb_spec (n + i) 0); [lia|].
  replace (Z.to_nat (n + i)) with (Z.to_nat n + Z.to_nat i)%nat by lia.
  generalize (Z.to_nat i) as k, (Z.to_nat n) as m; clear.
  intros k m; revert v k; induction m; intros v k; cbn; auto.
  destruct v; cbn; auto. destruct k; auto.
Qed.

Lemma zlen_firstn {A} (v : list A) n : 0 <= n -> zlen (firstn (Z.to_nat n) v) = Z.min n (zlen v).
Proof. intros; unfold zlen; rewrite firstn_length; lia. Qed.

Lemma zlen_skipn {A} (v : list A) n : 0 <= n -> zlen (skipn (Z.to_nat n) v) = Z.max 0 (zlen v - n).
Proof. intros; unfold zlen; rewrite skipn_length; lia. Qed.

Lemma zlen_repeat {A} (x : A) n : zlen (repeat x n) = Z.of_nat n.
Proof. unfold zlen; now rewrite repeat_length. Qed.

Lemma vget_repeat {A} (d x : A) n i : 0 <= i < Z.of_nat n -> vget d (repeat x n) i = x.
Proof.
  unfold vget; intros; destruct (Z.ltb_spec i 0); [lia|].
  assert (Hk : (Z.to_nat i < n)%nat) by lia. revert Hk; generalize (Z.to_nat i) as k.
  clear; induction n; intros k Hk; [lia|]; destruct k; cbn; auto; apply IHn; lia.
Qed.

(** ** slices *)

Lemma zlen_py_slice {A} (v : list A) a b : 0 <= a <= b -> b <= zlen v ->
  zlen (py_slice v a b) = b - a.
Proof.
  intros H1 H2; unfold py_slice, slice_bound.
  destruct (Z.ltb_spec a 0), (Z.ltb_spec b 0); try lia.
  rewrite !Z.min_l by lia.
  rewrite zlen_firstn, zlen_skipn by lia. lia.
Qed.

Lemma vget_py_slice {A} (d : A) v a b i : 0 <= a -> b <= zlen v -> 0 <= i < b - a ->
  vget d (py_slice v a b) i = vget d v (a + i).
Proof.
  intros H1 H2 H3; unfold py_slice, slice_bound.
  destruct (Z.ltb_spec a 0), (Z.ltb_spec b 0); try lia.
  rewrite !Z.min_l by lia.
  rewrite vget_firstn, vget_skipn by lia. auto.
Qed.

Lemma py_slice_vmake {A} (d : A) v a b : 0 <= a <= b -> b <= zlen v ->
  py_slice v a b = vmake (b - a) (fun i => vget d v (a + i)).
Proof.
  intros; apply vget_ext with d; rewrite zlen_py_slice by lia.
  - rewrite zlen_vmake; lia.
  - intros; rewrite vget_py_slice, vget_vmake by lia; auto.
Qed.

Lemma py_slice_set_ok {A} (v : list A) a b w : 0 <= a <= b -> b <= zlen v ->
  zlen w = b - a -> exists v', py_slice_set v a b w = Ok v' /\ zlen v' = zlen v /\
  forall d i, 0 <= i < zlen v ->
    vget d v' i = if (a <=? i) && (i <? b) then vget d w (i - a) else vget d v i.
Proof.
  intros H1 H2 H3; unfold py_slice_set, slice_bound.
  destruct (Z.ltb_spec a 0), (Z.ltb_spec b 0); try lia.
  rewrite (Z.min_l a), (Z.min_l b), Z.max_r by lia.
  destruct (Z.eqb_spec (zlen w) (b - a)); [|lia].
  eexists; split; [reflexivity|]. split.
  - rewrite !zlen_app, zlen_firstn, zlen_skipn by lia. lia.
  - intros d i Hi. rewrite vget_app, zlen_firstn by lia. rewrite Z.min_l by lia.
    destruct (Z.ltb_spec i a).
    + destruct (Z.leb_spec a i); [lia|]. cbn. apply vget_firstn; lia.
    + destruct (Z.leb_spec a i); [|lia]. cbn [andb].
      rewrite vget_app by lia. destruct (Z.ltb_spec (i - a) (zlen w)), (Z.ltb_spec i b); try lia; auto.
      rewrite vget_skipn by lia. f_equal; lia.
Qed.

Lemma py_slice_set_mismatch {A} (v : list A) a b w : 0 <= a <= b -> b <= zlen v ->
  zlen w <> b - a -> zlen w <> 1 -> py_slice_set v a b w = Raise NumpyError.
Proof.
  intros H1 H2 H3 H4; unfold py_slice_set, slice_bound.
  destruct (Z.ltb_spec a 0), (Z.ltb_spec b 0); try lia.
  rewrite (Z.min_l a), (Z.min_l b), Z.max_r by lia.
  destruct (Z.eqb_spec (zlen w) (b - a)); [lia|].
  destruct w as [|x [|]]; auto. exfalso; apply H4; reflexivity.
Qed.

(** ** zip *)

Lemma zlen_zip_with {A B C} (f : A -> B -> C) u v : zlen u = zlen v -> zlen (zip_with f u v) = zlen u.
Proof.
  unfold zlen; intros H; f_equal; assert (H' : List.length u = List.length v) by lia; clear H.
  revert v H'; induction u; intros [|b v] H; cbn in *; auto; try lia.
Qed.

Lemma nth_zip_with {A B C} (f : A -> B -> C) u v k da db dc :
  (k < List.length u)%nat -> (k < List.length v)%nat ->
  nth k (zip_with f u v) dc = f (nth k u da) (nth k v db).
Proof.
  revert u v; induction k; intros [|a u] [|b v] H1 H2; cbn in *; auto; try lia.
  apply IHk; lia.
Qed.

Lemma vget_zip_with {A B C} (f : A -> B -> C) u v i da db dc :
  0 <= i < zlen u -> i < zlen v ->
  vget dc (zip_with f u v) i = f (vget da u i) (vget db v i).
Proof.
  unfold zlen, vget; intros; destruct (Z.ltb_spec i 0); [lia|].
  apply nth_zip_with; lia.
Qed.

(** ** loops *)

Lemma pfor_app {S} l1 l2 f (s : S) : pfor (l1 ++ l2) f s = pfor l2 f (pfor l1 f s).
Proof. apply fold_left_app. Qed.

Lemma mfor_app {S} l1 l2 f (s : S) :
  mfor (l1 ++ l2) f s = bind (mfor l1 f s) (mfor l2 f).
Proof.
  revert s; induction l1 as [|i l1 IH]; intros s; cbn; auto.
  destruct (f i s); cbn; auto.
Qed.

Lemma pfor_inv {S} (P : Z -> S -> Prop) lo hi f s :
  lo <= hi -> P lo s ->
  (forall i s, lo <= i < hi -> P i s -> P (i + 1) (f i s)) ->
  P hi (pfor (zrange lo hi) f s).
Proof.
  intros Hle H0 Hs.
  assert (H : forall k, lo <= k <= hi -> P k (pfor (zrange lo k) f s)).
  { intros k Hk. remember (Z.to_nat (k - lo)) as n eqn:Hn.
    revert k Hk Hn; induction n as [|n IH]; intros k Hk Hn.
    - assert (k = lo) by lia; subst; rewrite zrange_nil by lia; exact H0.
    - replace k with ((k - 1) + 1) by lia.
      rewrite zrange_snoc, pfor_app by lia; cbn.
      apply Hs; [lia|]. apply IH; lia. }
  apply H; lia.
Qed.

Lemma mfor_inv {S} (P : Z -> S -> Prop) lo hi f s :
  lo <= hi -> P lo s ->
  (forall i s, lo <= i < hi -> P i s -> exists s', f i s = Ok s' /\ P (i + 1) s') ->
  exists s', mfor (zrange lo hi) f s = Ok s' /\ P hi s'.
Proof.
  intros Hle H0 Hs.
  assert (H : forall k, lo <= k <= hi -> exists s', mfor (zrange lo k) f s = Ok s' /\ P k s').
  { intros k Hk. remember (Z.to_nat (k - lo)) as n eqn:Hn.
    revert k Hk Hn; induction n as [|n IH]; intros k Hk Hn.
    - assert (k = lo) by lia; subst; rewrite zrange_nil by lia; exists s; split; auto.
    - replace k with ((k - 1) + 1) by lia.
      rewrite zrange_snoc, mfor_app by lia.
      destruct (IH (k - 1)) as (s1 & -> & Hp); [lia|lia|]. cbn.
      destruct (Hs (k - 1) s1) as (s2 & -> & Hp2); [lia|auto|]. cbn; eauto. }
  apply H; lia.
Qed.

Lemma mfor_ok {S} l (f : Z -> S -> S) s :
  mfor l (fun i s => Ok (f i s)) s = Ok (pfor l f s).
Proof. revert s; induction l; intros s; cbn; [auto|apply IHl]. Qed.

Lemma mfor_ext {S} l (f g : Z -> S -> res S) s :
  (forall i s, In i l -> f i s = g i s) -> mfor l f s = mfor l g s.
Proof.
  revert s; induction l as [|i l IH]; intros s H; cbn; auto.
  rewrite H by (left; auto). destruct (g i s); cbn; auto. apply IH; intros; apply H; right; auto.
Qed.

Lemma pfor_ext {S} l (f g : Z -> S -> S) s :
  (forall i s, In i l -> f i s = g i s) -> pfor l f s = pfor l g s.
Proof.
  revert s; induction l as [|i l IH]; intros s H; cbn; auto.
  rewrite H by (left; auto). apply IH; intros; apply H; right; auto.
Qed.

Lemma mmap_ok {A B} (f : A -> res B) (g : A -> B) l :
  (forall a, In a l -> f a = Ok (g a)) -> mmap f l = Ok (map g l).
Proof.
  induction l as [|a l IH]; intros H; cbn; auto.
  rewrite H by (left; auto); cbn. rewrite IH by (intros; apply H; right; auto). auto.
Qed.

Lemma zrange_down_rev hi lo : zrange_down hi lo = rev (zrange (lo + 1) (hi + 1)).
Proof.
  unfold zrange_down, zrange.
  replace (hi + 1 - (lo + 1)) with (hi - lo) by lia.
  remember (Z.to_nat (hi - lo)) as n eqn:Hn.
  assert (H : forall n hi lo, hi = lo + Z.of_nat n ->
     map (fun k : nat => hi - Z.of_nat k) (seq 0 n) =
     rev (map (fun k : nat => lo + 1 + Z.of_nat k) (seq 0 n))).
  { clear. induction n as [|n IH]; intros hi lo H; auto.
    rewrite (seq_S n 0), map_app, map_app, rev_app_distr. cbn [map rev app].
    rewrite <- (IH (hi-1) lo) by lia.
    replace ([hi - Z.of_nat (0 + n)]) with (map (fun k : nat => hi - Z.of_nat k) (seq n 1)) by (cbn; auto).
    rewrite <- map_app, <- seq_app. replace (n + 1)%nat with (S n) by lia.
    cbn [seq map]. f_equal; [lia|]. rewrite <- seq_shift, map_map. apply map_ext; intros; lia. }
  destruct (Z.le_gt_cases lo hi).
  - apply H; lia.
  - replace n with O by lia; auto.
Qed.

Lemma zrange_down_cons hi lo : lo < hi -> zrange_down hi lo = hi :: zrange_down (hi - 1) lo.
Proof.
  intros. rewrite !zrange_down_rev. replace (hi - 1 + 1) with hi by lia.
  rewrite (zrange_snoc (lo+1) hi) by lia. rewrite rev_app_distr. auto.
Qed.

Lemma zrange_down_nil hi lo : hi <= lo -> zrange_down hi lo = [].
Proof. intros; unfold zrange_down; replace (Z.to_nat (hi - lo)) with O by lia; auto. Qed.

(** Downward invariant rule: P i holds before processing index i. *)
Lemma pfor_down_inv {S} (P : Z -> S -> Prop) hi lo f s :
  lo <= hi -> P hi s ->
  (forall i s, lo < i <= hi -> P i s -> P (i - 1) (f i s)) ->
  P lo (pfor (zrange_down hi lo) f s).
Proof.
  intros Hle. remember (Z.to_nat (hi - lo)) as n eqn:Hn.
  revert hi s Hle Hn; induction n as [|n IH]; intros hi s Hle Hn H0 Hs.
  - assert (hi = lo) by lia; subst; rewrite zrange_down_nil by lia; auto.
  - rewrite zrange_down_cons by lia; cbn. apply IH; try lia.
    + apply Hs; auto; lia.
    + intros; apply Hs; auto; lia.
Qed.

Lemma zrange_down2_cons hi lo : lo < hi -> zrange_down2 hi lo = hi :: zrange_down2 (hi - 2) lo.
Proof.
  intros; unfold zrange_down2.
  replace (Z.to_nat ((hi - lo + 1) / 2)) with (S (Z.to_nat ((hi - 2 - lo + 1) / 2))).
  - cbn [seq map]; f_equal; [lia|]. rewrite <- seq_shift, map_map; apply map_ext; intros; lia.
  - replace (hi - lo + 1) with ((hi - 2 - lo + 1) + 1 * 2) by lia.
    rewrite Z.div_add by lia.
    assert (0 <= (hi - 2 - lo + 1) / 2) by (apply Z.div_pos; lia). lia.
Qed.

Lemma zrange_down2_nil hi lo : hi <= lo -> zrange_down2 hi lo = [].
Proof.
  intros; unfold zrange_down2.
  replace (Z.to_nat ((hi - lo + 1) / 2)) with O; auto.
  assert ((hi - lo + 1) / 2 < 1) by (apply Z.div_lt_upper_bound; lia). lia.
Qed.

Lemma pfor_down2_inv {S} (P : Z -> S -> Prop) hi lo f s :
  P hi s ->
  (forall i s, lo < i <= hi -> (hi - i) mod 2 = 0 -> P i s -> P (i - 2) (f i s)) ->
  exists e, e <= lo /\ (lo - 2 < e \/ e = hi) /\ (hi - e) mod 2 = 0 /\
            P e (pfor (zrange_down2 hi lo) f s).
Proof.
  remember (Z.to_nat (hi - lo)) as n eqn:Hn. revert hi s Hn.
  induction n as [n IH] using (well_founded_induction lt_wf); intros hi s Hn H0 Hs.
  destruct (Z.le_gt_cases hi lo).
  - exists hi. rewrite zrange_down2_nil by lia. rewrite Z.sub_diag. cbn. repeat split; auto; lia.
  - rewrite zrange_down2_cons by lia; cbn.
    destruct (IH (Z.to_nat (hi - 2 - lo))) with (hi := hi - 2) (s := f hi s) as (e & E1 & E2 & E3 & E4); try lia.
    + apply Hs; auto; try lia; rewrite ?Z.sub_diag; auto.
    + intros i s' Hi Hm Hp. apply Hs; auto; [lia|].
      replace (hi - i) with ((hi - 2 - i) + 1 * 2) by lia. rewrite Z_mod_plus_full; auto. 
    + exists e. repeat split; auto; try lia.
Qed.

(** Destruct one boolean test, keeping both facts. *)
Ltac bdestr e := let E := fresh "E" in destruct e eqn:E.
