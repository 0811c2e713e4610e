(** * PysphiFacts: closed forms of the pysphi routines (lemmas). *)
From Coq Require Import ZArith List String Lia Reals Lra Bool Factorial.
From Coquelicot Require Import Complex.
From Verif Require Import Py PyFacts Num Exact MCoefs Sums Harm MPysphi Smooth Dft.
Import ListNotations.
Open Scope string_scope.
Open Scope list_scope.
Open Scope Z_scope.

(** ** lists and indices *)
Lemma py_index_in len i : 0 <= i < len -> py_index len i = Ok i.
Proof.
  intros. unfold py_index. destruct (Z.leb_spec 0 i); [|lia]. destruct (Z.ltb_spec i len); [auto|lia].
Qed.
Lemma py_index_wrap len i : - len <= i < 0 -> py_index len i = Ok (i + len).
Proof.
  intros. unfold py_index. destruct (Z.leb_spec 0 i); [lia|]. cbn [andb].
  destruct (Z.leb_spec (- len) i); [|lia]. destruct (Z.ltb_spec i 0); [auto|lia].
Qed.
Lemma zlen_vmake' {A} n (f : Z -> A) : 0 <= n -> zlen (vmake n f) = n.
Proof. intros. rewrite zlen_vmake. lia. Qed.
Lemma py_get_vmake {A} (d : A) n f i : 0 <= i < n -> py_get d (vmake n f) i = Ok (f i).
Proof.
  intros. unfold py_get. rewrite zlen_vmake' by lia. rewrite py_index_in by lia. cbn [bind].
  now rewrite vget_vmake by lia.
Qed.
Lemma vset_vmake {A} n (f : Z -> A) i x : 0 <= i < n ->
  vset (vmake n f) i x = vmake n (fun j => if j =? i then x else f j).
Proof.
  intros H. apply (vget_ext x).
  - rewrite zlen_vset, !zlen_vmake. auto.
  - intros k Hk. rewrite zlen_vset, zlen_vmake in Hk.
    rewrite vget_vset by (rewrite zlen_vmake; lia).
    rewrite !vget_vmake by lia. reflexivity.
Qed.
Lemma py_set_vmake {A} n (f : Z -> A) i x : 0 <= i < n ->
  py_set (vmake n f) i x = Ok (vmake n (fun j => if j =? i then x else f j)).
Proof.
  intros. unfold py_set. rewrite zlen_vmake' by lia. rewrite py_index_in by lia. cbn [bind].
  now rewrite vset_vmake by lia.
Qed.
Lemma py_set_vmake_neg {A} n (f : Z -> A) i x : - n <= i < 0 ->
  py_set (vmake n f) i x = Ok (vmake n (fun j => if j =? i + n then x else f j)).
Proof.
  intros. unfold py_set. rewrite zlen_vmake' by lia. rewrite py_index_wrap by lia. cbn [bind].
  now rewrite vset_vmake by lia.
Qed.
Lemma py_slice_vm {A} n (f : Z -> A) a b : 0 <= a <= b -> b <= n ->
  py_slice (vmake n f) a b = vmake (b - a) (fun i => f (a + i)).
Proof.
  intros H1 H2. destruct (Z.eq_dec n 0) as [->|Hn].
  - assert (a = 0) by lia. assert (b = 0) by lia. subst. reflexivity.
  - apply (vget_ext (f 0)).
    + rewrite zlen_py_slice by (rewrite ?zlen_vmake; lia). rewrite zlen_vmake. lia.
    + intros k Hk. rewrite zlen_py_slice in Hk by (rewrite ?zlen_vmake; lia).
      rewrite vget_py_slice by (rewrite ?zlen_vmake; lia). rewrite !vget_vmake by lia. reflexivity.
Qed.
Lemma zip_with_vmake {A B D} (g : A -> B -> D) n f1 f2 :
  zip_with g (vmake n f1) (vmake n f2) = vmake n (fun i => g (f1 i) (f2 i)).
Proof.
  unfold vmake. induction (zrange 0 n) as [|x l IH]; cbn [map zip_with]; [auto|]. now rewrite IH.
Qed.
Lemma np_broadcast_vmake {A B D} (g : A -> B -> D) n f1 f2 :
  np_broadcast g (vmake n f1) (vmake n f2) = Ok (vmake n (fun i => g (f1 i) (f2 i))).
Proof. unfold np_broadcast. rewrite !zlen_vmake, Z.eqb_refl, zip_with_vmake. reflexivity. Qed.
Lemma map_vmake {A B} (g : A -> B) n f : map g (vmake n f) = vmake n (fun i => g (f i)).
Proof. unfold vmake. apply map_map. Qed.
Lemma np_zeros_ok {A} n (z : A) : 0 <= n -> np_zeros n z = Ok (vmake n (fun _ => z)).
Proof. intros. unfold np_zeros. destruct (Z.ltb_spec n 0); [lia|auto]. Qed.
Lemma np_sumC_vmake n f : np_sumC (vmake n f) = sumC 0 n f.
Proof. reflexivity. Qed.
Lemma list_vmake {A} (d : A) l : l = vmake (zlen l) (vget d l).
Proof. symmetry; apply vmake_vget. Qed.

Lemma mfor_down_inv {S} (P : Z -> S -> Prop) hi lo f s :
  lo <= hi -> P hi s ->
  (forall i s, lo < i <= hi -> P i s -> exists s', f i s = Ok s' /\ P (i - 1) s') ->
  exists s', mfor (zrange_down hi lo) f s = Ok s' /\ P lo s'.
Proof.
  intros Hle. remember (Z.to_nat (hi - lo)) as n eqn:Hn.
  revert hi s Hle Hn; induction n as [|n IH]; intros hi s Hle Hn H0 Hs.
  - assert (hi = lo) by lia; subst; rewrite zrange_down_nil by lia; eexists; split; eauto. reflexivity.
  - rewrite zrange_down_cons by lia. cbn [mfor].
    destruct (Hs hi s ltac:(lia) H0) as (s1 & -> & H1). cbn [bind].
    apply IH; try lia; auto. intros; apply Hs; auto; lia.
Qed.
Lemma mfor_down2_inv {S} (P : Z -> S -> Prop) hi lo f s :
  P hi s ->
  (forall i s, lo < i <= hi -> (hi - i) mod 2 = 0 -> P i s -> exists s', f i s = Ok s' /\ P (i - 2) s') ->
  exists e s', e <= lo /\ (lo - 2 < e \/ e = hi) /\ (hi - e) mod 2 = 0 /\
            mfor (zrange_down2 hi lo) f s = Ok s' /\ P e s'.
Proof.
  remember (Z.to_nat (hi - lo)) as n eqn:Hn. revert hi s Hn.
  induction n as [n IH] using (well_founded_induction lt_wf); intros hi s Hn H0 Hs.
  destruct (Z.le_gt_cases hi lo).
  - exists hi, s. rewrite zrange_down2_nil by lia. rewrite Z.sub_diag. cbn. repeat split; auto; lia.
  - rewrite zrange_down2_cons by lia; cbn [mfor].
    destruct (Hs hi s ltac:(lia) ltac:(rewrite Z.sub_diag; auto) H0) as (s1 & -> & H1). cbn [bind].
    destruct (IH (Z.to_nat (hi - 2 - lo))) with (hi := hi - 2) (s := s1) as (e & s2 & E1 & E2 & E3 & E4 & E5); try lia; auto.
    + intros i s' Hi Hm Hp. apply Hs; auto; [lia|].
      replace (hi - i) with ((hi - 2 - i) + 1 * 2) by lia. rewrite Z_mod_plus_full; auto.
    + exists e, s2. repeat split; auto; try lia.
Qed.

(** ** ynnm and ynunm *)

(** The harmonic table of degree n and order m as a function on Z. *)
Definition Yt (n m : Z) (k : Z) : R := Zt (Z.to_nat (Z.abs m)) (Z.to_nat (n - Z.abs m)) k.

Lemma Yt_supp n m k : Z.abs m <= n -> n < Z.abs k -> Yt n m k = 0%R.
Proof. intros H1 H2. apply Zt_supp1. lia. Qed.
Lemma Yt_odd n m k : Z.abs m <= n -> Z.odd (n + k) = true -> Yt n m k = 0%R.
Proof.
  intros H1 H2. apply Zt_odd. rewrite <- H2. f_equal. lia.
Qed.
Lemma sgnpow_pow m : IZR (sgnpow m) = ((-1) ^ Z.to_nat (Z.abs m))%R.
Proof.
  unfold sgnpow. 
  assert (H : forall j, ((-1) ^ j)%R = IZR (if (Z.of_nat j mod 2 =? 0)%Z then 1 else -1)).
  { induction j as [|j IH]; [reflexivity|]. cbn [pow]. rewrite IH.
    rewrite Nat2Z.inj_succ. destruct (Z.eqb_spec (Z.of_nat j mod 2) 0), (Z.eqb_spec (Z.succ (Z.of_nat j) mod 2) 0); try lra; lia. }
  rewrite H. f_equal. rewrite Z2Nat.id by lia.
  destruct (Z.eqb_spec (m mod 2) 0), (Z.eqb_spec (Z.abs m mod 2) 0); auto; lia.
Qed.
Lemma Yt_neg n m k : Yt n m (- k) = (IZR (sgnpow m) * Yt n m k)%R.
Proof. unfold Yt. rewrite Zt_neg, sgnpow_pow. reflexivity. Qed.
Lemma Yt_absm n m k : Yt n (Z.abs m) k = Yt n m k.
Proof. unfold Yt. now rewrite Z.abs_involutive. Qed.
Lemma Yt_oppm n m k : Yt n (- m) k = Yt n m k.
Proof. unfold Yt. now rewrite Z.abs_opp. Qed.

(** leading coefficient *)
Lemma lead_sq m j :
  (Zt m j (Z.of_nat (m + j)) ^ 2 * (INR (fact (2 * m + j)) * INR (fact j)) = ymm (m + j) ^ 2 * INR (fact (2 * (m + j))))%R.
Proof.
  induction j as [|j IH].
  - rewrite Zt_lead0, !Nat.add_0_r. cbn [fact INR]. ring.
  - rewrite Zt_leadS. pose proof (al_pos m j) as Pa. pose proof (al_sq m (S j)) as HA.
    replace (m + S j)%nat with (S (m + j)) in * by lia. rewrite ymm_sq_S.
    replace (2 * S (m + j))%nat with (S (S (2 * (m + j)))) by lia.
    replace (2 * m + S j)%nat with (S (2 * m + j)) by lia.
    rewrite !fact_simpl, !mult_INR.
    set (x := Zt m j (Z.of_nat (m + j))) in *. set (a := al m (S j)) in *.
    set (y := ymm (m + j)) in *.
    set (f2 := INR (fact (2 * (m + j)))) in *. set (f1 := INR (fact (2 * m + j))) in *. set (fj := INR (fact j)) in *.
    rewrite !S_INR, !plus_INR, !mult_INR in *. cbn [INR] in *. rewrite ?plus_INR in *.
    pose proof (pos_INR m) as Pm. pose proof (pos_INR j) as Pj.
    set (M := INR m) in *. set (J := INR j) in *.
    assert (Ha : (a * a <> 0)%R) by nra.
    assert (HA' : (a * a = (J + 1) * (2 * M + J + 1) / ((2 * (M + J) + 1) * (2 * (M + J) + 3)))%R).
    { apply Rmult_eq_reg_l with (4 * (M + J + 1) ^ 2 - 1)%R; [|nra].
      transitivity ((M + J + 1) ^ 2 - M ^ 2)%R; [rewrite <- HA; ring|]. field. split; nra. }
    transitivity (x ^ 2 * (f1 * fj) * ((2 * M + J + 1) * (J + 1)) / (4 * (a * a)))%R; [field; nra|].
    rewrite IH, HA'. field. repeat split; nra.
Qed.

Lemma lead_pos m j : (0 < Zt m j (Z.of_nat (m + j)))%R.
Proof.
  induction j as [|j IH].
  - rewrite Zt_lead0. apply ymm_pos.
  - rewrite Zt_leadS. apply Rdiv_lt_0_compat; auto. pose proof (al_pos m j). lra.
Qed.

Lemma ymm_loop n : 0 <= n ->
  pfor (zrange 1 (n + 1)) (fun k out => out * sqrt ((2 * IZR k + 1) / 8 / IZR k))%R (1 / sqrt (4 * PI))%R
  = ymm (Z.to_nat n).
Proof.
  intros Hn.
  enough (H : (fun i out => out = ymm (Z.to_nat (i - 1))) (n + 1)
     (pfor (zrange 1 (n + 1)) (fun k out => out * sqrt ((2 * IZR k + 1) / 8 / IZR k))%R (1 / sqrt (4 * PI))%R)).
  { cbv beta in H. rewrite H. f_equal. lia. }
  apply (pfor_inv (fun i out => out = ymm (Z.to_nat (i - 1)))); [lia|reflexivity|].
  intros i out Hi ->. replace (Z.to_nat (i + 1 - 1)) with (S (Z.to_nat (i - 1))) by lia.
  cbn [ymm]. rewrite INR_IZR_INZ. replace (Z.of_nat (S (Z.to_nat (i - 1)))) with i by lia. reflexivity.
Qed.

Lemma ynnm_eq n m : Z.abs m <= n -> ynnm n m = Yt n m n.
Proof.
  intros Hm. unfold ynnm. destruct (Z.ltb_spec n (Z.abs m)); [lia|].
  destruct (Z.eqb_spec n 0) as [->|Hn0].
  - assert (m = 0) by lia. subst. unfold Yt. cbn [Z.abs Z.to_nat Z.sub Z.opp Z.add].
    change 0 with (Z.of_nat (0 + 0)). now rewrite Zt_lead0.
  - rewrite ymm_loop by lia.
    set (pm := Z.abs m) in *. set (N := Z.to_nat n). 
    assert (Top : Yt n m n = Zt (Z.to_nat pm) (Z.to_nat (n - pm)) (Z.of_nat (Z.to_nat pm + Z.to_nat (n - pm)))).
    { unfold Yt. fold pm. f_equal. lia. }
    destruct (Z.eqb_spec n pm) as [E|E].
    + rewrite Top. replace (Z.to_nat (n - pm)) with 0%nat by lia. rewrite Zt_lead0. unfold N. f_equal. lia.
    + set (P := fun (i : Z) (out : R) => (0 < out)%R /\
         (out ^ 2 * (INR (fact (Z.to_nat (n + i + 1))) * INR (fact (Z.to_nat (n - i - 1)))) = ymm N ^ 2 * INR (fact (2 * N)))%R).
      set (res := pfor _ _ _).
      assert (HP : P (pm - 1) res).
      { apply (pfor_down_inv P); [lia| |].
        - split; [apply ymm_pos|]. replace (Z.to_nat (n + (n - 1) + 1)) with (2 * N)%nat by lia.
          replace (Z.to_nat (n - (n - 1) - 1)) with 0%nat by lia. cbn [fact INR]. ring.
        - intros i out Hi [Ho He].
          assert (H1 : (0 < IZR n + IZR i + 1)%R) by (rewrite <- !plus_IZR; apply IZR_lt; lia).
          assert (H2 : (0 < IZR n - IZR i)%R) by (rewrite <- minus_IZR; apply IZR_lt; lia).
          assert (H3 : (0 < (IZR n + IZR i + 1) / (IZR n - IZR i))%R) by (apply Rdiv_lt_0_compat; auto).
          split; [apply Rmult_lt_0_compat; auto; now apply sqrt_lt_R0|].
          rewrite <- He.
          replace (Z.to_nat (n + i + 1)) with (S (Z.to_nat (n + (i - 1) + 1))) by lia.
          replace (Z.to_nat (n - (i - 1) - 1)) with (S (Z.to_nat (n - i - 1))) by lia.
          rewrite !fact_simpl, !mult_INR, !INR_IZR_INZ.
          replace (Z.of_nat (S (Z.to_nat (n + (i - 1) + 1)))) with (n + i + 1) by lia.
          replace (Z.of_nat (S (Z.to_nat (n - i - 1)))) with (n - i) by lia.
          rewrite !plus_IZR, minus_IZR.
          rewrite Rpow_mult_distr. replace (sqrt ((IZR n + IZR i + 1) / (IZR n - IZR i)) ^ 2)%R with ((IZR n + IZR i + 1) / (IZR n - IZR i))%R.
          + field. lra.
          + cbn [pow]. rewrite Rmult_1_r, sqrt_sqrt; lra. }
      destruct HP as [Hpos Hsq]. rewrite Top.
      pose proof (lead_sq (Z.to_nat pm) (Z.to_nat (n - pm))) as HL.
      pose proof (lead_pos (Z.to_nat pm) (Z.to_nat (n - pm))) as HLp.
      set (z := Zt _ _ _) in *.
      replace (Z.to_nat (n + (pm - 1) + 1)) with (2 * Z.to_nat pm + Z.to_nat (n - pm))%nat in Hsq by lia.
      replace (Z.to_nat (n - (pm - 1) - 1)) with (Z.to_nat (n - pm)) in Hsq by lia.
      replace (Z.to_nat pm + Z.to_nat (n - pm))%nat with N in HL by lia.
      rewrite <- HL in Hsq.
      apply Rmult_eq_reg_r in Hsq.
      * apply Rsqr_inj; try lra. unfold Rsqr. cbn [pow] in Hsq. lra.
      * apply Rgt_not_eq, Rmult_lt_0_compat; apply INR_fact_lt_0.
Qed.

Lemma Bc_ne n k : 0 <= k < n -> Bc (IZR n) (IZR k) <> 0%R.
Proof.
  intros. unfold Bc. rewrite <- minus_IZR, <- plus_IZR.
  apply Rmult_integral_contrapositive_currified.
  - apply not_0_IZR. lia.
  - rewrite <- plus_IZR. apply not_0_IZR. lia.
Qed.
Lemma Yt_coef n m k : Z.abs m <= n ->
  (Bc (IZR n) (IZR k) * Yt n m k = (Bc (IZR n) (IZR k + 1) + Bc (IZR n) (IZR k + 2) - 4 * IZR (m ^ 2)) * Yt n m (k + 2)
                        - Bc (IZR n) (IZR k + 3) * Yt n m (k + 4))%R.
Proof.
  intros H. unfold Yt.
  pose proof (Z_coef (Z.to_nat (Z.abs m)) (Z.to_nat (n - Z.abs m)) k) as E. cbv zeta in E.
  rewrite !INR_IZR_INZ in E.
  replace (Z.of_nat (Z.to_nat (Z.abs m) + Z.to_nat (n - Z.abs m))) with n in E by lia.
  rewrite Z2Nat.id in E by lia.
  replace (IZR (Z.abs m) ^ 2)%R with (IZR (m ^ 2)) in E; auto.
  replace (m ^ 2) with (Z.abs m * Z.abs m) by (rewrite <- Z.abs_mul, Z.abs_eq; nia).
  rewrite mult_IZR. cbn [pow]. ring.
Qed.

Lemma ynunm_eq n m L : Z.abs m <= n -> n < L -> ynunm n m L = Ok (vmake L (Yt n m)).
Proof.
  intros Hm HL. unfold ynunm. rewrite np_zeros_ok by lia. cbn [bind].
  destruct (Z.leb_spec (Z.abs m) n); [|lia].
  rewrite py_set_vmake by lia. cbn [bind]. rewrite ynnm_eq by auto.
  assert (Zhi : forall k, n < k -> Yt n m k = 0%R) by (intros; apply Yt_supp; lia).
  set (st := fun c => vmake L (fun i => if c <? i then Yt n m i else 0%R)).
  assert (E0 : vmake L (fun j => if j =? n then Yt n m n else 0%R) = st (n - 1)).
  { apply vmake_ext. intros i Hi. destruct (Z.eqb_spec i n), (Z.ltb_spec (n - 1) i); subst; auto; try lia.
    rewrite Zhi; auto; lia. }
  rewrite E0.
  assert (Odd : forall k, (n - k) mod 2 = 1 -> Yt n m k = 0%R).
  { intros k Hk. apply Yt_odd; auto. rewrite Zodd_mod. replace (n + k) with (n - k + k * 2) by ring.
    rewrite Z_mod_plus_full. now rewrite Hk. }
  assert (Step : forall k, 0 <= k <= n - 2 -> (n - k) mod 2 = 0 -> forall x,
     x = Yt n m k -> py_set (st (k + 1)) k x = Ok (st (k - 1))).
  { intros k Hk Hp x ->. unfold st. rewrite py_set_vmake by lia. f_equal. apply vmake_ext. intros i Hi.
    destruct (Z.eqb_spec i k), (Z.ltb_spec (k + 1) i), (Z.ltb_spec (k - 1) i); subst; auto; try lia.
    assert (i = k + 1) by lia. subst. rewrite Odd; auto. lia. }
  assert (Get : forall c k, 0 <= k < L -> c < k -> py_get 0%R (st c) k = Ok (Yt n m k)).
  { intros. unfold st. rewrite py_get_vmake by lia. destruct (Z.ltb_spec c k); [auto|lia]. }
  assert (Alt : st (n - 1) = st (n - 2 + 1)) by (f_equal; lia).
  destruct (Z.leb_spec 0 (n - 2)) as [H2|H2].
  - rewrite Get by lia. cbn [bind]. rewrite Alt.
    pose proof (Yt_coef n m (n - 2) Hm) as HC. rewrite (Zhi (n - 2 + 4)) in HC by lia.
    pose proof (Bc_ne n (n - 2) ltac:(lia)) as HB.
    rewrite Step; [|lia|replace (n - (n - 2)) with (0 + 1 * 2) by lia; now rewrite Z_mod_plus_full|].
    2:{ symmetry. apply Rmult_eq_reg_l with (Bc (IZR n) (IZR (n - 2))); auto. rewrite HC.
        unfold Bc in *. field. split; intros HH; apply HB; rewrite HH; ring. }
    cbn [bind].
    destruct (mfor_down2_inv (fun k s => k <= n - 4 /\ s = st (k + 1)) (n - 4) (-1)
      (fun k out =>
        let tmp1 := ((IZR n - IZR k - 1) * (IZR n + IZR k + 2))%R in
        let tmp2 := ((IZR n - IZR k - 2) * (IZR n + IZR k + 3) - 4 * IZR (m ^ 2))%R in
        let tmp3 := ((IZR n - IZR k - 3) * (IZR n + IZR k + 4))%R in
        let tmp4 := ((IZR n - IZR k) * (IZR n + IZR k + 1))%R in
        x2 <- py_get 0%R out (k + 2) ;;
        x4 <- py_get 0%R out (k + 4) ;;
        py_set out k (((tmp1 + tmp2) * x2 - tmp3 * x4) / tmp4)%R) (st (n - 2 - 1))) as (e & s' & E1 & E2 & E3 & E4 & E5 & E6).
    + split; [lia|]. f_equal. lia.
    + intros k s Hk Hp [Hk2 ->]. rewrite !Get by lia. cbn [bind].
      pose proof (Yt_coef n m k Hm) as HC'. pose proof (Bc_ne n k ltac:(lia)) as HB'.
      rewrite Step; [|lia|replace (n - k) with (n - 4 - k + 2 * 2) by lia; now rewrite Z_mod_plus_full|].
      2:{ symmetry. apply Rmult_eq_reg_l with (Bc (IZR n) (IZR k)); auto. rewrite HC'.
          unfold Bc in *. field. split; intros HH; apply HB'; rewrite HH; ring. }
      exists (st (k - 1)). repeat split; [lia|]. f_equal. lia.
    + cbv zeta in E4. cbv zeta. rewrite E4, E6. f_equal. apply vmake_ext. intros i Hi.
      destruct (Z.ltb_spec (e + 1) i); auto. symmetry. apply Odd.
      assert (i = 0) by lia. subst i.
      assert (e = -1 \/ e = -2) as [->| ->] by lia; [|lia].
      replace (n - 0) with (n - 4 - -1 + 1 * 2 + 1) by lia. rewrite <- Z.add_assoc.
      lia.
  - f_equal. apply vmake_ext. intros i Hi. destruct (Z.ltb_spec (n - 1) i); auto.
    symmetry. apply Odd. assert (n = 1 /\ i = 0) as [-> ->] by lia. reflexivity.
Qed.

Lemma ynunm_big n m L : n < Z.abs m -> 0 <= L -> ynunm n m L = Ok (vmake L (fun _ => 0%R)).
Proof.
  intros Hm HL. unfold ynunm. rewrite np_zeros_ok by lia. cbn [bind].
  destruct (Z.leb_spec (Z.abs m) n); [lia|auto].
Qed.

(** ** s_data and hkm_fc *)
Definition sig (j : Z) : C := if Z.odd j then (- Ci / RtoC (IZR j))%C else RtoC 0.

Lemma odd_mod2 k : (k mod 2 =? 1) = Z.odd k.
Proof. rewrite Zmod_odd. destruct (Z.odd k); reflexivity. Qed.

Definition s_val (MM Nmax Q : Z) (j : Z) : C :=
  if (j <=? Nmax) && Z.odd (j + MM) then sig (j + MM)
  else if Q - 2 * MM <=? j then sig (j - Q + MM) else RtoC 0.

Lemma s_data_eq MM Nmax Q : 1 <= MM -> 0 <= Nmax -> 2 * MM + Nmax <= Q ->
  s_data (2 * MM) Nmax Q = Ok (vmake Q (s_val MM Nmax Q)).
Proof.
  intros H1 H2 H3. unfold s_data.
  replace (2 * MM) with (0 + MM * 2) at 1 by lia. rewrite Z_mod_plus_full. cbn [Z.modulo Z.div_eucl Z.eqb].
  rewrite np_zeros_ok by lia. cbn [bind].
  replace (2 * MM / 2) with MM by (rewrite Z.mul_comm, Z.div_mul; lia).
  set (inv := fun p => vmake Q (fun j =>
     if (j <=? Nmax) && Z.odd (j + MM) && (j + MM <? p) then sig (j + MM)
     else if (Q - 2 * MM <=? j) && (j - Q + MM <? p) then sig (j - Q + MM) else RtoC 0)).
  destruct (mfor_inv (fun p s => s = inv p) (- MM) (MM + Nmax + 1)
    (fun nu s => if nu mod 2 =? 1 then py_set s (nu - MM) (- Ci / RtoC (IZR nu))%C else Ok s)
    (vmake Q (fun _ => RtoC 0))) as (s' & E & ->).
  - lia.
  - apply vmake_ext. intros j Hj.
    destruct (Z.ltb_spec (j + MM) (- MM)); [lia|]. rewrite andb_false_r.
    destruct (Z.leb_spec (Q - 2 * MM) j), (Z.ltb_spec (j - Q + MM) (- MM)); cbn [andb]; auto; lia.
  - intros p s Hp ->. rewrite odd_mod2. destruct (Z.odd p) eqn:Ep.
    + assert (Es : sig p = (- Ci / RtoC (IZR p))%C) by (unfold sig; now rewrite Ep).
      exists (inv (p + 1)). split; auto. rewrite <- Es.
      destruct (Z_lt_le_dec p MM) as [L|L].
      * unfold inv. rewrite py_set_vmake_neg by lia. f_equal. apply vmake_ext. intros j Hj.
        destruct (Z.eqb_spec j (p - MM + Q)) as [->|Hne].
        -- destruct (Z.leb_spec (p - MM + Q) Nmax).
           ++ destruct (Z.ltb_spec (p - MM + Q + MM) (p + 1)); [lia|]. rewrite andb_false_r.
              destruct (Z.leb_spec (Q - 2 * MM) (p - MM + Q)); [|lia].
              destruct (Z.ltb_spec (p - MM + Q - Q + MM) (p + 1)); [|lia]. cbn [andb]. f_equal. lia.
           ++ cbn [andb]. destruct (Z.leb_spec (Q - 2 * MM) (p - MM + Q)); [|lia].
              destruct (Z.ltb_spec (p - MM + Q - Q + MM) (p + 1)); [|lia]. cbn [andb]. f_equal. lia.
        -- destruct (Z.ltb_spec (j + MM) p), (Z.ltb_spec (j + MM) (p + 1)); try lia.
           destruct (Z.ltb_spec (j - Q + MM) p), (Z.ltb_spec (j - Q + MM) (p + 1)); try lia; auto.
      * unfold inv. rewrite py_set_vmake by lia. f_equal. apply vmake_ext. intros j Hj.
        destruct (Z.eqb_spec j (p - MM)) as [->|Hne].
        -- destruct (Z.leb_spec (p - MM) Nmax); [|lia].
           replace (p - MM + MM) with p by lia. rewrite Ep. destruct (Z.ltb_spec p (p + 1)); [|lia]. reflexivity.
        -- destruct (Z.ltb_spec (j + MM) p), (Z.ltb_spec (j + MM) (p + 1)); try lia;
           destruct (Z.ltb_spec (j - Q + MM) p), (Z.ltb_spec (j - Q + MM) (p + 1)); try lia; auto.
    + exists (inv p). split; auto. apply vmake_ext. intros j Hj.
      destruct (Z.ltb_spec (j + MM) p), (Z.ltb_spec (j + MM) (p + 1)); try lia.
      * rewrite !andb_true_r.
        destruct (Z.ltb_spec (j - Q + MM) p), (Z.ltb_spec (j - Q + MM) (p + 1)); try lia; auto.
      * assert (j + MM = p) as -> by lia. rewrite Ep, !andb_false_r. cbn [andb].
        destruct (Z.ltb_spec (j - Q + MM) p), (Z.ltb_spec (j - Q + MM) (p + 1)); try lia; auto.
      * rewrite !andb_false_r.
        destruct (Z.leb_spec (Q - 2 * MM) j); cbn [andb]; auto.
        destruct (Z.ltb_spec (j - Q + MM) p), (Z.ltb_spec (j - Q + MM) (p + 1)); try lia; auto.
        assert (j - Q + MM = p) as -> by lia. unfold sig. now rewrite Ep.
  - rewrite E. f_equal. apply vmake_ext. intros j Hj. unfold s_val.
    destruct (Z.leb_spec j Nmax).
    + destruct (Z.ltb_spec (j + MM) (MM + Nmax + 1)); [|lia]. rewrite andb_true_r.
      destruct (Z.ltb_spec (j - Q + MM) (MM + Nmax + 1)); [|lia]. now rewrite andb_true_r.
    + cbn [andb]. destruct (Z.ltb_spec (j - Q + MM) (MM + Nmax + 1)); [|lia]. now rewrite andb_true_r.
Qed.

(** The cell that represents frequency nu in an array of L rows. *)
Definition cell (L nu : Z) : Z := nu mod L.

Lemma col_get_ok a m : - mt_nc RN a <= m < mt_nc RN a ->
  col_get a m = Ok (vmake (mt_nr RN a) (fun i => cget a i (m mod mt_nc RN a))).
Proof.
  intros H. unfold col_get. destruct (Z_lt_le_dec m 0).
  - rewrite py_index_wrap by lia. cbn [bind]. do 2 f_equal.
    replace (m mod mt_nc RN a) with (m + mt_nc RN a); auto.
    rewrite <- (Z_mod_plus_full m 1). symmetry. rewrite Z.mod_small; lia.
  - rewrite py_index_in by lia. cbn [bind]. now rewrite Z.mod_small by lia.
Qed.

Lemma vmake_get_mod n (f : Z -> C) i d : 0 <= i < n -> vget d (vmake n f) i = f i.
Proof. apply vget_vmake. Qed.

(** The linear convolution with the kernel -i/nu (nu odd). *)
Definition hconv (MM : Z) (f : Z -> C) (k : Z) : C :=
  (RtoC (4 * PI) * sumC (- MM) MM (fun nu => f nu * sig (k - nu)))%C.

Lemma hkm_fc_eq fdata Nmax m MM Q : mt_nr RN fdata = 2 * MM -> 1 <= MM -> 0 <= Nmax -> 2 * MM + Nmax <= Q ->
  - mt_nc RN fdata <= m < mt_nc RN fdata ->
  cget fdata MM (m mod mt_nc RN fdata) = RtoC 0 ->
  hkm_fc fdata Nmax m (vmake Q (s_val MM Nmax Q)) =
  Ok (vmake (Nmax + 1) (hconv MM (fun nu => cget fdata (nu mod (2 * MM)) (m mod mt_nc RN fdata)))).
Proof.
  intros HL HM HN HQ Hm Hz. unfold hkm_fc. rewrite col_get_ok by auto. cbn [bind].
  rewrite HL. set (f := fun i => cget fdata i (m mod mt_nc RN fdata)).
  rewrite (zlen_vmake' (2 * MM)) by lia. rewrite (zlen_vmake' Q) by lia.
  replace (2 * MM / 2) with MM by (rewrite Z.mul_comm, Z.div_mul; lia).
  rewrite np_zeros_ok by lia. cbn [bind].
  (* first loop *)
  destruct (mfor_inv (fun p s => s = vmake Q (fun j => if (MM <=? j) && (j <? p) then f (j - MM) else RtoC 0)) MM (2 * MM)
    (fun n ff => x <- py_get (RtoC 0) (vmake (2 * MM) f) (n - MM) ;; py_set ff n x) (vmake Q (fun _ => RtoC 0))) as (s1 & -> & ->).
  - lia.
  - apply vmake_ext. intros j Hj. destruct (Z.leb_spec MM j), (Z.ltb_spec j MM); auto; lia.
  - intros p s Hp ->. rewrite py_get_vmake by lia. cbn [bind]. rewrite py_set_vmake by lia.
    eexists; split; [reflexivity|]. apply vmake_ext. intros j Hj.
    destruct (Z.eqb_spec j p), (Z.leb_spec MM j), (Z.ltb_spec j p), (Z.ltb_spec j (p + 1)); subst; auto; lia.
  - cbn [bind].
    destruct (mfor_inv (fun p s => s = vmake Q (fun j => if j <? p then f (j + MM) else
        if (MM <=? j) && (j <? 2 * MM) then f (j - MM) else RtoC 0)) 0 MM
      (fun n ff => x <- py_get (RtoC 0) (vmake (2 * MM) f) (n + MM) ;; py_set ff n x)
      (vmake Q (fun j => if (MM <=? j) && (j <? 2 * MM) then f (j - MM) else RtoC 0))) as (s2 & -> & ->).
    + lia.
    + apply vmake_ext. intros j Hj. destruct (Z.ltb_spec j 0); auto; lia.
    + intros p s Hp ->. rewrite py_get_vmake by lia. cbn [bind]. rewrite py_set_vmake by lia.
      eexists; split; [reflexivity|]. apply vmake_ext. intros j Hj.
      destruct (Z.eqb_spec j p), (Z.ltb_spec j p), (Z.ltb_spec j (p + 1)); subst; auto; lia.
    + cbn [bind]. set (ff := fun j => _). unfold np_fft, np_ifft.
      rewrite !zlen_vmake' by lia. destruct (Z.ltb_spec Q 1); [lia|]. cbn [bind].
      rewrite np_broadcast_vmake. cbn [bind]. rewrite zlen_vmake' by lia.
      destruct (Z.ltb_spec Q 1); [lia|]. cbn [bind]. rewrite map_vmake.
      rewrite py_slice_vm by lia. f_equal. replace (Nmax + 1 - 0) with (Nmax + 1) by lia.
      apply vmake_ext. intros k Hk. unfold hconv. replace (0 + k) with k by lia.
      f_equal.
      transitivity (RtoC (/ IZR Q) * (RtoC (IZR Q) * sumC 0 Q (fun a => ff a * s_val MM Nmax Q ((k - a) mod Q))))%C.
      * f_equal. rewrite <- dft_conv by lia. apply sumC_ext. intros p Hp. rewrite vget_vmake by lia.
        f_equal. f_equal; apply sumC_ext; intros j Hj; now rewrite vget_vmake by lia.
      * rewrite Cmult_assoc, <- RtoC_mult, Rinv_l by (apply not_0_IZR; lia). rewrite Cmult_1_l.
        rewrite (sumC_extend 0 (2 * MM)); try lia.
        2:{ intros j Hj Hn. unfold ff. destruct (Z.ltb_spec j MM); [lia|].
            destruct (Z.ltb_spec j (2 * MM)); [lia|]. rewrite andb_false_r. ring. }
        transitivity (sumC (- MM + MM) (MM + MM) (fun a => ff a * s_val MM Nmax Q ((k - a) mod Q)))%C; [f_equal; lia|].
        rewrite sumC_shift. apply sumC_ext. intros nu Hnu.
        assert (Hf : ff (nu + MM) = f (nu mod (2 * MM))).
        { unfold ff. destruct (Z.ltb_spec (nu + MM) MM).
          - f_equal. rewrite <- (Z_mod_plus_full nu 1). symmetry. rewrite Z.mod_small by lia. lia.
          - destruct (Z.leb_spec MM (nu + MM)); [|lia]. destruct (Z.ltb_spec (nu + MM) (2 * MM)); [|lia]. cbn [andb].
            f_equal. rewrite Z.mod_small by lia. lia. }
        rewrite Hf. unfold f at 1.
        destruct (Z.eq_dec nu (- MM)) as [->|Hn].
        { replace (- MM mod (2 * MM)) with MM.
          - unfold f. rewrite Hz. ring.
          - rewrite <- (Z_mod_plus_full (- MM) 1). rewrite Z.mod_small; lia. }
        f_equal. unfold s_val.
        destruct (Z_lt_le_dec (k - (nu + MM)) 0) as [L|L].
        -- assert (Em : (k - (nu + MM)) mod Q = k - (nu + MM) + Q).
           { rewrite <- (Z_mod_plus_full _ 1). rewrite Z.mod_small; lia. }
           rewrite Em. destruct (Z.leb_spec (k - (nu + MM) + Q) Nmax); [lia|]. cbn [andb].
           destruct (Z.leb_spec (Q - 2 * MM) (k - (nu + MM) + Q)); [|lia]. f_equal. lia.
        -- rewrite Z.mod_small by lia. destruct (Z.leb_spec (k - (nu + MM)) Nmax); [|lia].
           cbn [andb]. replace (k - (nu + MM) + MM) with (k - nu) by lia.
           destruct (Z.odd (k - nu)) eqn:Eo; auto.
           destruct (Z.leb_spec (Q - 2 * MM) (k - (nu + MM))); [lia|]. unfold sig. now rewrite Eo.
Qed.

(** Column m of a table of L = 2 MM rows, as a function of the frequency. *)
Definition colf (a : mat RN) (m : Z) (nu : Z) : C :=
  cget a (nu mod mt_nr RN a) (m mod mt_nc RN a).

(** What bnm_vec_fc computes for degree n. *)
Definition bval (h : Z -> C) (m n : Z) : C :=
  (ipow (- m) * h 0 * RtoC (Yt n m 0)
   + ipow (- m) * RtoC 2 * sumC 1 (n + 1) (fun k => h k * RtoC (Yt n m k)))%C.

Lemma bnm_vec_fc_eq fdata Nmax m MM : mt_nr RN fdata = 2 * MM -> 1 <= MM -> Z.abs m <= Nmax ->
  - mt_nc RN fdata <= m < mt_nc RN fdata ->
  colf fdata m MM = RtoC 0 ->
  bnm_vec_fc fdata Nmax m =
  Ok (vmake (Nmax - Z.abs m + 1) (fun i => bval (hconv MM (colf fdata m)) m (i + Z.abs m))).
Proof.
  intros HL HM Hm Hc Hz. unfold bnm_vec_fc. rewrite HL.
  destruct (spf_ok (2 * MM + Nmax) ltac:(lia)) as (Q & -> & (HQ & _) & _). cbn [bind].
  rewrite s_data_eq by lia. cbn [bind].
  rewrite (hkm_fc_eq fdata Nmax m MM Q) by
    (auto; try lia; unfold colf in Hz; rewrite HL, Z.mod_small in Hz by lia; exact Hz).
  cbn [bind]. set (h := hconv MM _).
  assert (Eh : h = hconv MM (colf fdata m)).
  { unfold h, colf. now rewrite HL. }
  rewrite <- Eh. rewrite np_zeros_ok by lia. cbn [bind].
  set (f := fun n out => _).
  destruct (mfor_inv (fun p s => s = vmake (Nmax - Z.abs m + 1)
     (fun i => if i + Z.abs m <? p then bval h m (i + Z.abs m) else RtoC 0)) (Z.abs m) (Nmax + 1) f
     (vmake (Nmax - Z.abs m + 1) (fun _ => RtoC 0))) as (s' & -> & ->).
  - lia.
  - apply vmake_ext. intros i Hi. destruct (Z.ltb_spec (i + Z.abs m) (Z.abs m)); [lia|auto].
  - intros n s Hn ->. eexists; split; [|reflexivity]. unfold f.
    rewrite ynunm_eq by lia. cbn [bind]. rewrite !py_get_vmake by lia. cbn [bind].
    rewrite py_set_vmake by lia. cbn [bind].
    assert (Last : forall x, x = bval h m n ->
      vmake (Nmax - Z.abs m + 1) (fun j => if j =? n - Z.abs m then x else
         if j + Z.abs m <? n then bval h m (j + Z.abs m) else RtoC 0) =
      vmake (Nmax - Z.abs m + 1) (fun i => if i + Z.abs m <? n + 1 then bval h m (i + Z.abs m) else RtoC 0)).
    { intros x ->. apply vmake_ext. intros i Hi.
      destruct (Z.eqb_spec i (n - Z.abs m)), (Z.ltb_spec (i + Z.abs m) n), (Z.ltb_spec (i + Z.abs m) (n + 1)); auto; try lia.
      subst. f_equal. lia. }
    destruct (Z.eqb_spec n 0) as [->|Hn0]; cbn [negb].
    + rewrite Last; auto. unfold bval. rewrite sumC_nil by lia. ring.
    + rewrite py_get_vmake by lia. cbn [bind]. rewrite Z.eqb_refl.
      rewrite !py_slice_vm by lia. rewrite np_broadcast_vmake. cbn [bind].
      rewrite py_set_vmake by lia. f_equal. rewrite np_sumC_vmake.
      rewrite <- (Last (bval h m n) eq_refl). apply vmake_ext. intros j Hj.
      destruct (Z.eqb_spec j (n - Z.abs m)); auto.
      unfold bval. f_equal. f_equal.
      transitivity (sumC (0 + 1) (n + 1 - 1 + 1) (fun k => h k * RtoC (Yt n m k)))%C.
      * rewrite sumC_shift. apply sumC_ext. intros i _. now replace (1 + i) with (i + 1) by lia.
      * f_equal; lia.
  - f_equal. apply vmake_ext. intros i Hi. destruct (Z.ltb_spec (i + Z.abs m) (Nmax + 1)); [auto|lia].
Qed.
