(** * DoubleFacts: the Fourier tables in double precision, and the sums over them. *)
From Coq Require Import ZArith List Bool SpecFloat Reals Lia Lra Psatz Permutation.
From Flocq Require Import Core.Core IEEE754.BinarySingleNaN.
From Verif Require Import Py PyFacts Num FloatN MCoefs CoefsFacts Harm MPysphi PysphiFacts MKiss KissFacts MCsphi CsphiFacts MDouble FlFacts SeedReal SeedFl SeedFl2.
Import ListNotations.
Open Scope Z_scope.

Notation nan := S754_nan.
Notation inf := (S754_infinity false).
Notation fz := (fofZ 0).

Lemma fmul_nan_r x : fmul x nan = nan. Proof. destruct x; reflexivity. Qed.
Lemma fmul_nan_l x : fmul nan x = nan. Proof. destruct x; reflexivity. Qed.
Lemma fadd_nan_r x : fadd x nan = nan. Proof. destruct x; reflexivity. Qed.
Lemma fadd_nan_l x : fadd nan x = nan. Proof. destruct x; reflexivity. Qed.
Lemma fsub_nan_l x : fsub nan x = nan. Proof. destruct x; reflexivity. Qed.
Lemma fsub_nan_r x : fsub x nan = nan. Proof. destruct x; reflexivity. Qed.
Lemma fdiv_nan_l x : fdiv nan x = nan. Proof. destruct x; reflexivity. Qed.
Lemma fmul_pos_inf x : fpos x -> fmul x inf = inf. Proof. intros (m & e & -> & _). reflexivity. Qed.
Lemma fdiv_inf_pos x : fpos x -> fdiv inf x = inf. Proof. intros (m & e & -> & _). reflexivity. Qed.
Lemma fadd_pos_0 x : fpos x -> fadd x (S754_zero false) = x. Proof. intros (m & e & -> & _). reflexivity. Qed.
Lemma fsub_pos_0 x : fpos x -> fsub x (S754_zero false) = x. Proof. intros (m & e & -> & _). reflexivity. Qed.
Lemma fmul_0_pos x : fpos x -> fmul (S754_zero false) x = S754_zero false. Proof. intros (m & e & -> & _). reflexivity. Qed.
Lemma fofZ_fpos p : 0 < p < 2 ^ 53 -> fpos (fofZ p).
Proof. intros H. apply (fofZ_pos p H). Qed.

(** ** Python *)
Definition p1 (n k : Z) := fmul (fsub (fofZ (n - k)) (fofZ 1)) (fadd (fofZ (n + k)) (fofZ 2)).
Definition p2 (n m k : Z) := fsub (fmul (fsub (fofZ (n - k)) (fofZ 2)) (fadd (fofZ (n + k)) (fofZ 3))) (fmul (fofZ 4) (fofZ (m ^ 2))).
Definition p3 (n k : Z) := fmul (fsub (fofZ (n - k)) (fofZ 3)) (fadd (fofZ (n + k)) (fofZ 4)).
Definition p4 (n k : Z) := fmul (fofZ (n - k)) (fadd (fofZ (n + k)) (fofZ 1)).

Lemma p_2 n : 4 < n < 2 ^ 25 -> fpos (fadd (p1 n (n - 2)) (p2 n 0 (n - 2))) /\ fpos (p4 n (n - 2)).
Proof.
  intros H. unfold p1, p2, p4. replace (n - (n - 2)) with 2 by lia. replace (n + (n - 2)) with (2 * n - 2) by lia.
  assert (Hs : fsub (fofZ 2) (fofZ 2) = S754_zero false) by reflexivity. rewrite Hs.
  change (fmul (fofZ 4) (fofZ (0 ^ 2))) with (S754_zero false).
  rewrite (fsub_int 2 1), !fadd_int by lia. rewrite !fmul_int by lia.
  rewrite fmul_0_pos by (apply fofZ_fpos; lia). change (fsub (S754_zero false) (S754_zero false)) with (S754_zero false).
  rewrite fadd_pos_0 by (apply fofZ_fpos; lia). split; apply fofZ_fpos; lia.
Qed.

Lemma p_4 n : 4 < n < 2 ^ 25 -> fpos (fadd (p1 n (n - 4)) (p2 n 0 (n - 4))) /\ fpos (p3 n (n - 4)).
Proof.
  intros H. unfold p1, p2, p3. replace (n - (n - 4)) with 4 by lia. replace (n + (n - 4)) with (2 * n - 4) by lia.
  change (fmul (fofZ 4) (fofZ (0 ^ 2))) with (S754_zero false).
  rewrite (fsub_int 4 1), (fsub_int 4 2), (fsub_int 4 3), !fadd_int by lia. rewrite !fmul_int by lia.
  rewrite fsub_pos_0 by (apply fofZ_fpos; lia).
  rewrite fadd_int by lia. split; apply fofZ_fpos; lia.
Qed.

(** The table is NaN from index n-4 downwards. *)
Definition tnan (n : Z) (v : list f64) : Prop :=
  forall k, 0 <= k <= n - 4 -> (n - k) mod 2 = 0 -> vget fz v k = nan.

Lemma f_ynunm_spec n m L : 0 <= n < L ->
  exists v, f_ynunm n m L = Ok v /\ zlen v = L /\ (Z.abs m <= n -> vget fz v n = f_ynnm n m) /\
    (m = 0 -> 2110 <= n < 2 ^ 25 -> tnan n v).
Proof.
  intros H. unfold f_ynunm. rewrite np_zeros_ok by lia. cbn [bind].
  set (z0 := vmake L (fun _ => fz)). assert (Lz : zlen z0 = L) by (unfold z0; apply zlen_vmake'; lia).
  destruct (Z.leb_spec (Z.abs m) n) as [Hm|Hm].
  2:{ exists z0. repeat split; auto; intros; lia. }
  rewrite py_set_ok by lia. cbn [bind].
  destruct (Z.leb_spec 0 (n - 2)) as [Hk|Hk].
  2:{ eexists. split; [reflexivity|]. rewrite zlen_vset. split; auto. split; [intros _; apply vget_vset_eq; lia|intros; lia]. }
  rewrite py_get_ok by (rewrite zlen_vset; lia). cbn [bind].
  rewrite py_set_ok by (rewrite zlen_vset; lia). cbn [bind].
  replace (n - 2 + 2) with n by lia. rewrite vget_vset_eq by lia.
  fold (p1 n (n - 2)) (p2 n m (n - 2)) (p4 n (n - 2)).
  set (s0 := vset (vset z0 n (f_ynnm n m)) (n - 2) _).
  pose (P := fun (i : Z) (v : list f64) => zlen v = L /\ vget fz v n = f_ynnm n m /\
     (m = 0 -> 2110 <= n < 2 ^ 25 -> vget fz v (n - 2) = inf /\ forall k, i < k <= n - 4 -> (n - k) mod 2 = 0 -> vget fz v k = nan)).
  edestruct (mfor_down2_inv P (n - 4) (-1)) as (e & v & E1 & E2 & E3 & E4 & E5).
  3:{ rewrite E4. destruct E5 as (Lv & Vn & Vk). exists v. split; [reflexivity|]. split; [exact Lv|]. split; [auto|].
      intros Em Hn. destruct (Vk Em Hn) as [_ Vk']. intros k Kr Km. apply Vk'; auto. lia. }
  - unfold P, s0. rewrite !zlen_vset. split; auto. split; [rewrite vget_vset_ne by lia; apply vget_vset_eq; lia|].
    intros Em Hn. split; [|intros; lia]. rewrite vget_vset_eq by (rewrite zlen_vset; lia).
    subst m. rewrite seed_inf by lia. destruct (p_2 n ltac:(lia)) as [Q1 Q2]. rewrite fmul_pos_inf by auto. apply fdiv_inf_pos; auto.
  - intros i s Hi Hmod (Ls & Vn & Vk). rewrite !py_get_ok by lia. cbn [bind]. rewrite py_set_ok by lia.
    eexists. split; [reflexivity|]. unfold P. rewrite zlen_vset. split; auto. split; [rewrite vget_vset_ne by lia; auto|].
    intros Em Hn. destruct (Vk Em Hn) as [V2 V4]. split; [rewrite vget_vset_ne by lia; auto|].
    intros k Kr Km. destruct (Z.eq_dec k i) as [->|Ne].
    + rewrite vget_vset_eq by lia. fold (p1 n i) (p2 n m i) (p3 n i) (p4 n i).
      destruct (Z.eq_dec i (n - 4)) as [->|Ni].
      * subst m. replace (n - 4 + 2) with (n - 2) by lia. replace (n - 4 + 4) with n by lia. rewrite V2, Vn, seed_inf by lia.
        destruct (p_4 n ltac:(lia)) as [Q1 Q2]. rewrite !fmul_pos_inf by auto. reflexivity.
      * rewrite (V4 (i + 2)); [rewrite fmul_nan_r, fsub_nan_l, fdiv_nan_l; reflexivity| |].
        -- split; [lia|]. assert (i <= n - 6); [|lia]. assert (i <> n - 5) by (intros ->; replace (n - 4 - (n - 5)) with 1 in Hmod by lia; discriminate). lia.
        -- replace (n - i) with (n - (i + 2) + 1 * 2) in Km by lia. rewrite Z_mod_plus_full in Km. exact Km.
    + rewrite vget_vset_ne by lia. apply V4; auto. split; [|lia].
      assert (k <> i - 1).
      { intros ->. clear - Hmod Km. replace (n - (i - 1)) with (n - 4 - i + 1 + 2 * 2) in Km by lia. rewrite Z_mod_plus_full in Km.
        rewrite Z.add_mod, Hmod in Km by lia. discriminate. }
      lia.
Qed.

(** ** C *)
Lemma cb_2 n : 4 < n < 2 ^ 25 -> fpos (fc_b n 0 (n - 2)) /\ fpos (fBi n (n - 2)).
Proof.
  intros H. unfold fc_b, fBd, fBi. change (fmul (fmul (fofZ 4) (fofZ 0)) (fofZ 0)) with (S754_zero false).
  replace (n - (n - 2)) with 2 by lia. replace (n + (n - 2)) with (2 * n - 2) by lia. rewrite !fadd_int by lia.
  replace (n - 2 + 2) with n by lia. rewrite (fsub_self (fofZ n)) by (apply fofZ_fpos; lia).
  rewrite fmul_0_pos by (apply fofZ_fpos; lia). rewrite fsub_int by lia. rewrite !fmul_int by nia.
  rewrite fadd_pos_0, fsub_pos_0 by (apply fofZ_fpos; nia). split; apply fofZ_fpos; nia.
Qed.

Lemma cb_4 n : 4 < n < 2 ^ 25 -> fpos (fc_b n 0 (n - 4)) /\ fpos (fBd n (fadd (fofZ (n - 4)) (fofZ 3))).
Proof.
  intros H. unfold fc_b, fBd. change (fmul (fmul (fofZ 4) (fofZ 0)) (fofZ 0)) with (S754_zero false).
  rewrite !fadd_int by lia. rewrite !fsub_int by lia.
  replace (n - (n - 4 + 1)) with 3 by lia. replace (n - (n - 4 + 2)) with 2 by lia. replace (n - (n - 4 + 3)) with 1 by lia.
  rewrite !fmul_int by lia. rewrite fadd_int by lia. rewrite fsub_pos_0 by (apply fofZ_fpos; lia). split; apply fofZ_fpos; lia.
Qed.

Lemma fc_ynunm_spec n m y L : 0 <= n < L -> zlen y = L ->
  exists v, fc_ynunm n m y L = Ok v /\ zlen v = L /\ (Z.abs m <= n -> n <= 2 ^ 30 -> vget fz v n = f_ynnm n m) /\
    (m = 0 -> 2110 <= n < 2 ^ 25 -> tnan n v).
Proof.
  intros H Ly. unfold fc_ynunm.
  destruct (mfor_inv (fun (i : Z) (v : list f64) => zlen v = L) 0 L (fun k y => bset y k fz) y) as (z0 & E0 & Lz); [lia|auto| |].
  { intros i s Hi Ls. rewrite bset_ok by lia. eexists; split; [reflexivity|]. rewrite zlen_vset. auto. }
  rewrite E0. cbn [bind]. clear E0 y Ly.
  destruct (Z.leb_spec (Z.abs m) n) as [Hm|Hm].
  2:{ exists z0. repeat split; auto; intros; lia. }
  rewrite bset_ok by lia. cbn [bind].
  destruct (Z.leb_spec 0 (n - 2)) as [Hk|Hk].
  2:{ eexists. split; [reflexivity|]. rewrite zlen_vset. split; auto. split; [intros _ Hn; rewrite fc_ynnm_eq by auto; apply vget_vset_eq; lia|intros; lia]. }
  rewrite bget_ok by (rewrite zlen_vset; lia). cbn [bind].
  rewrite bset_ok by (rewrite zlen_vset; lia). cbn [bind].
  replace (n - 2 + 2) with n by lia. rewrite vget_vset_eq by lia.
  set (s0 := vset (vset z0 n (fc_ynnm n m)) (n - 2) _).
  pose (P := fun (i : Z) (v : list f64) => zlen v = L /\ vget fz v n = fc_ynnm n m /\
     (m = 0 -> 2110 <= n < 2 ^ 25 -> vget fz v (n - 2) = inf /\ forall k, i < k <= n - 4 -> (n - k) mod 2 = 0 -> vget fz v k = nan)).
  replace (n - 2 - 2) with (n - 4) by lia.
  edestruct (mfor_down2_inv P (n - 4) (-1)) as (e & v & E1 & E2 & E3 & E4 & E5).
  3:{ rewrite E4. destruct E5 as (Lv & Vn & Vk). exists v. split; [reflexivity|]. split; [exact Lv|]. split; [intros _ Hn; rewrite Vn; apply fc_ynnm_eq; auto|].
      intros Em Hn. destruct (Vk Em Hn) as [_ Vk']. intros k Kr Km. apply Vk'; auto. lia. }
  - unfold P, s0. rewrite !zlen_vset. split; auto. split; [rewrite vget_vset_ne by lia; apply vget_vset_eq; lia|].
    intros Em Hn. split; [|intros; lia]. rewrite vget_vset_eq by (rewrite zlen_vset; lia).
    subst m. rewrite fc_ynnm_eq, seed_inf by lia. destruct (cb_2 n ltac:(lia)) as [Q1 Q2]. rewrite fmul_pos_inf by auto. apply fdiv_inf_pos; auto.
  - intros i s Hi Hmod (Ls & Vn & Vk). rewrite !bget_ok by lia. cbn [bind]. rewrite bset_ok by lia.
    eexists. split; [reflexivity|]. unfold P. rewrite zlen_vset. split; auto. split; [rewrite vget_vset_ne by lia; auto|].
    intros Em Hn. destruct (Vk Em Hn) as [V2 V4]. split; [rewrite vget_vset_ne by lia; auto|].
    intros k Kr Km. destruct (Z.eq_dec k i) as [->|Ne].
    + rewrite vget_vset_eq by lia.
      destruct (Z.eq_dec i (n - 4)) as [->|Ni].
      * subst m. replace (n - 4 + 2) with (n - 2) by lia. replace (n - 4 + 4) with n by lia. rewrite V2, Vn, fc_ynnm_eq, seed_inf by lia.
        destruct (cb_4 n ltac:(lia)) as [Q1 Q2]. rewrite !fmul_pos_inf by auto. reflexivity.
      * rewrite (V4 (i + 2)); [rewrite fmul_nan_r, fsub_nan_l, fdiv_nan_l; reflexivity| |].
        -- split; [lia|]. assert (i <= n - 6); [|lia]. assert (i <> n - 5) by (intros ->; replace (n - 4 - (n - 5)) with 1 in Hmod by lia; discriminate). lia.
        -- replace (n - i) with (n - (i + 2) + 1 * 2) in Km by lia. rewrite Z_mod_plus_full in Km. exact Km.
    + rewrite vget_vset_ne by lia. apply V4; auto. split; [|lia].
      assert (k <> i - 1).
      { intros ->. clear - Hmod Km. replace (n - (i - 1)) with (n - 4 - i + 1 + 2 * 2) in Km by lia. rewrite Z_mod_plus_full in Km.
        rewrite Z.add_mod, Hmod in Km by lia. discriminate. }
      lia.
Qed.

(** ** Sums containing a NaN *)
Definition cnan : cf := (nan, nan).
Lemma cfadd_nan_l x : cfadd cnan x = cnan. Proof. unfold cfadd, cnan. cbn [fst snd]. now rewrite !fadd_nan_l. Qed.
Lemma cfadd_nan_r x : cfadd x cnan = cnan. Proof. unfold cfadd, cnan. cbn [fst snd]. now rewrite !fadd_nan_r. Qed.
Lemma cfmul_nan_r x : cfmul x cnan = cnan. Proof. unfold cfmul, cnan. cbn [fst snd]. now rewrite !fmul_nan_r. Qed.
Lemma cfmul_nan_l x : cfmul cnan x = cnan. Proof. unfold cfmul, cnan. cbn [fst snd]. now rewrite !fmul_nan_l. Qed.
Lemma cfmul_renan x : cfmul x (cfre nan) = cnan.
Proof. unfold cfmul, cnan, cfre. cbn [fst snd]. now rewrite !fmul_nan_r, fsub_nan_l, fadd_nan_r. Qed.

Lemma sums_nan l z : sums l z -> In cnan l -> z = cnan.
Proof.
  induction 1 as [|x|l1 l2 l x y H1 IH1 H2 IH2 HP]; intros Hin; [destruct Hin|destruct Hin as [->|[]]; auto|].
  apply (Permutation_in _ (Permutation_sym HP)) in Hin. apply in_app_or in Hin. destruct Hin as [Hin|Hin].
  - rewrite IH1 by auto. apply cfadd_nan_l.
  - rewrite IH2 by auto. apply cfadd_nan_r.
Qed.

(** An index in 1 .. n-4 of the parity of n *)
Lemma nan_index n : 2110 <= n -> exists k, 1 <= k <= n - 4 /\ (n - k) mod 2 = 0.
Proof.
  intros H. destruct (Z.eq_dec (n mod 2) 0) as [E|E].
  - exists 2. split; [lia|]. replace n with (n - 2 + 1 * 2) in E by lia. rewrite Z_mod_plus_full in E. exact E.
  - exists 1. split; [lia|]. assert (n mod 2 = 1) by (pose proof (Z.mod_pos_bound n 2 ltac:(lia)); lia).
    rewrite Zminus_mod, H0. reflexivity.
Qed.

Lemma vget_In {A} (d : A) v i : 0 <= i < zlen v -> In (vget d v i) v.
Proof. unfold vget, zlen. intros H. destruct (Z.ltb_spec i 0); [lia|]. apply nth_In. lia. Qed.

Lemma f_bnm_vec_spec sum w h Nmax m : (forall l, sums l (sum l)) -> Z.abs m <= Nmax -> zlen h = Nmax + 1 ->
  exists out, f_bnm_vec sum w h Nmax m = Ok out /\ zlen out = Nmax - Z.abs m + 1 /\
    (m = 0 -> Nmax < 2 ^ 25 -> forall n, 2110 <= n <= Nmax -> vget cf0 out n = cnan).
Proof.
  intros HS Hm Lh. unfold f_bnm_vec. rewrite np_zeros_ok by lia. cbn [bind].
  pose (P := fun (i : Z) (v : list cf) => zlen v = Nmax - Z.abs m + 1 /\
     (m = 0 -> Nmax < 2 ^ 25 -> forall n, 2110 <= n < i -> vget cf0 v n = cnan)).
  edestruct (mfor_inv P (Z.abs m) (Nmax + 1)) as (out & E & Lo & Vo); [lia| | |rewrite E; exists out; split; [reflexivity|]; split; [exact Lo|intros Em HN n Hn; apply Vo; auto; lia]].
  { split; [apply zlen_vmake'; lia|]. intros -> HN n Hn. cbn in Hn. lia. }
  intros n s Hn (Ls & Vs).
  destruct (f_ynunm_spec n m (n + 1) ltac:(lia)) as (v & -> & Lv & _ & Tv). cbn [bind].
  rewrite !py_get_ok by lia. cbn [bind]. rewrite py_set_ok by lia. cbn [bind].
  destruct (Z.eqb_spec n 0) as [->|N0]; cbn [negb].
  { eexists. split; [reflexivity|]. split; [rewrite zlen_vset; auto|]. intros; lia. }
  rewrite py_get_ok by (rewrite zlen_vset; lia). cbn [bind].
  unfold np_broadcast. rewrite !zlen_py_slice by lia. rewrite Z.eqb_refl. cbn [bind].
  rewrite py_set_ok by (rewrite zlen_vset; lia). eexists. split; [reflexivity|]. split; [rewrite !zlen_vset; auto|].
  intros Em HN k Hk. subst m. cbn [Z.abs] in *. destruct (Z.eq_dec k n) as [->|Ne].
  - rewrite Z.sub_0_r, vget_vset_eq by (rewrite zlen_vset; lia).
    destruct (nan_index n ltac:(lia)) as (i & Hi & Mi).
    rewrite (sums_nan _ _ (HS _)); [rewrite cfmul_nan_r; apply cfadd_nan_r|].
    assert (E : vget cf0 (zip_with (fun a b => cfmul a (cfre b)) (py_slice h 1 (n + 1)) (py_slice v 1 (n + 1))) (i - 1) = cnan).
    { rewrite (vget_zip_with _ _ _ _ cf0 fz) by (rewrite !zlen_py_slice; lia).
      rewrite !vget_py_slice by lia. replace (1 + (i - 1)) with i by lia. rewrite (Tv eq_refl ltac:(lia) i) by (auto; lia). apply cfmul_renan. }
    rewrite <- E. apply vget_In. rewrite zlen_zip_with by (rewrite !zlen_py_slice; lia). rewrite zlen_py_slice; lia.
  - rewrite !vget_vset_ne by lia. apply Vs; auto. lia.
Qed.

Lemma f_fc_to_sc_spec sum ipw hk Nmax Mmax : (forall l, sums l (sum l)) -> 0 <= Mmax <= Nmax -> Nmax < 2 ^ 25 ->
  (forall m, Z.abs m <= Mmax -> zlen (hk m) = Nmax + 1) ->
  exists c, f_fc_to_sc sum ipw hk Nmax Mmax = Ok c /\ Nmax + 1 <= zlen c /\
    forall n, 2110 <= n <= Nmax -> vget cf0 c n = cnan.
Proof.
  intros HS HM HN Lh. unfold f_fc_to_sc.
  destruct (f_bnm_vec_spec sum (ipw 0) (hk 0) Nmax 0 HS ltac:(lia) (Lh 0 ltac:(lia))) as (c0 & -> & L0 & V0). cbn [bind].
  edestruct (mfor_inv (fun (i : Z) (c : list cf) => Nmax + 1 <= zlen c /\ forall n, 2110 <= n <= Nmax -> vget cf0 c n = cnan) 1 (Mmax + 1))
    as (c & E & Lc & Vc); [lia| | |rewrite E; exists c; split; [reflexivity|]; split; auto].
  { split; [cbn [Z.abs] in L0; lia|]. intros n Hn. apply V0; auto. }
  intros m s Hm (Ls & Vs).
  destruct (f_bnm_vec_spec sum (ipw m) (hk (- m)) Nmax (- m) HS ltac:(lia) (Lh (- m) ltac:(lia))) as (a & -> & La & _). cbn [bind].
  destruct (f_bnm_vec_spec sum (ipw (- m)) (hk m) Nmax m HS ltac:(lia) (Lh m ltac:(lia))) as (b & -> & Lb & _). cbn [bind].
  eexists. split; [reflexivity|]. rewrite !zlen_app. pose proof (zlen_nonneg a). pose proof (zlen_nonneg b). split; [lia|].
  intros n Hn. rewrite vget_app by lia. rewrite zlen_app. destruct (Z.ltb_spec n (zlen s + zlen a)); [|lia].
  rewrite vget_app by lia. destruct (Z.ltb_spec n (zlen s)); [|lia]. auto.
Qed.

(** ** The C analysis *)
Lemma fmul_nn x : (fmul x nan, fmul x nan) = cnan. Proof. now rewrite fmul_nan_r. Qed.

Lemma fc_bnm_spec hkm Nmax m off Ly sc y : Z.abs m <= Nmax -> Nmax < Ly -> zlen hkm = Nmax + 1 -> zlen y = Ly ->
  0 <= off -> off + (Nmax - Z.abs m + 1) <= zlen sc ->
  exists sc' y', fc_bnm hkm Nmax m off Ly (sc, y) = Ok (sc', y') /\ zlen sc' = zlen sc /\ zlen y' = Ly /\
    (forall i, 0 <= i < off -> vget cf0 sc' i = vget cf0 sc i) /\
    (m = 0 -> Nmax < 2 ^ 25 -> forall n, 2110 <= n <= Nmax -> vget cf0 sc' (off + n) = cnan).
Proof.
  intros Hm HL Lh Ly0 H0 Hs. unfold fc_bnm.
  pose (P := fun (i : Z) (r : list cf * list f64) => zlen (fst r) = zlen sc /\ zlen (snd r) = Ly /\
     (forall i, 0 <= i < off -> vget cf0 (fst r) i = vget cf0 sc i) /\
     (m = 0 -> Nmax < 2 ^ 25 -> forall n, 2110 <= n < i -> vget cf0 (fst r) (off + n) = cnan)).
  edestruct (mfor_inv P (Z.abs m) (Nmax + 1)) as ([sc' y'] & E & Q1 & Q2 & Q3 & Q4); [lia| | |rewrite E; exists sc', y'; split; [reflexivity|]; cbn [fst snd] in *; repeat split; auto].
  { repeat split; auto. cbn [fst]. intros -> _ n Hn. cbn in Hn. lia. }
  2:{ intros Em HN n Hn. apply Q4; auto. lia. }
  intros n [s v] Hn (Ls & Lv & Vlo & Vn). cbn [fst snd] in *.
  destruct (fc_ynunm_spec n m v Ly ltac:(lia) Lv) as (t & -> & Lt & _ & Tt). cbn [bind].
  rewrite !bget_ok by lia. cbn [bind]. rewrite bset_ok by lia. cbn [bind].
  set (p0 := off + (n - Z.abs m)).
  set (s0 := vset s p0 _).
  assert (L0 : zlen s0 = zlen sc) by (unfold s0; rewrite zlen_vset; auto).
  edestruct (mfor_inv (fun (k : Z) (u : list cf) => zlen u = zlen sc /\
      (forall i, 0 <= i -> i <> p0 -> vget cf0 u i = vget cf0 s i) /\
      (m = 0 -> 2110 <= n < 2 ^ 25 -> forall i, 1 <= i < k -> i <= n - 4 -> (n - i) mod 2 = 0 -> vget cf0 u p0 = cnan)) 1 (n + 1))
    as (u & E & Lu & Vu & Nu); [lia| | |rewrite E; cbn [bind]].
  { split; auto. split; [intros i Hi Ne; unfold s0; rewrite vget_vset_ne by lia; auto|intros; lia]. }
  { intros k u Hk (Lu & Vu & Nu). rewrite !bget_ok by (unfold p0; lia). cbn [bind]. rewrite bset_ok by (unfold p0; lia).
    eexists. split; [reflexivity|]. rewrite zlen_vset. split; auto.
    split; [intros i Hi Ne; rewrite vget_vset_ne by lia; auto|].
    intros Em Hn' i Hi Hi4 Mi. rewrite vget_vset_eq by (unfold p0; lia).
    destruct (Z.eq_dec i k) as [->|Ne].
    - rewrite (Tt Em Hn' k) by (auto; lia). rewrite !fmul_nan_r, !fadd_nan_r. reflexivity.
    - rewrite (Nu Em Hn' i) by lia. unfold cnan. cbn [fst snd]. rewrite !fadd_nan_l. reflexivity. }
  rewrite bget_ok by (unfold p0; lia). cbn [bind].
  match goal with |- exists s', bind ?X _ = Ok s' /\ _ =>
    assert (HW : exists x, (m = 0 -> 2110 <= n < 2 ^ 25 -> x = cnan) /\ X = Ok (vset u p0 x)) end.
  { destruct (Z.eqb_spec (Z.rem (Z.abs m) 2) 1) as [Em|Em].
    - eexists. split; [|cbv zeta; apply bset_ok; unfold p0; lia]. intros ->. discriminate.
    - eexists. split; [|cbv zeta; apply bset_ok; unfold p0; lia]. intros E0 Hn'.
      destruct (nan_index n ltac:(lia)) as (i & Hi & Mi). rewrite (Nu E0 Hn' i) by lia. apply fmul_nn. }
  destruct HW as (x & Hx & HW). rewrite HW. cbn [bind]. eexists. split; [reflexivity|]. unfold P. cbn [fst snd].
  rewrite zlen_vset. split; auto. split; auto. split.
  - intros i Hi. rewrite vget_vset_ne by (unfold p0; lia). rewrite Vu by (unfold p0; lia). auto.
  - intros Em HN k Hk. destruct (Z.eq_dec k n) as [->|Ne].
    + replace (off + n) with p0 by (unfold p0; subst m; cbn; lia). rewrite vget_vset_eq by (unfold p0; lia). apply Hx; auto; lia.
    + assert (off + k <> p0) by (unfold p0; subst m; cbn; lia). rewrite vget_vset_ne by auto. rewrite Vu by lia. apply Vn; auto; lia.
Qed.

Lemma fc_fc_to_sc_spec hk junkr junki sc Nmax Mmax : 0 <= Mmax <= Nmax -> Nmax < 2 ^ 25 ->
  (forall m, Z.abs m <= Mmax -> zlen (hk m) = Nmax + 1) -> zlen sc = ncoef Nmax Mmax ->
  exists c, fc_fc_to_sc hk junkr junki sc Nmax Mmax = Ok c /\ zlen c = zlen sc /\
    forall n, 2110 <= n <= Nmax -> vget cf0 c n = cnan.
Proof.
  intros HM HN Lh Ls. unfold fc_fc_to_sc. rewrite c_inds_ok by lia. cbn [bind].
  assert (Hr : forall m, Z.abs m <= Mmax -> 0 <= cstart Nmax m /\ cstart Nmax m + (Nmax + 1 - Z.abs m) <= zlen sc)
    by (intros; rewrite Ls; now apply cstart_range).
  assert (Hge : forall m, Z.abs m <= Mmax -> m <> 0 -> Nmax + 1 <= cstart Nmax m).
  { intros m Hm Hne. destruct (cstart_disjoint Nmax Mmax 0 m HM ltac:(lia) Hm ltac:(lia)) as [D|D]; rewrite cstart_0 in D; [lia|].
    pose proof (Hr m Hm). lia. }
  pose proof (Hr 0 ltac:(lia)) as Hr0. rewrite cstart_0 in Hr0.
  destruct (fc_bnm_spec (hk 0) Nmax 0 0 (Nmax + 1) sc (vmake (Nmax + 1) junkr)) as (s1 & y1 & -> & L1 & Y1 & _ & V1);
    [lia|lia|apply Lh; lia|apply zlen_vmake'; lia|lia|cbn [Z.abs] in *; lia|]. cbn [bind].
  edestruct (mfor_inv (fun (i : Z) (r : list cf * list f64) => zlen (fst r) = zlen sc /\ zlen (snd r) = Nmax + 1 /\
      forall n, 2110 <= n <= Nmax -> vget cf0 (fst r) n = cnan) 1 (Mmax + 1)) as (r & E & R1 & R2 & R3); [lia| | |rewrite E; cbn [bind]; eauto].
  { cbn [fst snd]. split; auto. split; auto. intros n Hn. exact (V1 eq_refl HN n Hn). }
  intros m [s y] Hm (A1 & A2 & A3). cbn [fst snd] in *. rewrite inds_neg by lia. cbn [bind].
  pose proof (Hr m ltac:(lia)). pose proof (Hr (- m) ltac:(lia)). pose proof (Hge m ltac:(lia) ltac:(lia)). pose proof (Hge (- m) ltac:(lia) ltac:(lia)).
  destruct (fc_bnm_spec (hk (- m)) Nmax (- m) (cstart Nmax (- m)) (Nmax + 1) s y) as (s2 & y2 & -> & L2 & Y2 & V2 & _);
    [lia|lia|apply Lh; lia|auto|lia|lia|]. cbn [bind]. rewrite inds_pos by lia. cbn [bind].
  destruct (fc_bnm_spec (hk m) Nmax m (cstart Nmax m) (Nmax + 1) s2 y2) as (s3 & y3 & -> & L3 & Y3 & V3 & _);
    [lia|lia|apply Lh; lia|auto|lia|lia|].
  eexists. split; [reflexivity|]. cbn [fst snd]. split; [lia|]. split; [lia|]. intros n Hn. rewrite V3, V2 by lia. auto.
Qed.

(** ** Synthesis *)
Lemma f_fcvec_spec w vec nmax nrows : 2111 <= nmax < 2 ^ 25 -> 2 * nmax + 2 <= nrows -> nmax + 1 <= zlen vec ->
  exists F, f_fcvec_m_sc w vec 0 nmax nrows = Ok F /\ zlen F = nrows /\
    forall k, 0 <= k <= nmax - 5 -> vget cf0 F k = cnan.
Proof.
  intros Hn Hr Lv. unfold f_fcvec_m_sc. rewrite np_zeros_ok by lia. cbn [bind]. change (Z.abs 0) with 0.
  set (K := nmax + 1). set (z0 := vmake nrows _). assert (Lz : zlen z0 = nrows) by (apply zlen_vmake'; lia).
  edestruct (mfor_inv (fun (i : Z) (F : list cf) => zlen F = nrows /\
      forall k n, 0 <= k <= n - 4 -> 2110 <= n < i -> (n - k) mod 2 = 0 -> vget cf0 F k = cnan) 0 K) as (F & E & LF & VF); [unfold K; lia| | |rewrite E; cbn [bind]].
  { split; auto. intros; lia. }
  { intros n F Hi (LF & VF). destruct (f_ynunm_spec n 0 K ltac:(unfold K in *; lia)) as (t & -> & Lt & _ & Tt). cbn [bind].
    rewrite py_get_ok by (unfold K in *; lia). cbn [bind]. cbv zeta.
    rewrite zlen_py_slice by (unfold K in *; lia). rewrite zlen_map, Lt, Z.sub_0_r, Z.eqb_refl.
    set (x := vget cf0 vec (n - 0)).
    destruct (py_slice_set_ok F 0 K (zip_with cfadd (py_slice F 0 K) (map (fun y => cfmul x (cfre y)) t))) as (F' & -> & LF' & VF');
      [unfold K in *; lia|unfold K in *; lia| |].
    { rewrite zlen_zip_with; [rewrite zlen_py_slice by (unfold K in *; lia); lia|]. rewrite zlen_py_slice, zlen_map by (unfold K in *; lia). lia. }
    eexists. split; [reflexivity|]. split; [lia|]. intros k n' Hk Hn' Mk. rewrite VF' by (unfold K in *; lia).
    destruct (Z.leb_spec 0 k); [|lia]. destruct (Z.ltb_spec k K); [|unfold K in *; lia]. cbn [andb]. rewrite Z.sub_0_r.
    rewrite (vget_zip_with _ _ _ _ cf0 cf0) by (rewrite ?zlen_map, ?zlen_py_slice by (unfold K in *; lia); lia).
    rewrite vget_py_slice by (unfold K in *; lia). rewrite (vget_map _ fz) by lia. replace (0 + k) with k by lia.
    destruct (Z.eq_dec n' n) as [->|Ne].
    - rewrite (Tt eq_refl) by (auto; unfold K in *; lia). rewrite cfmul_renan. apply cfadd_nan_r.
    - rewrite (VF k n') by (auto; lia). apply cfadd_nan_l. }
  destruct (py_slice_set_ok F 0 K (map (fun a => cfmul a w) (py_slice F 0 K))) as (G & -> & LG & VG);
    [unfold K in *; lia|unfold K in *; lia|rewrite zlen_map, zlen_py_slice by (unfold K in *; lia); lia|]. cbn [bind]. cbv zeta.
  assert (VG' : forall k, 0 <= k <= nmax - 5 -> vget cf0 G k = cnan).
  { intros k Hk. rewrite VG by lia. destruct (Z.leb_spec 0 k); [|lia]. destruct (Z.ltb_spec k K); [|unfold K in *; lia]. cbn [andb].
    rewrite Z.sub_0_r, (vget_map _ cf0) by (rewrite zlen_py_slice by (unfold K in *; lia); lia).
    rewrite vget_py_slice by (unfold K in *; lia). replace (0 + k) with k by lia.
    assert (HF : vget cf0 F k = cnan); [|rewrite HF; apply cfmul_nan_l].
    pose proof (Z.mod_pos_bound (nmax - k) 2 ltac:(lia)). destruct (Z.eq_dec ((nmax - k) mod 2) 0) as [E0|E0].
    - apply (VF k nmax); unfold K; auto; lia.
    - apply (VF k (nmax - 1)); unfold K; lia. }
  set (H := if nrows mod 2 =? 0 then nrows / 2 - 1 else (nrows - 1) / 2).
  assert (HH : 2 * H < nrows /\ nmax <= H).
  { unfold H. destruct (Z.eqb_spec (nrows mod 2) 0); [pose proof (Z.div_mod nrows 2 ltac:(lia)); lia|].
    pose proof (Z.div_mod (nrows - 1) 2 ltac:(lia)). pose proof (Z.mod_pos_bound (nrows - 1) 2 ltac:(lia)). lia. }
  edestruct (mfor_inv (fun (i : Z) (F : list cf) => zlen F = nrows /\ forall k, 0 <= k <= nmax - 5 -> vget cf0 F k = cnan) 0 H)
    as (F2 & E2 & LF2 & VF2); [lia| | |exists F2; split; [exact E2|]; auto].
  { split; [lia|auto]. }
  intros i s Hi (L & V). rewrite py_get_ok by lia. cbn [bind]. unfold py_set, py_index.
  destruct (Z.leb_spec 0 (- (i + 1))); [lia|]. cbn [andb]. destruct (Z.leb_spec (- zlen s) (- (i + 1))); [|lia].
  destruct (Z.ltb_spec (- (i + 1)) 0); [|lia]. cbn [andb bind]. eexists. split; [reflexivity|].
  rewrite zlen_vset. split; auto. intros k Hk. rewrite vget_vset_ne by lia. auto.
Qed.

Lemma fc_fcvec_spec sc off Nmax Nrow Ncol M len fdata y : 2111 <= Nmax < 2 ^ 25 -> 2 * Nmax + 2 <= Nrow -> Nmax < len ->
  0 <= M < Ncol -> zlen fdata = Nrow * Ncol -> zlen y = len -> 0 <= off -> off + Nmax + 1 <= zlen sc ->
  exists fd y', fc_fcvec_m_sc sc off 0 Nmax Nrow Ncol M len (fdata, y) = Ok (fd, y') /\ zlen fd = zlen fdata /\ zlen y' = len /\
    (forall k, 0 <= k <= Nmax - 5 -> vget cf0 fd (k * Ncol + M) = cnan).
Proof.
  intros Hn Hr HL HMc Lf Ly Ho Ls. unfold fc_fcvec_m_sc. change (Z.abs 0) with 0. set (K := Nmax + 1).
  assert (Hix : forall k, 0 <= k < Nrow -> 0 <= k * Ncol + M < zlen fdata) by (intros; nia).
  assert (Hinj : forall k k', k * Ncol + M = k' * Ncol + M -> k = k') by (intros; nia).
  edestruct (mfor_inv (fun (i : Z) (r : list cf * list f64) => zlen (fst r) = zlen fdata /\ zlen (snd r) = len /\
      forall k n, 0 <= k <= n - 4 -> 2110 <= n < i -> (n - k) mod 2 = 0 -> vget cf0 (fst r) (k * Ncol + M) = cnan) 0 K)
    as ([F t] & E & LF & Lt & VF); [unfold K; lia| | |unfold K in E; rewrite E; fold K; cbn [bind fst snd] in *].
  { cbn [fst snd]. repeat split; auto. intros; lia. }
  { intros n [F y1] Hi (LF & L1 & VF). cbn [fst snd] in *.
    destruct (fc_ynunm_spec n 0 y1 len ltac:(unfold K in *; lia) L1) as (t & -> & Lt & _ & Tt). cbn [bind].
    edestruct (mfor_inv (fun (i : Z) (G : list cf) => zlen G = zlen fdata /\
        (forall k, 0 <= k < Nrow -> vget cf0 F (k * Ncol + M) = cnan -> vget cf0 G (k * Ncol + M) = cnan) /\
        (forall k, 0 <= k < i -> vget fz t k = nan -> vget cf0 G (k * Ncol + M) = cnan)) 0 K) as (G & E & LG & VG1 & VG2);
      [unfold K; lia| | |rewrite E; cbn [bind]].
    { split; auto. split; [auto|intros; lia]. }
    { intros k G Hk (LG & VG1 & VG2). pose proof (Hix k ltac:(unfold K in *; lia)).
      rewrite !bget_ok by (unfold K in *; lia). cbn [bind]. rewrite bset_ok by lia. eexists. split; [reflexivity|]. rewrite zlen_vset. split; auto. split.
      - intros k' Hk' Hc. destruct (Z.eq_dec k' k) as [->|Ne].
        + rewrite vget_vset_eq by lia. rewrite (VG1 k Hk' Hc). unfold cnan. cbn [fst snd]. now rewrite !fadd_nan_l.
        + pose proof (Hix k' Hk'). assert (k' * Ncol + M <> k * Ncol + M) by (intros Eq; apply Hinj in Eq; lia). rewrite vget_vset_ne by lia. auto.
      - intros k' Hk' Hc. pose proof (Hix k' ltac:(unfold K in *; lia)). destruct (Z.eq_dec k' k) as [->|Ne].
        + rewrite vget_vset_eq by lia. rewrite Hc, !fmul_nan_r, !fadd_nan_r. reflexivity.
        + assert (k' * Ncol + M <> k * Ncol + M) by (intros Eq; apply Hinj in Eq; lia). rewrite vget_vset_ne by lia. apply VG2; auto; lia. }
    eexists. split; [reflexivity|]. cbn [fst snd]. split; auto. split; auto. intros k n' Hk Hn' Mk.
    destruct (Z.eq_dec n' n) as [->|Ne]; [apply VG2; [unfold K in *; lia|]; apply (Tt eq_refl); auto; unfold K in *; lia|].
    apply VG1; [unfold K in *; lia|]. apply (VF k n'); auto; lia. }
  edestruct (mfor_inv (fun (i : Z) (G : list cf) => zlen G = zlen fdata /\ forall k, 0 <= k <= Nmax - 5 -> vget cf0 G (k * Ncol + M) = cnan) 0 K)
    as (G & EG & LG & VG); [unfold K; lia| | |rewrite EG; cbn [bind]].
  { split; auto. intros k Hk. pose proof (Z.mod_pos_bound (Nmax - k) 2 ltac:(lia)). destruct (Z.eq_dec ((Nmax - k) mod 2) 0) as [E0|E0].
    - apply (VF k Nmax); unfold K; auto; lia.
    - apply (VF k (Nmax - 1)); unfold K; lia. }
  { intros i G Hi (LG & VG). pose proof (Hix i ltac:(unfold K in *; lia)). rewrite bget_ok by lia. cbn [bind].
    change (Z.rem 0 2 =? 1) with false. cbv iota zeta. rewrite bset_ok by lia. eexists. split; [reflexivity|]. rewrite zlen_vset. split; auto.
    intros k Hk. destruct (Z.eq_dec k i) as [->|Ne].
    - rewrite vget_vset_eq by lia. rewrite VG by auto. apply fmul_nn.
    - pose proof (Hix k ltac:(lia)). assert (k * Ncol + M <> i * Ncol + M) by (intros Eq; apply Hinj in Eq; lia). rewrite vget_vset_ne by lia. auto. }
  set (H := if Z.rem Nrow 2 =? 0 then Z.quot Nrow 2 - 1 else Z.quot (Nrow - 1) 2).
  assert (HH : 2 * H < Nrow /\ Nmax <= H).
  { unfold H. rewrite Z.rem_mod_nonneg, !Z.quot_div_nonneg by lia. destruct (Z.eqb_spec (Nrow mod 2) 0); [pose proof (Z.div_mod Nrow 2 ltac:(lia)); lia|].
    pose proof (Z.div_mod (Nrow - 1) 2 ltac:(lia)). pose proof (Z.mod_pos_bound (Nrow - 1) 2 ltac:(lia)). lia. }
  edestruct (mfor_inv (fun (i : Z) (F : list cf) => zlen F = zlen fdata /\ forall k, 0 <= k <= Nmax - 5 -> vget cf0 F (k * Ncol + M) = cnan) 0 H)
    as (F2 & E2 & LF2 & VF2); [lia| | |rewrite E2; cbn [bind]; do 2 eexists; split; [reflexivity|]; auto].
  { split; auto. }
  intros i s Hi (L & V). pose proof (Hix (i + 1) ltac:(lia)). pose proof (Hix (Nrow - 1 - i) ltac:(lia)).
  rewrite bget_ok by lia. cbn [bind]. rewrite bset_ok by lia. eexists. split; [reflexivity|].
  rewrite zlen_vset. split; auto. intros k Hk. pose proof (Hix k ltac:(lia)). 
  assert (k * Ncol + M <> Ncol * (Nrow - 1 - i) + M) by (intros Eq; assert (Nrow - 1 - i = k) by (apply Hinj; lia); lia).
  rewrite vget_vset_ne by lia. auto.
Qed.
