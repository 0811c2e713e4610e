(** * TransFacts: closed forms of fc_to_sc, sc_to_fc and of the operators of
    ops.py (lemmas). *)
From Coq Require Import ZArith List String Lia Reals Lra Bool.
From Coquelicot Require Import Complex.
From Verif Require Import Py PyFacts Num Exact MCoefs SpecCoefs CoefsFacts CoefsFacts2 Sums Harm MPysphi MOps Smooth Dft PysphiFacts.
Import ListNotations.
Open Scope string_scope.
Open Scope list_scope.
Open Scope Z_scope.

(** ** matrices *)
Lemma cget_mmake nr nc (f : Z -> Z -> C) i j : 0 <= i < nr -> 0 <= j < nc -> cget (mmake RN nr nc f) i j = f i j.
Proof. intros. exact (mget_mmake RN nr nc f i j H H0). Qed.

Lemma mmake_ext nr nc (f g : Z -> Z -> C) : 0 <= nr -> 0 <= nc ->
  (forall i j, 0 <= i < nr -> 0 <= j < nc -> f i j = g i j) ->
  mmake RN nr nc f = mmake RN nr nc g.
Proof.
  intros H1 H2 H. unfold mmake. f_equal. apply vmake_ext. intros k Hk.
  assert (Hnc : nc <> 0) by nia.
  apply H; [|apply Z.mod_pos_bound; lia].
  split; [apply Z.div_pos; lia|]. apply Z.div_lt_upper_bound; lia.
Qed.

Lemma mat_mmake (a : mat RN) : mat_wf RN a -> a = mmake RN (mt_nr RN a) (mt_nc RN a) (cget a).
Proof.
  intros W. pose proof W as (H1 & H2 & _). apply (mat_ext RN); auto.
  - now apply mmake_wf.
  - intros i j Hi Hj. symmetry. exact (mget_mmake RN _ _ (fun p q => cget a p q) i j Hi Hj).
Qed.

Lemma mod_range a b : 0 < b -> 0 <= a mod b < b.
Proof. intros. apply Z.mod_pos_bound; lia. Qed.

Lemma py_index_mod len i : - len <= i < len -> py_index len i = Ok (i mod len).
Proof.
  intros H. destruct (Z_lt_le_dec i 0).
  - rewrite py_index_wrap by lia. f_equal. rewrite <- (Z_mod_plus_full i 1), Z.mod_small by lia. lia.
  - rewrite py_index_in by lia. now rewrite Z.mod_small by lia.
Qed.

Lemma col_set_mmake nr nc (f : Z -> Z -> C) m v : 0 <= nr -> - nc <= m < nc -> zlen v = nr ->
  col_set (mmake RN nr nc f) m v =
  Ok (mmake RN nr nc (fun p q => if q =? m mod nc then vget (RtoC 0) v p else f p q)).
Proof.
  intros Hr Hm Hv. unfold col_set. cbn [mt_nc mt_nr mmake]. rewrite py_index_mod by lia. cbn [bind].
  pose proof (mod_range m nc ltac:(lia)) as Hq.
  destruct (mset_col_ok RN (mmake RN nr nc f) 0 nr (m mod nc) v) as (a' & E & W & R1 & R2 & HG); try lia.
  - apply mmake_wf; lia.
  - cbn [mt_nr mmake]. lia.
  - cbn [mt_nc mmake]. lia.
  - change (zlen v = nr - 0). lia.
  - cbn [mt_nc mt_nr mmake] in *.
    change (mkMat RN nr nc (vmake (nr * nc) (fun k => f (k / nc) (k mod nc)))) with (mmake RN nr nc f).
    rewrite E. f_equal. apply (mat_ext RN); auto.
    + apply mmake_wf; lia.
    + intros i j Hi Hj. rewrite R1, R2 in *. rewrite HG by auto.
      rewrite !mget_mmake by auto.
      destruct (Z.leb_spec 0 i); [|lia]. destruct (Z.ltb_spec i nr); [|lia].
      rewrite !andb_true_r. destruct (j =? m mod nc); auto. f_equal. lia.
Qed.

(** Array index <-> frequency. *)
Definition freqc (L i : Z) : Z := if i <=? L / 2 then i else i - L.

Lemma freqc_mod L i : 0 <= i < L -> freqc L i mod L = i.
Proof.
  intros H. unfold freqc. destruct (i <=? L / 2).
  - now rewrite Z.mod_small by lia.
  - rewrite <- (Z_mod_plus_full _ 1). rewrite Z.mod_small by lia. lia.
Qed.
Lemma mod_neg_small L k : 0 < L -> - L <= k < 0 -> k mod L = k + L.
Proof. intros. rewrite <- (Z_mod_plus_full k 1), Z.mod_small by lia. lia. Qed.
Lemma freqc_of_mod L k : 0 < L -> - L < 2 * k <= L -> freqc L (k mod L) = k.
Proof.
  intros HL Hk. unfold freqc. destruct (Z_lt_le_dec k 0).
  - rewrite mod_neg_small by lia.
    destruct (Z.leb_spec (k + L) (L / 2)); lia.
  - rewrite Z.mod_small by lia. destruct (Z.leb_spec k (L / 2)); lia.
Qed.
Lemma freqc_range L i : 0 <= i < L -> - L < 2 * freqc L i <= L.
Proof. intros. unfold freqc. destruct (Z.leb_spec i (L / 2)); lia. Qed.

Lemma colf_mmake nr nc (f : Z -> Z -> C) m nu : 0 < nr -> 0 < nc ->
  colf (mmake RN nr nc f) m nu = f (nu mod nr) (m mod nc).
Proof.
  intros. unfold colf. cbn [mt_nc mt_nr mmake]. apply cget_mmake; now apply mod_range.
Qed.

(** ** fc_to_sc *)
Definition bcol (MM : Z) (a : mat RN) (n m : Z) : C := bval (hconv MM (colf a m)) m n.

Lemma py_fc_to_sc_ok a Nmax Mmax MM :
  mt_nr RN a = 2 * MM -> 1 <= MM -> 0 <= Mmax <= Nmax -> Mmax < mt_nc RN a ->
  (forall m, Z.abs m <= Mmax -> colf a m MM = RtoC 0) ->
  exists v, py_fc_to_sc a Nmax Mmax = Ok v /\ zlen v = ncoef Nmax Mmax /\
    forall n m, is_mode Nmax Mmax n m -> vget (RtoC 0) v (pos Nmax n m) = bcol MM a n m.
Proof.
  intros HL HM HN Hc Hz. unfold py_fc_to_sc.
  rewrite (bnm_vec_fc_eq a Nmax 0 MM) by (auto; try lia; apply Hz; lia). cbn [bind].
  set (I := fun p (v : list C) => zlen v = ncoef Nmax (p - 1) /\
    forall n m, Z.abs m <= p - 1 -> Z.abs m <= n <= Nmax -> vget (RtoC 0) v (pos Nmax n m) = bcol MM a n m).
  set (f := fun m c => _).
  destruct (mfor_inv I 1 (Mmax + 1) f
     (vmake (Nmax - Z.abs 0 + 1) (fun i => bval (hconv MM (colf a 0)) 0 (i + Z.abs 0)))) as (v & E & H1 & H2).
  - lia.
  - split.
    + rewrite zlen_vmake'; replace (1 - 1) with 0 by lia; rewrite ?ncoef_0; cbn; lia.
    + intros n m Hm Hn. assert (m = 0) by lia. subst m. unfold pos. rewrite cstart_0.
      rewrite vget_vmake by lia. unfold bcol. f_equal. lia.
  - intros p s Hp [I1 I2]. unfold f.
    rewrite (bnm_vec_fc_eq a Nmax (- p) MM) by (auto; try lia; apply Hz; lia). cbn [bind].
    rewrite (bnm_vec_fc_eq a Nmax p MM) by (auto; try lia; apply Hz; lia). cbn [bind].
    eexists; split; [reflexivity|].
    rewrite Z.abs_opp, (Z.abs_eq p) by lia.
    pose proof (ncoef_step Nmax (p - 1)) as Hst. replace (p - 1 + 1) with p in Hst by lia.
    split.
    + rewrite !zlen_app, !zlen_vmake', I1 by lia. replace (p + 1 - 1) with p by lia. lia.
    + intros n m Hm Hn. replace (p + 1 - 1) with p in Hm by lia.
      assert (Hpos : 0 <= pos Nmax n m).
      { apply (pos_range Nmax p); [unfold good_size; lia|unfold is_mode; lia]. }
      rewrite <- app_assoc, vget_app by auto. rewrite I1.
      destruct (Z.ltb_spec (pos Nmax n m) (ncoef Nmax (p - 1))) as [L|L].
      * apply I2; auto. destruct (Z.eq_dec (Z.abs m) p); [|lia]. exfalso.
        pose proof (cstart_block Nmax m ltac:(lia)) as [B _]. unfold pos in L. rewrite e in *. lia.
      * assert (Z.abs m = p) as Ea.
        { destruct (Z.eq_dec (Z.abs m) p); auto. exfalso.
          pose proof (cstart_range Nmax (p - 1) m ltac:(unfold good_size; lia) ltac:(lia)).
          unfold pos in L. lia. }
        rewrite vget_app by lia. rewrite zlen_vmake' by lia.
        destruct (Z_lt_le_dec m 0) as [Lm|Lm].
        -- assert (m = - p) by lia. subst m. unfold pos in *. rewrite cstart_neg in * by lia.
           destruct (Z.ltb_spec (ncoef Nmax (p - 1) + n - Z.abs (- p) - ncoef Nmax (p - 1)) (Nmax - p + 1)); [|lia].
           rewrite vget_vmake by lia. unfold bcol. f_equal. lia.
        -- assert (m = p) by lia. subst m. unfold pos in *. rewrite cstart_pos in * by lia.
           destruct (Z.ltb_spec (ncoef Nmax (p - 1) + (Nmax + 1 - p) + n - Z.abs p - ncoef Nmax (p - 1)) (Nmax - p + 1)); [lia|].
           rewrite vget_vmake by lia. unfold bcol. f_equal. lia.
  - exists v. split; [exact E|]. replace (Mmax + 1 - 1) with Mmax in * by lia. split; auto.
    intros n m (M1 & M2 & M3). apply H2; lia.
Qed.

(** ** sc_to_fc *)
Definition Fcol (vec : list C) (nmax m k : Z) : C :=
  (ipow m * sumC (Z.abs m) (nmax + 1) (fun n => vget (RtoC 0) vec (n - Z.abs m) * RtoC (Yt n m k)))%C.

Lemma Fcol_neg vec nmax m k : Fcol vec nmax m (- k) = (RtoC (IZR (sgnpow m)) * Fcol vec nmax m k)%C.
Proof.
  unfold Fcol. rewrite !Cmult_assoc, (Cmult_comm (RtoC _) (ipow m)), <- Cmult_assoc. f_equal.
  rewrite sumC_mul. apply sumC_ext. intros n Hn. rewrite Yt_neg, RtoC_mult. ring.
Qed.
Lemma Fcol_hi vec nmax m k : nmax < Z.abs k -> Fcol vec nmax m k = RtoC 0.
Proof.
  intros H. unfold Fcol. rewrite sumC_zero; [ring|]. intros n Hn. rewrite Yt_supp by lia. ring.
Qed.

Lemma slice_iadd_vmake n f b g : 0 <= b <= n ->
  slice_iadd (vmake n f) b (vmake b g) = Ok (vmake n (fun i => if i <? b then f i + g i else f i))%C.
Proof.
  intros H. unfold slice_iadd. rewrite py_slice_vm by lia. rewrite !zlen_vmake' by lia.
  replace (b - 0) with b by lia. rewrite Z.eqb_refl, zip_with_vmake.
  destruct (py_slice_set_ok (vmake n f) 0 b (vmake b (fun i => f (0 + i)%Z + g i)%C)) as (v' & -> & Hl & Hg).
  - lia.
  - rewrite zlen_vmake'; lia.
  - rewrite zlen_vmake'; lia.
  - f_equal. rewrite zlen_vmake' in * by lia. apply (vget_ext (RtoC 0)); rewrite Hl; [rewrite zlen_vmake'; lia|].
    intros i Hi. rewrite Hg by auto. rewrite !(vget_vmake _ n) by lia.
    destruct (Z.leb_spec 0 i); [|lia]. destruct (Z.ltb_spec i b); cbn [andb]; auto.
    rewrite vget_vmake by lia. now replace (i - 0) with i by lia.
Qed.
Lemma py_slice_set_map_vmake n (f : Z -> C) b g : 0 <= b <= n ->
  py_slice_set (vmake n f) 0 b (map g (py_slice (vmake n f) 0 b)) =
  Ok (vmake n (fun i => if i <? b then g (f i) else f i)).
Proof.
  intros H. rewrite py_slice_vm by lia. rewrite map_vmake. replace (b - 0) with b by lia.
  destruct (py_slice_set_ok (vmake n f) 0 b (vmake b (fun i => g (f (0 + i))))) as (v' & -> & Hl & Hg).
  - lia.
  - rewrite zlen_vmake'; lia.
  - rewrite zlen_vmake'; lia.
  - f_equal. rewrite zlen_vmake' in * by lia. apply (vget_ext (RtoC 0)); rewrite Hl; [rewrite zlen_vmake'; lia|].
    intros i Hi. rewrite Hg by auto. rewrite !(vget_vmake _ n) by lia.
    destruct (Z.leb_spec 0 i); [|lia]. destruct (Z.ltb_spec i b); cbn [andb]; auto.
    rewrite vget_vmake by lia. now replace (i - 0) with i by lia.
Qed.

Lemma fcvec_m_sc_eq vec m nmax nrows : Z.abs m <= nmax -> nmax + 1 <= nrows -> zlen vec = nmax - Z.abs m + 1 ->
  fcvec_m_sc vec m nmax nrows = Ok (vmake nrows (fun i => Fcol vec nmax m (freqc nrows i))).
Proof.
  intros Hm Hn Hv. unfold fcvec_m_sc. rewrite np_zeros_ok by lia. cbn [bind].
  set (part := fun p i => sumC (Z.abs m) p (fun n => vget (RtoC 0) vec (n - Z.abs m) * RtoC (Yt n m i))%C).
  set (f := fun n F => _).
  destruct (mfor_inv (fun p s => s = vmake nrows (fun i => if i <? nmax + 1 then part p i else RtoC 0))
     (Z.abs m) (nmax + 1) f (vmake nrows (fun _ => RtoC 0))) as (s' & -> & ->).
  - lia.
  - apply vmake_ext. intros i Hi. unfold part. rewrite sumC_nil by lia. now destruct (_ <? _).
  - intros p s Hp ->. eexists; split; [|reflexivity]. unfold f. rewrite ynunm_eq by lia. cbn [bind].
    rewrite py_get_ok by lia. cbn [bind]. rewrite map_vmake, slice_iadd_vmake by lia. f_equal.
    apply vmake_ext. intros i Hi. unfold part. rewrite sumC_snoc by lia. now destruct (_ <? _).
  - cbn [bind]. rewrite py_slice_set_map_vmake by lia. cbn [bind].
    assert (E0 : vmake nrows (fun i => if i <? nmax + 1
              then Cmult (if i <? nmax + 1 then part (nmax + 1) i else RtoC 0) (ipow m)
              else (if i <? nmax + 1 then part (nmax + 1) i else RtoC 0)) = vmake nrows (Fcol vec nmax m)).
    { apply vmake_ext. intros i Hi. destruct (Z.ltb_spec i (nmax + 1)).
      - unfold Fcol, part. apply Cmult_comm.
      - rewrite Fcol_hi by lia. reflexivity. }
    rewrite E0. clear f.
    set (H := if nrows mod 2 =? 0 then nrows / 2 - 1 else (nrows - 1) / 2).
    assert (HH : 0 <= H + 1 /\ nrows <= 2 * H + 2 /\ 2 * H + 1 <= nrows) by (unfold H; destruct (Z.eqb_spec (nrows mod 2) 0); lia).
    assert (HH0 : 0 <= H) by lia.
    set (f := fun k F => _).
    destruct (mfor_inv (fun p s => s = vmake nrows (fun i => Fcol vec nmax m (if i <? nrows - p then i else i - nrows)))
       0 H f (vmake nrows (Fcol vec nmax m))) as (s' & -> & ->).
    + lia.
    + apply vmake_ext. intros i Hi. destruct (Z.ltb_spec i (nrows - 0)); auto; lia.
    + intros p s Hp ->. eexists; split; [|reflexivity]. unfold f.
      rewrite py_get_vmake by lia. cbn [bind]. rewrite py_set_vmake_neg by lia. f_equal.
      apply vmake_ext. intros i Hi. destruct (Z.ltb_spec (p + 1) (nrows - p)); [|lia].
      rewrite <- Fcol_neg.
      destruct (Z.eqb_spec i (- (p + 1) + nrows)), (Z.ltb_spec i (nrows - p)), (Z.ltb_spec i (nrows - (p + 1))); subst; try lia; auto.
      f_equal. lia.
    + f_equal. apply vmake_ext. intros i Hi. unfold freqc.
      assert (nrows / 2 = H + 1 /\ nrows mod 2 = 0 \/ nrows / 2 = H /\ nrows mod 2 = 1) as HD.
      { unfold H; destruct (Z.eqb_spec (nrows mod 2) 0); lia. }
      destruct (Z.ltb_spec i (nrows - H)), (Z.leb_spec i (nrows / 2)); auto; lia.
Qed.

(** Column m of the Fourier data of a coefficient set. *)
Definition Fsc (c : scoefs RN) (m k : Z) : C :=
  if Z.abs m <=? sc_mmax RN c then
    (ipow m * sumC (Z.abs m) (sc_nmax RN c + 1) (fun n => cval RN c n m * RtoC (Yt n m k)))%C
  else RtoC 0.
Definition fdata_of (c : scoefs RN) (nrows ncols : Z) : mat RN :=
  mmake RN nrows ncols (fun p q => Fsc c (freqc ncols q) (freqc nrows p)).

Lemma sc_wf_len c : sc_wf RN c -> @zlen C (sc_vec RN c) = ncoef (sc_nmax RN c) (sc_mmax RN c).
Proof. intros [_ H]. exact H. Qed.

Lemma Fcol_Fsc c m k : sc_wf RN c -> Z.abs m <= sc_mmax RN c ->
  Fcol (py_slice (sc_vec RN c) (cstart (sc_nmax RN c) m) (cstart (sc_nmax RN c) m + sc_nmax RN c - Z.abs m + 1))
    (sc_nmax RN c) m k = Fsc c m k.
Proof.
  intros W Hm. pose proof (sc_wf_len c W) as Hl. destruct W as [Hg _]. unfold Fcol, Fsc. destruct (Z.leb_spec (Z.abs m) (sc_mmax RN c)); [|lia]. f_equal.
  apply sumC_ext. intros n Hn. f_equal.
  pose proof (cstart_range _ _ m Hg Hm).
  rewrite vget_py_slice by lia. unfold cval, pos. rewrite c0_RN.
  now replace (cstart (sc_nmax RN c) m + n - Z.abs m) with (cstart (sc_nmax RN c) m + (n - Z.abs m)) by lia.
Qed.

Lemma sc_to_fc_col_ok c m nr nc (f : Z -> Z -> C) : sc_wf RN c -> Z.abs m <= sc_mmax RN c -> sc_nmax RN c + 1 <= nr -> - nc <= m < nc ->
  sc_to_fc_col (sc_vec RN c) (sc_nmax RN c) (sc_mmax RN c) nr m (mmake RN nr nc f) =
  Ok (mmake RN nr nc (fun p q => if q =? m mod nc then Fsc c m (freqc nr p) else f p q)).
Proof.
  intros W Hm Hr Hc. pose proof (sc_wf_len c W) as Hl. pose proof W as [Hg _]. unfold good_size in Hg. unfold sc_to_fc_col. rewrite mindx_closed by auto. cbn [bind].
  pose proof (cstart_range _ _ m Hg Hm).
  assert (Hz : @zlen C (@py_slice C (sc_vec RN c) (cstart (sc_nmax RN c) m) (cstart (sc_nmax RN c) m + sc_nmax RN c - Z.abs m + 1))
     = sc_nmax RN c - Z.abs m + 1) by (rewrite (@zlen_py_slice C) by lia; lia).
  rewrite (fcvec_m_sc_eq _ m (sc_nmax RN c) nr ltac:(lia) Hr Hz). cbn [bind].
  rewrite col_set_mmake by (try lia; rewrite zlen_vmake'; lia). f_equal.
  apply mmake_ext; try lia. intros i j Hi Hj. destruct (_ =? _); auto.
  rewrite vget_vmake by lia. now apply Fcol_Fsc.
Qed.

Lemma py_sc_to_fc_ok c nr nc : sc_wf RN c -> sc_nmax RN c + 1 <= nr -> 2 * sc_mmax RN c + 2 <= nc ->
  py_sc_to_fc (sc_vec RN c) (sc_nmax RN c) (sc_mmax RN c) nr nc = Ok (fdata_of c nr nc).
Proof.
  intros W Hr Hc. pose proof W as [Hg Hl]. unfold good_size in Hg. unfold py_sc_to_fc, np_zeros2.
  set (M := sc_mmax RN c) in *. set (N := sc_nmax RN c) in *.
  destruct (Z.ltb_spec nr 0); [lia|]. destruct (Z.ltb_spec nc 0); [lia|]. cbn [orb bind].
  set (I := fun k => mmake RN nr nc (fun p q =>
     if (q <? Z.min k (M + 1)) then Fsc c q (freqc nr p)
     else if nc - Z.min k M <=? q then Fsc c (q - nc) (freqc nr p) else RtoC 0)).
  set (f := fun k fd => _).
  destruct (mfor_inv (fun k s => s = I k) 0 (nc / 2) f (mmake RN nr nc (fun _ _ => RtoC 0))) as (s' & E & ->).
  - lia.
  - apply mmake_ext; try lia. intros p q Hp Hq. rewrite !Z.min_l by lia.
    destruct (Z.ltb_spec q 0); [lia|]. destruct (Z.leb_spec (nc - 0) q); auto; lia.
  - intros k s Hk ->. eexists; split; [|reflexivity]. unfold f.
    destruct (Z.ltb_spec k M) as [L|L].
    + unfold I at 1. unfold N, M. rewrite sc_to_fc_col_ok by (auto; fold M N; lia). cbn [bind].
      rewrite sc_to_fc_col_ok by (auto; fold M N; lia). cbn [bind]. fold M N.
      destruct (Z.eqb_spec k M); [lia|]. f_equal. apply mmake_ext; try lia.
      intros p q Hp Hq. rewrite mod_neg_small by lia. rewrite (Z.mod_small k) by lia.
      rewrite !Z.min_l by lia.
      destruct (Z.eqb_spec q (- (k + 1) + nc)), (Z.eqb_spec q k), (Z.ltb_spec q k), (Z.ltb_spec q (k + 1)),
       (Z.leb_spec (nc - k) q), (Z.leb_spec (nc - (k + 1)) q); subst; try lia; auto; f_equal; lia.
    + cbn [bind]. destruct (Z.eqb_spec k M) as [->|Hne].
      * unfold I at 1. unfold N. unfold M at 2. rewrite sc_to_fc_col_ok by (auto; fold M N; lia). cbn [bind]. fold M N.
        f_equal. apply mmake_ext; try lia. intros p q Hp Hq. rewrite (Z.mod_small M) by lia.
        rewrite (Z.min_l M (M + 1)), (Z.min_l (M + 1) (M + 1)), (Z.min_r (M + 1) M), (Z.min_l M M) by lia.
        destruct (Z.eqb_spec q M), (Z.ltb_spec q M), (Z.ltb_spec q (M + 1)); subst; try lia; auto.
      * f_equal. apply mmake_ext; try lia. intros p q Hp Hq. now rewrite !Z.min_r by lia.
  - cbv beta in E. rewrite E. f_equal. apply mmake_ext; try lia. intros p q Hp Hq.
    change (freqc nc q) with (if q <=? nc / 2 then q else q - nc). destruct (Z.leb_spec q (nc / 2)) as [L|L].
    + destruct (Z.ltb_spec q (Z.min (nc / 2) (M + 1))); auto.
      destruct (Z.leb_spec (nc - Z.min (nc / 2) M) q); [lia|].
      unfold Fsc. fold M. destruct (Z.leb_spec (Z.abs q) M); [lia|auto].
    + destruct (Z.ltb_spec q (Z.min (nc / 2) (M + 1))); [lia|].
      destruct (Z.leb_spec (nc - Z.min (nc / 2) M) q); auto.
      unfold Fsc. fold M. destruct (Z.leb_spec (Z.abs (q - nc)) M); [lia|auto].
Qed.

(** ** ops.py on Fourier tables *)

(** The array with L rows and nc columns that holds F m k at frequency (k, m). *)
Definition tab (L nc : Z) (F : Z -> Z -> C) : mat RN :=
  mmake RN L nc (fun p q => F (freqc nc q) (freqc L p)).
Definition fsupp (P : Z) (F : Z -> Z -> C) : Prop := forall m k, P < Z.abs k -> F m k = RtoC 0.

Lemma tab_ext L nc F G : 0 <= L -> 0 <= nc ->
  (forall m k, - nc < 2 * m <= nc -> - L < 2 * k <= L -> F m k = G m k) -> tab L nc F = tab L nc G.
Proof.
  intros H1 H2 H. apply mmake_ext; auto. intros p q Hp Hq. apply H; now apply freqc_range.
Qed.
Lemma colf_tab L nc F m k : 0 < L -> 0 < nc -> - nc < 2 * m <= nc -> - L < 2 * k <= L ->
  colf (tab L nc F) m k = F m k.
Proof. intros. unfold tab. rewrite colf_mmake by auto. now rewrite !freqc_of_mod. Qed.

Lemma row_zero_mmake nr nc (f : Z -> Z -> C) i : 0 <= nc -> - nr <= i < nr ->
  row_zero (mmake RN nr nc f) i = Ok (mmake RN nr nc (fun p q => if p =? i mod nr then RtoC 0 else f p q)).
Proof.
  intros Hc Hi. unfold row_zero. cbn [mt_nr mt_nc mmake]. rewrite py_index_mod by lia. cbn [bind]. f_equal.
  apply mmake_ext; try lia. intros p q Hp Hq. destruct (_ =? _); auto. now apply cget_mmake.
Qed.

Lemma fix_even_eq L nc (f : Z -> Z -> C) : 1 <= L -> 0 <= nc ->
  fix_even_row_data_fc (mmake RN (2 * L) nc f) =
  Ok (mmake RN (2 * L) nc (fun p q => if p =? L then RtoC 0 else f p q)).
Proof.
  intros HL Hc. unfold fix_even_row_data_fc. cbn [mt_nr mmake].
  replace ((2 * L) mod 2) with 0 by lia. cbn [Z.eqb]. replace (2 * L / 2) with L by lia.
  change (mkMat RN (2 * L) nc (vmake (2 * L * nc) (fun k => f (k / nc) (k mod nc)))) with (mmake RN (2 * L) nc f).
  rewrite row_zero_mmake by lia. now rewrite Z.mod_small by lia.
Qed.

Lemma combine_down a b d : combine (zrange_down a b) (zrange_down (a - d) (b - d)) =
  map (fun x => (x, x - d)) (zrange_down a b).
Proof.
  unfold zrange_down. rewrite map_map. replace (a - d - (b - d)) with (a - b) by lia.
  induction (List.seq 0 (Z.to_nat (a - b))) as [|x l IH]; cbn [map combine]; auto. rewrite IH. do 2 f_equal. lia.
Qed.
Lemma fold_left_map {A B D} (f : A -> B -> A) (g : D -> B) l a :
  fold_left f (map g l) a = fold_left (fun a x => f a (g x)) l a.
Proof. revert a; induction l; intros; cbn; auto. Qed.

Lemma pad_rows_eq R nc (f : Z -> Z -> C) ext : 2 <= R -> 0 <= nc ->
  mt_nr RN ext = 2 * R -> mt_nc RN ext = nc ->
  pad_rows_fdata (mmake RN (2 * R - 2) nc f) ext =
  Ok (mmake RN (2 * R) nc (fun p q => if p <? R - 1 then f p q else if R + 1 <? p then f (p - 2) q else RtoC 0)).
Proof.
  intros HR Hc E1 E2. unfold pad_rows_fdata. rewrite E1, E2. cbn [mt_nr mt_nc mmake].
  change (mkMat RN (2 * R - 2) nc (vmake ((2 * R - 2) * nc) (fun k => f (k / nc) (k mod nc)))) with (mmake RN (2 * R - 2) nc f).
  destruct (Z.ltb_spec (2 * R) (2 * R - 2)); [lia|]. rewrite Z.eqb_refl. cbn [negb].
  replace ((2 * R - 2) / 2) with (R - 1) by lia.
  assert (N : forall Le, R - 1 <= Le -> neg_slice Le (R - 1) = zrange_down (Le - 1) (Le - (R - 1))).
  { intros Le HLe. unfold neg_slice. destruct (Z.ltb_spec (Le - 1) 0); [lia|].
    destruct (Z.ltb_spec (- (R - 1)) 0); [|lia]. f_equal. lia. }
  rewrite !N by lia.
  replace (zlen (zrange_down (2 * R - 1) (2 * R - (R - 1))) =? zlen (zrange_down (2 * R - 2 - 1) (2 * R - 2 - (R - 1)))) with true.
  2:{ symmetry. apply Z.eqb_eq. unfold zlen, zrange_down. rewrite !map_length, !seq_length. lia. }
  cbn [negb]. f_equal.
  replace (2 * R - 2 - 1) with (2 * R - 1 - 2) by lia. replace (2 * R - 2 - (R - 1)) with (2 * R - (R - 1) - 2) by lia.
  rewrite combine_down, fold_left_map. cbn [fst snd].
  pose (I := fun (i : Z) (e : mat RN) => e = mmake RN (2 * R) nc (fun p q =>
     if p <? R - 1 then f p q else if i <? p then f (p - 2) q else RtoC 0)).
  change (fold_left _ _ _) with (pfor (zrange_down (2 * R - 1) (2 * R - (R - 1)))
    (fun x e => mmake RN (2 * R) nc (fun p q => if p =? x then cget (mmake RN (2 * R - 2) nc f) (x - 2) q else cget e p q))
    (mmake RN (2 * R) nc (fun p q => if p <? R - 1 then cget (mmake RN (2 * R - 2) nc f) p q else RtoC 0))).
  assert (HI : I (2 * R - (R - 1)) (pfor (zrange_down (2 * R - 1) (2 * R - (R - 1)))
    (fun x e => mmake RN (2 * R) nc (fun p q => if p =? x then cget (mmake RN (2 * R - 2) nc f) (x - 2) q else cget e p q))
    (mmake RN (2 * R) nc (fun p q => if p <? R - 1 then cget (mmake RN (2 * R - 2) nc f) p q else RtoC 0)))).
  { apply (pfor_down_inv I); [lia| |].
    - unfold I. apply mmake_ext; try lia. intros p q Hp Hq.
      destruct (Z.ltb_spec p (R - 1)); [apply cget_mmake; lia|]. destruct (Z.ltb_spec (2 * R - 1) p); [lia|auto].
    - intros i e Hi ->. unfold I. apply mmake_ext; try lia. intros p q Hp Hq.
      rewrite cget_mmake by lia. rewrite (cget_mmake (2 * R)) by lia.
      destruct (Z.eqb_spec p i), (Z.ltb_spec p (R - 1)), (Z.ltb_spec i p), (Z.ltb_spec (i - 1) p); subst; try lia; auto. }
  rewrite HI. apply mmake_ext; try lia. intros p q Hp Hq. now replace (2 * R - (R - 1)) with (R + 1) by lia.
Qed.

Definition sinF (F : Z -> Z -> C) (m k : Z) : C := (RtoC 1 / (RtoC 2 * Ci) * (F m (k - 1)%Z - F m (k + 1)%Z))%C.

Lemma sin_fc_tab MM nc F : 2 <= MM -> 0 <= nc -> fsupp (MM - 2) F ->
  sin_fc (tab (2 * MM) nc F) = Ok (tab (2 * MM) nc (sinF F)).
Proof.
  intros HM Hc HF. unfold sin_fc, tab. cbn [mt_nr mt_nc mmake].
  change (mkMat RN (2 * MM) nc _) with (tab (2 * MM) nc F). unfold tab.
  replace (2 * MM / 2) with MM by lia.
  rewrite row_zero_mmake by lia. cbn [bind]. rewrite row_zero_mmake by lia. cbn [bind].
  rewrite !Z.mod_small by lia. f_equal. apply mmake_ext; try lia. intros p q Hp Hq.
  set (g := fun p q : Z => _).
  assert (Hg : forall p q, 0 <= p < 2 * MM -> 0 <= q < nc -> cget (mmake RN (2 * MM) nc g) p q = F (freqc nc q) (freqc (2 * MM) p)).
  { intros p' q' H1 H2. rewrite cget_mmake by lia. unfold g.
    assert (Z1 : forall p, p = MM - 1 \/ p = MM + 1 -> F (freqc nc q') (freqc (2 * MM) p) = RtoC 0).
    { intros x Hx. apply HF. unfold freqc. destruct (Z.leb_spec x (2 * MM / 2)); lia. }
    destruct (Z.eqb_spec p' (MM + 1)); [symmetry; apply Z1; lia|].
    destruct (Z.eqb_spec p' (MM - 1)); [symmetry; apply Z1; lia|]. auto. }
  unfold sinF. f_equal. unfold Cminus. f_equal; [|f_equal].
  - destruct (Z.eqb_spec p 0) as [->|Hne].
    + rewrite Hg by lia. f_equal. unfold freqc. destruct (Z.leb_spec (2 * MM - 1) (2 * MM / 2)); [lia|].
      destruct (Z.leb_spec 0 (2 * MM / 2)); lia.
    + rewrite Hg by lia. unfold freqc at 2 4. destruct (Z.leb_spec (p - 1) (2 * MM / 2)), (Z.leb_spec p (2 * MM / 2)); try (f_equal; lia).
      assert (p = MM + 1) by lia. subst. rewrite !HF by lia. auto.
  - destruct (Z.eqb_spec p (2 * MM - 1)) as [->|Hne].
    + rewrite Hg by lia. f_equal. unfold freqc. destruct (Z.leb_spec 0 (2 * MM / 2)); [|lia].
      destruct (Z.leb_spec (2 * MM - 1) (2 * MM / 2)); lia.
    + rewrite Hg by lia. unfold freqc at 2 4. destruct (Z.leb_spec (p + 1) (2 * MM / 2)), (Z.leb_spec p (2 * MM / 2)); try (f_equal; lia).
      assert (p = MM) by lia. subst. rewrite !HF by lia. auto.
Qed.

Lemma dtheta_fc_tab B nc F : 1 <= B -> 0 <= nc -> fsupp (B - 1) F ->
  dtheta_fc (tab (2 * B) nc F) = Ok (tab (2 * B) nc (fun m k => Ci * RtoC (IZR k) * F m k)%C).
Proof.
  intros HB Hc HF. unfold dtheta_fc, tab. cbn [mt_nr mt_nc mmake].
  replace (2 * B / 2) with B by lia. rewrite Z.eqb_refl. cbn [negb andb]. f_equal.
  apply mmake_ext; try lia. intros p q Hp Hq.
  change (mkMat RN (2 * B) nc _) with (tab (2 * B) nc F). unfold tab. rewrite cget_mmake by lia.
  destruct (Z.eq_dec p B) as [->|Hne].
  - rewrite HF; [ring|]. unfold freqc. destruct (Z.leb_spec B (2 * B / 2)); lia.
  - do 2 f_equal. f_equal. f_equal. unfold freq, freqc.
    destruct (Z.ltb_spec p B), (Z.leb_spec p (2 * B / 2)); lia.
Qed.
(** the phi frequency list of dphi_fc puts the middle column at -B *)
Definition mfix (B m : Z) : Z := if m =? B then - B else m.
Lemma dphi_fc_tab' L B F : 0 <= L -> 1 <= B ->
  dphi_fc (tab L (2 * B) F) = Ok (tab L (2 * B) (fun m k => Ci * RtoC (IZR (mfix B m)) * F m k)%C).
Proof.
  intros HL HB. unfold dphi_fc, tab. cbn [mt_nr mt_nc mmake].
  replace (2 * B / 2) with B by lia. rewrite Z.eqb_refl. cbn [negb andb]. f_equal.
  apply mmake_ext; try lia. intros p q Hp Hq.
  change (mkMat RN L (2 * B) _) with (tab L (2 * B) F). unfold tab. rewrite cget_mmake by lia.
  do 2 f_equal. f_equal. f_equal. unfold mfix, freq, freqc.
  destruct (Z.ltb_spec q B), (Z.leb_spec q (2 * B / 2)); try lia.
  - destruct (Z.eqb_spec q B); lia.
  - destruct (Z.eqb_spec q B); lia.
  - destruct (Z.eqb_spec (q - 2 * B) B); lia.
Qed.
Lemma dphi_fc_tab L B F : 0 <= L -> 1 <= B -> (forall k, F B k = RtoC 0) ->
  dphi_fc (tab L (2 * B) F) = Ok (tab L (2 * B) (fun m k => Ci * RtoC (IZR m) * F m k)%C).
Proof.
  intros HL HB HF. rewrite dphi_fc_tab' by auto. f_equal. apply tab_ext; try lia. intros m k _ _.
  unfold mfix. destruct (Z.eqb_spec m B) as [->|]; auto. rewrite HF. ring.
Qed.

Lemma row_get_mmake nr nc (f : Z -> Z -> C) i : - nr <= i < nr ->
  row_get (mmake RN nr nc f) i = Ok (vmake nc (fun q => f (i mod nr) q)).
Proof.
  intros Hi. unfold row_get. cbn [mt_nr mt_nc mmake]. rewrite py_index_mod by lia. cbn [bind]. f_equal.
  apply vmake_ext. intros q Hq. apply cget_mmake; auto. apply mod_range. lia.
Qed.
Lemma row_set_mmake nr nc (f : Z -> Z -> C) i h : 0 <= nc -> - nr <= i < nr ->
  row_set (mmake RN nr nc f) i (vmake nc h) =
  Ok (mmake RN nr nc (fun p q => if p =? i mod nr then h q else f p q)).
Proof.
  intros Hc Hi. unfold row_set. cbn [mt_nr mt_nc mmake]. rewrite py_index_mod by lia. cbn [bind]. f_equal.
  apply mmake_ext; try lia. intros p q Hp Hq. rewrite vget_vmake by lia.
  destruct (_ =? _); auto. now apply cget_mmake.
Qed.

Lemma Ci_sq : (Ci * Ci)%C = RtoC (-1).
Proof. apply injective_projections; cbn; ring. Qed.
Lemma two_Ci_ne : (RtoC 2 * Ci)%C <> RtoC 0.
Proof. intros E. apply (f_equal snd) in E. cbn in E. lra. Qed.
Lemma sinF_rec G m k : (RtoC 2 * Ci * sinF G m k + G m (k + 1)%Z)%C = G m (k - 1)%Z.
Proof. unfold sinF. field. split; intros E; [apply (f_equal snd) in E|apply (f_equal fst) in E]; cbn in E; lra. Qed.

Lemma divsin_fc_tab L nc G : 1 <= L -> 0 <= nc -> fsupp (L - 2) G ->
  divsin_fc (tab (2 * L) nc (sinF G)) = Ok (tab (2 * L) nc G).
Proof.
  intros HL Hc HG. unfold divsin_fc. 
  change (mt_nr RN (tab (2 * L) nc (sinF G))) with (2 * L).
  change (mt_nc RN (tab (2 * L) nc (sinF G))) with nc.
  replace (2 * L / 2) with L by lia. unfold np_zeros2.
  destruct (Z.ltb_spec (2 * L) 0); [lia|]. destruct (Z.ltb_spec nc 0); [lia|]. cbn [orb bind].
  unfold tab at 1. rewrite row_get_mmake by lia. cbn [bind]. rewrite map_vmake, row_set_mmake by lia. cbn [bind].
  rewrite (Z.mod_small (L - 1)) by lia.
  assert (Fr : forall i p, 0 <= p < 2 * L -> - L < i <= L -> (p =? i mod (2 * L)) = (freqc (2 * L) p =? i)).
  { intros i p Hp Hi. destruct (Z.eqb_spec p (i mod (2 * L))) as [->|Hn].
    - rewrite freqc_of_mod by lia. symmetry. apply Z.eqb_refl.
    - destruct (Z.eqb_spec (freqc (2 * L) p) i) as [E|E]; auto. exfalso. apply Hn. rewrite <- E. symmetry. now apply freqc_mod. }
  set (I := fun k => mmake RN (2 * L) nc (fun p q => if k <=? freqc (2 * L) p then G (freqc nc q) (freqc (2 * L) p) else RtoC 0)).
  assert (E0 : mmake RN (2 * L) nc (fun p q => if p =? (L - 2) mod (2 * L)
      then (RtoC 2 * Ci * sinF G (freqc nc q) (freqc (2 * L) (L - 1)))%C else RtoC 0) = I (L - 2)).
  { unfold I. apply mmake_ext; try lia. intros p q Hp Hq.
    replace (freqc (2 * L) (L - 1)) with (L - 1) by (unfold freqc; destruct (Z.leb_spec (L - 1) (2 * L / 2)); lia).
    assert (ER : (RtoC 2 * Ci * sinF G (freqc nc q) (L - 1))%C = G (freqc nc q) (L - 2)).
    { pose proof (sinF_rec G (freqc nc q) (L - 1)) as E. rewrite (HG _ (L - 1 + 1)) in E by lia.
      rewrite Cplus_0_r in E. rewrite E. f_equal. lia. }
    rewrite ER. destruct (Z.eq_dec L 1) as [->|HL1].
    - rewrite !HG by lia. destruct (p =? (1 - 2) mod (2 * 1)); destruct (1 - 2 <=? freqc (2 * 1) p); auto.
    - rewrite Fr by lia.
      destruct (Z.eqb_spec (freqc (2 * L) p) (L - 2)) as [->|Hn].
      + destruct (Z.leb_spec (L - 2) (L - 2)); [auto|lia].
      + destruct (Z.leb_spec (L - 2) (freqc (2 * L) p)); auto. rewrite HG by lia. auto. }
  rewrite E0.
  destruct (Z.eq_dec L 1) as [->|HL1].
  - rewrite zrange_down_nil by lia. cbn [mfor]. f_equal. unfold I, tab. apply mmake_ext; try lia.
    intros p q Hp Hq. rewrite HG by lia. now destruct (_ <=? _).
  - set (f := fun k g => _).
    destruct (mfor_down_inv (fun k s => s = I k) (L - 2) (- (L - 2)) f (I (L - 2))) as (s' & E & ->); try lia; auto.
    + intros k s Hk ->. eexists; split; [|reflexivity]. unfold f.
      unfold tab. rewrite row_get_mmake by lia. cbn [bind]. unfold I at 1. rewrite row_get_mmake by lia. cbn [bind].
      rewrite zip_with_vmake. unfold I. rewrite row_set_mmake by lia. f_equal. apply mmake_ext; try lia. intros p q Hp Hq.
      rewrite !freqc_of_mod by lia. rewrite Fr by lia.
      destruct (Z.leb_spec k (k + 1)); [|lia]. rewrite sinF_rec.
      destruct (Z.eqb_spec (freqc (2 * L) p) (k - 1)) as [->|Hn].
      * destruct (Z.leb_spec (k - 1) (k - 1)); [auto|lia].
      * destruct (Z.leb_spec k (freqc (2 * L) p)), (Z.leb_spec (k - 1) (freqc (2 * L) p)); auto; lia.
    + rewrite E. f_equal. unfold I, tab. apply mmake_ext; try lia. intros p q Hp Hq.
      destruct (Z.leb_spec (- (L - 2)) (freqc (2 * L) p)); auto. now rewrite HG by lia.
Qed.

Lemma ew2_tab g L nc F G : 0 <= L -> 0 <= nc ->
  ew2 g (tab L nc F) (tab L nc G) = Ok (tab L nc (fun m k => g (F m k) (G m k))).
Proof.
  intros. unfold ew2, tab. cbn [mt_nr mt_nc mmake]. rewrite !Z.eqb_refl. cbn [andb]. f_equal.
  apply mmake_ext; auto. intros p q Hp Hq.
  change (mkMat RN L nc (vmake (L * nc) (fun k => F (freqc nc (k mod nc)) (freqc L (k / nc))))) with (tab L nc F).
  change (mkMat RN L nc (vmake (L * nc) (fun k => G (freqc nc (k mod nc)) (freqc L (k / nc))))) with (tab L nc G).
  unfold tab. now rewrite !cget_mmake by lia.
Qed.
Lemma ew1_tab g L nc F : 0 <= L -> 0 <= nc -> ew1 g (tab L nc F) = tab L nc (fun m k => g (F m k)).
Proof.
  intros. unfold ew1, tab. cbn [mt_nr mt_nc mmake]. apply mmake_ext; auto. intros p q Hp Hq.
  change (mkMat RN L nc _) with (tab L nc F). unfold tab. now rewrite cget_mmake by lia.
Qed.

(** L_fc and sinLdot_fc *)
Lemma L_fc_tab L B F G : 1 <= L -> 1 <= B -> fsupp (L - 1) F -> (forall k, F B k = RtoC 0) ->
  fsupp (L - 2) G -> (forall m k, - B < m <= B -> Ci * RtoC (IZR m) * F m k = sinF G m k)%C ->
  L_fc (tab (2 * L) (2 * B) F) =
  Ok (tab (2 * L) (2 * B) (fun m k => Ci * G m k)%C, tab (2 * L) (2 * B) (fun m k => RtoC (IZR k) * F m k)%C).
Proof.
  intros HL HB HF HFB HG HE. unfold L_fc. rewrite dphi_fc_tab by (auto; lia). cbn [bind].
  replace (tab (2 * L) (2 * B) (fun m k => Ci * RtoC (IZR m) * F m k)%C) with (tab (2 * L) (2 * B) (sinF G)).
  2:{ apply tab_ext; try lia. intros m k Hm Hk. symmetry. apply HE. lia. }
  rewrite divsin_fc_tab by (auto; lia). cbn [bind]. rewrite dtheta_fc_tab by (auto; lia). cbn [bind].
  rewrite !ew1_tab by lia. do 2 f_equal. apply tab_ext; try lia. intros m k _ _.
  transitivity (- (Ci * Ci) * RtoC (IZR k) * F m k)%C; [ring|]. rewrite Ci_sq.
  replace (- RtoC (-1))%C with (RtoC 1) by (rewrite <- RtoC_opp; f_equal; ring). ring.
Qed.

Definition sLd (B : Z) (T P : Z -> Z -> C) (m k : Z) : C :=
  (RtoC (IZR k) * sinF P m k - RtoC (IZR (mfix B m)) * T m k)%C.

Lemma fsupp_sinF P F : fsupp P F -> fsupp (P + 1) (sinF F).
Proof. intros H m k Hk. unfold sinF. rewrite !H by lia. ring. Qed.

Lemma sinLdot_fc_tab MM B T P : 2 <= MM -> 1 <= B -> fsupp (MM - 2) P ->
  sinLdot_fc (tab (2 * MM) (2 * B) T) (tab (2 * MM) (2 * B) P) = Ok (tab (2 * MM) (2 * B) (sLd B T P)).
Proof.
  intros HM HB HP. unfold sinLdot_fc. rewrite dphi_fc_tab' by (auto; lia). cbn [bind].
  rewrite sin_fc_tab by (auto; lia). cbn [bind].
  assert (HS : fsupp (MM - 1) (sinF P)) by (replace (MM - 1) with (MM - 2 + 1) by lia; now apply fsupp_sinF).
  rewrite dtheta_fc_tab by (auto; lia). cbn [bind]. rewrite ew2_tab by lia. f_equal.
  apply tab_ext; try lia. intros m k _ _. unfold sLd.
  transitivity ((Ci * Ci) * (RtoC (IZR (mfix B m)) * T m k - RtoC (IZR k) * sinF P m k))%C; [ring|]. rewrite Ci_sq.
  replace (RtoC (-1)) with (- RtoC 1)%C by (rewrite <- RtoC_opp; f_equal; ring). ring.
Qed.
