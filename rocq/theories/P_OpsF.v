(** * P_OpsF: C82, the operators of ops.py in double precision. *)
From Coq Require Import ZArith List Bool SpecFloat Reals Lia Lra Psatz.
From Coquelicot Require Import Coquelicot.
From Flocq Require Import Core.Core IEEE754.BinarySingleNaN.
From Verif Require Import Exact Py PyFacts Num FloatN FloatText MCoefs SpecCoefs CoefsFacts CoefsFacts2 Obs CoefsFacts3 Sums Harm Smooth Dft MOps MPysphi PysphiFacts MTrans TransFacts TransFacts2 SpecHarm SpecOps HarmFacts SpecInt MKiss KissFacts KissFacts2 SpecDft MCsphi CsphiFacts MPatt P_Coefs P_Ops P_Trans
  MDouble FlFacts SeedReal SeedFl SeedFl2 DoubleFacts P_Double FlSigned SbesselFTerm SbesselFRel SbesselFFun TabPert Unsold TabFl P_Table SumFl SumFl2 SumFl3 SumFl4 P_Sums
  MKissF KissFl KissFl2 KissFl3 KissFl4 KissFl5 P_KissF HkmF3 MTransF TransF P_TransF TransF2 P_TransF2 MOpsF OpsF.
Import ListNotations.
Open Scope list_scope.
Open Scope Z_scope.

(** ** Specification *)

(** the exact array with the values of a double array, row by row *)
Definition array_values (nr nc : Z) (a : list cf) : mat RN := mmake RN nr nc (fun p q => cvalue (vget cf0 a (p * nc + q))).
(** an nr by nc array of doubles whose parts are at most F *)
Definition bounded_array (nr nc : Z) (F : R) (a : list cf) : Prop := zlen a = nr * nc /\ forall i, 0 <= i < nr * nc -> bounded F (vget cf0 a i).
(** b is an nr by nc array of finite doubles whose entry (p, q) is within tol p of that of A *)
Definition near_array (nr nc : Z) (tol : Z -> R) (b : list cf) (A : mat RN) : Prop :=
  zlen b = nr * nc /\ mt_nr RN A = nr /\ mt_nc RN A = nc /\
  forall p q, 0 <= p < nr -> 0 <= q < nc -> within (tol p) (vget cf0 b (p * nc + q)) (mget RN A p q).
(** the frequency of row p in an array of nr rows, and how far it is below nr / 2 *)
Definition row_frequency (nr p : Z) : Z := if p <? nr / 2 then p else p - nr.
Definition below_half (nr p : Z) : R := IZR (nr / 2 - row_frequency nr p).
(** the sizes for which the bounds are proved *)
Definition sizes_ok (nr nc : Z) (F : R) : Prop :=
  4 <= nr <= 2 ^ 21 /\ nr mod 2 = 0 /\ 2 <= nc <= 2 ^ 21 /\ nc mod 2 = 0 /\ (/ 2 ^ 700 <= F <= 2 ^ 800)%R.

(** ** Connections *)
Lemma uu_pow : uu = (/ 2 ^ 53)%R. Proof. rewrite uu_val. apply f_equal. lra. Qed.
Lemma uu_pow' x : (x * uu = x / 2 ^ 53)%R. Proof. now rewrite uu_pow. Qed.
Lemma arr_fmake nr nc a : 0 <= nr -> 0 <= nc -> zlen a = nr * nc -> a = fmake nr nc (fget nc a).
Proof.
  intros Hr Hc L. unfold fmake, fget. rewrite <- (vmake_vget cf0 a) at 1. rewrite L. apply vmake_ext. intros j Hj. f_equal. pose proof (Z.div_mod j nc). nia.
Qed.
Lemma sizes_core nr nc F : sizes_ok nr nc F -> exists L B, nr = 2 * L /\ nc = 2 * B /\ 2 <= L <= 2 ^ 20 /\ 1 <= B <= 2 ^ 20 /\ (dmin <= uu * F)%R /\ (0 < F <= bpow radix2 850)%R /\
  (IZR L = IZR nr / 2)%R /\ (IZR B = IZR nc / 2)%R.
Proof.
  intros (H1 & H2 & H3 & H4 & H5 & H6). exists (nr / 2), (nc / 2). assert (E1 : nr = 2 * (nr / 2)) by lia. assert (E2 : nc = 2 * (nc / 2)) by lia.
  split; [exact E1|]. split; [exact E2|]. split; [lia|]. split; [lia|].
  assert (P : (0 < / 2 ^ 700)%R) by (apply Rinv_0_lt_compat, pow_lt; lra).
  split; [|split; [split; [lra|]|]].
  - apply Rle_trans with (uu * / 2 ^ 700)%R; [unfold uu; rewrite <- (bpow_neg 700), <- !bpow_plus; apply bpow_le; lia|]. apply Rmult_le_compat_l; [|exact H5]. pose proof uu_small; lra.
  - eapply Rle_trans; [exact H6|]. rewrite <- bpow2_pow. apply bpow_le. lia.
  - rewrite E1 at 2. rewrite E2 at 2. rewrite !mult_IZR. split; field.
Qed.
Lemma bounded_gpc F z : bounded F z -> gpc F 0 z (cvalue z).
Proof.
  intros (D1 & F1 & B1 & D2 & F2 & B2). split; (split; [assumption|]); (split; [now apply finite_fin|]); (split; [assumption|]); unfold cvalue; cbn [fst snd]; rewrite Rminus_eq_0, Rabs_R0; lra.
Qed.
Lemma gpc_within B e e' z c : gpc B e z c -> (e <= e')%R -> within e' z c.
Proof. intros ((D1 & F1 & _ & E1) & (D2 & F2 & _ & E2)) He. unfold within. repeat split; auto using fin_finite; lra. Qed.
Lemma arr_gpc nr nc F a : 0 <= nr -> 0 <= nc -> bounded_array nr nc F a -> forall p q, 0 <= p < nr -> 0 <= q < nc -> gpc F 0 (fget nc a p q) (cvalue (vget cf0 a (p * nc + q))).
Proof. intros Hr Hc [L H] p q Hp Hq. apply bounded_gpc. apply H. nia. Qed.
Lemma near_intro nr nc tol g G : 0 <= nr -> 0 <= nc -> (forall p q, 0 <= p < nr -> 0 <= q < nc -> within (tol p) (g p q) (G p q)) ->
  near_array nr nc tol (fmake nr nc g) (mmake RN nr nc G).
Proof.
  intros Hr Hc H. split; [unfold fmake; rewrite zlen_vmake; nia|]. split; [reflexivity|]. split; [reflexivity|]. intros p q Hp Hq.
  change (vget cf0 (fmake nr nc g) (p * nc + q)) with (fget nc (fmake nr nc g) p q). change (mget RN (mmake RN nr nc G) p q) with (cget (mmake RN nr nc G) p q).
  rewrite fget_fmake, cget_mmake by auto. auto.
Qed.
Lemma below_freq L p : 0 <= p < 2 * L -> below_half (2 * L) p = IZR (L - freq L p) /\ (1 <= IZR (L - freq L p))%R.
Proof.
  intros Hp. unfold below_half, row_frequency, freq. replace (2 * L / 2) with L by lia. split.
  - apply f_equal. destruct (Z.ltb_spec p L); lia.
  - apply IZR_le. destruct (Z.ltb_spec p L); lia.
Qed.

(** ** C82 *)
(** the derivatives in theta and phi *)
Theorem C82_derivatives_accurate : forall nrows ncols F a, sizes_ok nrows ncols F -> bounded_array nrows ncols F a ->
  (exists b A, f_dtheta_fc nrows ncols a = Ok b /\ dtheta_fc (array_values nrows ncols a) = Ok A /\
    near_array nrows ncols (fun _ => (IZR nrows / 2 + 1) * F / 2 ^ 53)%R b A) /\
  (exists b A, f_dphi_fc nrows ncols a = Ok b /\ dphi_fc (array_values nrows ncols a) = Ok A /\
    near_array nrows ncols (fun _ => (IZR ncols / 2 + 1) * F / 2 ^ 53)%R b A).
Proof.
  intros nr nc F a S Ha. destruct (sizes_core _ _ _ S) as (L & B & -> & -> & HL & HB & Hm & HF & EL & EB). rewrite <- EL, <- EB.
  assert (B8 : (bpow radix2 850 <= bpow radix2 860)%R) by (apply bpow_le; lia).
  pose proof (arr_fmake (2 * L) (2 * B) a ltac:(lia) ltac:(lia) (proj1 Ha)) as Ea. pose proof (arr_gpc (2 * L) (2 * B) F a ltac:(lia) ltac:(lia) Ha) as N. split.
  - destruct (dtheta_sim L (2 * B) _ _ F 0 ltac:(lia) ltac:(lia) Hm ltac:(lra) ltac:(lra) N) as (g & G & E1 & E2 & H). rewrite <- Ea in E1. eexists _, _. split; [exact E1|]. split; [exact E2|].
    apply near_intro; try lia. intros p q Hp Hq. eapply gpc_within; [exact (H p q Hp Hq)|]. rewrite uu_pow. lra.
  - destruct (dphi_sim (2 * L) B _ _ F 0 ltac:(lia) ltac:(lia) Hm ltac:(lra) ltac:(lra) N) as (g & G & E1 & E2 & H). rewrite <- Ea in E1. eexists _, _. split; [exact E1|]. split; [exact E2|].
    apply near_intro; try lia. intros p q Hp Hq. eapply gpc_within; [exact (H p q Hp Hq)|]. rewrite uu_pow. lra.
Qed.
Print Assumptions C82_derivatives_accurate.

(** division by sin theta: the recursion over the rows adds up to nr/2 terms, and the bound grows with their number squared *)
Theorem C82_divsin_accurate : forall nrows ncols F a, sizes_ok nrows ncols F -> bounded_array nrows ncols F a ->
  exists b A, f_divsin_fc nrows ncols a = Ok b /\ divsin_fc (array_values nrows ncols a) = Ok A /\
    near_array nrows ncols (fun p => 2 * (below_half nrows p) ^ 2 * F / 2 ^ 53)%R b A.
Proof.
  intros nr nc F a S Ha. destruct (sizes_core _ _ _ S) as (L & B & -> & -> & HL & HB & Hm & HF & EL & EB).
  assert (B8 : (bpow radix2 850 <= bpow radix2 890)%R) by (apply bpow_le; lia).
  pose proof (arr_fmake (2 * L) (2 * B) a ltac:(lia) ltac:(lia) (proj1 Ha)) as Ea. pose proof (arr_gpc (2 * L) (2 * B) F a ltac:(lia) ltac:(lia) Ha) as N.
  destruct (divsin_sim L (2 * B) _ _ F 0 ltac:(lia) ltac:(lia) Hm ltac:(lra) ltac:(lra) N) as (g & G & E1 & E2 & H). rewrite <- Ea in E1. eexists _, _. split; [exact E1|]. split; [exact E2|].
  apply near_intro; try lia. intros p q Hp Hq. destruct (below_freq L p Hp) as [-> Ht]. eapply gpc_within; [exact (H p q Hp Hq)|]. unfold re. rewrite uu_pow. right. field.
Qed.
Print Assumptions C82_divsin_accurate.

(** multiplying by sin theta and dividing again, both in doubles *)
Theorem C82_divsin_undoes_sin : forall nrows ncols F a, sizes_ok nrows ncols F -> bounded_array nrows ncols F a ->
  row_free (array_values nrows ncols a) (nrows / 2 - 1) -> row_free (array_values nrows ncols a) (nrows / 2) -> row_free (array_values nrows ncols a) (- (nrows / 2 - 1)) ->
  exists s b, f_sin_fc nrows ncols a = Ok s /\ f_divsin_fc nrows ncols s = Ok b /\
    near_array nrows ncols (fun p => 8 * (below_half nrows p) ^ 2 * F / 2 ^ 53)%R b (array_values nrows ncols a).
Proof.
  intros nr nc F a S Ha F1 F2 F3. destruct (sizes_core _ _ _ S) as (L & B & -> & -> & HL & HB & Hm & HF & EL & EB). replace (2 * L / 2) with L in * by lia.
  assert (B9 : (bpow radix2 860 = 1024 * bpow radix2 850)%R). { change 860 with (10 + 850). rewrite bpow_plus. reflexivity. }
  assert (B10 : (bpow radix2 890 = 1073741824 * bpow radix2 860)%R). { change 890 with (30 + 860). rewrite bpow_plus. reflexivity. }
  pose proof uu_small as [U0 U1]. assert (w : (0 <= uu * F)%R) by (apply Rmult_le_pos; lra).
  pose proof (arr_fmake (2 * L) (2 * B) a ltac:(lia) ltac:(lia) (proj1 Ha)) as Ea. pose proof (arr_gpc (2 * L) (2 * B) F a ltac:(lia) ltac:(lia) Ha) as N.
  destruct (sin_sim L (2 * B) _ _ F 0 ltac:(lia) ltac:(lia) Hm ltac:(lra) ltac:(lra) N) as (h & H0 & E1 & E2 & H1). rewrite <- Ea in E1. fold (array_values (2 * L) (2 * B) a) in E2.
  destruct (divsin_sim L (2 * B) h H0 (2 * F) (0 + 4 * uu * F) ltac:(lia) ltac:(lia) ltac:(lra) ltac:(lra) ltac:(lra) H1) as (g & G & E3 & E4 & H).
  assert (E5 : divsin_fc (mmake RN (2 * L) (2 * B) H0) = Ok (array_values (2 * L) (2 * B) a)).
  { apply (C51_divsin_inverts (array_values (2 * L) (2 * B) a) _ L B); auto; try lia. apply mmake_wf; lia. }
  rewrite E5 in E4. apply Ok_inj in E4. rewrite E4.
  eexists _, _. split; [exact E1|]. split; [exact E3|]. apply near_intro; try lia. intros p q Hp Hq. destruct (below_freq L p Hp) as [-> Ht].
  eapply gpc_within; [exact (H p q Hp Hq)|]. unfold re. rewrite <- uu_pow'. set (t := IZR (L - freq L p)) in *. clearbody t.
  assert (uu * F * t <= uu * F * (t * t))%R by (apply Rmult_le_compat_l; [exact w|]; rewrite <- (Rmult_1_r t) at 1; apply Rmult_le_compat_l; lra).
  replace (8 * t ^ 2 * F * uu)%R with (8 * (uu * F * (t * t)))%R by ring. replace (2 * uu * (2 * F) * (t * t) + t * (0 + 4 * uu * F))%R with (4 * (uu * F * (t * t)) + 4 * (uu * F * t))%R by ring. lra.
Qed.
Print Assumptions C82_divsin_undoes_sin.

(** L_fc, the operator of the inverse vector transform: its two components *)
Theorem C82_L_accurate : forall nrows ncols F a, sizes_ok nrows ncols F -> bounded_array nrows ncols F a ->
  exists b1 b2 A1 A2, f_L_fc nrows ncols a = Ok (b1, b2) /\ L_fc (array_values nrows ncols a) = Ok (A1, A2) /\
    near_array nrows ncols (fun p => 3 * (below_half nrows p) ^ 2 * (IZR ncols / 2 + 1) * F / 2 ^ 53)%R b1 A1 /\
    near_array nrows ncols (fun _ => (IZR nrows / 2 + 1) * F / 2 ^ 53)%R b2 A2.
Proof.
  intros nr nc F a S Ha. destruct (sizes_core _ _ _ S) as (L & B & -> & -> & HL & HB & Hm & HF & EL & EB). rewrite <- EL, <- EB.
  assert (B8 : (bpow radix2 850 <= bpow radix2 860)%R) by (apply bpow_le; lia). pose proof uu_small as [U0 U1].
  assert (LB : (1 <= IZR B)%R) by (apply IZR_le; lia). assert (w : (0 <= uu * ((IZR B + 1) * F))%R) by (apply Rmult_le_pos; [lra|apply Rmult_le_pos; lra]).
  pose proof (arr_fmake (2 * L) (2 * B) a ltac:(lia) ltac:(lia) (proj1 Ha)) as Ea. pose proof (arr_gpc (2 * L) (2 * B) F a ltac:(lia) ltac:(lia) Ha) as N.
  destruct (L_sim L B _ _ F 0 ltac:(lia) ltac:(lia) Hm ltac:(lra) ltac:(lra) N) as (g1 & g2 & G1 & G2 & E1 & E2 & H). rewrite <- Ea in E1.
  eexists _, _, _, _. split; [exact E1|]. split; [exact E2|]. split; apply near_intro; try lia; intros p q Hp Hq; destruct (H p q Hp Hq) as [H1 H2].
  - destruct (below_freq L p Hp) as [-> Ht]. eapply gpc_within; [exact H1|]. unfold re. rewrite <- uu_pow'. set (t := IZR (L - freq L p)) in *. clearbody t. set (F1 := ((IZR B + 1) * F)%R) in *.
    assert (uu * F1 * t <= uu * F1 * (t * t))%R by (apply Rmult_le_compat_l; [exact w|]; rewrite <- (Rmult_1_r t) at 1; apply Rmult_le_compat_l; lra).
    replace (3 * t ^ 2 * (IZR B + 1) * F * uu)%R with (3 * (uu * F1 * (t * t)))%R by (unfold F1; ring). replace (2 * uu * F1 * (t * t) + t * (IZR B * 0 + uu * F1))%R with (2 * (uu * F1 * (t * t)) + uu * F1 * t)%R by ring. lra.
  - eapply gpc_within; [exact H2|]. rewrite <- uu_pow'. right. ring.
Qed.
Print Assumptions C82_L_accurate.

(** sinLdot_fc, the operator of the vector transform *)
Theorem C82_sinLdot_accurate : forall nrows ncols F t p, sizes_ok nrows ncols F -> bounded_array nrows ncols F t -> bounded_array nrows ncols F p ->
  exists b A, f_sinLdot_fc nrows ncols t p = Ok b /\ sinLdot_fc (array_values nrows ncols t) (array_values nrows ncols p) = Ok A /\
    near_array nrows ncols (fun _ => (IZR ncols + 4 * IZR nrows + 6) * F / 2 ^ 53)%R b A.
Proof.
  intros nr nc F t p S Ht Hp. destruct (sizes_core _ _ _ S) as (L & B & -> & -> & HL & HB & Hm & HF & EL & EB). pose proof uu_small as [U0 U1].
  assert (LB : (1 <= IZR B)%R) by (apply IZR_le; lia).
  pose proof (arr_fmake (2 * L) (2 * B) t ltac:(lia) ltac:(lia) (proj1 Ht)) as Et. pose proof (arr_gpc (2 * L) (2 * B) F t ltac:(lia) ltac:(lia) Ht) as Nt.
  pose proof (arr_fmake (2 * L) (2 * B) p ltac:(lia) ltac:(lia) (proj1 Hp)) as Ep. pose proof (arr_gpc (2 * L) (2 * B) F p ltac:(lia) ltac:(lia) Hp) as Np.
  destruct (sinLdot_sim L B _ _ _ _ F 0 ltac:(lia) ltac:(lia) Hm ltac:(lra) ltac:(lra) Nt Np) as (g & G & E1 & E2 & H). rewrite <- Et, <- Ep in E1.
  eexists _, _. split; [exact E1|]. split; [exact E2|]. apply near_intro; try lia. intros i j Hi Hj. eapply gpc_within; [exact (H i j Hi Hj)|]. rewrite <- uu_pow', !mult_IZR. 
  apply Req_le. ring.
Qed.
Print Assumptions C82_sinLdot_accurate.

(** ** The hypotheses are met: six rows and four columns, rows 0, 1 and -1 filled *)
Definition ex_arr : list cf := vmake 24 (fun i => if (8 <=? i) && (i <? 20) then cf0 else (fofZ i, fofZ (-1))).
Lemma ex_arr_bounded : bounded_array 6 4 32 ex_arr.
Proof.
  split; [reflexivity|]. intros i Hi. unfold ex_arr. rewrite vget_vmake by lia.
  destruct (fofZ_small 0) as (D0 & F0 & E0); [lia|]. destruct (fofZ_small i) as (D1 & F1 & E1); [lia|]. destruct (fofZ_small (-1)) as (D2 & F2 & E2); [lia|].
  assert (Q : (Rabs (IZR i) <= 32)%R) by (rewrite <- abs_IZR; apply IZR_le; lia). assert (Q2 : (Rabs (-1) <= 32)%R) by (rewrite Rabs_left; lra).
  destruct ((8 <=? i) && (i <? 20)); unfold bounded, cf0; cbn [fst snd]; rewrite ?E0, ?E1, ?E2, ?Rabs_R0; (repeat split); auto using fin_finite; lra.
Qed.
Lemma ex_arr_sizes : sizes_ok 6 4 32. Proof. unfold sizes_ok. repeat split; try lia; lra. Qed.
Lemma ex_arr_free k : 2 <= k mod 6 <= 4 -> row_free (array_values 6 4 ex_arr) k.
Proof.
  intros Hk j Hj. change (mt_nr RN (array_values 6 4 ex_arr)) with 6. change (mt_nc RN (array_values 6 4 ex_arr)) with 4 in Hj. unfold array_values.
  rewrite mget_mmake by lia. unfold ex_arr. rewrite vget_vmake by lia.
  destruct (Z.leb_spec 8 (k mod 6 * 4 + j)); [|lia]. destruct (Z.ltb_spec (k mod 6 * 4 + j) 20); [|lia]. cbn [andb]. unfold cvalue, cf0. cbn [fst snd].
  destruct (fofZ_small 0) as (_ & _ & E0); [lia|]. now rewrite E0.
Qed.
Example C82_nonvacuous :
  (exists b1 b2, f_L_fc 6 4 ex_arr = Ok (b1, b2)) /\ (exists b, f_sinLdot_fc 6 4 ex_arr ex_arr = Ok b) /\ (exists b, f_dtheta_fc 6 4 ex_arr = Ok b) /\
  (exists s b, f_sin_fc 6 4 ex_arr = Ok s /\ f_divsin_fc 6 4 s = Ok b /\ within (32 * 32 / 2 ^ 53) (vget cf0 b 4) (4, -1)%R).
Proof.
  destruct (C82_L_accurate 6 4 32 ex_arr ex_arr_sizes ex_arr_bounded) as (b1 & b2 & _ & _ & E & _).
  destruct (C82_sinLdot_accurate 6 4 32 ex_arr ex_arr ex_arr_sizes ex_arr_bounded ex_arr_bounded) as (b3 & _ & E3 & _).
  destruct (C82_derivatives_accurate 6 4 32 ex_arr ex_arr_sizes ex_arr_bounded) as [(b4 & _ & E4 & _) _].
  destruct (C82_divsin_undoes_sin 6 4 32 ex_arr ex_arr_sizes ex_arr_bounded) as (s & b & E5 & E6 & _ & _ & _ & N); try (apply ex_arr_free; cbn; lia).
  split; [eauto|]. split; [eauto|]. split; [eauto|]. exists s, b. split; [exact E5|]. split; [exact E6|].
  specialize (N 1 0 ltac:(lia) ltac:(lia)). unfold array_values in N. rewrite mget_mmake in N by lia. change (1 * 4 + 0) with 4 in N.
  unfold ex_arr in N at 1. rewrite vget_vmake in N by lia. change ((8 <=? 4) && (4 <? 20)) with false in N. cbn iota in N. unfold cvalue in N. cbn [fst snd] in N.
  destruct (fofZ_small 4) as (_ & _ & E1); [lia|]. destruct (fofZ_small (-1)) as (_ & _ & E2); [lia|]. rewrite E1, E2 in N.
  replace (below_half 6 1) with 2%R in N by (unfold below_half, row_frequency; reflexivity). replace (8 * 2 ^ 2 * 32 / 2 ^ 53)%R with (32 * 32 / 2 ^ 53)%R in N by field. exact N.
Qed.
