(** * P_VerifyFile: C57, the comparisons of verify.py started from files. *)
From Coq Require Import ZArith List String Bool Lia Reals Lra.
From Coquelicot Require Import Coquelicot.
From Flocq Require Import Core BinarySingleNaN.
From Verif Require Import Py PyFacts Num Exact MCoefs SpecCoefs Obs CoefsFacts CoefsFacts2 CoefsFacts3 MPatt SpecPatt PattFacts
  MPysphi MTrans FloatN MText MFile SpecFile FileFacts P_File MVerify.
Import ListNotations.
Open Scope Z_scope.

(** ** From the files *)
Lemma same64_real a b : same64 a b -> SF2R radix2 a = SF2R radix2 b.
Proof. intros [->|(s & t & -> & ->)]; reflexivity. Qed.
Lemma same_c_real a b : same_c a b -> real_c a = real_c b.
Proof. intros [H1 H2]. apply injective_projections; [exact (same64_real _ _ H1)|exact (same64_real _ _ H2)]. Qed.
Lemma vget_map_real v i : vget (RtoC 0) (map real_c v) i = real_c (vget (c0 FN) v i).
Proof.
  unfold vget. destruct (i <? 0); [reflexivity|]. apply (map_nth real_c v (c0 FN) (Z.to_nat i)).
Qed.
Lemma zlen_map {A B} (g : A -> B) v : zlen (map g v) = zlen v.
Proof. unfold zlen. now rewrite map_length. Qed.
Lemma real_coefs_valid c : valid FN c -> valid RN (real_coefs c).
Proof.
  intros V. pose proof (valid_sizes c V) as [Hm L]. apply valid_wf. split; [exact Hm|].
  unfold real_coefs. cbn [sc_vec sc_nmax sc_mmax]. rewrite zlen_map. exact L.
Qed.
Lemma real_coefs_reads c n m x : valid FN c -> reads FN c n m x -> reads RN (real_coefs c) n m (real_c x).
Proof.
  intros V R. pose proof (reads_mode _ _ _ _ _ R) as M. apply reads_inv in R as [_ ->]; auto.
  pose proof (reads_cval RN (real_coefs c) n m (real_coefs_valid c V) M) as Q.
  assert (E : cval RN (real_coefs c) n m = real_c (cval FN c n m)) by (exact (vget_map_real (sc_vec FN c) (pos (sc_nmax FN c) n m))).
  rewrite E in Q. exact Q.
Qed.

Lemma saved_real c : valid FN c -> fin_coefs c ->
  exists file c', save_coef c = Ok file /\ load_coef file = Ok c' /\ real_coefs c' = real_coefs c.
Proof.
  intros V F. pose proof (valid_sizes c V) as [Hm L].
  destruct (C37_coef_roundtrip c V F) as (file & c' & S & E & V' & N1 & N2 & R). exists file, c'. split; [exact S|]. split; [exact E|].
  unfold real_coefs. rewrite N1, N2. f_equal. pose proof (valid_sizes c' V') as [_ L']. rewrite N1, N2 in L'.
  apply (vget_ext (RtoC 0)); rewrite !zlen_map; [congruence|]. intros i Hi. rewrite !vget_map_real. apply same_c_real.
  rewrite L' in Hi. destruct (pos_surj (sc_nmax FN c) (sc_mmax FN c) i Hm Hi) as (n & m & M & <-).
  destruct (R n m _ (reads_cval FN c n m V M)) as (y & Ry & Sy). apply reads_inv in Ry as [_ ->]; auto.
  unfold cval in Sy. rewrite N1 in Sy. exact Sy.
Qed.

(** A coefficient file written by save_coef enters the comparisons with
    exactly the values that were saved: reading it back loses nothing. *)
Theorem C57_saved_coefficients : forall c : scoefs FN, valid FN c -> fin_coefs c ->
  exists file, save_coef c = Ok file /\ valid RN (real_coefs c) /\
    (forall n m x, reads FN c n m x -> reads RN (real_coefs c) n m (SF2R radix2 (fst x), SF2R radix2 (snd x))) /\
    (forall be pattfile d, load_patt pattfile = Ok d ->
       verify_spht_files be pattfile file = verify_spht be (real_patt d) (real_coefs c) /\
       verify_ispht_files be pattfile file = verify_ispht be (real_patt d) (real_coefs c)) /\
    (forall junkr junki fdatafile d, load_fdata fdatafile = Ok d ->
       verify_fdata_files junkr junki fdatafile file = verify_fdata junkr junki (real_patt d) (real_coefs c)).
Proof.
  intros c V F. destruct (saved_real c V F) as (file & c' & S & E & EQ). exists file. split; [exact S|].
  split; [now apply real_coefs_valid|]. split; [intros n m x Q; exact (real_coefs_reads c n m x V Q)|]. split.
  - intros be pf d Ed. unfold verify_spht_files, verify_ispht_files. rewrite E, Ed. cbn [bind]. now rewrite EQ.
  - intros jr ji ff d Ed. unfold verify_fdata_files. rewrite E, Ed. cbn [bind]. now rewrite EQ.
Qed.
Print Assumptions C57_saved_coefficients.

Theorem C57_saved_vector_coefficients : forall c1 c2 : scoefs FN, valid FN c1 -> fin_coefs c1 -> valid FN c2 -> fin_coefs c2 ->
  exists file1 file2, save_coef c1 = Ok file1 /\ save_coef c2 = Ok file2 /\
    forall be pattf1 pattf2 d, load_vpatt pattf1 pattf2 = Ok d ->
      verify_vspht_files be pattf1 pattf2 file1 file2 = verify_vspht be (real_tpatt d) (real_coefs c1) (real_coefs c2) /\
      verify_vispht_files be pattf1 pattf2 file1 file2 = verify_vispht be (real_tpatt d) (real_coefs c1) (real_coefs c2).
Proof.
  intros c1 c2 V1 F1 V2 F2. destruct (saved_real c1 V1 F1) as (f1 & c1' & S1 & E1 & EQ1). destruct (saved_real c2 V2 F2) as (f2 & c2' & S2 & E2 & EQ2).
  exists f1, f2. split; [exact S1|]. split; [exact S2|]. intros be p1 p2 d Ed.
  unfold verify_vspht_files, verify_vispht_files. rewrite Ed, E1, E2. cbn [bind]. now rewrite EQ1, EQ2.
Qed.
Print Assumptions C57_saved_vector_coefficients.

(** Non-vacuity: the coefficient set of C37's example, and a saved pattern
    that loads. *)
Example C57_files_nonvacuous : valid FN c37_example /\ fin_coefs c37_example /\
  exists pattfile d, save_patt c38_patt = Ok pattfile /\ load_patt pattfile = Ok d.
Proof.
  split; [apply C37_nonvacuous|]. split; [apply C37_nonvacuous|].
  destruct C38_nonvacuous as (W & H & F & _). destruct (C38_load_patt_roundtrip c38_patt W H F) as (f & d & A & B & _). exists f, d. exact (conj A B).
Qed.
