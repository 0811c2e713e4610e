(** * MVerify: model of spherepy/verify.py

    The routines compare a transform computed by spherepy with one stored in
    files.  The values are read by the model of file.py (binary64) and then
    taken as exact reals, as in the other transform models.  Division of two
    numpy floats does not raise: 0/0 is nan and x/0 is inf; both are [None]
    here. *)
From Coq Require Import ZArith List String Bool Reals.
From Coquelicot Require Import Coquelicot.
From Flocq Require Import Core BinarySingleNaN.
From Verif Require Import Py Num Exact MCoefs MPatt FloatN MPysphi MTrans MCsphi MText MFile.
Import ListNotations.
Open Scope Z_scope.

(** The figures a verify routine returns: L2, LInf, relative L2, relative LInf. *)
Record figures : Type := mkFig { fg_l2 : R; fg_linf : R; fg_rl2 : option R; fg_rlinf : option R }.

(** numpy float64 division: None for nan or inf *)
Definition np_ratio (a b : R) : option R := if reqb RN b 0%R then None else Some (a / b)%R.

(** [a - b] of two patterns, as a pattern *)
Definition sp_minus (a b : mat RN) : res (mat RN) :=
  r <- sp_op_left RN OpSub a (SPndP RN b) ;;
  match r with PHolds d => Ok d | PExc => Raise (TypeError "pattern holding an exception") end.

(** verify.py:50-60 verify_spht, after the two files have been loaded *)
Definition verify_spht (be : backend) (fpatt : mat RN) (fsc : scoefs RN) : res figures :=
  sc <- spht be fpatt (Some (sc_nmax RN fsc)) (Some (sc_mmax RN fsc)) ;;
  diff <- sc_op_left RN OpSub fsc (OpndSC RN sc) ;;
  di <- LInf_coef_s RN diff ;;
  fi <- LInf_coef_s RN fsc ;;
  Ok (mkFig (L2_coef_s RN diff) di (np_ratio (L2_coef_s RN diff) (L2_coef_s RN fsc)) (np_ratio di fi)).

(** verify.py:62-72 verify_ispht *)
Definition verify_ispht (be : backend) (fpatt : mat RN) (fsc : scoefs RN) : res figures :=
  patt <- ispht be fsc (Some (p_nrows RN fpatt)) (Some (p_ncols RN fpatt)) ;;
  diff <- sp_minus fpatt patt ;;
  di <- LInf_patt_s RN diff ;;
  fi <- LInf_patt_s RN fpatt ;;
  Ok (mkFig (L2_patt_s RN diff) di (np_ratio (L2_patt_s RN diff) (L2_patt_s RN fpatt)) (np_ratio di fi)).

(** verify.py:74-82 verify_fdata: always through the C extension; ffdata is a
    zero array of fdata's shape, filled in place. *)
Definition verify_fdata (junkr : Z -> R) (junki : Z -> Z) (fdata : mat RN) (fsc : scoefs RN) : res R :=
  ffdata <- MPysphi.np_zeros2 (mt_nr RN fdata) (mt_nc RN fdata) ;;
  ff <- c_sc_to_fc junkr junki (mt_dat RN ffdata) (mt_nr RN fdata) (mt_nc RN fdata) (sc_vec RN fsc) (sc_nmax RN fsc) (sc_mmax RN fsc) ;;
  linf RN (mt_dat RN (mzip RN (csub RN) fdata (mkMat RN (mt_nr RN fdata) (mt_nc RN fdata) ff))).

(** verify.py:84-99 verify_vspht *)
Definition verify_vspht (be : backend) (vfpatt : tpatt RN) (fsc1 fsc2 : scoefs RN) : res figures :=
  vfsc <- vc_new RN (sc_vec RN fsc1) (sc_vec RN fsc2) (sc_nmax RN fsc1) (sc_mmax RN fsc1) ;;
  vsc <- vspht be vfpatt (Some (sc_nmax RN fsc1)) (Some (sc_mmax RN fsc1)) ;;
  diff <- vc_op_left RN OpSub vfsc (VOpndVC RN vsc) ;;
  di <- LInf_coef_v RN diff ;;
  fi <- LInf_coef_v RN vfsc ;;
  Ok (mkFig (L2_coef_v RN diff) di (np_ratio (L2_coef_v RN diff) (L2_coef_v RN vfsc)) (np_ratio di fi)).

(** verify.py:101-116 verify_vispht *)
Definition verify_vispht (be : backend) (vfpatt : tpatt RN) (fsc1 fsc2 : scoefs RN) : res figures :=
  vfsc <- vc_new RN (sc_vec RN fsc1) (sc_vec RN fsc2) (sc_nmax RN fsc1) (sc_mmax RN fsc1) ;;
  vpatt <- vispht be vfsc (Some (p_nrows RN (tp_t RN vfpatt))) (Some (p_ncols RN (tp_t RN vfpatt))) ;;
  diff <- tp_op_left RN OpSub vfpatt (TPndP RN vpatt) ;;
  di <- LInf_patt_v RN diff ;;
  fi <- LInf_patt_v RN vfpatt ;;
  Ok (mkFig (L2_patt_v RN diff) di (np_ratio (L2_patt_v RN diff) (L2_patt_v RN vfpatt)) (np_ratio di fi)).

(** ** With the files

    The real value of a binary64 (nan and the infinities, which the theorems
    exclude, are mapped to 0). *)
Definition real_c (z : fc) : C := (SF2R radix2 (fst z), SF2R radix2 (snd z)).
Definition real_coefs (c : scoefs FN) : scoefs RN := mkSC RN (map real_c (sc_vec FN c)) (sc_nmax FN c) (sc_mmax FN c).
Definition real_patt (d : mat FN) : mat RN := mkMat RN (mt_nr FN d) (mt_nc FN d) (map real_c (mt_dat FN d)).
Definition real_tpatt (p : tpatt FN) : tpatt RN := mkTP RN (real_patt (tp_t FN p)) (real_patt (tp_p FN p)).

(** verify.py:50-60 *)
Definition verify_spht_files (be : backend) (pattfile scoeffile : txt) : res figures :=
  fpatt <- load_patt pattfile ;; fsc <- load_coef scoeffile ;; verify_spht be (real_patt fpatt) (real_coefs fsc).
(** verify.py:62-72 *)
Definition verify_ispht_files (be : backend) (pattfile scoeffile : txt) : res figures :=
  fsc <- load_coef scoeffile ;; fpatt <- load_patt pattfile ;; verify_ispht be (real_patt fpatt) (real_coefs fsc).
(** verify.py:74-82 *)
Definition verify_fdata_files (junkr : Z -> R) (junki : Z -> Z) (fdatafile scoeffile : txt) : res R :=
  fsc <- load_coef scoeffile ;; fdata <- load_fdata fdatafile ;; verify_fdata junkr junki (real_patt fdata) (real_coefs fsc).
(** verify.py:84-99 *)
Definition verify_vspht_files (be : backend) (pattf1 pattf2 scoeff1 scoeff2 : txt) : res figures :=
  vfpatt <- load_vpatt pattf1 pattf2 ;; fsc1 <- load_coef scoeff1 ;; fsc2 <- load_coef scoeff2 ;;
  verify_vspht be (real_tpatt vfpatt) (real_coefs fsc1) (real_coefs fsc2).
(** verify.py:101-116 *)
Definition verify_vispht_files (be : backend) (pattf1 pattf2 scoeff1 scoeff2 : txt) : res figures :=
  vfpatt <- load_vpatt pattf1 pattf2 ;; fsc1 <- load_coef scoeff1 ;; fsc2 <- load_coef scoeff2 ;;
  verify_vispht be (real_tpatt vfpatt) (real_coefs fsc1) (real_coefs fsc2).
