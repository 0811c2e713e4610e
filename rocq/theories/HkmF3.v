(** * HkmF3: the whole of fc_to_sc in double precision follows the sums of MDouble. *)
From Coq Require Import ZArith List Bool SpecFloat Reals Lia Lra Psatz Permutation Znumtheory.
From Coquelicot Require Import Complex.
From Flocq Require Import Core.Core IEEE754.BinarySingleNaN.
From Verif Require Import Py PyFacts Num FloatN FloatText Exact MCoefs Sums Smooth MPysphi Dft PysphiFacts TransFacts MKiss KissFacts KissFacts2 MCsphi CsphiFacts MDouble FlFacts SeedReal SeedFl SeedFl2 DoubleFacts FlSigned SbesselFTerm SbesselFRel SbesselFFun TabFl SumFl SumFl2 SumFl3 MKissF KissFl KissFl2 KissFl3 KissFl4 KissFl5 KissFl6 MCsphiF HkmF HkmF2.
Import ListNotations.
Open Scope list_scope.
Open Scope Z_scope.

Lemma mfor_sim {A B} (R : A -> B -> Prop) l (f : Z -> A -> res A) (g : Z -> B -> res B) :
  (forall i a b b', In i l -> R a b -> g i b = Ok b' -> exists a', f i a = Ok a' /\ R a' b') ->
  forall a b b', R a b -> mfor l g b = Ok b' -> exists a', mfor l f a = Ok a' /\ R a' b'.
Proof.
  induction l as [|i l IH]; intros H a b b' HR E.
  - cbn [mfor] in *. injection E as <-. exists a. split; auto.
  - cbn [mfor] in *. destruct (g i b) as [b1|] eqn:Eg; [|discriminate E]. cbn [bind] in E.
    destruct (H i a b b1 (or_introl eq_refl) HR Eg) as (a1 & Ef & HR1). rewrite Ef. cbn [bind].
    apply (IH (fun i a b b' h => H i a b b' (or_intror h)) a1 b1 b' HR1 E).
Qed.

Section Sim.
Variables (cosf sinf : f64 -> f64) (junk : Z -> cf) (junkr : Z -> f64) (junki : Z -> Z) (fdata : list cf) (Nrow Ncol Nmax Mmax Q : Z) (s0 S : list cf) (fw bw : kcfgf) (hk : Z -> list cf).
Hypothesis EQ : FindQ (Nrow + Nmax) = Ok Q.
Hypothesis HQ : 0 <= Q.
Hypothesis HN : 0 <= Nmax.
Hypothesis ES : SDataF (vmake Q junk) Q Nrow Nmax = Ok s0.
Hypothesis Efw : ff_alloc cosf sinf Q false = Ok fw.
Hypothesis Ebw : ff_alloc cosf sinf Q true = Ok bw.
Hypothesis ESS : ff_fft_inplace junk fw s0 = Ok S.
Hypothesis Hhk : forall m, Z.abs m <= Mmax -> zlen (hk m) = Nmax + 1 /\ forall hkm ff, zlen hkm = Nmax + 1 -> zlen ff = Q ->
  exists ff', ff_hkm_fc junk fdata Nrow Ncol Nmax m hkm (Nmax + 1) S Q ff fw bw = Ok (hk m, ff') /\ zlen ff' = Q.
Definition Rst (a : list cf * list cf * list cf * list f64) (b : list cf * list f64) : Prop :=
  let '(sc, ff, hkm, y) := a in b = (sc, y) /\ zlen ff = Q /\ zlen hkm = Nmax + 1.
Lemma bnm_sim m off a b b' : Z.abs m <= Mmax -> Rst a b -> fc_bnm (hk m) Nmax m off (Nmax + 1) b = Ok b' ->
  exists a', ff_bnm_fc junk fdata Nrow Ncol Nmax m off S Q (Nmax + 1) (Nmax + 1) fw bw a = Ok a' /\ Rst a' b'.
Proof.
  intros Hm. destruct a as [[[sc ff] hkm] y]. intros (-> & Lf & Lh) E. destruct (Hhk m Hm) as (Lk & H). destruct (H hkm ff Lh Lf) as (ff' & Eh & Lf').
  unfold ff_bnm_fc. rewrite Eh. cbn [bind]. rewrite E. cbn [bind]. eexists. split; [reflexivity|]. unfold Rst. destruct b' as [sc' y']. cbn [fst snd]. auto.
Qed.
Lemma fc_sim sc c : 0 <= Mmax -> fc_fc_to_sc hk junkr junki sc Nmax Mmax = Ok c -> ff_fc_to_sc cosf sinf junk junkr junki fdata Nrow Ncol sc Nmax Mmax = Ok c.
Proof.
  intros HM E. unfold ff_fc_to_sc. rewrite EQ. cbn [bind]. rewrite ES. cbn [bind]. rewrite Efw, Ebw. cbn [bind]. rewrite ESS. cbn [bind].
  unfold fc_fc_to_sc in E. destruct (c_inds Nmax Mmax junki) as [inds|]; [|discriminate E]. cbn [bind] in *.
  destruct (fc_bnm (hk 0) Nmax 0 0 (Nmax + 1) (sc, vmake (Nmax + 1) junkr)) as [b0|] eqn:E0; [|discriminate E]. cbn [bind] in E.
  destruct (bnm_sim 0 0 (sc, vmake Q junk, vmake (Nmax + 1) junk, vmake (Nmax + 1) junkr) (sc, vmake (Nmax + 1) junkr) b0) as (a0 & -> & R0); [lia| |exact E0|].
  { split; [reflexivity|]. split; apply zlen_vmake'; lia. }
  cbn [bind]. match type of E with bind ?x _ = _ => destruct x as [b1|] eqn:E1; [|discriminate E] end. cbn [bind] in E. injection E as <-.
  match goal with |- bind (mfor ?l ?f ?a) _ = _ => match type of E1 with mfor _ ?g _ = _ =>
    assert (H1 : exists a1, mfor l f a = Ok a1 /\ Rst a1 b1); [refine (mfor_sim Rst l f g _ a b0 b1 R0 E1)|] end end.
  - intros m a b b' Hm R Eg. apply In_zrange in Hm.
    destruct (ibget inds (2 * m - 1)) as [pt|]; [|discriminate Eg]. cbn [bind] in *.
    destruct (fc_bnm (hk (- m)) Nmax (- m) pt (Nmax + 1) b) as [b2|] eqn:E2; [|discriminate Eg]. cbn [bind] in Eg.
    destruct (bnm_sim (- m) pt a b b2) as (a2 & -> & R2); [lia|exact R|exact E2|]. cbn [bind].
    destruct (ibget inds (2 * m)) as [pt2|]; [|discriminate Eg]. cbn [bind] in *.
    apply (bnm_sim m pt2 a2 b2 b'); [lia|exact R2|exact Eg].
  - destruct H1 as (a1 & -> & R1). cbn [bind]. destruct a1 as [[[sc1 ff1] hkm1] y1]. destruct R1 as (-> & _). reflexivity.
Qed.
End Sim.
