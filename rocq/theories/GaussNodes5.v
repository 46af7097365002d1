(** Lemmas for C25: count, gamma and Dirichlet distributions, and the wrappers. *)
From Coq Require Import List Arith ZArith Lia Bool Reals Lra FunctionalExtensionality.
From Verif Require Import Base Shapes SpecShapes ShapesLemmas NumPy MiscArray TensorLemmas
  EinsumLemmas SumMultiplyLemmas SpecArray PlateSumLemmas PlateSum2Lemmas MessageLemmas
  ShapeOpsLemmas DiagLemmas ExpFam SpecExpFam ExpFamLemmas ExpFamBound ExpFamGrad PExpFam SpecUpdate
  UpdateLemmas PUpdate Families SpecFamilies FamiliesLemmas FamiliesLemmas2 PFamilies2 FamilyDist SpecFamilyDist PFamilyDist Network SpecNetwork NetworkLemmas NetworkLemmas2
  PNetwork MarkovLemmas FamilyNet SpecFamilyNet PFamilyNet Dot SpecDot DetNet SpecDetNet DetNetLemmas DetNetLemmas2
  Linalg MatBridge SpecLinalg LinalgLemmas Gaussian SpecGaussian GaussLemmas GaussAlg PGaussian PGaussian2 GaussGibbs GaussianDist PGaussianDist
  GaussNet SpecGaussNet PlateDet GaussTypes GaussNodes GaussNodes2 GaussNodes3 GaussNodes4.
Import ListNotations.
Open Scope R_scope.

Lemma kind_moments : forall lg psi k t, gamma_convex lg psi -> log_beta_convex lg psi -> kind_ok k -> (forall dims, k <> KConstant dims) ->
  fam_dims (e_fam (efam_of lg psi k)) = mt_dims t ->
  (forall phi, mt_par t phi -> ranges (mt_dims t) (strict k) phi) ->
  (forall u, ranges (mt_dims t) (moment_range k) u -> mt_mom t u) ->
  (forall phi, length phi = length (mt_dims t) -> mt_par t phi ->
    exists u g, fam_moments (e_fam (efam_of lg psi k)) phi = Ok (u, g) /\ length u = length (mt_dims t) /\ mt_mom t u) /\
  fam_gibbs (e_fam (efam_of lg psi k)) (mt_par t).
Proof.
  intros lg psi k t HG HB KO NC ED HS HM. pose proof (kind_gibbs lg psi k HG HB KO) as G.
  assert (Dm : forall phi, length phi = length (fam_dims (e_fam (efam_of lg psi k))) -> mt_par t phi -> kind_dom k phi).
  { intros phi L P. destruct (moments_total lg psi k phi KO NC L) as [KD _]; [rewrite ED; now apply HS|exact KD]. }
  split.
  - intros phi L P. rewrite <- ED in L. pose proof (HS phi P) as RS. rewrite <- ED in RS. destruct (moments_total lg psi k phi KO NC L RS) as (KD & u & g & E & RM).
    exists u, g. split; [exact E|]. rewrite <- ED. split; [apply (G phi phi u g u g L L KD KD E E)|]. apply HM. now rewrite <- ED.
  - intros phi phi' u g u' g' L L' P P' E E'. apply (G phi phi' u g u' g'); auto.
Qed.

Section Kinds.
Variables lg psi : R -> R.
Hypothesis HG : gamma_convex lg psi.
Hypothesis HB : log_beta_convex lg psi.

Lemma poisson_typed : fam_typed poisson_efam (MCounts [] None) [MGamma].
Proof.
  destruct (kind_moments lg psi KPoisson (MCounts [] None) HG HB I ltac:(discriminate) eq_refl) as [A B].
  { intros phi _ c d v _ _. now destruct c as [|[|c]]. }
  { intros u H v Hv. split; [|exact I]. exact (H 0%nat [] v eq_refl Hv). }
  constructor; try reflexivity; try assumption.
  - apply conj_on. exact (poisson_conjugate).
  - intros [|k] ty x ups Hk MO FM L X; [|destruct k; discriminate]. injection Hk as <-. break MO. list1 x.
    cbn [e_message poisson_efam mt_msg]. unfold coef. cbn. destruct (X env0 valid_env0) as [X0 _]. unfold coef in X0. cbn in X0. lra.
Qed.
Lemma binomial_typed : forall N, 0 < N -> fam_typed (binomial_efam N) (MCounts [] (Some N)) [MLogProb 2].
Proof.
  intros N HN. destruct (kind_moments lg psi (KBinomial N) (MCounts [] (Some N)) HG HB HN ltac:(discriminate) eq_refl) as [A B].
  { intros phi _ c d v _ _. now destruct c as [|[|c]]. }
  { intros u H v Hv. exact (H 0%nat [] v eq_refl Hv). }
  constructor; try reflexivity; try assumption.
  - apply conj_on. exact (binomial_conjugate N).
  - intros [|k] ty x ups Hk MO FM L X; [|destruct k; discriminate]. injection Hk as <-. break MO. list1 x.
    cbn [e_message binomial_efam mt_msg]. intros v Hv. destruct (X env0 valid_env0) as [X0 X1]. unfold coef in *. cbn in *. unfold of_vec, binomial_message.
    destruct (v 0%nat) as [|[|k]]; cbn; lra.
Qed.
Lemma multinomial_typed : forall N K, 0 < N -> (0 < K)%nat -> fam_typed (multinomial_efam N K) (MCounts [K] None) [MLogProb K].
Proof.
  intros N K HN HK. destruct (kind_moments lg psi (KMultinomial N K) (MCounts [K] None) HG HB (conj HN HK) ltac:(discriminate) eq_refl) as [A B].
  { intros phi _ c d v _ _. now destruct c as [|[|c]]. }
  { intros u H v Hv. split; [|exact I]. exact (H 0%nat [K] v eq_refl Hv). }
  constructor; try reflexivity; try assumption.
  - apply conj_on. exact (multinomial_conjugate N K).
  - intros [|k] ty x ups Hk MO FM L X; [|destruct k; discriminate]. injection Hk as <-. break MO. list1 x.
    cbn [e_message multinomial_efam mt_msg]. intros v Hv. destruct (X v Hv) as [X0 X1]. unfold coef in *. cbn in *. unfold of_vec, multinomial_message, as_vec.
    destruct (vec_index K v Hv) as [<- _]. exact X0.
Qed.
Lemma gamma_typed : fam_typed (gamma_efam lg psi) MGamma [MShape; MGamma].
Proof.
  destruct (kind_moments lg psi KGamma MGamma HG HB I ltac:(discriminate) eq_refl) as [A B].
  { intros phi [P0 P1] c d v Hd Hv. unfold coef in P0, P1. destruct c as [|[|c]]; cbn in Hd; [| |exact I]; injection Hd as <-; rewrite (valid_0d v Hv); assumption. }
  { intros u H. exact (H 0%nat [] env0 eq_refl valid_env0). }
  constructor; try reflexivity; try assumption.
  - apply conj_on. exact (gamma_conjugate lg psi).
  - intros k ty x ups Hk MO FM L X. break MO. list2 x. cbn [mt_mom] in *. unfold coef in *. cbn [nth] in *.
    destruct k as [|[|k]]; [| |destruct k; discriminate]; injection Hk as <-; [exact I|]. cbn. lra.
  - intros ups MO FM. break MO. cbn [mt_mom] in *. unfold coef in *. cbn [nth] in *. cbn. unfold coef. cbn. lra.
Qed.
Lemma dirichlet_typed : forall K, (0 < K)%nat -> fam_typed (dirichlet_efam lg psi K) (MLogProb K) [MConcentration K].
Proof.
  intros K HK. destruct (kind_moments lg psi (KDirichlet K) (MLogProb K) HG HB HK ltac:(discriminate) eq_refl) as [A B].
  { intros phi P c d v Hd Hv. destruct c as [|[|c]]; [|exact I|exact I]. cbn in Hd. injection Hd as <-. exact (P v Hv). }
  { intros u H. exact I. }
  constructor; try reflexivity; try assumption.
  - apply conj_on. exact (dirichlet_conjugate lg psi K).
  - intros [|k] ty x ups Hk MO FM L X; [|destruct k; discriminate]. injection Hk as <-. exact I.
  - intros ups MO FM. break MO. cbn [mt_par]. intros v Hv. unfold coef. cbn. unfold of_vec, dirichlet_phi. cbn [fst]. unfold as_vec.
    destruct (vec_index K v Hv) as [<- _]. 
    match goal with X : mt_mom (MConcentration K) _ |- _ => exact (X v Hv) end.
Qed.
End Kinds.

(** ** Wrappers *)
Definition tys (ty : nat -> mtype) : types := Types (fun i => mt_mom (ty i)) (fun i => mt_msg (ty i)) (fun i => mt_par (ty i)).
(** The conditions of [plate_typed] for kinds. *)
Record plate_kinds (P : plate_fn) (own : mtype) (pts : list mtype) : Prop := PlateKinds {
  pk_dims : pf_dims P = mt_dims own;
  pk_pdims : pf_pdims P = map mt_dims pts;
  pk_mom : forall ups, Forall2 (fun pd u => length u = length pd) (pf_pdims P) ups -> Forall2 mt_mom pts ups ->
    length (pf_moments P ups) = length (pf_dims P) /\ mt_mom own (pf_moments P ups);
  pk_msg : forall k t m ups, nth_error pts k = Some t ->
    Forall2 (fun pd u => length u = length pd) (pf_pdims P) ups -> Forall2 mt_mom pts ups ->
    length m = length (pf_dims P) -> mt_msg own m ->
    length (pf_message P k m (exclude k ups)) = length (nth k (pf_pdims P) []) /\
    mt_msg t (pf_message P k m (exclude k ups)) /\
    forall ups', Forall2 (fun pd u => length u = length pd) (pf_pdims P) ups' -> Forall2 mt_mom pts ups' ->
      exclude k ups' = exclude k ups ->
      fdot (pf_dims P) m (pf_moments P ups') - fdot (pf_dims P) m (pf_moments P ups) =
      fdot (nth k (pf_pdims P) []) (pf_message P k m (exclude k ups)) (nth k ups' []) -
      fdot (nth k (pf_pdims P) []) (pf_message P k m (exclude k ups)) (nth k ups []) }.
Lemma plate_of_kinds : forall ty P j ps, plate_kinds P (ty j) (map ty ps) -> plate_typed (tys ty) P j ps.
Proof.
  intros ty P j ps [A B C D]. constructor; cbn [t_mom t_msg tys].
  - intros ups L F. apply C; [exact L|now apply mt_map].
  - intros k i m ups Hk L F Lm Mm. destruct (D k (ty i) m ups (map_nth_error ty k ps Hk) L (proj1 (mt_map ty ps ups) F) Lm Mm) as (D1 & D2 & D3).
    split; [exact D1|]. split; [exact D2|]. intros ups' L' F' E. apply D3; try assumption. now apply mt_map.
Qed.
