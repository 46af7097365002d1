(** C24 for Gaussian Markov chains. *)
From Coq Require Import List Arith ZArith Lia Bool Reals Lra FunctionalExtensionality.
From Verif Require Import Base Shapes SpecShapes ShapesLemmas NumPy MiscArray TensorLemmas
  EinsumLemmas SumMultiplyLemmas SpecArray PlateSumLemmas PlateSum2Lemmas MessageLemmas
  ShapeOpsLemmas DiagLemmas ExpFam SpecExpFam ExpFamLemmas ExpFamBound ExpFamGrad PExpFam SpecUpdate
  UpdateLemmas ExtReal Families SpecFamilies FamiliesLemmas FamiliesLemmas2 PFamilies2
  Markov SpecMarkov MarkovLemmas MarkovLemmas2 PMarkov FamilyDist SpecFamilyDist PUpdate PFamilyDist
  Linalg MatBridge SpecLinalg LinalgLemmas Gaussian SpecGaussian GaussLemmas GaussAlg PGaussian PGaussian2 GaussGibbs GaussianDist PGaussianDist
  BlockBanded SpecBlock BlockLemmas GaussMarkov SpecGaussMarkov GaussMarkovLemmas ChainLemmas PGaussMarkov2 GaussMarkovDist.
Import ListNotations.
Open Scope R_scope.

(** The diagonal blocks of the second parameter are symmetric. *)
Definition symmetric_blocks (N D : nat) (phi : list (env -> R)) : Prop :=
  match phi with [_; q; _] => forall n, (n < N)%nat -> symmetric D (as_blocks q n) | _ => False end.

Lemma chain_fdot : forall N D p q r u0 u1 u2,
  fdot [[N; D]; [N; D; D]; [N - 1; D; D]%nat] [p; q; r] [of_rows u0; of_blocks u1; of_blocks u2]
  = chain_dot N D (as_rows p, as_blocks q, as_blocks r) (u0, u1, u2).
Proof. intros. cbn [fdot]. rewrite total_2d, !total_3d. unfold chain_dot, innerv, innerm, as_rows, as_blocks, of_rows, of_blocks. cbn. ring. Qed.

Lemma gmc_kl : forall junk N D phi phi' u0 u1 u2 u0' u1' u2' g g', (1 <= N)%nat -> (1 <= D)%nat ->
  sub_phi phi N D -> sub_phi phi' N D ->
  gmc_moments junk N D phi = Ok ((u0, u1, u2), g) -> gmc_moments junk N D phi' = Ok ((u0', u1', u2'), g') ->
  let KL := chain_dot N D phi (u0, u1, u2) - chain_dot N D phi' (u0, u1, u2) + g - g' in
  KL >= 0 /\ (KL = 0 -> chain_eq N D (u0, u1, u2) (u0', u1', u2')).
Proof.
  intros junk N D phi phi' u0 u1 u2 u0' u1' u2' g g' HN HD Sy Sy' E E' KL.
  destruct (gmc_flat junk N D phi HN HD Sy) as [H1 H2]. destruct (gmc_flat junk N D phi' HN HD Sy') as [H1' H2'].
  destruct (Classical_Prop.classic (posdef (N * D) (chain_precision D phi))) as [P|P]; [|rewrite (H1 P) in E; discriminate].
  destruct (Classical_Prop.classic (posdef (N * D) (chain_precision D phi'))) as [P'|P']; [|rewrite (H1' P') in E'; discriminate].
  destruct (H2 P) as (v0 & v1 & v2 & h & w & E1 & E2 & Sw & U0 & U1 & U2). rewrite E in E1. injection E1 as <- <- <- <-.
  destruct (H2' P') as (v0 & v1 & v2 & h & w' & E1' & E2' & Sw' & U0' & U1' & U2'). rewrite E' in E1'. injection E1' as <- <- <- <-.
  destruct (gaussian_kl (N * D) (flat_phi D phi) (flat_phi D phi') w w' g g' (flat_sym N D phi HD Sy) (flat_sym N D phi' HD Sy') E2 E2') as [K1 K2].
  pose proof (flat_dot N D phi u0 u1 u2 (fst w) (snd w) HN HD Sw U0 U1 U2) as F.
  pose proof (flat_dot N D phi' u0 u1 u2 (fst w) (snd w) HN HD Sw U0 U1 U2) as F'.
  assert (EK : KL = innerv (N * D) (fst (flat_phi D phi)) (fst w) + innerm (N * D) (snd (flat_phi D phi)) (snd w)
    - (innerv (N * D) (fst (flat_phi D phi')) (fst w) + innerm (N * D) (snd (flat_phi D phi')) (snd w)) + g - g').
  { rewrite <- F, <- F'. reflexivity. }
  rewrite EK. split; [exact K1|]. intros Z. destruct (K2 Z) as [Q0 Q1]. split; [|split].
  - intros n i Hn Hi. rewrite U0, U0' by assumption. apply Q0. now apply index_lt.
  - intros n Hn i j Hi Hj. rewrite (U1 n Hn i j Hi Hj), (U1' n Hn i j Hi Hj). apply Q1; now apply index_lt.
  - intros n Hn i j Hi Hj. rewrite (U2 n ltac:(lia) i j Hi Hj), (U2' n ltac:(lia) i j Hi Hj). apply Q1; apply index_lt; lia.
Qed.

Lemma chain_fam_kl : forall junk N D, (1 <= N)%nat -> (1 <= D)%nat ->
  fam_gibbs (chain_family junk N D) (symmetric_blocks N D) /\ fam_strict (chain_family junk N D) (symmetric_blocks N D).
Proof.
  intros junk N D HN HD. assert (K : forall phi phi' u g u' g', length phi = 3%nat -> length phi' = 3%nat ->
    symmetric_blocks N D phi -> symmetric_blocks N D phi' ->
    fam_moments (chain_family junk N D) phi = Ok (u, g) -> fam_moments (chain_family junk N D) phi' = Ok (u', g') ->
    exists u0 u1 u2 u0' u1' u2', u = [of_rows u0; of_blocks u1; of_blocks u2] /\ u' = [of_rows u0'; of_blocks u1'; of_blocks u2'] /\
      let dims := [[N; D]; [N; D; D]; [N - 1; D; D]%nat] in
      let KL := fdot dims phi u - fdot dims phi' u + g - g' in
      KL >= 0 /\ (KL = 0 -> chain_eq N D (u0, u1, u2) (u0', u1', u2'))).
  { intros phi phi' u g u' g' L L' S S' E E'. destruct phi as [|p [|q [|r [|? ?]]]]; try discriminate. destruct phi' as [|p' [|q' [|r' [|? ?]]]]; try discriminate.
    cbn [fam_moments chain_family symmetric_blocks] in *.
    destruct (gmc_moments junk N D (as_rows p, as_blocks q, as_blocks r)) as [[[[u0 u1] u2] h]|] eqn:M; [|discriminate].
    destruct (gmc_moments junk N D (as_rows p', as_blocks q', as_blocks r')) as [[[[u0' u1'] u2'] h']|] eqn:M'; [|discriminate].
    cbn [bind] in *. injection E as <- <-. injection E' as <- <-. exists u0, u1, u2, u0', u1', u2'. split; [reflexivity|]. split; [reflexivity|].
    cbv zeta. rewrite !chain_fdot. exact (gmc_kl junk N D (as_rows p, as_blocks q, as_blocks r) (as_rows p', as_blocks q', as_blocks r') _ _ _ _ _ _ _ _ HN HD S S' M M'). }
  split; intros phi phi' u g u' g' L L' P P' E E'; destruct (K _ _ _ _ _ _ L L' P P' E E') as (u0 & u1 & u2 & u0' & u1' & u2' & -> & -> & [G1 G2]).
  - split; [reflexivity|exact G1].
  - intros Z. destruct (G2 Z) as (Q0 & Q1 & Q2). split; [reflexivity|]. split; [reflexivity|].
    intros [|[|[|[|i]]]] d v Hd Hv; try discriminate; injection Hd as <-; cbn [nth].
    + apply Q0; [apply (Hv 1%nat)|apply (Hv 0%nat)].
    + apply Q1; [apply (Hv 2%nat)|apply (Hv 1%nat)|apply (Hv 0%nat)].
    + assert (B := Hv 2%nat). cbn in B. apply Q2; [lia|apply (Hv 1%nat)|apply (Hv 0%nat)].
Qed.

Theorem C24_gaussian_markov_chain_node : forall pm val (Dd : dist pm val) junk plates N D, (1 <= N)%nat -> (1 <= D)%nat ->
  d_moments Dd = lift_moments (chain_family junk N D) plates ->
  let proper := proper_at (chain_family junk N D) (symmetric_blocks N D) plates in
  gibbs Dd plates [[N; D]; [N; D; D]; [N - 1; D; D]%nat] proper /\ strict_gibbs Dd plates [[N; D]; [N; D; D]; [N - 1; D; D]%nat] proper.
Proof.
  intros pm val Dd junk plates N D HN HD ED. destruct (chain_fam_kl junk N D HN HD) as [G ST]. split.
  - exact (lift_gibbs _ _ Dd (chain_family junk N D) _ plates ED G).
  - exact (lift_strict _ _ Dd (chain_family junk N D) _ plates ED G ST).
Qed.
Print Assumptions C24_gaussian_markov_chain_node.

(** A chain of three scalar states with proper parameters. *)
Example ex_C24_chain : exists u g, symmetric_blocks 3 1 [of_rows (fst (fst ex_chain)); of_blocks (snd (fst ex_chain)); of_blocks (snd ex_chain)] /\
  fam_moments (chain_family ((fun _ _ => 0), (fun _ _ _ => 0), (fun _ _ _ => 0)) 3 1)
    [of_rows (fst (fst ex_chain)); of_blocks (snd (fst ex_chain)); of_blocks (snd ex_chain)] = Ok (u, g).
Proof.
  destruct ex_C51_chain as [S P]. destruct (C51_chain_moments ((fun _ _ => 0), (fun _ _ _ => 0), (fun _ _ _ => 0)) 3 1 ex_chain ltac:(lia) ltac:(lia) S) as [_ H].
  destruct (H P) as ([[u0 u1] u2] & g & _ & _ & E & _). do 2 eexists. split; [intros n _ i j _ _; reflexivity|].
  cbn [fam_moments chain_family]. unfold of_rows, of_blocks, as_rows, as_blocks. unfold upd. cbn [Nat.eqb].
  change (gmc_moments _ 3 1 _) with (gmc_moments ((fun _ _ => 0), (fun _ _ _ => 0), (fun _ _ _ => 0)) 3 1 ex_chain). rewrite E. cbn [bind]. reflexivity.
Qed.
