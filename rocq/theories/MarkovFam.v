(** Lemmas for C25: categorical Markov chains in networks. *)
From Coq Require Import List Arith ZArith Lia Bool Reals Lra FunctionalExtensionality.
From Verif Require Import Base Shapes SpecShapes ShapesLemmas NumPy MiscArray TensorLemmas
  EinsumLemmas SumMultiplyLemmas SpecArray PlateSumLemmas PlateSum2Lemmas MessageLemmas
  ShapeOpsLemmas DiagLemmas ExpFam SpecExpFam ExpFamLemmas ExpFamBound ExpFamGrad PExpFam SpecUpdate
  UpdateLemmas PUpdate Families SpecFamilies FamiliesLemmas FamiliesLemmas2 PFamilies2 FamilyDist SpecFamilyDist PFamilyDist Network SpecNetwork NetworkLemmas NetworkLemmas2
  PNetwork MarkovLemmas FamilyNet SpecFamilyNet PFamilyNet Dot SpecDot DetNet SpecDetNet DetNetLemmas DetNetLemmas2
  Linalg MatBridge SpecLinalg LinalgLemmas Gaussian SpecGaussian GaussLemmas GaussAlg PGaussian PGaussian2 GaussGibbs GaussianDist PGaussianDist
  ExtReal Markov SpecMarkov MarkovLemmas2 PMarkov MarkovNet GaussNet MixtureNet SpecGaussNet PlateDet GaussTypes GaussNodes GaussNodes2 GaussNodes3 GaussNodes4 GaussNodes5.
Import ListNotations.
Open Scope R_scope.

(** ** Probabilities *)
Lemma prob_nonneg : forall D N a0 a1 c, (0 < D)%nat ->
  0 <= prob D N (fun i => exp (a0 i)) (fun n i j => exp (a1 n i j)) c.
Proof.
  intros D N a0 a1 c HD. unfold prob. pose proof (normaliser_pos D N a0 a1 HD) as HZ.
  apply Rmult_le_pos; [|left; now apply Rinv_0_lt_compat]. unfold weight_of.
  assert (W : forall z, 0 <= path_weight (fun i => exp (a0 i)) (fun n i j => exp (a1 n i j)) z).
  { intros [|i z]; cbn [path_weight]; [lra|]. apply Rmult_le_pos; [left; apply exp_pos|]. generalize 0%nat. revert i.
    induction z as [|j z IH]; intros i n; cbn [steps_weight]; [lra|]. apply Rmult_le_pos; [left; apply exp_pos|apply IH]. }
  induction (filter c (paths D (S N))) as [|z l IH]; [cbn; lra|]. cbn [map]. rewrite lsum_cons. specialize (W z). lra.
Qed.
Lemma prob_states : forall D N a0 a1 n, (0 < D)%nat -> (n <= N)%nat ->
  rsum D (fun k => prob D N (fun i => exp (a0 i)) (fun n i j => exp (a1 n i j)) (at_time n k)) = 1.
Proof.
  intros D N a0 a1 n HD Hn. pose proof (normaliser_pos D N a0 a1 HD) as HZ.
  set (p0 := fun i => exp (a0 i)) in *. set (P := fun n i j => exp (a1 n i j)) in *.
  unfold prob, Rdiv. rewrite rsum_scal_r. apply Rmult_eq_reg_r with (normaliser D N p0 P); [|lra].
  rewrite Rmult_assoc, Rinv_l by lra. rewrite Rmult_1_r, Rmult_1_l. unfold normaliser, weight_of.
  rewrite (rsum_ext D _ (fun i => lsum (map (fun z => if at_time n i z then path_weight p0 P z else 0) (paths D (S N)))))
    by (intros; apply MarkovLemmas.lsum_filter).
  rewrite <- lsum_rsum_swap, MarkovLemmas.lsum_filter. f_equal. apply map_ext_in. intros z Hz.
  rewrite (rsum_ext D _ (fun i => if (i =? nth n z 0)%nat then path_weight p0 P z else 0)).
  - rewrite rsum_single; [reflexivity|]. apply (paths_lt D (S N)); [exact Hz|lia].
  - intros i _. unfold at_time. now rewrite (Nat.eqb_sym i).
Qed.

(** ** The distribution *)
Lemma markov_conjugate : forall N K, conjugate (markov_efam N K).
Proof.
  intros N K. split; [|split].
  - intros [|[|p0 [|? ?]] [|[|P [|? ?]] [|? ?]]]; reflexivity.
  - intros k x ups Hk. cbn in Hk. destruct k as [|[|k]]; [| |lia]; cbn; destruct x as [|? [|? [|? ?]]]; reflexivity.
  - intros k x ups ups' Hk M M' L E. cbn in Hk, L. list2 x.
    unfold moments_of in M, M'. cbn [e_pdims markov_efam] in M, M'. break M.
    cbn [e_cgf e_phi e_fam markov_efam fam_dims markov_family].
    assert (X : forall s (a b : env -> R), total s (fun v => a v * b v) = total s (fun v => b v * a v)) by (intros; apply total_ext; intros; ring).
    assert (X1 : forall s (a b : env -> R), total s (fun v => a v * 1 * b v) = total s (fun v => b v * a v)) by (intros; apply total_ext; intros; ring).
    destruct k as [|[|k]]; [| |lia]; cbn in E; injection E as E; subst; cbn [markov_efam fdot e_message nth e_pdims]; rewrite !X1; rewrite ?(X [K] _ p); lra.
Qed.

Lemma coef_0 : forall a l v, coef (a :: l) 0 v = a v.
Proof. reflexivity. Qed.
Lemma coef_1 : forall a b l v, coef (a :: b :: l) 1 v = b v.
Proof. reflexivity. Qed.
Lemma tab_index : forall a b c v, valid [a; b; c] v ->
  v = upd (upd (upd env0 2 (v 2%nat)) 1 (v 1%nat)) 0 (v 0%nat) /\ (v 2%nat < a)%nat /\ (v 1%nat < b)%nat /\ (v 0%nat < c)%nat.
Proof.
  intros a b c v H. split; [|split; [exact (H 2%nat)|split; [exact (H 1%nat)|exact (H 0%nat)]]].
  apply functional_extensionality. intros [|[|[|k]]]; try reflexivity.
  specialize (H (S (S (S k)))). rewrite ax_overflow in H by (cbn; lia). unfold upd. cbn. unfold env0. lia.
Qed.
Lemma slice_index : forall n i j, join 2 (upd env0 0 n) (upd (upd env0 1 i) 0 j) = upd (upd (upd env0 2 n) 1 i) 0 j.
Proof. intros. apply functional_extensionality. intros [|[|[|k]]]; reflexivity. Qed.

Lemma markov_typed : forall N K, (2 <= N)%nat -> (0 < K)%nat ->
  fam_typed (markov_efam N K) (MChain N K) [MLogProb K; MClusters (N - 1) (MClusters K (MLogProb K))].
Proof.
  intros N K HN HK. constructor; try reflexivity.
  - apply conj_on, markov_conjugate.
  - intros k t x ups Hk MO FM L (X0 & _ & X1 & _). list2 x. cbn [mt_mom] in *.
    destruct k as [|[|k]]; [| |destruct k; discriminate]; injection Hk as <-; cbn [e_message markov_efam mt_msg].
    + exact X0.
    + intros n Hn i Hi v Hv. rewrite (cluster_coef [[K]] i _ 0%nat [K] v eq_refl), (cluster_coef [[K; K]] n _ 0%nat [K; K] _ eq_refl).
      apply X1. apply (join_valid [(N - 1)%nat] [K; K]); [now apply valid_vec|]. apply (join_valid [K] [K]); [now apply valid_vec|exact Hv].
  - intros phi L _. cbn in L. list2 phi. cbn [e_fam markov_efam fam_moments markov_family].
    set (a0 := fun i => p (upd env0 0 i)). set (a1 := fun n i j => q (upd (upd (upd env0 2 n) 1 i) 0 j)).
    change (fun i => Fin (p (upd env0 0 i))) with (fun i => Fin (a0 i)).
    change (fun n i j => Fin (q (upd (upd (upd env0 2 n) 1 i) 0 j))) with (fun n i j => Fin (a1 n i j)).
    destruct (run_ok K N HK HN a0 a1) as (O & _ & U0 & U1).
    destruct (cmc_moments_and_cgf N K (fun i => Fin (a0 i)) (fun n i j => Fin (a1 n i j))) as [r|]; [|discriminate].
    cbn [bind]. do 2 eexists. split; [reflexivity|]. split; [reflexivity|]. cbn [mt_mom].
    split; [|split; [|split]].
    + intros v Hv. rewrite coef_0. rewrite U0 by exact (Hv 0%nat). now apply prob_nonneg.
    + rewrite total_1d. rewrite <- (prob_states K (N - 1) a0 a1 0 HK ltac:(lia)). apply rsum_ext. intros k Hk. rewrite coef_0. now apply U0.
    + intros v Hv. rewrite coef_1. destruct (tab_index _ _ _ v Hv) as (_ & V2 & V1 & V0). rewrite U1 by assumption. now apply prob_nonneg.
    + intros n Hn. rewrite total_2d, rsum_swap. rewrite <- (prob_states K (N - 1) a0 a1 (S n) HK ltac:(lia)).
      apply rsum_ext. intros j Hj. rewrite <- (C42_states K (N - 1) _ _ (S n) j) by (assumption || lia). cbn [cmc_to_categorical].
      apply rsum_ext. intros i Hi. rewrite coef_1, slice_index. now apply U1.
  - apply (markov_gibbs N K HK HN).
Qed.
