(** C54: the moments of a fixed value, when it is observed, when it is used as the
    initial value, and when it is given as a constant parent. *)
From Coq Require Import List Arith ZArith Lia Bool Reals Lra.
From Verif Require Import Base NumPy TensorLemmas MarkovLemmas Families SpecFamilies FamiliesLemmas
  Linalg MatBridge SpecLinalg LinalgLemmas Gaussian GaussLemmas PGaussian Markov GaussMarkov SpecValues.
Import ListNotations.
Open Scope R_scope.

Lemma allclose_1 : allclose 1 1 = true.
Proof.
  unfold allclose. destruct (Rle_dec _ _) as [_|n]; [reflexivity|]. exfalso. apply n.
  replace (1 - 1) with 0 by ring. rewrite !Rabs_R0 || idtac. rewrite (Rabs_right 1) by lra. lra.
Qed.
Lemma any_lt0_true : forall K v i, (i < K)%nat -> v i < 0 -> any_lt0 K v = true.
Proof.
  intros K v i Hi H. unfold any_lt0. apply existsb_exists. exists i. split; [apply in_seq; lia|].
  destruct (Rlt_dec (v i) 0); [reflexivity|contradiction].
Qed.
Lemma dirichlet_simplex : forall K p, simplex K p ->
  dirichletmoments_fixed K p = Ok (fun i => ln (p i / rsum K p)) /\
  moments_of (dirichlet_fixed K p) = Ok (fun i => ln (p i / rsum K p)) /\
  stats_dirichlet K p (fun i => ln (p i / rsum K p)).
Proof.
  intros K p [P S]. unfold dirichletmoments_fixed, dirichlet_fixed.
  rewrite any_lt0_false by (intros i Hi; generalize (P i Hi); lra).
  rewrite any_gt1_false by (intros i Hi; generalize (P i Hi); lra).
  rewrite S, allclose_1. simpl. repeat split. intros i Hi. replace (p i / 1) with (p i) by field.
  apply exp_ln. apply P; exact Hi.
Qed.
Lemma beta_simplex : forall p, 0 < p < 1 -> simplex 2 (beta_pair p).
Proof.
  intros p H. split; [|unfold beta_pair; simpl; ring].
  intros [|[|i]] Hi; [unfold beta_pair; lra|unfold beta_pair; lra|lia].
Qed.
Lemma counts_total : forall l (x : nat -> Z), IZR (fold_right Z.add 0%Z (map x l)) = fold_right Rplus 0 (map (fun i => IZR (x i)) l).
Proof. induction l as [|a l IH]; intros x; [reflexivity|]. simpl. rewrite plus_IZR, IH. reflexivity. Qed.
Lemma rsum_fold : forall K (f : nat -> R), rsum K f = fold_right Rplus 0 (map f (seq 0 K)).
Proof.
  induction K as [|K IH]; intros f; [reflexivity|].
  rewrite seq_S, map_app, fold_right_app. simpl rsum. rewrite IH. simpl.
  generalize (seq 0 K) (f K). induction l as [|a l IHl]; intros r; simpl; [ring|]. rewrite <- IHl. ring.
Qed.
Lemma counts_sum : forall N K x, counts_of N K x ->
  existsb (fun i => (x i <? 0)%Z) (seq 0 K) = false /\ fold_right Z.add 0%Z (map x (seq 0 K)) = N.
Proof.
  intros N K x [P S]. split.
  - apply Bool.not_true_iff_false. intros E. apply existsb_exists in E. destruct E as (i & Hi & E).
    apply in_seq in Hi. apply Z.ltb_lt in E. generalize (P i ltac:(lia)). lia.
  - apply eq_IZR. rewrite counts_total, <- rsum_fold. exact S.
Qed.
Lemma chol_pd : forall D L, posdef D L -> exists U, chol D L = Ok U /\ exp (chol_logdet D U) = mdet D L.
Proof.
  intros D L P. destruct (chol_cases D L (proj1 P)) as [(_ & U & E & E')|(N & _)]; [|contradiction].
  exists U. split; [exact E'|]. destruct (chol_logdet_ok D L U (proj1 P) E) as [Hp Hl].
  rewrite Hl. now apply exp_ln.
Qed.

(** Every value in the support of the family can be observed, and the moments of the
    node are then the sufficient statistics of the value. *)
Theorem C54_observed_value : forall lg : R -> R,
  (forall x, 0 < x -> exists u, moments_of (gamma_fixed x) = Ok u /\ stats_gamma x u) /\
  (forall K p, simplex K p -> exists u, moments_of (dirichlet_fixed K p) = Ok u /\ stats_dirichlet K p u) /\
  (forall p, 0 < p < 1 -> exists u, moments_of (beta_fixed p) = Ok u /\ stats_beta p u) /\
  (forall x, (0 <= x)%Z -> exists u, moments_of (poisson_fixed lg x) = Ok u /\ stats_count x u) /\
  (forall N x, (0 <= x <= N)%Z -> exists u, moments_of (binomial_fixed lg N x) = Ok u /\ stats_count x u) /\
  (forall N K x, counts_of N K x -> exists u, moments_of (multinomial_fixed lg N K x) = Ok u /\ stats_counts K x u) /\
  (forall K x, (0 <= x < Z.of_nat K)%Z -> exists u, moments_of (categorical_fixed K x) = Ok u /\ stats_category K x u) /\
  (forall D x, stats_gaussian D x (fst (gaussian_fixed D x)) /\ stats_gaussian D x (fst (ard_fixed D x))) /\
  (forall D x alpha, 0 < alpha -> stats_gaussian_gamma D x alpha (fst (gg_fixed D x alpha))) /\
  (forall D L, posdef D L -> exists u, moments_of (wishart_fixed D L) = Ok u /\ stats_wishart D L u) /\
  (forall N D x, stats_gaussian_chain N D x (fst (gmc_fixed N D x))).
Proof.
  intros lg. repeat apply conj.
  - intros x Hx. unfold gamma_fixed. destruct (Rlt_dec x 0); [lra|]. eexists. split; [reflexivity|].
    split; [reflexivity|]. simpl. now apply exp_ln.
  - intros K p S. destruct (dirichlet_simplex K p S) as (_ & H1 & H2). eauto.
  - intros p Hp. destruct (dirichlet_simplex 2 _ (beta_simplex p Hp)) as (_ & H1 & H2). eexists. split; [exact H1|].
    split; rewrite H2 by lia; unfold beta_pair; ring.
  - intros x Hx. unfold poisson_fixed. destruct (Z.ltb_spec x 0); [lia|]. eexists. split; reflexivity.
  - intros N x Hx. unfold binomial_fixed. destruct (Z.ltb_spec x 0); [lia|]. destruct (Z.ltb_spec N x); [lia|].
    eexists. split; reflexivity.
  - intros N K x C. destruct (counts_sum N K x C) as [E1 E2]. unfold multinomial_fixed. rewrite E1, E2, Z.eqb_refl.
    eexists. split; [reflexivity|]. intros i Hi. reflexivity.
  - intros K x Hx. unfold categorical_fixed. destruct (Z.ltb_spec x 0); [lia|]. destruct (Z.leb_spec (Z.of_nat K) x); [lia|].
    eexists. split; [reflexivity|]. unfold one_hot. split; intros i Hi E.
    + rewrite E, Z.eqb_refl. reflexivity.
    + destruct (Z.eqb_spec (Z.of_nat i) x); [contradiction|reflexivity].
  - intros D x. split; split; reflexivity.
  - intros D x alpha Ha. repeat split. now apply exp_ln.
  - intros D L P. destruct (chol_pd D L P) as (U & E & H). unfold wishart_fixed. rewrite E. simpl.
    eexists. split; [reflexivity|]. split; [reflexivity|exact H].
  - intros N D x. repeat split.
Qed.
Print Assumptions C54_observed_value.

(** Starting from a value gives the moments that observing it gives, in every family
    but Binomial and CategoricalMarkovChain. *)
Theorem C54_initialise_as_observed : forall lg : R -> R,
  same_moments gamma_fixed gammamoments_fixed /\
  (forall K, same_moments (dirichlet_fixed K) (dirichletmoments_fixed K)) /\
  same_moments beta_fixed betamoments_fixed /\
  same_moments (poisson_fixed lg) poissonmoments_fixed /\
  (forall N K, same_moments (multinomial_fixed lg N K) (multinomialmoments_fixed K)) /\
  (forall K, same_moments (categorical_fixed K) (categoricalmoments_fixed K)) /\
  (forall D x, fst (gaussian_fixed D x) = gaussianmoments_fixed x /\ fst (ard_fixed D x) = gaussianmoments_fixed x) /\
  (forall D x alpha, fst (gg_fixed D x alpha) = gaussiangammamoments_fixed x alpha) /\
  (forall D, same_moments (wishart_fixed D) (wishartmoments_fixed D)) /\
  (forall N D x, fst (gmc_fixed N D x) = gmcmoments_fixed x).
Proof.
  intros lg. repeat apply conj.
  - intros x u. unfold gamma_fixed, gammamoments_fixed. destruct (Rlt_dec x 0); simpl; congruence.
  - intros K p u. unfold dirichlet_fixed, dirichletmoments_fixed. destruct (_ || _); [discriminate|].
    destruct (negb _); [discriminate|]. intros H; injection H as <-; reflexivity.
  - intros p u. unfold beta_fixed, betamoments_fixed, dirichlet_fixed, dirichletmoments_fixed. destruct (_ || _); [discriminate|].
    destruct (negb _); [discriminate|]. intros H; injection H as <-; reflexivity.
  - intros x u. unfold poisson_fixed, poissonmoments_fixed. destruct (x <? 0)%Z; [discriminate|]. simpl. congruence.
  - intros N K x u. unfold multinomial_fixed, multinomialmoments_fixed. destruct (existsb _ _); [discriminate|].
    destruct (negb _); [discriminate|]. intros H; injection H as <-; reflexivity.
  - intros K x u. unfold categorical_fixed, categoricalmoments_fixed. destruct (_ || _); [discriminate|]. simpl. congruence.
  - intros; split; reflexivity.
  - reflexivity.
  - intros D L u. unfold wishart_fixed, wishartmoments_fixed. destruct (chol D L); [|discriminate]. simpl. congruence.
  - reflexivity.
Qed.
Print Assumptions C54_initialise_as_observed.

(** A constant pair (x, alpha) or (x, Lambda) gives the statistics of the joint value,
    and a constant Gaussian joined by the converters with a constant Gamma or Wishart
    gives the same moments as the constant pair. *)
Theorem C54_joint_constants :
  (forall D x alpha, 0 < alpha ->
     stats_gaussian_gamma D x alpha (gaussiangammamoments_fixed x alpha) /\
     exists ua, gammamoments_fixed alpha = Ok ua /\
       stats_gaussian_gamma D x alpha (wrap_gg_moments (to_gg_moments (gaussianmoments_fixed x)) ua)) /\
  (forall D x L, posdef D L ->
     exists u uL, gaussianwishartmoments_fixed D x L = Ok u /\ wishartmoments_fixed D L = Ok uL /\
       stats_gaussian_wishart D x L u /\
       stats_gaussian_wishart D x L (wrap_gw_moments D (to_gg_moments (gaussianmoments_fixed x)) uL)).
Proof.
  split.
  - intros D x a Ha. split; [repeat split; now apply exp_ln|].
    unfold gammamoments_fixed. destruct (Rlt_dec a 0); [lra|]. eexists. split; [reflexivity|].
    simpl. unfold scal_v, scal_m, outerv. repeat split; try (intros; ring). rewrite Rplus_0_l. now apply exp_ln.
  - intros D x L P. destruct (chol_pd D L P) as (U & E & H).
    unfold gaussianwishartmoments_fixed, wishartmoments_fixed, logdet_cov. rewrite E. simpl.
    eexists. eexists. split; [reflexivity|]. split; [reflexivity|]. split.
    + repeat split; [|exact H]. apply rsum_ext. intros i Hi. rewrite <- rsum_scal. apply rsum_ext. intros; ring.
    + unfold to_gg_moments, gaussianmoments_fixed, wrap_gw_moments; cbn [fst snd].
      repeat split.
      * unfold innerm, outerv. apply rsum_ext. intros i Hi. rewrite <- rsum_scal. apply rsum_ext. intros; ring.
      * intros; unfold scal_m; ring.
      * rewrite Rmult_0_r, Rplus_0_r. exact H.
Qed.
Print Assumptions C54_joint_constants.

(** Values outside the support are rejected by observe. *)
Theorem C54_observe_rejects : forall lg : R -> R,
  (forall x, x < 0 -> gamma_fixed x = Err ValueError) /\
  (forall K p i, (i < K)%nat -> p i < 0 -> dirichlet_fixed K p = Err ValueError) /\
  (forall p, p < 0 \/ 1 < p -> beta_fixed p = Err ValueError) /\
  (forall x, (x < 0)%Z -> poisson_fixed lg x = Err ValueError) /\
  (forall N x, (x < 0 \/ N < x)%Z -> binomial_fixed lg N x = Err ValueError) /\
  (forall N K x, ~ counts_of N K x -> multinomial_fixed lg N K x = Err ValueError) /\
  (forall K x, (x < 0 \/ Z.of_nat K <= x)%Z -> categorical_fixed K x = Err ValueError) /\
  (forall D L, symmetric D L -> ~ posdef D L -> wishart_fixed D L = Err PyException).
Proof.
  intros lg. repeat apply conj.
  - intros x H. unfold gamma_fixed. destruct (Rlt_dec x 0); [reflexivity|lra].
  - intros K p i Hi H. unfold dirichlet_fixed. rewrite (any_lt0_true K p i Hi H). reflexivity.
  - intros p H. unfold beta_fixed, dirichlet_fixed. destruct H as [H|H].
    + rewrite (any_lt0_true 2 _ 0); [reflexivity|lia|unfold beta_pair; lra].
    + rewrite (any_lt0_true 2 _ 1); [reflexivity|lia|unfold beta_pair; lra].
  - intros x H. unfold poisson_fixed. destruct (Z.ltb_spec x 0); [reflexivity|lia].
  - intros N x H. unfold binomial_fixed. destruct (Z.ltb_spec x 0); [reflexivity|].
    destruct (Z.ltb_spec N x); [reflexivity|lia].
  - intros N K x H. unfold multinomial_fixed. destruct (existsb _ _) eqn:E1; [reflexivity|].
    destruct (Z.eqb_spec (fold_right Z.add 0%Z (map x (seq 0 K))) N) as [E2|E2]; [|reflexivity].
    exfalso. apply H. split.
    + intros i Hi. destruct (Z.ltb_spec (x i) 0) as [L|L]; [|lia]. exfalso.
      rewrite (proj2 (existsb_exists _ _)) in E1; [discriminate|].
      exists i. split; [apply in_seq; lia|now apply Z.ltb_lt].
    + rewrite rsum_fold, <- counts_total, E2. reflexivity.
  - intros K x H. unfold categorical_fixed. destruct (Z.ltb_spec x 0); [reflexivity|].
    destruct (Z.leb_spec (Z.of_nat K) x); [reflexivity|lia].
  - intros D L Sy N. unfold wishart_fixed. destruct (chol_cases D L Sy) as [(P & _)|(_ & E)]; [contradiction|].
    rewrite E. reflexivity.
Qed.
Print Assumptions C54_observe_rejects.

(** Binomial (and Bernoulli): no value at all can be used to start from, although every
    count 0..N can be observed. *)
Theorem C54_binomial_refuted : forall (lg : R -> R) N x, (0 <= x <= N)%Z ->
  (exists u, moments_of (binomial_fixed lg N x) = Ok u /\ stats_count x u) /\
  binomialmoments_fixed N x = Err TypeError.
Proof.
  intros lg N x H. split; [apply C54_observed_value; exact H|].
  unfold binomialmoments_fixed. destruct (Z.ltb_spec N x); [lia|reflexivity].
Qed.
Print Assumptions C54_binomial_refuted.

(** CategoricalMarkovChain: a sequence of categories gives the indicators of its first
    state and transitions when the chain starts from it, but it cannot be observed. *)
Theorem C54_category_chain_refuted : forall K (x : list nat), (forall s, In s x -> (s < K)%nat) ->
  (exists u, cmc_fixed_moments K x = Ok u /\ stats_category_chain K x u) /\
  cmc_fixed K x = Err NotImplementedError.
Proof.
  intros K x H. split; [|reflexivity]. unfold cmc_fixed_moments.
  rewrite (proj2 (forallb_forall _ _)) by (intros s Hs; apply Nat.ltb_lt; now apply H).
  eexists. split; [reflexivity|]. split; cbn [fst snd].
  - intros i s Hi E. rewrite (nth_error_nth _ _ 0%nat E). reflexivity.
  - intros n i j s t Hi Hj E1 E2. rewrite (nth_error_nth _ _ 0%nat E1), (nth_error_nth _ _ 0%nat E2). reflexivity.
Qed.
Print Assumptions C54_category_chain_refuted.

(** Negative Poisson counts, and multinomial counts that do not add up to the number of
    trials, are accepted as initial values although observe rejects them. *)
Theorem C54_initial_support_refuted : forall lg : R -> R,
  (forall x, (x < 0)%Z -> exists u, poissonmoments_fixed x = Ok u /\ poisson_fixed lg x = Err ValueError) /\
  (forall N K x, (forall i, (i < K)%nat -> (0 <= x i)%Z) -> rsum K (fun i => IZR (x i)) <> IZR N ->
     exists u, multinomialmoments_fixed K x = Ok u /\ multinomial_fixed lg N K x = Err ValueError).
Proof.
  intros lg. destruct (C54_observe_rejects lg) as (_ & _ & _ & HP & _ & HM & _). split.
  - intros x H. eexists. split; [reflexivity|now apply HP].
  - intros N K x P S. exists (fun i => IZR (x i)). split; [|apply HM; intros [_ C]; contradiction].
    unfold multinomialmoments_fixed. destruct (existsb _ _) eqn:E; [|reflexivity]. exfalso.
    apply existsb_exists in E. destruct E as (i & Hi & E). apply in_seq in Hi. apply Z.ltb_lt in E.
    generalize (P i ltac:(lia)). lia.
Qed.
Print Assumptions C54_initial_support_refuted.

(** The hypotheses are met: three probabilities, three counts out of five, a correlated
    2 x 2 precision matrix, a sequence of three categories. *)
Example ex_values :
  simplex 3 (fun i => match i with 0%nat => 1/2 | 1%nat => 1/3 | _ => 1/6 end) /\
  counts_of 5 3 (fun i => match i with 0%nat => 2%Z | 1%nat => 0%Z | _ => 3%Z end) /\
  posdef 2 (fun i j => if Nat.eqb i j then 2 else 1) /\
  (forall s, In s [2; 0; 1]%nat -> (s < 3)%nat).
Proof.
  repeat apply conj.
  - intros [|[|i]] Hi; lra.
  - simpl. lra.
  - intros [|[|i]] Hi; lia.
  - simpl. lra.
  - intros i j Hi Hj. rewrite Nat.eqb_sym. reflexivity.
  - intros x (i & Hi & Hx). unfold bilinear. simpl.
    assert (x 0%nat <> 0 \/ x 1%nat <> 0) as [N|N] by (destruct i as [|[|i]]; [left; exact Hx|right; exact Hx|lia]);
    generalize (Rsqr_pos_lt _ N) (Rle_0_sqr (x 0%nat)) (Rle_0_sqr (x 1%nat)) (Rle_0_sqr (x 0%nat + x 1%nat)); unfold Rsqr; lra.
  - intros s [<-|[<-|[<-|[]]]]; lia.
Qed.
