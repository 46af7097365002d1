(** Lemmas about the exponential families. *)
From Coq Require Import List Arith ZArith Lia Bool Reals Lra Binomial.
From Verif Require Import Base NumPy TensorLemmas Families SpecFamilies.
Import ListNotations.
Open Scope R_scope.

Lemma term0_mul : forall a u, term0 a u = a * u.
Proof. intros a u. unfold term0. destruct (Req_EM_T u 0) as [->|]; ring. Qed.

Lemma logpdf_term_dot : forall K phi u, logpdf_term K phi u = dotv K phi u.
Proof. intros. apply rsum_ext. intros. apply term0_mul. Qed.

Lemma any_lt0_false : forall K v, (forall i, (i < K)%nat -> 0 <= v i) -> any_lt0 K v = false.
Proof.
  intros K v H. unfold any_lt0. destruct (existsb _ _) eqn:E; [|reflexivity].
  apply existsb_exists in E as [i [Hi E]]. apply in_seq in Hi. specialize (H i ltac:(lia)).
  destruct (Rlt_dec (v i) 0); [lra|discriminate].
Qed.

Lemma any_le0_false : forall K v, (forall i, (i < K)%nat -> 0 < v i) <-> any_le0 K v = false.
Proof.
  intros K v. unfold any_le0. split; intros H.
  - destruct (existsb _ _) eqn:E; [|reflexivity].
    apply existsb_exists in E as [i [Hi E]]. apply in_seq in Hi. specialize (H i ltac:(lia)).
    destruct (Rle_dec (v i) 0); [lra|discriminate].
  - intros i Hi. destruct (Rlt_dec 0 (v i)) as [L|L]; [exact L|]. exfalso.
    assert (existsb (fun i => if Rle_dec (v i) 0 then true else false) (seq 0 K) = true); [|congruence].
    apply existsb_exists. exists i. split; [apply in_seq; lia|]. destruct (Rle_dec (v i) 0); [reflexivity|lra].
Qed.

Lemma any_gt1_false : forall K v, (forall i, (i < K)%nat -> v i <= 1) -> any_gt1 K v = false.
Proof.
  intros K v H. unfold any_gt1. destruct (existsb _ _) eqn:E; [|reflexivity].
  apply existsb_exists in E as [i [Hi E]]. apply in_seq in Hi. specialize (H i ltac:(lia)).
  destruct (Rlt_dec 1 (v i)); [lra|discriminate].
Qed.

Lemma rsum_ge_one : forall K v i, (forall j, (j < K)%nat -> 0 <= v j) -> (i < K)%nat -> v i <= rsum K v.
Proof.
  induction K as [|K IH]; intros v i H Hi; [lia|]. cbn [rsum].
  destruct (Nat.eq_dec i K) as [->|N].
  - assert (0 <= rsum K v) by (apply rsum_nonneg; intros; apply H; lia). lra.
  - assert (v i <= rsum K v) by (apply IH; [intros; apply H; lia|lia]).
    assert (0 <= v K) by (apply H; lia). lra.
Qed.

Lemma simplex_le1 : forall K p i, simplex K p -> (i < K)%nat -> p i <= 1.
Proof.
  intros K p i [H1 H2] Hi. rewrite <- H2. apply rsum_ge_one; [|exact Hi]. intros. left. auto.
Qed.

Lemma allclose_refl : forall a, allclose a a = true.
Proof.
  intros a. unfold allclose. destruct (Rle_dec _ _) as [|N]; [reflexivity|]. exfalso. apply N.
  replace (a - a) with 0 by ring. rewrite Rabs_R0. pose proof (Rabs_pos a). lra.
Qed.

Lemma simplex_fixed : forall K p, simplex K p ->
  any_lt0 K p = false /\ any_gt1 K p = false /\ allclose (rsum K p) 1 = true.
Proof.
  intros K p H. pose proof H as [H1 H2]. split; [|split].
  - apply any_lt0_false. intros i Hi. left. auto.
  - apply any_gt1_false. intros i Hi. now apply (simplex_le1 K).
  - rewrite H2. apply allclose_refl.
Qed.

Lemma ln_rprod : forall K f, (forall i, (i < K)%nat -> 0 < f i) ->
  0 < rprod K f /\ ln (rprod K f) = rsum K (fun i => ln (f i)).
Proof.
  induction K as [|K IH]; intros f H; cbn; [split; [lra|apply ln_1]|].
  destruct (IH f) as [P E]; [intros; apply H; lia|]. assert (0 < f K) by (apply H; lia).
  split; [now apply Rmult_lt_0_compat|]. rewrite ln_mult by assumption. now rewrite E.
Qed.

Lemma ln_pow : forall x n, 0 < x -> ln (x ^ n) = INR n * ln x.
Proof. intros. now rewrite ln_pow. Qed.

Lemma ln_Rpower : forall x y, ln (Rpower x y) = y * ln x.
Proof. intros. unfold Rpower. apply ln_exp. Qed.

Lemma Rpower_pos : forall x y, 0 < Rpower x y.
Proof. intros. unfold Rpower. apply exp_pos. Qed.

Lemma ln_div : forall x y, 0 < x -> 0 < y -> ln (x / y) = ln x - ln y.
Proof.
  intros x y Hx Hy. unfold Rdiv. rewrite ln_mult; [|assumption|now apply Rinv_0_lt_compat].
  rewrite ln_Rinv by assumption. ring.
Qed.

Lemma fact_pos : forall n, 0 < INR (fact n).
Proof. intros. apply INR_fact_lt_0. Qed.

Lemma beta_simplex : forall p, 0 < p < 1 -> simplex 2 (beta_pair p).
Proof.
  intros p H. split; [|cbn; ring]. intros [|[|i]] Hi; cbn; [lra|lra|lia].
Qed.

Lemma dirichletmoments_ok : forall K p, simplex K p ->
  exists u, dirichletmoments_fixed K p = Ok u /\ forall i, u i = ln (p i).
Proof.
  intros K p H. destruct (simplex_fixed K p H) as (E1 & E2 & E3). unfold dirichletmoments_fixed.
  rewrite E1, E2, E3. cbn. eexists. split; [reflexivity|]. intros i. cbn. destruct H as [_ ->]. f_equal. field.
Qed.

Lemma betamoments_ok : forall p, 0 < p < 1 -> exists u, betamoments_fixed p = Ok u /\
  u 0%nat = ln p /\ u 1%nat = ln (1 - p).
Proof.
  intros p H. destruct (dirichletmoments_ok 2 (beta_pair p) (beta_simplex p H)) as (u & E & Hu).
  exists u. split; [exact E|]. rewrite !Hu. cbn. split; f_equal; ring.
Qed.

Lemma dirichlet_fixed_ok : forall K p, simplex K p ->
  exists u f, dirichlet_fixed K p = Ok (u, f) /\ (forall i, u i = ln (p i)) /\ f = - rsum K (fun i => ln (p i)).
Proof.
  intros K p H. destruct (simplex_fixed K p H) as (E1 & E2 & E3). unfold dirichlet_fixed.
  rewrite E1, E2, E3. cbn. do 2 eexists. split; [reflexivity|]. destruct H as [_ ->].
  assert (E : forall i, ln (p i / 1) = ln (p i)) by (intros; f_equal; field).
  split; [exact E|]. f_equal. apply rsum_ext. intros; apply E.
Qed.

(** ** softmax over the reals *)

Lemma vmax_ge : forall n v i, (i <= n)%nat -> v i <= vmax n v.
Proof.
  induction n as [|n IH]; intros v i H; cbn [vmax].
  - replace i with 0%nat by lia. lra.
  - destruct (Nat.eq_dec i (S n)) as [->|N]; [apply Rmax_r|].
    eapply Rle_trans; [apply (IH v i); lia|apply Rmax_l].
Qed.

Definition sumexp (K : nat) (v : vec) : R := rsum K (fun i => exp (v i)).
Lemma sumexp_pos : forall K v, (0 < K)%nat -> 0 < sumexp K v.
Proof. intros. apply rsum_pos; [assumption|]. intros. apply exp_pos. Qed.

Lemma logsumexpv_ok : forall K v, (0 < K)%nat -> logsumexpv K v = ln (sumexp K v).
Proof.
  intros K v HK. unfold logsumexpv. set (m := vmax (K - 1) v).
  assert (E : sumexp K v = exp m * rsum K (fun i => exp (v i - m))).
  { unfold sumexp. rewrite <- rsum_scal. apply rsum_ext. intros i _. rewrite <- exp_plus. f_equal. ring. }
  rewrite E, ln_mult, ln_exp; [ring|apply exp_pos|]. apply rsum_pos; [exact HK|]. intros; apply exp_pos.
Qed.

Lemma normalized_expv_ok : forall K v, (0 < K)%nat ->
  (forall i, fst (normalized_expv K v) i = exp (v i) / sumexp K v) /\
  snd (normalized_expv K v) = ln (sumexp K v).
Proof.
  intros K v HK. unfold normalized_expv. cbn [fst snd]. rewrite logsumexpv_ok by exact HK.
  pose proof (sumexp_pos K v HK) as HS.
  assert (E : forall i, exp (v i - ln (sumexp K v)) = exp (v i) / sumexp K v).
  { intros i. unfold Rminus. rewrite exp_plus, exp_Ropp, exp_ln by exact HS. reflexivity. }
  split; [|reflexivity]. intros i. rewrite E.
  rewrite (rsum_ext K _ (fun i => exp (v i) * / sumexp K v)); [|intros; apply E].
  rewrite rsum_scal_r. change (rsum K (fun x => exp (v x))) with (sumexp K v). field. lra.
Qed.

Lemma multinomial_moments_ok : forall N K phi, (0 < K)%nat ->
  (forall i, fst (multinomial_moments N K phi) i = N * (exp (phi i) / sumexp K phi)) /\
  snd (multinomial_moments N K phi) = - (N * ln (sumexp K phi)).
Proof.
  intros N K phi HK. destruct (normalized_expv_ok K phi HK) as [H1 H2]. unfold multinomial_moments.
  destruct (normalized_expv K phi) as [p l]. cbn [fst snd] in *. subst l. split; [|reflexivity].
  intros i. now rewrite H1.
Qed.

Lemma multinomial_total : forall N K phi, (0 < K)%nat ->
  rsum K (fst (multinomial_moments N K phi)) = N.
Proof.
  intros N K phi HK. destruct (multinomial_moments_ok N K phi HK) as [H _].
  rewrite (rsum_ext K _ (fun i => N / sumexp K phi * exp (phi i))); [|intros; rewrite H; field].
  - rewrite rsum_scal. change (rsum K (fun x => exp (phi x))) with (sumexp K phi). field.
    pose proof (sumexp_pos K phi HK). lra.
  - pose proof (sumexp_pos K phi HK). lra.
Qed.

(** ** tangent inequality of the exponential and logarithm *)

Lemma exp_tangent : forall x y, exp y >= exp x + (y - x) * exp x.
Proof.
  intros x y. replace y with (x + (y - x)) at 1 by ring. rewrite exp_plus.
  pose proof (exp_ineq1_le (y - x)). pose proof (exp_pos x). nra.
Qed.

Lemma ln_tangent : forall x, 0 < x -> ln x <= x - 1.
Proof.
  intros x H. pose proof (exp_ineq1_le (ln x)). rewrite exp_ln in H0 by exact H. lra.
Qed.

(** Derivative of a finite sum in one coordinate. *)
Definition vupd (v : vec) (i : nat) (t : R) : vec := fun j => if (j =? i)%nat then t else v j.

Lemma vupd_same : forall v i, vupd v i (v i) = v.
Proof.
  intros. apply FunctionalExtensionality.functional_extensionality. intros j. unfold vupd.
  destruct (Nat.eqb_spec j i); congruence.
Qed.

Lemma rsum_vupd_gen : forall K (f : R -> R) v i t,
  rsum K (fun j => f (vupd v i t j)) =
  rsum K (fun j => f (v j)) + (if (i <? K)%nat then f t - f (v i) else 0).
Proof.
  induction K as [|K IH]; intros f v i t; [cbn; ring|]. cbn [rsum]. rewrite IH. unfold vupd at 1.
  destruct (Nat.eqb_spec K i) as [->|N].
  - replace (i <? i)%nat with false by (symmetry; apply Nat.ltb_ge; lia).
    replace (i <? S i)%nat with true by (symmetry; apply Nat.ltb_lt; lia). ring.
  - destruct (Nat.ltb_spec i K).
    + replace (i <? S K)%nat with true by (symmetry; apply Nat.ltb_lt; lia). ring.
    + replace (i <? S K)%nat with false by (symmetry; apply Nat.ltb_ge; lia). ring.
Qed.

Lemma rsum_vupd : forall K (f : R -> R) v i t, (i < K)%nat ->
  rsum K (fun j => f (vupd v i t j)) = rsum K (fun j => f (v j)) + (f t - f (v i)).
Proof.
  intros K f v i t H. rewrite rsum_vupd_gen. now rewrite (proj2 (Nat.ltb_lt _ _) H).
Qed.

Lemma dlim_ext : forall f g x l, (forall t, f t = g t) -> derivable_pt_lim f x l -> derivable_pt_lim g x l.
Proof.
  intros f g x l E H eps Heps. destruct (H eps Heps) as [d Hd]. exists d. intros h Hh Hd'.
  rewrite <- !E. now apply Hd.
Qed.

Lemma dlim_eq : forall f x l l', derivable_pt_lim f x l -> l = l' -> derivable_pt_lim f x l'.
Proof. intros; subst; assumption. Qed.

(** Equality near the point is enough. *)
Lemma dlim_ext_pos : forall f g x l, 0 < x -> (forall t, 0 < t -> f t = g t) ->
  derivable_pt_lim f x l -> derivable_pt_lim g x l.
Proof.
  intros f g x l Hx E H eps Heps. destruct (H eps Heps) as [d Hd].
  assert (Hm : 0 < Rmin d x) by (apply Rmin_pos; [apply cond_pos|exact Hx]).
  exists (mkposreal _ Hm). intros h Hh Ha. cbn in Ha.
  assert (Rabs h < d) by (eapply Rlt_le_trans; [exact Ha|apply Rmin_l]).
  assert (Rabs h < x) by (eapply Rlt_le_trans; [exact Ha|apply Rmin_r]).
  rewrite <- !E; [now apply Hd|exact Hx|]. apply Rabs_def2 in H1. lra.
Qed.
