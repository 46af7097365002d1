(** Properties C20, C21, C22 for the scalar and vector families. *)
From Coq Require Import List Arith ZArith Lia Bool Reals Lra Binomial.
From Verif Require Import Base NumPy TensorLemmas Families SpecFamilies FamiliesLemmas.
Import ListNotations.
Open Scope R_scope.

(** ** C20: the message to a parent is the coefficient of the parent's moments in
    E[log p(x | parents)] = phi(parents).u + g(parents) + f. *)

Definition dot2 (a b : R * R) : R := fst a * fst b + snd a * snd b.

Theorem C20_gamma : forall u f,
  (forall u_b, exists rest, forall u_a,
     dot2 (gamma_phi u_a u_b) u + gamma_cgf u_a u_b + f = dot2 (gamma_message_a u u_b) u_a + rest) /\
  (forall u_a, exists rest, forall u_b,
     dot2 (gamma_phi u_a u_b) u + gamma_cgf u_a u_b + f = dot2 (gamma_message_b u u_a) u_b + rest).
Proof.
  intros [x lx] f. split.
  - intros [b lb]. exists (- b * x + f). intros [a ga]. unfold dot2, gamma_phi, gamma_cgf, gamma_message_a, gamma_message_b, poisson_phi, poisson_cgf, poisson_message. cbn [fst snd]. ring.
  - intros [a ga]. exists (a * lx - ga + f). intros [b lb]. unfold dot2, gamma_phi, gamma_cgf, gamma_message_a, gamma_message_b, poisson_phi, poisson_cgf, poisson_message. cbn [fst snd]. ring.
Qed.
Print Assumptions C20_gamma.

Theorem C20_poisson : forall u f, exists rest, forall u_lambda,
  poisson_phi u_lambda * u + poisson_cgf u_lambda + f = dot2 (poisson_message u) u_lambda + rest.
Proof. intros u f. exists f. intros [l ll]. unfold dot2, gamma_phi, gamma_cgf, gamma_message_a, gamma_message_b, poisson_phi, poisson_cgf, poisson_message. cbn [fst snd]. ring. Qed.
Print Assumptions C20_poisson.

(** Binomial; Bernoulli is the case N = 1. *)
Theorem C20_binomial : forall N u f, exists rest, forall u_p,
  binomial_phi u_p * u + binomial_cgf N u_p + f = dotv 2 (binomial_message N u) u_p + rest.
Proof. intros N u f. exists f. intros u_p. unfold dotv. cbn. unfold binomial_phi, binomial_cgf. ring. Qed.
Print Assumptions C20_binomial.

(** Dirichlet; Beta is the case K = 2. *)
Theorem C20_dirichlet : forall K u f, exists rest, forall u_alpha,
  dotv K (dirichlet_phi u_alpha) u + dirichlet_cgf u_alpha + f =
  (dotv K (fst (dirichlet_message u)) (fst u_alpha) + snd (dirichlet_message u) * snd u_alpha) + rest.
Proof.
  intros K u f. exists f. intros [a z]. unfold dirichlet_phi, dirichlet_message, dirichlet_cgf. cbn [fst snd].
  replace (dotv K a u) with (dotv K u a); [ring|]. apply rsum_ext. intros. ring.
Qed.
Print Assumptions C20_dirichlet.

(** Multinomial and Categorical. *)
Theorem C20_multinomial : forall K u f, exists rest, forall u_p,
  dotv K (multinomial_phi u_p) u + multinomial_cgf u_p + f = dotv K (multinomial_message u) u_p + rest.
Proof.
  intros K u f. exists f. intros u_p. unfold multinomial_phi, multinomial_message, multinomial_cgf.
  replace (dotv K u_p u) with (dotv K u u_p); [ring|]. apply rsum_ext. intros. ring.
Qed.
Print Assumptions C20_multinomial.

Example C20_gamma_example :
  dot2 (gamma_phi (2, 0) (3, 1)) (5, 7) + gamma_cgf (2, 0) (3, 1) + 11 =
  dot2 (gamma_message_a (5, 7) (3, 1)) (2, 0) + (- 3 * 5 + 11).
Proof. unfold dot2, gamma_phi, gamma_cgf, gamma_message_a, gamma_message_b, poisson_phi, poisson_cgf, poisson_message. cbn [fst snd]. ring. Qed.

(** ** C21: for fixed parents and a fixed value, phi.u + g + f is the logarithm of
    the textbook density or mass function. *)

Theorem C21_poisson : forall lg lambda k, is_log_factorial lg -> 0 < lambda ->
  exists u_lambda u f,
    gammamoments_fixed lambda = Ok u_lambda /\ poisson_fixed lg (Z.of_nat k) = Ok (u, f) /\
    term0 (poisson_phi u_lambda) u + poisson_cgf u_lambda + f = ln (poisson_pmf lambda k).
Proof.
  intros lg l k Hlg Hl. unfold gammamoments_fixed, poisson_fixed.
  destruct (Rlt_dec l 0); [lra|]. destruct (Z.ltb_spec (Z.of_nat k) 0); [lia|].
  do 3 eexists. split; [reflexivity|]. split; [reflexivity|].
  rewrite term0_mul, <- INR_IZR_INZ, Hlg. unfold poisson_phi, poisson_cgf, poisson_pmf. cbn [fst snd].
  pose proof (fact_pos k). pose proof (pow_lt l k Hl). pose proof (exp_pos (- l)).
  rewrite ln_div, ln_mult, ln_exp, ln_pow by auto using Rmult_lt_0_compat. ring.
Qed.
Print Assumptions C21_poisson.

Theorem C21_gamma : forall lg Gam a b x, is_log_of lg Gam -> 0 < a -> 0 < b -> 0 < x ->
  exists u_a u_b u f,
    gammaprior_fixed lg a = Ok u_a /\ gammamoments_fixed b = Ok u_b /\ gamma_fixed x = Ok (u, f) /\
    term0 (fst (gamma_phi u_a u_b)) (fst u) + term0 (snd (gamma_phi u_a u_b)) (snd u)
      + gamma_cgf u_a u_b + f = ln (gamma_pdf Gam a b x).
Proof.
  intros lg Gam a b x H Ha Hb Hx. destruct (H a Ha) as [HG HL].
  unfold gammaprior_fixed, gammamoments_fixed, gamma_fixed.
  destruct (Rle_dec a 0); [lra|]. destruct (Rlt_dec b 0); [lra|]. destruct (Rlt_dec x 0); [lra|].
  do 4 eexists. split; [reflexivity|]. split; [reflexivity|]. split; [reflexivity|].
  rewrite !term0_mul. unfold gamma_phi, gamma_cgf, gamma_pdf. cbn [fst snd].
  pose proof (Rpower_pos b a). pose proof (Rpower_pos x (a - 1)). pose proof (exp_pos (- b * x)).
  assert (0 < Rpower b a / Gam a) by now apply Rdiv_lt_0_compat.
  rewrite ln_mult, ln_mult, ln_div, ln_exp, !ln_Rpower, HL by auto using Rmult_lt_0_compat. ring.
Qed.
Print Assumptions C21_gamma.

Theorem C21_binomial : forall lg (n k : nat) p, is_log_factorial lg -> 0 < p < 1 -> (k <= n)%nat ->
  exists u_p u f,
    betamoments_fixed p = Ok u_p /\ binomial_fixed lg (Z.of_nat n) (Z.of_nat k) = Ok (u, f) /\
    term0 (binomial_phi u_p) u + binomial_cgf (INR n) u_p + f = ln (binomial_pmf n p k).
Proof.
  intros lg n k p H Hp Hk. destruct (betamoments_ok p Hp) as (u_p & E & E0 & E1).
  unfold binomial_fixed. destruct (Z.ltb_spec (Z.of_nat k) 0); [lia|].
  destruct (Z.ltb_spec (Z.of_nat n) (Z.of_nat k)); [lia|]. cbn [orb].
  do 3 eexists. split; [exact E|]. split; [reflexivity|].
  rewrite term0_mul, <- !INR_IZR_INZ. unfold binomial_phi, binomial_cgf, binomial_pmf, C. rewrite E0, E1.
  replace (INR n - INR k + 1) with (INR (n - k) + 1) by (rewrite minus_INR by exact Hk; ring).
  rewrite !H. pose proof (fact_pos n). pose proof (fact_pos k). pose proof (fact_pos (n - k)).
  assert (0 < p) by lra. assert (0 < 1 - p) by lra.
  pose proof (pow_lt p k H5). pose proof (pow_lt (1 - p) (n - k) H6).
  rewrite ln_mult, ln_mult, ln_div, ln_mult, !ln_pow
    by auto using Rmult_lt_0_compat, Rdiv_lt_0_compat.
  rewrite minus_INR by exact Hk. ring.
Qed.
Print Assumptions C21_binomial.

(** Bernoulli is Binomial with one trial (bernoulli.py 37-38). *)
Theorem C21_bernoulli : forall lg (k : nat) p, is_log_factorial lg -> 0 < p < 1 -> (k <= 1)%nat ->
  exists u_p u f,
    betamoments_fixed p = Ok u_p /\ binomial_fixed lg 1 (Z.of_nat k) = Ok (u, f) /\
    term0 (binomial_phi u_p) u + binomial_cgf 1 u_p + f = ln (bernoulli_pmf p k).
Proof.
  intros lg k p H Hp Hk. destruct (C21_binomial lg 1 k p H Hp Hk) as (u_p & u & f & E1 & E2 & E3).
  exists u_p, u, f. split; [exact E1|]. split; [exact E2|]. replace 1 with (INR 1) at 1 by reflexivity.
  rewrite E3. f_equal. unfold binomial_pmf, bernoulli_pmf.
  destruct k as [|[|k]]; [| |lia]; unfold C; cbn; field.
Qed.
Print Assumptions C21_bernoulli.

Theorem C21_dirichlet : forall lg Gam K alpha p, is_log_of lg Gam -> (0 < K)%nat ->
  (forall i, (i < K)%nat -> 0 < alpha i) -> simplex K p ->
  exists u_alpha u f,
    concentration_fixed lg K alpha = Ok u_alpha /\ dirichlet_fixed K p = Ok (u, f) /\
    logpdf_term K (dirichlet_phi u_alpha) u + dirichlet_cgf u_alpha + f =
    ln (dirichlet_pdf Gam K alpha p).
Proof.
  intros lg Gam K alpha p H HK Ha Hp. destruct (dirichlet_fixed_ok K p Hp) as (u & f & E & Hu & ->).
  unfold concentration_fixed. rewrite any_lt0_false by (intros; left; auto).
  do 3 eexists. split; [reflexivity|]. split; [exact E|].
  rewrite logpdf_term_dot. unfold dirichlet_phi, dirichlet_cgf, dirichlet_pdf, dotv. cbn [fst snd].
  destruct (H _ (rsum_pos K alpha HK Ha)) as [G1 G2].
  destruct (ln_rprod K (fun i => Gam (alpha i))) as [P1 P2]; [intros; apply (H _); auto|].
  destruct (ln_rprod K (fun i => Rpower (p i) (alpha i - 1))) as [Q1 Q2]; [intros; apply Rpower_pos|].
  rewrite ln_mult, ln_div, P2, Q2, G2 by auto using Rdiv_lt_0_compat.
  rewrite (rsum_ext K (fun i => lg (alpha i)) (fun i => ln (Gam (alpha i)))); [|intros; apply (H _); auto].
  rewrite (rsum_ext K (fun i => ln (Rpower (p i) (alpha i - 1))) (fun i => alpha i * u i - ln (p i))).
  - rewrite rsum_minus. ring.
  - intros i _. rewrite ln_Rpower, Hu. ring.
Qed.
Print Assumptions C21_dirichlet.

Theorem C21_beta : forall lg Gam a b p, is_log_of lg Gam -> 0 < a -> 0 < b -> 0 < p < 1 ->
  let alpha := fun i => match i with O => a | _ => b end in
  exists u_alpha u f,
    concentration_fixed lg 2 alpha = Ok u_alpha /\ beta_fixed p = Ok (u, f) /\
    logpdf_term 2 (dirichlet_phi u_alpha) u + dirichlet_cgf u_alpha + f = ln (beta_pdf Gam a b p).
Proof.
  intros lg Gam a b p H Ha Hb Hp alpha.
  destruct (C21_dirichlet lg Gam 2 alpha (beta_pair p) H) as (ua & u & f & E1 & E2 & E3).
  - lia.
  - intros [|[|i]] Hi; cbn; [exact Ha|exact Hb|lia].
  - now apply beta_simplex.
  - exists ua, u, f. split; [exact E1|]. split; [exact E2|]. rewrite E3. f_equal.
    unfold dirichlet_pdf, beta_pdf. cbn.
    replace (0 + a + b) with (a + b) by ring. replace (p * 1 + 0) with p by ring.
    replace (p * -1 + 1) with (1 - p) by ring.
    replace (1 * Gam a * Gam b) with (Gam a * Gam b) by ring. ring.
Qed.
Print Assumptions C21_beta.

Lemma zsum_nat : forall x K, fold_right Z.add 0%Z (map (fun i => Z.of_nat (x i)) (seq 0 K)) =
  Z.of_nat (fold_right Nat.add 0%nat (map x (seq 0 K))).
Proof. intros x K. induction (seq 0 K) as [|a l IH]; [reflexivity|]. cbn. rewrite IH. lia. Qed.

Theorem C21_multinomial : forall lg K n p x, is_log_factorial lg -> simplex K p ->
  fold_right Nat.add 0%nat (map x (seq 0 K)) = n ->
  exists u_p u f,
    dirichletmoments_fixed K p = Ok u_p /\
    multinomial_fixed lg (Z.of_nat n) K (fun i => Z.of_nat (x i)) = Ok (u, f) /\
    logpdf_term K (multinomial_phi u_p) u + multinomial_cgf u_p + f = ln (multinomial_pmf K n p x).
Proof.
  intros lg K n p x H Hp Hn. destruct (dirichletmoments_ok K p Hp) as (u_p & E & Hu).
  unfold multinomial_fixed.
  destruct (existsb _ _) eqn:EX.
  { exfalso. apply existsb_exists in EX as [i [_ EX]]. apply Z.ltb_lt in EX. lia. }
  rewrite zsum_nat, Hn, Z.eqb_refl. cbn [negb].
  do 3 eexists. split; [exact E|]. split; [reflexivity|].
  rewrite logpdf_term_dot. unfold multinomial_phi, multinomial_cgf, multinomial_pmf, dotv.
  destruct (ln_rprod K (fun i => INR (fact (x i)))) as [P1 P2]; [intros; apply fact_pos|].
  destruct (ln_rprod K (fun i => p i ^ x i)) as [Q1 Q2]; [intros; apply pow_lt; apply Hp; assumption|].
  rewrite ln_mult, ln_div, P2, Q2 by auto using Rdiv_lt_0_compat, fact_pos.
  rewrite <- INR_IZR_INZ, H.
  rewrite (rsum_ext K (fun i => lg (IZR (Z.of_nat (x i)) + 1)) (fun i => ln (INR (fact (x i))))).
  - rewrite (rsum_ext K (fun i => ln (p i ^ x i)) (fun i => u_p i * IZR (Z.of_nat (x i)))); [ring|].
    intros i Hi. rewrite ln_pow, Hu, <- INR_IZR_INZ by (apply Hp; assumption). ring.
  - intros i _. now rewrite <- INR_IZR_INZ, H.
Qed.
Print Assumptions C21_multinomial.

Theorem C21_categorical : forall K p (k : nat), simplex K p -> (k < K)%nat ->
  exists u_p u f,
    dirichletmoments_fixed K p = Ok u_p /\ categorical_fixed K (Z.of_nat k) = Ok (u, f) /\
    logpdf_term K (multinomial_phi u_p) u + multinomial_cgf u_p + f = ln (p k).
Proof.
  intros K p k Hp Hk. destruct (dirichletmoments_ok K p Hp) as (u_p & E & Hu).
  unfold categorical_fixed. destruct (Z.ltb_spec (Z.of_nat k) 0); [lia|].
  destruct (Z.leb_spec (Z.of_nat K) (Z.of_nat k)); [lia|]. cbn [orb].
  do 3 eexists. split; [exact E|]. split; [reflexivity|].
  rewrite logpdf_term_dot. unfold multinomial_phi, multinomial_cgf, dotv.
  rewrite (rsum_ext K _ (fun i => if (i =? k)%nat then ln (p k) else 0)).
  - rewrite rsum_single by exact Hk. ring.
  - intros i _. unfold one_hot. destruct (Nat.eqb_spec i k) as [->|N].
    + rewrite Z.eqb_refl, Hu. ring.
    + replace (Z.of_nat i =? Z.of_nat k)%Z with false by (symmetry; apply Z.eqb_neq; lia). ring.
Qed.
Print Assumptions C21_categorical.

(** The hypotheses on the special functions hold for suitable functions. *)
Example C21_log_factorial : is_log_factorial (fun x => ln (INR (fact (Z.to_nat (up x - 2))))).
Proof.
  intros n. do 3 f_equal. rewrite <- (tech_up (INR n + 1) (Z.of_nat n + 2)); [lia| |].
  - rewrite plus_IZR, <- INR_IZR_INZ. lra.
  - rewrite plus_IZR, <- INR_IZR_INZ. lra.
Qed.
Example C21_log_of : is_log_of (fun x => ln (exp x)) exp.
Proof. intros x _. split; [apply exp_pos|reflexivity]. Qed.
Example C21_simplex : simplex 3 (fun i => match i with O => / 2 | 1%nat => / 3 | _ => / 6 end).
Proof. split; [|cbn; lra]. intros [|[|[|i]]] Hi; cbn; try lra; lia. Qed.
