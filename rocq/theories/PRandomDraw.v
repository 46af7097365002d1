(** C59: random() draws from the node's current distribution. *)
From Coq Require Import List Arith ZArith Lia Bool Reals Lra Binomial FunctionalExtensionality.
From Verif Require Import Base NumPy TensorLemmas Families SpecFamilies FamiliesLemmas PFamilies
  Linalg MatBridge SpecLinalg LinalgLemmas Gaussian SpecGaussian GaussLemmas GaussAlg PGaussian PGaussian2
  SpecMarkov RandomDraw SpecRandomDraw RandomDrawLemmas RandomDrawLemmas2.
Import ListNotations.
Open Scope R_scope.

(** ** Families drawn by NumPy: the mass function or density of what is asked from
    NumPy is exp(phi . u(x) + g + f(x)), the distribution of the node. *)

Theorem C59_poisson : forall lg phi k, is_log_factorial lg ->
  exists u f, poisson_fixed lg (Z.of_nat k) = Ok (u, f) /\
    exp (phi * u + snd (poisson_moments phi) + f) = poisson_pmf (poisson_request phi) k.
Proof.
  intros lg phi k H. unfold poisson_fixed. destruct (Z.ltb_spec (Z.of_nat k) 0); [lia|].
  do 2 eexists. split; [reflexivity|]. rewrite <- INR_IZR_INZ, H. unfold poisson_moments, poisson_request, poisson_pmf. cbn [snd].
  pose proof (fact_pos k). rewrite !exp_plus, (exp_Ropp (ln _)), exp_ln by assumption.
  replace (exp (phi * INR k)) with (exp phi ^ k); [unfold Rdiv; ring|].
  rewrite <- (Rpower_pow k (exp phi)) by apply exp_pos. unfold Rpower. rewrite ln_exp. f_equal. ring.
Qed.
Print Assumptions C59_poisson.

Theorem C59_binomial : forall lg N phi k, is_log_factorial lg -> (k <= N)%nat ->
  let '(n, p) := binomial_request N phi in
  n = N /\ 0 < p < 1 /\
  exists u f, binomial_fixed lg (Z.of_nat N) (Z.of_nat k) = Ok (u, f) /\
    exp (phi * u + snd (binomial_moments (INR N) phi) + f) = binomial_pmf n p k.
Proof.
  intros lg N phi k H Hk. unfold binomial_request, logodds_to_probability.
  pose proof (exp_pos (- phi)) as E1. pose proof (exp_pos phi) as E2.
  assert (EE : exp phi * exp (- phi) = 1) by (rewrite <- exp_plus, Rplus_opp_r; apply exp_0).
  set (p := 1 / (1 + exp (- phi))).
  assert (P1 : p * (1 + exp (- phi)) = 1) by (unfold p; field; lra).
  assert (Pp : 0 < p < 1) by nra.
  split; [reflexivity|]. split; [exact Pp|].
  destruct (C21_binomial lg N k p H Pp Hk) as (u_p & u & f & B1 & B2 & B3).
  exists u, f. split; [exact B2|]. 
  destruct (betamoments_ok p Pp) as (u_p' & E & F0 & F1). rewrite B1 in E. injection E as <-.
  assert (PM : 0 < binomial_pmf N p k).
  { unfold binomial_pmf, C. pose proof (fact_pos N). pose proof (fact_pos k). pose proof (fact_pos (N - k)).
    repeat apply Rmult_lt_0_compat; try apply pow_lt; try lra. apply Rinv_0_lt_compat. now apply Rmult_lt_0_compat. }
  rewrite <- (exp_ln _ PM), <- B3, term0_mul. f_equal. unfold binomial_phi, binomial_cgf, binomial_moments. cbn [snd].
  rewrite F0, F1.
  assert (L1 : ln (1 - p) = - ln (1 + exp phi)).
  { rewrite <- ln_Rinv by lra. f_equal. apply Rmult_eq_reg_r with (1 + exp phi); [|lra]. rewrite Rinv_l by lra. 
    assert (1 - p = p * exp (- phi)) by lra. nra. }
  assert (L2 : ln p = phi - ln (1 + exp phi)).
  { replace (phi - ln (1 + exp phi)) with (phi + ln (1 - p)) by (rewrite L1; ring). replace p with (exp phi * (1 - p)) at 1 by nra. rewrite ln_mult, ln_exp by lra. reflexivity. }
  rewrite L2, L1. ring.
Qed.
Print Assumptions C59_binomial.

Theorem C59_multinomial : forall lg N K phi x, is_log_factorial lg -> (0 < K)%nat ->
  fold_right Nat.add 0%nat (map x (seq 0 K)) = N ->
  let '(n, p) := multinomial_request N K phi in
  n = N /\ simplex K p /\
  exists u f, multinomial_fixed lg (Z.of_nat N) K (fun i => Z.of_nat (x i)) = Ok (u, f) /\
    exp (dotv K phi u + snd (multinomial_moments (INR N) K phi) + f) = multinomial_pmf K n p x.
Proof.
  intros lg N K phi x H HK Hx. unfold multinomial_request. destruct (normalized_expv_ok K phi HK) as [H1 H2].
  set (p := fst (normalized_expv K phi)) in *. pose proof (sumexp_pos K phi HK) as HS.
  assert (Sp : simplex K p).
  { split; [intros i Hi; rewrite H1; apply Rdiv_lt_0_compat; [apply exp_pos|exact HS]|].
    rewrite (rsum_ext K p (fun i => exp (phi i) * / sumexp K phi)) by (intros; apply H1).
    rewrite rsum_scal_r. change (rsum K (fun i => exp (phi i))) with (sumexp K phi). field. lra. }
  split; [reflexivity|]. split; [exact Sp|].
  destruct (C21_multinomial lg K N p x H Sp Hx) as (u_p & u & f & B1 & B2 & B3).
  exists u, f. split; [exact B2|].
  destruct (dirichletmoments_ok K p Sp) as (u_p' & E & F). rewrite B1 in E. injection E as <-.
  assert (PM : 0 < multinomial_pmf K N p x).
  { unfold multinomial_pmf. apply Rmult_lt_0_compat.
    - apply Rdiv_lt_0_compat; [apply fact_pos|]. apply ln_rprod. intros; apply fact_pos.
    - apply ln_rprod. intros i Hi. apply pow_lt. now apply Sp. }
  rewrite <- (exp_ln _ PM), <- B3, logpdf_term_dot. f_equal. unfold multinomial_phi, multinomial_cgf.
  assert (US : rsum K u = INR N /\ True).
  { split; [|exact I]. unfold multinomial_fixed in B2. destruct (existsb _ _); [discriminate|]. destruct (negb _); [discriminate|].
    injection B2 as <- _. rewrite <- Hx. clear. 
    assert (G : forall n, rsum n (fun i => IZR (Z.of_nat (x i))) = INR (fold_right Nat.add 0%nat (map x (seq 0 n)))).
    { induction n as [|n IH]; [reflexivity|]. rewrite seq_S, map_app, fold_right_app. simpl. rewrite IH, <- INR_IZR_INZ.
      assert (FF : forall l a, fold_right Nat.add a l = (fold_right Nat.add 0 l + a)%nat) by (induction l as [|y l IHl]; intros a; simpl; [reflexivity|rewrite IHl; lia]).
      rewrite (FF _ (x n + 0)%nat), plus_INR, Nat.add_0_r. reflexivity. }
    apply G. }
  destruct US as [US _]. destruct (multinomial_moments_ok (INR N) K phi HK) as [_ ->].
  assert (DD : dotv K u_p u = dotv K phi u - ln (sumexp K phi) * INR N).
  { unfold dotv. rewrite <- US, <- rsum_scal, <- rsum_minus. apply rsum_ext. intros i Hi. rewrite F, H1.
    rewrite ln_div, ln_exp by (auto; apply exp_pos). ring. }
  rewrite DD. ring.
Qed.
Print Assumptions C59_multinomial.

(** The gamma distribution, and the check of the samples. *)
Theorem C59_gamma : forall lg dg Gam phi u g x, is_log_of lg Gam -> 0 < snd phi -> 0 < x ->
  gamma_moments lg dg phi = Ok (u, g) ->
  let '(shape, scale) := gamma_request phi in
  0 < scale /\ np_gamma_mean shape scale = fst u /\
  exists ux f, gamma_fixed x = Ok (ux, f) /\
    exp (fst phi * fst ux + snd phi * snd ux + g + f) = np_gamma_pdf Gam shape scale x.
Proof.
  intros lg dg Gam phi u g x H Ha Hx M. unfold gamma_moments in M. destruct (Rle_dec (- fst phi) 0) as [|Hb]; [discriminate|].
  injection M as <- <-. unfold gamma_request. set (b := - fst phi) in *. assert (0 < b) by lra.
  assert (SC : -1 / fst phi = / b) by (unfold b; field; unfold b in *; lra).
  rewrite SC. split; [now apply Rinv_0_lt_compat|]. split; [unfold np_gamma_mean; cbn [fst]; reflexivity|].
  unfold gamma_fixed. destruct (Rlt_dec x 0); [lra|]. do 2 eexists. split; [reflexivity|]. cbn [fst snd].
  destruct (H (snd phi) Ha) as [G1 G2]. unfold np_gamma_pdf, Rpower. rewrite G2, ln_Rinv by lra.
  replace (x / / b) with (b * x) by (field; lra). unfold Rdiv.
  rewrite Rinv_mult, <- exp_Ropp. replace (/ Gam (snd phi)) with (exp (- ln (Gam (snd phi)))) by (rewrite exp_Ropp, exp_ln by lra; reflexivity).
  rewrite <- !exp_plus. f_equal. unfold b. ring.
Qed.
Print Assumptions C59_gamma.

Theorem C59_gamma_zero : forall x,
  (In 0 x -> gamma_result x = Err RuntimeError) /\ (~ In 0 x -> gamma_result x = Ok x).
Proof.
  intros x. unfold gamma_result. destruct (existsb _ x) eqn:E; split; intros H; try reflexivity.
  - exfalso. apply existsb_exists in E as (v & I & V). destruct (Req_EM_T v 0) as [->|]; [contradiction|discriminate].
  - exfalso. assert (X : existsb (fun v => if Req_EM_T v 0 then true else false) x = true).
    { apply existsb_exists. exists 0. split; [exact H|]. destruct (Req_EM_T 0 0); [reflexivity|lra]. }
    congruence.
Qed.
Print Assumptions C59_gamma_zero.

(** Dirichlet: the samples x are gamma distributed with the asked shapes and scale
    one.  In the coordinates (p, s), p the result and s the sum of the samples
    (x = s p, volume element s^(K-1)), their joint density is the node's density of
    p times a density of s: p has the node's distribution, whatever s. *)
Theorem C59_dirichlet : forall lg dg Gam K phi u g x, is_log_of lg Gam -> (0 < K)%nat ->
  dirichlet_moments lg dg K phi = Ok (u, g) -> (forall i, (i < K)%nat -> 0 < x i) ->
  exists p, dirichlet_result K x = Ok p /\ simplex K p /\
    exists up f, dirichlet_fixed K p = Ok (up, f) /\
    let s := rsum K x in
    (forall i, (i < K)%nat -> x i = s * p i) /\
    rprod K (fun i => np_gamma_pdf Gam (dirichlet_request phi i) 1 (x i)) * s ^ (K - 1) =
    exp (dotv K phi up + g + f) * np_gamma_pdf Gam (rsum K phi) 1 s.
Proof.
  intros lg dg Gam K phi u g x H HK M Hx. unfold dirichlet_moments in M.
  destruct (any_le0 K phi) eqn:AL; [discriminate|]. injection M as _ <-.
  assert (Hphi : forall i, (i < K)%nat -> 0 < phi i).
  { intros i Hi. unfold any_le0 in AL. destruct (Rle_dec (phi i) 0) as [L|]; [exfalso|lra].
    assert (X : existsb (fun i => if Rle_dec (phi i) 0 then true else false) (seq 0 K) = true).
    { apply existsb_exists. exists i. split; [apply in_seq; lia|]. destruct (Rle_dec (phi i) 0); [reflexivity|contradiction]. }
    first [congruence|unfold anyb in *; congruence]. }
  assert (Ps : 0 < rsum K x) by (apply rsum_pos; assumption). set (s := rsum K x) in *.
  unfold dirichlet_result. fold s. destruct (Req_EM_T s 0); [lra|]. eexists. split; [reflexivity|].
  assert (Sp : simplex K (fun i => x i / s)).
  { split; [intros i Hi; apply Rdiv_lt_0_compat; auto|]. rewrite (rsum_ext K _ (fun i => x i * / s)) by reflexivity.
    rewrite (rsum_scal_r K (/ s) x). fold s. apply Rinv_r. lra. }
  split; [exact Sp|]. destruct (dirichlet_fixed_ok K _ Sp) as (up & f & E & Hu & ->).
  exists up. eexists. split; [exact E|]. cbn zeta. fold s. split; [intros i Hi; field; lra|].
  assert (Q : forall i, (i < K)%nat -> 0 < np_gamma_pdf Gam (phi i) 1 (x i)).
  { intros i Hi. unfold np_gamma_pdf. apply Rdiv_lt_0_compat; [apply Rmult_lt_0_compat; apply exp_pos|].
    apply Rmult_lt_0_compat; [apply exp_pos|]. apply (H _ (Hphi i Hi)). }
  destruct (ln_rprod K (fun i => np_gamma_pdf Gam (phi i) 1 (x i)) Q) as [P1 P2].
  destruct (H _ (rsum_pos K phi HK Hphi)) as [G1 G2].
  assert (Q2 : 0 < np_gamma_pdf Gam (rsum K phi) 1 s).
  { unfold np_gamma_pdf. apply Rdiv_lt_0_compat; [apply Rmult_lt_0_compat; apply exp_pos|]. apply Rmult_lt_0_compat; [apply exp_pos|exact G1]. }
  apply ln_inv; [apply Rmult_lt_0_compat; [exact P1|apply pow_lt; exact Ps]|apply Rmult_lt_0_compat; [apply exp_pos|exact Q2]|].
  unfold dirichlet_request. rewrite !ln_mult by (try assumption; try apply exp_pos; apply pow_lt; exact Ps).
  rewrite ln_exp, P2, ln_pow by exact Ps.
  assert (LG : forall a y, 0 < Gam a -> 0 < y -> ln (np_gamma_pdf Gam a 1 y) = (a - 1) * ln y - y - ln (Gam a)).
  { intros a y Ga Hy. unfold np_gamma_pdf, Rpower. rewrite ln_1.
    rewrite ln_div, !ln_mult, !ln_exp by (try apply Rmult_lt_0_compat; try apply exp_pos; assumption). field. }
  rewrite LG by assumption.
  rewrite (rsum_ext K _ (fun i => (phi i - 1) * ln (x i) - x i - ln (Gam (phi i)))) by (intros i Hi; apply LG; [apply (H _ (Hphi i Hi))|auto]).
  rewrite !rsum_minus. change (rsum K (fun i => x i)) with s.
  rewrite (rsum_ext K (fun i => lg (phi i)) (fun i => ln (Gam (phi i)))) by (intros i Hi; apply (H _ (Hphi i Hi))).
  rewrite G2.
  assert (A : rsum K (fun i => (phi i - 1) * ln (x i)) = dotv K phi up - rsum K (fun i => ln (x i / s)) + (rsum K phi - INR K) * ln s).
  { unfold dotv. rewrite (rsum_ext K (fun i => phi i * up i) (fun i => phi i * ln (x i) + (- ln s) * phi i)).
    - rewrite rsum_plus, rsum_scal. rewrite (rsum_ext K (fun i => ln (x i / s)) (fun i => ln (x i) - ln s)).
      + rewrite rsum_minus. rewrite (rsum_ext K (fun i => (phi i - 1) * ln (x i)) (fun i => phi i * ln (x i) - ln (x i))) by (intros; ring).
        rewrite rsum_minus, rsum_const. change (rsum K (fun i => phi i)) with (rsum K phi). ring.
      + intros i Hi. apply ln_div; auto.
    - intros i Hi. rewrite Hu, ln_div by auto. ring. }
  rewrite A, minus_INR by lia. simpl INR. fold s. ring.
Qed.
Print Assumptions C59_dirichlet.

(** The beta node returns the first of two Dirichlet probabilities. *)
Theorem C59_beta : forall x, 0 < x O -> 0 < x 1%nat ->
  exists q p, dirichlet_result 2 x = Ok q /\ beta_result x = Ok p /\ p = q O /\ 0 < p < 1 /\ q 1%nat = 1 - p.
Proof.
  intros x H0 H1. unfold beta_result, dirichlet_result. cbn [rsum].
  destruct (Req_EM_T (0 + x O + x 1%nat) 0); [lra|]. cbn [bind]. do 2 eexists.
  split; [reflexivity|]. split; [reflexivity|]. split; [reflexivity|]. cbn beta.
  assert (P : 0 < 0 + x O + x 1%nat) by lra.
  split; [split; [apply Rdiv_lt_0_compat; lra|]|field; lra].
  apply Rmult_lt_reg_r with (0 + x O + x 1%nat); [exact P|]. unfold Rdiv. rewrite Rmult_assoc, Rinv_l by lra. lra.
Qed.
Print Assumptions C59_beta.

(** ** Draws from uniform variates *)

Theorem C59_bernoulli : forall p, 0 <= p <= 1 ->
  let f := fun us : nat -> R => Ok (bernoulli_draw p (us O)) in
  draws_with_probability 1 f true p /\ draws_with_probability 1 f false (1 - p).
Proof.
  intros p Hp f. unfold f, bernoulli_draw. split.
  - exists (fun _ => 0), (fun _ => p). split; [intros; lra|]. split; [|simpl; ring].
    intros us Hu. destruct (Rlt_dec (us O) p) as [L|L]; split.
    + reflexivity.
    + intros _ n Hn. assert (n = O) as -> by lia. specialize (Hu O Hn). lra.
    + intros H. specialize (H O ltac:(lia)). lra.
    + discriminate.
  - exists (fun _ => p), (fun _ => 1). split; [intros; lra|]. split; [|simpl; ring].
    intros us Hu. destruct (Rlt_dec (us O) p) as [L|L]; split.
    + intros H. specialize (H O ltac:(lia)). lra.
    + discriminate.
    + reflexivity.
    + intros _ n Hn. assert (n = O) as -> by lia. specialize (Hu O Hn). lra.
Qed.
Print Assumptions C59_bernoulli.

(** A categorical node: state k is drawn with the probability that the node reports
    as its moment, exp(phi_k) / sum_i exp(phi_i). *)
Theorem C59_categorical : forall K phi k, (k < K)%nat ->
  draws_with_probability 1 (fun us => fst (categorical_random K phi (us O))) k
    (fst (multinomial_moments 1 K phi) k) /\
  fst (multinomial_moments 1 K phi) k = exp (phi k) / rsum K (fun i => exp (phi i)).
Proof.
  intros K phi k Hk. assert (HK : (0 < K)%nat) by lia.
  destruct (multinomial_moments_ok 1 K phi HK) as [MM _].
  assert (E : fst (multinomial_moments 1 K phi) k = exp (phi k) / rsum K (fun i => exp (phi i))) by (rewrite MM; unfold sumexp; ring).
  split; [|exact E]. rewrite E. unfold categorical_random. cbn [fst].
  set (m := vmax (K - 1) phi). set (p := fun i => exp (phi i - m)).
  assert (Pp : forall i, (i < K)%nat -> 0 < p i) by (intros; apply exp_pos).
  destruct (below_range K p k Hk Pp) as [B1 B2].
  exists (fun _ => below K p k), (fun _ => below K p k + p k / rsum K p). split; [intros; lra|]. split.
  - intros us Hu. specialize (Hu O ltac:(lia)).
    destruct (categorical_draw_ok K p (us O) HK Pp) as (j & Hj & Ej & I); [lra|].
    specialize (I k Hk). split.
    + intros H. apply I. specialize (H O ltac:(lia)). cbn beta in H. lra.
    + intros H n Hn. apply I in H. assert (n = O) as -> by lia. lra.
  - cbn [rprod]. 
    assert (F : forall i, p i = exp (phi i) * exp (- m)) by (intros i; unfold p, Rminus; apply exp_plus).
    rewrite (rsum_ext K p (fun i => exp (phi i) * exp (- m))) by (intros; apply F). rewrite rsum_scal_r, F.
    pose proof (exp_pos (- m)). assert (0 < rsum K (fun i => exp (phi i))) by (apply rsum_pos; [exact HK|intros; apply exp_pos]).
    field. lra.
Qed.
Print Assumptions C59_categorical.

(** The draw leaves the other parameters alone but rewrites the node's own natural
    parameters: afterwards the lower bound is larger by the largest of them, although
    the distribution and the data are the same. *)
Theorem C59_categorical_state_refuted :
  (forall K phi u prior_u message_u const, (0 < K)%nat ->
     let '(m, g) := multinomial_moments 1 K phi in
     let phi' := snd (categorical_random K phi u) in
     node_bound prior_u message_u (dotv K phi' m) g const =
     node_bound prior_u message_u (dotv K phi m) g const + vmax (K - 1) phi) /\
  exists K phi u, let '(m, g) := multinomial_moments 1 K phi in
     let phi' := snd (categorical_random K phi u) in
     node_bound 0 0 (dotv K phi' m) g 0 <> node_bound 0 0 (dotv K phi m) g 0.
Proof.
  assert (G : forall K phi u prior_u message_u const, (0 < K)%nat ->
     let '(m, g) := multinomial_moments 1 K phi in
     let phi' := snd (categorical_random K phi u) in
     node_bound prior_u message_u (dotv K phi' m) g const =
     node_bound prior_u message_u (dotv K phi m) g const + vmax (K - 1) phi).
  { intros K phi u a b c HK. pose proof (multinomial_total 1 K phi HK) as T.
    destruct (multinomial_moments 1 K phi) as [m g]. cbn [fst] in T. unfold categorical_random. cbn [snd].
    unfold node_bound, dotv. rewrite (rsum_ext K _ (fun i => phi i * m i - vmax (K - 1) phi * m i)) by (intros; ring).
    rewrite rsum_minus, rsum_scal. change (rsum K (fun x => m x)) with (rsum K m). rewrite T. ring. }
  split; [exact G|]. exists 2%nat, (fun i => match i with O => -1 | _ => -2 end), (1 / 2).
  specialize (G 2%nat (fun i => match i with O => -1 | _ => -2 end) (1 / 2) 0 0 0 ltac:(lia)).
  destruct (multinomial_moments 1 2 _) as [m g]. cbn zeta in G |- *. rewrite G.
  cbn [vmax Nat.sub]. rewrite Rmax_left by lra. lra.
Qed.
Print Assumptions C59_categorical_state_refuted.

(** A Markov chain: what is drawn is the chain whose initial and transition
    probabilities are the exponentials of the natural parameters, each row divided by
    its sum. *)
Definition row_normalised (K : nat) (v : vec) (i : nat) : R := exp (v i) / rsum K (fun j => exp (v j)).
Theorem C59_markov : forall N K T phi0 phi1 y, (0 < K)%nat ->
  length y = N -> (0 < N)%nat -> (forall k, In k y -> (k < K)%nat) ->
  draws_with_probability N (cmc_random N K T phi0 phi1) y
    (path_weight (row_normalised K phi0) (fun n i => row_normalised K (phi1 (Nat.min n (T - 1)) i)) y).
Proof.
  intros N K T phi0 phi1 y HK Ly HN Iy. destruct y as [|z r]; [simpl in Ly; lia|]. simpl in Ly.
  assert (Hz : (z < K)%nat) by (apply Iy; now left).
  assert (Hr : forall k, In k r -> (k < K)%nat) by (intros; apply Iy; now right).
  set (P := fun n i => softmax K (phi1 n i)).
  assert (HP : forall n i j, 0 < P n i j) by (intros; apply (softmax_ok K _ HK)).
  set (p0 := softmax K phi0). assert (Hp0 : forall i, (i < K)%nat -> 0 < p0 i) by (intros; apply (softmax_ok K _ HK)).
  set (tab := fun n => match n with O => p0 | S k => P (Nat.min k (T - 1)) (nth k (z :: r) O) end).
  assert (Pt : forall n i, (i < K)%nat -> 0 < tab n i) by (intros [|n] i Hi; [now apply Hp0|apply HP]).
  assert (Hy : forall n, (n < N)%nat -> (nth n (z :: r) O < K)%nat) by (intros n Hn; apply Iy, nth_In; simpl; lia).
  assert (BR := fun n Hn => below_range K (tab n) (nth n (z :: r) O) (Hy n Hn) (Pt n)).
  exists (fun n => below K (tab n) (nth n (z :: r) O)),
         (fun n => below K (tab n) (nth n (z :: r) O) + tab n (nth n (z :: r) O) / rsum K (tab n)).
  split; [exact BR|]. split.
  - intros us Hu.
    destruct (categorical_draw_ok K p0 (us O) HK Hp0) as (j & Hj & Ej & I); [specialize (Hu O HN); lra|].
    specialize (I z Hz).
    assert (CP := chain_states_path K T P HK HP r us O z Hz Hr).
    assert (HU : forall k, (0 < k <= 0 + length r)%nat -> 0 < us k <= 1) by (intros k Hk; specialize (Hu k ltac:(lia)); lra).
    specialize (CP HU). replace (length r) with (N - 1)%nat in CP by lia.
    assert (EC : cmc_random N K T phi0 phi1 us = chain_states K T P us 0 (N - 1) j).
    { unfold cmc_random. destruct (Nat.eqb_spec N 0); [lia|]. fold p0. rewrite Ej. reflexivity. }
    rewrite EC. split.
    + intros H. assert (j = z) as ->.
      { assert (X : categorical_draw K p0 (us O) = Ok z).
        { apply I. specialize (H O HN). cbn [tab nth] in H. lra. }
        rewrite Ej in X. congruence. }
      apply CP. intros k Hk. specialize (H (S k) ltac:(lia)). cbn [Nat.add nth tab] in H |- *. cbn zeta. lra.
    + intros H. destruct (chain_states_ok K T P HK HP (N - 1) us O j Hj) as (r' & Er & _ & _).
      { intros k Hk. apply HU. lia. }
      assert (j = z) as -> by (rewrite Er in H; congruence).
      assert (X := proj1 CP H). intros n Hn. destruct n as [|n].
      * apply I in Ej. cbn [tab nth]. lra.
      * specialize (X n ltac:(lia)). cbn [Nat.add] in X. cbn zeta in X.
        change (nth (S n) (z :: r) O) with (nth n r O).
        change (tab (S n)) with (P (Nat.min n (T - 1)) (nth n (z :: r) O)). lra.
  - unfold path_weight. rewrite steps_weight_prod. rewrite <- Ly, rprod_S_l. f_equal.
    + cbn [tab nth]. destruct (softmax_ok K phi0 HK) as (S1 & _ & S3). fold p0 in S1, S3. rewrite S3, S1. unfold row_normalised, sumexp. field.
      assert (0 < rsum K (fun j => exp (phi0 j))) by (apply rsum_pos; [exact HK|intros; apply exp_pos]). lra.
    + apply rprod_ext. intros k Hk. change (nth (S k) (z :: r) O) with (nth k r O).
      change (tab (S k)) with (softmax K (phi1 (Nat.min k (T - 1)) (nth k (z :: r) O))). cbn [Nat.add].
      destruct (softmax_ok K (phi1 (Nat.min k (T - 1)) (nth k (z :: r) O)) HK) as (S1 & _ & S3). rewrite S3, S1. unfold row_normalised, sumexp. field.
      assert (0 < rsum K (fun j => exp (phi1 (Nat.min k (T - 1)) (nth k (z :: r) O) j))) by (apply rsum_pos; [exact HK|intros; apply exp_pos]). lra.
Qed.
Print Assumptions C59_markov.

(** That is the distribution of the node when, at each time, the rows of
    exp(phi1) have the same sum, as for given (fixed) transition probabilities. *)
Theorem C59_markov_distribution_partial : forall N K phi0 phi1 y c, (0 < K)%nat ->
  length y = N -> (0 < N)%nat -> (forall k, In k y -> (k < K)%nat) ->
  (forall n i, (i < K)%nat -> rsum K (fun j => exp (phi1 n i j)) = c n) ->
  let w0 := fun i => exp (phi0 i) in
  let w := fun n i j => exp (phi1 n i j) in
  draws_with_probability N (cmc_random N K (N - 1) phi0 phi1) y
    (path_weight w0 w y / normaliser K (N - 1) w0 w).
Proof.
  intros N K phi0 phi1 y c HK Ly HN Iy Hc w0 w.
  assert (G := C59_markov N K (N - 1) phi0 phi1 y HK Ly HN Iy).
  replace (path_weight w0 w y / normaliser K (N - 1) w0 w) with
    (path_weight (row_normalised K phi0) (fun n i => row_normalised K (phi1 (Nat.min n (N - 1 - 1)) i)) y); [exact G|].
  destruct y as [|z r]; [simpl in Ly; lia|]. simpl in Ly. unfold path_weight. rewrite !steps_weight_prod.
  rewrite (normaliser_rows K (N - 1) w0 w c Hc). replace (N - 1)%nat with (length r) by lia.
  assert (Cp : forall n, 0 < c n) by (intros n; rewrite <- (Hc n O HK); apply rsum_pos; [exact HK|intros; apply exp_pos]).
  assert (S0 : 0 < rsum K w0) by (apply rsum_pos; [exact HK|intros; apply exp_pos]).
  assert (PC : forall m, 0 < rprod m c) by (induction m as [|m IH]; simpl; [lra|apply Rmult_lt_0_compat; auto]).
  assert (PR : forall m, (m <= length r)%nat -> rprod m (fun k => row_normalised K (phi1 (Nat.min (0 + k) (length r - 1)) (nth k (z :: r) O)) (nth k r O)) * rprod m c
     = rprod m (fun k => w (0 + k)%nat (nth k (z :: r) O) (nth k r O))).
  { induction m as [|m IH]; intros Hm; [simpl; ring|]. cbn [rprod]. rewrite <- (IH ltac:(lia)).
    unfold row_normalised at 2. rewrite Nat.min_l by lia. cbn [Nat.add]. rewrite (Hc m (nth m (z :: r) O)) by (apply Iy, nth_In; simpl; lia).
    unfold w. field. specialize (Cp m). lra. }
  specialize (PR (length r) (le_n _)). rewrite <- PR. unfold row_normalised at 1. change (rsum K (fun j => exp (phi0 j))) with (rsum K w0).
  unfold w0 at 2. field. specialize (PC (length r)). lra.
Qed.
Print Assumptions C59_markov_distribution_partial.

(** In general it is not: two states, two time instances, initial probabilities
    (1/2, 1/2), transition probabilities [[1/2, 1/2], [1/4, 3/4]], and a child whose
    likelihood is four times larger for state 0 at the second time. *)
Definition post_phi0 : vec := fun _ => ln (1 / 2).
Definition post_phi1 (n i j : nat) : R :=
  match i, j with O, O => ln (1 / 2) + ln 4 | O, _ => ln (1 / 2) | _, O => ln (1 / 4) + ln 4 | _, _ => ln (3 / 4) end.
Theorem C59_markov_refuted :
  let w0 := fun i => exp (post_phi0 i) in
  let w := fun n i j => exp (post_phi1 n i j) in
  let p := path_weight w0 w [0; 0]%nat / normaliser 2 1 w0 w in
  p = 8 / 17 /\
  draws_with_probability 2 (cmc_random 2 2 1 post_phi0 post_phi1) [0; 0]%nat (2 / 5) /\
  ~ draws_with_probability 2 (cmc_random 2 2 1 post_phi0 post_phi1) [0; 0]%nat p.
Proof.
  intros w0 w p.
  assert (E0 : exp (ln (1 / 2)) = 1 / 2) by (apply exp_ln; lra).
  assert (E1 : exp (ln (1 / 2) + ln 4) = 2) by (rewrite exp_plus, !exp_ln by lra; lra).
  assert (E2 : exp (ln (1 / 4) + ln 4) = 1) by (rewrite exp_plus, !exp_ln by lra; lra).
  assert (E3 : exp (ln (3 / 4)) = 3 / 4) by (apply exp_ln; lra).
  assert (Ep : p = 8 / 17).
  { unfold p, normaliser, weight_of, w0, w, post_phi0, post_phi1. cbn -[exp ln]. rewrite E0, E1, E2, E3. cbn. lra. }
  assert (D : draws_with_probability 2 (cmc_random 2 2 1 post_phi0 post_phi1) [0; 0]%nat (2 / 5)).
  { assert (G := C59_markov 2 2 1 post_phi0 post_phi1 [0; 0]%nat ltac:(lia) eq_refl ltac:(lia)).
    assert (V : path_weight (row_normalised 2 post_phi0) (fun n i => row_normalised 2 (post_phi1 (Nat.min n (1 - 1)) i)) [0; 0]%nat = 2 / 5).
    { cbn -[row_normalised]. unfold row_normalised, post_phi0, post_phi1. cbn [rsum]. rewrite E0, E1. field. }
    rewrite V in G. apply G. intros k [<-|[<-|[]]]; lia. }
  split; [exact Ep|]. split; [exact D|]. intros X.
  assert (2 / 5 = p) by (apply (draws_unique _ 2 _ _ (2 / 5) p ltac:(lra) D X)). lra.
Qed.
Print Assumptions C59_markov_refuted.

(** ** The hypotheses are met *)
Example ex_C59_markov : exists c : nat -> R,
  let phi1 := fun (n i j : nat) => match i, j with O, O => ln (1 / 2) | O, _ => ln (1 / 2) | _, O => ln (1 / 4) | _, _ => ln (3 / 4) end in
  (forall n i, (i < 2)%nat -> rsum 2 (fun j => exp (phi1 n i j)) = c n) /\
  draws_with_probability 3 (cmc_random 3 2 2 post_phi0 phi1) [0; 1; 0]%nat (1 / 16).
Proof.
  exists (fun _ => 1). intros phi1.
  assert (E0 : exp (ln (1 / 2)) = 1 / 2) by (apply exp_ln; lra).
  assert (E2 : exp (ln (1 / 4)) = 1 / 4) by (apply exp_ln; lra).
  assert (E3 : exp (ln (3 / 4)) = 3 / 4) by (apply exp_ln; lra).
  assert (H : forall n i, (i < 2)%nat -> rsum 2 (fun j => exp (phi1 n i j)) = 1).
  { intros n [|[|i]] Hi; [| |lia]; unfold phi1; cbn [rsum]; rewrite ?E0, ?E2, ?E3; lra. }
  split; [exact H|].
  assert (G := C59_markov_distribution_partial 3 2 post_phi0 phi1 [0; 1; 0]%nat (fun _ => 1) ltac:(lia) eq_refl ltac:(lia)).
  assert (I : forall k, In k [0; 1; 0]%nat -> (k < 2)%nat) by (intros k [<-|[<-|[<-|[]]]]; lia).
  specialize (G I H). cbn zeta in G. cbn [Nat.sub] in G.
  rewrite (normaliser_rows 2 2 _ _ (fun _ => 1) H) in G.
  replace (1 / 16) with (path_weight (fun i => exp (post_phi0 i)) (fun n i j => exp (phi1 n i j)) [0; 1; 0]%nat /
    (rsum 2 (fun i => exp (post_phi0 i)) * rprod 2 (fun _ => 1))); [exact G|].
  unfold post_phi0, phi1. cbn -[exp ln Rdiv]. rewrite E0, E2. field.
Qed.
Example ex_C59_gamma : forall lg dg, exists u g, gamma_moments lg dg (-2, 3) = Ok (u, g) /\ gamma_request (-2, 3) = (3, 1 / 2) /\ 0 < snd (-2, 3).
Proof.
  intros lg dg. unfold gamma_moments. cbn [fst snd]. destruct (Rle_dec (- -2) 0); [lra|]. do 2 eexists. split; [reflexivity|].
  unfold gamma_request. cbn [fst snd]. split; [f_equal; field|lra].
Qed.
