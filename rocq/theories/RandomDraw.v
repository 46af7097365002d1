(** Model of the random() methods of the nodes and of the samplers behind them:
    utils/random.py and the random methods in nodes/*.py, called by
    ExponentialFamily.random (expfamily.py 538-542) with the node's current
    natural parameters.  No proofs here.

    NumPy's generator is not code of /repo.  What the code asks from it is
    modelled: either the parameters handed to a generator (poisson, binomial,
    multinomial, gamma), or, for numpy.random.rand and randn, the variates it
    returned as an argument.

    Simplifications: one plate (the code asks independent variates for every
    plate and runs the same formula); numbers are real, natural parameters
    finite. *)
From Coq Require Import List Arith ZArith Bool Reals.
From Verif Require Import Base NumPy Numeric Families Linalg Gaussian.
Import ListNotations.
Open Scope R_scope.

(** ** Requests to NumPy's generator *)

(** poisson.py 124-128: the rate passed to numpy.random.poisson. *)
Definition poisson_request (phi : R) : R := exp phi.
(** utils/random.py 352-356: logodds_to_probability. *)
Definition logodds_to_probability (x : R) : R := 1 / (1 + exp (- x)).
(** binomial.py 137-142: the trials and probability passed to numpy.random.binomial. *)
Definition binomial_request (N : nat) (phi : R) : nat * R := (N, logodds_to_probability phi).
(** multinomial.py 153-158, utils/random.py 288-316: the trials and probabilities
    passed to numpy.random.multinomial. *)
Definition multinomial_request (N K : nat) (phi : vec) : nat * vec :=
  (N, fst (normalized_expv K phi)).
(** gamma.py 176-180: the shape and scale passed to numpy.random.gamma. *)
Definition gamma_request (phi : R * R) : R * R := (snd phi, -1 / fst phi).
(** utils/random.py 318-326: gamma checks the samples [x] it got. *)
Definition gamma_result (x : list R) : res (list R) :=
  if existsb (fun v => if Req_EM_T v 0 then true else false) x then Err RuntimeError else Ok x.
(** dirichlet.py 206-210, utils/random.py 329-349: shapes passed to
    numpy.random.gamma (with scale 1), and what is done with the samples [x]. *)
Definition dirichlet_request (phi : vec) : vec := phi.
Definition dirichlet_result (K : nat) (x : vec) : res vec :=
  let sump := rsum K x in
  if Req_EM_T sump 0 then Err RuntimeError else Ok (fun i => x i / sump).
(** beta.py 95-100: the first of the two probabilities. *)
Definition beta_result (x : vec) : res R :=
  p <- dirichlet_result 2 x ;; Ok (p O).

(** ** Uniform variates *)

(** utils/random.py 233-244 (bernoulli) and 47-57 (mask). *)
Definition bernoulli_draw (p u : R) : bool := if Rlt_dec u p then true else false.
(** utils/random.py 247-285: categorical for one row of K probabilities and one
    sample. *)
Definition categorical_draw (K : nat) (p : vec) (u : R) : res nat :=
  z <- categorical (Arr [K] (fun e => p (e O))) (Some []) (fun _ => u) ;;
  Ok (aget z (fun _ => O)).
(** categorical.py 117-124: random.  "logp = phi[0]" is the node's own array and
    "logp -= ..." works in place: the second component is what the array holds
    afterwards. *)
Definition categorical_random (K : nat) (phi : vec) (u : R) : res nat * vec :=
  let m := vmax (K - 1) phi in
  let logp := fun i => phi i - m in
  (categorical_draw K (fun i => exp (logp i)) u, logp).

(** categorical_markov_chain.py 178-213: random.  [T] is the length of the time
    axis of phi[1]; us n is the variate for the state at time n. *)
Definition softmax (K : nat) (v : vec) : vec := fun i => exp (v i - logsumexpv K v).
Fixpoint chain_states (K T : nat) (P : nat -> nat -> vec) (us : nat -> R) (n steps z : nat)
  : res (list nat) :=
  match steps with
  | O => Ok [z]
  | S s =>
      let time_ind := Nat.min n (T - 1) in
      z' <- categorical_draw K (P time_ind z) (us (S n)) ;;
      r <- chain_states K T P us (S n) s z' ;;
      Ok (z :: r)
  end.
Definition cmc_random (N K T : nat) (phi0 : vec) (phi1 : nat -> nat -> vec) (us : nat -> R)
  : res (list nat) :=
  if (N =? 0)%nat then Err IndexError
  else
    z <- categorical_draw K (softmax K phi0) (us O) ;;
    chain_states K T (fun n i => softmax K (phi1 n i)) us 0 (N - 1) z.

(** ** Standard normal variates *)

(** gaussian.py 557-573: GaussianDistribution.random for a vector; linalg.py
    244-310: solve_triangular(U, z, trans='N', lower=False) is back_solve. *)
Definition gaussian_random (D : nat) (phi : vec * mat) (z : vec) : res vec :=
  U <- chol D (scal_m (-2) (snd phi)) ;;
  let mu := chol_solve D U (fst phi) in
  Ok (fun i => mu i + back_solve D U z i).
(** gaussian.py 772-821: GaussianARDDistribution.random; [D] is the number of
    elements (1 for a scalar); a negative variance gives nan (with a warning) in
    the code and is outside the model. *)
Definition ard_random (D : nat) (phi : vec * mat) (z : vec) : res vec :=
  if (D =? 1)%nat then
    let var := -0.5 / snd phi O O in
    let std := sqrt var in
    let mu := fun i => var * fst phi i in
    Ok (fun i => mu i + std * z i)
  else
    U <- chol D (scal_m (-2) (snd phi)) ;;
    let mu := chol_solve D U (fst phi) in
    Ok (fun i => mu i + back_solve D U z i).
(** gaussian.py 1119-1136: GaussianGammaDistribution.random: what is asked for
    alpha, and the Gaussian part given the outcome. *)
Definition gg_alpha_request (phi : vec * mat * R * R) : R * R :=
  let '(phi0, phi1, phi2, phi3) := phi in gamma_request (phi2, phi3).
Definition gg_random (D : nat) (phi : vec * mat * R * R) (alpha : R) (z : vec) : res (vec * R) :=
  let '(phi0, phi1, phi2, phi3) := phi in
  mu <- ard_random D (scal_v alpha phi0, scal_m alpha phi1) z ;;
  Ok (mu, alpha).

(** utils/random.py 60-73: wishart(nu, V) for a D x D matrix V.  X holds the nu
    rows drawn from numpy.random.multivariate_normal.  The result is the shape
    and the elements of np.dot(X, X.T). *)
Definition wishart_rand (nu D : nat) (X : mat) : res (nat * nat * mat) :=
  if (nu <? D)%nat then Err ValueError
  else Ok (nu, nu, fun i j => rsum D (fun k => X i k * X j k)).
(** utils/random.py 116-123: correlation(D), X holds D x D variates. *)
Definition correlation_rand (D : nat) (X : mat) : mat :=
  let s := fun i => sqrt (rsum D (fun k => X i k ^ 2)) in
  let X := fun i k => X i k / s i in
  fun i j => rsum D (fun k => X i k * X j k).
