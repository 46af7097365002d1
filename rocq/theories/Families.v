(** Model of the distribution classes of the closed-form exponential families with
    scalar and vector variables: gamma.py, poisson.py, binomial.py, bernoulli.py,
    dirichlet.py, beta.py, multinomial.py, categorical.py.  No proofs here.

    Simplification: the methods are given for one plate (the code applies the same
    formula to every plate by broadcasting); a vector of length K is a function
    used at 0..K-1.  Numbers are real numbers.  The functions of scipy.special
    (gammaln, digamma = psi, polygamma(1, .)) are parameters. *)
From Coq Require Import List Arith ZArith Lia Bool Reals.
From Verif Require Import Base NumPy.
Import ListNotations.
Open Scope R_scope.

Definition vec := nat -> R.
Definition dotv (K : nat) (a b : vec) : R := rsum K (fun i => a i * b i).

Section Special.
Variables gammaln digamma polygamma1 : R -> R.

(** expfamily.py 45-63: compute_logpdf for scalar and vector terms. *)
Definition term0 (phi u : R) : R := (if Req_EM_T u 0 then 0 else phi) * u.
Definition logpdf_term (K : nat) (phi u : vec) : R := rsum K (fun i => term0 (phi i) (u i)).

(** ** Moments classes *)

(** gamma.py 42-51: GammaPriorMoments.compute_fixed_moments. *)
Definition gammaprior_fixed (a : R) : res (R * R) :=
  if Rle_dec a 0 then Err ValueError else Ok (a, gammaln a).
(** gamma.py 70-79: GammaMoments.compute_fixed_moments.  At 0 the code returns
    log(0) = -inf; the real model has ln 0 = 0 there. *)
Definition gammamoments_fixed (x : R) : res (R * R) :=
  if Rlt_dec x 0 then Err ValueError else Ok (x, ln x).
(** dirichlet.py 37-51: ConcentrationMoments.compute_fixed_moments. *)
Definition any_lt0 (K : nat) (v : vec) : bool :=
  existsb (fun i => if Rlt_dec (v i) 0 then true else false) (seq 0 K).
Definition any_le0 (K : nat) (v : vec) : bool :=
  existsb (fun i => if Rle_dec (v i) 0 then true else false) (seq 0 K).
Definition any_gt1 (K : nat) (v : vec) : bool :=
  existsb (fun i => if Rlt_dec 1 (v i) then true else false) (seq 0 K).
Definition concentration_fixed (K : nat) (alpha : vec) : res (vec * R) :=
  if any_lt0 K alpha then Err ValueError
  else Ok (alpha, gammaln (rsum K alpha) - rsum K (fun i => gammaln (alpha i))).
(** dirichlet.py 76-93: DirichletMoments.compute_fixed_moments; np.allclose with
    its default tolerances. *)
Definition allclose (a b : R) : bool :=
  if Rle_dec (Rabs (a - b)) (/ 100000000 + / 100000 * Rabs b) then true else false.
Definition dirichletmoments_fixed (K : nat) (p : vec) : res vec :=
  if any_lt0 K p || any_gt1 K p then Err ValueError
  else if negb (allclose (rsum K p) 1) then Err ValueError
  else Ok (fun i => ln (p i / rsum K p)).
(** beta.py 33-39: BetaMoments.compute_fixed_moments; p*[1,-1] + [0,1]. *)
Definition beta_pair (p : R) : vec := fun i => match i with O => p * 1 + 0 | _ => p * -1 + 1 end.
Definition betamoments_fixed (p : R) : res vec := dirichletmoments_fixed 2 (beta_pair p).
(** poisson.py 33-42: PoissonMoments.compute_fixed_moments (integer values). *)
Definition poissonmoments_fixed (x : Z) : res R := Ok (IZR x).
(** binomial.py 40-48: BinomialMoments.compute_fixed_moments calls
    super().compute_fixed_moments() without the argument. *)
Definition binomialmoments_fixed (N x : Z) : res R :=
  if (N <? x)%Z then Err ValueError else Err TypeError.
(** multinomial.py 37-53: MultinomialMoments.compute_fixed_moments. *)
Definition multinomialmoments_fixed (K : nat) (x : nat -> Z) : res vec :=
  if existsb (fun i => x i <? 0)%Z (seq 0 K) then Err ValueError else Ok (fun i => IZR (x i)).
(** categorical.py 30-46: CategoricalMoments.compute_fixed_moments. *)
Definition one_hot (x : Z) : vec := fun i => if (Z.of_nat i =? x)%Z then 1 else 0.
Definition categoricalmoments_fixed (K : nat) (x : Z) : res vec :=
  if ((x <? 0) || (Z.of_nat K <=? x))%Z then Err ValueError else Ok (one_hot x).

(** ** Gamma: gamma.py 90-211 *)

(** 96-113: compute_message_to_parent. *)
Definition gamma_message_a (u : R * R) (u_b : R * R) : R * R := (snd u + snd u_b, -1).
Definition gamma_message_b (u : R * R) (u_a : R * R) : R * R := (- fst u, fst u_a).
(** 116-121: compute_phi_from_parents. *)
Definition gamma_phi (u_a u_b : R * R) : R * R := (- fst u_b, 1 * fst u_a).
(** 124-148: compute_moments_and_cgf; FloatingPointError (a subclass of
    ArithmeticError, here ValueError) when the logarithm or division is invalid. *)
Definition gamma_moments (phi : R * R) : res ((R * R) * R) :=
  if Rle_dec (- fst phi) 0 then Err ValueError
  else
    let log_b := ln (- fst phi) in
    let u0 := snd phi / (- fst phi) in
    let u1 := digamma (snd phi) - log_b in
    let g := snd phi * log_b - gammaln (snd phi) in
    Ok ((u0, u1), g).
(** 151-160: compute_cgf_from_parents. *)
Definition gamma_cgf (u_a u_b : R * R) : R := fst u_a * snd u_b - snd u_a.
(** 163-173: compute_fixed_moments_and_f. *)
Definition gamma_fixed (x : R) : res ((R * R) * R) :=
  if Rlt_dec x 0 then Err ValueError else Ok ((x, ln x), - ln x).
(** 183-211: compute_gradient. *)
Definition gamma_gradient (g : R * R) (u phi : R * R) : R * R :=
  (fst g * snd phi / (fst phi) ^ 2 - snd g / fst phi,
   snd g * polygamma1 (snd phi) - fst g / fst phi).

(** ** Poisson: poisson.py 55-128 *)

Definition poisson_message (u : R) : R * R := (-1, u).                (** 61-70 *)
Definition poisson_phi (u_lambda : R * R) : R := snd u_lambda.        (** 73-80 *)
Definition poisson_moments (phi : R) : R * R := (exp phi, - exp phi). (** 83-90 *)
Definition poisson_cgf (u_lambda : R * R) : R := - fst u_lambda.      (** 93-99 *)
Definition poisson_fixed (x : Z) : res (R * R) :=                     (** 102-121 *)
  if (x <? 0)%Z then Err ValueError else Ok (IZR x, - gammaln (IZR x + 1)).

(** ** Binomial and Bernoulli: binomial.py 61-134, bernoulli.py 31-38.  [u_p] is
    the moment of the beta parent, (log p, log(1-p)). *)

(** 77-88: x*[1,-1] + n*[0,1]. *)
Definition binomial_message (N : R) (u : R) : vec :=
  fun i => match i with O => u * 1 + N * 0 | _ => u * -1 + N * 1 end.
Definition binomial_phi (u_p : vec) : R := u_p 0%nat - u_p 1%nat.     (** 91-98 *)
Definition binomial_moments (N : R) (phi : R) : R * R :=              (** 101-107 *)
  (N / (1 + exp (- phi)), - N * ln (1 + exp phi)).
Definition binomial_cgf (N : R) (u_p : vec) : R := N * u_p 1%nat.     (** 110-116 *)
Definition binomial_fixed (N x : Z) : res (R * R) :=                  (** 119-134 *)
  if ((x <? 0) || (N <? x))%Z then Err ValueError
  else Ok (IZR x, gammaln (IZR N + 1) - gammaln (IZR x + 1) - gammaln (IZR N - IZR x + 1)).

(** ** Dirichlet and Beta: dirichlet.py 107-231, beta.py 50-92 *)

Definition dirichlet_message (u : vec) : vec * R := (u, 1).           (** 113-120 *)
Definition dirichlet_phi (u_alpha : vec * R) : vec := fst u_alpha.    (** 123-127 *)
Definition dirichlet_moments (K : nat) (phi : vec) : res (vec * R) := (** 130-160 *)
  if any_le0 K phi then Err ValueError
  else Ok ((fun i => digamma (phi i) - digamma (rsum K phi)),
           gammaln (rsum K phi) - rsum K (fun i => gammaln (phi i))).
Definition dirichlet_cgf (u_alpha : vec * R) : R := snd u_alpha.      (** 163-167 *)
Definition dirichlet_fixed (K : nat) (p : vec) : res (vec * R) :=     (** 170-203 *)
  if any_lt0 K p || any_gt1 K p then Err ValueError
  else if negb (allclose (rsum K p) 1) then Err ValueError
  else let logp := fun i => ln (p i / rsum K p) in
       Ok (logp, - rsum K logp).
Definition dirichlet_gradient (K : nat) (g phi : vec) : vec :=        (** 213-231 *)
  fun i => g i * (polygamma1 (phi i) - polygamma1 (rsum K phi)).
(** beta.py 87-92: compute_fixed_moments_and_f. *)
Definition beta_fixed (p : R) : res (vec * R) := dirichlet_fixed 2 (beta_pair p).

(** ** Multinomial and Categorical: multinomial.py 62-213, categorical.py 74-114 *)

(** misc.py 1366-1401: logsumexp and normalized_exp along the last axis, for
    finite entries (Numeric.v has the model with infinite entries). *)
Fixpoint vmax (n : nat) (v : vec) : R :=
  match n with O => v O | S m => Rmax (vmax m v) (v n) end.
Definition logsumexpv (K : nat) (v : vec) : R :=
  let m := vmax (K - 1) v in ln (rsum K (fun i => exp (v i - m))) + m.
Definition normalized_expv (K : nat) (v : vec) : vec * R :=
  let logsum := logsumexpv K v in
  let p := fun i => exp (v i - logsum) in
  (fun i => p i / rsum K p, logsum).

Definition multinomial_message (u : vec) : vec := u.                  (** 83-90 *)
Definition multinomial_phi (u_p : vec) : vec := u_p.                  (** 93-98 *)
Definition multinomial_moments (N : R) (K : nat) (phi : vec) : vec * R :=  (** 101-120 *)
  let '(p, logsum) := normalized_expv K phi in
  (fun i => N * p i, - (N * logsum)).
Definition multinomial_cgf (u_p : vec) : R := 0.                      (** 123-127 *)
Definition multinomial_fixed (N : Z) (K : nat) (x : nat -> Z) : res (vec * R) :=  (** 130-150 *)
  if existsb (fun i => x i <? 0)%Z (seq 0 K) then Err ValueError
  else if negb (fold_right Z.add 0%Z (map x (seq 0 K)) =? N)%Z then Err ValueError
  else Ok ((fun i => IZR (x i)),
           gammaln (IZR N + 1) - rsum K (fun i => gammaln (IZR (x i) + 1))).
Definition multinomial_gradient (N : R) (K : nat) (g u : vec) : vec :=     (** 161-213 *)
  fun i => u i * (g i - dotv K g u / N).
(** categorical.py 93-114: compute_fixed_moments_and_f. *)
Definition categorical_fixed (K : nat) (x : Z) : res (vec * R) :=
  if ((x <? 0) || (Z.of_nat K <=? x))%Z then Err ValueError else Ok (one_hot x, 0).
End Special.
