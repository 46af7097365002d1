(** Specifications for the exponential families: textbook densities and the facts
    about the gamma function that are used. *)
From Coq Require Import List Arith ZArith Lia Bool Reals Binomial.
From Verif Require Import Base NumPy Families.
Import ListNotations.
Open Scope R_scope.

(** ** Special functions (scipy.special is not part of the code) *)

(** [psi] is the derivative of [lg] on the positive reals. *)
Definition is_digamma (lg psi : R -> R) : Prop :=
  forall x, 0 < x -> derivable_pt_lim lg x (psi x).
(** gammaln(n+1) is the logarithm of n factorial. *)
Definition is_log_factorial (lg : R -> R) : Prop :=
  forall n : nat, lg (INR n + 1) = ln (INR (fact n)).
(** [lg] is the logarithm of the gamma function [Gam]. *)
Definition is_log_of (lg Gam : R -> R) : Prop :=
  forall x, 0 < x -> 0 < Gam x /\ lg x = ln (Gam x).

(** ** Textbook log-densities and log-mass functions *)

Fixpoint rprod (n : nat) (f : nat -> R) : R :=
  match n with O => 1 | S m => rprod m f * f m end.

Definition poisson_pmf (lambda : R) (k : nat) : R := lambda ^ k * exp (- lambda) / INR (fact k).
Definition gamma_pdf (Gam : R -> R) (a b x : R) : R :=
  Rpower b a / Gam a * Rpower x (a - 1) * exp (- b * x).
Definition binomial_pmf (n : nat) (p : R) (k : nat) : R := C n k * p ^ k * (1 - p) ^ (n - k).
Definition bernoulli_pmf (p : R) (k : nat) : R := match k with O => 1 - p | _ => p end.
Definition dirichlet_pdf (Gam : R -> R) (K : nat) (alpha p : vec) : R :=
  Gam (rsum K alpha) / rprod K (fun i => Gam (alpha i)) *
  rprod K (fun i => Rpower (p i) (alpha i - 1)).
Definition beta_pdf (Gam : R -> R) (a b p : R) : R :=
  Gam (a + b) / (Gam a * Gam b) * Rpower p (a - 1) * Rpower (1 - p) (b - 1).
Definition multinomial_pmf (K n : nat) (p : vec) (x : nat -> nat) : R :=
  INR (fact n) / rprod K (fun i => INR (fact (x i))) * rprod K (fun i => p i ^ x i).

Definition simplex (K : nat) (p : vec) : Prop :=
  (forall i, (i < K)%nat -> 0 < p i) /\ rsum K p = 1.

(** [tri] is the derivative of [psi] on the positive reals. *)
Definition is_trigamma (psi tri : R -> R) : Prop :=
  forall x, 0 < x -> derivable_pt_lim psi x (tri x).
(** lg(a) - a ln a + a is convex (for the gamma function: trigamma(a) >= 1/a);
    stated by its tangents. *)
Definition gamma_convex (lg psi : R -> R) : Prop :=
  forall a a', 0 < a -> 0 < a' ->
    lg a' - a' * ln a' + a' >= lg a - a * ln a + a + (a' - a) * (psi a - ln a).
(** The logarithm of the beta function, lg a + lg b - lg (a+b), is convex; stated
    by its tangents. *)
Definition log_beta_convex (lg psi : R -> R) : Prop :=
  forall a b a' b', 0 < a -> 0 < b -> 0 < a' -> 0 < b' ->
    lg a' + lg b' - lg (a' + b') >=
    lg a + lg b - lg (a + b) + (a' - a) * (psi a - psi (a + b)) + (b' - b) * (psi b - psi (a + b)).

(** The g of a result (moments, g). *)
Definition cgf_of {A} (r : res (A * R)) : R := match r with Ok (_, g) => g | Err _ => 0 end.

(** [v] with entry [i] set to [t]. *)
Definition with_entry (v : vec) (i : nat) (t : R) : vec := fun j => if (j =? i)%nat then t else v j.

(** The lower bound as a function of the node's moments and log-normaliser: the
    expected log-density under the prior, what the children contribute (their
    messages m are linear in the moments, C20), minus E[log q]: q has natural
    parameters phi, moments u, and log-normaliser g.  The arguments are the inner
    products with u. *)
Definition node_bound (prior_u message_u phi_u g const : R) : R :=
  prior_u + message_u - (phi_u + g) + const.
