(** The sufficient statistics of a fixed value, per family, and the support of each
    family: small definitions independent of the code, used by C54. *)
From Coq Require Import List Arith ZArith Bool Reals.
From Verif Require Import Base NumPy Families Linalg MatBridge SpecLinalg GaussMarkov.
Open Scope R_scope.

(** Gamma: x and ln x. *)
Definition stats_gamma (x : R) (u : R * R) : Prop := fst u = x /\ exp (snd u) = x.
(** Dirichlet and Beta: the logarithms of the probabilities. *)
Definition simplex (K : nat) (p : vec) : Prop := (forall i, (i < K)%nat -> 0 < p i <= 1) /\ rsum K p = 1.
Definition stats_dirichlet (K : nat) (p u : vec) : Prop := forall i, (i < K)%nat -> exp (u i) = p i.
Definition stats_beta (p : R) (u : vec) : Prop := exp (u 0%nat) = p /\ exp (u 1%nat) = 1 - p.
(** Poisson and Binomial: the count.  Multinomial: the counts. *)
Definition stats_count (x : Z) (u : R) : Prop := u = IZR x.
Definition counts_of (N : Z) (K : nat) (x : nat -> Z) : Prop :=
  (forall i, (i < K)%nat -> (0 <= x i)%Z) /\ rsum K (fun i => IZR (x i)) = IZR N.
Definition stats_counts (K : nat) (x : nat -> Z) (u : vec) : Prop := forall i, (i < K)%nat -> u i = IZR (x i).
(** Categorical: the indicator of the category. *)
Definition stats_category (K : nat) (x : Z) (u : vec) : Prop :=
  (forall i, (i < K)%nat -> Z.of_nat i = x -> u i = 1) /\
  (forall i, (i < K)%nat -> Z.of_nat i <> x -> u i = 0).
(** Gaussian: x and x x^T. *)
Definition stats_gaussian (D : nat) (x : vec) (u : vec * mat) : Prop :=
  (forall i, (i < D)%nat -> fst u i = x i) /\
  (forall i j, (i < D)%nat -> (j < D)%nat -> snd u i j = x i * x j).
(** Gaussian-gamma: alpha x, alpha x x^T, alpha, ln alpha. *)
Definition stats_gaussian_gamma (D : nat) (x : vec) (alpha : R) (u : vec * mat * R * R) : Prop :=
  let '(u0, u1, u2, u3) := u in
  (forall i, (i < D)%nat -> u0 i = alpha * x i) /\
  (forall i j, (i < D)%nat -> (j < D)%nat -> u1 i j = alpha * (x i * x j)) /\
  u2 = alpha /\ exp u3 = alpha.
(** Gaussian-Wishart: Lambda x, x^T Lambda x, Lambda, ln det Lambda. *)
Definition stats_gaussian_wishart (D : nat) (x : vec) (Lambda : mat) (u : vec * R * mat * R) : Prop :=
  let '(u0, u1, u2, u3) := u in
  (forall i, (i < D)%nat -> u0 i = rsum D (fun j => Lambda i j * x j)) /\
  u1 = rsum D (fun i => x i * rsum D (fun j => Lambda i j * x j)) /\
  (forall i j, (i < D)%nat -> (j < D)%nat -> u2 i j = Lambda i j) /\
  exp u3 = mdet D Lambda.
(** Wishart: Lambda and ln det Lambda. *)
Definition stats_wishart (D : nat) (Lambda : mat) (u : mat * R) : Prop :=
  (forall i j, (i < D)%nat -> (j < D)%nat -> fst u i j = Lambda i j) /\ exp (snd u) = mdet D Lambda.
(** A Gaussian Markov chain of N states: x_n, x_n x_n^T and x_n x_(n+1)^T. *)
Definition stats_gaussian_chain (N D : nat) (x : nat -> vec) (u : chain) : Prop :=
  let '(u0, u1, u2) := u in
  (forall n i, (n < N)%nat -> (i < D)%nat -> u0 n i = x n i) /\
  (forall n i j, (n < N)%nat -> (i < D)%nat -> (j < D)%nat -> u1 n i j = x n i * x n j) /\
  (forall n i j, (S n < N)%nat -> (i < D)%nat -> (j < D)%nat -> u2 n i j = x n i * x (S n) j).
(** A categorical Markov chain: the indicator of the first state, and of each pair of
    consecutive states. *)
Definition stats_category_chain (K : nat) (x : list nat) (u : (nat -> R) * (nat -> nat -> nat -> R)) : Prop :=
  (forall i s, (i < K)%nat -> nth_error x 0 = Some s -> fst u i = if Nat.eqb s i then 1 else 0) /\
  (forall n i j s t, (i < K)%nat -> (j < K)%nat -> nth_error x n = Some s -> nth_error x (S n) = Some t ->
     snd u n i j = if Nat.eqb s i && Nat.eqb t j then 1 else 0).

(** What a value becomes when the node observes it: the moments, when accepted. *)
Definition moments_of {U F} (r : res (U * F)) : res U :=
  match r with Ok (u, _) => Ok u | Err e => Err e end.
(** [same_moments obs init]: every value that can be observed can also be used as the
    initial value, with the same moments. *)
Definition same_moments {V U F} (obs : V -> res (U * F)) (init : V -> res U) : Prop :=
  forall x u, moments_of (obs x) = Ok u -> init x = Ok u.
