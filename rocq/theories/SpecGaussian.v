(** Textbook densities of the Gaussian-type distributions. *)
From Coq Require Import List Arith Bool Reals.
From Verif Require Import Base NumPy Families SpecFamilies Linalg MatBridge SpecLinalg.
Open Scope R_scope.

Definition sub_v (x y : vec) : vec := fun i => x i - y i.
(** The multivariate normal density with mean mu and precision matrix Lambda. *)
Definition normal_pdf (D : nat) (mu : vec) (Lambda : mat) (x : vec) : R :=
  sqrt (mdet D Lambda / (2 * PI) ^ D) * exp (- (bilinear D Lambda (sub_v x mu) (sub_v x mu)) / 2).
(** The univariate normal density with precision tau. *)
Definition normal1_pdf (mu tau x : R) : R := sqrt (tau / (2 * PI)) * exp (- tau * (x - mu) ^ 2 / 2).
(** x | tau ~ N(mu, tau Lambda), tau ~ Gamma(a, b) *)
Definition normal_gamma_pdf (Gam : R -> R) (D : nat) (mu : vec) (Lambda : mat) (a b : R) (x : vec) (tau : R) : R :=
  normal_pdf D mu (fun i j => tau * Lambda i j) x * gamma_pdf Gam a b tau.
(** The multivariate gamma function and the Wishart density with n degrees of
    freedom and inverse scale matrix V. *)
Definition multigamma (Gam : R -> R) (k : nat) (a : R) : R :=
  Rpower PI (INR k * (INR k - 1) / 4) * rprod k (fun j => Gam (a - INR j / 2)).
Definition wishart_pdf (Gam : R -> R) (k : nat) (n : R) (V Lambda : mat) : R :=
  Rpower (mdet k V) (n / 2) * Rpower (mdet k Lambda) ((n - INR k - 1) / 2)
  * exp (- tracedot k V Lambda / 2) / (Rpower 2 (n * INR k / 2) * multigamma Gam k (n / 2)).
