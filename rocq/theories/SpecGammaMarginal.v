(** Textbook marginal distributions of a Gaussian-gamma vector:
    x | tau ~ N(mu, Cov / tau), tau ~ Gamma(a, b). *)
From Coq Require Import List Arith ZArith Bool Reals.
From Verif Require Import Base NumPy Families SpecFamilies Linalg MatBridge SpecLinalg Gaussian SpecGaussian.
Import ListNotations.
Open Scope R_scope.

(** The Student-t density of n-vectors with nu degrees of freedom, location mu and
    scale matrix S; [Q] is the inverse of S. *)
Definition student_pdf (Gam : R -> R) (n : nat) (mu : vec) (S Q : mat) (nu : R) (x : vec) : R :=
  Gam ((nu + INR n) / 2) / (Gam (nu / 2) * Rpower (nu * PI) (INR n / 2) * sqrt (mdet n S))
  * Rpower (1 + bilinear n Q (sub_v x mu) (sub_v x mu) / nu) (- ((nu + INR n) / 2)).
(** Its variance, for more than two degrees of freedom. *)
Definition student_variance (S : mat) (nu : R) (i : nat) : R := nu / (nu - 2) * S i i.

(** The natural parameters (Lambda mu, -Lambda/2, -b - mu^T Lambda mu/2, a) of a
    Gaussian-gamma distribution with Lambda = Cov^-1. *)
Definition has_parameters (D : nat) (phi : vec * mat * R * R) (mu : vec) (Lambda Cov : mat) (a b : R) : Prop :=
  let '(phi0, phi1, phi2, phi3) := phi in
  posdef D Lambda /\ is_inverse D Lambda Cov /\ 0 < a /\ 0 < b /\
  veq D phi0 (mvdot D Lambda mu) /\ meq D phi1 (scal_m (-0.5) Lambda) /\
  phi2 = - b - bilinear D Lambda mu mu / 2 /\ phi3 = a.

(** Index k of an axis of length D is position i, counted from the end when k is
    negative. *)
Definition index_of (D : nat) (k : Z) (i : nat) : Prop :=
  (i < D)%nat /\ (k = Z.of_nat i \/ k = Z.of_nat i - Z.of_nat D)%Z.
(** The selected elements and the selected rows and columns.  The marginal of a
    Gaussian vector on a set of elements has this mean and covariance. *)
Definition pick (s : list nat) (x : vec) : vec := fun i => x (nth i s O).
Definition pick_m (s : list nat) (A : mat) : mat := fun i j => A (nth i s O) (nth j s O).

(** numpy.linalg.inv returns the inverse of a matrix that has one. *)
Definition exact_inverse (np_inv : nat -> mat -> res mat) : Prop :=
  forall D A V, is_inverse D A V -> exists W, np_inv D A = Ok W /\ is_inverse D A W.
