(** What it means that a program draws from a distribution. *)
From Coq Require Import List Arith Bool Reals.
From Verif Require Import Base NumPy Families SpecFamilies Linalg MatBridge SpecLinalg Gaussian SpecGaussian.
Open Scope R_scope.

(** The density of numpy.random.gamma(shape, scale), as in NumPy's reference, and
    its mean. *)
Definition np_gamma_pdf (Gam : R -> R) (shape scale x : R) : R :=
  Rpower x (shape - 1) * exp (- (x / scale)) / (Rpower scale shape * Gam shape).
Definition np_gamma_mean (shape scale : R) : R := shape * scale.

(** [f] uses N independent uniform variates from (0,1).  The variates for which
    its result is [y] are, up to the boundary, a box; the probability of [y] is
    the volume of the box. *)
Definition draws_with_probability {A} (N : nat) (f : (nat -> R) -> res A) (y : A) (p : R) : Prop :=
  exists lo hi : nat -> R,
    (forall n, (n < N)%nat -> 0 <= lo n <= hi n /\ hi n <= 1) /\
    (forall us, (forall n, (n < N)%nat -> 0 < us n < 1) ->
       ((forall n, (n < N)%nat -> lo n < us n < hi n) -> f us = Ok y) /\
       (f us = Ok y -> forall n, (n < N)%nat -> lo n <= us n <= hi n)) /\
    rprod N (fun n => hi n - lo n) = p.

(** [f] uses D independent standard normal variates z and returns mu + A z, where
    A A^T is the covariance. *)
Definition draws_mean_cov (D : nat) (f : vec -> res vec) (mu : vec) (Cov : mat) : Prop :=
  exists A : mat,
    (forall z, exists x, f z = Ok x /\
       forall i, (i < D)%nat -> x i = mu i + rsum D (fun k => A i k * z k)) /\
    meq D (fun i j => rsum D (fun k => A i k * A j k)) Cov.

(** [f] uses D independent standard normal variates z, is affine and invertible
    in z, and by the change of variables its result has the density [q]. *)
Definition draws_density (D : nat) (f : vec -> res vec) (q : vec -> R) : Prop :=
  exists (A : mat) (c : vec), mdet D A <> 0 /\
    forall z, exists x, f z = Ok x /\
      (forall i, (i < D)%nat -> x i = c i + rsum D (fun k => A i k * z k)) /\
      normal_pdf D (fun _ => 0) identity z = q x * Rabs (mdet D A).

(** The density of an exponential family over vectors with the moments x and x x^T:
    exp(phi . u(x) + g + f(x)). *)
Definition vector_density (D : nat) (phi : vec * mat) (g f : R) (x : vec) : R :=
  exp (innerv D (fst phi) x + innerm D (snd phi) (outerv x x) + g + f).
