(** Model of the covariance that str() shows for Gaussian and GaussianARD nodes, and of
    GaussianARD.initialize_from_mean_and_covariance (bayespy/inference/vmp/nodes/gaussian.py). *)
From Coq Require Import List Arith Reals.
From Verif Require Import Base Shapes SpecShapes NumPy AddNode.
Import ListNotations.
Open Scope R_scope.

(** gaussian.py 1439-1442: Gaussian.__str__, the array printed under "Cov"; [nd] is
    len(self.dims[0]). *)
Definition gaussian_shown (u0 u1 : arr R) (nd : nat) : res (arr R) :=
  o <- la_outer u0 u0 nd ;; np_map2 Rminus u1 o.

(** gaussian.py 1682-1684: GaussianARD.__str__; linalg.outer is called with its default ndim=1. *)
Definition ard_shown (u0 u1 : arr R) : res (arr R) :=
  o <- la_outer u0 u0 1 ;; np_map2 Rminus u1 o.

(** gaussian.py 1673-1675: the moments that are then set on the plates without observations; [nd] is
    len(self._distribution.shape). *)
Definition initial_moments (mu Cov : arr R) (nd : nat) : res (arr R * arr R) :=
  o <- la_outer mu mu nd ;; u1 <- np_map2 Rplus Cov o ;; Ok (mu, u1).
