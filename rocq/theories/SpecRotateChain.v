(** What the rotation of a Gaussian Markov chain does to the lower bound. *)
From Coq Require Import List Arith Bool Reals.
From Verif Require Import Base NumPy Families Linalg MatBridge SpecLinalg Gaussian SpecGaussian BlockBanded GaussMarkov SpecGaussMarkov RotateChain.
Import ListNotations.
Open Scope R_scope.

(** The rows of the dynamics after the rotation: the mean is R A R^-1 (the columns of the
    inputs are only multiplied by R from the left); the covariance of row d is
    R^-T Cov_d R^-1 times the square of the sum of column d of R. *)
Definition mean_rotated (D M : nat) (Rm inv : mat) (a : nat -> vec * mat) (d : nat) : vec := fun j =>
  rsum D (fun k => Rm d k * rsum M (fun i => fst (a k) i * block_diag D inv i j)).
Definition cov_rotated (D M : nat) (Rm inv : mat) (a : nat -> vec * mat) (d : nat) : mat := fun i j =>
  (rsum D (fun k => Rm k d)) ^ 2 *
  rsum M (fun k => rsum M (fun l => block_diag D inv k i * (snd (a d) k l - fst (a d) k * fst (a d) l) * block_diag D inv l j)).
Definition row_rotated (D M : nat) (Rm inv : mat) (a : nat -> vec * mat) (d : nat) (x : vec * mat) : Prop :=
  (forall j, (j < M)%nat -> fst x j = mean_rotated D M Rm inv a d j) /\
  (forall i j, (i < M)%nat -> (j < M)%nat ->
     snd x i j = cov_rotated D M Rm inv a d i j + mean_rotated D M Rm inv a d i * mean_rotated D M Rm inv a d j).

(** The term of X in the lower bound: <log p(X|parents)> - <log q(X)>, for unit innovation
    noise. *)
Definition unit_noise (D : nat) (a : nat -> nat -> vec * mat) : A_moments :=
  A_nu_moments a (T1 D (fun _ => 1)) (T1 D (fun _ => 0)).
Definition chain_term (N D K : nat) (u_mL : mL_moments) (u_A : A_moments) (u_in : option in_moments)
  (u phi : chain) (g : R) : res R :=
  gp <- gmc_cgf N D K u_mL u_A (option_map (fun x => (x, [(N - 1)%nat])) u_in) ;;
  Ok (chain_dot N D (gmc_phi N D K u_mL u_A u_in) u + gp - chain_dot N D phi u - g).
