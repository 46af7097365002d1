(** Model of compute_gradient of GaussianARDDistribution (gaussian.py 824-889) and
    of the dimensionality check inside it.  No proofs here. *)
From Coq Require Import List Arith Bool Reals.
From Verif Require Import Base NumPy Families Linalg Gaussian.
Open Scope R_scope.

(** linalg.py 428-440: mmdot for ndim >= 1; the axes of a matrix of arrays are taken
    as two axes of length D. *)
Definition mmdot_nd (ndim D : nat) (A B : mat) : res mat :=
  match ndim with
  | 1%nat => Ok (mmdot D A B)
  | _ => Err PyException
  end.
(** gaussian.py 866-889 for an array variable with ndim >= 1 axes. *)
Definition ard_gradient (ndim D : nat) (g u : vec * mat) : res (vec * mat) :=
  let x := fst u in
  let xx := snd u in
  let x_x := outerv x x in
  let Cov := sub_m xx x_x in
  let cov_g0 := mvdot D Cov (fst g) in
  let cov_g0_x := outerv cov_g0 x in
  let g1_x := mvdot D (snd g) x in
  let d0 := add_v cov_g0 (scal_v 2 (mvdot D Cov g1_x)) in
  g1_xx <- mmdot_nd ndim D (snd g) xx ;;
  xx_g1_xx <- mmdot_nd ndim D xx g1_xx ;;
  Ok (d0, fun i j => cov_g0_x i j + transpose cov_g0_x i j
                     + 2 * xx_g1_xx i j - 2 * x_x i j * innerv D g1_x x).
(** gaussian.py 866-889 for a scalar variable (ndim = 0): every product is a product
    of numbers. *)
Definition ard0_gradient (g u : R * R) : R * R :=
  let x := fst u in
  let xx := snd u in
  let x_x := x * x in
  let Cov := xx - x_x in
  let cov_g0 := Cov * fst g in
  let cov_g0_x := cov_g0 * x in
  let g1_x := snd g * x in
  (cov_g0 + 2 * (Cov * g1_x),
   cov_g0_x + cov_g0_x + 2 * (xx * (snd g * xx)) - 2 * x_x * (g1_x * x)).
