(** Model of the rotation parameter expansion, transformations.py.  No proofs here.

    Simplifications: a block is a Gaussian or GaussianARD node with one variable axis
    (list of plates, every plate with its moments, natural parameters and g) and the
    bound function of its rotator object; the bound of RotateGaussianARD is an
    argument of the model, as are numpy.linalg.inv, numpy.linalg.slogdet and
    scipy.optimize.minimize.  Printing, check_gradient, check_bound and the update
    of alpha after the rotation are left out. *)
From Coq Require Import List Arith Bool Reals.
From Verif Require Import Base NumPy Families Linalg Gaussian.
Import ListNotations.
Open Scope R_scope.

(** One plate of a Gaussian node: u, phi and g. *)
Record gstate := GState { g_u : vec * mat ; g_phi : vec * mat ; g_g : R }.
Inductive block_kind := RotGaussian | RotGaussianARD.
Record block := Block {
  b_kind : block_kind ;
  b_plates : list gstate ;
  (** bound(R, logdet, inv): the value and its gradient *)
  b_bound : mat -> R -> mat -> res (R * mat) }.

(** transformations.py 255-311: RotateGaussian._compute_bound reads the name [terms],
    which is neither a parameter nor a variable. *)
Definition rotate_gaussian_bound (R0 : mat) (logdet : R) (inv : mat) : res (R * mat) := Err NameError.
(** 314-318 and RotateGaussianARD.bound *)
Definition block_bound (b : block) : mat -> R -> mat -> res (R * mat) :=
  match b_kind b with RotGaussian => rotate_gaussian_bound | RotGaussianARD => b_bound b end.

(** 233-234, 441-458: rotate of the rotator objects. *)
Definition rotate_plate (k : block_kind) (D : nat) (Rm inv : mat) (logdet : R) (s : gstate) : gstate :=
  let '(u, phi, g) :=
    match k with
    | RotGaussian => gaussian_rotate D Rm inv logdet (g_u s) (g_phi s) (g_g s)
    | RotGaussianARD => ard_rotate D Rm inv logdet (g_u s) (g_phi s) (g_g s)
    end in
  GState u phi g.
Definition rotate_block (D : nat) (Rm inv : mat) (logdet : R) (b : block) : block :=
  Block (b_kind b) (map (rotate_plate (b_kind b) D Rm inv logdet) (b_plates b)) (b_bound b).

Section Numpy.
Variable np_inv : mat -> res mat.
Variable np_logdet : mat -> R.
Variable minimize : (mat -> res (R * mat)) -> mat -> res mat.

(** 78-104: the cost function and its gradient. *)
Definition rotation_cost (D : nat) (b1 b2 : block) (Rm : mat) : res (R * mat) :=
  invR <- np_inv Rm ;;
  let logdetR := np_logdet Rm in
  r1 <- block_bound b1 Rm logdetR invR ;;
  r2 <- block_bound b2 (transpose invR) (- logdetR) (transpose Rm) ;;
  let db2 := scal_m (-1) (dot3 D (transpose invR) (transpose (snd r2)) (transpose invR)) in
  Ok (- (fst r1 + fst r2), scal_m (-1) (add_m (snd r1) db2)).

(** 57-178: RotationOptimizer.rotate *)
Definition rotation_optimizer (D : nat) (b1 b2 : block) : res (block * block) :=
  let cost := rotation_cost D b1 b2 in
  _ <- cost identity ;;
  Rm <- minimize cost identity ;;
  _ <- cost Rm ;;
  invR <- np_inv Rm ;;
  let logdetR := np_logdet Rm in
  Ok (rotate_block D Rm invR logdetR b1,
      rotate_block D (transpose invR) (transpose Rm) (- logdetR) b2).
End Numpy.
