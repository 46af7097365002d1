(** Model of the array functions at the end of bayespy/inference/vmp/nodes/gaussian.py (2561-2713):
    transposing and rotating the covariance array of a Gaussian variable with several axes, rotating
    its mean, and multiplying such an array by a variable; and GaussianARD.rotate_plates (1743-1770). *)
From Coq Require Import List Arith ZArith Bool Reals.
From Verif Require Import Base Shapes SpecShapes NumPy MiscArray.
Import ListNotations.
Open Scope R_scope.

(** shape[:-n] and shape[-n:] for n > 0. *)
Definition but_last (n : nat) (s : shape) : shape := firstn (length s - n) s.
Definition last_axes (n : nat) (s : shape) : shape := skipn (length s - n) s.

(** np.einsum(R, [..., m+1, m], C, [..., m, m-1, ..., 1], [..., m+1, m-1, ..., 1]) for m > 0: the sum
    is over the last axis of [R] and the m-th axis of [C] from the end, the axes under the dots are
    broadcast.  All products in the functions below are of this form. *)
Definition ein_rotate (m : nat) (Rm C : arr R) : res (arr R) :=
  if ((ndim Rm <? 2) || (ndim C <? m))%nat then Err ValueError else
  plates <- np_bshape [but_last 2 (ash Rm); but_last m (ash C)] ;;
  n <- bdim [ax (ash Rm) 0; ax (ash C) (m - 1)] ;;
  Ok (Arr (plates ++ ax (ash Rm) 1 :: last_axes (m - 1) (ash C))
       (fun e => rsum n (fun j =>
          bget Rm (fun k => match k with O => j | S O => e (m - 1)%nat | S (S l) => e (l + m)%nat end)
          * bget C (fun k => if (k =? m - 1)%nat then j else e k)))).

(** gaussian.py 2579-2586, 2607-2614, 2650-2657: the number of the axis counted from the end, as
    abs(axis) after the checks.  An axis which is not an integer is not modelled. *)
Definition rotated_axis (axis : Z) (ndim : nat) : res nat :=
  if ((axis <? - Z.of_nat ndim) || (Z.of_nat ndim <=? axis))%Z then Err ValueError
  else Ok (Z.to_nat (Z.abs (if (0 <=? axis)%Z then axis - Z.of_nat ndim else axis)%Z)).

(** gaussian.py 2571-2597 *)
Definition left_rotate (Cov Rm : arr R) (axis : Z) (ndim : nat) : res (arr R) :=
  a <- rotated_axis axis ndim ;; ein_rotate (ndim + a) Rm Cov.
(** gaussian.py 2599-2625 *)
Definition right_rotate (Cov Rm : arr R) (axis : Z) (ndim : nat) : res (arr R) :=
  a <- rotated_axis axis ndim ;; ein_rotate a Rm Cov.
(** gaussian.py 2627-2640 *)
Definition rotate_cov (Cov Rm : arr R) (axis : Z) (ndim : nat) : res (arr R) :=
  C <- left_rotate Cov Rm axis ndim ;; right_rotate C Rm axis ndim.
(** gaussian.py 2642-2673 *)
Definition rotate_mu (mu Rm : arr R) (axis : Z) (ndim : nat) : res (arr R) :=
  a <- rotated_axis axis ndim ;; ein_rotate a Rm mu.

(** gaussian.py 2561-2569: np.einsum with one operand.  The axis k from the end of the operand has
    the label k + 1; the last [nd] axes of the result have the labels 2*nd, ..., nd + 1 and the [nd]
    axes before them nd, ..., 1. *)
Definition swapped (nd k : nat) : nat :=
  if (k <? nd)%nat then (k + nd)%nat else if (k <? 2 * nd)%nat then (k - nd)%nat else k.
Definition transpose_cov (Cov : arr R) (nd : nat) : res (arr R) :=
  if (ndim Cov <? 2 * nd)%nat then Err ValueError else
  Ok (Arr (map (fun k => ax (ash Cov) (swapped nd k)) (back_range (ndim Cov)))
       (fun e => bget Cov (fun k => e (swapped nd k)))).

(** gaussian.py 2675-2682.  [np.prod] of an empty shape is the float 1.0, which [np.reshape]
    refuses (TypeError). *)
Definition array_to_vector (x : arr R) (nd : nat) : res (arr R) :=
  if (nd =? 0)%nat then Ok x else
  if (ndim x =? 0)%nat then Err TypeError else
  np_reshape x (but_last nd (ash x) ++ [size (last_axes nd (ash x))]).
(** gaussian.py 2684-2690 *)
Definition array_to_matrix (A : arr R) (nd : nat) : res (arr R) :=
  if (nd =? 0)%nat then Ok A else
  if (ndim A =? 0)%nat then Err TypeError else
  let D := size (last_axes nd (ash A)) in
  np_reshape A (but_last (2 * nd) (ash A) ++ [D; D]).
(** gaussian.py 2692-2694 *)
Definition vector_to_array (x : arr R) (s : shape) : res (arr R) :=
  np_reshape x (but_last 1 (ash x) ++ s).
(** gaussian.py 2696-2713: '...ik,...k->...i' is [ein_rotate 1]. *)
Definition matrix_dot_vector (A x : arr R) (nd : Z) : res (arr R) :=
  if (nd <? 0)%Z then Err ValueError else
  let n := Z.to_nat nd in
  if (n =? 0)%nat then np_multiply A x else
  let dims_x := last_axes n (ash x) in
  A' <- array_to_matrix A n ;;
  x' <- array_to_vector x n ;;
  y <- ein_rotate 1 A' x' ;;
  vector_to_array y dims_x.

(** gaussian.py 1743-1770: GaussianARD.rotate_plates up to the assignment of phi[0] and phi[1]
    ([plates] is len(self.plates), [nd] the number of axes of the variable).  The moments are then
    computed from these parameters as in any update.  A plate axis which is not an integer is not
    modelled. *)
(** np.sum(Q, axis=0) of a matrix. *)
Definition column_sums (Q : arr R) : arr R :=
  Arr [ax (ash Q) 0] (fun e => rsum (ax (ash Q) 1) (fun i => bget Q (fun k => match k with O => e 0%nat | S O => i | _ => 0%nat end))).
Definition rotate_plates (u0 phi1 Q : arr R) (plates nd : nat) (plate_axis : Z) : res (arr R * arr R) :=
  let axis := (if 0 <=? plate_axis then plate_axis - Z.of_nat plates else plate_axis)%Z in
  if ((axis <? - Z.of_nat plates) || (0 <=? axis))%Z then Err ValueError else
  let a := Z.to_nat (- axis) in
  u0' <- rotate_mu u0 Q 0 (nd + a) ;;
  let sumQ := add_trailing_axes (column_sums Q) (2 * nd + a - 1) in
  phi1' <- np_multiply (np_map (fun v => / (v * v)) sumQ) phi1 ;;
  phi0 <- matrix_dot_vector phi1' u0' (Z.of_nat nd) ;;
  Ok (np_map (fun v => -2 * v) phi0, phi1').
