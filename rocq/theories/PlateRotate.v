(** Model of RotateGaussianARD in transformations.py when the plates are rotated too (setup with
    a plate_axis), and of RotateGaussianMarkovChain.bound, which uses it for the dynamics.  No
    proofs here.

    Simplifications: X is a GaussianARD of vectors of length M with one plate axis of length P
    (the dynamics of a chain); no subset, precompute = False (the two settings of precompute
    compute the same sums in another order).  The moments of X and of its parent are given for
    every plate (broadcast).  alpha has an axis for the plates of X ([pn_pa]) or not, and an axis
    for the elements of X ([pn_da]) or not; an axis that is missing or has length one is
    [false], and its index is 0.  einsum and sum_to_plates are written out for this case. *)
From Coq Require Import List Arith Bool Reals.
From Verif Require Import Base NumPy Families Linalg Gaussian BlockBanded GaussMarkov RotateARD RotateChain.
Import ListNotations.
Open Scope R_scope.

(** An array of shape (P or 1, M or 1); [true]: the axis is full (and longer than one). *)
Record arr2 := Arr2 { a2_r : bool ; a2_c : bool ; a2_v : nat -> nat -> R }.
Definition at2 (x : arr2) (i j : nat) : R := a2_v x (if a2_r x then i else O) (if a2_c x then j else O).

(** The gamma node: phi[1] and the first moments of its parents. *)
Record plate_gamma := PlateGamma { pg_a : nat -> nat -> R ; pg_a0 : arr2 ; pg_b0 : arr2 }.
Record plate_nodes := PlateNodes {
  pn_P : nat ; pn_M : nat ;
  pn_u : nat -> vec * mat ;
  pn_alpha_mu : nat -> vec ; pn_alpha_mu2 : nat -> vec ; pn_alpha : nat -> vec ;
  pn_pa : bool ; pn_da : bool ;
  pn_gamma : option plate_gamma }.

Section Bound.
Variable n : plate_nodes.
Let P := pn_P n.
Let M := pn_M n.

(** The lengths of the axes of alpha, the indices of the element of alpha that belongs to an
    element of X, and 358-374: sum_to_plates along one axis. *)
Definition rows : nat := if pn_pa n then P else 1%nat.
Definition cols : nat := if pn_da n then M else 1%nat.
Definition to_row (p : nat) : nat := if pn_pa n then p else O.
Definition to_col (k : nat) : nat := if pn_da n then k else O.
Definition sum_rows (V : nat -> R) (c : nat) : R := if pn_pa n then V c else rsum P V.
Definition sum_cols (V : nat -> R) (d : nat) : R := if pn_da n then V d else rsum M V.
Definition sum_alpha (V : nat -> nat -> R) : R := rsum rows (fun c => rsum cols (fun d => V c d)).
(** 798: the multiplier from the plates of alpha to those of X (and its elements). *)
Definition repeats : R := (if pn_pa n then 1 else INR P) * (if pn_da n then 1 else INR M).

(** 475-640: setup *)
Definition pl_mu (p : nat) : vec := fun k => pn_alpha_mu n p k / pn_alpha n p k.
Definition pl_mu2 (p : nat) : vec := fun k => pn_alpha_mu2 n p k / pn_alpha n p k.
Definition pl_CovX (p : nat) : mat := sub_m (snd (pn_u n p)) (outerv (fst (pn_u n p)) (fst (pn_u n p))).
Definition pl_sum_mu2 (c : nat) : vec := fun k => sum_rows (fun p => pl_mu2 p k) c.

(** 717-757: the moments after the rotation of the plates *)
Definition sumQ (Q : mat) (p : nat) : R := rsum P (fun i => Q i p).
Definition pl_QX (Q : mat) (p : nat) : vec := fun j => rsum P (fun k => Q p k * fst (pn_u n k) j).
Definition pl_XX (Q : mat) (c : nat) : mat := fun i j =>
  sum_rows (fun p => sumQ Q p ^ 2 * pl_CovX p i j) c + sum_rows (fun p => pl_QX Q p i * pl_QX Q p j) c.
Definition pl_Xmu (Q : mat) (c : nat) : mat := fun i j => sum_rows (fun p => pl_QX Q p i * pl_mu p j) c.
(** 759-768 *)
Definition pl_RXX (Rm Q : mat) (c : nat) : mat := mmdot M Rm (pl_XX Q c).
Definition pl_dev (Rm Q : mat) (c : nat) : vec := fun i =>
  rsum M (fun k => pl_RXX Rm Q c i k * Rm i k) - 2 * rsum M (fun k => Rm i k * pl_Xmu Q c k i) + pl_sum_mu2 c i.
(** 773-791: q(alpha); [a]: the gamma node *)
Definition pl_b (g : plate_gamma) (Rm Q : mat) (c d : nat) : R :=
  at2 (pg_b0 g) c d + 0.5 * sum_cols (pl_dev Rm Q c) d.
Definition pl_alpha (g : plate_gamma) (Rm Q : mat) (c d : nat) : R := pg_a g c d / pl_b g Rm Q c d.

(** 793-853: the terms of X and of alpha *)
Definition pl_logH (Q : mat) (logdet : R) : R :=
  gaussian_entropy (-2 * rsum P (fun p => logdet + INR M * ln (Rabs (sumQ Q p)))) 0.
Definition plate_terms (Rm Q : mat) (logdet : R) : R * R :=
  match pn_gamma n with
  | Some g =>
      let alpha := pl_alpha g Rm Q in
      let logalpha := fun c d => - ln (pl_b g Rm Q c d) in
      (gaussian_logpdf (rsum rows (fun c => rsum M (fun k => pl_dev Rm Q c k * alpha c (to_col k)))) 0 0
         (repeats * sum_alpha logalpha) 0 + pl_logH Q logdet,
       gamma_logpdf (sum_alpha (fun c d => at2 (pg_b0 g) c d * alpha c d)) 0
         (sum_alpha (fun c d => at2 (pg_a0 g) c d * logalpha c d)) 0 0 + 0)
  | None =>
      (gaussian_logpdf (rsum rows (fun c => rsum M (fun k => pl_dev Rm Q c k * pn_alpha n c (to_col k)))) 0 0
         (INR P * INR M * 0) 0 + pl_logH Q logdet, 0)
  end.

(** a * V where V has a matrix of N x N in its last axes: the axes of [a] meet those of the
    matrix.  ValueError when they do not fit (numpy would broadcast a matrix with one row or
    column; here that is an error too). *)
Definition times_prior (x : arr2) (N : nat) (V : mat) : res mat :=
  if (negb (a2_r x) || (P =? N)%nat) && (negb (a2_c x) || (M =? N)%nat)
  then Ok (fun i j => at2 x i j * V i j) else Err ValueError.

(** 859-960: the gradient with respect to R; 872: D_XmuXmu, 896: D_a0_logalpha = a0 * D_logalpha
    (before the sum over the rows). *)
Definition pl_D_dev (Rm Q : mat) (c : nat) : mat := fun i j => 2 * pl_RXX Rm Q c i j - 2 * pl_Xmu Q c j i.
Definition plate_gradient_R (Rm inv Q : mat) : res mat :=
  let dlogH := fun i j => gaussian_entropy (-2 * (INR P * transpose inv i j)) 0 in
  match pn_gamma n with
  | Some g =>
      let al := fun c i => pl_alpha g Rm Q c (to_col i) in
      let b := fun c i => pl_b g Rm Q c (to_col i) in
      let S := fun c i => sum_cols (pl_dev Rm Q c) (to_col i) in
      let D_b := fun c i j => 0.5 * pl_D_dev Rm Q c i j in
      let q := fun i j => rsum rows (fun c => al c i * pl_D_dev Rm Q c i j + S c i * al c i * (-1 / b c i) * D_b c i j) in
      let D_logalpha := fun c i j => - (1 / b c i * D_b c i j) in
      let l := fun i j => (if pn_pa n then 1 else INR P) * rsum rows (fun c => D_logalpha c i j) in
      let ba := fun i j => rsum rows (fun c => at2 (pg_b0 g) c (to_col i) * al c i * (-1 / b c i) * D_b c i j) in
      _ <- times_prior (pg_a0 g) M (D_logalpha O) ;;
      let a_l := fun i j => rsum rows (fun c => at2 (pg_a0 g) i j * D_logalpha c i j) in
      Ok (fun i j => gaussian_logpdf (q i j) 0 0 (l i j * (if pn_da n then 1 else INR M)) 0
                     + gamma_logpdf (ba i j) 0 (a_l i j) 0 0 + dlogH i j + 0)
  | None =>
      let q := fun i j => rsum rows (fun c => pn_alpha n c (to_col i) * pl_D_dev Rm Q c i j) in
      Ok (fun i j => gaussian_logpdf (q i j) 0 0 0 0 + 0 + dlogH i j + 0)
  end.

(** 963-1092: the gradient with respect to Q *)
Definition pl_RX (Rm : mat) (p : nat) : vec := mvdot M Rm (fst (pn_u n p)).
Definition pl_psi (Rm Q : mat) (v : nat -> nat -> R) : mat := fun i j =>
  let QXR := fun i k => rsum P (fun p => Q i p * pl_RX Rm p k) in
  let QXr_rX := fun k i j => QXR i k * pl_RX Rm j k in
  let RX_mu := fun k i j => pl_RX Rm i k * pl_mu j k in
  let Q_RCovR := fun p i => rsum M (fun k => rsum M (fun l => Rm i k * pl_CovX p k l * Rm i l)) * sumQ Q p in
  rsum M (fun k => QXr_rX k i j * v (to_row i) (to_col k))
  + rsum M (fun k => Q_RCovR j k * v (to_row j) (to_col k))
  - rsum M (fun k => v (to_row i) (to_col k) * RX_mu k j i).
Definition plate_gradient_Q (Rm Q : mat) : res mat :=
  let dlogH := fun i j => gaussian_entropy (-2 * (INR M / sumQ Q j)) 0 in
  match pn_gamma n with
  | Some g =>
      let alpha := pl_alpha g Rm Q in
      let b := pl_b g Rm Q in
      let D_logalpha := fun i j => - pl_psi Rm Q (fun c d => 1 / b c d) i j in
      let XX_Dalpha := fun i j => - pl_psi Rm Q (fun c d => alpha c d / b c d * sum_cols (pl_dev Rm Q c) d) i j in
      let q := fun i j => 2 * pl_psi Rm Q alpha i j + XX_Dalpha i j in
      let D_alpha := fun i j => - pl_psi Rm Q (fun c d => alpha c d / b c d) i j in
      ba <- times_prior (pg_b0 g) P D_alpha ;;
      a_l <- times_prior (pg_a0 g) P D_logalpha ;;
      Ok (fun i j => gaussian_logpdf (q i j) 0 0 (D_logalpha i j * repeats) 0
                     + gamma_logpdf (ba i j) 0 (a_l i j) 0 0 + dlogH i j + 0)
  | None =>
      let q := fun i j => 2 * pl_psi Rm Q (pn_alpha n) i j in
      Ok (fun i j => gaussian_logpdf (q i j) 0 0 0 0 + 0 + dlogH i j + 0)
  end.

(** 1095-1100: bound *)
Definition plate_bound (Rm inv Q : mat) (logdet : R) : res (R * mat * mat) :=
  let '(x, a) := plate_terms Rm Q logdet in
  gR <- plate_gradient_R Rm inv Q ;;
  gQ <- plate_gradient_Q Rm Q ;;
  Ok (x + a, gR, gQ).
End Bound.

(** 1386-1425: RotateGaussianMarkovChain.bound; [A]: the dynamics, with D plates (rows) and
    [width] columns. *)
Definition markov_bound (N D : nat) (s : chain_stats) (A : plate_nodes) (Rm inv : mat) (logdet : R) : res (R * mat) :=
  '(bound_A, dR_A, dQ_A) <- plate_bound A (block_diag D (transpose inv)) (block_diag D (transpose Rm)) Rm (- logdet) ;;
  let dR := dot3 D (transpose inv) (transpose dR_A) (transpose inv) in
  Ok (chain_bound N D s Rm logdet + bound_A,
      fun i j => chain_bound_gradient N D s Rm inv i j + - dR i j + dQ_A i j).
