(** Specification of the gradient of point-estimated parameters. *)
From Coq Require Import List Arith Bool Reals.
From Verif Require Import Base NumPy Families Linalg MatBridge SpecLinalg Gaussian MaxLik.
Import ListNotations.
Open Scope R_scope.

(** A curve of vectors with velocity H at time t0 (first n positions). *)
Definition moves (n : nat) (x : R -> vec) (t0 : R) (H : vec) : Prop :=
  forall e, (e < n)%nat -> derivable_pt_lim (fun t => x t e) t0 (H e).
Definition inner (n : nat) (a b : vec) : R := rsum n (fun e => a e * b e).
(** Several curves at once; [ns] gives the sizes. *)
Definition all_move (ns : list nat) (xs : R -> list vec) (t0 : R) (Hs : list vec) : Prop :=
  length Hs = length ns /\ (forall t, length (xs t) = length ns) /\
  forall i, (i < length ns)%nat -> moves (nth i ns 0%nat) (fun t => nth i (xs t) zero_v) t0 (nth i Hs zero_v).
(** Sum over the arguments of <a_i, b_i>. *)
Definition inner_all (ns : list nat) (a b : nat -> vec) : R :=
  rsum (length ns) (fun i => inner (nth i ns 0%nat) (a i) (b i)).

Definition sizes (net : mlnet) : list nat := n_params net ++ map f_size (n_funcs net).
Definition size_of (net : mlnet) (k : nat) : nat := nth k (sizes net) 0%nat.

(** What the user promises about a Function: it is differentiable at the values it gets
    and each gradient function returns the product of the transposed Jacobian with its first
    argument, that is <m, df> = sum_i <gradient_i(m, x), dx_i>. *)
Definition good_function (ns : list nat) (f : fnode) (xs0 : list vec) : Prop :=
  length (f_grads f) = length (f_parents f) /\
  forall xs t0 Hs, xs t0 = xs0 -> all_move ns xs t0 Hs ->
    exists K, moves (f_size f) (fun t => f_fun f (xs t)) t0 K /\
      forall m, inner (f_size f) m K =
        inner_all ns (fun i => nth i (f_grads f) (fun _ _ => zero_v) m xs0) (fun i => nth i Hs zero_v).

(** Every function reads earlier nodes; children read arrays of the right size. *)
Definition well_formed (net : mlnet) : Prop :=
  (forall j f, nth_error (n_funcs net) j = Some f ->
     Forall (fun k => (k < length (n_params net) + j)%nat) (f_parents f)) /\
  Forall (fun c => (c_node c < length (sizes net))%nat /\
                   size_of net (c_node c) = (c_plates c * (c_dim c * c_dim c))%nat) (n_consumers net).
Definition good_functions (net : mlnet) (theta : list vec) : Prop :=
  forall j f, nth_error (n_funcs net) j = Some f ->
    good_function (map (size_of net) (f_parents f)) f (values_at (forward net theta) (f_parents f)).
(** The matrices the children read are positive definite. *)
Definition proper (net : mlnet) (theta : list vec) : Prop :=
  Forall (fun c => forall q, (q < c_plates c)%nat ->
    posdef (c_dim c) (plate_matrix (c_dim c) (nth (c_node c) (forward net theta) zero_v) q))
    (n_consumers net).

(** The part of the lower bound that depends on the parameters: each child contributes
    <m0, Lambda> + m1 log|Lambda|, linear in the moments of the matrices it reads. *)
Definition children_bound (net : mlnet) (theta : list vec) : R :=
  lsum (map (fun c => rsum (c_plates c) (fun q =>
    let Lambda := plate_matrix (c_dim c) (nth (c_node c) (forward net theta) zero_v) q in
    innerm (c_dim c) (c_m0 c q) Lambda + c_m1 c q * ln (mdet (c_dim c) Lambda))) (n_consumers net)).
