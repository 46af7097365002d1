(** Model of the Gate node (nodes/gate.py).  [g] is abs(gated_plate) - 1: the gated axis
    counted from the end of the plates of X; [nd] the number of variable axes of an array
    of moments; [K] the length of the gated axis.  No proofs here. *)
From Coq Require Import List Arith ZArith Bool Reals.
From Verif Require Import Base Shapes SpecShapes NumPy MiscArray AddAxis.
Import ListNotations.
Open Scope nat_scope.

(** The Python axis number -1-k. *)
Definition neg_axis (k : nat) : Z := (- Z.of_nat k - 1)%Z.

(** gate.py 63-78: the checks of the constructor; [zk] is Z.dims[0]. *)
Definition gate_init (g : nat) (x_plates zk : shape) : res nat :=
  if length x_plates <? g + 1 then Err ValueError
  else let K := ax x_plates g in
       if list_eq_dec Nat.eq_dec zk [K] then Ok K else Err ValueError.

(** gate.py 95-96 and 142-143: the probabilities with the variable axes added before the
    axis of the categories. *)
Definition gate_z (nd : nat) (z : arr R) : res (arr R) :=
  moveaxis (add_trailing_axes z nd) (neg_axis nd) (neg_axis 0).
(** gate.py 86-105: _compute_moments, one array of moments. *)
Definition gate_moments (g nd : nat) (z x : arr R) : res (arr R) :=
  z1 <- gate_z nd z ;;
  x1 <- (if ndim x <? g + nd + 1 then Ok (add_trailing_axes x 1)
         else moveaxis x (neg_axis (g + nd)) (neg_axis 0)) ;;
  sum_product [z1; x1] None (AxScalar (-1)) false.

(** gate.py 116-128: one term of the message to Z. *)
Definition gate_term_z (g nd : nat) (m x : arr R) : res (arr R) :=
  c <- moveaxis (expand_at m 0) (neg_axis 0) (neg_axis nd) ;;
  x1 <- (if ndim x <? g + nd + 1 then
           (if nd <=? ndim x then Ok (expand_at x nd) else Err ValueError)
         else moveaxis x (neg_axis (g + nd)) (neg_axis nd)) ;;
  sum_product [c; x1] None (AxList (map (fun i => Z.of_nat i - Z.of_nat nd)%Z (seq 0 nd))) false.
(** gate.py 108-134: the message to Z; [l]: number of variable axes, message and moments of X. *)
Definition gate_message_z (g K : nat) (l : list (nat * arr R * arr R)) : res (arr R) :=
  m0 <- foldM (fun m0 (t : nat * arr R * arr R) => let '(nd, m, x) := t in
                 s <- gate_term_z g nd m x ;; np_map2 Rplus m0 s) (scalar 0%R) l ;;
  np_multiply m0 (Arr [K] (fun _ => 1%R)).

(** gate.py 136-162: the message to X, one array. *)
Definition gate_message_x (g nd : nat) (z m : arr R) : res (arr R) :=
  z1 <- gate_z nd z ;;
  mi <- np_multiply z1 (add_trailing_axes m 1) ;;
  let mi := if ndim mi <? g + nd + 1 then add_leading_axes mi (g + nd + 1 - ndim mi) else mi in
  moveaxis mi (neg_axis 0) (neg_axis (g + nd)).

(** gate.py 168-182: _compute_weights_to_parent. *)
Definition gate_weights {A} (index g : nat) (w : arr A) : res (arr A) :=
  match index with
  | 0 => Ok w
  | 1 => Ok (if g + 1 <=? ndim w then expand_at w g else w)
  | _ => Err ValueError
  end.
(** gate.py 185-201: _compute_plates_to_parent (at least [g] plates: otherwise list.insert
    gets a negative position, which is not modelled). *)
Definition gate_plates_to (index g K : nat) (plates : shape) : res shape :=
  match index with
  | 0 => Ok plates
  | 1 => Ok (py_insert (length plates - g) K plates)
  | _ => Err ValueError
  end.
(** gate.py 204-216: _compute_plates_from_parent. *)
Definition gate_plates_from (index g : nat) (plates : shape) : res shape :=
  match index with
  | 0 => Ok plates
  | 1 => if g + 1 <=? length plates then py_pop g plates else Ok plates
  | _ => Err ValueError
  end.
