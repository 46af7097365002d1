(** Specifications for constants: the kinds of values that a parent can have. *)
From Coq Require Import List Arith Reals.
From Verif Require Import Base Shapes SpecShapes NumPy SpecDot ConstNode.
Import ListNotations.

(** A constant node with these plates and whose moments have the shapes [dims] of the
    variable in every plate. *)
Definition proper (c : const) (plates : shape) (dims : list shape) : Prop :=
  c_plates c = plates /\ c_dims c = map (map PI) dims /\
  Forall2 (variable_of plates) dims (c_u c).

Definition everywhere (P : R -> Prop) (x : arr R) : Prop := forall e, valid (ash x) e -> P (bget x e).

(** The probabilities along the last axis, of length K, sum to one in every plate of
    [P], within the tolerance of np.allclose. *)
Definition rows_sum_to_one (P : shape) (K : nat) (p : arr R) : Prop :=
  forall e, valid P e ->
    (Rabs (rsum K (fun k => bget p (fun j => match j with 0 => k | S j' => e j' end)) - 1)
     <= / 100000000 + / 100000)%R.

(** The values that satisfy [ok] become a constant with these plates and dims, the
    others are refused with ValueError. *)
Definition accepts (r : res const) (ok : Prop) (plates : shape) (dims : list shape) : Prop :=
  (ok -> exists c, r = Ok c /\ proper c plates dims) /\ (~ ok -> r = Err ValueError).

(** The moments of a constant: each entry of [fs] has the shape of the moment and its
    value at every index (axes are counted from the last one). *)
Definition moments_are (fs : list (shape * (env -> R))) (r : res const) : Prop :=
  forall c, r = Ok c ->
    Forall2 (fun f u => forall e, valid (fst f) e -> bget u e = snd f e) fs (c_u c).

(** The index of the plate, when the variable has n axes. *)
Definition plate_of (n : nat) (e : env) : env := fun k => e (k + n).
(** The index e with k on the last axis. *)
Definition at_last (k : nat) (e : env) : env := fun j => match j with 0 => k | S _ => e j end.
(** Of an index into n axes and another n axes, the plate with the second ones. *)
Definition second_axes (n : nat) (e : env) : env := fun k => if k <? n then e k else e (k + n).
