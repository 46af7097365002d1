(** Specifications for the array functions. *)
From Coq Require Import List Arith ZArith Lia Bool Reals.
From Verif Require Import Base SpecShapes NumPy MiscArray.
Import ListNotations.

(** [axis] (Python integers) names the axis that is [k] from the end of an
    array with [n] axes, either by its non-negative or its negative number. *)
Definition named (n : nat) (axis : list Z) (k : nat) : bool :=
  existsb (Z.eqb (Z.of_nat n - 1 - Z.of_nat k)) axis ||
  existsb (Z.eqb (- 1 - Z.of_nat k)) axis.

(** Which axes the caller of sum_multiply asks to be summed. *)
Definition asked_to_sum (n : nat) (axis : axspec) (sumaxis : bool) (k : nat) : bool :=
  match axis, sumaxis with
  | AxNone, true => true
  | AxNone, false => false
  | AxScalar i, true => named n [i] k
  | AxScalar i, false => negb (named n [i] k)
  | AxList l, true => named n l k
  | AxList l, false => negb (named n l k)
  end.

(** np.sum(p, axis=axes, keepdims=keepdims) *)
Definition numpy_sum (p : arr R) (axes : list nat) (keepdims : bool) : arr R :=
  if keepdims then np_sum_keep p axes else np_sum p axes.

(** All index assignments of a shape, axis by axis. *)
Fixpoint all_idx (s : list nat) (n : nat) : list env :=
  match n with
  | O => [env0]
  | S k => flat_map (fun e => map (fun x => upd e k x) (seq 0 (ax s k))) (all_idx s k)
  end.
Definition all_indices (s : list nat) : list env := all_idx s (length s).

(** Sum of all elements of a function on the index assignments of [s]. *)
Definition total (s : list nat) (F : env -> R) : R := lsum (map F (all_indices s)).

(** [i] broadcasts to the element [t] of shape [to]. *)
Definition maps_to (n : nat) (to : list nat) (i t : env) : bool :=
  forallb (fun k => (clip to i k =? t k)%nat) (seq 0 n).

(** Sum of [F] over all elements of [from] that correspond to element [t] of
    [to]. *)
Definition fibre_sum (from to : list nat) (t : env) (F : env -> R) : R :=
  lsum (map F (filter (fun i => maps_to (length from) to i t) (all_indices from))).

(** Index with plate part [i] and variable part [v] ([nd] trailing variable
    axes). *)
Definition join (nd : nat) (i v : env) : env :=
  fun k => if (k <? nd)%nat then v k else i (k - nd)%nat.

(** Move the element at position [f] to position [t]; the others keep their
    order. *)
Definition remove_at {A} (f : nat) (l : list A) : list A := firstn f l ++ skipn (S f) l.
Definition insert_at {A} (t : nat) (x : A) (l : list A) : list A :=
  firstn t l ++ x :: skipn t l.
Definition move_element {A} (f t : nat) (d : A) (l : list A) : list A :=
  insert_at t (nth f l d) (remove_at f l).

(** Index assignment for a list of indices in Python order. *)
Definition at_index (idx : list nat) : env := fun k => nth k (rev idx) 0%nat.

(** The position a Python axis number means. *)
Definition position (n : nat) (i : Z) : nat :=
  Z.to_nat (if (i <? 0)%Z then i + Z.of_nat n else i)%Z.
