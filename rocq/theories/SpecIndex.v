(** All elements of an array, as lists of indices in Python order. *)
From Coq Require Import List Arith ZArith.
Import ListNotations.
Open Scope nat_scope.

(** All lists of indices (Python order) of a shape. *)
Fixpoint lists (s : list nat) : list (list nat) :=
  match s with
  | [] => [[]]
  | n :: s' => flat_map (fun t => map (fun x => x :: t) (seq 0 n)) (lists s')
  end.

(** Indices within a shape. *)
Definition within (p : list nat) (P : list nat) : Prop := Forall2 lt p P.

(** The position a Python index refers to on an axis of length [n]: negative indices count
    from the end. *)
Definition python_index (n : nat) (i : Z) : nat := Z.to_nat (i mod Z.of_nat n).
Definition in_range (n : nat) (i : Z) : Prop := (- Z.of_nat n <= i < Z.of_nat n)%Z.
