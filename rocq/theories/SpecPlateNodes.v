(** What NumPy's basic indexing means, as a relation. *)
From Coq Require Import List Arith ZArith Bool Reals.
From Verif Require Import Base Shapes SpecShapes NumPy MiscArray SpecArray PlateNodes.
Import ListNotations.
Open Scope nat_scope.

(** A slice of an axis of length [N] picks [n] elements; the q-th one is x.  Python's
    range(start, stop, step) of slice.indices. *)
Definition picks (x y z : option Z) (N n : nat) : Prop :=
  exists a b st, slice_indices x y z N = Ok (a, b, st) /\
    forall q : nat, q < n <-> (if (0 <? st)%Z then a + st * Z.of_nat q < b else b < a + st * Z.of_nat q)%Z.
Definition picks_at (x y z : option Z) (N q p : nat) : Prop :=
  exists a b st, slice_indices x y z N = Ok (a, b, st) /\ Z.of_nat p = (a + st * Z.of_nat q)%Z.

Definition is_ellipsis (s : idx) : bool := match s with IEll => true | _ => false end.
(** How many axes an index expression without Ellipsis indexes. *)
Definition uses (s : idx) : nat := match s with IInt _ | ISlice _ _ _ => 1 | _ => 0 end.
Definition used (l : list idx) : nat := list_sum (map uses l).

(** Indexing an array of shape P with the expression [l] gives shape Q. *)
Inductive indexed : list idx -> list nat -> list nat -> Prop :=
| ix_nil : forall P, indexed [] P P
| ix_int : forall i l n P Q, (- Z.of_nat n <= i < Z.of_nat n)%Z -> indexed l P Q ->
    indexed (IInt i :: l) (n :: P) Q
| ix_slice : forall x y z l N n P Q, picks x y z N n -> indexed l P Q ->
    indexed (ISlice x y z :: l) (N :: P) (n :: Q)
| ix_new : forall l P Q, indexed l P Q -> indexed (INew :: l) P (1 :: Q)
| ix_ellipsis : forall l P1 P2 Q, existsb is_ellipsis l = false -> used l = length P2 ->
    indexed l P2 Q -> indexed (IEll :: l) (P1 ++ P2) (P1 ++ Q).

(** Element [q] of the indexed array is element [p] of the array. *)
Inductive selects : list idx -> list nat -> list nat -> list nat -> Prop :=
| se_nil : forall P p, length p = length P -> selects [] P p p
| se_int : forall i l n P q p, selects l P q p ->
    selects (IInt i :: l) (n :: P) q (Z.to_nat (if (i <? 0)%Z then i + Z.of_nat n else i)%Z :: p)
| se_slice : forall x y z l N P q1 p1 q p, picks_at x y z N q1 p1 -> selects l P q p ->
    selects (ISlice x y z :: l) (N :: P) (q1 :: q) (p1 :: p)
| se_new : forall l P q p, selects l P q p -> selects (INew :: l) P (0 :: q) p
| se_ellipsis : forall l P1 P2 p1 q p, existsb is_ellipsis l = false -> used l = length P2 ->
    length p1 = length P1 -> selects l P2 q p -> selects (IEll :: l) (P1 ++ P2) (p1 ++ q) (p1 ++ p).
