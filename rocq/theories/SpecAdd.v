(** Specification of Add and ConcatGaussian, independent of the model. *)
From Coq Require Import List Arith Bool Reals.
From Verif Require Import Base Shapes SpecShapes NumPy MiscArray SpecArray Dot SpecDot.
Import ListNotations.
Open Scope nat_scope.

(** The arrays [x] = <x> and [xx] = <x x'> describe a Gaussian-like parent with variable shape
    [d] in every plate of [P]; see [describes]. *)
Definition gaussian_parent (P d : shape) (u : arr R * arr R) (dist : env -> list outcome) : Prop :=
  describes false P d KGaussian (MGaussian (fst u) (snd u)) dist.
(** Only the shapes. *)
Definition gaussian_shaped (P d : shape) (u : arr R * arr R) : Prop :=
  variable_of P d (fst u) /\ variable_of P (d ++ d) (snd u).

(** Element [o] of the sum of the drawn values. *)
Definition sum_at (os : list outcome) (o : list nat) : R :=
  lsum (map (fun w => bget (o_value w) (at_index o)) os).

(** Element [o] of the concatenation of the drawn vectors. *)
Fixpoint concat_at (os : list outcome) (o : nat) : R :=
  match os with
  | [] => 0%R
  | w :: r => let n := ax (ash (o_value w)) 0 in
              if o <? n then bget (o_value w) (at_index [o]) else concat_at r (o - n)
  end.

(** [m] is symmetric in the two halves of its variable axes. *)
Definition symmetric (P d : shape) (m : arr R) : Prop :=
  forall p o o', plate_in P p -> index_in d o -> index_in d o' ->
    bget m (join (length (d ++ d)) p (at_index (o ++ o'))) =
    bget m (join (length (d ++ d)) p (at_index (o' ++ o))).

(** The pairing of natural-parameter messages with moments, summed over plates and elements. *)
Definition paired (P d : shape) (m x : arr R * arr R) : R :=
  (total (P ++ d) (fun e => bget (fst m) e * bget (fst x) e) +
   total (P ++ d ++ d) (fun e => bget (snd m) e * bget (snd x) e))%R.
