(** Independent specification of NumPy's broadcasting rules. *)
From Coq Require Import List Arith Lia Bool.
Import ListNotations.

(** Length of the axis that is [k] places from the end (k = 0 is the last
    axis).  NumPy treats missing leading axes as having length one. *)
Definition ax (s : list nat) (k : nat) : nat := nth k (rev s) 1.

(** The broadcasting rules of NumPy: the result has as many axes as the longest
    shape; on every axis, each shape has length one or the length of the result,
    and a length other than one in the result comes from one of the shapes. *)
Definition numpy_broadcast (shapes : list (list nat)) (S : list nat) : Prop :=
  (forall a, In a shapes -> length a <= length S) /\
  (S = [] \/ exists a, In a shapes /\ length a = length S) /\
  (forall k, (forall a, In a shapes -> ax a k = 1 \/ ax a k = ax S k) /\
             (ax S k = 1 \/ exists a, In a shapes /\ ax a k = ax S k)).

(** Two shapes that clash on some axis. *)
Definition clash (shapes : list (list nat)) : Prop :=
  exists k a b, In a shapes /\ In b shapes /\
                ax a k <> 1 /\ ax b k <> 1 /\ ax a k <> ax b k.

(** An array of shape [a] can be broadcast to exactly the shape [S]. *)
Definition broadcasts_to (a S : list nat) : Prop :=
  length a <= length S /\ forall k, ax a k = 1 \/ ax a k = ax S k.
