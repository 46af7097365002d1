(** What the array helpers promise, with positions written as lists of indices. *)
From Coq Require Import List Arith Reals.
From Verif Require Import Base Shapes SpecShapes NumPy.
Import ListNotations.
Open Scope R_scope.

(** The element a[i, j, ...]. *)
Definition at_ {A} (a : arr A) (ix : list nat) : A := bget a (fun k => nth k (rev ix) 0%nat).
(** One index per axis, each below the length of its axis. *)
Definition inside (s : shape) (ix : list nat) : Prop := Forall2 lt ix s.
(** The number of elements of an array of this shape. *)
Definition count (s : shape) : nat := fold_right Nat.mul 1%nat s.
(** The place of a position when the array is read row by row (the last index runs fastest). *)
Fixpoint place (s : shape) (ix : list nat) : nat :=
  match s, ix with
  | n :: s', i :: ix' => (i * count s' + place s' ix')%nat
  | _, _ => 0%nat
  end.
(** The places of the positions of several groups of axes. *)
Fixpoint places (gs : list shape) (ixs : list (list nat)) : list nat :=
  match gs, ixs with
  | g :: gs', ix :: ixs' => place g ix :: places gs' ixs'
  | _, _ => []
  end.

(** ** Block matrices *)
(** The number of rows before the i-th block. *)
Fixpoint offset (sizes : list nat) (i : nat) : nat :=
  match i, sizes with
  | S j, n :: r => (n + offset r j)%nat
  | _, _ => 0%nat
  end.
(** Element (a, b) of the block in block row i and block column j, when the diagonal blocks are D
    and the blocks to the right of them are B. *)
Definition block (D B : list (arr R)) (i j a b : nat) : R :=
  if (i =? j)%nat then at_ (nth i D (scalar 0)) [a; b]
  else if (S i =? j)%nat then at_ (nth i B (scalar 0)) [a; b]
  else if (i =? S j)%nat then at_ (nth j B (scalar 0)) [b; a]
  else 0.
(** A number is a block of one row and one column, a vector is a block of one row. *)
Definition as_matrix (s : shape) : shape :=
  match s with [] => [1; 1]%nat | [n] => [1%nat; n] | _ => s end.
(** D[i] has [ns[i]] rows and columns, B[i] has [ns[i]] rows and [ns[i+1]] columns. *)
Definition block_shapes (ns : list nat) (D B : list (arr R)) : Prop :=
  length D = length ns /\ length ns = S (length B) /\
  (forall i, (i < length D)%nat -> as_matrix (ash (nth i D (scalar 0))) = [nth i ns 0%nat; nth i ns 0%nat]) /\
  (forall i, (i < length B)%nat -> as_matrix (ash (nth i B (scalar 0))) = [nth i ns 0%nat; nth (S i) ns 0%nat]).
