(** Specification of block-tridiagonal systems: entry (n D + i, m D + j) of the full
    matrix is entry (i, j) of block (n, m). *)
From Coq Require Import List Arith Bool Reals.
From Verif Require Import Base NumPy Families Linalg BlockBanded.
Open Scope R_scope.

Definition block_of (A B : nat -> mat) (n m : nat) : mat := fun i j =>
  if (m =? n)%nat then A n i j
  else if (m =? S n)%nat then B n i j
  else if (n =? S m)%nat then B m j i
  else 0.
Definition tridiagonal (D : nat) (A B : nat -> mat) : mat := fun p q =>
  block_of A B (p / D) (q / D) (p mod D) (q mod D).
Definition flat (D : nat) (x : nat -> vec) : vec := fun p => x (p / D)%nat (p mod D)%nat.
(** Block (n, m) of a full matrix. *)
Definition block (D : nat) (W : mat) (n m : nat) : mat := fun i j => W (n * D + i)%nat (m * D + j)%nat.
