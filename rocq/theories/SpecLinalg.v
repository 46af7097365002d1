(** Specification of the linear algebra: symmetric and positive definite matrices.
    Determinants are those of mathcomp ([mdet] in MatBridge.v). *)
From Coq Require Import List Arith Bool Reals.
From Verif Require Import Base NumPy Families Linalg MatBridge.
Open Scope R_scope.

Definition symmetric (n : nat) (A : mat) : Prop :=
  forall i j, (i < n)%nat -> (j < n)%nat -> A i j = A j i.
(** x^T A y *)
Definition bilinear (n : nat) (A : mat) (x y : vec) : R :=
  rsum n (fun i => rsum n (fun j => x i * A i j * y j)).
Definition nonzero (n : nat) (x : vec) : Prop := exists i, (i < n)%nat /\ x i <> 0.
Definition posdef (n : nat) (A : mat) : Prop :=
  symmetric n A /\ forall x, nonzero n x -> 0 < bilinear n A x x.
Definition is_inverse (n : nat) (A V : mat) : Prop :=
  meq n (mmdot n A V) identity /\ meq n (mmdot n V A) identity.
