(** Model of the dense linear algebra of bayespy/utils/linalg.py for one plate.
    No proofs here.

    Simplifications: the loops over plates are left out (the code runs the same
    formula for every plate); a vector of length n is a function used at 0..n-1
    and an n x n matrix a function of two such indices; numbers are real.  The
    LAPACK routines behind scipy.linalg.cho_factor and cho_solve are not code of
    /repo: they are modelled by the textbook algorithms on the upper triangle. *)
From Coq Require Import List Arith Bool Reals.
From Verif Require Import Base NumPy Families.
Import ListNotations.
Open Scope R_scope.

Definition mat := nat -> nat -> R.
Definition tail_v (b : vec) : vec := fun i => b (S i).
Definition tail_m (A : mat) : mat := fun i j => A (S i) (S j).
Definition cons_v (x : R) (b : vec) : vec := fun i => match i with O => x | S i' => b i' end.

(** scipy.linalg.cho_factor(A), lower=False: U upper triangular with U^T U = A;
    only the upper triangle of A is read; LinAlgError when a pivot is not
    positive. *)
Fixpoint cho_factor (n : nat) (A : mat) : res mat :=
  match n with
  | O => Ok (fun _ _ => 0)
  | S m =>
      if Rle_dec (A O O) 0 then Err ValueError
      else
        let r := sqrt (A O O) in
        U <- cho_factor m (fun i j => A (S i) (S j) - (A O (S i) / r) * (A O (S j) / r)) ;;
        Ok (fun i j => match i, j with
              | O, O => r
              | O, S j' => A O (S j') / r
              | S _, O => 0
              | S i', S j' => U i' j' end)
  end.
(** scipy.linalg.cho_solve((U, False), b): solve U^T y = b, then U x = y. *)
Fixpoint forward_solve (n : nat) (U : mat) (b : vec) : vec :=
  match n with
  | O => fun _ => 0
  | S m =>
      let y0 := b O / U O O in
      cons_v y0 (forward_solve m (tail_m U) (fun i => b (S i) - U O (S i) * y0))
  end.
Fixpoint back_solve (n : nat) (U : mat) (y : vec) : vec :=
  match n with
  | O => fun _ => 0
  | S m =>
      let x' := back_solve m (tail_m U) (tail_v y) in
      cons_v ((y O - rsum m (fun j => U O (S j) * x' j)) / U O O) x'
  end.
Definition cho_solve (n : nat) (U : mat) (b : vec) : vec := back_solve n U (forward_solve n U b).

(** linalg.py 30-62: chol; LinAlgError becomes Exception("Matrix not positive
    definite"). *)
Definition chol (n : nat) (A : mat) : res mat :=
  match cho_factor n A with Ok U => Ok U | Err _ => Err PyException end.
(** linalg.py 65-162: chol_solve for a vector, and for the columns of a matrix
    (matrix=True). *)
Definition chol_solve (n : nat) (U : mat) (b : vec) : vec := cho_solve n U b.
Definition chol_solve_m (n : nat) (U B : mat) : mat := fun i j => cho_solve n U (fun k => B k j) i.
(** linalg.py 165-195: chol_inv, the columns of the identity. *)
Definition identity : mat := fun i j => if i =? j then 1 else 0.
Definition chol_inv (n : nat) (U : mat) : mat := fun i j => cho_solve n U (fun k => identity k j) i.
(** linalg.py 197-211: chol_logdet. *)
Definition chol_logdet (n : nat) (U : mat) : R := 2 * rsum n (fun i => ln (U i i)).
(** linalg.py 228-229: logdet_cov. *)
Definition logdet_cov (n : nat) (A : mat) : res R := U <- chol n A ;; Ok (chol_logdet n U).

(** linalg.py 299-334, 358-380, 382-386, 407-452: inner, outer, dot, tracedot, mvdot,
    mmdot, transpose with ndim = 1. *)
Definition innerv (n : nat) (a b : vec) : R := rsum n (fun i => a i * b i).
Definition outerv (a b : vec) : mat := fun i j => a i * b j.
Definition mvdot (n : nat) (A : mat) (b : vec) : vec := fun i => rsum n (fun j => A i j * b j).
Definition mmdot (n : nat) (A B : mat) : mat := fun i j => rsum n (fun k => A i k * B k j).
Definition transpose (A : mat) : mat := fun i j => A j i.
Definition tracedot (n : nat) (A B : mat) : R := rsum n (fun i => rsum n (fun j => A i j * B j i)).
