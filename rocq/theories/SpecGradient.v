(** Specification of directional derivatives with respect to natural parameters:
    the point phi + t d, coordinate by coordinate. *)
From Coq Require Import List Arith Bool Reals.
From Verif Require Import Base NumPy Families Linalg.
Open Scope R_scope.

Definition vline (p d : vec) (t : R) : vec := fun i => p i + t * d i.
Definition mline (p d : mat) (t : R) : mat := fun i j => p i j + t * d i j.
Definition gline (p d : vec * mat) (t : R) : vec * mat := (vline (fst p) (fst d) t, mline (snd p) (snd d) t).
Definition ggline (p d : vec * mat * R * R) (t : R) : vec * mat * R * R :=
  let '(p0, p1, p2, p3) := p in let '(d0, d1, d2, d3) := d in
  (vline p0 d0 t, mline p1 d1 t, p2 + t * d2, p3 + t * d3).
Definition wline (p d : mat * R) (t : R) : mat * R := (mline (fst p) (fst d) t, snd p + t * snd d).
(** The sum of all products of entries, sum_ij A_ij B_ij. *)
Definition dot_m (n : nat) (A B : mat) : R := rsum n (fun i => rsum n (fun j => A i j * B i j)).
(** The value of a quantity of the moments of a result (moments, g). *)
Definition at_moments {A} (F : A -> R) (r : res (A * R)) : R := match r with Ok (u, _) => F u | Err _ => 0 end.
