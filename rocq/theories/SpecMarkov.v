(** Specification of a chain with given weights: enumeration of all paths. *)
From Coq Require Import List Arith Bool Reals.
From Verif Require Import Base NumPy ExtReal.
Import ListNotations.
Open Scope R_scope.

(** All sequences of [n] states. *)
Fixpoint paths (D n : nat) : list (list nat) :=
  match n with
  | O => [[]]
  | S m => flat_map (fun i => map (cons i) (paths D m)) (seq 0 D)
  end.

(** Product of the transition weights along a path, starting at time [n]. *)
Fixpoint steps_weight (P : nat -> nat -> nat -> R) (n : nat) (z : list nat) : R :=
  match z with
  | [] => 1
  | i :: r => match r with
              | [] => 1
              | j :: _ => P n i j * steps_weight P (S n) r
              end
  end.

(** Weight of a path. *)
Definition path_weight (p0 : nat -> R) (P : nat -> nat -> nat -> R) (z : list nat) : R :=
  match z with [] => 1 | i :: _ => p0 i * steps_weight P 0 z end.

(** Total weight of the paths with N transitions that satisfy a condition. *)
Definition weight_of (D N : nat) p0 P (cond : list nat -> bool) : R :=
  lsum (map (path_weight p0 P) (filter cond (paths D (S N)))).
Definition normaliser (D N : nat) p0 P : R := weight_of D N p0 P (fun _ => true).

(** Probability that a path satisfies a condition. *)
Definition prob (D N : nat) p0 P cond : R := weight_of D N p0 P cond / normaliser D N p0 P.

Definition at_time (n i : nat) (z : list nat) : bool := (nth n z 0 =? i)%nat.

(** Inner product of natural parameters (or messages) with the moments of a chain
    with N transitions: <a0, z0> + sum_n <a1[n], zz[n]>. *)
Definition chain_dot (D N : nat) (a0 : nat -> R) (a1 : nat -> nat -> nat -> R)
    (z0 : nat -> R) (zz : nat -> nat -> nat -> R) : R :=
  rsum D (fun i => a0 i * z0 i) +
  rsum N (fun n => rsum D (fun i => rsum D (fun j => a1 n i j * zz n i j))).

(** Replacing one parameter. *)
Definition with_entry1 (a : nat -> R) (i : nat) (t : R) : nat -> R :=
  fun x => if (x =? i)%nat then t else a x.
Definition with_entry3 (a : nat -> nat -> nat -> R) (n i j : nat) (t : R) : nat -> nat -> nat -> R :=
  fun m x y => if ((m =? n)%nat && (x =? i)%nat && (y =? j)%nat)%bool then t else a m x y.

(** The log-normaliser and the moments in a result of the recursion. *)
Definition chain_cgf (r : res (list ext * list (list (list ext)) * ext)) : R :=
  match r with Ok (_, _, Fin g) => g | _ => 0 end.
Definition real_of (a : ext) : R := match a with Fin x => x | _ => 0 end.
Definition chain_u0 (r : res (list ext * list (list (list ext)) * ext)) (i : nat) : R :=
  match r with Ok (z0, _, _) => real_of (nth i z0 NaN) | _ => 0 end.
Definition chain_u1 (r : res (list ext * list (list (list ext)) * ext)) (n i j : nat) : R :=
  match r with Ok (_, zz, _) => real_of (nth j (nth i (nth n zz []) []) NaN) | _ => 0 end.
