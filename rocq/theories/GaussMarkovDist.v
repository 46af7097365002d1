(** The Gaussian Markov chain distribution object as an array function, like
    GaussianDist.v.  No proofs here. *)
From Coq Require Import List Arith ZArith Bool Reals.
From Verif Require Import Base NumPy SpecArray Families Linalg Gaussian FamilyDist GaussianDist BlockBanded GaussMarkov.
Import ListNotations.
Open Scope nat_scope.

(** Axis 0 is the last one. *)
Definition as_rows (f : env -> R) : rows := fun n i => f (upd (upd env0 1 n) 0 i).
Definition of_rows (x : rows) : env -> R := fun v => x (v 1) (v 0).
Definition as_blocks (f : env -> R) : blocks := fun n i j => f (upd (upd (upd env0 2 n) 1 i) 0 j).
Definition of_blocks (x : blocks) : env -> R := fun v => x (v 2) (v 1) (v 0).

(** gaussian_markov_chain.py 87-120 *)
Definition chain_family (junk : rows * blocks * blocks) (N D : nat) : family :=
  Fam [[N; D]; [N; D; D]; [N - 1; D; D]] (fun phi =>
  match phi with
  | [p; q; r] => '(u, g) <- gmc_moments junk N D (as_rows p, as_blocks q, as_blocks r) ;;
                 let '(u0, u1, u2) := u in
                 Ok ([of_rows u0; of_blocks u1; of_blocks u2], g)
  | _ => Err IndexError end).
