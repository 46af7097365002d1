(** The Gaussian-type distribution objects as array functions, like FamilyDist.v.
    No proofs here. *)
From Coq Require Import List Arith ZArith Bool Reals.
From Verif Require Import Base NumPy SpecArray Families Linalg Gaussian FamilyDist.
Import ListNotations.
Open Scope nat_scope.

(** Axis 0 is the last one. *)
Definition as_mat (f : env -> R) : mat := fun i j => f (upd (upd env0 1 i) 0 j).
Definition of_mat (A : mat) : env -> R := fun v => A (v 1) (v 0).

(** gaussian.py 397-446 *)
Definition gaussian_family (D : nat) : family := Fam [[D]; [D; D]] (fun phi =>
  match phi with
  | [p; q] => '(u, g) <- gaussian_moments D (as_vec p, as_mat q) ;;
              Ok ([of_vec (fst u); of_mat (snd u)], g)
  | _ => Err IndexError end).
(** gaussian.py 672-706, ndim > 0 and ndim = 0 *)
Definition ard_family (D : nat) : family := Fam [[D]; [D; D]] (fun phi =>
  match phi with
  | [p; q] => '(u, g) <- ard_moments D (as_vec p, as_mat q) ;;
              Ok ([of_vec (fst u); of_mat (snd u)], g)
  | _ => Err IndexError end).
Definition ard0_family : family := Fam [[]; []] (fun phi =>
  match phi with
  | [p; q] => '(u, g) <- ard0_moments (p env0, q env0) ;;
              Ok ([fun _ => fst u; fun _ => snd u], g)
  | _ => Err IndexError end).
(** gaussian.py 1058-1085 *)
Definition gaussian_gamma_family (gammaln digamma : R -> R) (D : nat) : family :=
  Fam [[D]; [D; D]; []; []] (fun phi =>
  match phi with
  | [p; q; r; s] =>
      '(u, g) <- gg_moments gammaln digamma D (as_vec p, as_mat q, r env0, s env0) ;;
      let '(u0, u1, u2, u3) := u in
      Ok ([of_vec u0; of_mat u1; fun _ => u2; fun _ => u3], g)
  | _ => Err IndexError end).
(** wishart.py 165-188 *)
Definition wishart_family (gammaln digamma : R -> R) (k : nat) : family := Fam [[k; k]; []] (fun phi =>
  match phi with
  | [p; q] => '(u, g) <- wishart_moments gammaln digamma k (as_mat p, q env0) ;;
              Ok ([of_mat (fst u); fun _ => snd u], g)
  | _ => Err IndexError end).
