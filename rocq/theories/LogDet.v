(** Model of logdet_chol and logdet_tri (bayespy/utils/linalg.py). *)
From Coq Require Import List Arith Bool Reals.
From Verif Require Import Base Shapes SpecShapes NumPy.
Import ListNotations.
Open Scope R_scope.

(** np.einsum('...ii->...i', U): the diagonals of the matrices on the last two axes.  Simplification:
    matrices that are not square are refused. *)
Definition np_diagonal (U : arr R) : res (arr R) :=
  if (2 <=? ndim U)%nat && (ax (ash U) 0 =? ax (ash U) 1)%nat
  then Ok (Arr (removelast (ash U)) (fun e => bget U (fun k => e (pred k))))
  else Err ValueError.

(** np.sum(a, axis=-1). *)
Definition np_sum_last (a : arr R) : arr R :=
  Arr (removelast (ash a)) (fun e => rsum (ax (ash a) 0) (fun x => bget a (fun k => match k with O => x | S k' => e k' end))).

(** np.sum(a): the sum of all elements. *)
Definition np_sum_all (a : arr R) : arr R :=
  Arr [] (itersum (map (fun k => (k, ax (ash a) k)) (seq 0 (length (ash a)))) (bget a)).

(** linalg.py 225-228: logdet_chol(U) for an array; the sparse factors of line 229 are not modelled. *)
Definition logdet_chol (U : arr R) : res (arr R) :=
  d <- np_diagonal U ;; Ok (np_map (fun v => 2 * v) (np_sum_last (np_map ln d))).

(** linalg.py 233-237: logdet_tri(R). *)
Definition logdet_tri (U : arr R) : res (arr R) :=
  d <- np_diagonal U ;; Ok (np_sum_all (np_map (fun v => ln (Rabs v)) d)).
