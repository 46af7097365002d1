(** Model of linalg.block_banded_solve (bayespy/utils/linalg.py 468-575) for one
    plate.  No proofs here.

    An array of N blocks is a function of the block index.  The contents of the
    arrays allocated by np.empty (lines 518-520) are arguments: the result must not
    depend on them. *)
From Coq Require Import List Arith ZArith Bool Reals.
From Verif Require Import Base NumPy Families Linalg.
Import ListNotations.
Open Scope R_scope.

Definition blocks := nat -> mat.
Definition rows := nat -> vec.
(** a[..., n, :] = v *)
Definition put {T} (a : nat -> T) (n : nat) (v : T) : nat -> T := fun k => if (k =? n)%nat then v else a k.
Fixpoint for_ {S} (f : nat -> S -> res S) (l : list nat) (s : S) : res S :=
  match l with [] => Ok s | n :: l => s <- f n s ;; for_ f l s end.
(** 0.5*(V+V.T) *)
Definition symmetrise (V : mat) : mat := fun i j => 0.5 * (V i j + transpose V i j).

(** x, V, C, ldet *)
Definition bb_state : Type := rows * blocks * blocks * R.
(** 534-551: the body of the forward loop. *)
Definition bb_forward (D : nat) (A B : blocks) (y : rows) (n : nat) (st : bb_state) : res bb_state :=
  let '(x, V, C, ldet) := st in
  let x := put x (S n) (fun i => y (S n) i - mvdot D (transpose (B n)) (chol_solve D (V n) (x n)) i) in
  let C := put C n (chol_solve_m D (V n) (B n)) in
  let V := put V (S n) (fun i j => A (S n) i j - mmdot D (transpose (B n)) (C n) i j) in
  let V := put V (S n) (symmetrise (V (S n))) in
  U <- chol D (V (S n)) ;;
  let V := put V (S n) U in
  Ok (x, V, C, ldet + chol_logdet D (V (S n))).
(** 558-570: the body of the backward loop. *)
Definition bb_backward (D : nat) (B : blocks) (n : nat) (st : bb_state) : bb_state :=
  let '(x, V, C, ldet) := st in
  let x := put x n (chol_solve D (V n) (fun i => x n i - mvdot D (B n) (x (S n)) i)) in
  let V := put V n (fun i j => chol_inv D (V n) i j
                     + mmdot D (C n) (mmdot D (V (S n)) (transpose (C n))) i j) in
  let C := put C n (fun i j => - mmdot D (C n) (V (S n)) i j) in
  let V := put V n (symmetrise (V n)) in
  (x, V, C, ldet).
(** 529-572: the recursions, N = last + 1. *)
Definition bb_run (D last : nat) (A B : blocks) (y : rows) (x0 : rows) (V0 C0 : blocks) : res bb_state :=
  let x := put x0 O (y O) in
  U <- chol D (A O) ;;
  let V := put V0 O U in
  st <- for_ (bb_forward D A B y) (seq 0 last) (x, V, C0, chol_logdet D (V O)) ;;
  let '(x, V, C, ldet) := st in
  let x := put x last (chol_solve D (V last) (x last)) in
  let V := put V last (chol_inv D (V last)) in
  for_ (fun n st => Ok (bb_backward D B n st)) (rev (seq 0 last)) (x, V, C, ldet).
(** 495-575; [sA] and [sB] are the last three lengths of the shapes of A and B, [N] and
    [D] the last two of y.  Returns (V, C, x, ldet). *)
Definition block_banded_solve (N D : nat) (sA sB : nat * nat * nat) (A B : blocks) (y : rows)
  (x0 : rows) (V0 C0 : blocks) : res (blocks * blocks * rows * R) :=
  let '(nA, a1, a2) := sA in
  let '(nB, b1, b2) := sB in
  if negb (nA =? N)%nat then Err ValueError
  else if negb ((a1 =? D)%nat && (a2 =? D)%nat) then Err ValueError
  else if negb (Z.of_nat nB =? Z.of_nat N - 1)%Z then Err ValueError
  else if negb ((b1 =? D)%nat && (b2 =? D)%nat) then Err ValueError
  else
    st <- bb_run D (N - 1) A B y x0 V0 C0 ;;
    let '(x, V, C, ldet) := st in
    Ok (V, C, x, ldet).
