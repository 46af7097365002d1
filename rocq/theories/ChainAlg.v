(** The determinant of a block-diagonal matrix, by the block matrices of mathcomp. *)
From Coq Require Import Reals.
From mathcomp Require Import all_ssreflect all_algebra.
From Verif Require Import RStruct NumPy Linalg MatBridge SpecLinalg Gaussian GaussAlg SchurAlg.
Delimit Scope ring_scope with ring.
Delimit Scope R_scope with R.
Set Implicit Arguments.
Unset Strict Implicit.
Unset Printing Implicit Defensive.
Import GRing.Theory.

Lemma lblock_det n1 n2 M : (forall i j, Peano.lt i n1 -> Peano.lt j n2 -> M i (Nat.add n1 j) = 0%R) ->
  mdet (n1 + n2) M = (mdet n1 M * mdet n2 (sub n1 n1 M))%R.
Proof.
move=> Z; rewrite /mdet mx_block.
have -> : rmx n1 n2 (sub 0 n1 M) = 0%ring.
  by apply/matrixP => i j; rewrite !mxE /sub; apply: (Z i j); apply/ltP; exact: ltn_ord.
by rewrite det_lblock.
Qed.
