(** The determinant of block_diag(A, I). *)
From Coq Require Import Reals.
From mathcomp Require Import all_ssreflect all_algebra.
From Verif Require Import RStruct NumPy Linalg MatBridge RotateChain.
Set Implicit Arguments.
Unset Strict Implicit.
Unset Printing Implicit Defensive.
Import GRing.Theory.

Lemma block_diag_det D k A : mdet (D + k) (block_diag D A) = mdet D A.
Proof.
rewrite /mdet. have -> : mx (D + k) (block_diag D A) = (block_mx (mx D A) 0 0 1%:M)%ring.
  apply/matrixP => i j; rewrite -[i]splitK -[j]splitK.
  case: (split i) => a; case: (split j) => b; rewrite /= ?block_mxEul ?block_mxEur ?block_mxEdl ?block_mxEdr !mxE /block_diag /=.
  - by rewrite (introT (PeanoNat.Nat.ltb_spec0 a D) (elimT ltP (ltn_ord a))) (introT (PeanoNat.Nat.ltb_spec0 b D) (elimT ltP (ltn_ord b))).
  - rewrite (introT (PeanoNat.Nat.ltb_spec0 a D) (elimT ltP (ltn_ord a))).
    by rewrite (introF (PeanoNat.Nat.ltb_spec0 _ D)) //; apply/ltP; rewrite -leqNgt leq_addr.
  - rewrite (introT (PeanoNat.Nat.ltb_spec0 b D) (elimT ltP (ltn_ord b))).
    by rewrite (introF (PeanoNat.Nat.ltb_spec0 _ D)) //; apply/ltP; rewrite -leqNgt leq_addr.
  - rewrite (introF (PeanoNat.Nat.ltb_spec0 (D + a) D)); last by apply/ltP; rewrite -leqNgt leq_addr.
    rewrite (introF (PeanoNat.Nat.ltb_spec0 (D + b) D)); last by apply/ltP; rewrite -leqNgt leq_addr.
    case: PeanoNat.Nat.eqb_spec => H.
    + by rewrite (_ : a == b) //; apply/eqP/val_inj; move/addnI: H.
    + by rewrite (_ : (a == b) = false) //; apply/negbTE/eqP => E; apply: H; rewrite E.
by rewrite det_ublock det1 mulr1.
Qed.
