(** Matrices as functions of indices and the matrices of mathcomp. *)
From Coq Require Import Reals FunctionalExtensionality.
From mathcomp Require Import all_ssreflect all_algebra.
From Verif Require Import RStruct NumPy Linalg.
Delimit Scope ring_scope with ring.
Delimit Scope R_scope with R.
Set Implicit Arguments.
Unset Strict Implicit.
Unset Printing Implicit Defensive.
Import GRing.Theory.

Definition mx (n : nat) (A : mat) : 'M[R]_n := (\matrix_(i < n, j < n) A i j)%ring.
Definition cv (n : nat) (b : nat -> R) : 'cV[R]_n := (\col_(i < n) b i)%ring.
(** The determinant of the n x n matrix A. *)
Definition mdet (n : nat) (A : mat) : R := (\det (mx n A))%ring.

Lemma rsum_big n f : rsum n f = (\sum_(i < n) f (nat_of_ord i))%ring :> R.
Proof. elim: n => [|n IH] /=; [by rewrite big_ord0|]. by rewrite big_ord_recr /= -IH. Qed.

Definition meq (n : nat) (A B : mat) : Prop := forall i j, (i < n)%coq_nat -> (j < n)%coq_nat -> A i j = B i j.
Definition veq (n : nat) (a b : nat -> R) : Prop := forall i, (i < n)%coq_nat -> a i = b i.

Lemma mx_eq n A B : meq n A B <-> mx n A = mx n B.
Proof.
split => H.
- apply/matrixP => i j; rewrite !mxE; apply: H; exact/ltP.
- move=> i j /ltP Hi /ltP Hj; move/matrixP: H => /(_ (Ordinal Hi) (Ordinal Hj)); by rewrite !mxE.
Qed.
Lemma cv_eq n a b : veq n a b <-> cv n a = cv n b.
Proof.
split => H.
- apply/matrixP => i j; rewrite !mxE; apply: H; exact/ltP.
- move=> i /ltP Hi; move/matrixP: H => /(_ (Ordinal Hi) ord0); by rewrite !mxE.
Qed.
Lemma mx_mul n A B : mx n (mmdot n A B) = (mx n A *m mx n B)%ring.
Proof. apply/matrixP => i j; rewrite !mxE /mmdot rsum_big; apply: eq_bigr => k _; by rewrite !mxE. Qed.
Lemma mx_mv n A b : cv n (mvdot n A b) = (mx n A *m cv n b)%ring.
Proof. apply/matrixP => i j; rewrite !mxE /mvdot rsum_big; apply: eq_bigr => k _; by rewrite !mxE. Qed.
Lemma mx_tr n A : mx n (transpose A) = ((mx n A)^T)%ring.
Proof. apply/matrixP => i j; by rewrite !mxE. Qed.
Lemma mx_id n : mx n identity = (1%:M)%ring.
Proof.
apply/matrixP => i j; rewrite !mxE /identity.
case: PeanoNat.Nat.eqb_spec => H.
- by rewrite (_ : i == j) //; apply/eqP; apply: val_inj.
- rewrite (_ : (i == j) = false) //; apply/negbTE/eqP => E; apply: H; by rewrite E.
Qed.
Lemma mx_inner n a b : innerv n a b = (((cv n a)^T *m cv n b) ord0 ord0)%ring.
Proof. rewrite !mxE /innerv rsum_big; apply: eq_bigr => k _; by rewrite !mxE. Qed.
Lemma mx_outer n a b : mx n (outerv a b) = (cv n a *m (cv n b)^T)%ring.
Proof. apply/matrixP => i j; rewrite !mxE big_ord1; by rewrite !mxE. Qed.
Lemma mx_tracedot n A B : tracedot n A B = (\tr (mx n A *m mx n B))%ring.
Proof.
rewrite /tracedot /mxtrace rsum_big; apply: eq_bigr => i _; rewrite !mxE rsum_big.
apply: eq_bigr => j _; by rewrite !mxE.
Qed.

(** Plain consequences. *)
Lemma meq_mul_comm n A B : meq n (mmdot n A B) identity -> meq n (mmdot n B A) identity.
Proof. move/mx_eq; rewrite mx_mul mx_id => H; apply/mx_eq; rewrite mx_mul mx_id; exact: mulmx1C. Qed.
Lemma meq_assoc n A B C : meq n (mmdot n (mmdot n A B) C) (mmdot n A (mmdot n B C)).
Proof. apply/mx_eq; by rewrite !mx_mul mulmxA. Qed.
Lemma mdet_ext n A B : meq n A B -> mdet n A = mdet n B.
Proof. by move/mx_eq => H; rewrite /mdet H. Qed.
Lemma mdet_mul n A B : mdet n (mmdot n A B) = (mdet n A * mdet n B)%R.
Proof. by rewrite /mdet mx_mul det_mulmx. Qed.
Lemma mdet_tr n A : mdet n (transpose A) = mdet n A.
Proof. by rewrite /mdet mx_tr det_tr. Qed.
Lemma mdet_id n : mdet n identity = 1%R.
Proof. by rewrite /mdet mx_id det1. Qed.
Lemma mdet_0 A : mdet 0 A = 1%R.
Proof. by rewrite /mdet det_mx00. Qed.
(** Expansion along a first column that is zero below the diagonal. *)
Lemma mdet_first n A : (forall i, (i < n)%coq_nat -> A (S i) O = 0%R) ->
  mdet (S n) A = (A O O * mdet n (tail_m A))%R.
Proof.
move=> H. rewrite /mdet (expand_det_col _ ord0) big_ord_recl big1 => [|i _].
- rewrite addr0 mxE /cofactor /= expr0 mul1r. congr (_ * \det _)%ring.
  apply/matrixP => i j; by rewrite !mxE.
- rewrite mxE /= /bump /= add1n H ?mul0r //; exact/ltP.
Qed.
