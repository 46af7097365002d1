(** Matrix algebra for rotations, by the matrices of mathcomp. *)
From Coq Require Import Reals.
From mathcomp Require Import all_ssreflect all_algebra.
From Verif Require Import RStruct NumPy Linalg MatBridge SpecLinalg Gaussian.
Delimit Scope ring_scope with ring.
Delimit Scope R_scope with R.
Set Implicit Arguments.
Unset Strict Implicit.
Unset Printing Implicit Defensive.
Import GRing.Theory.

Lemma inverse_mx n A V : is_inverse n A V <-> (mx n A *m mx n V = 1%:M)%ring /\ (mx n V *m mx n A = 1%:M)%ring.
Proof.
rewrite /is_inverse; split => -[H1 H2]; split.
- by move/mx_eq: H1; rewrite mx_mul mx_id.
- by move/mx_eq: H2; rewrite mx_mul mx_id.
- by apply/mx_eq; rewrite mx_mul mx_id.
- by apply/mx_eq; rewrite mx_mul mx_id.
Qed.

Lemma inverse_tr n A V : is_inverse n A V -> is_inverse n (transpose A) (transpose V).
Proof.
move/inverse_mx => [H1 H2]; apply/inverse_mx; rewrite (mx_tr n A) (mx_tr n V); split.
- by rewrite -trmx_mul H2 trmx1.
- by rewrite -trmx_mul H1 trmx1.
Qed.
Lemma inverse_sym n A V : is_inverse n A V -> is_inverse n V A.
Proof. by move=> [H1 H2]; split. Qed.

Lemma dot3_mx n A B C : mx n (dot3 n A B C) = (mx n A *m mx n B *m mx n C)%ring.
Proof. by rewrite /dot3 !mx_mul. Qed.

Lemma congr_inverse n A V Q S : is_inverse n A V -> is_inverse n Q S ->
  is_inverse n (dot3 n (transpose S) A S) (dot3 n Q V (transpose Q)).
Proof.
move=> /inverse_mx [A1 A2] /inverse_mx [Q1 Q2]; apply/inverse_mx.
have T1: ((mx n S)^T *m (mx n Q)^T = 1%:M)%ring by rewrite -trmx_mul Q1 trmx1.
have T2: ((mx n Q)^T *m (mx n S)^T = 1%:M)%ring by rewrite -trmx_mul Q2 trmx1.
rewrite !dot3_mx (mx_tr n S) (mx_tr n Q); split.
- rewrite -!mulmxA (mulmxA (mx n S)) Q2 mul1mx (mulmxA (mx n A)) A1 mul1mx; exact: T1.
- rewrite -!mulmxA (mulmxA ((mx n Q)^T)%ring) T2 mul1mx (mulmxA (mx n V)) A2 mul1mx; exact: Q1.
Qed.

Lemma congr_solve n A Q S x b : is_inverse n Q S -> veq n (mvdot n A x) b ->
  veq n (mvdot n (dot3 n (transpose S) A S) (mvdot n Q x)) (mvdot n (transpose S) b).
Proof.
move=> /inverse_mx [Q1 Q2] /cv_eq H; apply/cv_eq; rewrite !mx_mv !dot3_mx (mx_tr n S) -H mx_mv.
by rewrite -!mulmxA (mulmxA (mx n S)) Q2 mul1mx.
Qed.

Lemma congr_det n A S : mdet n (dot3 n (transpose S) A S) = (mdet n A * (mdet n S * mdet n S))%R.
Proof.
rewrite /mdet dot3_mx (mx_tr n S) !det_mulmx det_tr.
move: (\det (mx n A))%ring (\det (mx n S))%ring => a s.
rewrite -[LHS]/((s * a) * s)%R. ring.
Qed.
Lemma inverse_det n A V : is_inverse n A V -> (mdet n A * mdet n V = 1)%R.
Proof.
move/inverse_mx => [H _]; rewrite /mdet.
have E : (\det (mx n A *m mx n V) = 1)%ring by rewrite H det1.
rewrite det_mulmx in E; exact: E.
Qed.
Lemma inverse_symmetric n A V : symmetric n A -> is_inverse n A V -> symmetric n V.
Proof.
move=> Sy HA. have HT := inverse_tr HA. move/inverse_mx: HA => [A1 A2].
move/inverse_mx: HT => [B1 B2].
have E : mx n (transpose A) = mx n A by apply/mx_eq => i j Hi Hj; exact: Sy.
rewrite E in B1 B2.
have : mx n V = mx n (transpose V) by rewrite -[LHS]mulmx1 -B1 mulmxA A2 mul1mx.
by move/mx_eq => H i j Hi Hj; exact: H.
Qed.
Lemma congr_symmetric n A S : symmetric n A -> symmetric n (dot3 n (transpose S) A S).
Proof.
move=> Sy. have E : mx n (transpose A) = mx n A by apply/mx_eq => i j Hi Hj; exact: Sy.
have : mx n (transpose (dot3 n (transpose S) A S)) = mx n (dot3 n (transpose S) A S).
  rewrite (mx_tr n (dot3 _ _ _ _)) dot3_mx (mx_tr n S) !trmx_mul trmxK -(mx_tr n A) E; by rewrite mulmxA.
by move/mx_eq => H i j Hi Hj; have := H j i Hj Hi.
Qed.

Lemma mdet_scal n c A : mdet n (scal_m c A) = (c ^ n * mdet n A)%R.
Proof.
have E : mx n (scal_m c A) = (c *: mx n A)%ring by apply/matrixP => i j; rewrite !mxE.
rewrite /mdet E detZ. have P : forall m, (GRing.exp c m = (c ^ m)%R :> R).
  elim=> [|m IH]; first by []. by rewrite exprS IH.
by rewrite P.
Qed.
