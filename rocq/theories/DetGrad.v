(** The derivative of log|det| with respect to an element of the matrix. *)
From Coq Require Import Reals Lra Lia Arith Ranalysis Ranalysis4.
From mathcomp Require Import all_ssreflect all_algebra.
From Verif Require Import RStruct NumPy Linalg MatBridge SpecLinalg FamiliesLemmas FamiliesLemmas2.
Set Implicit Arguments.
Unset Strict Implicit.
Import GRing.Theory.

(** The matrix with another element. *)
Definition mupd (A : mat) (i j : nat) (t : R) : mat := fun a b => if (Nat.eqb a i && Nat.eqb b j)%bool then t else A a b.

Lemma mupd_mx n A (i j : 'I_n) t : mx n (mupd A i j t) = (mx n A + (t - A i j)%R *: delta_mx i j)%ring.
Proof.
apply/matrixP => a b; rewrite !mxE /mupd.
have E : forall x y : 'I_n, Nat.eqb x y = (x == y).
  move=> x y. case: PeanoNat.Nat.eqb_spec => H; [by rewrite (_ : x == y) //; apply/eqP; apply: val_inj|].
  by rewrite (_ : (x == y) = false) //; apply/negbTE/eqP => F; apply: H; rewrite F.
rewrite !E. case: (a =P i) => [->|_] /=; [|by rewrite mulr0 addr0].
case: (b =P j) => [->|_] /=; [|by rewrite mulr0 addr0]. rewrite mulr1. change (t = (A i j + (t - A i j))%R). ring.
Qed.

Lemma det_entry n (A V : 'M[R]_n) (i j : 'I_n) (h : R) : (V *m A = 1%:M)%ring ->
  (\det (A + h *: delta_mx i j) = \det A * (1 + h * V j i))%ring.
Proof.
move=> I. set B := (A + h *: delta_mx i j)%ring.
have R' : row' i B = row' i A.
  apply/matrixP => a b; rewrite !mxE. rewrite (_ : (lift i a == i) = false) /= ?mulr0 ?addr0 //. by rewrite eq_sym; apply/negbTE/neq_lift.
have C : forall k, cofactor B i k = cofactor A i k.
  move=> k. rewrite /cofactor. congr (_ * \det _)%ring. apply/matrixP => a b. move/matrixP: R' => /(_ a (lift k b)). by rewrite !mxE.
rewrite (expand_det_row B i) (expand_det_row A i).
have -> : (\sum_k B i k * cofactor B i k = \sum_k A i k * cofactor A i k + h * cofactor A i j)%ring.
  rewrite (eq_bigr (fun k => A i k * cofactor A i k + (if k == j then h * cofactor A i j else 0))%ring) => [|k _].
    by rewrite big_split /= -big_mkcond /= big_pred1_eq.
  rewrite C !mxE eqxx /=. case: (k =P j) => [->|_] /=; [by rewrite mulr1 mulrDl|by rewrite mulr0 !addr0].
rewrite -(expand_det_row A i).
have -> : cofactor A i j = (\det A * V j i)%ring.
  have E : (\adj A = \det A *: V)%ring by rewrite -[LHS]mul1mx -I -mulmxA mul_mx_adj mul_mx_scalar.
  by move/matrixP: E => /(_ j i); rewrite !mxE.
by rewrite mulrDr mulr1 mulrCA.
Qed.

Lemma mdet_entry n A V i j t : (i < n)%coq_nat -> (j < n)%coq_nat -> is_inverse n A V ->
  mdet n (mupd A i j t) = (mdet n A * (1 + (t - A i j) * V j i))%R.
Proof.
move=> /ltP Hi /ltP Hj [_ /mx_eq I]. rewrite mx_mul mx_id in I.
rewrite /mdet (mupd_mx A (Ordinal Hi) (Ordinal Hj)) (@det_entry n (mx n A) (mx n V)) //. by rewrite mxE.
Qed.

Lemma logdet_derive n A V i j : (i < n)%coq_nat -> (j < n)%coq_nat -> is_inverse n A V -> mdet n A <> 0%R ->
  derivable_pt_lim (fun t => ln (Rabs (mdet n (mupd A i j t)))) (A i j) (V j i).
Proof.
intros Hi Hj I N. set (c := mdet n A) in *. set (r := A i j). set (k := V j i).
apply (dlim_ext (fun t => ln (Rabs (c * (1 + (t - r) * k))%R))).
{ intros t. now rewrite (mdet_entry t Hi Hj I). }
assert (A1 : derivable_pt_lim (fun t => c * (1 + (t - r) * k))%R r (c * k)%R).
{ eapply dlim_eq; [apply d_scal; apply d_plus; [apply d_const|]; apply d_mult; [apply d_minus; [apply d_id|apply d_const]|apply d_const]|]. cbv beta. ring. }
assert (V0 : (c * (1 + (r - r) * k))%R = c) by ring.
assert (P : (0 < Rabs c)%R) by now apply Rabs_pos_lt.
destruct (Rdichotomy c 0 N) as [L|G].
- eapply dlim_eq; [apply (d_comp (fun t => Rabs (c * (1 + (t - r) * k))%R) ln)|].
  + apply (d_comp (fun t => c * (1 + (t - r) * k))%R Rabs); [exact A1|]. rewrite V0. apply Rabs_derive_2. exact L.
  + cbv beta. rewrite V0. apply d_ln. exact P.
  + rewrite Rabs_left; [field; exact N|exact L].
- eapply dlim_eq; [apply (d_comp (fun t => Rabs (c * (1 + (t - r) * k))%R) ln)|].
  + apply (d_comp (fun t => c * (1 + (t - r) * k))%R Rabs); [exact A1|]. rewrite V0. apply Rabs_derive_1. exact G.
  + cbv beta. rewrite V0. apply d_ln. exact P.
  + rewrite Rabs_right; [field; exact N|apply Rle_ge, Rlt_le; exact G].
Qed.
