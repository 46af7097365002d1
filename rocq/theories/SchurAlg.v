(** Schur complements, by the block matrices of mathcomp. *)
From Coq Require Import Reals.
From mathcomp Require Import all_ssreflect all_algebra.
From Verif Require Import RStruct NumPy Linalg MatBridge SpecLinalg Gaussian GaussAlg.
Delimit Scope ring_scope with ring.
Delimit Scope R_scope with R.
Set Implicit Arguments.
Unset Strict Implicit.
Unset Printing Implicit Defensive.
Import GRing.Theory.

Definition rmx (m n : nat) (A : mat) : 'M[R]_(m, n) := (\matrix_(i < m, j < n) A i j)%ring.
(** The block of M with the given corner. *)
Definition sub (r c : nat) (M : mat) : mat := fun i j => M (Nat.add r i) (Nat.add c j).

Lemma mx_block n1 n2 M : mx (n1 + n2) M =
  block_mx (mx n1 M) (rmx n1 n2 (sub 0 n1 M)) (rmx n2 n1 (sub n1 0 M)) (mx n2 (sub n1 n1 M)).
Proof.
apply/matrixP => i j; rewrite !mxE.
case: (split_ordP i) => i' ->; case: (split_ordP j) => j' ->;
  rewrite ?(unsplitK (inl _)) ?(unsplitK (inr _)) ?split_lshift ?split_rshift !mxE /=;
  rewrite ?(unsplitK (inl _)) ?(unsplitK (inr _)) ?split_lshift ?split_rshift ?mxE //=.
Qed.
Lemma cv_block n1 n2 x : cv (n1 + n2) x = col_mx (cv n1 x) (cv n2 (fun i => x (Nat.add n1 i))).
Proof. apply/matrixP => i j; rewrite !mxE; case: (split_ordP i) => i' ->; rewrite ?split_lshift ?split_rshift !mxE //=. Qed.
Lemma bilinear_mx n M x y : bilinear n M x y = (((cv n x)^T *m mx n M *m cv n y) ord0 ord0)%ring.
Proof.
rewrite /bilinear rsum_big mxE.
transitivity (\sum_(i < n) \sum_(j < n) (x i * M i j * y j : R))%ring.
  by apply: eq_bigr => i _; rewrite rsum_big.
rewrite exchange_big /=; apply: eq_bigr => j _; rewrite !mxE big_distrl /=; apply: eq_bigr => i _; by rewrite !mxE.
Qed.

(** The Schur complement of the first n1 rows and columns, W their inverse. *)
Definition schur (n1 : nat) (M W : mat) : mat := fun i j =>
  (M (Nat.add n1 i) (Nat.add n1 j) - rsum n1 (fun k => M k (Nat.add n1 i) * rsum n1 (fun l => W k l * M l (Nat.add n1 j))))%R.
Lemma mx_schur n1 n2 M W : mx n2 (schur n1 M W) =
  (mx n2 (sub n1 n1 M) - (rmx n1 n2 (sub 0 n1 M))^T *m (mx n1 W *m rmx n1 n2 (sub 0 n1 M)))%ring.
Proof.
apply/matrixP => i j; rewrite !mxE /schur /sub /=; congr (_ - _)%ring.
rewrite rsum_big; apply: eq_bigr => k _; rewrite !mxE; congr (_ * _)%ring.
rewrite rsum_big; apply: eq_bigr => l _; by rewrite !mxE.
Qed.
Lemma sym_mx n A : symmetric n A -> ((mx n A)^T = mx n A)%ring.
Proof. move=> S; rewrite -mx_tr; apply/mx_eq => i j Hi Hj; exact: S. Qed.
Lemma sym_lower n1 n2 M : symmetric (n1 + n2) M -> rmx n2 n1 (sub n1 0 M) = ((rmx n1 n2 (sub 0 n1 M))^T)%ring.
Proof.
move=> S; apply/matrixP => i j; rewrite !mxE /sub; apply: S; apply/ltP => /=.
- by rewrite ltn_add2l.
- exact: ltn_addr.
Qed.
Lemma sym_first n1 n2 M : symmetric (n1 + n2) M -> symmetric n1 M.
Proof. move=> S i j /ltP Hi /ltP Hj; apply: S; apply/ltP; exact: ltn_addr. Qed.

Lemma schur_det n1 n2 M W : symmetric (n1 + n2) M -> is_inverse n1 M W ->
  mdet (n1 + n2) M = (mdet n1 M * mdet n2 (schur n1 M W))%R.
Proof.
move=> S /inverse_mx [H1 H2]; rewrite /mdet mx_schur mx_block (sym_lower S).
move: (mx n1 M) (mx n1 W) (rmx n1 n2 _) (mx n2 _) H1 H2 => A V b C H1 H2.
have -> : (block_mx A b b^T C = block_mx 1%:M 0 (b^T *m V) 1%:M *m block_mx A b 0 (C - b^T *m (V *m b)))%ring.
  rewrite mulmx_block !mul1mx !mul0mx ?mulmx0 !addr0 -!mulmxA H2 mulmx1. by rewrite addrC subrK.
by rewrite det_mulmx det_lblock det_ublock !det1 !mul1r.
Qed.

Lemma schur_quad n1 n2 M W x : symmetric (n1 + n2) M -> is_inverse n1 M W ->
  let x2 := fun i => x (Nat.add n1 i) in
  let z := fun i => (x i + rsum n1 (fun k => W i k * rsum n2 (fun l => M k (Nat.add n1 l) * x2 l)))%R in
  bilinear (n1 + n2) M x x = (bilinear n1 M z z + bilinear n2 (schur n1 M W) x2 x2)%R.
Proof.
move=> S HW x2 z; have SM := sym_first S; have SW := inverse_symmetric SM HW; have TA := sym_mx SM; have TW := sym_mx SW.
move: HW => /inverse_mx [H1 H2].
have EZ : cv n1 z = (cv n1 x + mx n1 W *m (rmx n1 n2 (sub 0 n1 M) *m cv n2 x2))%ring.
  apply/matrixP => i j; rewrite !mxE /z; congr (_ + _)%ring. rewrite rsum_big; apply: eq_bigr => k _; rewrite !mxE.
  congr (_ * _)%ring; rewrite rsum_big; apply: eq_bigr => l _; by rewrite !mxE.
rewrite !bilinear_mx EZ mx_schur mx_block (sym_lower S) cv_block -/x2.
move: (mx n1 M) (mx n1 W) (rmx n1 n2 _) (mx n2 _) (cv n1 x) (cv n2 x2) H1 H2 TA TW => A V b C X Y H1 H2 TA TW.
rewrite -[RHS]/((((X + V *m (b *m Y))^T *m A *m (X + V *m (b *m Y))) 0 0 + (Y^T *m (C - b^T *m (V *m b)) *m Y) 0 0)%ring).
have <- : forall (P Q : 'M[R]_1), ((P + Q) 0 0 = P 0 0 + Q 0 0)%ring by move=> P Q; rewrite !mxE.
congr (fun_of_matrix _ _ _).
rewrite tr_col_mx mul_row_block mul_row_col.
rewrite (_ : (X + V *m (b *m Y))^T = X^T + Y^T *m (b^T *m V))%ring; last by rewrite raddfD /= !trmx_mul TW mulmxA.
move: (X^T)%ring (Y^T)%ring (b^T)%ring => Xt Yt bt.
have E1 : ((Xt + Yt *m (bt *m V)) *m A = Xt *m A + Yt *m bt)%ring by rewrite mulmxDl -!mulmxA H2 mulmx1.
have E2 : (A *m (V *m (b *m Y)) = b *m Y)%ring by rewrite mulmxA H1 mul1mx.
rewrite E1 mulmxDr (mulmxDl (Xt *m A)%ring (Yt *m bt)%ring (V *m (b *m Y))%ring) -(mulmxA Xt A) E2.
rewrite -[RHS]addrA; congr (_ + _)%ring.
rewrite mulmxDl mulmxBr mulmxBl !mulmxA -[RHS]addrA; congr (_ + _)%ring.
by rewrite addrC subrK.
Qed.

(** The inverse. *)
Definition join (n1 : nat) (P Q Q' T : mat) : mat := fun i j =>
  if Nat.ltb i n1 then (if Nat.ltb j n1 then P i j else Q i (Nat.sub j n1))
  else (if Nat.ltb j n1 then Q' (Nat.sub i n1) j else T (Nat.sub i n1) (Nat.sub j n1)).
Lemma ltb_ord n (i : 'I_n) : Nat.ltb i n = true.
Proof. apply/PeanoNat.Nat.ltb_lt; apply/ltP; exact: ltn_ord. Qed.
Lemma ltb_add n i : Nat.ltb (n + i) n = false.
Proof. apply/PeanoNat.Nat.ltb_ge; apply/leP; exact: leq_addr. Qed.
Lemma mx_join n1 n2 P Q Q' T : mx (n1 + n2) (join n1 P Q Q' T) = block_mx (mx n1 P) (rmx n1 n2 Q) (rmx n2 n1 Q') (mx n2 T).
Proof.
have K : forall k, Nat.sub (Nat.add n1 k) n1 = k by move=> k; rewrite PeanoNat.Nat.add_comm PeanoNat.Nat.add_sub.
rewrite mx_block; congr block_mx; apply/matrixP => i j; rewrite !mxE /join /sub /= ?ltb_ord ?ltb_add ?K //.
Qed.

(** Wb: the first n1 rows of W times the block b. *)
Definition half (n1 : nat) (M W : mat) : mat := fun i j => rsum n1 (fun l => W i l * M l (Nat.add n1 j))%R.
Lemma rmx_half n1 n2 M W : rmx n1 n2 (half n1 M W) = (mx n1 W *m rmx n1 n2 (sub 0 n1 M))%ring.
Proof. apply/matrixP => i j; rewrite !mxE /half rsum_big; apply: eq_bigr => k _; by rewrite !mxE. Qed.
(** The inverse of M from the inverse T of the Schur complement. *)
Definition schur_inv (n1 n2 : nat) (M W T : mat) : mat :=
  let H := half n1 M W in
  join n1 (fun i j => (W i j + rsum n2 (fun k => H i k * rsum n2 (fun l => T k l * H j l)))%R)
    (fun i j => (- rsum n2 (fun k => H i k * T k j))%R)
    (fun i j => (- rsum n2 (fun k => T i k * H j k))%R) T.
Lemma schur_inverse n1 n2 M W T : symmetric (n1 + n2) M -> is_inverse n1 M W ->
  is_inverse n2 (schur n1 M W) T -> is_inverse (n1 + n2) M (schur_inv n1 n2 M W T).
Proof.
move=> S HW HT; have SM := sym_first S; have SW := inverse_symmetric SM HW; have TA := sym_mx SM; have TW := sym_mx SW.
move: HW => /inverse_mx [H1 H2]; move: HT => /inverse_mx; rewrite mx_schur => -[T1 T2].
have E : mx (n1 + n2) (schur_inv n1 n2 M W T) =
  (let H := rmx n1 n2 (half n1 M W) in
   block_mx (mx n1 W + H *m (mx n2 T *m H^T)) (- (H *m mx n2 T)) (- (mx n2 T *m H^T)) (mx n2 T))%ring.
  rewrite /schur_inv mx_join /=; congr block_mx; apply/matrixP => i j; rewrite !mxE.
  - congr (_ + _)%ring; rewrite rsum_big; apply: eq_bigr => k _; rewrite !mxE; congr (_ * _)%ring.
    rewrite rsum_big; apply: eq_bigr => l _; by rewrite !mxE.
  - congr (- _)%ring; rewrite rsum_big; apply: eq_bigr => k _; by rewrite !mxE.
  - congr (- _)%ring; rewrite rsum_big; apply: eq_bigr => k _; by rewrite !mxE.
have F : (mx (n1 + n2) M *m mx (n1 + n2) (schur_inv n1 n2 M W T) = 1%:M)%ring.
  rewrite E mx_block (sym_lower S) rmx_half /=.
  move: (mx n1 M) (mx n1 W) (rmx n1 n2 _) (mx n2 (sub _ _ _)) (mx n2 T) H1 H2 T1 T2 TA TW => A V b C Z H1 H2 T1 T2 TA TW.
  rewrite mulmx_block scalar_mx_block trmx_mul TW.
  have TT : (C *m Z = 1%:M + b^T *m (V *m b) *m Z)%ring by rewrite -T1 -mulmxDl subrK.
  congr block_mx.
  + rewrite mulmxDr H1 -!mulmxA (mulmxA A V) H1 mul1mx mulmxN. by rewrite addrK.
  + rewrite mulmxN -!mulmxA (mulmxA A V) H1 mul1mx. by rewrite addNr.
  + rewrite mulmxDr mulmxN !mulmxA TT mulmxDl mulmxDl mul1mx -!mulmxA.
    by rewrite subrr.
  + rewrite mulmxN TT -!mulmxA. by rewrite addrCA addNr addr0.
apply/inverse_mx; split; [exact: F|exact: mulmx1C].
Qed.
