(** A block-diagonal rotation of all the states of a chain. *)
From Coq Require Import List Arith Lia Bool Reals Lra FunctionalExtensionality.
From Verif Require Import Base NumPy Families SpecFamilies FamiliesLemmas TensorLemmas Linalg MatBridge SpecLinalg LinalgLemmas GaussAlg Gaussian SpecGaussian
  GaussLemmas PGaussian PGaussian2 BlockBanded SpecBlock BlockShift BlockLemmas PBlockBanded GaussMarkov SpecGaussMarkov GaussMarkovLemmas SchurAlg ChainAlg.
Import ListNotations.
Open Scope R_scope.

Definition bdiag (D : nat) (A : mat) : mat := fun p q => if (p / D =? q / D)%nat then A (p mod D)%nat (q mod D)%nat else 0.
Lemma bdiag_at : forall D A n m i j, (i < D)%nat -> (j < D)%nat ->
  bdiag D A (n * D + i)%nat (m * D + j)%nat = if (n =? m)%nat then A i j else 0.
Proof. intros. unfold bdiag. now rewrite !index_div, !index_mod. Qed.
Lemma bdiag_transpose : forall D A, bdiag D (transpose A) = transpose (bdiag D A).
Proof.
  intros. apply functional_extensionality. intros p. apply functional_extensionality. intros q. unfold transpose, bdiag.
  now rewrite Nat.eqb_sym.
Qed.
Lemma split_index : forall N D p, (1 <= D)%nat -> (p < N * D)%nat -> p = (p / D * D + p mod D)%nat /\ (p / D < N)%nat /\ (p mod D < D)%nat.
Proof.
  intros. split; [|split]; [rewrite Nat.mul_comm; apply Nat.div_mod; lia|apply Nat.div_lt_upper_bound; lia|apply Nat.mod_upper_bound; lia].
Qed.
Lemma rsum_bdiag : forall N D A v n i, (1 <= D)%nat -> (n < N)%nat -> (i < D)%nat ->
  rsum (N * D) (fun q => bdiag D A (n * D + i)%nat q * v q) = rsum D (fun j => A i j * v (n * D + j)%nat).
Proof.
  intros N D A v n i HD Hn Hi.
  rewrite (rsum_ext (N * D) _ (fun q => bdiag D A (n * D + i)%nat (q / D * D + q mod D)%nat * v (q / D * D + q mod D)%nat)) by (intros q Hq; now rewrite <- (proj1 (split_index N D q HD Hq))).
  rewrite (rsum_flat N D (fun m j => bdiag D A (n * D + i)%nat (m * D + j)%nat * v (m * D + j)%nat) HD).
  rewrite (rsum_ext N _ (fun m => if (m =? n)%nat then rsum D (fun j => A i j * v (n * D + j)%nat) else 0)).
  - now apply (rsum_single N n (fun _ => rsum D (fun j => A i j * v (n * D + j)%nat))).
  - intros m Hm. destruct (Nat.eqb_spec m n) as [->|Q].
    + apply rsum_ext. intros j Hj. rewrite bdiag_at by assumption. now rewrite Nat.eqb_refl.
    + apply rsum_zero. intros j Hj. rewrite bdiag_at by assumption. rewrite (proj2 (Nat.eqb_neq n m)) by auto. ring.
Qed.
Lemma bdiag_mv : forall N D A v n i, (1 <= D)%nat -> (n < N)%nat -> (i < D)%nat ->
  mvdot (N * D) (bdiag D A) v (n * D + i)%nat = mvdot D A (fun j => v (n * D + j)%nat) i.
Proof. intros. apply rsum_bdiag; assumption. Qed.
Lemma bdiag_mm_l : forall N D A M n m i j, (1 <= D)%nat -> (n < N)%nat -> (i < D)%nat ->
  block D (mmdot (N * D) (bdiag D A) M) n m i j = mmdot D A (block D M n m) i j.
Proof. intros. unfold block, mmdot. now apply (rsum_bdiag N D A (fun q => M q (m * D + j)%nat)). Qed.
Lemma bdiag_mm_r : forall N D A M n m i j, (1 <= D)%nat -> (m < N)%nat -> (j < D)%nat ->
  block D (mmdot (N * D) M (bdiag D A)) n m i j = mmdot D (block D M n m) A i j.
Proof.
  intros. unfold block, mmdot. transitivity (rsum (N * D) (fun q => bdiag D (transpose A) (m * D + j)%nat q * M (n * D + i)%nat q)).
  - apply rsum_ext. intros q Hq. rewrite bdiag_transpose. unfold transpose. ring.
  - rewrite rsum_bdiag by assumption. apply rsum_ext. intros. unfold transpose. ring.
Qed.
Lemma bdiag_dot3 : forall N D A M B n m, (1 <= D)%nat -> (n < N)%nat -> (m < N)%nat ->
  meq D (block D (dot3 (N * D) (bdiag D A) M (bdiag D B)) n m) (dot3 D A (block D M n m) B).
Proof.
  intros N D A M B n m HD Hn Hm i j Hi Hj. unfold dot3. rewrite bdiag_mm_r by assumption. unfold mmdot at 1 2. apply rsum_ext. intros k Hk.
  f_equal. now apply bdiag_mm_l.
Qed.
Lemma bdiag_inverse : forall N D A B, (1 <= D)%nat -> is_inverse D A B -> is_inverse (N * D) (bdiag D A) (bdiag D B).
Proof.
  intros N D A B HD [H1 H2].
  assert (K : forall A B, meq D (mmdot D A B) identity -> meq (N * D) (mmdot (N * D) (bdiag D A) (bdiag D B)) identity).
  { intros X Y H p q Hp Hq. destruct (split_index N D p HD Hp) as (Ep & Lp & Mp). destruct (split_index N D q HD Hq) as (Eq & Lq & Mq).
    rewrite Ep, Eq. set (n := (p / D)%nat) in *. set (i := (p mod D)%nat) in *. set (m := (q / D)%nat) in *. set (j := (q mod D)%nat) in *.
    change (block D (mmdot (N * D) (bdiag D X) (bdiag D Y)) n m i j = identity (n * D + i)%nat (m * D + j)%nat).
    rewrite bdiag_mm_l by assumption. unfold mmdot. rewrite (rsum_ext D _ (fun k => if (n =? m)%nat then X i k * Y k j else 0)).
    - destruct (Nat.eqb_spec n m) as [<-|Q].
      + etransitivity; [exact (H i j Mp Mq)|]. unfold identity. destruct (Nat.eqb_spec i j) as [->|Q2].
        * now rewrite Nat.eqb_refl.
        * rewrite (proj2 (Nat.eqb_neq _ _)) by lia. reflexivity.
      + rewrite rsum_0. unfold identity. rewrite (proj2 (Nat.eqb_neq _ _)); [reflexivity|]. intro E. apply Q.
        rewrite <- (index_div D n i), <- (index_div D m j) by assumption. now rewrite E.
    - intros k Hk. unfold block. rewrite bdiag_at by assumption. destruct (n =? m)%nat; ring. }
  split; apply K; assumption.
Qed.
Lemma bdiag_det : forall N D A, (1 <= D)%nat -> mdet (N * D) (bdiag D A) = mdet D A ^ N.
Proof.
  induction N as [|N IH]; intros D A HD.
  - cbn. apply mdet_0.
  - cbn [Nat.mul]. assert (L : mdet (D + N * D) (bdiag D A) = mdet D (bdiag D A) * mdet (N * D) (sub D D (bdiag D A))).
    { apply lblock_det. intros i j Hi Hj. unfold bdiag. rewrite (Nat.div_small i D Hi), div_add by lia. reflexivity. }
    assert (E1 : mdet D (bdiag D A) = mdet D A).
    { apply mdet_ext. intros i j Hi Hj. unfold bdiag. rewrite !Nat.div_small, !Nat.mod_small by assumption. reflexivity. }
    assert (E2 : mdet (N * D) (sub D D (bdiag D A)) = mdet (N * D) (bdiag D A)).
    { apply mdet_ext. intros i j Hi Hj. unfold sub, bdiag. rewrite !div_add, !mod_add by lia. reflexivity. }
    rewrite L, E1, E2, IH by exact HD. reflexivity.
Qed.
