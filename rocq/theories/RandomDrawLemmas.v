(** Lemmas for C59: draws through a Cholesky factor, draws from a row of
    probabilities. *)
From Coq Require Import List Arith Lia Bool Reals Lra FunctionalExtensionality.
From Verif Require Import Base NumPy TensorLemmas Families SpecFamilies FamiliesLemmas
  Linalg MatBridge SpecLinalg LinalgLemmas Gaussian SpecGaussian GaussLemmas GaussAlg PGaussian PGaussian2
  RandomDraw SpecRandomDraw.
Import ListNotations.
Open Scope R_scope.

(** ** Gaussian draws *)
Lemma back_solve_linear : forall n U z, triangular n U ->
  forall i, (i < n)%nat -> back_solve n U z i = rsum n (fun k => tri_inv n U i k * z k).
Proof.
  intros n U z T i Hi.
  set (d := fun i => back_solve n U z i - rsum n (fun k => tri_inv n U i k * z k)).
  assert (Z : d i = 0).
  { apply (tri_kernel n U d T); [|exact Hi]. intros k Hk. unfold d.
    assert (A := back_solve_ok n U z T k Hk).
    assert (B := mvdot_assoc n U (tri_inv n U) z k Hk).
    rewrite (mvdot_ext n _ identity z z (tri_inv_right n U T) (fun _ _ => eq_refl) k Hk) in B.
    assert (I : mvdot n identity z k = z k).
    { unfold mvdot, identity. rewrite (rsum_ext n _ (fun j => if (j =? k)%nat then z k else 0)).
      - now apply (rsum_single n k (fun _ => z k)).
      - intros j Hj. destruct (Nat.eqb_spec j k) as [->|E]; [rewrite Nat.eqb_refl; ring|].
        destruct (Nat.eqb_spec k j); [congruence|ring]. }
    unfold mvdot in *. rewrite (rsum_ext n _ (fun j => U k j * back_solve n U z j
        + (-1) * (U k j * rsum n (fun k0 => tri_inv n U j k0 * z k0)))) by (intros; ring).
    rewrite rsum_plus, rsum_scal, A, B, I. ring. }
  unfold d in Z. lra.
Qed.

Section Chol.
Variables (D : nat) (L U : mat).
Hypothesis Sy : symmetric D L.
Hypothesis E : cho_factor D L = Ok U.
Let T : triangular D U := cho_factor_tri D L U E.

Lemma tri_inv_inverse : is_inverse D U (tri_inv D U).
Proof. assert (Rt := tri_inv_right D U T). split; [exact Rt|now apply meq_mul_comm]. Qed.

Lemma tri_inv_gram : is_inverse D L (fun i j => rsum D (fun k => tri_inv D U i k * tri_inv D U j k)).
Proof.
  assert (I1 : is_inverse D identity identity) by (split; apply mmdot_id_l).
  assert (C := congr_inverse I1 (inverse_sym tri_inv_inverse)).
  apply (is_inverse_ext D _ L _ _) with (3 := C).
  - intros i j Hi Hj. rewrite <- (cho_factor_prod D L U Sy E i j Hi Hj). unfold dot3.
    apply mmdot_ext; auto; [|intros ? ? ? ?; reflexivity]. intros a b Ha Hb. 
    unfold mmdot, identity, transpose. rewrite (rsum_ext D _ (fun k => if (k =? b)%nat then U b a else 0)).
    + now apply (rsum_single D b (fun _ => U b a)).
    + intros k Hk. destruct (Nat.eqb_spec k b) as [->|]; ring.
  - intros i j Hi Hj. unfold dot3. unfold mmdot at 1. apply rsum_ext. intros k Hk. unfold transpose. f_equal.
    unfold mmdot, identity. rewrite (rsum_ext D _ (fun k0 => if (k0 =? k)%nat then tri_inv D U i k else 0)).
    + now apply (rsum_single D k (fun _ => tri_inv D U i k)).
    + intros k0 Hk0. destruct (Nat.eqb_spec k0 k) as [->|]; ring.
Qed.

Lemma tri_inv_det : 0 < mdet D (tri_inv D U) /\ mdet D L * (mdet D (tri_inv D U) * mdet D (tri_inv D U)) = 1.
Proof.
  assert (H := inverse_det tri_inv_inverse).
  assert (P : 0 < mdet D U) by (rewrite (mdet_tri D U T); apply prodn_pos; apply T).
  split; [nra|]. rewrite <- (mdet_ext (cho_factor_prod D L U Sy E)), mdet_mul, mdet_tr.
  replace (mdet D U * mdet D U * (mdet D (tri_inv D U) * mdet D (tri_inv D U))) with
    ((mdet D U * mdet D (tri_inv D U)) * (mdet D U * mdet D (tri_inv D U))) by ring. rewrite H. ring.
Qed.

Lemma whiten : forall z, bilinear D L (back_solve D U z) (back_solve D U z) = innerv D z z.
Proof.
  intros z. rewrite <- (bilinear_ext D _ L _ _ _ _ (cho_factor_prod D L U Sy E) (fun _ _ => eq_refl) (fun _ _ => eq_refl)).
  rewrite bilinear_gram. apply innerv_ext; exact (back_solve_ok D U z T).
Qed.
End Chol.

Lemma bilinear_id : forall D x, bilinear D identity x x = innerv D x x.
Proof.
  intros D x. rewrite bilinear_mv. apply innerv_ext; [intros ? ?; reflexivity|]. intros i Hi.
  unfold mvdot, identity. rewrite (rsum_ext D _ (fun k => if (k =? i)%nat then x i else 0)).
  - now apply (rsum_single D i (fun _ => x i)).
  - intros k Hk. destruct (Nat.eqb_spec k i) as [->|N]; [rewrite Nat.eqb_refl; ring|].
    destruct (Nat.eqb_spec i k); [congruence|ring].
Qed.

(** A draw mu + U^-1 z has the density of the normal distribution with precision U^T U. *)
Lemma chol_draw_density : forall D L U mu, symmetric D L -> cho_factor D L = Ok U ->
  draws_density D (fun z => Ok (fun i => mu i + back_solve D U z i)) (normal_pdf D mu L).
Proof.
  intros D L U mu Sy E. destruct (tri_inv_det D L U Sy E) as [P Q].
  exists (tri_inv D U), mu. split; [lra|]. intros z. eexists. split; [reflexivity|]. split.
  - intros i Hi. f_equal. apply back_solve_linear; [exact (cho_factor_tri D L U E)|exact Hi].
  - unfold normal_pdf. rewrite mdet_id, bilinear_id.
    rewrite (innerv_ext D (sub_v z (fun _ => 0)) z (sub_v z (fun _ => 0)) z) by (intros ? ?; unfold sub_v; ring).
    rewrite (bilinear_ext D L L (sub_v (fun i => mu i + back_solve D U z i) mu) (sub_v (fun i => mu i + back_solve D U z i) mu) (back_solve D U z) (back_solve D U z) (fun _ _ _ _ => eq_refl)
      (fun i _ => ltac:(unfold sub_v; ring)) (fun i _ => ltac:(unfold sub_v; ring))).
    rewrite (whiten D L U Sy E). rewrite Rabs_pos_eq by lra.
    assert (DL : 0 < mdet D L) by (destruct (Rle_lt_dec (mdet D L) 0); [nra|assumption]).
    assert (P2 : 0 < (2 * PI) ^ D) by (apply pow_lt; pose proof PI_RGT_0; lra).
    assert (K : sqrt (1 / (2 * PI) ^ D) = sqrt (mdet D L / (2 * PI) ^ D) * mdet D (tri_inv D U)).
    { rewrite <- (sqrt_square (mdet D (tri_inv D U))) at 1 by lra. rewrite <- sqrt_mult.
      - f_equal. unfold Rdiv. rewrite Rmult_assoc, (Rmult_comm (/ _)), <- Rmult_assoc, Q. ring.
      - apply Rlt_le, Rdiv_lt_0_compat; assumption.
      - nra. }
    rewrite K. ring.
Qed.

Lemma chol_draw_cov : forall D L U mu Cov, symmetric D L -> cho_factor D L = Ok U -> is_inverse D L Cov ->
  draws_mean_cov D (fun z => Ok (fun i => mu i + back_solve D U z i)) mu Cov.
Proof.
  intros D L U mu Cov Sy E I. exists (tri_inv D U). split.
  - intros z. eexists. split; [reflexivity|]. intros i Hi. cbn beta. f_equal.
    apply back_solve_linear; [exact (cho_factor_tri D L U E)|exact Hi].
  - apply (inverse_unique D L); [exact (tri_inv_gram D L U Sy E)|exact (proj1 I)].
Qed.
