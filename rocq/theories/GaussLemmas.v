(** The inequality tr(B A^-1) >= sum_i s_i with log det B - log det A = sum_i log s_i. *)
From Coq Require Import List Arith Lia Bool Reals Lra FunctionalExtensionality.
From Verif Require Import Base NumPy TensorLemmas MarkovLemmas Families Linalg MatBridge SpecLinalg LinalgLemmas
  Gaussian.
Open Scope R_scope.

Lemma meq_refl : forall n A, meq n A A. Proof. intros n A i j _ _; reflexivity. Qed.
Lemma meq_sym : forall n A B, meq n A B -> meq n B A. Proof. intros n A B H i j Hi Hj; symmetry; now apply H. Qed.
Lemma meq_trans : forall n A B C, meq n A B -> meq n B C -> meq n A C.
Proof. intros n A B C H1 H2 i j Hi Hj. rewrite H1 by assumption. now apply H2. Qed.
Lemma veq_refl : forall n a, veq n a a. Proof. intros n a i _; reflexivity. Qed.

Lemma back_solve_upper : forall n U y j, (forall i, (i < n)%nat -> (j < i)%nat -> y i = 0) ->
  forall i, (i < n)%nat -> (j < i)%nat -> back_solve n U y i = 0.
Proof.
  induction n as [|n IH]; intros U y j H i Hi Hj; [lia|]. cbn [back_solve]. destruct i as [|i]; [lia|]. cbn [cons_v].
  destruct j as [|j].
  - assert (G : forall m V z, (forall i, (i < m)%nat -> z i = 0) -> forall i, (i < m)%nat -> back_solve m V z i = 0).
    { clear. induction m as [|m IH]; intros V z H i Hi; [lia|]. cbn [back_solve].
      assert (Z : forall i, (i < m)%nat -> back_solve m (tail_m V) (tail_v z) i = 0) by (apply IH; intros; apply H; lia).
      destruct i as [|i]; cbn [cons_v]; [|apply Z; lia].
      rewrite (rsum_ext m _ (fun _ => 0)), rsum_0 by (intros; rewrite Z by lia; ring).
      rewrite (H O) by lia. unfold Rdiv. ring. }
    apply G; [|lia]. intros k Hk. unfold tail_v. apply H; lia.
  - apply (IH _ _ j); [|lia|lia]. intros k Hk Hl. unfold tail_v. apply H; lia.
Qed.

Definition tri_inv (n : nat) (U : mat) : mat := fun i j => back_solve n U (fun k => identity k j) i.

Lemma tri_inv_right : forall n U, triangular n U -> meq n (mmdot n U (tri_inv n U)) identity.
Proof. intros n U T i j Hi Hj. exact (back_solve_ok n U (fun k => identity k j) T i Hi). Qed.
Lemma identity_diag : forall i, identity i i = 1.
Proof. intros. unfold identity. now rewrite Nat.eqb_refl. Qed.
Lemma identity_off : forall i j, i <> j -> identity i j = 0.
Proof. intros i j H. unfold identity. destruct (Nat.eqb_spec i j); [contradiction|reflexivity]. Qed.
Lemma tri_inv_upper : forall n U i j, (i < n)%nat -> (j < i)%nat -> tri_inv n U i j = 0.
Proof.
  intros n U i j Hi Hj. unfold tri_inv. apply (back_solve_upper n U _ j); [|exact Hi|exact Hj].
  intros k _ Hk. apply identity_off. lia.
Qed.

(** A product of upper triangular matrices. *)
Lemma tri_mul_diag : forall n A B, (forall i j, (i < n)%nat -> (j < i)%nat -> A i j = 0) ->
  (forall i j, (i < n)%nat -> (j < i)%nat -> B i j = 0) ->
  (forall i j, (i < n)%nat -> (j < i)%nat -> mmdot n A B i j = 0) /\
  (forall i, (i < n)%nat -> mmdot n A B i i = A i i * B i i).
Proof.
  intros n A B HA HB. split.
  - intros i j Hi Hj. unfold mmdot. rewrite (rsum_ext n _ (fun _ => 0)), rsum_0; [reflexivity|].
    intros k Hk. destruct (Nat.lt_ge_cases k i); [rewrite HA by lia; ring|rewrite HB by lia; ring].
  - intros i Hi. unfold mmdot. rewrite (rsum_ext n _ (fun k => if k =? i then A i i * B i i else 0)).
    + now apply (rsum_single n i (fun _ => A i i * B i i)).
    + intros k Hk. destruct (Nat.eqb_spec k i) as [->|]; [reflexivity|].
      destruct (Nat.lt_ge_cases k i); [rewrite HA by lia; ring|rewrite HB by lia; ring].
Qed.

Lemma mmdot_id_l : forall n A, meq n (mmdot n identity A) A.
Proof.
  intros n A i j Hi Hj. unfold mmdot, identity. rewrite (rsum_ext n _ (fun k => if k =? i then A i j else 0)).
  - now apply (rsum_single n i (fun _ => A i j)).
  - intros k Hk. rewrite (Nat.eqb_sym i k). destruct (Nat.eqb_spec k i) as [->|]; ring.
Qed.
Lemma mmdot_id_r : forall n A, meq n (mmdot n A identity) A.
Proof.
  intros n A i j Hi Hj. unfold mmdot, identity. rewrite (rsum_ext n _ (fun k => if k =? j then A i j else 0)).
  - now apply (rsum_single n j (fun _ => A i j)).
  - intros k Hk. destruct (Nat.eqb_spec k j) as [->|]; ring.
Qed.

Lemma inverse_unique : forall n A V W, is_inverse n A V -> meq n (mmdot n A W) identity -> meq n V W.
Proof.
  intros n A V W [H1 H2] H3.
  apply (meq_trans n V (mmdot n V identity)); [apply meq_sym, mmdot_id_r|].
  apply (meq_trans n _ (mmdot n V (mmdot n A W))); [apply mmdot_ext; [apply meq_refl|now apply meq_sym]|].
  apply (meq_trans n _ (mmdot n (mmdot n V A) W)); [apply meq_sym, meq_assoc|].
  apply (meq_trans n _ (mmdot n identity W)); [apply mmdot_ext; [exact H2|apply meq_refl]|apply mmdot_id_l].
Qed.

Lemma transpose_mul : forall n A B, meq n (transpose (mmdot n A B)) (mmdot n (transpose B) (transpose A)).
Proof. intros n A B i j _ _. unfold transpose, mmdot. apply rsum_ext. intros; ring. Qed.

(** A^-1 = X X^T where X is the inverse of the Cholesky factor. *)
Lemma chol_inv_gram : forall n A U, symmetric n A -> cho_factor n A = Ok U ->
  meq n (chol_inv n U) (mmdot n (tri_inv n U) (transpose (tri_inv n U))).
Proof.
  intros n A U Sy E. assert (T := cho_factor_tri _ _ _ E). apply (inverse_unique n A).
  - now apply chol_inv_ok.
  - set (X := tri_inv n U). assert (R1 := tri_inv_right n U T). fold X in R1.
    assert (R2 : meq n (mmdot n X U) identity) by now apply meq_mul_comm.
    apply (meq_trans n _ (mmdot n (mmdot n (transpose U) U) (mmdot n X (transpose X)))).
    { apply mmdot_ext; [apply meq_sym; now apply cho_factor_prod|apply meq_refl]. }
    apply (meq_trans n _ (mmdot n (transpose U) (mmdot n U (mmdot n X (transpose X))))); [apply meq_assoc|].
    apply (meq_trans n _ (mmdot n (transpose U) (transpose X))).
    { apply mmdot_ext; [apply meq_refl|].
      apply (meq_trans n _ (mmdot n (mmdot n U X) (transpose X))); [apply meq_sym, meq_assoc|].
      apply (meq_trans n _ (mmdot n identity (transpose X))); [apply mmdot_ext; [exact R1|apply meq_refl]|apply mmdot_id_l]. }
    apply (meq_trans n _ (transpose (mmdot n X U))); [apply meq_sym, transpose_mul|].
    intros i j Hi Hj. unfold transpose. rewrite R2 by assumption. unfold identity. now rewrite Nat.eqb_sym.
Qed.

Lemma innerm_ext : forall n A A' B B', meq n A A' -> meq n B B' -> innerm n A B = innerm n A' B'.
Proof. intros n A A' B B' H1 H2. apply rsum_ext. intros i Hi. apply rsum_ext. intros j Hj. now rewrite H1, H2. Qed.

(** <W^T W, X X^T> is the sum of the squares of W X. *)
Lemma innerm_gram : forall n W X,
  innerm n (mmdot n (transpose W) W) (mmdot n X (transpose X)) =
  rsum n (fun i => rsum n (fun j => mmdot n W X i j * mmdot n W X i j)).
Proof.
  intros n W X. unfold innerm, mmdot, transpose.
  transitivity (rsum n (fun a => rsum n (fun b => rsum n (fun i => rsum n (fun j => (W i a * X a j) * (W i b * X b j)))))).
  { apply rsum_ext. intros a Ha. apply rsum_ext. intros b Hb. rewrite rsum_mult.
    apply rsum_ext. intros i Hi. apply rsum_ext. intros j Hj. ring. }
  transitivity (rsum n (fun i => rsum n (fun j => rsum n (fun a => rsum n (fun b => (W i a * X a j) * (W i b * X b j)))))).
  2:{ apply rsum_ext. intros i Hi. apply rsum_ext. intros j Hj. now rewrite rsum_mult. }
  transitivity (rsum n (fun a => rsum n (fun i => rsum n (fun b => rsum n (fun j => (W i a * X a j) * (W i b * X b j)))))).
  { apply rsum_ext. intros a Ha. apply rsum_swap. }
  rewrite rsum_swap. apply rsum_ext. intros i Hi.
  transitivity (rsum n (fun a => rsum n (fun j => rsum n (fun b => (W i a * X a j) * (W i b * X b j))))).
  { apply rsum_ext. intros a Ha. apply rsum_swap. }
  apply rsum_swap.
Qed.

Lemma rsum_diag_split : forall n f i, (i < n)%nat -> (forall j, (j < n)%nat -> 0 <= f j) ->
  f i <= rsum n f.
Proof.
  intros n f i Hi H. rewrite <- (rsum_single n i (fun _ => f i) Hi). apply rsum_le. intros x Hx.
  destruct (Nat.eqb_spec x i) as [->|]; [lra|now apply H].
Qed.

Lemma ln_square_ratio : forall w u, 0 < w -> 0 < u -> ln ((w / u) * (w / u)) = 2 * ln w - 2 * ln u.
Proof.
  intros w u Hw Hu. assert (0 < w / u) by now apply Rdiv_lt_0_compat. rewrite ln_mult by assumption.
  unfold Rdiv. rewrite ln_mult, ln_Rinv by (try assumption; now apply Rinv_0_lt_compat). lra.
Qed.

Lemma trace_spectrum : forall n A B U W, symmetric n A -> symmetric n B ->
  cho_factor n A = Ok U -> cho_factor n B = Ok W ->
  exists s, (forall i, (i < n)%nat -> 0 < s i) /\
    chol_logdet n W - chol_logdet n U = rsum n (fun i => ln (s i)) /\
    rsum n s <= innerm n B (chol_inv n U) /\
    (innerm n B (chol_inv n U) = rsum n s -> forall c, (forall i, (i < n)%nat -> s i = c) ->
       meq n B (scal_m c A)).
Proof.
  intros n A B U W SA SB EA EB. assert (TU := cho_factor_tri _ _ _ EA). assert (TW := cho_factor_tri _ _ _ EB).
  set (X := tri_inv n U). set (T := mmdot n W X).
  assert (XU := tri_inv_upper n U). fold X in XU.
  assert (R1 := tri_inv_right n U TU). fold X in R1.
  destruct (tri_mul_diag n W X (tri_upper _ _ TW) XU) as [T0 TD].
  destruct (tri_mul_diag n U X (tri_upper _ _ TU) XU) as [_ UD].
  assert (XD : forall i, (i < n)%nat -> X i i = / U i i).
  { intros i Hi. specialize (UD i Hi). rewrite R1, identity_diag in UD by assumption.
    assert (P := tri_pos _ _ TU i Hi). apply (Rmult_eq_reg_l (U i i)); [|lra]. rewrite Rinv_r by lra. lra. }
  assert (TR : innerm n B (chol_inv n U) = rsum n (fun i => rsum n (fun j => T i j * T i j))).
  { rewrite (innerm_ext n B (mmdot n (transpose W) W) _ (mmdot n X (transpose X))).
    - apply innerm_gram.
    - apply meq_sym. now apply cho_factor_prod.
    - now apply (chol_inv_gram n A). }
  exists (fun i => T i i * T i i).
  assert (TP : forall i, (i < n)%nat -> T i i = W i i / U i i).
  { intros i Hi. unfold T. rewrite TD, XD by assumption. reflexivity. }
  assert (WP := tri_pos _ _ TW). assert (UP := tri_pos _ _ TU).
  split; [|split; [|split]].
  - intros i Hi. rewrite TP by assumption. assert (0 < W i i / U i i) by (apply Rdiv_lt_0_compat; auto). nra.
  - unfold chol_logdet. rewrite <- !rsum_scal, <- rsum_minus. apply rsum_ext. intros i Hi.
    rewrite TP, ln_square_ratio by auto. reflexivity.
  - rewrite TR. apply rsum_le. intros i Hi. apply (rsum_diag_split n (fun j => T i j * T i j) i Hi). intros; nra.
  - intros EQ c Hc. rewrite TR in EQ.
    assert (OFF : forall i j, (i < n)%nat -> (j < n)%nat -> i <> j -> T i j = 0).
    { intros i j Hi Hj Hij.
      assert (Z : rsum n (fun j => if j =? i then 0 else T i j * T i j) <= 0).
      { assert (SP : forall k, (k < n)%nat -> rsum n (fun j => T k j * T k j) - T k k * T k k
                  = rsum n (fun j => if j =? k then 0 else T k j * T k j)).
        { intros k Hk. rewrite <- (rsum_single n k (fun _ => T k k * T k k) Hk), <- rsum_minus. apply rsum_ext. intros x Hx.
          destruct (Nat.eqb_spec x k) as [->|]; ring. }
        assert (TOT : rsum n (fun k => rsum n (fun j => if j =? k then 0 else T k j * T k j)) <= 0).
        { rewrite (rsum_ext n _ (fun k => rsum n (fun j => T k j * T k j) - T k k * T k k)) by (intros k Hk; symmetry; now apply SP).
          rewrite rsum_minus, EQ. lra. }
        apply Rle_trans with (2 := TOT).
        apply (rsum_diag_split n (fun k => rsum n (fun j => if j =? k then 0 else T k j * T k j)) i Hi).
        intros k Hk. apply rsum_nonneg. intros x Hx. destruct (x =? k); nra. }
      assert (Q : (fun j => if j =? i then 0 else T i j * T i j) j = 0).
      { apply (rsum_nonneg_zero n (fun j => if j =? i then 0 else T i j * T i j)); [|exact Z|exact Hj]. intros k Hk. destruct (k =? i); nra. }
      cbn in Q. destruct (Nat.eqb_spec j i); [congruence|nra]. }
    assert (R2 : meq n (mmdot n X U) identity) by now apply meq_mul_comm.
    assert (WT : meq n W (mmdot n T U)).
    { apply meq_sym. apply (meq_trans n _ (mmdot n W (mmdot n X U))); [apply meq_assoc|].
      apply (meq_trans n _ (mmdot n W identity)); [apply mmdot_ext; [apply meq_refl|exact R2]|apply mmdot_id_r]. }
    assert (WU : forall i j, (i < n)%nat -> (j < n)%nat -> W i j = T i i * U i j).
    { intros i j Hi Hj. rewrite WT by assumption. unfold mmdot.
      rewrite (rsum_ext n _ (fun k => if k =? i then T i i * U i j else 0)); [now apply (rsum_single n i (fun _ => T i i * U i j))|].
      intros k Hk. destruct (Nat.eqb_spec k i) as [->|]; [reflexivity|]. rewrite OFF by congruence. ring. }
    intros i j Hi Hj. rewrite <- (cho_factor_prod n B W SB EB i j Hi Hj). unfold scal_m.
    rewrite <- (cho_factor_prod n A U SA EA i j Hi Hj). unfold mmdot, transpose. rewrite <- rsum_scal.
    apply rsum_ext. intros k Hk. rewrite !WU by assumption. specialize (Hc k Hk). nra.
Qed.

Lemma ln_le_sub1 : forall x, 0 < x -> ln x <= x - 1.
Proof.
  intros x Hx. destruct (Req_dec x 1) as [->|N]; [rewrite ln_1; lra|].
  assert (H := exp_ineq1 (x - 1) ltac:(lra)).
  rewrite <- (ln_exp (x - 1)). left. apply ln_increasing; lra.
Qed.
Lemma ln_eq_sub1 : forall x, 0 < x -> ln x = x - 1 -> x = 1.
Proof.
  intros x Hx E. destruct (Req_dec x 1) as [|N]; [assumption|]. exfalso.
  assert (H := exp_ineq1 (x - 1) ltac:(lra)). assert (L := ln_increasing x (exp (x - 1)) Hx ltac:(lra)).
  rewrite ln_exp in L. lra.
Qed.

Lemma logdet_gibbs : forall n A B U W, symmetric n A -> symmetric n B ->
  cho_factor n A = Ok U -> cho_factor n B = Ok W ->
  innerm n B (chol_inv n U) - INR n - chol_logdet n W + chol_logdet n U >= 0 /\
  (innerm n B (chol_inv n U) - INR n - chol_logdet n W + chol_logdet n U = 0 -> meq n A B).
Proof.
  intros n A B U W SA SB EA EB. destruct (trace_spectrum n A B U W SA SB EA EB) as (s & P & L & T & Q).
  assert (Le : rsum n (fun i => ln (s i)) <= rsum n s - INR n).
  { replace (INR n) with (rsum n (fun _ => 1)) by (rewrite rsum_const; ring). rewrite <- rsum_minus.
    apply rsum_le. intros i Hi. apply ln_le_sub1. now apply P. }
  split; [lra|]. intros E.
  assert (E1 : innerm n B (chol_inv n U) = rsum n s) by lra.
  assert (E2 : forall i, (i < n)%nat -> s i = 1).
  { intros i Hi. apply ln_eq_sub1; [now apply P|].
    assert (Z : rsum n (fun i => s i - 1 - ln (s i)) <= 0).
    { rewrite rsum_minus, rsum_minus. rewrite rsum_const. lra. }
    assert (K : (fun i => s i - 1 - ln (s i)) i = 0).
    { apply (rsum_nonneg_zero n (fun i => s i - 1 - ln (s i))); [|exact Z|exact Hi]. intros k Hk. specialize (ln_le_sub1 (s k) (P k Hk)). lra. }
    cbn in K. lra. }
  intros i j Hi Hj. rewrite (Q E1 1 E2 i j Hi Hj). unfold scal_m. ring.
Qed.
