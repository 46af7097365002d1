(** Cholesky factorisation: facts about Linalg.v. *)
From Coq Require Import List Arith Lia Bool Reals Lra FunctionalExtensionality.
From Verif Require Import Base NumPy TensorLemmas MarkovLemmas Families Linalg MatBridge SpecLinalg.
Open Scope R_scope.

Record triangular (n : nat) (U : mat) : Prop := Tri {
  tri_upper : forall i j, (i < n)%nat -> (j < i)%nat -> U i j = 0;
  tri_pos : forall i, (i < n)%nat -> 0 < U i i }.

Lemma tri_tail : forall n U, triangular (S n) U -> triangular n (tail_m U).
Proof. intros n U [A B]. split; intros; unfold tail_m; [apply A|apply B]; lia. Qed.

Lemma cho_factor_tri : forall n A U, cho_factor n A = Ok U -> triangular n U.
Proof.
  induction n as [|n IH]; intros A U H; [split; lia|]. cbn [cho_factor] in H.
  destruct (Rle_dec (A O O) 0) as [|P]; [discriminate|].
  set (S0 := fun i j => A (S i) (S j) - A O (S i) / sqrt (A O O) * (A O (S j) / sqrt (A O O))) in *.
  destruct (cho_factor n S0) as [V|] eqn:E; [|discriminate]. cbn in H. injection H as <-.
  specialize (IH _ _ E). destruct IH as [I1 I2]. split.
  - intros [|i] [|j] Hi Hj; try lia; [reflexivity|]. apply I1; lia.
  - intros [|i] Hi; [apply sqrt_lt_R0; lra|]. apply I2; lia.
Qed.

Lemma cho_factor_prod : forall n A U, symmetric n A -> cho_factor n A = Ok U ->
  meq n (mmdot n (transpose U) U) A.
Proof.
  induction n as [|n IH]; intros A U Sy H i j Hi Hj; [lia|]. cbn [cho_factor] in H.
  destruct (Rle_dec (A O O) 0) as [|P]; [discriminate|].
  set (S0 := fun i j => A (S i) (S j) - A O (S i) / sqrt (A O O) * (A O (S j) / sqrt (A O O))) in *.
  destruct (cho_factor n S0) as [V|] eqn:E; [|discriminate]. cbn in H. injection H as <-.
  assert (SQ : sqrt (A O O) * sqrt (A O O) = A O O) by (apply sqrt_sqrt; lra).
  assert (SP : 0 < sqrt (A O O)) by (apply sqrt_lt_R0; lra).
  assert (IHV : meq n (mmdot n (transpose V) V) S0).
  { apply IH; [|exact E]. intros a b Ha Hb. unfold S0. rewrite (Sy (S a) (S b)) by lia. lra. }
  unfold mmdot, transpose. rewrite rsum_S_l. destruct i as [|i], j as [|j].
  - rewrite (rsum_ext n _ (fun _ => 0)) by (intros; ring). rewrite rsum_0. lra.
  - rewrite (rsum_ext n _ (fun _ => 0)) by (intros; ring). rewrite rsum_0. field. lra.
  - rewrite (rsum_ext n _ (fun _ => 0)) by (intros; ring). rewrite rsum_0. rewrite (Sy (S i) O) by lia. field. lra.
  - assert (Q := IHV i j). unfold mmdot, transpose in Q. rewrite Q by lia. unfold S0. lra.
Qed.

(** ** Triangular systems *)

Lemma back_solve_ok : forall n U y, triangular n U -> veq n (mvdot n U (back_solve n U y)) y.
Proof.
  induction n as [|n IH]; intros U y T i Hi; [lia|]. cbn [back_solve]. unfold mvdot. rewrite rsum_S_l.
  cbn [cons_v]. assert (P := tri_pos _ _ T O ltac:(lia)). destruct i as [|i].
  - cbn [cons_v]. field. lra.
  - rewrite (tri_upper _ _ T (S i) O) by lia.
    assert (Q := IH (tail_m U) (tail_v y) (tri_tail _ _ T) i ltac:(lia)).
    unfold mvdot, tail_m at 1, tail_v at 2 in Q. cbn [cons_v]. rewrite Q. lra.
Qed.

Lemma forward_solve_ok : forall n U b, triangular n U ->
  veq n (mvdot n (transpose U) (forward_solve n U b)) b.
Proof.
  induction n as [|n IH]; intros U b T i Hi; [lia|]. cbn [forward_solve]. unfold mvdot, transpose. rewrite rsum_S_l.
  cbn [cons_v]. assert (P := tri_pos _ _ T O ltac:(lia)). destruct i as [|i].
  - rewrite (rsum_ext n _ (fun _ => 0)).
    2:{ intros x Hx. cbn [cons_v]. rewrite (tri_upper _ _ T (S x) O) by lia. ring. }
    rewrite rsum_0. field. lra.
  - set (y0 := b O / U O O).
    assert (Q := IH (tail_m U) (fun i => b (S i) - U O (S i) * y0) (tri_tail _ _ T) i ltac:(lia)).
    unfold mvdot, transpose, tail_m at 1 in Q. cbn [cons_v]. rewrite Q. ring.
Qed.

Lemma mvdot_assoc : forall n A B x, veq n (mvdot n A (mvdot n B x)) (mvdot n (mmdot n A B) x).
Proof.
  intros n A B x i Hi. unfold mvdot, mmdot.
  transitivity (rsum n (fun j => rsum n (fun k => A i j * B j k * x k))).
  { apply rsum_ext. intros j Hj. rewrite <- rsum_scal. apply rsum_ext. intros; ring. }
  rewrite rsum_swap. apply rsum_ext. intros k Hk. rewrite <- rsum_scal_r. apply rsum_ext. intros; ring.
Qed.
Lemma mvdot_ext : forall n A B x y, meq n A B -> veq n x y -> veq n (mvdot n A x) (mvdot n B y).
Proof. intros n A B x y H1 H2 i Hi. apply rsum_ext. intros j Hj. rewrite H1, H2 by lia. reflexivity. Qed.
Lemma mmdot_ext : forall n A A' B B', meq n A A' -> meq n B B' -> meq n (mmdot n A B) (mmdot n A' B').
Proof. intros n A A' B B' H1 H2 i j Hi Hj. apply rsum_ext. intros k Hk. rewrite H1, H2 by lia. reflexivity. Qed.

Lemma cho_solve_ok : forall n U b, triangular n U ->
  veq n (mvdot n (mmdot n (transpose U) U) (cho_solve n U b)) b.
Proof.
  intros n U b T i Hi. rewrite <- (mvdot_assoc n (transpose U) U _ i Hi). unfold cho_solve.
  rewrite <- (forward_solve_ok n U b T i Hi). apply mvdot_ext; [intros ? ? ? ?; reflexivity| |exact Hi].
  now apply back_solve_ok.
Qed.

Lemma cho_factor_solve : forall n A U b, symmetric n A -> cho_factor n A = Ok U ->
  veq n (mvdot n A (cho_solve n U b)) b.
Proof.
  intros n A U b Sy E i Hi. rewrite <- (cho_solve_ok n U b (cho_factor_tri _ _ _ E) i Hi).
  apply mvdot_ext; [|intros ? ?; reflexivity|exact Hi]. intros a c Ha Hc. symmetry. now apply (cho_factor_prod n A U Sy E).
Qed.

Lemma chol_inv_ok : forall n A U, symmetric n A -> cho_factor n A = Ok U ->
  is_inverse n A (chol_inv n U).
Proof.
  intros n A U Sy E. assert (G : meq n (mmdot n A (chol_inv n U)) identity).
  { intros i j Hi Hj. exact (cho_factor_solve n A U (fun k => identity k j) Sy E i Hi). }
  split; [exact G|]. now apply meq_mul_comm.
Qed.

(** ** Determinant *)

Fixpoint prodn (n : nat) (f : nat -> R) : R := match n with O => 1 | S m => f O * prodn m (fun i => f (S i)) end.
Lemma prodn_pos : forall n f, (forall i, (i < n)%nat -> 0 < f i) -> 0 < prodn n f.
Proof.
  induction n as [|n IH]; intros f H; cbn; [lra|]. apply Rmult_lt_0_compat; [apply H; lia|]. apply IH. intros; apply H; lia.
Qed.
Lemma ln_prodn : forall n f, (forall i, (i < n)%nat -> 0 < f i) -> ln (prodn n f) = rsum n (fun i => ln (f i)).
Proof.
  induction n as [|n IH]; intros f H; [cbn; apply ln_1|]. rewrite rsum_S_l. cbn [prodn].
  rewrite ln_mult; [|apply H; lia|apply prodn_pos; intros; apply H; lia]. f_equal. apply IH. intros; apply H; lia.
Qed.
Lemma mdet_tri : forall n U, triangular n U -> mdet n U = prodn n (fun i => U i i).
Proof.
  induction n as [|n IH]; intros U T; [apply mdet_0|].
  rewrite mdet_first by (intros i Hi; apply (tri_upper _ _ T); lia). cbn [prodn]. f_equal.
  rewrite IH by now apply tri_tail. reflexivity.
Qed.
Lemma chol_det : forall n A U, symmetric n A -> cho_factor n A = Ok U ->
  mdet n A = prodn n (fun i => U i i) * prodn n (fun i => U i i).
Proof.
  intros n A U Sy E. rewrite <- (mdet_ext (cho_factor_prod n A U Sy E)).
  rewrite mdet_mul, mdet_tr, mdet_tri by apply (cho_factor_tri _ _ _ E). reflexivity.
Qed.
Lemma chol_logdet_ok : forall n A U, symmetric n A -> cho_factor n A = Ok U ->
  0 < mdet n A /\ chol_logdet n U = ln (mdet n A).
Proof.
  intros n A U Sy E. rewrite (chol_det n A U Sy E).
  assert (P : 0 < prodn n (fun i => U i i)) by (apply prodn_pos; intros; now apply (tri_pos _ _ (cho_factor_tri _ _ _ E))).
  split; [now apply Rmult_lt_0_compat|]. rewrite ln_mult, ln_prodn by (try assumption; intros; now apply (tri_pos _ _ (cho_factor_tri _ _ _ E))).
  unfold chol_logdet. lra.
Qed.

(** ** Positive definiteness *)

Lemma bilinear_ext : forall n A B x y x' y', meq n A B -> veq n x x' -> veq n y y' ->
  bilinear n A x y = bilinear n B x' y'.
Proof. intros n A B x y x' y' H1 H2 H3. apply rsum_ext. intros i Hi. apply rsum_ext. intros j Hj. now rewrite H1, H2, H3. Qed.
Lemma bilinear_mv : forall n A x y, bilinear n A x y = innerv n x (mvdot n A y).
Proof.
  intros n A x y. unfold bilinear, innerv, mvdot. apply rsum_ext. intros i Hi. rewrite <- rsum_scal.
  apply rsum_ext. intros; ring.
Qed.
Lemma bilinear_gram : forall n U x y, bilinear n (mmdot n (transpose U) U) x y = innerv n (mvdot n U x) (mvdot n U y).
Proof.
  intros n U x y. unfold bilinear, innerv, mvdot, mmdot, transpose.
  transitivity (rsum n (fun i => rsum n (fun j => rsum n (fun k => (U k i * x i) * (U k j * y j))))).
  { apply rsum_ext. intros i Hi. apply rsum_ext. intros j Hj.
    rewrite <- rsum_scal, <- rsum_scal_r. apply rsum_ext. intros; ring. }
  transitivity (rsum n (fun i => rsum n (fun k => rsum n (fun j => (U k i * x i) * (U k j * y j))))).
  { apply rsum_ext. intros i Hi. apply rsum_swap. }
  rewrite rsum_swap. apply rsum_ext. intros k Hk. rewrite <- rsum_scal_r. apply rsum_ext. intros i Hi. now rewrite rsum_scal.
Qed.
Lemma inner_self : forall n x, 0 <= innerv n x x.
Proof. intros. apply rsum_nonneg. intros. nra. Qed.
Lemma inner_self_zero : forall n x, innerv n x x <= 0 -> forall i, (i < n)%nat -> x i = 0.
Proof.
  intros n x H i Hi. assert (x i * x i = 0); [|nra].
  apply (rsum_nonneg_zero n (fun i => x i * x i)); [intros; nra|exact H|exact Hi].
Qed.
Lemma tri_kernel : forall n U x, triangular n U -> (forall i, (i < n)%nat -> mvdot n U x i = 0) ->
  forall i, (i < n)%nat -> x i = 0.
Proof.
  induction n as [|n IH]; intros U x T H i Hi; [lia|].
  assert (Tl : forall i, (i < n)%nat -> x (S i) = 0).
  { apply (IH (tail_m U) (tail_v x)); [now apply tri_tail|]. intros k Hk. specialize (H (S k) ltac:(lia)).
    unfold mvdot in H. rewrite rsum_S_l, (tri_upper _ _ T (S k) O) in H by lia. unfold mvdot, tail_m, tail_v. lra. }
  destruct i as [|i]; [|apply Tl; lia]. specialize (H O ltac:(lia)). unfold mvdot in H. rewrite rsum_S_l in H.
  rewrite (rsum_ext n _ (fun _ => 0)), rsum_0 in H by (intros k Hk; rewrite Tl by lia; ring).
  assert (P := tri_pos _ _ T O ltac:(lia)). nra.
Qed.

Lemma chol_posdef : forall n A U, symmetric n A -> cho_factor n A = Ok U -> posdef n A.
Proof.
  intros n A U Sy E. split; [exact Sy|]. intros x [i [Hi Hx]].
  rewrite <- (bilinear_ext n _ A x x x x (cho_factor_prod n A U Sy E)) by (intros ? ?; reflexivity).
  rewrite bilinear_gram. destruct (Rle_lt_dec (innerv n (mvdot n U x) (mvdot n U x)) 0) as [Z|]; [|assumption].
  exfalso. apply Hx. apply (tri_kernel n U x (cho_factor_tri _ _ _ E)); [|exact Hi].
  now apply inner_self_zero.
Qed.

Lemma bilinear_S : forall n A x, bilinear (S n) A x x =
  A O O * x O * x O + rsum n (fun j => x O * A O (S j) * x (S j)) +
  rsum n (fun i => x (S i) * A (S i) O * x O) + bilinear n (tail_m A) (tail_v x) (tail_v x).
Proof.
  intros n A x. unfold bilinear at 1. rewrite rsum_S_l, rsum_S_l. unfold bilinear, tail_m, tail_v.
  rewrite (rsum_ext n (fun x0 => rsum (S n) _) (fun i => x (S i) * A (S i) O * x O + rsum n (fun j => x (S i) * A (S i) (S j) * x (S j))))
    by (intros; now rewrite rsum_S_l).
  rewrite rsum_plus. lra.
Qed.

Lemma posdef_chol : forall n A, posdef n A -> exists U, cho_factor n A = Ok U.
Proof.
  induction n as [|n IH]; intros A [Sy P]; [eexists; reflexivity|]. cbn [cho_factor].
  assert (P0 : 0 < A O O).
  { specialize (P (fun i => match i with O => 1 | _ => 0 end)).
    rewrite bilinear_S in P. cbn in P.
    rewrite (rsum_ext n _ (fun _ => 0)), rsum_0 in P by (intros; ring).
    rewrite (rsum_ext n _ (fun _ => 0)), rsum_0 in P by (intros; ring).
    assert (Z : bilinear n (tail_m A) (tail_v (fun i : nat => match i with O => 1 | S _ => 0 end))
                  (tail_v (fun i : nat => match i with O => 1 | S _ => 0 end)) = 0).
    { unfold bilinear, tail_v. rewrite (rsum_ext n _ (fun _ => 0)), rsum_0; [reflexivity|].
      intros i Hi. rewrite (rsum_ext n _ (fun _ => 0)), rsum_0; [reflexivity|]. intros; ring. }
    rewrite Z in P. assert (Q : 0 < A O O * 1 * 1 + 0 + 0 + 0); [|lra]. apply P. exists O. split; [lia|lra]. }
  destruct (Rle_dec (A O O) 0); [lra|].
  assert (SQ : sqrt (A O O) * sqrt (A O O) = A O O) by (apply sqrt_sqrt; lra).
  assert (SP : 0 < sqrt (A O O)) by (apply sqrt_lt_R0; lra).
  set (S0 := fun i j => A (S i) (S j) - A O (S i) / sqrt (A O O) * (A O (S j) / sqrt (A O O))) in *.
  assert (SE : forall i j, S0 i j = A (S i) (S j) - A O (S i) * A O (S j) / A O O).
  { intros. unfold S0. transitivity (A (S i) (S j) - A O (S i) * A O (S j) / (sqrt (A O O) * sqrt (A O O))); [field; lra|].
    now rewrite SQ. }
  destruct (IH S0) as [V EV]; [|rewrite EV; eexists; reflexivity]. split.
  - intros i j Hi Hj. rewrite !SE, (Sy (S i) (S j)) by lia. lra.
  - intros x [k [Hk Hx]]. set (c := rsum n (fun j => A O (S j) * x j)).
    specialize (P (cons_v (- c / A O O) x)). rewrite bilinear_S in P. cbn [cons_v] in P.
    assert (E1 : rsum n (fun j => - c / A O O * A O (S j) * x j) = - c / A O O * c).
    { transitivity (- c / A O O * rsum n (fun j => A O (S j) * x j)); [|reflexivity]. rewrite <- rsum_scal. apply rsum_ext. intros; ring. }
    assert (E2 : rsum n (fun j => x j * A (S j) O * (- c / A O O)) = - c / A O O * c).
    { transitivity (- c / A O O * rsum n (fun j => A O (S j) * x j)); [|reflexivity]. rewrite <- rsum_scal. apply rsum_ext. intros j Hj. rewrite (Sy (S j) O) by lia. ring. }
    rewrite E1, E2 in P.
    assert (E3 : bilinear n S0 x x = bilinear n (tail_m A) x x - c * c / A O O).
    { unfold bilinear, c.
      replace (rsum n (fun j => A O (S j) * x j) * rsum n (fun j => A O (S j) * x j) / A O O)
        with (rsum n (fun i => rsum n (fun j => x i * (A O (S i) * A O (S j) / A O O) * x j))).
      - rewrite <- rsum_minus. apply rsum_ext. intros i Hi. rewrite <- rsum_minus. apply rsum_ext. intros j Hj.
        rewrite SE. unfold tail_m. ring.
      - unfold Rdiv at 2. rewrite rsum_mult, <- rsum_scal_r. apply rsum_ext. intros i Hi.
        rewrite <- rsum_scal_r. apply rsum_ext. intros j Hj. unfold Rdiv. ring. }
    rewrite E3. change (tail_v (cons_v (- c / A O O) x)) with x in P.
    assert (Q := P ltac:(exists (S k); split; [lia|exact Hx])).
    replace (A O O * (- c / A O O) * (- c / A O O) + - c / A O O * c + - c / A O O * c) with (- (c * c / A O O)) in Q by (field; lra).
    lra.
Qed.
