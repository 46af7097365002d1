(** The elimination of one block, and the induction on the number of blocks. *)
From Coq Require Import List Arith Lia Bool Reals Lra Classical.
From Verif Require Import Base NumPy Families TensorLemmas Linalg MatBridge SpecLinalg LinalgLemmas GaussAlg PGaussian
  SchurAlg BlockBanded SpecBlock BlockShift.
Import ListNotations.
Open Scope R_scope.

Lemma schur_det' : forall n1 n2 M W, symmetric (n1 + n2)%nat M -> is_inverse n1 M W ->
  mdet (n1 + n2)%nat M = mdet n1 M * mdet n2 (schur n1 M W).
Proof. exact schur_det. Qed.
Lemma schur_quad' : forall n1 n2 M W x, symmetric (n1 + n2)%nat M -> is_inverse n1 M W ->
  let x2 := fun i => x (n1 + i)%nat in
  let z := fun i => x i + rsum n1 (fun k => W i k * rsum n2 (fun l => M k (n1 + l)%nat * x2 l)) in
  bilinear (n1 + n2)%nat M x x = bilinear n1 M z z + bilinear n2 (schur n1 M W) x2 x2.
Proof. exact schur_quad. Qed.
Lemma schur_inverse' : forall n1 n2 M W T, symmetric (n1 + n2)%nat M -> is_inverse n1 M W ->
  is_inverse n2 (schur n1 M W) T -> is_inverse (n1 + n2)%nat M (schur_inv n1 n2 M W T).
Proof. exact schur_inverse. Qed.

Lemma schur_sym : forall n1 n2 M W, symmetric (n1 + n2)%nat M -> is_inverse n1 M W -> symmetric n2 (schur n1 M W).
Proof.
  intros n1 n2 M W S HW i j Hi Hj. assert (S1 : symmetric n1 M) by (intros a b Ha Hb; apply S; lia).
  assert (SW := inverse_symmetric S1 HW). unfold schur. rewrite (S (n1 + i)%nat (n1 + j)%nat) by lia. f_equal.
  transitivity (rsum n1 (fun k => rsum n1 (fun l => M k (n1 + i)%nat * W k l * M l (n1 + j)%nat))).
  { apply rsum_ext. intros k Hk. rewrite <- rsum_scal. apply rsum_ext. intros; ring. }
  rewrite rsum_swap. apply rsum_ext. intros k Hk. rewrite <- rsum_scal. apply rsum_ext. intros l Hl.
  rewrite (SW l k) by lia. ring.
Qed.
Lemma posdef_ext : forall n A B, meq n A B -> posdef n A -> posdef n B.
Proof.
  intros n A B E [S P]. split.
  - intros i j Hi Hj. rewrite <- !E by assumption. now apply S.
  - intros x Hx. rewrite <- (bilinear_ext n A B x x x x E) by (intros ? ?; reflexivity). auto.
Qed.
Lemma inverse_ext : forall n A B W, meq n A B -> is_inverse n A W -> is_inverse n B W.
Proof.
  intros n A B W E [H1 H2]. split; intros i j Hi Hj.
  - rewrite <- (H1 i j Hi Hj). symmetry. apply (mmdot_ext n A B W W E); auto. intros ? ? ? ?; reflexivity.
  - rewrite <- (H2 i j Hi Hj). symmetry. apply (mmdot_ext n W W A B); auto. intros ? ? ? ?; reflexivity.
Qed.
Lemma rsum_zero : forall n f, (forall i, (i < n)%nat -> f i = 0) -> rsum n f = 0.
Proof. intros n f H. rewrite (rsum_ext n f (fun _ => 0)) by exact H. apply rsum_0. Qed.

Lemma posdef_first : forall n1 n2 M, posdef (n1 + n2)%nat M -> posdef n1 M.
Proof.
  intros n1 n2 M [S P]. split; [intros i j Hi Hj; apply S; lia|]. intros x [i [Hi Hx]].
  set (x' := fun k => if (k <? n1)%nat then x k else 0).
  assert (Z : forall k, (k < n1)%nat -> x' k = x k) by (intros k Hk; unfold x'; now rewrite (proj2 (Nat.ltb_lt k n1) Hk)).
  assert (Z' : forall k, x' (n1 + k)%nat = 0) by (intros k; unfold x'; rewrite (proj2 (Nat.ltb_ge (n1 + k) n1)) by lia; reflexivity).
  assert (Q : 0 < bilinear (n1 + n2) M x' x'). { apply P. exists i. split; [lia|]. now rewrite Z. }
  unfold bilinear in *. rewrite rsum_app in Q.
  rewrite (rsum_zero n2) in Q. 2: { intros k Hk. apply rsum_zero. intros j Hj. rewrite Z'. ring. }
  rewrite Rplus_0_r in Q. erewrite rsum_ext; [exact Q|]. intros k Hk. cbn beta. rewrite rsum_app.
  rewrite (rsum_zero n2) by (intros j Hj; rewrite Z'; ring). rewrite Rplus_0_r. apply rsum_ext. intros j Hj.
  now rewrite !Z.
Qed.
Lemma posdef_schur : forall n1 n2 M W, symmetric (n1 + n2)%nat M -> is_inverse n1 M W ->
  (posdef (n1 + n2)%nat M <-> posdef n1 M /\ posdef n2 (schur n1 M W)).
Proof.
  intros n1 n2 M W S HW. split.
  - intros P. split; [now apply posdef_first in P|]. split; [now apply schur_sym|]. intros x2 [i [Hi Hx]].
    set (z0 := fun i => - rsum n1 (fun k => W i k * rsum n2 (fun l => M k (n1 + l)%nat * x2 l))).
    set (x := fun k => if (k <? n1)%nat then z0 k else x2 (k - n1)%nat).
    assert (E2 : forall k, x (n1 + k)%nat = x2 k).
    { intros k. unfold x. rewrite (proj2 (Nat.ltb_ge (n1 + k) n1)) by lia. f_equal. lia. }
    assert (Q : 0 < bilinear (n1 + n2) M x x). { apply P. exists (n1 + i)%nat. split; [lia|]. now rewrite E2. }
    rewrite (schur_quad' n1 n2 M W x S HW) in Q.
    rewrite (bilinear_ext n2 _ (schur n1 M W) _ _ x2 x2) in Q by (intros ? ?; reflexivity || (intros; apply E2)).
    match type of Q with 0 < ?a + _ => replace a with 0 in Q end; [lra|].
    symmetry. apply rsum_zero. intros k Hk. apply rsum_zero. intros l Hl.
    assert (Zk : forall k, (k < n1)%nat ->
      x k + rsum n1 (fun k0 => W k k0 * rsum n2 (fun l0 => M k0 (n1 + l0)%nat * x (n1 + l0)%nat)) = 0).
    { intros q Hq. unfold x at 1. rewrite (proj2 (Nat.ltb_lt q n1) Hq). unfold z0.
      rewrite (rsum_ext n1 (fun k0 => W q k0 * rsum n2 (fun l0 => M k0 (n1 + l0)%nat * x (n1 + l0)%nat))
        (fun k0 => W q k0 * rsum n2 (fun l0 => M k0 (n1 + l0)%nat * x2 l0))); [lra|].
      intros a Ha. f_equal. apply rsum_ext. intros b Hb. now rewrite E2. }
    rewrite !Zk by lia. ring.
  - intros [[S1 P1] [S2 P2]]. split; [exact S|]. intros x Hx. rewrite (schur_quad' n1 n2 M W x S HW).
    set (x2 := fun i => x (n1 + i)%nat).
    set (z := fun i => x i + rsum n1 (fun k => W i k * rsum n2 (fun l => M k (n1 + l)%nat * x2 l))). change (0 < bilinear n1 M z z + bilinear n2 (schur n1 M W) x2 x2).
    assert (N : forall n A, (forall x, nonzero n x -> 0 < bilinear n A x x) -> forall x, 0 <= bilinear n A x x).
    { intros n A H y. destruct (classic (nonzero n y)) as [Y|Y]; [left; now apply H|]. right. symmetry. apply rsum_zero. intros i Hi.
      apply rsum_zero. intros j Hj. assert (y i = 0) as ->; [|ring].
      destruct (Req_dec (y i) 0); [assumption|]. exfalso. apply Y. now exists i. }
    destruct (classic (nonzero n2 x2)) as [Y|Y].
    + specialize (P2 x2 Y). specialize (N n1 M P1 z). lra.
    + assert (Z2 : forall i, (i < n2)%nat -> x2 i = 0).
      { intros i Hi. destruct (Req_dec (x2 i) 0); [assumption|]. exfalso. apply Y. now exists i. }
      assert (Zz : forall i, z i = x i).
      { intros i. unfold z. rewrite (rsum_zero n1); [lra|]. intros k Hk. rewrite (rsum_zero n2); [ring|]. intros l Hl. rewrite Z2 by lia. ring. }
      assert (0 < bilinear n1 M z z); [|specialize (N n2 _ P2 x2); lra].
      apply P1. destruct Hx as [i [Hi Hx]]. destruct (Nat.lt_ge_cases i n1) as [L|L].
      * exists i. split; [exact L|]. now rewrite Zz.
      * exfalso. apply Hx. replace i with (n1 + (i - n1))%nat by lia. apply Z2. lia.
Qed.

(** The solution of the system from the solution of the Schur complement. *)
Lemma schur_solve : forall n1 n2 M W y x, symmetric (n1 + n2)%nat M -> is_inverse n1 M W ->
  veq n1 x (mvdot n1 W (fun i => y i - rsum n2 (fun l => M i (n1 + l)%nat * x (n1 + l)%nat))) ->
  veq n2 (mvdot n2 (schur n1 M W) (fun i => x (n1 + i)%nat))
    (fun i => y (n1 + i)%nat - rsum n1 (fun k => M k (n1 + i)%nat * mvdot n1 W y k)) ->
  veq (n1 + n2)%nat (mvdot (n1 + n2)%nat M x) y.
Proof.
  intros n1 n2 M W y x S [H1 H2] X1 X2 i Hi. unfold mvdot at 1. rewrite rsum_app.
  set (b2 := fun i => rsum n2 (fun l => M i (n1 + l)%nat * x (n1 + l)%nat)) in *.
  destruct (Nat.lt_ge_cases i n1) as [L|L].
  - transitivity (mvdot n1 (mmdot n1 M W) (fun i => y i - b2 i) i + b2 i).
    { f_equal. rewrite <- (mvdot_assoc n1 M W _ i L). apply (mvdot_ext n1 M M); [intros ? ? ? ?; reflexivity|exact X1|exact L]. }
    rewrite (mvdot_ext n1 _ identity _ (fun i => y i - b2 i) H1 (fun _ _ => eq_refl) i L). unfold mvdot, identity.
    rewrite (rsum_ext n1 _ (fun j => if (j =? i)%nat then y i - b2 i else 0)).
    { rewrite (rsum_single n1 i (fun _ => y i - b2 i)) by exact L. ring. }
    intros j Hj. rewrite Nat.eqb_sym. destruct (Nat.eqb_spec j i) as [->|]; ring.
  - replace i with (n1 + (i - n1))%nat by lia. set (k := (i - n1)%nat). assert (Hk : (k < n2)%nat) by (unfold k; lia).
    assert (X := X2 k Hk). unfold mvdot at 1 in X. unfold schur in X. cbn beta in X.
    rewrite (rsum_ext n2 _ (fun j => M (n1 + k)%nat (n1 + j)%nat * x (n1 + j)%nat -
       rsum n1 (fun a => M a (n1 + k)%nat * (rsum n1 (fun l => W a l * (M l (n1 + j)%nat * x (n1 + j)%nat)))))) in X.
    2: { intros j Hj. rewrite Rmult_minus_distr_r. f_equal. rewrite <- rsum_scal_r. apply rsum_ext. intros a Ha.
      rewrite Rmult_assoc, <- rsum_scal_r. f_equal. apply rsum_ext. intros; ring. }
    rewrite rsum_minus in X.
    assert (Y : rsum n2 (fun j => rsum n1 (fun a => M a (n1 + k)%nat * (rsum n1 (fun l => W a l * (M l (n1 + j)%nat * x (n1 + j)%nat))))) =
      rsum n1 (fun a => M a (n1 + k)%nat * mvdot n1 W b2 a)).
    { rewrite rsum_swap. apply rsum_ext. intros a Ha. rewrite rsum_scal. f_equal. rewrite rsum_swap. unfold mvdot. apply rsum_ext. intros l Hl.
      rewrite rsum_scal. reflexivity. }
    rewrite Y in X.
    assert (Z : rsum n1 (fun j => M (n1 + k)%nat j * x j) =
      rsum n1 (fun a => M a (n1 + k)%nat * mvdot n1 W y a) - rsum n1 (fun a => M a (n1 + k)%nat * mvdot n1 W b2 a)).
    { rewrite <- rsum_minus. apply rsum_ext. intros a Ha. rewrite (X1 a Ha), (S (n1 + k)%nat a) by lia. unfold mvdot.
      rewrite <- Rmult_minus_distr_l, <- rsum_minus. f_equal. apply rsum_ext. intros; unfold b2; ring. }
    rewrite Z. lra.
Qed.
