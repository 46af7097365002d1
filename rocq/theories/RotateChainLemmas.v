(** Lemmas about the rotation of Gaussian Markov chains. *)
From Coq Require Import List Arith Lia Bool Reals Lra.
From Verif Require Import Base NumPy TensorLemmas Families FamiliesLemmas FamiliesLemmas2 Linalg MatBridge SpecLinalg LinalgLemmas Gaussian SpecGaussian GaussLemmas GaussAlg
  PGaussian PGaussian2 GaussGibbs Rotation PRotation BlockBanded GaussMarkov SpecGaussMarkov GaussMarkovLemmas PGaussMarkov RotateARD RotateChain SpecRotateChain.
Import ListNotations.
Open Scope R_scope.

(** ** Block matrices *)
Lemma block_row : forall D M A i f, (D <= M)%nat -> (i < M)%nat ->
  rsum M (fun k => block_diag D A i k * f k) = if (i <? D)%nat then rsum D (fun k => A i k * f k) else f i.
Proof.
  intros D M A i f HM Hi. unfold block_diag. destruct (Nat.ltb_spec i D) as [H|H].
  - replace M with (D + (M - D))%nat by lia. rewrite rsum_app.
    rewrite (rsum_ext (M - D) _ (fun _ => 0)), rsum_0, Rplus_0_r.
    + apply rsum_ext. intros k Hk. now rewrite (proj2 (Nat.ltb_lt k D) Hk).
    + intros k Hk. rewrite (proj2 (Nat.ltb_ge (D + k) D)) by lia. ring.
  - rewrite (rsum_ext M _ (fun k => if (k =? i)%nat then f k else 0)).
    + apply (rsum_single M i f Hi).
    + intros k Hk. destruct (Nat.eqb_spec k i) as [->|N].
      * rewrite (proj2 (Nat.ltb_ge i D)) by lia. rewrite Nat.eqb_refl. ring.
      * destruct (k <? D)%nat; [ring|]. rewrite (proj2 (Nat.eqb_neq i k)) by lia. ring.
Qed.
Lemma block_tr : forall D A i j, block_diag D (transpose A) i j = transpose (block_diag D A) i j.
Proof.
  intros D A i j. unfold transpose, block_diag. destruct (i <? D)%nat, (j <? D)%nat; try reflexivity. now rewrite Nat.eqb_sym.
Qed.
Lemma block_inverse : forall D M A V, (D <= M)%nat -> is_inverse D A V -> is_inverse M (block_diag D A) (block_diag D V).
Proof.
  assert (H : forall D M A V, (D <= M)%nat -> meq D (mmdot D A V) identity -> meq M (mmdot M (block_diag D A) (block_diag D V)) identity).
  { intros D M A V HM I i j Hi Hj. unfold mmdot. rewrite (block_row D M A i (fun k => block_diag D V k j) HM Hi).
    destruct (Nat.ltb_spec i D) as [H|H].
    - destruct (Nat.ltb_spec j D) as [J|J].
      + rewrite <- (I i j H J). apply rsum_ext. intros k Hk. unfold block_diag. now rewrite (proj2 (Nat.ltb_lt k D) Hk), (proj2 (Nat.ltb_lt j D) J).
      + rewrite (rsum_ext D _ (fun _ => 0)), rsum_0.
        * unfold identity. now rewrite (proj2 (Nat.eqb_neq i j)) by lia.
        * intros k Hk. unfold block_diag. rewrite (proj2 (Nat.ltb_lt k D) Hk), (proj2 (Nat.ltb_ge j D) J). ring.
    - unfold block_diag, identity. rewrite (proj2 (Nat.ltb_ge i D) H). destruct (Nat.ltb_spec j D) as [J|J]; [|reflexivity].
      now rewrite (proj2 (Nat.eqb_neq i j)) by lia. }
  intros D M A V HM [I1 I2]. split; now apply H.
Qed.

(** ** The dynamics *)
Lemma rotated_mean_eq : forall D M Rm inv a d j,
  mean_rotated D M Rm inv a d j = mvdot M (transpose (block_diag D inv)) (fun i => rsum D (fun k => Rm d k * fst (a k) i)) j.
Proof.
  intros. unfold mean_rotated, mvdot, transpose. rewrite (rsum_ext D _ (fun k => rsum M (fun i => block_diag D inv i j * (Rm d k * fst (a k) i)))).
  - rewrite rsum_swap. apply rsum_ext. intros i Hi. now rewrite rsum_scal.
  - intros k Hk. rewrite <- rsum_scal. apply rsum_ext. intros; ring.
Qed.
Lemma rotated_cov_eq : forall D M Rm inv a d i j,
  cov_rotated D M Rm inv a d i j =
  (rsum D (fun k => Rm k d)) ^ 2 * dot3 M (transpose (block_diag D inv)) (sub_m (snd (a d)) (outerv (fst (a d)) (fst (a d)))) (block_diag D inv) i j.
Proof.
  intros. unfold cov_rotated. f_equal. unfold dot3, mmdot, transpose, sub_m, outerv. rewrite rsum_swap. apply rsum_ext. intros l Hl.
  rewrite <- rsum_scal_r. apply rsum_ext. intros; ring.
Qed.
Lemma dot3_outer : forall M B x, meq M (dot3 M (transpose B) (outerv x x) B) (outerv (mvdot M (transpose B) x) (mvdot M (transpose B) x)).
Proof.
  intros M B x i j _ _. unfold dot3, mmdot, outerv, mvdot, transpose. rewrite <- rsum_scal. apply rsum_ext. intros k Hk.
  replace (rsum M (fun i0 => B i0 i * x i0) * (B k j * x k)) with (rsum M (fun i0 => B i0 i * x i0) * x k * B k j) by ring.
  f_equal. rewrite <- rsum_scal_r. apply rsum_ext. intros; ring.
Qed.
Lemma dot3_add : forall M A X Y B i j, dot3 M A (fun i j => X i j + Y i j) B i j = dot3 M A X B i j + dot3 M A Y B i j.
Proof.
  intros. unfold dot3, mmdot. rewrite <- rsum_plus. apply rsum_ext. intros k Hk. rewrite <- Rmult_plus_distr_r. f_equal.
  rewrite <- rsum_plus. apply rsum_ext. intros; ring.
Qed.
Lemma dot3_scal : forall M A X B c i j, dot3 M A (fun i j => c * X i j) B i j = c * dot3 M A X B i j.
Proof.
  intros. unfold dot3, mmdot. rewrite <- rsum_scal. apply rsum_ext. intros k Hk. rewrite <- Rmult_assoc. f_equal.
  rewrite <- rsum_scal. apply rsum_ext. intros; ring.
Qed.

Lemma scaled_inverse : forall n A V c, c <> 0 -> is_inverse n A V -> is_inverse n (fun i j => / c * A i j) (fun i j => c * V i j).
Proof.
  intros n A V c Hc [I1 I2]. split; intros i j Hi Hj; unfold mmdot.
  - rewrite <- (I1 i j Hi Hj). unfold mmdot. apply rsum_ext. intros; field; exact Hc.
  - rewrite <- (I2 i j Hi Hj). unfold mmdot. apply rsum_ext. intros; field; exact Hc.
Qed.
Lemma scaled_posdef : forall n A c, 0 < c -> posdef n A -> posdef n (fun i j => c * A i j).
Proof.
  intros n A c Hc [S P]. split.
  - intros i j Hi Hj. now rewrite (S i j Hi Hj).
  - intros x Hx. replace (bilinear n _ x x) with (c * bilinear n A x x); [apply Rmult_lt_0_compat; [exact Hc|now apply P]|].
    unfold bilinear. rewrite <- rsum_scal. apply rsum_ext. intros i Hi. rewrite <- rsum_scal. apply rsum_ext. intros; ring.
Qed.
Lemma dynamics_ok : forall D M Rm inv (u phi : nat -> vec * mat) d, (D <= M)%nat -> (d < D)%nat -> is_inverse D Rm inv ->
  (forall k, (k < D)%nat -> symmetric M (snd (phi k)) /\ exists g, ard_moments M (phi k) = Ok (u k, g)) ->
  rsum D (fun k => Rm k d) <> 0 ->
  exists x g, rotate_dynamics D M Rm inv u phi d = Ok (x, g) /\ row_rotated D M Rm inv u d x.
Proof.
  intros D M Rm inv u phi d HM Hd I OK HS.
  set (Bt := block_diag D (transpose inv)). set (Bi := block_diag D (transpose Rm)).
  assert (IB : is_inverse M Bt Bi) by (apply block_inverse; [exact HM|]; apply inverse_tr, inverse_sym, I).
  assert (ROW : forall k, (k < D)%nat ->
    let '(u', phi', _) := ard_rotate M Bt Bi 0 (u k) (phi k) 0 in
    symmetric M (snd phi') /\ (exists g, recomputed M (ard_moments M) phi' u' g) /\
    veq M (fst u') (mvdot M Bt (fst (u k))) /\ meq M (snd u') (dot3 M Bt (snd (u k)) (transpose Bt))).
  { intros k Hk. destruct (OK k Hk) as [Sy [g E]].
    assert (PO : plate_ok RotGaussianARD M (GState (u k) (phi k) g)).
    { split; [exact Sy|]. exists (u k). split; [exact E|]. split; [intros ? ?; reflexivity|intros ? ? ? ?; reflexivity]. }
    destruct (rotate_plate_ok RotGaussianARD M Bt Bi _ IB PO) as ([S1 R1] & V & W & _).
    cbn [rotate_plate ard_rotate g_u g_phi g_g fst snd moments_of] in *. unfold ard_rotate. cbn [fst snd]. split; [exact S1|]. split; [eexists; exact R1|]. split; assumption. }
  unfold rotate_dynamics, rotate_plates. fold Bt Bi. cbv zeta.
  destruct (Req_EM_T _ 0) as [Z|_]; [contradiction|].
  set (s := rsum D (fun k => Rm k d)) in *.
  pose proof (ROW d Hd) as RD. unfold ard_rotate in RD |- *. cbn [fst snd] in RD |- *.
  unfold plates_phi. cbv zeta. cbn [fst snd].
  set (u0 := fun l => rsum D _).
  set (P := rotate_covariance M (snd (phi d)) (transpose Bi)) in *.
  destruct RD as (SP & (g0 & u' & Eu & V & W) & V' & W'). cbn [fst snd] in *.
  destruct (C44_ard_moments M (rotate_mean M (fst (phi d)) (transpose Bi), P) SP) as [C1 _].
  destruct (C1 u' g0 Eu) as [PD (N1 & N2 & _ & _)]. cbn [fst snd] in *.
  assert (Ps : 0 < / (s * s)) by (apply Rinv_0_lt_compat; exact (Rsqr_pos_lt s HS)).
  assert (Ns : s * s <> 0) by (intro Z; apply Rmult_integral in Z; destruct Z; contradiction).
  set (P2 := scal_m (/ (s * s)) P).
  assert (SP2 : symmetric M P2) by (intros i j Hi Hj; unfold P2, scal_m; now rewrite (SP i j Hi Hj)).
  assert (PD2 : posdef M (scal_m (-2) P2)).
  { apply (posdef_ext M (fun i j => / (s * s) * scal_m (-2) P i j)); [intros i j _ _; unfold P2, scal_m; ring|]. now apply scaled_posdef. }
  destruct (C44_ard_moments M (scal_v (-2) (mvdot M P2 u0), P2) SP2) as [K1 K2].
  destruct (K2 PD2) as (x & g & E). exists x, g. split; [exact E|].
  destruct (K1 x g E) as [_ (X1 & X2 & _ & _)]. cbn [fst snd] in *.
  assert (EX : veq M (fst x) u0).
  { apply (solve_unique M _ _ _ _ X2). intros i Hi. rewrite (X1 i Hi). unfold scal_v, mvdot, scal_m. rewrite <- rsum_scal. apply rsum_ext. intros; ring. }
  assert (EC : meq M (sub_m (snd x) (outerv (fst x) (fst x))) (fun i j => s * s * sub_m (snd u') (outerv (fst u') (fst u')) i j)).
  { apply (inverse_meq M (scal_m (-2) P2) (fun i j => / (s * s) * scal_m (-2) P i j) _ _).
    - intros i j _ _. unfold P2, scal_m. ring.
    - exact X2.
    - now apply scaled_inverse. }
  assert (EU0 : veq M u0 (mean_rotated D M Rm inv u d)).
  { intros j Hj. unfold u0, mean_rotated. apply rsum_ext. intros k Hk. f_equal. unfold rotate_mean. apply rsum_ext. intros i Hi.
    unfold Bt. rewrite block_tr. unfold transpose. ring. }
  assert (MB : meq M Bt (transpose (block_diag D inv))) by (intros i j _ _; apply block_tr).
  split.
  - intros j Hj. rewrite (EX j Hj). now apply EU0.
  - intros i j Hi Hj. rewrite <- (EU0 i Hi), <- (EU0 j Hj), <- (EX i Hi), <- (EX j Hj).
    pose proof (EC i j Hi Hj) as Q. unfold sub_m at 1, outerv at 1 in Q.
    replace (snd x i j) with (s * s * sub_m (snd u') (outerv (fst u') (fst u')) i j + fst x i * fst x j) by lra. f_equal.
    rewrite rotated_cov_eq. fold s. replace (s ^ 2) with (s * s) by ring. f_equal.
    transitivity (dot3 M Bt (sub_m (snd (u d)) (outerv (fst (u d)) (fst (u d)))) (transpose Bt) i j).
    2:{ unfold dot3. apply mmdot_ext; [apply mmdot_ext; [exact MB|intros ? ? ? ?; reflexivity]| |exact Hi|exact Hj]. intros a b Ha Hb. unfold transpose at 1. rewrite (MB b a Hb Ha). reflexivity. }
    assert (O : dot3 M Bt (outerv (fst (u d)) (fst (u d))) (transpose Bt) i j = mvdot M Bt (fst (u d)) i * mvdot M Bt (fst (u d)) j).
    { exact (dot3_outer M (transpose Bt) (fst (u d)) i j Hi Hj). }
    unfold sub_m at 1, outerv at 1. rewrite (W i j Hi Hj), (W' i j Hi Hj), (V i Hi), (V j Hj), (V' i Hi), (V' j Hj), <- O.
    pose proof (dot3_add M Bt (sub_m (snd (u d)) (outerv (fst (u d)) (fst (u d)))) (outerv (fst (u d)) (fst (u d))) (transpose Bt) i j) as A.
    rewrite (dot3_ext M Bt (fun i0 j0 => sub_m (snd (u d)) (outerv (fst (u d)) (fst (u d))) i0 j0 + outerv (fst (u d)) (fst (u d)) i0 j0) (snd (u d)) (transpose Bt)) in A; try assumption.
    + lra.
    + intros a b _ _. unfold sub_m. ring.
Qed.
