(** Lemmas about the rotation of the plates of a GaussianARD node. *)
From Coq Require Import List Arith Lia Bool Reals Lra.
From Verif Require Import Base NumPy TensorLemmas Families FamiliesLemmas FamiliesLemmas2 Linalg MatBridge SpecLinalg LinalgLemmas Gaussian SpecGaussian GaussLemmas GaussAlg
  PGaussian PGaussian2 GaussGibbs GaussNodes Rotation PRotation BlockBanded GaussMarkov SpecGaussMarkov GaussMarkovLemmas PGaussMarkov RotateARD SpecRotateARD RotateChain SpecRotateChain RotateChainLemmas
  PlateRotate SpecPlateRotate.
Import ListNotations.
Open Scope R_scope.

(** ** The entropy *)
Lemma entropy_value : forall D phi u g, symmetric D (snd phi) -> normal_moments D phi u g ->
  g + (innerv D (fst phi) (fst u) + innerm D (snd phi) (snd u)) = ln (mdet D (scal_m (-2) (snd phi))) / 2 - INR D / 2.
Proof.
  intros D phi u g Sy (H1 & H2 & _ & ->). set (L := scal_m (-2) (snd phi)) in *. set (V := sub_m (snd u) (outerv (fst u) (fst u))) in *.
  rewrite <- (innerv_ext D (mvdot D L (fst u)) (fst phi) (fst u) (fst u) H1 (fun _ _ => eq_refl)), innerv_comm, <- bilinear_mv.
  rewrite (GaussLemmas.innerm_ext D (snd phi) (scal_m (-1/2) L) (snd u) (add_m V (outerv (fst u) (fst u)))).
  - rewrite innerm_scal_l, innerm_add_r, innerm_outer, (innerm_inverse D L V); [field| |exact H2]. now apply symmetric_scal.
  - intros i j _ _. unfold L, scal_m. field.
  - intros i j _ _. unfold V, add_m, sub_m. ring.
Qed.
Lemma ln_pow_abs : forall s k, s <> 0 -> ln ((/ (s * s)) ^ k) = - 2 * INR k * ln (Rabs s).
Proof.
  intros s k Hs. assert (A : 0 < Rabs s) by now apply Rabs_pos_lt.
  assert (E : s * s = Rabs s * Rabs s) by (rewrite <- Rabs_mult; symmetry; apply Rabs_right, Rle_ge, Rle_0_sqr). rewrite E.
  assert (AA : 0 < Rabs s * Rabs s) by now apply Rmult_lt_0_compat.
  induction k as [|k IH]; [cbn [pow INR]; rewrite ln_1; ring|]. rewrite <- tech_pow_Rmult, ln_mult; [|now apply Rinv_0_lt_compat|apply pow_lt; now apply Rinv_0_lt_compat].
  rewrite IH, ln_Rinv, ln_mult by assumption. rewrite S_INR. ring.
Qed.

(** ** A plate after the rotation *)
Lemma plate_rotated_ok : forall m B Bi Q p, is_inverse (pn_M (pm_nodes m)) B Bi ->
  (forall k, (k < pn_P (pm_nodes m))%nat -> symmetric (pn_M (pm_nodes m)) (snd (pm_phi m k)) /\
     ard_moments (pn_M (pm_nodes m)) (pm_phi m k) = Ok (pn_u (pm_nodes m) k, pm_g m k)) ->
  (p < pn_P (pm_nodes m))%nat -> sumQ (pm_nodes m) Q p <> 0 ->
  exists u phi g, plate_rotated m B Bi Q (ln (Rabs (mdet (pn_M (pm_nodes m)) B))) p = Ok (u, phi, g) /\
    veq (pn_M (pm_nodes m)) (fst u) (fun l => rsum (pn_P (pm_nodes m)) (fun k => Q p k * mvdot (pn_M (pm_nodes m)) B (fst (pn_u (pm_nodes m) k)) l)) /\
    meq (pn_M (pm_nodes m)) (sub_m (snd u) (outerv (fst u) (fst u)))
      (fun i j => sumQ (pm_nodes m) Q p ^ 2 * dot3 (pn_M (pm_nodes m)) B (pl_CovX (pm_nodes m) p) (transpose B) i j) /\
    g + (innerv (pn_M (pm_nodes m)) (fst phi) (fst u) + innerm (pn_M (pm_nodes m)) (snd phi) (snd u))
    = ln (mdet (pn_M (pm_nodes m)) (scal_m (-2) (snd (pm_phi m p)))) / 2 - INR (pn_M (pm_nodes m)) / 2
      - ln (Rabs (mdet (pn_M (pm_nodes m)) B)) - INR (pn_M (pm_nodes m)) * ln (Rabs (sumQ (pm_nodes m) Q p)).
Proof.
  intros m B Bi Q p. set (n := pm_nodes m). set (P := pn_P n). set (M := pn_M n). set (ldet := ln (Rabs (mdet M B))). intros I OK Hp HS.
  set (row := fun k => ard_rotate M B Bi ldet (pn_u n k) (pm_phi m k) (pm_g m k)).
  assert (ROW : forall k, (k < P)%nat ->
    symmetric M (snd (snd (fst (row k)))) /\ recomputed M (ard_moments M) (snd (fst (row k))) (fst (fst (row k))) (snd (row k)) /\
    veq M (fst (fst (fst (row k)))) (mvdot M B (fst (pn_u n k))) /\ meq M (snd (fst (fst (row k)))) (dot3 M B (snd (pn_u n k)) (transpose B))).
  { intros k Hk. destruct (OK k Hk) as [Sy E].
    assert (PO : plate_ok RotGaussianARD M (GState (pn_u n k) (pm_phi m k) (pm_g m k))).
    { split; [exact Sy|]. exists (pn_u n k). split; [exact E|]. split; [intros ? ?; reflexivity|intros ? ? ? ?; reflexivity]. }
    destruct (rotate_plate_ok RotGaussianARD M B Bi _ I PO) as ([S1 R1] & V & W & _).
    cbn [rotate_plate ard_rotate g_u g_phi g_g fst snd moments_of] in *. unfold row, ard_rotate. cbn [fst snd]. split; [exact S1|]. split; [exact R1|]. split; assumption. }
  set (U := fun k => fst (fst (row k))) in *. set (PH := fun k => snd (fst (row k))) in *.
  assert (ER : plate_rotated m B Bi Q ldet p = bind (rotate_plates P M Q U PH p) (fun ug => let '(u', g') := ug in Ok (u', plates_phi P M Q U PH p, g'))) by reflexivity.
  rewrite ER. clear ER.
  unfold rotate_plates. cbv zeta. change (rsum P (fun k => Q k p)) with (sumQ n Q p). destruct (Req_EM_T _ 0) as [Z|_]; [contradiction|].
  set (s := sumQ n Q p) in *.
  destruct (ROW p Hp) as (SP & (u' & Eu & V & W) & V' & W'). change (snd (fst (row p))) with (PH p) in *. change (fst (fst (row p))) with (U p) in *.
  destruct (C44_ard_moments M (PH p) SP) as [C1 _]. destruct (C1 u' _ Eu) as [PD (N1 & N2 & N3 & _)].
  assert (Ps : 0 < / (s * s)) by (apply Rinv_0_lt_compat; exact (Rsqr_pos_lt s HS)).
  assert (Ns : s * s <> 0) by (intro Z; apply Rmult_integral in Z; destruct Z; contradiction).
  set (P2 := scal_m (/ (s * s)) (snd (PH p))).
  set (u0 := fun l => rsum P (fun k => Q p k * fst (U k) l)).
  assert (EP : plates_phi P M Q U PH p = (scal_v (-2) (mvdot M P2 u0), P2)) by reflexivity. rewrite EP. clear EP.
  assert (SP2 : symmetric M P2) by (intros i j Hi Hj; unfold P2, scal_m; now rewrite (SP i j Hi Hj)).
  assert (PD2 : posdef M (scal_m (-2) P2)).
  { apply (posdef_ext M (fun i j => / (s * s) * scal_m (-2) (snd (PH p)) i j)); [intros i j _ _; unfold P2, scal_m; ring|]. now apply scaled_posdef. }
  destruct (C44_ard_moments M (scal_v (-2) (mvdot M P2 u0), P2) SP2) as [K1 K2].
  destruct (K2 PD2) as (x & g & E). rewrite E. cbn [bind].
  destruct (K1 x g E) as [_ NX]. pose proof NX as (X1 & X2 & _ & _). cbn [fst snd] in X1, X2.
  assert (EX : veq M (fst x) u0).
  { apply (solve_unique M _ _ _ _ X2). intros i Hi. rewrite (X1 i Hi). unfold scal_v, mvdot, scal_m. rewrite <- rsum_scal. apply rsum_ext. intros; ring. }
  exists x, (scal_v (-2) (mvdot M P2 u0), P2), g. split; [reflexivity|]. split; [|split].
  - intros l Hl. rewrite (EX l Hl). unfold u0. apply rsum_ext. intros k Hk. reflexivity.
  - intros i j Hi Hj.
    assert (EC : meq M (sub_m (snd x) (outerv (fst x) (fst x))) (fun i j => s * s * sub_m (snd u') (outerv (fst u') (fst u')) i j)).
    { apply (inverse_meq M (scal_m (-2) P2) (fun i j => / (s * s) * scal_m (-2) (snd (PH p)) i j) _ _).
      - intros a b _ _. unfold P2, scal_m. ring.
      - exact X2.
      - now apply scaled_inverse. }
    rewrite (EC i j Hi Hj). cbv beta. replace (s ^ 2) with (s * s) by ring. f_equal.
    assert (O : dot3 M B (outerv (fst (pn_u n p)) (fst (pn_u n p))) (transpose B) i j = mvdot M B (fst (pn_u n p)) i * mvdot M B (fst (pn_u n p)) j).
    { exact (RotateChainLemmas.dot3_outer M (transpose B) (fst (pn_u n p)) i j Hi Hj). }
    unfold sub_m at 1, outerv at 1. rewrite (W i j Hi Hj), (W' i j Hi Hj), (V i Hi), (V j Hj), (V' i Hi), (V' j Hj), <- O.
    pose proof (dot3_add M B (pl_CovX n p) (outerv (fst (pn_u n p)) (fst (pn_u n p))) (transpose B) i j) as A.
    rewrite (dot3_ext M B (fun i0 j0 => pl_CovX n p i0 j0 + outerv (fst (pn_u n p)) (fst (pn_u n p)) i0 j0) (snd (pn_u n p)) (transpose B)) in A; try assumption.
    + lra.
    + intros a b _ _. unfold pl_CovX, sub_m. ring.
  - rewrite (entropy_value M (scal_v (-2) (mvdot M P2 u0), P2) x g SP2 NX). cbn [fst snd].
    destruct (OK p Hp) as [Sy E0]. destruct (C44_ard_moments M (pm_phi m p) Sy) as [C2 _]. destruct (C2 _ _ E0) as [_ (_ & _ & D0 & _)].
    destruct (rotate_logdet M (scal_m (-2) (snd (pm_phi m p))) B Bi I D0) as (_ & D1 & D2).
    assert (ED : meq M (scal_m (-2) (snd (PH p))) (dot3 M (transpose Bi) (scal_m (-2) (snd (pm_phi m p))) Bi)).
    { intros i j Hi Hj. unfold scal_m at 1. unfold PH, row, ard_rotate. cbn [fst snd]. rewrite (rotate_covariance_dot3 M (snd (pm_phi m p)) (transpose Bi) i j Hi Hj).
      unfold scal_m. change (transpose (transpose Bi)) with Bi. now rewrite dot3_scal. }
    rewrite (mdet_ext (A := scal_m (-2) P2) (B := scal_m (/ (s * s)) (scal_m (-2) (snd (PH p))))) by (intros i j _ _; unfold P2, scal_m; ring).
    rewrite mdet_scal, (mdet_ext ED), ln_mult; [|now apply pow_lt|exact D1]. rewrite D2, ln_pow_abs by exact HS. fold ldet. field.
Qed.
