(** Lemmas for C25: the Gaussian-type distributions one by one. *)
From Coq Require Import List Arith ZArith Lia Bool Reals Lra FunctionalExtensionality.
From Verif Require Import Base Shapes SpecShapes ShapesLemmas NumPy MiscArray TensorLemmas
  EinsumLemmas SumMultiplyLemmas SpecArray PlateSumLemmas PlateSum2Lemmas MessageLemmas
  ShapeOpsLemmas DiagLemmas ExpFam SpecExpFam ExpFamLemmas ExpFamBound ExpFamGrad PExpFam SpecUpdate
  UpdateLemmas PUpdate Families SpecFamilies FamiliesLemmas FamiliesLemmas2 PFamilies2 FamilyDist SpecFamilyDist PFamilyDist Network SpecNetwork NetworkLemmas NetworkLemmas2
  PNetwork FamilyNet SpecFamilyNet PFamilyNet Dot SpecDot DetNet SpecDetNet DetNetLemmas DetNetLemmas2
  Linalg MatBridge SpecLinalg LinalgLemmas Gaussian SpecGaussian GaussLemmas GaussAlg PGaussian PGaussian2 GaussGibbs GaussianDist PGaussianDist
  GaussNet SpecGaussNet PlateDet GaussTypes GaussNodes GaussNodes2.
Import ListNotations.
Open Scope R_scope.

Ltac list4 x := destruct x as [|?p [|?q [|?r [|?t [|? ?]]]]]; try discriminate.
Ltac lists := repeat match goal with
  | X : length ?y = S (S (S (S O))) |- _ => is_var y; list4 y; clear X
  | X : length ?y = S (S O) |- _ => is_var y; list2 y; clear X
  | X : length ?y = S O |- _ => is_var y; list1 y; clear X
  end.
Ltac break H := unfold moments_of in H; cbn [e_pdims ard0_efam ard_efam gaussian_efam gaussian_gamma_efam wishart_efam
    poisson_efam binomial_efam multinomial_efam gamma_efam dirichlet_efam] in H;
  repeat match goal with
  | X : Forall2 _ (_ :: _) _ |- _ => inv X
  | X : Forall2 _ [] _ |- _ => inv X
  end; cbn [length] in *; lists.

Lemma as_of_mat : forall A, as_mat (of_mat A) = A.
Proof. reflexivity. Qed.
(** ** Conjugacy *)
Lemma ard0_conjugate : conjugate ard0_efam.
Proof.
  split; [|split].
  - intros ups. cbn. destruct ups as [|[|a [|b [|c [|d [|]]]]] [|]]; reflexivity.
  - intros k x ups Hk. cbn in Hk. assert (k = 0%nat) by lia. subst k. cbn. destruct x as [|x0 [|x1 [|]]]; reflexivity.
  - intros k x ups ups' Hk H H' L _. cbn in Hk. assert (k = 0%nat) by lia. subst k. break H. break H'. list2 x.
    cbn [e_cgf e_phi e_message e_fam e_pdims fam_dims ard0_efam ard0_family nth fdot]. rewrite !total_0d. ring.
Qed.
Lemma ard_conjugate : forall D, conjugate (ard_efam D).
Proof.
  intros D. split; [|split].
  - intros ups. cbn. destruct ups as [|[|a [|b [|c [|d [|]]]]] [|]]; reflexivity.
  - intros k x ups Hk. cbn in Hk. assert (k = 0%nat) by lia. subst k. cbn. destruct x as [|x0 [|x1 [|]]]; reflexivity.
  - intros k x ups ups' Hk H H' L _. cbn in Hk. assert (k = 0%nat) by lia. subst k. break H. break H'. list2 x.
    destruct (C20_gaussian_ard D (as_vec p1, as_mat q1) 0) as [rest E].
    pose proof (E (as_vec p0) (as_vec q0) (as_vec r0) (as_vec t0)) as E1. pose proof (E (as_vec p) (as_vec q) (as_vec r) (as_vec t)) as E2.
    cbn [ard_message ard_phi fst snd] in E1, E2.
    cbn [e_cgf e_phi e_message e_fam e_pdims fam_dims ard_efam ard_family nth fdot ard_message]. cbv zeta. cbn [ard_phi fst snd fdot].
    rewrite !innerv_1d, !total_2d_inner, !as_of_vec, !as_of_mat. lra.
Qed.
Lemma gaussian_conjugate : forall D, conjugate (gaussian_efam D).
Proof.
  intros D. split; [|split].
  - intros ups. cbn. destruct ups as [|[|a [|b [|c [|d [|]]]]] [|]]; reflexivity.
  - intros k x ups Hk. cbn in Hk. assert (k = 0%nat) by lia. subst k. cbn. destruct x as [|x0 [|x1 [|]]]; reflexivity.
  - intros k x ups ups' Hk H H' L _. cbn in Hk. assert (k = 0%nat) by lia. subst k. break H. break H'. list2 x.
    destruct (C20_gaussian D (as_vec p1, as_mat q1) 0) as [rest E].
    pose proof (E (as_vec p0) (q0 env0) (as_mat r0) (t0 env0)) as E1. pose proof (E (as_vec p) (q env0) (as_mat r) (t env0)) as E2.
    cbn [gaussian_message gaussian_phi fst snd] in E1, E2.
    cbn [e_cgf e_phi e_message e_fam e_pdims fam_dims gaussian_efam gaussian_family nth fdot gaussian_message]. cbv zeta. cbn [gaussian_phi fst snd fdot].
    rewrite !innerv_1d, !total_2d_inner, !total_0d, !as_of_vec, !as_of_mat. lra.
Qed.
Lemma gaussian_gamma_conjugate : forall lg psi D, conjugate (gaussian_gamma_efam lg psi D).
Proof.
  intros lg psi D. split; [|split].
  - intros ups. cbn. destruct ups as [|[|a [|b [|c [|d [|]]]]] [|[|e [|f [|]]] [|[|g [|h [|]]] [|]]]]; reflexivity.
  - intros k x ups Hk. cbn in Hk. assert (k = 0%nat \/ k = 1%nat \/ k = 2%nat) as [->|[->| ->]] by lia; cbn; destruct x as [|x0 [|x1 [|x2 [|x3 [|]]]]]; try reflexivity;
      destruct ups as [|a [|[|e [|f [|]]] [|[|g [|h [|]]] [|]]]]; reflexivity.
  - intros k x ups ups' Hk H H' L E. cbn in Hk. break H. break H'. list4 x.
    assert (k = 0%nat \/ k = 1%nat \/ k = 2%nat) as [->|[->| ->]] by lia; cbn in E; injection E as; subst;
    cbn [e_cgf e_phi e_message e_fam e_pdims fam_dims gaussian_gamma_efam gaussian_gamma_family nth]; cbn [exclude length seq combine map fst snd Nat.eqb nth];
    cbn [gg_phi gg_message_muLambda gg_message_a gg_message_b fst snd] in *; cbn [fdot]; rewrite ?innerv_1d, ?total_2d_inner, ?total_0d, ?as_of_vec, ?as_of_mat.
    all: rewrite ?innerm_scal_l, ?(innerv_comm D (as_vec p5)), ?(innerm_comm D (as_mat q5)); unfold gg_cgf; cbn [fst snd]; ring.
Qed.
Lemma wishart_conjugate : forall lg psi D, conjugate (wishart_efam lg psi D).
Proof.
  intros lg psi D. split; [|split].
  - intros ups. cbn. destruct ups as [|[|a [|b [|]]] [|[|e [|f [|]]] [|]]]; reflexivity.
  - intros k x ups Hk. cbn in Hk. assert (k = 0%nat \/ k = 1%nat) as [->| ->] by lia; cbn; destruct x as [|x0 [|x1 [|]]]; try reflexivity;
      destruct ups as [|[|a [|b [|]]] [|[|e [|f [|]]] [|]]]; reflexivity.
  - intros k x ups ups' Hk H H' L E. cbn in Hk. break H. break H'. list2 x.
    assert (k = 0%nat \/ k = 1%nat) as [->| ->] by lia; cbn in E; injection E as; subst;
    cbn [e_cgf e_phi e_message e_fam e_pdims fam_dims wishart_efam wishart_family nth]; cbn [exclude length seq combine map fst snd Nat.eqb nth];
    cbn [wishart_phi wishart_message_V fst snd] in *; cbn [fdot]; rewrite ?innerv_1d, ?total_2d_inner, ?total_0d, ?as_of_vec, ?as_of_mat.
    all: rewrite ?innerm_scal_l; unfold wishart_cgf; cbn [fst snd]; try ring.
    rewrite !(innerm_comm D (as_mat p3)). ring.
Qed.

(** ** Types *)
Ltac gibbs_from H := let phi := fresh "phi" in let phi' := fresh "phi'" in
  intros phi phi' u g u' g' L L' P P' E E'; cbn in L, L'; apply (H phi phi' u g u' g'); try assumption.

(** Gaussian messages from a second moment. *)
Lemma neg_second : forall s (x : list (env -> R)) f, mt_mom (MGaussian s) x -> 0 <= quad s (coef x 1) f.
Proof.
  intros s x f M. destruct (gaussian_unit s x M) as (l & P & T & E0 & E1). rewrite (second_quad s x l E1).
  rewrite <- (avg_const l 0 P) at 1. apply avg_le; [exact P|]. intros o Ho. rewrite (T o Ho), Rmult_1_l. apply Rle_0_sqr.
Qed.

Lemma avg_diff {A} : forall (l : list (R * A)) (w F : A -> R) r, probs l -> (forall o, In o l -> 0 <= w (snd o)) ->
  0 <= avg l (fun o => w o * (F o * F o)) - 2 * r * avg l (fun o => w o * F o) + r * r * avg l w.
Proof.
  intros l w F r P H. replace (avg l (fun o => w o * (F o * F o)) - 2 * r * avg l (fun o => w o * F o) + r * r * avg l w)
    with (avg l (fun o => w o * ((F o - r) * (F o - r)))).
  - rewrite <- (avg_const l 0 P) at 1. apply avg_le; [exact P|]. intros o Ho. apply Rmult_le_pos; [now apply H|apply Rle_0_sqr].
  - clear P H. unfold avg, lsum. induction l as [|o l IH]; cbn; [ring|]. cbn in IH. rewrite IH. ring.
Qed.

Lemma ard0_typed : fam_typed ard0_efam (MGaussian []) [MGaussianGamma []].
Proof.
  constructor.
  - reflexivity.
  - reflexivity.
  - apply conj_on. exact (ard0_conjugate).
  - intros [|k] ty x ups Hk MO FM L X; [|destruct k; discriminate]. injection Hk as <-. break MO. list2 x.
    cbn [e_message ard0_efam mt_msg]. split; [apply msym_scalar|]. split; [unfold coef; cbn; lra|]. intros f.
    rewrite total_0d, quad_scalar. unfold coef. cbn [nth].
    destruct X as (l & P & E0 & E1). specialize (E0 env0 valid_env0). specialize (E1 env0 env0 valid_env0 valid_env0). unfold coef in E0, E1. cbn in E0, E1.
    rewrite join_0 in E1. rewrite E0, E1.
    pose proof (avg_diff l (fun _ => 1) (fun f0 : env -> R => f0 env0) (f env0) P ltac:(intros; lra)) as AD.
    rewrite (avg_const l 1 P), (avg_ext l (fun o => 1 * o env0) (fun o => o env0)), (avg_ext l (fun o => 1 * (o env0 * o env0)) (fun o => o env0 * o env0)) in AD by (intros; ring).
    lra.
  - intros ups MO FM. break MO. cbn [e_phi ard0_efam mt_par]. split; [apply msym_scalar|]. intros f [v [Hv Nf]].
    rewrite (valid_0d v Hv) in Nf. rewrite quad_scalar. unfold coef. cbn [nth].
    assert (X : mt_mom (MGaussianGamma []) [p; q; r; t]) by assumption. destruct X as (l & P & Pt & E0 & E1 & E2).
    unfold coef in E2. cbn in E2. pose proof (avg_pos l (fun o => fst o) P Pt) as Pa. rewrite <- E2 in Pa.
    assert (0 < f env0 * f env0) by (now apply Rlt_0_sqr).
    assert (0 < 0.5 * r env0 * (f env0 * f env0)) by (apply Rmult_lt_0_compat; lra). lra.
  - intros phi L [_ N]. list2 phi. cbn [e_fam ard0_efam fam_moments ard0_family].
    assert (Q : q env0 < 0).
    { specialize (N (fun _ => 1)). rewrite quad_scalar in N. unfold coef in N. cbn [nth] in N.
      assert (nonzero_on [] (fun _ => 1)) by (exists env0; split; [apply valid_env0|lra]). specialize (N H). lra. }
    destruct (proj2 (C44_ard_scalar_moments (p env0) (q env0)) Q) as (m & v & E & Pv & _). rewrite E. cbn [bind fst snd].
    eexists. eexists. split; [reflexivity|]. split; [reflexivity|]. cbn [mt_mom].
    pose proof (sqrt_sqrt v (Rlt_le _ _ Pv)) as SQ.
    exists [(/ 2, fun _ => m + sqrt v); (/ 2, fun _ => m - sqrt v)]. split.
    { split; [repeat constructor; cbn; lra|cbn; unfold lsum; cbn; lra]. }
    split; intros; unfold avg, lsum, coef; cbn; [field|]. field_simplify. rewrite <- (Rsqr_pow2 (sqrt v)). unfold Rsqr. rewrite SQ. field.
  - destruct ard0_fam_kl as [G _]. gibbs_from G; exact I.
Qed.
