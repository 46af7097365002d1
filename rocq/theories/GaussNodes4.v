(** Lemmas for C25: the vector distributions. *)
From Coq Require Import List Arith ZArith Lia Bool Reals Lra FunctionalExtensionality.
From Verif Require Import Base Shapes SpecShapes ShapesLemmas NumPy MiscArray TensorLemmas
  EinsumLemmas SumMultiplyLemmas SpecArray PlateSumLemmas PlateSum2Lemmas MessageLemmas
  ShapeOpsLemmas DiagLemmas ExpFam SpecExpFam ExpFamLemmas ExpFamBound ExpFamGrad PExpFam SpecUpdate
  UpdateLemmas PUpdate Families SpecFamilies FamiliesLemmas FamiliesLemmas2 PFamilies2 FamilyDist SpecFamilyDist PFamilyDist Network SpecNetwork NetworkLemmas NetworkLemmas2
  PNetwork MarkovLemmas FamilyNet SpecFamilyNet PFamilyNet Dot SpecDot DetNet SpecDetNet DetNetLemmas DetNetLemmas2
  Linalg MatBridge SpecLinalg LinalgLemmas Gaussian SpecGaussian GaussLemmas GaussAlg PGaussian PGaussian2 GaussGibbs GaussianDist PGaussianDist
  GaussNet SpecGaussNet PlateDet GaussTypes GaussNodes GaussNodes2 GaussNodes3.
Import ListNotations.
Open Scope R_scope.

Lemma coef_nth : forall (u : list (env -> R)) c, coef u c = nth c u (fun _ => 0).
Proof. reflexivity. Qed.

Lemma gw_neg : forall D (u : list (env -> R)) l, probs l -> (forall o, In o l -> 0 <= fst (snd o)) ->
  (forall v, valid [D] v -> coef u 0 v = avg l (fun o => fst o * snd o v)) ->
  (forall v w, valid [D] v -> valid [D] w -> coef u 1 (join 1 v w) = avg l (fun o => fst o * (snd o v * snd o w))) ->
  forall y r, 0 <= bilinear D (as_mat (coef u 1)) y y - 2 * r * innerv D (as_vec (coef u 0)) y + r * r * avg l (fun o => fst o).
Proof.
  intros D u l P Pt E0 E1 y r.
  pose proof (avg_diff l (fun o : R * (env -> R) => fst o) (fun o => total [D] (fun v => snd o v * of_vec y v)) r P Pt) as A.
  cbv beta in A. rewrite <- (second_quad [D] u l E1 (of_vec y)), <- (mean_lin [D] u l E0 (of_vec y)), quad_vec, as_of_vec, innerv_1d, as_of_vec in A. exact A.
Qed.
Lemma unit_avg : forall l : list (R * (R * (env -> R))), probs l -> (forall o, In o l -> fst (snd o) = 1) -> avg l (fun o => fst o) = 1.
Proof. intros l P H. rewrite (avg_ext l _ (fun _ => 1)); [now apply avg_const|exact H]. Qed.

Lemma normal_typed : forall D (phi u : vec * mat) g, posdef D (scal_m (-2) (snd phi)) -> normal_moments D phi u g ->
  mt_mom (MGaussian [D]) [of_vec (fst u); of_mat (snd u)].
Proof.
  intros D phi u g PD (_ & I & _). pose proof (posdef_inverse D _ _ PD I) as PV.
  destruct (realisable D 1 (fst u) _ Rlt_0_1 PV) as (l & P & T & E0 & E1).
  exists (map (fun o => (fst o, snd (snd o))) l). split; [|split].
  - destruct P as [P1 P2]. split; [apply Forall_map; exact P1|]. rewrite map_map. exact P2.
  - intros v Hv. unfold avg. rewrite map_map. cbn [fst snd]. fold (avg l (fun o => snd o v)).
    rewrite (avg_ext l (fun o => snd o v) (fun o => fst o * snd o v)) by (intros o Ho; rewrite (T o Ho); ring).
    rewrite (E0 v Hv). unfold coef. cbn. unfold of_vec. ring.
  - intros v w Hv Hw. unfold avg. rewrite map_map. cbn [fst snd]. fold (avg l (fun o => snd o v * snd o w)).
    rewrite (avg_ext l (fun o => snd o v * snd o w) (fun o => fst o * (snd o v * snd o w))) by (intros o Ho; rewrite (T o Ho); ring).
    rewrite (E1 v w Hv Hw). unfold coef. cbn [nth length]. unfold of_mat, sub_m, outerv. 
    destruct (vec_index D v Hv) as [-> _]. destruct (vec_index D w Hw) as [-> _]. rewrite join_vec. cbn. ring.
Qed.

Lemma ard_typed : forall D, fam_typed (ard_efam D) (MGaussian [D]) [MElements D].
Proof.
  intros D. constructor.
  - reflexivity.
  - reflexivity.
  - apply conj_on. exact (ard_conjugate D).
  - intros [|k] ty x ups Hk MO FM L X; [|destruct k; discriminate]. injection Hk as <-. break MO. list2 x.
    cbn [e_message ard_efam mt_msg ard_message fst snd]. intros v Hv. unfold coef. cbn [nth]. unfold of_vec, get_diag. split; [lra|]. intros y.
    destruct X as (l & P & E0 & E1). specialize (E0 v Hv). specialize (E1 v v Hv Hv). unfold coef in E0, E1. cbn in E0, E1.
    destruct (vec_index D v Hv) as [Ev _]. unfold as_vec, as_mat. rewrite <- Ev. rewrite Ev in E1 at 1. rewrite Ev in E1 at 2. rewrite join_vec in E1. rewrite E0, E1.
    pose proof (avg_diff l (fun _ => 1) (fun f0 : env -> R => f0 v) y P ltac:(intros; lra)) as AD.
    rewrite (avg_const l 1 P), (avg_ext l (fun o => 1 * o v) (fun o => o v)), (avg_ext l (fun o => 1 * (o v * o v)) (fun o => o v * o v)) in AD by (intros; ring).
    lra.
  - intros ups MO FM. break MO. cbn [e_phi ard_efam mt_par ard_phi fst snd]. apply negdef_vec. unfold coef. cbn [nth]. rewrite as_of_mat.
    assert (X : mt_mom (MElements D) [p; q; r; t]) by assumption. cbn [mt_mom] in X. rewrite ?coef_nth in X. cbn [nth] in X.
    split.
    + intros i j Hi Hj. unfold scal_m, diag. rewrite (Nat.eqb_sym j i). destruct (Nat.eqb_spec i j) as [->|]; reflexivity.
    + intros x (i & Hi & Nx). rewrite bilinear_scal.
      assert (E : bilinear D (diag (fun i0 => 1 * (-0.5 * as_vec r i0))) x x = rsum D (fun i0 => (-0.5 * as_vec r i0) * (x i0 * x i0))).
      { unfold bilinear. apply rsum_ext. intros a Ha.
        rewrite (rsum_ext D _ (fun b => if (b =? a)%nat then (-0.5 * as_vec r a) * (x a * x a) else 0)).
        - now apply (rsum_single D a (fun _ => (-0.5 * as_vec r a) * (x a * x a))).
        - intros b Hb. unfold diag. rewrite (Nat.eqb_sym a b). destruct (Nat.eqb_spec b a) as [->|]; ring. }
      rewrite E, <- rsum_scal. apply Rnot_le_lt. intros C.
      assert (G : forall a, (a < D)%nat -> 0 < as_vec r a) by (intros a Ha; apply (X (upd env0 0 a)); now apply valid_vec).
      pose proof (rsum_nonneg_zero D (fun i0 => -2 * (-0.5 * as_vec r i0 * (x i0 * x i0)))) as RZ.
      specialize (RZ ltac:(intros a Ha; cbv beta; specialize (G a Ha); pose proof (Rle_0_sqr (x a)) as SQ; unfold Rsqr in SQ;
        pose proof (Rmult_le_pos _ _ (Rlt_le _ _ G) SQ); lra) C i Hi) as Z. cbv beta in Z.
      specialize (G i Hi). pose proof (Rlt_0_sqr (x i) Nx) as SQ. unfold Rsqr in SQ. pose proof (Rmult_lt_0_compat _ _ G SQ). lra.
  - intros phi L Pp. list2 phi. cbn [mt_par] in Pp. apply negdef_vec in Pp. rewrite ?coef_nth in Pp. cbn [nth] in Pp.
    assert (Sy : symmetric D (as_mat q)). { intros i j Hi Hj. pose proof (proj1 Pp i j Hi Hj) as E. unfold scal_m in E. lra. }
    destruct (C44_ard_moments D (as_vec p, as_mat q) Sy) as [M1 M2]. destruct (M2 Pp) as (u & g & E).
    cbn [e_fam ard_efam fam_moments ard_family]. rewrite E. cbn [bind fst snd]. eexists. eexists. split; [reflexivity|]. split; [reflexivity|].
    destruct (M1 u g E) as [_ NM]. exact (normal_typed D (as_vec p, as_mat q) u g Pp NM).
  - destruct (ard_fam_kl D) as [G _]. gibbs_from G; list2 phi; list2 phi'; cbn [mt_par symmetric_phi] in *; unfold coef in *; cbn [nth] in *; now apply msym_vec.
Qed.

Lemma gaussian_typed : forall D, fam_typed (gaussian_efam D) (MGaussian [D]) [MGaussianWishart D].
Proof.
  intros D. constructor.
  - reflexivity.
  - reflexivity.
  - apply conj_on. exact (gaussian_conjugate D).
  - intros [|k] ty x ups Hk MO FM L X; [|destruct k; discriminate]. injection Hk as <-. break MO. list2 x.
    cbn [e_message gaussian_efam mt_msg gaussian_message fst snd]. setoid_rewrite coef_nth. unfold coef. cbn [nth]. rewrite as_of_mat, as_of_vec.
    destruct (gaussian_unit [D] _ X) as (l & P & T & E0 & E1).
    split; [|split; [lra|]].
    + apply symmetric_scal. pose proof (proj1 (msym_vec D _) (second_sym [D] _ l E1)) as S. exact S.
    + intros y s. pose proof (gw_neg D _ l P ltac:(intros o Ho; rewrite (T o Ho); lra) E0 E1 y s) as G.
      rewrite (unit_avg l P T) in G. rewrite ?coef_nth in G. cbn [nth] in G. rewrite bilinear_scal. lra.
  - intros ups MO FM. break MO. cbn [e_phi gaussian_efam mt_par gaussian_phi fst snd]. apply negdef_vec. unfold coef. cbn [nth]. rewrite as_of_mat.
    assert (X : mt_mom (MGaussianWishart D) [p; q; r; t]) by assumption. destruct X as [[Sy PD] _]. rewrite ?coef_nth in Sy. setoid_rewrite coef_nth in PD. cbn [nth] in Sy, PD.
    split; [now apply symmetric_scal, symmetric_scal|]. intros x Nx. rewrite !bilinear_scal. specialize (PD x Nx). lra.
  - intros phi L Pp. list2 phi. cbn [mt_par] in Pp. apply negdef_vec in Pp. rewrite ?coef_nth in Pp. cbn [nth] in Pp.
    assert (Sy : symmetric D (as_mat q)). { intros i j Hi Hj. pose proof (proj1 Pp i j Hi Hj) as E. unfold scal_m in E. lra. }
    destruct (C44_gaussian_moments D (as_vec p, as_mat q) Sy) as [_ M2]. destruct (M2 Pp) as (u & g & E & NM & _).
    cbn [e_fam gaussian_efam fam_moments gaussian_family]. rewrite E. cbn [bind fst snd]. eexists. eexists. split; [reflexivity|]. split; [reflexivity|].
    exact (normal_typed D (as_vec p, as_mat q) u g Pp NM).
  - destruct (gaussian_fam_kl D) as [G _]. gibbs_from G; list2 phi; list2 phi'; cbn [mt_par symmetric_phi] in *; unfold coef in *; cbn [nth] in *; now apply msym_vec.
Qed.

Lemma gaussian_gamma_typed : forall lg psi D, gamma_convex lg psi ->
  fam_typed (gaussian_gamma_efam lg psi D) (MGaussianGamma [D]) [MGaussianWishart D; MShape; MGamma].
Proof.
  intros lg psi D HG. constructor.
  - reflexivity.
  - reflexivity.
  - apply conj_on. exact (gaussian_gamma_conjugate lg psi D).
  - intros k ty x ups Hk MO FM L X. break MO. list4 x. cbn [mt_mom] in X. destruct X as (l & P & Pt & E0 & E1 & E2).
    assert (Pa : 0 < r0 env0). { unfold coef in E2. cbn [nth] in E2. rewrite E2. now apply (avg_pos l (fun o => fst o)). }
    destruct k as [|[|[|k]]]; [| | |destruct k; discriminate]; injection Hk as <-; cbn [exclude length seq combine map fst snd Nat.eqb];
      cbn [e_message gaussian_gamma_efam mt_msg gg_message_muLambda gg_message_a gg_message_b fst snd].
    + setoid_rewrite coef_nth. unfold coef. cbn [nth]. rewrite as_of_mat, as_of_vec. split; [|split; [lra|]].
      * apply symmetric_scal. exact (proj1 (msym_vec D _) (second_sym [D] _ l E1)).
      * intros y s. pose proof (gw_neg D _ l P ltac:(intros o Ho; left; now apply Pt) E0 E1 y s) as G.
        rewrite <- E2 in G. rewrite ?coef_nth in G. cbn [nth] in G. rewrite bilinear_scal. lra.
    + exact I.
    + unfold coef. cbn [nth].
      match goal with X : mt_mom MShape _ |- _ => cbn [mt_mom] in X; unfold coef in X; cbn [nth] in X end. lra.
  - intros ups MO FM. break MO. cbn [e_phi gaussian_gamma_efam mt_par gg_phi fst snd].
    assert (X : mt_mom (MGaussianWishart D) [p; q; r; t]) by assumption.
    assert (X1 : mt_mom MShape [p1; q1]) by assumption. assert (X2 : mt_mom MGamma [p0; q0]) by assumption.
    destruct X as [[Sy PD] B]. rewrite ?coef_nth in Sy. setoid_rewrite coef_nth in PD. setoid_rewrite coef_nth in B. cbn [nth] in Sy, PD, B.
    cbn [mt_mom] in X1, X2. unfold coef in X1, X2. cbn [nth] in X1, X2.
    assert (PP : posdef D (scal_m (-2) (scal_m (-0.5) (as_mat r)))).
    { split; [now apply symmetric_scal, symmetric_scal|]. intros x Nx. rewrite !bilinear_scal. specialize (PD x Nx). lra. }
    pose proof (proj2 (negdef_vec D (of_mat (scal_m (-0.5) (as_mat r)))) PP) as [S1 S2].
    split; [exact S1|]. split; [exact S2|]. unfold coef. cbn [nth]. split; [exact X1|]. exists (p0 env0). split; [exact X2|]. intros f.
    rewrite innerv_1d, quad_vec, as_of_mat, as_of_vec, bilinear_scal. specialize (B (as_vec f)). unfold coef in B. cbn [nth] in B. change (fun v => r v) with r in B. lra.
  - intros phi L Pp. list4 phi. cbn [mt_par] in Pp. destruct Pp as (S1 & S2 & Pa & eps & Pe & B).
    pose proof (proj1 (negdef_vec D _) (conj S1 S2)) as PD. rewrite ?coef_nth in PD, Pa, B. setoid_rewrite coef_nth in B. cbn [nth] in PD, Pa, B.
    assert (Sy : symmetric D (as_mat q)). { intros i j Hi Hj. pose proof (proj1 PD i j Hi Hj) as E. unfold scal_m in E. lra. }
    destruct (C44_gaussian_gamma_moments lg psi D (as_vec p) (as_mat q) (r env0) (t env0) Sy) as [M1 M2].
    destruct (posdef_chol D _ PD) as [U EU].
    destruct (C44_gaussian_moments D (as_vec p, as_mat q) Sy) as [_ M3]. destruct (M3 PD) as (u & g & _ & (Em & _) & _). cbn [fst snd] in Em.
    assert (Pb : 0 < - r env0 - bilinear D (scal_m (-2) (as_mat q)) (fst u) (fst u) / 2).
    { specialize (B (of_vec (fst u))). unfold coef in B. cbn [nth] in B. rewrite innerv_1d, quad_vec, as_of_vec in B.
      rewrite bilinear_mv, (innerv_ext D (fst u) (fst u) _ (as_vec p) (fun _ _ => eq_refl) Em), innerv_comm.
      assert (B2 : bilinear D (as_mat q) (fst u) (fst u) = -0.5 * innerv D (as_vec p) (fst u)).
      { rewrite innerv_comm. rewrite <- (innerv_ext D (fst u) (fst u) _ (as_vec p) (fun _ _ => eq_refl) Em), <- bilinear_mv, bilinear_scal. lra. }
      lra. }
    destruct (M2 (fst u) PD Em Pb) as (w & h & E). destruct w as [[[w0 w1] w2] w3]. destruct (M1 _ h E) as [_ (mu & Cov & b & Q1 & Q2 & Q3 & Q4 & Q5 & Q6 & Q7 & Q8)].
    cbn [e_fam gaussian_gamma_efam fam_moments gaussian_gamma_family]. rewrite E. cbn [bind fst snd]. eexists. eexists. split; [reflexivity|]. split; [reflexivity|].
    assert (Pt : 0 < t env0 / b) by now apply Rdiv_lt_0_compat.
    destruct (realisable D (t env0 / b) mu Cov Pt (posdef_inverse D _ _ PD Q2)) as (l & P & T & E0 & E1).
    exists l. split; [exact P|]. split; [intros o Ho; now rewrite (T o Ho)|]. unfold coef. cbn [nth length]. split; [|split].
    + intros v Hv. rewrite (E0 v Hv). destruct (vec_index D v Hv) as [_ Hi]. unfold of_vec. rewrite (Q5 _ Hi). reflexivity.
    + intros v v' Hv Hv'. rewrite (E1 v v' Hv Hv'). destruct (vec_index D v Hv) as [Ev Hi]. destruct (vec_index D v' Hv') as [Ev' Hi'].
      rewrite Ev, Ev', join_vec. unfold of_mat. cbn. rewrite (Q6 _ _ Hi Hi'). unfold add_m, scal_m, outerv. ring.
    + rewrite (avg_ext l _ (fun _ => t env0 / b)) by exact T. rewrite avg_const by exact P. exact Q7.
  - destruct (gaussian_gamma_fam_kl lg psi D HG) as [G _]. gibbs_from G; list4 phi; list4 phi'; cbn [mt_par gaussian_gamma_proper] in *; unfold coef in *; cbn [nth] in *; split; try apply msym_vec; tauto.
Qed.

Lemma bilinear_zero : forall D A x, ~ nonzero D x -> bilinear D A x x = 0.
Proof.
  intros D A x N. unfold bilinear. rewrite (rsum_ext D _ (fun _ => 0 * 0)); [rewrite rsum_scal; ring|]. intros i Hi.
  rewrite (rsum_ext D _ (fun _ => 0 * 0)); [rewrite rsum_scal; ring|]. intros j Hj.
  assert (Z : x i = 0) by (destruct (Req_dec (x i) 0) as [|Z]; [assumption|exfalso; apply N; now exists i]). rewrite Z. ring.
Qed.
Lemma posdef_nonneg : forall D A x, posdef D A -> 0 <= bilinear D A x x.
Proof.
  intros D A x [_ P]. destruct (Classical_Prop.classic (nonzero D x)) as [H|H]; [left; now apply P|]. rewrite (bilinear_zero D A x H). lra.
Qed.

Lemma wishart_typed : forall lg psi D, gamma_convex lg psi -> fam_typed (wishart_efam lg psi D) (MWishart D) [MDegrees D; MWishart D].
Proof.
  intros lg psi D HG. constructor.
  - reflexivity.
  - reflexivity.
  - apply conj_on. exact (wishart_conjugate lg psi D).
  - intros k ty x ups Hk MO FM L X. break MO. list2 x. cbn [mt_mom] in X. rewrite ?coef_nth in X. cbn [nth] in X.
    destruct k as [|[|k]]; [| |destruct k; discriminate]; injection Hk as <-; cbn [exclude length seq combine map fst snd Nat.eqb];
      cbn [e_message wishart_efam mt_msg wishart_message_V fst snd]; [exact I|].
    unfold coef. cbn [nth]. rewrite as_of_mat. split; [apply symmetric_scal, (proj1 X)|]. split.
    + intros y. rewrite bilinear_scal. pose proof (posdef_nonneg D _ y X). lra.
    + match goal with X : mt_mom (MDegrees D) _ |- _ => cbn [mt_mom] in X; unfold coef in X; cbn [nth] in X end. lra.
  - intros ups MO FM. break MO. cbn [e_phi wishart_efam mt_par wishart_phi fst snd].
    assert (X1 : mt_mom (MDegrees D) [p0; q0]) by assumption. assert (X2 : mt_mom (MWishart D) [p; q]) by assumption.
    cbn [mt_mom] in X1, X2. rewrite ?coef_nth in X2. unfold coef in X1. cbn [nth] in *. rewrite !coef_nth. cbn [nth]. rewrite as_of_mat. split; [|lra].
    destruct X2 as [Sy PD]. split; [now apply symmetric_scal, symmetric_scal|]. intros x Nx. rewrite !bilinear_scal. specialize (PD x Nx). lra.
  - intros phi L Pp. list2 phi. cbn [mt_par] in Pp. rewrite ?coef_nth in Pp. cbn [nth] in Pp. destruct Pp as (PD & Pn & Pd).
    destruct (posdef_chol D _ PD) as [U EU].
    cbn [e_fam wishart_efam fam_moments wishart_family]. unfold wishart_moments, chol. cbn [fst snd]. rewrite EU. cbn [bind fst snd].
    eexists. eexists. split; [reflexivity|]. split; [reflexivity|]. cbn [mt_mom]. rewrite coef_nth. cbn [nth]. rewrite as_of_mat.
    pose proof (posdef_inverse D _ _ PD (chol_inv_ok D _ U (proj1 PD) EU)) as [S1 S2].
    split; [now apply symmetric_scal|]. intros x Nx. rewrite bilinear_scal. apply Rmult_lt_0_compat; [exact Pn|now apply S2].
  - destruct (wishart_fam_kl lg psi D HG) as [G _]. gibbs_from G; list2 phi; list2 phi'; cbn [mt_par wishart_proper] in *; rewrite ?coef_nth in *; cbn [nth] in *.
    + destruct P as ([S _] & _ & X). split; [|exact X]. intros i j Hi Hj. specialize (S i j Hi Hj). unfold scal_m in S. lra.
    + destruct P' as ([S _] & _ & X). split; [|exact X]. intros i j Hi Hj. specialize (S i j Hi Hj). unfold scal_m in S. lra.
Qed.
