(** Lemmas for C25: the nodes that join a mean and a precision. *)
From Coq Require Import List Arith ZArith Lia Bool Reals Lra FunctionalExtensionality.
From Verif Require Import Base Shapes SpecShapes ShapesLemmas NumPy MiscArray TensorLemmas
  EinsumLemmas SumMultiplyLemmas SpecArray PlateSumLemmas PlateSum2Lemmas MessageLemmas
  ShapeOpsLemmas DiagLemmas ExpFam SpecExpFam ExpFamLemmas ExpFamBound ExpFamGrad PExpFam SpecUpdate
  UpdateLemmas PUpdate Families SpecFamilies FamiliesLemmas FamiliesLemmas2 PFamilies2 FamilyDist SpecFamilyDist PFamilyDist Network SpecNetwork NetworkLemmas NetworkLemmas2
  PNetwork MarkovLemmas FamilyNet SpecFamilyNet PFamilyNet Dot SpecDot DetNet SpecDetNet DetNetLemmas DetNetLemmas2
  Linalg MatBridge SpecLinalg LinalgLemmas Gaussian SpecGaussian GaussLemmas GaussAlg PGaussian PGaussian2 GaussGibbs GaussianDist PGaussianDist
  GaussNet SpecGaussNet PlateDet GaussTypes GaussNodes GaussNodes2 GaussNodes3 GaussNodes4 GaussNodes5.
Import ListNotations.
Open Scope R_scope.

Ltac breakp H := cbn [pf_pdims to_gg_fn wrap_gg_fn wrap_gw_fn] in H;
  repeat match goal with
  | X : Forall2 _ (_ :: _) _ |- _ => inv X
  | X : Forall2 _ [] _ |- _ => inv X
  end; cbn [length] in *; lists.

Lemma to_gg_kinds : forall s, plate_kinds (to_gg_fn s) (MGaussianGamma s) [MGaussian s].
Proof.
  intros s. constructor; try reflexivity.
  - intros ups L F. breakp L. cbn [pf_moments to_gg_fn pf_dims]. split; [reflexivity|].
    match goal with X : mt_mom (MGaussian s) _ |- _ => destruct (gaussian_unit s _ X) as (l & P & T & E0 & E1) end.
    exists l. split; [exact P|]. split; [intros o Ho; rewrite (T o Ho); lra|]. split; [exact E0|]. split; [exact E1|].
    unfold coef. cbn. symmetry. rewrite (avg_ext l _ (fun _ => 1)); [now apply avg_const|exact T].
  - intros [|k] t m ups Hk L F Lm Mm; [|destruct k; discriminate]. injection Hk as <-. breakp L. cbn [pf_dims to_gg_fn] in Lm. list4 m.
    cbn [pf_message to_gg_fn pf_pdims nth]. split; [reflexivity|]. split.
    + destruct Mm as (S & _ & N). split; [exact S|]. exact (gg_quad_neg s _ N).
    + intros ups' L' F' _. breakp L'. cbn [pf_moments to_gg_fn pf_dims fdot nth]. rewrite !total_0d. ring.
Qed.

Lemma wrap_gg_kinds : forall s, plate_kinds (wrap_gg_fn s) (MGaussianGamma s) [MGaussianGamma s; MGamma].
Proof.
  intros s. constructor; try reflexivity.
  - intros ups L F. breakp L. cbn [pf_moments wrap_gg_fn pf_dims]. split; [reflexivity|].
    assert (X : mt_mom (MGaussianGamma s) [p; q; r; t]) by assumption. assert (Y : mt_mom MGamma [p0; q0]) by assumption.
    destruct X as (l & P & Pt & E0 & E1 & E2). cbn [mt_mom] in Y. unfold coef in *. cbn [nth] in *.
    exists (map (fun o => (fst o, (p0 env0 * fst (snd o), snd (snd o)))) l).
    assert (A : forall F, avg (map (fun o => (fst o, (p0 env0 * fst (snd o), snd (snd o)))) l) F = avg l (fun o => F (p0 env0 * fst o, snd o))).
    { intros F. unfold avg. now rewrite map_map. }
    split; [|split; [|split; [|split]]].
    + destruct P as [P1 P2]. split; [now apply Forall_map|]. now rewrite map_map.
    + intros o Ho. apply in_map_iff in Ho as (o' & <- & Ho). cbn. apply Rmult_lt_0_compat; [exact Y|now apply Pt].
    + intros v Hv. unfold coef; cbn [nth]; rewrite A, (E0 v Hv), <- avg_cmul. cbn. apply avg_ext. intros; ring.
    + intros v w Hv Hw. unfold coef; cbn [nth]; rewrite A, (E1 v w Hv Hw), <- avg_cmul. cbn. apply avg_ext. intros; ring.
    + unfold coef; cbn [nth]; rewrite A, E2, Rmult_comm, <- avg_cmul. cbn. apply avg_ext. intros; ring.
  - intros k ty m ups Hk L F Lm Mm. breakp L. cbn [pf_dims wrap_gg_fn] in Lm. list4 m.
    assert (X : mt_mom (MGaussianGamma s) [p; q; r; t]) by assumption. assert (Y : mt_mom MGamma [p0; q0]) by assumption.
    destruct X as (l & P & Pt & E0 & E1 & E2). cbn [mt_mom] in Y. destruct Mm as (S & M3 & N).
    destruct k as [|[|k]]; [| |destruct k; discriminate]; injection Hk as <-; cbn [exclude length seq combine map fst snd Nat.eqb];
      cbn [pf_message wrap_gg_fn pf_pdims nth].
    + split; [reflexivity|]. unfold coef in *. cbn [nth] in *. split.
      * split; [|split].
        -- intros v w Hv Hw. unfold coef. cbn [nth]. now rewrite (S v w Hv Hw).
        -- exact M3.
        -- intros f. unfold coef. cbn [nth]. specialize (N f). change (fun v : env => q1 v) with q1 in N.
           rewrite (quad_lin2 s (p0 env0) 0 (fun v => p0 env0 * q1 v) q1 q1) by (intros; ring).
           rewrite (total_ext s (fun v => p0 env0 * p1 v * f v) (fun v => p0 env0 * (p1 v * f v))) by (intros; ring). rewrite total_cmul.
           pose proof (Rmult_le_compat_l (p0 env0) _ _ (Rlt_le _ _ Y) N). lra.
      * intros ups' L' F' E. breakp L'. cbn in E. injection E as; subst. cbn [pf_moments wrap_gg_fn pf_dims fdot nth]. rewrite !total_0d.
        assert (T1 : forall g, total s (fun v => p1 v * (p0 env0 * g v)) = total s (fun v => p0 env0 * p1 v * g v)) by (intros g; apply total_ext; intros; ring).
        assert (T2 : forall g, total (s ++ s) (fun v => q1 v * (p0 env0 * g v)) = total (s ++ s) (fun v => p0 env0 * q1 v * g v)) by (intros g; apply total_ext; intros; ring).
        rewrite !T1, !T2. ring.
    + split; [reflexivity|]. split.
      * split; [|exact M3]. unfold coef. cbn [nth].
        pose proof (second_lin s _ l E1 q1) as A1. pose proof (mean_lin s _ l E0 p1) as A0. unfold coef in A0, A1, E2. cbn [nth] in A0, A1, E2.
        rewrite (total_ext s (fun v => p1 v * p v) (fun v => p v * p1 v)) by (intros; ring).
        rewrite A0, A1, E2, <- avg_cmul.
        rewrite (avg_ext l (fun o => fst o * total s (fun v => snd o v * p1 v)) (fun o => 1 * (fst o * total s (fun v => snd o v * p1 v)))) by (intros; ring).
        assert (B : avg l (fun o => fst o * (total s (fun v => p1 v * snd o v) + quad s q1 (snd o) + r0 env0)) <= 0).
        { rewrite <- (avg_const l 0 P). apply avg_le; [exact P|]. intros o Ho. specialize (N (snd (snd o))). specialize (Pt o Ho).
          unfold coef in N. cbn [nth] in N. change (fun v : env => q1 v) with q1 in N.
          pose proof (Rmult_le_compat_l _ _ _ (Rlt_le _ _ Pt) N) as Z. rewrite Rmult_0_r in Z. exact Z. }
        rewrite (avg_ext l _ (fun o => 1 * (fst o * total s (fun v => snd o v * p1 v)) + 1 * (fst o * quad s q1 (snd o) + r0 env0 * fst o))) in B.
        2:{ intros o _. rewrite (total_ext s (fun v => p1 v * snd (snd o) v) (fun v => snd (snd o) v * p1 v)) by (intros; ring). ring. }
        rewrite avg_lin2 in B.
        rewrite (avg_ext l (fun o => fst o * quad s q1 (snd o) + r0 env0 * fst o) (fun o => 1 * (fst o * quad s q1 (snd o)) + r0 env0 * fst o)) in B by (intros; ring).
        rewrite avg_lin2 in B. rewrite !avg_cmul. lra.
      * intros ups' L' F' E. breakp L'. cbn in E. injection E as; subst. cbn [pf_moments wrap_gg_fn pf_dims fdot nth]. rewrite !total_0d.
        assert (T1 : forall c, total s (fun v => p1 v * (c * p v)) = c * total s (fun v => p1 v * p v)) by (intros c; rewrite <- total_cmul; apply total_ext; intros; ring).
        assert (T2 : forall c, total (s ++ s) (fun v => q1 v * (c * q v)) = c * total (s ++ s) (fun v => q1 v * q v)) by (intros c; rewrite <- total_cmul; apply total_ext; intros; ring).
        rewrite !T1, !T2. ring.
Qed.

Lemma innerm_gram : forall D U M, innerm D (mmdot D (transpose U) U) M = rsum D (fun k => bilinear D M (U k) (U k)).
Proof.
  intros D U M. unfold innerm, bilinear, mmdot, transpose.
  rewrite (rsum_ext D _ (fun i => rsum D (fun k => rsum D (fun j => U k i * M i j * U k j)))).
  - rewrite rsum_swap. reflexivity.
  - intros i Hi. rewrite <- rsum_swap. apply rsum_ext. intros j Hj. rewrite Rmult_comm, <- rsum_scal. apply rsum_ext. intros; ring.
Qed.
Lemma innerm_ext : forall D A A' B, meq D A A' -> innerm D A B = innerm D A' B.
Proof. intros D A A' B H. apply rsum_ext. intros i Hi. apply rsum_ext. intros j Hj. now rewrite H. Qed.
Lemma bilinear_ext_m : forall D A A' x y, meq D A A' -> bilinear D A x y = bilinear D A' x y.
Proof. intros D A A' x y H. apply rsum_ext. intros i Hi. apply rsum_ext. intros j Hj. now rewrite H. Qed.
Lemma bilinear_gram : forall D U x y, bilinear D (mmdot D (transpose U) U) x y = rsum D (fun k => innerv D (U k) x * innerv D (U k) y).
Proof.
  intros D U x y. unfold bilinear, mmdot, transpose, innerv.
  rewrite (rsum_ext D _ (fun i => rsum D (fun k => rsum D (fun j => U k i * x i * (U k j * y j))))).
  - rewrite rsum_swap. apply rsum_ext. intros k Hk.
    rewrite (rsum_ext D (fun i => rsum D (fun j => U k i * x i * (U k j * y j))) (fun i => rsum D (fun j => U k j * y j) * (U k i * x i))).
    + rewrite rsum_scal. ring.
    + intros i Hi. rewrite rsum_scal. ring.
  - intros i Hi. rewrite <- rsum_swap. apply rsum_ext. intros j Hj.
    replace (x i * rsum D (fun k => U k i * U k j) * y j) with (x i * y j * rsum D (fun k => U k i * U k j)) by ring.
    rewrite <- rsum_scal. apply rsum_ext. intros; ring.
Qed.

Lemma wrap_gw_kinds : forall D, plate_kinds (wrap_gw_fn D) (MGaussianWishart D) [MGaussianGamma [D]; MWishart D].
Proof.
  intros D. constructor; try reflexivity.
  - intros ups L F. breakp L. cbn [pf_moments wrap_gw_fn pf_dims wrap_gw_moments fst snd]. split; [reflexivity|].
    assert (X : mt_mom (MGaussianGamma [D]) [p; q; r; t]) by assumption. assert (Y : mt_mom (MWishart D) [p0; q0]) by assumption.
    cbn [mt_mom] in *. destruct X as (l & P & Pt & E0 & E1 & E2). rewrite coef_nth in Y. unfold coef at 1 in E2. cbn [nth] in Y, E2.
    assert (Pr : 0 < r env0) by (rewrite E2; now apply (avg_pos l (fun o => fst o))).
    rewrite !coef_nth. cbn [nth]. rewrite as_of_mat, as_of_vec. split.
    + split; [apply symmetric_scal, (proj1 Y)|]. intros x Nx. rewrite bilinear_scal. apply Rmult_lt_0_compat; [exact Pr|now apply (proj2 Y)].
    + intros x. rewrite bilinear_scal. set (Lam := as_mat p0) in *.
      pose proof (second_lin [D] _ l E1 (of_mat Lam)) as A1. pose proof (mean_lin [D] _ l E0 (of_vec (mvdot D Lam x))) as A0.
      rewrite !coef_nth in A0, A1. cbn [nth app] in A0, A1. rewrite total_2d_inner, as_of_mat in A1.
      rewrite (innerv_1d D p), as_of_vec, <- bilinear_mv in A0.
      rewrite innerv_comm, <- bilinear_mv, (bilinear_comm D Lam x (as_vec p) (proj1 Y)), A0, E2, A1.
      assert (B : 0 <= avg l (fun o => fst o * bilinear D Lam (fun i => as_vec (snd o) i - x i) (fun i => as_vec (snd o) i - x i))).
      { rewrite <- (avg_const l 0 P) at 1. apply avg_le; [exact P|]. intros o Ho. apply Rmult_le_pos; [left; now apply Pt|now apply posdef_nonneg]. }
      rewrite (avg_ext l _ (fun o => 1 * (fst o * quad [D] (of_mat Lam) (snd o)) + 1 * (-2 * (fst o * total [D] (fun v => snd o v * of_vec (mvdot D Lam x) v)) + bilinear D Lam x x * fst o))) in B.
      * rewrite avg_lin2 in B. rewrite (avg_lin2 l (-2) (bilinear D Lam x x)) in B. change (avg l fst) with (avg l (fun o => fst o)) in B. lra.
      * intros o _. rewrite quad_vec, as_of_mat, innerv_1d, as_of_vec, <- bilinear_mv.
        set (f := as_vec (snd (snd o))).
        assert (BE : bilinear D Lam (fun i => f i - x i) (fun i => f i - x i) = bilinear D Lam f f - 2 * bilinear D Lam f x + bilinear D Lam x x).
        { pose proof (bilinear_comm D Lam x f (proj1 Y)) as BC. 
          assert (BS : bilinear D Lam (fun i => f i - x i) (fun i => f i - x i) = bilinear D Lam f f - bilinear D Lam f x - bilinear D Lam x f + bilinear D Lam x x).
          { unfold bilinear. rewrite <- !rsum_minus, <- rsum_plus. apply rsum_ext. intros i Hi. rewrite <- !rsum_minus, <- rsum_plus. apply rsum_ext. intros; ring. }
          rewrite BS, BC. ring. }
        rewrite BE. ring.
  - intros k ty m ups Hk L F Lm Mm. breakp L. cbn [pf_dims wrap_gw_fn] in Lm. list4 m.
    assert (X : mt_mom (MGaussianGamma [D]) [p; q; r; t]) by assumption. assert (Y : mt_mom (MWishart D) [p0; q0]) by assumption.
    destruct X as (l & P & Pt & E0 & E1 & E2). cbn [mt_mom] in Y. rewrite coef_nth in Y. unfold coef at 1 in E2. cbn [nth] in Y, E2.
    destruct Mm as (S & M3 & N). rewrite coef_nth in S. unfold coef in M3. cbn [nth] in S, M3.
    assert (N' : forall x s, bilinear D (as_mat r0) x x + s * innerv D (as_vec p1) x + q1 env0 * (s * s) <= 0) by (intros x s; exact (N x s)). clear N.
    destruct k as [|[|k]]; [| |destruct k; discriminate]; injection Hk as <-; cbn [exclude length seq combine map fst snd Nat.eqb];
      cbn [pf_message wrap_gw_fn pf_pdims nth wrap_gw_message_x wrap_gw_message_Lambda fst snd].
    + split; [reflexivity|]. split.
      * destruct (posdef_chol D _ Y) as [U EU]. pose proof (cho_factor_prod D _ U (proj1 Y) EU) as EP.
        split; [|split].
        -- apply msym_vec. rewrite coef_nth. cbn [nth]. rewrite as_of_mat. apply symmetric_scal, (proj1 Y).
        -- unfold coef. cbn [nth]. apply Rmult_le_pos; [apply pos_INR|exact M3].
        -- intros f. rewrite innerv_1d, quad_vec, !coef_nth. unfold coef. cbn [nth]. rewrite as_of_mat, as_of_vec, bilinear_scal.
           rewrite innerv_comm, <- bilinear_mv, <- !(bilinear_ext_m D _ _ _ _ EP), <- (innerm_ext D _ _ _ EP), innerm_gram, !bilinear_gram.
           rewrite <- rsum_scal, <- !rsum_plus. rewrite <- (rsum_0 D). apply rsum_le. intros k Hk.
           specialize (N' (U k) (innerv D (U k) (as_vec f))). rewrite (innerv_comm D (as_vec p1)) in N'. lra.
      * intros ups' L' F' E. breakp L'. cbn in E. injection E as; subst. cbn [pf_moments wrap_gw_fn pf_dims nth wrap_gw_moments fst snd fdot].
        rewrite !innerv_1d, !total_2d_inner, !total_0d, !as_of_vec, !as_of_mat.
        destruct (C20_wrap_gaussian_wishart D (as_vec p1) (q1 env0) (as_mat r0) (t0 env0)) as [C _].
        destruct (C (as_mat p0, q0 env0) (proj1 Y)) as [rest Cr].
        pose proof (Cr (as_vec p, as_mat q, r env0, t env0)) as C1. pose proof (Cr (as_vec p2, as_mat q2, r1 env0, t1 env0)) as C2.
        cbn [wrap_gw_moments wrap_gw_message_x fst snd] in C1, C2. lra.
    + split; [reflexivity|]. split.
      * split; [|split].
        -- rewrite coef_nth. cbn [nth]. rewrite as_of_mat. intros i j Hi Hj. pose proof (second_sym [D] _ l E1) as SS. apply msym_vec in SS.
           specialize (SS i j Hi Hj). rewrite coef_nth in SS. cbn [nth] in SS. rewrite SS, (S i j Hi Hj). unfold outerv. ring.
        -- intros x. rewrite coef_nth. cbn [nth]. rewrite as_of_mat.
           assert (E : bilinear D (fun i j => 0.5 * outerv (as_vec p) (as_vec p1) i j + 0.5 * outerv (as_vec p1) (as_vec p) i j + as_mat q i j * q1 env0 + r env0 * as_mat r0 i j) x x
             = innerv D (as_vec p) x * innerv D (as_vec p1) x + q1 env0 * bilinear D (as_mat q) x x + r env0 * bilinear D (as_mat r0) x x).
           { transitivity (0.5 * bilinear D (outerv (as_vec p) (as_vec p1)) x x + 0.5 * bilinear D (outerv (as_vec p1) (as_vec p)) x x + q1 env0 * bilinear D (as_mat q) x x + r env0 * bilinear D (as_mat r0) x x).
             - unfold bilinear. rewrite <- !rsum_scal, <- !rsum_plus. apply rsum_ext. intros i Hi. rewrite <- !rsum_scal, <- !rsum_plus. apply rsum_ext. intros; ring.
             - assert (O : forall a b, bilinear D (outerv a b) x x = innerv D a x * innerv D b x).
               { intros a b. unfold bilinear, outerv, innerv. rewrite (rsum_ext D _ (fun i => rsum D (fun j => b j * x j) * (a i * x i))).
                 - rewrite rsum_scal. ring.
                 - intros i Hi. rewrite Rmult_comm, <- rsum_scal. apply rsum_ext. intros; ring. }
               rewrite !O. lra. }
           rewrite E. pose proof (second_quad [D] _ l E1 (of_vec x)) as A1. pose proof (mean_lin [D] _ l E0 (of_vec x)) as A0.
           rewrite !coef_nth in A0, A1. cbn [nth] in A0, A1. rewrite quad_vec, as_of_vec in A1. rewrite (innerv_1d D p), as_of_vec in A0.
           rewrite A0, A1, E2.
           assert (B : avg l (fun o => fst o * (bilinear D (as_mat r0) x x + total [D] (fun v => snd o v * of_vec x v) * innerv D (as_vec p1) x
              + q1 env0 * (total [D] (fun v => snd o v * of_vec x v) * total [D] (fun v => snd o v * of_vec x v)))) <= 0).
           { rewrite <- (avg_const l 0 P). apply avg_le; [exact P|]. intros o Ho. pose proof (Pt o Ho) as Po.
             pose proof (Rmult_le_compat_l _ _ _ (Rlt_le _ _ Po) (N' x (total [D] (fun v => snd (snd o) v * of_vec x v)))) as Z. rewrite Rmult_0_r in Z. exact Z. }
           rewrite (avg_ext l _ (fun o => bilinear D (as_mat r0) x x * fst o + 1 * (innerv D (as_vec p1) x * (fst o * total [D] (fun v => snd o v * of_vec x v))
              + q1 env0 * (fst o * (total [D] (fun v => snd o v * of_vec x v) * total [D] (fun v => snd o v * of_vec x v)))))) in B by (intros; ring).
           rewrite avg_lin2 in B. rewrite (avg_lin2 l (innerv D (as_vec p1) x)) in B. change (avg l fst) with (avg l (fun o => fst o)) in B. lra.
        -- exact M3.
      * intros ups' L' F' E. breakp L'. cbn in E. injection E as; subst. cbn [pf_moments wrap_gw_fn pf_dims nth wrap_gw_moments fst snd fdot].
        rewrite !innerv_1d, !total_2d_inner, !total_0d, !as_of_vec, !as_of_mat.
        destruct (C20_wrap_gaussian_wishart D (as_vec p1) (q1 env0) (as_mat r0) (t0 env0)) as [_ C].
        destruct (C (as_vec p, as_mat q, r env0, t env0)) as [rest Cr].
        assert (Y' : symmetric D (as_mat p3)) by (match goal with H : mt_mom (MWishart D) [p3; q3] |- _ => exact (proj1 H) end).
        pose proof (Cr (as_mat p0, q0 env0) (proj1 Y)) as C1. pose proof (Cr (as_mat p3, q3 env0) Y') as C2.
        cbn [wrap_gw_moments wrap_gw_message_Lambda fst snd] in C1, C2. lra.
Qed.
