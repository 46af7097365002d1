(** Lemmas for C25: the distributions of GaussNet.v have the kinds of SpecGaussNet.v. *)
From Coq Require Import List Arith ZArith Lia Bool Reals Lra FunctionalExtensionality.
From Verif Require Import Base Shapes SpecShapes ShapesLemmas NumPy MiscArray TensorLemmas
  EinsumLemmas SumMultiplyLemmas SpecArray PlateSumLemmas PlateSum2Lemmas MessageLemmas
  ShapeOpsLemmas DiagLemmas ExpFam SpecExpFam ExpFamLemmas ExpFamBound ExpFamGrad PExpFam SpecUpdate
  UpdateLemmas PUpdate Families SpecFamilies FamiliesLemmas FamiliesLemmas2 FamilyDist SpecFamilyDist PFamilyDist Network SpecNetwork NetworkLemmas NetworkLemmas2
  PNetwork FamilyNet SpecFamilyNet PFamilyNet Dot SpecDot DetNet SpecDetNet DetNetLemmas DetNetLemmas2
  Linalg MatBridge SpecLinalg LinalgLemmas Gaussian SpecGaussian GaussLemmas GaussAlg PGaussian PGaussian2 GaussGibbs GaussianDist PGaussianDist
  GaussNet SpecGaussNet PlateDet GaussTypes GaussNodes.
Import ListNotations.
Open Scope R_scope.

(** A distribution with moments of kind [own] whose parents have the kinds [pts]. *)
(** Conjugacy for the possible moments of the kinds. *)
Definition conjugate_on (ok : list (list (env -> R)) -> Prop) (okx : list (env -> R) -> Prop) (F : efam) : Prop :=
  (forall ups, length (e_phi F ups) = length (fam_dims (e_fam F))) /\
  (forall k x ups, (k < length (e_pdims F))%nat -> length (e_message F k x ups) = length (nth k (e_pdims F) [])) /\
  forall k x ups ups', (k < length (e_pdims F))%nat -> moments_of F ups -> moments_of F ups' -> ok ups -> ok ups' -> okx x ->
    length x = length (fam_dims (e_fam F)) -> exclude k ups = exclude k ups' ->
    let dims := fam_dims (e_fam F) in
    let pd := nth k (e_pdims F) [] in
    let m := e_message F k x (exclude k ups) in
    (e_cgf F ups' + fdot dims (e_phi F ups') x) - (e_cgf F ups + fdot dims (e_phi F ups) x)
     = fdot pd m (nth k ups' []) - fdot pd m (nth k ups []).
Lemma conj_on : forall ok okx F, conjugate F -> conjugate_on ok okx F.
Proof. intros ok okx F (C1 & C2 & C3). split; [exact C1|]. split; [exact C2|]. intros k x ups ups' Hk M M' _ _ _. now apply C3. Qed.
Record fam_typed (F : efam) (own : mtype) (pts : list mtype) : Prop := FamTyped {
  ft_dims : fam_dims (e_fam F) = mt_dims own;
  ft_pdims : e_pdims F = map mt_dims pts;
  ft_conj : conjugate_on (Forall2 mt_mom pts) (mt_mom own) F;
  ft_msg : forall k t x ups, nth_error pts k = Some t -> moments_of F ups -> Forall2 mt_mom pts ups ->
    length x = length (mt_dims own) -> mt_mom own x -> mt_msg t (e_message F k x (exclude k ups));
  ft_prior : forall ups, moments_of F ups -> Forall2 mt_mom pts ups -> mt_par own (e_phi F ups);
  ft_mom : forall phi, length phi = length (mt_dims own) -> mt_par own phi ->
    exists u g, fam_moments (e_fam F) phi = Ok (u, g) /\ length u = length (mt_dims own) /\ mt_mom own u;
  ft_gibbs : fam_gibbs (e_fam F) (mt_par own) }.

Lemma gg_quad_neg : forall s (b : list (env -> R)),
  (forall f, total s (fun v => coef b 0 v * f v) + quad s (coef b 1) f + coef b 2 env0 <= 0) -> forall f, quad s (coef b 1) f <= 0.
Proof.
  intros s b Eb. intros f. apply Rnot_lt_le. intros X.
      set (l := total s (fun v => coef b 0 v * f v)) in *. set (qf := quad s (coef b 1) f) in *. set (c := coef b 2 env0) in *.
      assert (G : forall r, r * l + r * r * qf + c <= 0).
      { intros r. specialize (Eb (fun v => r * f v)). unfold quad in Eb.
        rewrite (total_ext s (fun v => coef b 0 v * (r * f v)) (fun v => r * (coef b 0 v * f v))) in Eb by (intros; ring). rewrite total_cmul in Eb. fold l in Eb.
        rewrite (total_ext s (fun v => total s (fun w => coef b 1 (join (length s) v w) * (r * f v) * (r * f w)))
          (fun v => (r * r) * total s (fun w => coef b 1 (join (length s) v w) * f v * f w))) in Eb.
        2:{ intros v Hv. rewrite <- total_cmul. apply total_ext. intros; ring. }
        rewrite total_cmul in Eb. exact Eb. }
      pose proof (G ((1 + Rabs c + Rabs l) / qf)) as G1. pose proof (Rle_abs c). pose proof (Rle_abs l). pose proof (Rabs_pos c). pose proof (Rabs_pos l).
      assert (Al : - Rabs l <= l) by (pose proof (Rle_abs (- l)) as Z; rewrite Rabs_Ropp in Z; lra).
      assert (Ac : - Rabs c <= c) by (pose proof (Rle_abs (- c)) as Z; rewrite Rabs_Ropp in Z; lra).
      set (A := 1 + Rabs c + Rabs l) in *. assert (A >= 1) by (unfold A; lra).
      pose proof (G (A / qf + 1)) as G2. pose proof (G (A * (1 + / qf))) as G3.
      assert (Iq : 0 < / qf) by now apply Rinv_0_lt_compat.
      replace (A * (1 + / qf) * l + A * (1 + / qf) * (A * (1 + / qf)) * qf + c) with (A * (1 + / qf) * (l + A * (qf + 1)) + c) in G3 by (field; lra).
      assert (0 < A * qf) by (apply Rmult_lt_0_compat; lra).
      assert (1 + Rabs c <= l + A * (qf + 1)) by (unfold A in *; lra).
      assert (1 <= A * (1 + / qf)). { rewrite <- (Rmult_1_l 1) at 1. apply Rmult_le_compat; lra. }
      assert (1 * (1 + Rabs c) <= A * (1 + / qf) * (l + A * (qf + 1))) by (apply Rmult_le_compat; lra). lra.
Qed.

(** Posterior parameters are proper. *)
Lemma par_post : forall t ann (a b q : list (env -> R)), ann_ok t ann -> mt_par t a -> mt_msg t b ->
  entries (mt_dims t) (fun c v => coef q c v = ann * (coef a c v + coef b c v)) -> mt_par t q.
Proof.
  intros t ann a b q [An Aw] Ha Hb H. unfold entries in H.
  assert (H' : forall c d, nth_error (mt_dims t) c = Some d -> forall v, valid d v -> coef q c v = ann * coef a c v + ann * coef b c v).
  { intros c d Hd v Hv. rewrite (H c d v Hd Hv). ring. }
  destruct t as [s|s|D|D| |D| |D|K|K|dm most|s|K|N K|N D|K t]; cbn [mt_dims mt_par mt_msg] in *; try exact I.
  - pose proof (H' 1%nat (s ++ s) eq_refl) as E. destruct Ha as [Sa Na]. destruct Hb as [Sb Nb]. split.
    + exact (lin_msym s _ _ _ _ _ E Sa Sb).
    + intros f Nf. rewrite (lin_quad s _ _ _ _ _ E). specialize (Na f Nf). specialize (Nb f).
      replace (ann * quad s (coef a 1) f + ann * quad s (coef b 1) f) with (- (ann * (- quad s (coef a 1) f - quad s (coef b 1) f))) by ring.
      assert (0 < ann * (- quad s (coef a 1) f - quad s (coef b 1) f)) by (apply Rmult_lt_0_compat; lra). lra.
  - pose proof (H' 0%nat s eq_refl) as E0. pose proof (H' 1%nat (s ++ s) eq_refl) as E1.
    pose proof (H' 2%nat [] eq_refl env0 valid_env0) as E2. pose proof (H' 3%nat [] eq_refl env0 valid_env0) as E3.
    destruct Ha as (Sa & Na & Pa & eps & Pe & Ea). destruct Hb as (Sb & Pb & Eb). split; [exact (lin_msym s _ _ _ _ _ E1 Sa Sb)|].
    pose proof (gg_quad_neg s b Eb) as QB.
    split; [|split].
    + intros f Nf. rewrite (lin_quad s _ _ _ _ _ E1). specialize (Na f Nf). specialize (QB f).
      replace (ann * quad s (coef a 1) f + ann * quad s (coef b 1) f) with (- (ann * (- quad s (coef a 1) f - quad s (coef b 1) f))) by ring.
      assert (0 < ann * (- quad s (coef a 1) f - quad s (coef b 1) f)) by (apply Rmult_lt_0_compat; lra). lra.
    + rewrite E3. rewrite <- Rmult_plus_distr_l. apply Rmult_lt_0_compat; lra.
    + exists (ann * eps). split; [now apply Rmult_lt_0_compat|]. intros f. rewrite (lin_total s _ _ _ _ _ E0), (lin_quad s _ _ _ _ _ E1), E2.
      specialize (Ea f). specialize (Eb f).
      set (A := total s (fun v => coef a 0 v * f v)) in *. set (B := total s (fun v => coef b 0 v * f v)) in *.
      set (QA := quad s (coef a 1) f) in *. set (QQ := quad s (coef b 1) f) in *.
      pose proof (Rmult_le_compat_l ann _ _ (Rlt_le _ _ An) Ea). pose proof (Rmult_le_compat_l ann _ _ (Rlt_le _ _ An) Eb). lra.
  - pose proof (H' 0%nat [] eq_refl env0 valid_env0) as E0. pose proof (H' 1%nat [] eq_refl env0 valid_env0) as E1.
    rewrite E0, E1, <- !Rmult_plus_distr_l. split; [|apply Rmult_lt_0_compat; lra].
    assert (0 < ann * (- coef a 0 env0 - coef b 0 env0)) by (apply Rmult_lt_0_compat; lra). lra.
  - pose proof (H' 0%nat [D; D] eq_refl) as E0. pose proof (H' 1%nat [] eq_refl env0 valid_env0) as E1.
    destruct Ha as [[Sa Pa] Na]. destruct Hb as (Sb & Pb & Nb). split; [split|].
    + assert (Sa' : symmetric D (as_mat (coef a 0))).
      { intros i j Hi Hj. specialize (Sa i j Hi Hj). unfold scal_m in Sa. lra. }
      apply symmetric_scal. exact (lin_sym D _ _ _ _ _ E0 Sa' Sb).
    + intros x Nx. rewrite bilinear_scal, (lin_mat D _ _ _ _ _ E0). specialize (Pa x Nx). rewrite bilinear_scal in Pa. specialize (Pb x).
      replace (-1 * (ann * bilinear D (as_mat (coef a 0)) x x + ann * bilinear D (as_mat (coef b 0)) x x)) with
        (ann * (-1 * bilinear D (as_mat (coef a 0)) x x - bilinear D (as_mat (coef b 0)) x x)) by ring.
      apply Rmult_lt_0_compat; lra.
    + rewrite E1. rewrite <- Rmult_plus_distr_l. set (w := coef a 1 env0 + coef b 1 env0).
      assert (0 < w) by (unfold w; lra). assert (INR D - 1 < 2 * w) by (unfold w; lra).
      pose proof (Rmult_le_compat_r w 1 ann ltac:(lra) Aw). split; [now apply Rmult_lt_0_compat|lra].
  - intros v Hv. rewrite (H' 0%nat [K] eq_refl v Hv), <- Rmult_plus_distr_l. apply Rmult_lt_0_compat; [exact An|].
    specialize (Ha v Hv). specialize (Hb v Hv). lra.
  - pose proof (H' 1%nat _ eq_refl) as E1. pose proof (H' 2%nat _ eq_refl) as E2. destruct Ha as [Sa Na]. destruct Hb as [Sb Nb]. split.
    + intros n Hn. exact (lin_block_sym N D _ _ _ _ _ E1 n Hn (Sa n Hn) (Sb n Hn)).
    + intros x Nx. rewrite (lin_path N D _ _ _ _ _ _ _ _ E1 E2). specialize (Na x Nx). specialize (Nb x).
      match goal with |- ann * ?A + ann * ?B < 0 => assert (0 < ann * (- A - B)) by (apply Rmult_lt_0_compat; lra) end. lra.
Qed.

Lemma mt_map : forall (ty : nat -> mtype) ps ups, Forall2 (fun i => mt_mom (ty i)) ps ups <-> Forall2 mt_mom (map ty ps) ups.
Proof.
  induction ps as [|p l IH]; intros ups; cbn; split; intros H; inversion H; subst; try constructor; auto; now apply IH.
Qed.
Lemma stoch_of_fam : forall ty F j ps ann, fam_typed F (ty j) (map ty ps) -> ann_ok (ty j) ann ->
  stoch_typed (Types (fun i => mt_mom (ty i)) (fun i => mt_msg (ty i)) (fun i => mt_par (ty i))) F ann j ps.
Proof.
  intros ty F j ps ann [D1 D2 (C1 & C2 & C3) D4 D5 D6 D7] A.
  assert (FM : forall ups, Forall2 (fun i => mt_mom (ty i)) ps ups <-> Forall2 mt_mom (map ty ps) ups).
  { intros ups. apply mt_map. }
  constructor; cbn [t_mom t_msg t_par].
  - exact C1.
  - exact C2.
  - intros k x ups ups' Hk [M P] [M' P'] L X E. apply C3; try assumption; now apply FM.
  - intros k i x ups Hk [M P] L X. rewrite D1 in L. apply D4; try assumption; [|now apply FM]. now apply map_nth_error.
  - intros ups [M P]. apply D5; [exact M|now apply FM].
  - intros a b q Ha Hb L H. rewrite D1 in H. exact (par_post _ ann a b q A Ha Hb H).
  - intros phi L P. rewrite D1 in *. now apply D6.
  - exact D7.
Qed.
