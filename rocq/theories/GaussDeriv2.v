(** Derivatives of the moments of a Gaussian along a line of natural parameters. *)
From Coq Require Import List Arith Lia Bool Reals Lra FunctionalExtensionality.
From Verif Require Import Base NumPy TensorLemmas MarkovLemmas Families SpecFamilies FamiliesLemmas FamiliesLemmas2 PFamilies2
  Linalg MatBridge SpecLinalg LinalgLemmas Gaussian SpecGaussian GaussLemmas GaussAlg PGaussian PGaussian2 GaussGibbs SpecGradient GaussDeriv.
Import ListNotations.
Open Scope R_scope.

Lemma d_factor : forall f w r, 0 < r -> cont w -> (forall t, Rabs t < r -> f t - f 0 = t * w t) ->
  derivable_pt_lim f 0 (w 0).
Proof.
  intros f w r Hr Cw H e He. destruct (proj1 (cont_def w) Cw e He) as (q & Hq & K).
  assert (Hm : 0 < Rmin r q) by now apply Rmin_pos. exists (mkposreal _ Hm). intros t N Ht. cbn in Ht. rewrite Rplus_0_l.
  assert (T1 : Rabs t < r) by (eapply Rlt_le_trans; [exact Ht|apply Rmin_l]).
  assert (T2 : Rabs t < q) by (eapply Rlt_le_trans; [exact Ht|apply Rmin_r]).
  rewrite (H t T1). replace (t * w t / t - w 0) with (w t - w 0) by (field; exact N). now apply K.
Qed.

(** V(t) - V = 2 t V(t) E V when V(t) inverts A - 2 t E. *)
Lemma inverse_line : forall n A E V W t, is_inverse n A V ->
  is_inverse n (scal_m (-2) (mline (scal_m (-1/2) A) E t)) W ->
  forall i j, (i < n)%nat -> (j < n)%nat ->
  W i j - V i j = t * (2 * rsum n (fun k => W i k * mmdot n E V k j)).
Proof.
  intros n A E V W t [A1 A2] [B1 B2] i j Hi Hj.
  assert (E1 : mmdot n W (mmdot n A V) i j = W i j).
  { rewrite (mmdot_ext n W W _ identity (meq_refl n W) A1 i j Hi Hj). now apply mmdot_id_r. }
  assert (E2 : mmdot n W (mmdot n (scal_m (-2) (mline (scal_m (-1/2) A) E t)) V) i j = V i j).
  { rewrite <- (@meq_assoc n W _ V i j Hi Hj). rewrite (mmdot_ext n _ identity V V B2 (meq_refl n V) i j Hi Hj). now apply mmdot_id_l. }
  rewrite <- E1 at 1. rewrite <- E2 at 1. unfold mmdot at 1 3. rewrite <- rsum_minus.
  rewrite <- !rsum_scal. apply rsum_ext. intros k Hk.
  replace (mmdot n A V k j) with (mmdot n (scal_m (-2) (mline (scal_m (-1/2) A) E t)) V k j + 2 * t * mmdot n E V k j); [ring|].
  unfold mmdot. rewrite <- rsum_scal, <- rsum_plus. apply rsum_ext. intros l Hl. unfold scal_m, mline. field.
Qed.

(** The covariance part of the moments. *)
Definition covariance (u : vec * mat) : mat := sub_m (snd u) (outerv (fst u) (fst u)).

Lemma cov_deriv : forall D (phi d : vec * mat), symmetric D (snd phi) -> symmetric D (snd d) ->
  posdef D (scal_m (-2) (snd phi)) ->
  let V := covariance (gm_u D phi) in
  (forall i j, (i < D)%nat -> (j < D)%nat ->
     derivable_pt_lim (fun t => covariance (gm_u D (gline phi d t)) i j) 0 (2 * mmdot D V (mmdot D (snd d) V) i j)) /\
  (forall i, (i < D)%nat ->
     derivable_pt_lim (fun t => fst (gm_u D (gline phi d t)) i) 0
       (mvdot D V (add_v (fst d) (scal_v 2 (mvdot D (snd d) (fst (gm_u D phi))))) i)).
Proof.
  intros D phi d Sy Sd P V. destruct (gm_near D phi d Sy P) as (r & Hr & K & C0 & C1).
  set (u := fun t => gm_u D (gline phi d t)) in *. set (W := fun t => covariance (u t)).
  assert (Sp : forall t, Rabs t < r -> normal_moments D (gline phi d t) (u t) (gm_g D (gline phi d t))).
  { intros t Ht. assert (St : symmetric D (snd (gline phi d t))) by now apply mline_symmetric.
    exact (proj2 (gm_spec D _ _ _ St (K t Ht))). }
  assert (E0 : u 0 = gm_u D phi) by (unfold u; now rewrite gline0).
  assert (EW : W 0 = V) by (unfold W, V; now rewrite E0).
  assert (R0 : Rabs 0 < r) by (rewrite Rabs_R0; lra).
  assert (I0 : is_inverse D (scal_m (-2) (snd phi)) V).
  { destruct (Sp 0 R0) as (_ & I & _). rewrite gline0 in I. rewrite E0 in I. exact I. }
  assert (CW : forall i j, (i < D)%nat -> (j < D)%nat -> cont (fun t => W t i j)).
  { intros i j Hi Hj. unfold W, covariance, sub_m, outerv. apply c_minus; [now apply C1|]. apply c_mult; now apply C0. }
  assert (DW : forall i j, (i < D)%nat -> (j < D)%nat -> derivable_pt_lim (fun t => W t i j) 0 (2 * mmdot D V (mmdot D (snd d) V) i j)).
  { intros i j Hi Hj.
    eapply dlim_eq; [apply (d_factor _ (fun t => 2 * rsum D (fun k => W t i k * mmdot D (snd d) V k j)) r Hr)|].
    - apply c_mult; [apply c_const|]. apply (c_rsum D (fun t k => W t i k * mmdot D (snd d) V k j)). intros k Hk.
      apply c_mult; [now apply CW|apply c_const].
    - intros t Ht. rewrite EW. apply (inverse_line D (scal_m (-2) (snd phi)) (snd d) V (W t) t I0); try assumption.
      destruct (Sp t Ht) as (_ & I & _). cbn [gline snd] in I.
      replace (scal_m (-1 / 2) (scal_m (-2) (snd phi))) with (snd phi); [exact I|].
      extensionality a. extensionality b. unfold scal_m. field.
    - cbv beta. now rewrite EW. }
  split; [exact DW|]. intros i Hi.
  apply (dlim_ext_near (fun t => rsum D (fun j => W t i j * (fst phi j + t * fst d j))) _ _ _ r Hr).
  { intros t Ht. rewrite Rminus_0_r in Ht. destruct (Sp t Ht) as (Hm & I & _). fold (u t). fold (covariance (u t)) in I. fold (W t) in I.
    transitivity (mvdot D (W t) (mvdot D (scal_m (-2) (snd (gline phi d t))) (fst (u t))) i).
    - apply rsum_ext. intros j Hj. now rewrite (Hm j Hj).
    - rewrite (mvdot_assoc D _ _ _ i Hi). rewrite (mvdot_ext D _ identity _ _ (proj2 I) (veq_refl D _) i Hi). now apply mvdot_id. }
  eapply dlim_eq.
  - apply (d_rsum D (fun j t => W t i j * (fst phi j + t * fst d j)) 0
      (fun j => (2 * mmdot D V (mmdot D (snd d) V) i j) * (fst phi j + 0 * fst d j) + W 0 i j * (0 + (1 * fst d j + 0 * 0)))).
    intros j Hj. apply (d_mult (fun t => W t i j) (fun t => fst phi j + t * fst d j)); [now apply DW|].
    apply d_plus; [apply d_const|]. apply (d_mult (fun t => t) (fun _ => fst d j)); [apply d_id|apply d_const].
  - rewrite EW. transitivity (2 * mvdot D (mmdot D V (mmdot D (snd d) V)) (fst phi) i + mvdot D V (fst d) i).
    { unfold mvdot. rewrite <- rsum_scal, <- rsum_plus. apply rsum_ext. intros; ring. }
    rewrite (mvdot_add D V _ _ i Hi). unfold add_v. rewrite (mvdot_scal_r D V _ _ i Hi). unfold scal_v.
    assert (EM : veq D (mvdot D V (fst phi)) (fst (gm_u D phi))).
    { intros k Hk. destruct (Sp 0 R0) as (Hm & _). rewrite gline0, E0 in Hm.
      rewrite <- (mvdot_ext D V V _ _ (meq_refl D V) Hm k Hk), (mvdot_assoc D _ _ _ k Hk).
      rewrite (mvdot_ext D _ identity _ _ (proj2 I0) (veq_refl D _) k Hk). now apply mvdot_id. }
    rewrite <- (mvdot_assoc D V (mmdot D (snd d) V) (fst phi) i Hi).
    rewrite (mvdot_ext D V V (mvdot D (mmdot D (snd d) V) (fst phi)) (mvdot D (snd d) (fst (gm_u D phi))) (meq_refl D V)); [ring| |exact Hi].
    intros k Hk. rewrite <- (mvdot_assoc D (snd d) V (fst phi) k Hk). now apply mvdot_ext.
Qed.

(** ** Algebra of the gradient formula *)
Lemma innerv_sym : forall n V a b, symmetric n V -> innerv n a (mvdot n V b) = innerv n b (mvdot n V a).
Proof. intros n V a b S. rewrite <- !bilinear_mv. now apply bilinear_comm. Qed.
Lemma mmdot_outer_r : forall n A a b, meq n (mmdot n A (outerv a b)) (outerv (mvdot n A a) b).
Proof. intros n A a b i j _ _. unfold mmdot, outerv, mvdot. rewrite <- rsum_scal_r. apply rsum_ext. intros; ring. Qed.
Lemma mmdot_outer_l : forall n A a b, symmetric n A -> meq n (mmdot n (outerv a b) A) (outerv a (mvdot n A b)).
Proof.
  intros n A a b S i j Hi Hj. unfold mmdot, outerv, mvdot. rewrite <- rsum_scal. apply rsum_ext. intros k Hk.
  rewrite (S k j Hk Hj). ring.
Qed.
Lemma mmdot_add_r : forall n A B C, meq n (mmdot n A (add_m B C)) (add_m (mmdot n A B) (mmdot n A C)).
Proof. intros n A B C i j _ _. unfold mmdot, add_m. rewrite <- rsum_plus. apply rsum_ext. intros; ring. Qed.
Lemma mmdot_add_l : forall n A B C, meq n (mmdot n (add_m A B) C) (add_m (mmdot n A C) (mmdot n B C)).
Proof. intros n A B C i j _ _. unfold mmdot, add_m. rewrite <- rsum_plus. apply rsum_ext. intros; ring. Qed.
Lemma outerv_ext : forall n a a' b b', veq n a a' -> veq n b b' -> meq n (outerv a b) (outerv a' b').
Proof. intros n a a' b b' H1 H2 i j Hi Hj. unfold outerv. now rewrite H1, H2. Qed.
Lemma innerm_cycle : forall n G E V, symmetric n V ->
  innerm n G (mmdot n V (mmdot n E V)) = innerm n E (mmdot n V (mmdot n G V)).
Proof.
  intros n G E V S. unfold innerm, mmdot.
  transitivity (rsum n (fun i => rsum n (fun j => rsum n (fun k => rsum n (fun l => G i j * V i k * E k l * V l j))))).
  { apply rsum_ext. intros i Hi. apply rsum_ext. intros j Hj. rewrite <- rsum_scal. apply rsum_ext. intros k Hk.
    rewrite <- !rsum_scal. apply rsum_ext. intros; ring. }
  transitivity (rsum n (fun k => rsum n (fun l => rsum n (fun i => rsum n (fun j => G i j * V i k * E k l * V l j))))).
  { transitivity (rsum n (fun i => rsum n (fun k => rsum n (fun l => rsum n (fun j => G i j * V i k * E k l * V l j))))).
    - apply rsum_ext. intros i Hi. rewrite rsum_swap. apply rsum_ext. intros k Hk. apply rsum_swap.
    - rewrite rsum_swap. apply rsum_ext. intros k Hk. apply rsum_swap. }
  apply rsum_ext. intros k Hk. apply rsum_ext. intros l Hl. rewrite <- rsum_scal. apply rsum_ext. intros i Hi.
  rewrite <- !rsum_scal. apply rsum_ext. intros j Hj. rewrite (S k i Hk Hi), (S j l Hj Hl). ring.
Qed.
Lemma xgx : forall n m V G, symmetric n V -> symmetric n G ->
  meq n (mmdot n (add_m V (outerv m m)) (mmdot n G (add_m V (outerv m m))))
    (add_m (add_m (mmdot n V (mmdot n G V)) (outerv (mvdot n V (mvdot n G m)) m))
       (add_m (outerv m (mvdot n V (mvdot n G m))) (scal_m (innerv n (mvdot n G m) m) (outerv m m)))).
Proof.
  intros n m V G SV SG i j Hi Hj.
  rewrite (mmdot_add_l n _ _ _ i j Hi Hj). unfold add_m at 1. unfold add_m at 3. f_equal.
  - rewrite (mmdot_ext n V V _ _ (meq_refl n V) (mmdot_add_r n G V (outerv m m)) i j Hi Hj).
    rewrite (mmdot_add_r n _ _ _ i j Hi Hj). unfold add_m. f_equal.
    rewrite (mmdot_ext n V V _ _ (meq_refl n V) (mmdot_outer_r n G m m) i j Hi Hj). now apply mmdot_outer_r.
  - rewrite (mmdot_ext n _ _ _ _ (meq_refl n (outerv m m)) (mmdot_add_r n G V (outerv m m)) i j Hi Hj).
    rewrite (mmdot_add_r n _ _ _ i j Hi Hj). unfold add_m. f_equal.
    + unfold mmdot, outerv. rewrite (rsum_ext n _ (fun k => m i * (m k * rsum n (fun l => G k l * V l j)))) by (intros; ring).
      rewrite rsum_scal. f_equal. unfold mvdot.
      transitivity (rsum n (fun k => rsum n (fun l => m k * G k l * V l j))).
      { apply rsum_ext. intros k Hk. rewrite <- rsum_scal. apply rsum_ext. intros; ring. }
      rewrite rsum_swap. apply rsum_ext. intros l Hl. rewrite <- rsum_scal. apply rsum_ext. intros k Hk.
      rewrite (SG k l Hk Hl), (SV l j Hl Hj). ring.
    + rewrite (mmdot_ext n _ _ _ _ (meq_refl n (outerv m m)) (mmdot_outer_r n G m m) i j Hi Hj).
      unfold mmdot, outerv, scal_m, innerv.
      rewrite (rsum_ext n _ (fun k => (m i * m j) * (mvdot n G m k * m k))) by (intros; ring). rewrite rsum_scal. ring.
Qed.

Lemma gradient_algebra : forall D (d g u : vec * mat), symmetric D (covariance u) -> symmetric D (snd d) -> symmetric D (snd g) ->
  let V := covariance u in let m := fst u in
  let m' := mvdot D V (add_v (fst d) (scal_v 2 (mvdot D (snd d) m))) in
  innerv D (fst g) m' + (2 * innerm D (snd g) (mmdot D V (mmdot D (snd d) V)) + 2 * innerv D m' (mvdot D (snd g) m)) =
  innerv D (fst d) (fst (gaussian_gradient D g u)) + innerm D (snd d) (snd (gaussian_gradient D g u)).
Proof.
  intros D [d0 d1] [g0 g1] [m xx] SV Sd Sg V m1 m'. unfold m1 in *. cbn [fst snd] in *. unfold gaussian_gradient. cbn [fst snd].
  change (sub_m xx (outerv m m)) with V.
  assert (EM : forall a, innerv D a m' = innerv D d0 (mvdot D V a) + 2 * innerv D (mvdot D V a) (mvdot D d1 m)).
  { intros a. unfold m'. rewrite (innerv_sym D V a) by exact SV. rewrite innerv_add_l. f_equal.
    unfold scal_v. rewrite innerv_comm. unfold innerv. rewrite <- rsum_scal. apply rsum_ext. intros; ring. }
  rewrite EM, (innerv_comm D m' _), EM. rewrite innerv_add_r.
  replace (innerv D d0 (scal_v 2 (mvdot D V (mvdot D g1 m)))) with (2 * innerv D d0 (mvdot D V (mvdot D g1 m)))
    by (unfold innerv, scal_v; rewrite <- rsum_scal; apply rsum_ext; intros; ring).
  set (a := mvdot D V g0). set (b := mvdot D V (mvdot D g1 m)).
  assert (XX : meq D (mmdot D xx (mmdot D g1 xx))
    (add_m (add_m (mmdot D V (mmdot D g1 V)) (outerv b m)) (add_m (outerv m b) (scal_m (innerv D (mvdot D g1 m) m) (outerv m m))))).
  { assert (EX : xx = add_m V (outerv m m)).
    { extensionality i. extensionality j. unfold add_m, V, covariance, sub_m. cbn [fst snd]. ring. }
    pose proof (xgx D m V g1 SV Sg) as X. fold b in X. rewrite <- EX in X. exact X. }
  assert (TR : innerm D d1 (fun i j => outerv a m i j + transpose (outerv a m) i j + 2 * mmdot D xx (mmdot D g1 xx) i j
                 - 2 * outerv m m i j * innerv D (mvdot D g1 m) m)
     = innerm D d1 (add_m (add_m (outerv a m) (outerv m a)) (scal_m 2 (add_m (mmdot D V (mmdot D g1 V)) (add_m (outerv b m) (outerv m b)))))).
  { apply innerm_ext; [apply meq_refl|]. intros i j Hi Hj. rewrite (XX i j Hi Hj). unfold add_m, scal_m, transpose, outerv. ring. }
  rewrite TR, innerm_add_r, innerm_scal_r, !innerm_add_r, !innerm_outer.
  rewrite (bilinear_comm D d1 m a), (bilinear_comm D d1 m b), !bilinear_mv by exact Sd.
  rewrite (innerm_cycle D g1 d1 V SV). ring.
Qed.

Lemma gm_u_deriv : forall D (phi d g : vec * mat), symmetric D (snd phi) -> symmetric D (snd d) -> symmetric D (snd g) ->
  posdef D (scal_m (-2) (snd phi)) ->
  derivable_pt_lim (fun t => let u := gm_u D (gline phi d t) in innerv D (fst g) (fst u) + innerm D (snd g) (snd u)) 0
    (innerv D (fst d) (fst (gaussian_gradient D g (gm_u D phi))) + innerm D (snd d) (snd (gaussian_gradient D g (gm_u D phi)))).
Proof.
  intros D phi d g Sy Sd Sg P. destruct (cov_deriv D phi d Sy Sd P) as [DV Dm].
  set (u := fun t => gm_u D (gline phi d t)) in *.
  assert (E0 : u 0 = gm_u D phi) by (unfold u; now rewrite gline0).
  set (V := covariance (gm_u D phi)) in *. set (m := fst (gm_u D phi)) in *.
  set (m' := mvdot D V (add_v (fst d) (scal_v 2 (mvdot D (snd d) m)))) in *.
  assert (SV : symmetric D V).
  { destruct (gm_near D phi d Sy P) as (r & Hr & K & _). specialize (K 0 ltac:(rewrite Rabs_R0; lra)). rewrite gline0 in K.
    destruct (gm_spec D phi _ _ Sy K) as [_ (_ & I & _)]. apply (@inverse_symmetric D (scal_m (-2) (snd phi))); [now apply symmetric_scal|exact I]. }
  rewrite <- (gradient_algebra D d g (gm_u D phi) SV Sd Sg). fold V m m'.
  eapply dlim_eq.
  - apply (d_plus (fun t => rsum D (fun i => fst g i * fst (u t) i))
      (fun t => rsum D (fun i => rsum D (fun j => snd g i j * snd (u t) i j)))).
    + apply (d_rsum D (fun i t => fst g i * fst (u t) i) 0 (fun i => fst g i * m' i)). intros i Hi. apply d_scal. now apply Dm.
    + apply (d_rsum D (fun i t => rsum D (fun j => snd g i j * snd (u t) i j)) 0
        (fun i => rsum D (fun j => snd g i j * (2 * mmdot D V (mmdot D (snd d) V) i j + (m' i * m j + m i * m' j))))).
      intros i Hi. apply (d_rsum D (fun j t => snd g i j * snd (u t) i j) 0
        (fun j => snd g i j * (2 * mmdot D V (mmdot D (snd d) V) i j + (m' i * m j + m i * m' j)))). intros j Hj. apply d_scal.
      apply (dlim_ext (fun t => covariance (u t) i j + fst (u t) i * fst (u t) j)).
      { intros t. unfold covariance, sub_m, outerv. ring. }
      apply d_plus; [now apply DV|]. eapply dlim_eq; [apply (d_mult (fun t => fst (u t) i) (fun t => fst (u t) j)); now apply Dm|].
      rewrite E0. reflexivity.
  - f_equal. transitivity (2 * innerm D (snd g) (mmdot D V (mmdot D (snd d) V)) + (innerm D (snd g) (outerv m' m) + innerm D (snd g) (outerv m m'))).
    + unfold innerm. rewrite <- rsum_scal, <- !rsum_plus. apply rsum_ext. intros i Hi.
      rewrite <- rsum_scal, <- !rsum_plus. apply rsum_ext. intros j Hj. unfold outerv. ring.
    + rewrite !innerm_outer, (bilinear_comm D _ m m'), !bilinear_mv by exact Sg. ring.
Qed.
