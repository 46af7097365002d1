(** C44: the moments of Gaussian nodes, translation and rotation of their posterior. *)
From Coq Require Import List Arith Lia Bool Reals Lra FunctionalExtensionality.
From Verif Require Import Base NumPy TensorLemmas MarkovLemmas Families SpecFamilies FamiliesLemmas
  Linalg MatBridge SpecLinalg LinalgLemmas Gaussian SpecGaussian GaussLemmas GaussAlg PGaussian.
Import ListNotations.
Open Scope R_scope.

(** ** Matrices up to their entries *)
Lemma symmetric_ext : forall n A B, meq n A B -> symmetric n A -> symmetric n B.
Proof. intros n A B H S i j Hi Hj. rewrite <- !H by assumption. auto. Qed.
Lemma posdef_ext : forall n A B, meq n A B -> posdef n A -> posdef n B.
Proof.
  intros n A B H [S P]. split; [now apply (symmetric_ext n A)|]. intros x Hx.
  rewrite <- (bilinear_ext n A B x x x x H) by (intros ? ?; reflexivity). auto.
Qed.
Lemma is_inverse_ext : forall n A B V W, meq n A B -> meq n V W -> is_inverse n A V -> is_inverse n B W.
Proof.
  intros n A B V W H1 H2 [G1 G2]. split; intros i j Hi Hj.
  - rewrite <- (G1 i j Hi Hj). symmetry. now apply mmdot_ext.
  - rewrite <- (G2 i j Hi Hj). symmetry. now apply mmdot_ext.
Qed.
Lemma mvdot_id : forall n x, veq n (mvdot n identity x) x.
Proof.
  intros n x i Hi. unfold mvdot. rewrite (rsum_ext n _ (fun j => if j =? i then x i else 0)).
  - now apply (rsum_single n i (fun _ => x i)).
  - intros j Hj. unfold identity. rewrite (Nat.eqb_sym i j). destruct (Nat.eqb_spec j i) as [->|]; ring.
Qed.
Lemma solve_unique : forall n A V x y, is_inverse n A V -> veq n (mvdot n A x) (mvdot n A y) -> veq n x y.
Proof.
  intros n A V x y [_ G] H i Hi.
  assert (E : forall z, veq n (mvdot n V (mvdot n A z)) z).
  { intros z k Hk. rewrite (mvdot_assoc n V A z k Hk). transitivity (mvdot n identity z k); [|now apply mvdot_id].
    apply mvdot_ext; [exact G|intros ? ?; reflexivity|exact Hk]. }
  rewrite <- (E x i Hi), <- (E y i Hi). apply mvdot_ext; [intros ? ? ? ?; reflexivity|exact H|exact Hi].
Qed.
Lemma mvdot_add : forall n A x y, veq n (mvdot n A (add_v x y)) (add_v (mvdot n A x) (mvdot n A y)).
Proof. intros n A x y i Hi. unfold mvdot, add_v. rewrite <- rsum_plus. apply rsum_ext. intros; ring. Qed.
Lemma mvdot_scal_r : forall n A c x, veq n (mvdot n A (scal_v c x)) (scal_v c (mvdot n A x)).
Proof. intros n A c x i Hi. unfold mvdot, scal_v. rewrite <- rsum_scal. apply rsum_ext. intros; ring. Qed.
Lemma mvdot_scal_l : forall n A c x, veq n (mvdot n (scal_m c A) x) (scal_v c (mvdot n A x)).
Proof. intros n A c x i Hi. unfold mvdot, scal_v, scal_m. rewrite <- rsum_scal. apply rsum_ext. intros; ring. Qed.
Lemma dot3_scal : forall n c A B C, meq n (scal_m c (dot3 n A B C)) (dot3 n A (scal_m c B) C).
Proof.
  intros n c A B C i j Hi Hj. unfold scal_m, dot3, mmdot. rewrite <- rsum_scal. apply rsum_ext. intros k Hk.
  rewrite <- Rmult_assoc. f_equal. rewrite <- rsum_scal. apply rsum_ext. intros; ring.
Qed.
Lemma dot3_ext : forall n A B B' C, meq n B B' -> meq n (dot3 n A B C) (dot3 n A B' C).
Proof.
  intros n A B B' C H. unfold dot3. apply mmdot_ext; [apply mmdot_ext; [|exact H]|]; intros ? ? ? ?; reflexivity.
Qed.
Lemma dot3_mv : forall n A B C x, veq n (mvdot n (dot3 n A B C) x) (mvdot n A (mvdot n B (mvdot n C x))).
Proof.
  intros n A B C x i Hi. unfold dot3. rewrite <- (mvdot_assoc n (mmdot n A B) C x i Hi).
  rewrite <- (mvdot_assoc n A B (mvdot n C x) i Hi). reflexivity.
Qed.
Lemma innerv_tr : forall n S x y, innerv n x (mvdot n (transpose S) y) = innerv n (mvdot n S x) y.
Proof.
  intros n S x y. unfold innerv, mvdot, transpose.
  transitivity (rsum n (fun i => rsum n (fun j => x i * S j i * y j))).
  { apply rsum_ext. intros i Hi. rewrite <- rsum_scal. apply rsum_ext. intros; ring. }
  rewrite rsum_swap. apply rsum_ext. intros j Hj. rewrite <- rsum_scal_r. apply rsum_ext. intros; ring.
Qed.
Lemma bilinear_congr : forall n A S x, bilinear n (dot3 n (transpose S) A S) x x = bilinear n A (mvdot n S x) (mvdot n S x).
Proof.
  intros n A S x. rewrite !bilinear_mv, (innerv_ext n x x _ _ (fun _ _ => eq_refl) (dot3_mv n (transpose S) A S x)).
  apply innerv_tr.
Qed.
Lemma posdef_congr : forall n A Q S, posdef n A -> is_inverse n Q S -> posdef n (dot3 n (transpose S) A S).
Proof.
  intros n A Q S [Sy P] I. split; [now apply congr_symmetric|]. intros x [i [Hi Hx]]. rewrite bilinear_congr. apply P.
  destruct (Classical_Prop.classic (nonzero n (mvdot n S x))) as [|N]; [assumption|]. exfalso. apply Hx.
  assert (veq n x (fun _ => 0)).
  { apply (solve_unique n S Q x (fun _ => 0)); [now apply inverse_sym|]. intros k Hk.
    destruct (Req_dec (mvdot n S x k) 0) as [->|N']; [|exfalso; apply N; now exists k].
    unfold mvdot. rewrite (rsum_ext n _ (fun _ => 0)) by (intros; ring). symmetry. apply rsum_0. }
  now apply H.
Qed.

(** ** The moments *)

(** The state of a Gaussian node: the mean solves Lambda m = phi0, the covariance is
    the inverse of Lambda = -2 phi1, and g is minus the log-normaliser. *)
Definition normal_moments (D : nat) (phi u : vec * mat) (g : R) : Prop :=
  let Lambda := scal_m (-2) (snd phi) in
  veq D (mvdot D Lambda (fst u)) (fst phi) /\
  is_inverse D Lambda (sub_m (snd u) (outerv (fst u) (fst u))) /\
  0 < mdet D Lambda /\
  g = - bilinear D Lambda (fst u) (fst u) / 2 + ln (mdet D Lambda) / 2.

Lemma gm_unique : forall D (phi : vec * mat) m V, posdef D (scal_m (-2) (snd phi)) ->
  veq D (mvdot D (scal_m (-2) (snd phi)) m) (fst phi) -> is_inverse D (scal_m (-2) (snd phi)) V ->
  exists m' S' g', gaussian_moments D phi = Ok ((m', S'), g') /\
    veq D m' m /\ meq D S' (add_m V (outerv m m)) /\
    g' = - innerv D m (fst phi) / 2 + ln (mdet D (scal_m (-2) (snd phi))) / 2.
Proof.
  intros D phi m V P Hm HV. destruct (posdef_chol D _ P) as [U E].
  unfold gaussian_moments, chol. rewrite E. cbn [bind]. do 3 eexists. split; [reflexivity|].
  assert (Em : veq D (chol_solve D U (fst phi)) m).
  { apply (solve_unique D (scal_m (-2) (snd phi)) V); [exact HV|]. intros i Hi.
    rewrite (Hm i Hi). apply (cho_factor_solve D _ U (fst phi) (proj1 P) E i Hi). }
  split; [exact Em|]. split.
  - intros i j Hi Hj. unfold add_m, outerv. rewrite (Em i Hi), (Em j Hj).
    now rewrite (inverse_unique D _ _ _ (chol_inv_ok D _ U (proj1 P) E) (proj1 HV) i j Hi Hj).
  - rewrite (proj2 (chol_logdet_ok D _ U (proj1 P) E)), (innerv_ext D _ m _ (fst phi) Em (fun _ _ => eq_refl)). lra.
Qed.

Lemma gm_spec : forall D (phi u : vec * mat) g, symmetric D (snd phi) -> gaussian_moments D phi = Ok (u, g) ->
  posdef D (scal_m (-2) (snd phi)) /\ normal_moments D phi u g.
Proof.
  intros D phi u g Sy H.
  destruct (chol_cases D (scal_m (-2) (snd phi)) (symmetric_scal D (-2) _ Sy)) as [(P & U & E & E')|[_ E']];
    unfold gaussian_moments in H; rewrite E' in H; [|discriminate]. cbn [bind] in H.
  split; [exact P|]. injection H as <- <-. unfold normal_moments. cbn [fst snd].
  set (L := scal_m (-2) (snd phi)) in *. set (m := chol_solve D U (fst phi)).
  assert (Em : veq D (mvdot D L m) (fst phi)) by (apply (cho_factor_solve D _ U (fst phi) (proj1 P) E)).
  destruct (chol_logdet_ok D _ U (proj1 P) E) as [Dp Dl].
  repeat split; auto.
  - apply (is_inverse_ext D L L (chol_inv D U)); [intros ? ? ? ?; reflexivity| |exact (chol_inv_ok D _ U (proj1 P) E)].
    intros i j Hi Hj. unfold sub_m, add_m. ring.
  - apply (is_inverse_ext D L L (chol_inv D U)); [intros ? ? ? ?; reflexivity| |exact (chol_inv_ok D _ U (proj1 P) E)].
    intros i j Hi Hj. unfold sub_m, add_m. ring.
  - rewrite Dl, bilinear_mv, (innerv_ext D m m _ (fst phi) (fun _ _ => eq_refl) Em). lra.
Qed.

(** compute_moments_and_cgf raises exactly when Lambda is not positive definite;
    otherwise mean and covariance are those of the normal distribution with the given
    natural parameters, and exp(<phi, u(x)> + g + f(x)) is the density of that normal
    distribution. *)
Theorem C44_gaussian_moments : forall D (phi : vec * mat), symmetric D (snd phi) ->
  let Lambda := scal_m (-2) (snd phi) in
  (~ posdef D Lambda -> gaussian_moments D phi = Err PyException) /\
  (posdef D Lambda -> exists u g,
     gaussian_moments D phi = Ok (u, g) /\ normal_moments D phi u g /\
     forall x, let '(ux, f) := gaussian_fixed D x in
       innerv D (fst phi) (fst ux) + innerm D (snd phi) (snd ux) + g + f
       = ln (normal_pdf D (fst u) Lambda x)).
Proof.
  intros D phi Sy Lambda.
  destruct (chol_cases D Lambda (symmetric_scal D (-2) _ Sy)) as [(P & U & E & E')|[N E']]; split; intros H; try contradiction.
  - unfold gaussian_moments. fold Lambda. rewrite E'. cbn [bind]. do 2 eexists. split; [reflexivity|].
    assert (G : gaussian_moments D phi = Ok ((chol_solve D U (fst phi), add_m (chol_inv D U) (outerv (chol_solve D U (fst phi)) (chol_solve D U (fst phi)))),
       -0.5 * innerv D (chol_solve D U (fst phi)) (fst phi) + 0.5 * chol_logdet D U)).
    { unfold gaussian_moments. fold Lambda. rewrite E'. reflexivity. }
    destruct (gm_spec D phi _ _ Sy G) as [_ NM]. split; [exact NM|]. intros x. cbn [gaussian_fixed fst snd].
    unfold normal_moments in NM. cbn [fst snd] in NM. fold Lambda in NM. destruct NM as (Hm & _ & Hd & ->).
    set (m := chol_solve D U (fst phi)) in *.
    rewrite ln_normal, bilinear_sub by (auto; apply P). rewrite innerm_outer.
    rewrite (innerv_ext D (fst phi) (mvdot D Lambda m) x x (fun i Hi => eq_sym (Hm i Hi)) (fun _ _ => eq_refl)).
    rewrite innerv_comm, <- bilinear_mv. replace (bilinear D Lambda x x) with (-2 * bilinear D (snd phi) x x) by (unfold Lambda; now rewrite bilinear_scal). field.
  - unfold gaussian_moments. fold Lambda. rewrite E'. reflexivity.
Qed.
Print Assumptions C44_gaussian_moments.

(** GaussianARD: the same moments and g. *)
Theorem C44_ard_moments : forall D (phi : vec * mat), symmetric D (snd phi) ->
  (forall u g, ard_moments D phi = Ok (u, g) ->
     posdef D (scal_m (-2) (snd phi)) /\ normal_moments D phi u g) /\
  (posdef D (scal_m (-2) (snd phi)) -> exists u g, ard_moments D phi = Ok (u, g)).
Proof.
  intros D phi Sy. split.
  - intros u g H. unfold ard_moments in H. destruct (chol D (scal_m (-2) (snd phi))) as [U|] eqn:E; [|discriminate]. cbn [bind] in H.
    injection H as <- <-.
    destruct (gm_spec D phi (chol_solve D U (fst phi), add_m (chol_inv D U) (outerv (chol_solve D U (fst phi)) (chol_solve D U (fst phi))))
       (-0.5 * innerv D (chol_solve D U (fst phi)) (fst phi) + 0.5 * chol_logdet D U) Sy) as [P (H1 & H2 & H3 & H4)].
    { unfold gaussian_moments. rewrite E. reflexivity. }
    split; [exact P|]. cbn [fst snd] in *. unfold normal_moments. cbn [fst snd]. split; [exact H1|]. split; [|split; [exact H3|exact H4]].
    refine (is_inverse_ext D _ _ _ _ (fun _ _ _ _ => eq_refl) _ H2). intros i j Hi Hj. unfold sub_m, add_m. ring.
  - intros P. destruct (posdef_chol D _ P) as [U E]. unfold ard_moments, chol. rewrite E. cbn. eauto.
Qed.
Print Assumptions C44_ard_moments.

(** Scalar GaussianARD: mean -phi0/(2 phi1), variance -1/(2 phi1). *)
Theorem C44_ard_scalar_moments : forall phi0 phi1,
  (0 <= phi1 -> exists e, ard0_moments (phi0, phi1) = Err e) /\
  (phi1 < 0 -> exists m v,
     ard0_moments (phi0, phi1) = Ok ((m, m ^ 2 + v), - (m ^ 2 / v) / 2 - ln v / 2) /\
     0 < v /\ v * (-2 * phi1) = 1 /\ m = v * phi0 /\
     forall x, phi0 * x + phi1 * x ^ 2 + (- (m ^ 2 / v) / 2 - ln v / 2) - ln (2 * PI) / 2
               = ln (normal1_pdf m (/ v) x)).
Proof.
  intros phi0 phi1. unfold ard0_moments. cbn [fst snd]. destruct (Rle_dec (-2 * phi1) 0); split; intros H; try lra.
  - eauto.
  - set (v := / (-2 * phi1)). assert (Hv : 0 < v) by (apply Rinv_0_lt_compat; lra).
    assert (V1 : v * (-2 * phi1) = 1) by (unfold v; field; lra).
    exists (v * phi0), v. split.
    + f_equal. f_equal; [f_equal|].
      * unfold v. field. lra.
      * unfold v. field. lra.
      * replace (ln v) with (- ln (-2 * phi1)) by (unfold v; rewrite ln_Rinv; lra). unfold v.
        replace (-0.5) with (- (1 / 2)) by lra. replace 0.5 with (1 / 2) by lra. field. lra.
    + split; [exact Hv|]. split; [exact V1|]. split; [reflexivity|]. intros x.
      pose proof PI_RGT_0. unfold normal1_pdf.
      assert (0 < / v) by now apply Rinv_0_lt_compat.
      assert (0 < / v / (2 * PI)) by (apply Rdiv_lt_0_compat; lra).
      rewrite (ln_mult (sqrt _)), ln_exp, ln_sqrt, ln_div, ln_Rinv by (auto using exp_pos, sqrt_lt_R0; lra).
      replace phi1 with (- / v / 2) by (unfold v; field; lra). field. lra.
Qed.
Print Assumptions C44_ard_scalar_moments.

(** ** Translation and rotation *)

(** Recomputing the moments from the new natural parameters gives the new moments
    and the new g. *)
Definition recomputed (D : nat) (moments : vec * mat -> res ((vec * mat) * R)) (phi u : vec * mat) (g : R) : Prop :=
  exists u', moments phi = Ok (u', g) /\ veq D (fst u') (fst u) /\ meq D (snd u') (snd u).

Lemma ard_gaussian : forall D phi u g, recomputed D (gaussian_moments D) phi u g -> recomputed D (ard_moments D) phi u g.
Proof.
  intros D phi u g (u' & H & E0 & E1). unfold gaussian_moments in H. destruct (chol D (scal_m (-2) (snd phi))) as [U|] eqn:E; [|discriminate].
  cbn [bind] in H. injection H as <- <-. unfold recomputed, ard_moments. rewrite E. cbn [bind]. eexists. split; [reflexivity|].
  split; [exact E0|]. intros i j Hi Hj. rewrite <- (E1 i j Hi Hj). cbn. unfold add_m. ring.
Qed.
Lemma gaussian_ard : forall D phi u g, ard_moments D phi = Ok (u, g) ->
  exists S, gaussian_moments D phi = Ok ((fst u, S), g) /\ meq D S (snd u).
Proof.
  intros D phi u g H. unfold ard_moments in H. unfold gaussian_moments.
  destruct (chol D (scal_m (-2) (snd phi))) as [U|]; [|discriminate]. cbn [bind] in *. injection H as <- <-.
  eexists. split; [reflexivity|]. intros i j Hi Hj. cbn. unfold add_m. ring.
Qed.

Lemma translate_ok : forall D b phi u g S, symmetric D (snd phi) -> gaussian_moments D phi = Ok ((fst u, S), g) -> meq D S (snd u) ->
  let '(u', phi', g') := gaussian_translate D b u phi g in recomputed D (gaussian_moments D) phi' u' g'.
Proof.
  intros D b phi [x xx] g S Sy H ES. cbn [fst snd] in *. destruct (gm_spec D phi _ g Sy H) as [P (Hm & HV & Hd & Hg)]. cbn [fst snd] in *.
  unfold gaussian_translate. cbn [fst snd]. set (L := scal_m (-2) (snd phi)) in *.
  destruct (gm_unique D (add_v (fst phi) (mvdot D L b), snd phi) (add_v x b) (sub_m S (outerv x x)) P) as (m' & S' & g' & E & E0 & E1 & Eg).
  - intros i Hi. cbn [fst snd]. fold L. rewrite (mvdot_add D L x b i Hi). unfold add_v. now rewrite (Hm i Hi).
  - exact HV.
  - cbn [fst snd] in *. exists (m', S'). cbn [fst snd]. split; [|split].
    + rewrite E. f_equal. f_equal. rewrite Eg, Hg. fold L.
      assert (EL : innerv D (add_v x b) (add_v (fst phi) (mvdot D L b)) = innerv D (add_v x b) (mvdot D L (add_v x b))).
      { apply innerv_ext; [intros ? ?; reflexivity|]. intros i Hi. rewrite (mvdot_add D L x b i Hi). unfold add_v. now rewrite (Hm i Hi). }
      rewrite EL.
      rewrite <- !bilinear_mv, bilinear_add by apply P. lra.
    + exact E0.
    + intros i j Hi Hj. rewrite (E1 i j Hi Hj). unfold add_m, sub_m, transpose, outerv, add_v. rewrite (ES i j Hi Hj). ring.
Qed.

Theorem C44_gaussian_translate : forall D b (phi u : vec * mat) g, symmetric D (snd phi) -> gaussian_moments D phi = Ok (u, g) ->
  let '(u', phi', g') := gaussian_translate D b u phi g in
  recomputed D (gaussian_moments D) phi' u' g' /\ veq D (fst u') (add_v (fst u) b) /\
  (forall i j, snd u' i j - fst u' i * fst u' j = snd u i j - fst u i * fst u j).
Proof.
  intros D b phi [x xx] g Sy H. pose proof (translate_ok D b phi (x, xx) g xx Sy H (fun _ _ _ _ => eq_refl)) as T.
  unfold gaussian_translate in *. cbn [fst snd] in *. split; [exact T|]. split; [intros ? ?; reflexivity|].
  intros i j. unfold add_m, add_v, outerv, transpose. ring.
Qed.
Print Assumptions C44_gaussian_translate.

Theorem C44_ard_translate : forall D b (phi u : vec * mat) g, symmetric D (snd phi) -> ard_moments D phi = Ok (u, g) ->
  let '(u', phi', g') := gaussian_translate D b u phi g in
  recomputed D (ard_moments D) phi' u' g' /\ veq D (fst u') (add_v (fst u) b).
Proof.
  intros D b phi [x xx] g Sy H. destruct (gaussian_ard D phi _ g H) as (S & H' & ES).
  pose proof (translate_ok D b phi (x, xx) g S Sy H' ES) as T.
  unfold gaussian_translate in *. cbn [fst snd] in *. split; [now apply ard_gaussian|]. intros ? ?; reflexivity.
Qed.
Print Assumptions C44_ard_translate.

Lemma rotate_logdet : forall D L Rm invR, is_inverse D Rm invR -> 0 < mdet D L ->
  mdet D Rm <> 0 /\ 0 < mdet D (dot3 D (transpose invR) L invR) /\
  ln (mdet D (dot3 D (transpose invR) L invR)) = ln (mdet D L) - 2 * ln (Rabs (mdet D Rm)).
Proof.
  intros D L Rm invR I Hd. pose proof (inverse_det I) as E. rewrite congr_det.
  assert (N : mdet D Rm <> 0) by (intros Z; rewrite Z in E; lra).
  assert (N' : mdet D invR = / mdet D Rm) by (rewrite <- (Rmult_1_r (/ _)), <- E; field; exact N).
  split; [exact N|]. pose proof (Rabs_pos_lt _ N) as A.
  assert (Q : mdet D invR * mdet D invR = / (Rabs (mdet D Rm) * Rabs (mdet D Rm))).
  { rewrite N', <- Rinv_mult. f_equal. rewrite <- Rabs_mult. symmetry. apply Rabs_right. apply Rle_ge, Rle_0_sqr. }
  rewrite Q. assert (0 < Rabs (mdet D Rm) * Rabs (mdet D Rm)) by now apply Rmult_lt_0_compat.
  split; [apply Rmult_lt_0_compat; [exact Hd|now apply Rinv_0_lt_compat]|].
  rewrite ln_mult, ln_Rinv, ln_mult by auto using Rinv_0_lt_compat. ring.
Qed.

Lemma dot3_outer : forall D Rm x, meq D (dot3 D Rm (outerv x x) (transpose Rm)) (outerv (mvdot D Rm x) (mvdot D Rm x)).
Proof.
  intros D Rm x i j Hi Hj. unfold dot3, mmdot, outerv, mvdot, transpose.
  rewrite (rsum_ext D _ (fun k => rsum D (fun l => Rm i l * x l) * (Rm j k * x k))).
  - apply rsum_scal.
  - intros k Hk. rewrite <- (rsum_ext D (fun l => Rm i l * x l * x k)) by (intros; ring). rewrite rsum_scal_r. ring.
Qed.
Lemma dot3_sub : forall n A B B' C, meq n (dot3 n A (sub_m B B') C) (sub_m (dot3 n A B C) (dot3 n A B' C)).
Proof.
  intros n A B B' C i j Hi Hj. unfold dot3, sub_m, mmdot. rewrite <- rsum_minus. apply rsum_ext. intros k Hk.
  rewrite <- Rmult_minus_distr_r. f_equal. rewrite <- rsum_minus. apply rsum_ext. intros; ring.
Qed.

Lemma rotate_ok : forall D Rm invR phi u g S, symmetric D (snd phi) -> is_inverse D Rm invR ->
  gaussian_moments D phi = Ok ((fst u, S), g) -> meq D S (snd u) ->
  let '(u', phi', g') := gaussian_rotate D Rm invR (ln (Rabs (mdet D Rm))) u phi g in
  recomputed D (gaussian_moments D) phi' u' g'.
Proof.
  intros D Rm invR phi [x xx] g S Sy I H ES. cbn [fst snd] in *. destruct (gm_spec D phi _ g Sy H) as [P (Hm & HV & Hd & Hg)]. cbn [fst snd] in *.
  unfold gaussian_rotate. cbn [fst snd]. set (L := scal_m (-2) (snd phi)) in *.
  pose proof (dot3_scal D (-2) (transpose invR) (snd phi) invR) as ML. fold L in ML.
  assert (ML' : meq D (dot3 D (transpose invR) L invR) (scal_m (-2) (dot3 D (transpose invR) (snd phi) invR)))
    by (intros i j Hi Hj; symmetry; now apply ML).
  destruct (gm_unique D (mvdot D (transpose invR) (fst phi), dot3 D (transpose invR) (snd phi) invR) (mvdot D Rm x)
     (dot3 D Rm (sub_m S (outerv x x)) (transpose Rm))) as (m' & S' & g' & E & E0 & E1 & Eg); cbn [fst snd].
  - apply (posdef_ext D _ _ ML'). now apply (posdef_congr D L Rm invR).
  - intros i Hi. rewrite (mvdot_ext D _ _ _ _ ML (fun _ _ => eq_refl) i Hi). now apply (@congr_solve D L Rm invR).
  - apply (is_inverse_ext D _ _ _ _ ML' (fun _ _ _ _ => eq_refl)). now apply congr_inverse.
  - cbn [fst snd] in *. exists (m', S'). cbn [fst snd]. split; [|split].
    + rewrite E. f_equal. f_equal. rewrite Eg, Hg, (mdet_ext ML).
      destruct (rotate_logdet D L Rm invR I Hd) as (_ & _ & ->).
      rewrite innerv_tr. replace (innerv D (mvdot D invR (mvdot D Rm x)) (fst phi)) with (bilinear D L x x); [lra|].
      rewrite bilinear_mv. apply innerv_ext; [|exact Hm]. intros i Hi. rewrite (mvdot_assoc D invR Rm x i Hi).
      transitivity (mvdot D identity x i); [symmetry; now apply mvdot_id|]. symmetry. apply mvdot_ext; [apply I|intros ? ?; reflexivity|exact Hi].
    + exact E0.
    + intros i j Hi Hj. rewrite (E1 i j Hi Hj). unfold add_m. rewrite (dot3_sub D Rm S (outerv x x) (transpose Rm) i j Hi Hj).
      unfold sub_m. rewrite (dot3_outer D Rm x i j Hi Hj), (dot3_ext D Rm S xx (transpose Rm) ES i j Hi Hj). ring.
Qed.

Theorem C44_gaussian_rotate : forall D Rm invR (phi u : vec * mat) g, symmetric D (snd phi) -> is_inverse D Rm invR ->
  gaussian_moments D phi = Ok (u, g) ->
  let '(u', phi', g') := gaussian_rotate D Rm invR (ln (Rabs (mdet D Rm))) u phi g in
  recomputed D (gaussian_moments D) phi' u' g' /\ fst u' = mvdot D Rm (fst u).
Proof.
  intros D Rm invR phi [x xx] g Sy I H.
  pose proof (rotate_ok D Rm invR phi (x, xx) g xx Sy I H (fun _ _ _ _ => eq_refl)) as T.
  unfold gaussian_rotate in *. cbn [fst snd] in *. now split.
Qed.
Print Assumptions C44_gaussian_rotate.

Lemma rotate_covariance_dot3 : forall D Cov Rm, meq D (rotate_covariance D Cov Rm) (dot3 D Rm Cov (transpose Rm)).
Proof.
  intros D Cov Rm i j Hi Hj. unfold rotate_covariance, right_rotate_covariance, left_rotate_covariance, dot3, mmdot, transpose.
  apply rsum_ext. intros k Hk. ring.
Qed.

Lemma gm_ext : forall D (phi phi' u : vec * mat) g, symmetric D (snd phi) -> veq D (fst phi) (fst phi') -> meq D (snd phi) (snd phi') ->
  recomputed D (gaussian_moments D) phi u g -> recomputed D (gaussian_moments D) phi' u g.
Proof.
  intros D phi phi' u g Sy E0 E1 (u' & H & Q0 & Q1). destruct (gm_spec D phi _ g Sy H) as [P (Hm & HV & Hd & Hg)].
  assert (ML : meq D (scal_m (-2) (snd phi)) (scal_m (-2) (snd phi'))) by (intros i j Hi Hj; unfold scal_m; now rewrite E1).
  destruct (gm_unique D phi' (fst u') (sub_m (snd u') (outerv (fst u') (fst u')))) as (m' & S' & g' & E & F0 & F1 & Eg).
  - now apply (posdef_ext D _ _ ML).
  - intros i Hi. rewrite <- (E0 i Hi), <- (Hm i Hi). symmetry. apply mvdot_ext; [exact ML|intros ? ?; reflexivity|exact Hi].
  - now apply (is_inverse_ext D _ _ _ _ ML (fun _ _ _ _ => eq_refl)).
  - exists (m', S'). cbn [fst snd]. split; [|split].
    + rewrite E. f_equal. f_equal. rewrite Eg, Hg, (mdet_ext ML).
      assert (EL : bilinear D (scal_m (-2) (snd phi)) (fst u') (fst u') = innerv D (fst u') (fst phi')).
      { rewrite bilinear_mv. apply innerv_ext; [intros ? ?; reflexivity|]. intros i Hi. rewrite (Hm i Hi). apply (E0 i Hi). }
      rewrite EL. lra.
    + intros i Hi. now rewrite (F0 i Hi), (Q0 i Hi).
    + intros i j Hi Hj. rewrite (F1 i j Hi Hj), <- (Q1 i j Hi Hj). unfold add_m, sub_m. ring.
Qed.

Theorem C44_ard_rotate : forall D Rm invR (phi u : vec * mat) g, symmetric D (snd phi) -> is_inverse D Rm invR ->
  ard_moments D phi = Ok (u, g) ->
  let '(u', phi', g') := ard_rotate D Rm invR (ln (Rabs (mdet D Rm))) u phi g in
  recomputed D (ard_moments D) phi' u' g' /\ fst u' = mvdot D Rm (fst u).
Proof.
  intros D Rm invR phi u g Sy I H. destruct (gaussian_ard D phi u g H) as (S & H' & ES).
  pose proof (rotate_ok D Rm invR phi u g S Sy I H' ES) as T.
  unfold ard_rotate, gaussian_rotate in *. cbn [fst snd] in *. split; [|reflexivity]. apply ard_gaussian.
  assert (MC : meq D (dot3 D (transpose invR) (snd phi) invR) (rotate_covariance D (snd phi) (transpose invR))).
  { intros i j Hi Hj. symmetry. exact (rotate_covariance_dot3 D (snd phi) (transpose invR) i j Hi Hj). }
  pose proof (gm_ext D (mvdot D (transpose invR) (fst phi), dot3 D (transpose invR) (snd phi) invR) (rotate_mean D (fst phi) (transpose invR), rotate_covariance D (snd phi) (transpose invR)) _ _
    (@congr_symmetric D (snd phi) invR Sy) (fun _ _ => eq_refl) MC T) as (u' & G & Q0 & Q1).
  exists u'. split; [exact G|]. split; [exact Q0|]. cbn [fst snd] in *. intros i j Hi Hj. rewrite (Q1 i j Hi Hj). symmetry.
  apply (rotate_covariance_dot3 D (snd u) Rm i j Hi Hj).
Qed.
Print Assumptions C44_ard_rotate.

(** ** GaussianGamma *)

(** The moments are those of x | tau ~ N(mu, tau Lambda), tau ~ Gamma(a, b), where
    Lambda mu = phi0, Lambda = -2 phi1, a = phi3 and b = -phi2 - mu Lambda mu / 2. *)
Definition normal_gamma_moments (psi : R -> R) (D : nat) (phi u : vec * mat * R * R) : Prop :=
  let '(phi0, phi1, phi2, phi3) := phi in
  let '(u0, u1, u2, u3) := u in
  let Lambda := scal_m (-2) phi1 in
  exists mu Cov b,
    veq D (mvdot D Lambda mu) phi0 /\ is_inverse D Lambda Cov /\
    b = - phi2 - bilinear D Lambda mu mu / 2 /\ 0 < b /\
    veq D u0 (scal_v (phi3 / b) mu) /\
    meq D u1 (add_m Cov (scal_m (phi3 / b) (outerv mu mu))) /\
    u2 = phi3 / b /\ u3 = psi phi3 - ln b.
Definition gg_recomputed (D : nat) (moments : vec * mat * R * R -> res ((vec * mat * R * R) * R))
  (phi u : vec * mat * R * R) (g : R) : Prop :=
  exists v0 v1 v2 v3, moments phi = Ok ((v0, v1, v2, v3), g) /\
    let '(u0, u1, u2, u3) := u in veq D v0 u0 /\ meq D v1 u1 /\ v2 = u2 /\ v3 = u3.

Lemma gg_split : forall lg psi D phi0 phi1 phi2 phi3 u0 u1 u2 u3 g,
  gg_moments lg psi D (phi0, phi1, phi2, phi3) = Ok ((u0, u1, u2, u3), g) ->
  exists mu S g0, gaussian_moments D (phi0, phi1) = Ok ((mu, S), g0) /\
    let b := - phi2 - 0.5 * innerv D mu phi0 in
    0 < b /\ u0 = scal_v (phi3 / b) mu /\
    meq D u1 (add_m (sub_m S (outerv mu mu)) (scal_m (phi3 / b) (outerv mu mu))) /\
    u2 = phi3 / b /\ u3 = - ln b + psi phi3 /\
    g = g0 + 0.5 * innerv D mu phi0 + phi3 * ln b - lg phi3.
Proof.
  intros lg psi D phi0 phi1 phi2 phi3 u0 u1 u2 u3 g H. unfold gg_moments in H. unfold gaussian_moments. cbn [fst snd].
  destruct (chol D (scal_m (-2) phi1)) as [U|]; [|discriminate]. cbn [bind] in *.
  destruct (Rle_dec (- phi2 - 0.5 * innerv D (chol_solve D U phi0) phi0) 0) as [|N]; [discriminate|].
  injection H as <- <- <- <- <-. do 3 eexists. split; [reflexivity|]. cbv zeta.
  split; [lra|]. split; [reflexivity|]. split; [intros i j Hi Hj; unfold add_m, sub_m; ring|].
  split; [reflexivity|]. split; [reflexivity|]. lra.
Qed.
Lemma gg_join : forall lg psi D phi0 phi1 phi2 phi3 mu S g0,
  gaussian_moments D (phi0, phi1) = Ok ((mu, S), g0) ->
  let b := - phi2 - 0.5 * innerv D mu phi0 in
  0 < b ->
  exists u1, gg_moments lg psi D (phi0, phi1, phi2, phi3)
     = Ok ((scal_v (phi3 / b) mu, u1, phi3 / b, - ln b + psi phi3), g0 + 0.5 * innerv D mu phi0 + phi3 * ln b - lg phi3) /\
    meq D u1 (add_m (sub_m S (outerv mu mu)) (scal_m (phi3 / b) (outerv mu mu))).
Proof.
  intros lg psi D phi0 phi1 phi2 phi3 mu S g0 H b Hb. unfold gaussian_moments in H. unfold gg_moments. cbn [fst snd] in *.
  destruct (chol D (scal_m (-2) phi1)) as [U|]; [|discriminate]. cbn [bind] in *. injection H as <- <- <-. fold b.
  destruct (Rle_dec b 0) as [|N]; [lra|].
  eexists. split; [f_equal; f_equal; lra|]. intros i j Hi Hj. unfold add_m, sub_m. ring.
Qed.

Theorem C44_gaussian_gamma_moments : forall lg psi D phi0 phi1 phi2 phi3, symmetric D phi1 ->
  (forall u g, gg_moments lg psi D (phi0, phi1, phi2, phi3) = Ok (u, g) ->
     posdef D (scal_m (-2) phi1) /\ normal_gamma_moments psi D (phi0, phi1, phi2, phi3) u) /\
  (forall mu, posdef D (scal_m (-2) phi1) -> veq D (mvdot D (scal_m (-2) phi1) mu) phi0 ->
     0 < - phi2 - bilinear D (scal_m (-2) phi1) mu mu / 2 ->
     exists u g, gg_moments lg psi D (phi0, phi1, phi2, phi3) = Ok (u, g)).
Proof.
  intros lg psi D phi0 phi1 phi2 phi3 Sy. split.
  - intros [[[u0 u1] u2] u3] g H. destruct (gg_split _ _ _ _ _ _ _ _ _ _ _ _ H) as (mu & S & g0 & G & Hb & E0 & E1 & E2 & E3 & _).
    destruct (gm_spec D (phi0, phi1) (mu, S) g0 Sy G) as [P (Hm & HV & Hd & Hg)]. cbn [fst snd] in *.
    split; [exact P|]. exists mu, (sub_m S (outerv mu mu)), (- phi2 - 0.5 * innerv D mu phi0).
    assert (Eb : bilinear D (scal_m (-2) phi1) mu mu = innerv D mu phi0)
      by (rewrite bilinear_mv; apply innerv_ext; [intros ? ?; reflexivity|exact Hm]).
    split; [exact Hm|]. split; [exact HV|]. split; [rewrite Eb; lra|]. split; [exact Hb|].
    split; [rewrite E0; intros ? ?; reflexivity|]. split; [exact E1|]. split; [exact E2|]. rewrite E3. ring.
  - intros mu P Hm Hb. destruct (posdef_chol D _ P) as [U E].
    destruct (gm_unique D (phi0, phi1) mu (chol_inv D U) P Hm (chol_inv_ok D _ U (proj1 P) E)) as (m' & S' & g' & G & Em & _ & _).
    cbn [fst snd] in *. destruct (gg_join lg psi D phi0 phi1 phi2 phi3 m' S' g' G) as (u1 & H & _); [|eauto].
    rewrite (innerv_ext D m' mu phi0 (mvdot D (scal_m (-2) phi1) mu) Em (fun i Hi => eq_sym (Hm i Hi))), <- bilinear_mv. lra.
Qed.
Print Assumptions C44_gaussian_gamma_moments.

Lemma recomputed_inv : forall D phi u g, recomputed D (gaussian_moments D) phi u g ->
  exists m S, gaussian_moments D phi = Ok ((m, S), g) /\ veq D m (fst u) /\ meq D S (snd u).
Proof. intros D phi u g ([m S] & H & E0 & E1). now exists m, S. Qed.

Theorem C44_gaussian_gamma_rotate : forall lg psi D Rm invR phi u g,
  symmetric D (let '(_, phi1, _, _) := phi in phi1) -> is_inverse D Rm invR ->
  gg_moments lg psi D phi = Ok (u, g) ->
  let '(u', phi', g') := gg_rotate D Rm invR (ln (Rabs (mdet D Rm))) u phi g in
  gg_recomputed D (gg_moments lg psi D) phi' u' g'.
Proof.
  intros lg psi D Rm invR [[[phi0 phi1] phi2] phi3] [[[u0 u1] u2] u3] g Sy I H.
  destruct (gg_split _ _ _ _ _ _ _ _ _ _ _ _ H) as (mu & S & g0 & G & Hb & E0 & E1 & E2 & E3 & Eg).
  pose proof (rotate_ok D Rm invR (phi0, phi1) (mu, S) g0 S Sy I G (fun _ _ _ _ => eq_refl)) as T.
  unfold gaussian_rotate in T. cbn [fst snd] in T.
  assert (MC : meq D (dot3 D (transpose invR) phi1 invR) (rotate_covariance D phi1 (transpose invR))).
  { intros i j Hi Hj. symmetry. exact (rotate_covariance_dot3 D phi1 (transpose invR) i j Hi Hj). }
  apply (gm_ext D (mvdot D (transpose invR) phi0, dot3 D (transpose invR) phi1 invR) (mvdot D (transpose invR) phi0, rotate_covariance D phi1 (transpose invR)) _ _
    (@congr_symmetric D phi1 invR Sy) (fun _ _ => eq_refl) MC) in T.
  destruct (recomputed_inv D _ _ _ T) as (m' & S' & G' & Em & ES). cbn [fst snd] in *.
  assert (Ei : innerv D m' (mvdot D (transpose invR) phi0) = innerv D mu phi0).
  { rewrite innerv_tr. apply innerv_ext; [|intros ? ?; reflexivity]. intros i Hi.
    rewrite (mvdot_ext D invR invR m' (mvdot D Rm mu) (fun _ _ _ _ => eq_refl) Em i Hi), (mvdot_assoc D invR Rm mu i Hi).
    transitivity (mvdot D identity mu i); [|now apply mvdot_id]. apply mvdot_ext; [apply I|intros ? ?; reflexivity|exact Hi]. }
  destruct (gg_join lg psi D _ _ phi2 phi3 m' S' _ G') as (v1 & J & Ev); [rewrite Ei; exact Hb|].
  rewrite Ei in J, Ev. cbn [gg_rotate]. do 4 eexists. split; [rewrite <- E3 in J; refine (eq_trans J _); f_equal; f_equal; rewrite Eg; ring|].
  rewrite E0, E2. split; [|split; [|split; reflexivity]].
  - intros i Hi. unfold scal_v at 1. rewrite (Em i Hi). symmetry. exact (mvdot_scal_r D Rm _ mu i Hi).
  - intros i j Hi Hj. rewrite (Ev i j Hi Hj), (rotate_covariance_dot3 D u1 Rm i j Hi Hj).
    rewrite (dot3_ext D Rm _ _ (transpose Rm) E1 i j Hi Hj).
    set (b := - phi2 - 0.5 * innerv D mu phi0) in *. unfold add_m, sub_m. rewrite (ES i j Hi Hj).
    transitivity (dot3 D Rm S (transpose Rm) i j - dot3 D Rm (outerv mu mu) (transpose Rm) i j
       + phi3 / b * dot3 D Rm (outerv mu mu) (transpose Rm) i j).
    + rewrite (dot3_outer D Rm mu i j Hi Hj). unfold scal_m, outerv. rewrite (Em i Hi), (Em j Hj). ring.
    + change (phi3 / b * dot3 D Rm (outerv mu mu) (transpose Rm) i j) with (scal_m (phi3 / b) (dot3 D Rm (outerv mu mu) (transpose Rm)) i j).
      rewrite (dot3_scal D (phi3 / b) Rm (outerv mu mu) (transpose Rm) i j Hi Hj).
      unfold dot3, mmdot. rewrite <- rsum_minus, <- rsum_plus. apply rsum_ext. intros k Hk.
      rewrite <- Rmult_minus_distr_r, <- Rmult_plus_distr_r. f_equal. rewrite <- rsum_minus, <- rsum_plus.
      apply rsum_ext. intros; ring.
Qed.
Print Assumptions C44_gaussian_gamma_rotate.

(** translate leaves g and the distribution of tau as they are. *)
Theorem C44_gaussian_gamma_translate : forall lg psi D b phi u g,
  symmetric D (let '(_, phi1, _, _) := phi in phi1) -> (let '(_, _, _, phi3) := phi in phi3 <> 0) ->
  gg_moments lg psi D phi = Ok (u, g) ->
  let '(u', phi') := gg_translate D b u phi in
  gg_recomputed D (gg_moments lg psi D) phi' u' g /\
  veq D (gg_location u') (add_v (gg_location u) b).
Proof.
  intros lg psi D b [[[phi0 phi1] phi2] phi3] [[[u0 u1] u2] u3] g Sy Ha H.
  destruct (gg_split _ _ _ _ _ _ _ _ _ _ _ _ H) as (mu & S & g0 & G & Hb & E0 & E1 & E2 & E3 & Eg).
  pose proof (translate_ok D b (phi0, phi1) (mu, S) g0 S Sy G (fun _ _ _ _ => eq_refl)) as T.
  destruct (gm_spec D (phi0, phi1) (mu, S) g0 Sy G) as [P (Hm & HV & Hd & Hg)].
  unfold gaussian_translate in T. cbn [fst snd] in *. set (bb := - phi2 - 0.5 * innerv D mu phi0) in *.
  set (L := scal_m (-2) phi1) in *.
  assert (Hu2 : u2 <> 0).
  { rewrite E2. unfold Rdiv. apply Rmult_integral_contrapositive_currified; [exact Ha|]. apply Rinv_neq_0_compat. lra. }
  assert (Ex : forall i, u0 i / u2 = mu i) by (intros i; rewrite E0, <- E2; unfold scal_v; field; exact Hu2).
  destruct (recomputed_inv D _ _ _ T) as (m' & S' & G' & Em & ES). cbn [fst snd] in *.
  assert (Ei : innerv D m' (add_v phi0 (mvdot D L b)) = innerv D mu phi0 + 2 * bilinear D L b mu + bilinear D L b b).
  { rewrite (innerv_ext D m' (add_v mu b) _ _ Em (fun _ _ => eq_refl)), innerv_add_r, !innerv_add_l, <- !bilinear_mv.
    rewrite (innerv_ext D b b phi0 (mvdot D L mu) (fun _ _ => eq_refl) (fun i Hi => eq_sym (Hm i Hi))), <- bilinear_mv.
    rewrite (bilinear_comm D L mu b) by apply P. ring. }
  set (dtau := -0.5 * (rsum D (fun i => rsum D (fun j => L i j * b i * b j)) + 2 * rsum D (fun i => rsum D (fun j => L i j * b i * (u0 j / u2))))).
  assert (Ed : dtau = -0.5 * (bilinear D L b b + 2 * bilinear D L b mu)).
  { unfold dtau. f_equal. f_equal; [|f_equal]; unfold bilinear; apply rsum_ext; intros i Hi; apply rsum_ext; intros j Hj; [|rewrite Ex]; ring. }
  assert (Eb : - (phi2 + dtau) - 0.5 * innerv D m' (add_v phi0 (mvdot D L b)) = bb) by (rewrite Ei, Ed; unfold bb; lra).
  destruct (gg_join lg psi D _ _ (phi2 + dtau) phi3 m' S' _ G') as (v1 & J & Ev); [rewrite Eb; exact Hb|].
  rewrite Eb in J, Ev. cbn [gg_translate]. fold L. fold dtau. split.
  - do 4 eexists. split.
    { refine (eq_trans J _). f_equal. f_equal. rewrite Eg, Ei, innerv_comm.
      rewrite (innerv_comm D (mvdot D L b) b), <- !bilinear_mv, (bilinear_comm D L mu b) by apply P. lra. }
    split; [|split; [|split; [now rewrite E2|now rewrite E3]]].
    + intros i Hi. unfold scal_v, add_v. rewrite (Em i Hi), E0, E2. unfold add_v, scal_v. ring.
    + intros i j Hi Hj. rewrite (Ev i j Hi Hj). unfold add_m at 1, sub_m. rewrite (ES i j Hi Hj).
      unfold add_m at 4. rewrite (E1 i j Hi Hj). unfold add_m, sub_m, scal_m, outerv, transpose.
      rewrite !Ex, (Em i Hi), (Em j Hj), E2. unfold add_v. ring.
  - intros i Hi. cbn [gg_location]. unfold add_v at 2, add_v, scal_v. field. exact Hu2.
Qed.
Print Assumptions C44_gaussian_gamma_translate.

(** ** A concrete case: a correlated plane Gaussian and a shear *)
Definition ex_A : mat := fun i j => if i =? j then 2 else 1.
Definition ex_phi : vec * mat := ((fun _ => 1), scal_m (-1/2) ex_A).
Definition ex_R : mat := fun i j => match i, j with O, O => 1 | O, _ => 1 | _, O => 0 | _, _ => 1 end.
Definition ex_invR : mat := fun i j => match i, j with O, O => 1 | O, _ => -1 | _, O => 0 | _, _ => 1 end.
Lemma ex_posdef : posdef 2 ex_A.
Proof.
  split; [intros [|[|i]] [|[|j]]; cbn; intros; try reflexivity; lia|].
  intros x [i [Hi Hx]]. unfold bilinear, ex_A. cbn.
  assert (E : x i * x i > 0) by nra.
  destruct i as [|[|i]]; [| |lia]; pose proof (Rle_0_sqr (x 0%nat + x 1%nat)) as Q; unfold Rsqr in Q;
    pose proof (Rle_0_sqr (x 0%nat)) as Q0; pose proof (Rle_0_sqr (x 1%nat)) as Q1; unfold Rsqr in *; nra.
Qed.
Lemma ex_inverse : is_inverse 2 ex_R ex_invR.
Proof. split; intros [|[|i]] [|[|j]] Hi Hj; try lia; cbn; ring. Qed.
Example ex_state : symmetric 2 (snd ex_phi) /\ exists u u' g, gaussian_moments 2 ex_phi = Ok (u, g) /\ ard_moments 2 ex_phi = Ok (u', g).
Proof.
  assert (P : posdef 2 (scal_m (-2) (snd ex_phi))).
  { apply (posdef_ext 2 ex_A); [|exact ex_posdef]. intros i j _ _. cbn. unfold scal_m. lra. }
  split; [apply symmetric_scal, ex_posdef|]. destruct (posdef_chol 2 _ P) as [U E].
  unfold gaussian_moments, ard_moments, chol. rewrite E. cbn [bind]. do 3 eexists. split; reflexivity.
Qed.
Example ex_gg : exists u g, gg_moments (fun _ => 0) (fun _ => 0) 2 (fst ex_phi, snd ex_phi, -3, 1) = Ok (u, g).
Proof.
  assert (E : meq 2 ex_A (scal_m (-2) (snd ex_phi))) by (intros i j _ _; cbn; unfold scal_m; lra).
  destruct (C44_gaussian_gamma_moments (fun _ => 0) (fun _ => 0) 2 (fst ex_phi) (snd ex_phi) (-3) 1) as [_ H].
  - apply symmetric_scal, ex_posdef.
  - apply (H (fun _ => 1 / 3)).
    + apply (posdef_ext 2 ex_A); [exact E|exact ex_posdef].
    + intros [|[|i]] Hi; try lia; cbn; unfold scal_m, ex_A; cbn; lra.
    + cbn. unfold scal_m, bilinear, ex_A. cbn. lra.
Qed.
Example ex_C21 : exists u_L, wishartmoments_fixed 2 ex_A = Ok u_L.
Proof. destruct (C21_gaussian 2 (fun _ => 1) ex_A (fun _ => 0) ex_posdef) as (u & H & _). eauto. Qed.
Example ex_C21_wishart : is_log_of (fun _ => 0) (fun _ => 1) /\ posdef 2 ex_A /\ INR 2 - 1 < 4.
Proof. split; [intros x _; split; [lra|now rewrite ln_1]|]. split; [exact ex_posdef|cbn; lra]. Qed.
