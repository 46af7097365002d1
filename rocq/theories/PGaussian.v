(** Gaussian-type nodes: C20 (messages), C21 (densities), C44 (moments, translation
    and rotation). *)
From Coq Require Import List Arith Lia Bool Reals Lra FunctionalExtensionality.
From Verif Require Import Base NumPy TensorLemmas MarkovLemmas Families SpecFamilies FamiliesLemmas
  Linalg MatBridge SpecLinalg LinalgLemmas Gaussian SpecGaussian GaussLemmas GaussAlg.
Open Scope R_scope.

(** ** Bilinear algebra *)
Lemma innerv_comm : forall n a b, innerv n a b = innerv n b a.
Proof. intros. apply rsum_ext. intros; ring. Qed.
Lemma innerv_ext : forall n a a' b b', veq n a a' -> veq n b b' -> innerv n a b = innerv n a' b'.
Proof. intros n a a' b b' H1 H2. apply rsum_ext. intros i Hi. now rewrite H1, H2. Qed.
Lemma innerv_add_r : forall n a b c, innerv n a (add_v b c) = innerv n a b + innerv n a c.
Proof. intros. unfold innerv, add_v. rewrite <- rsum_plus. apply rsum_ext. intros; ring. Qed.
Lemma innerv_add_l : forall n a b c, innerv n (add_v a b) c = innerv n a c + innerv n b c.
Proof. intros. rewrite !(innerv_comm n _ c). apply innerv_add_r. Qed.
Lemma bilinear_comm : forall n A x y, symmetric n A -> bilinear n A x y = bilinear n A y x.
Proof.
  intros n A x y Sy. unfold bilinear. rewrite rsum_swap. apply rsum_ext. intros i Hi. apply rsum_ext. intros j Hj.
  rewrite (Sy j i) by assumption. ring.
Qed.
Lemma bilinear_sub : forall n A x y, symmetric n A ->
  bilinear n A (sub_v x y) (sub_v x y) = bilinear n A x x - 2 * bilinear n A x y + bilinear n A y y.
Proof.
  intros n A x y Sy. replace (2 * bilinear n A x y) with (bilinear n A x y + bilinear n A y x) by (rewrite (bilinear_comm n A y x Sy); ring).
  unfold bilinear, sub_v. rewrite <- rsum_plus, <- rsum_minus, <- rsum_plus. apply rsum_ext. intros i Hi.
  rewrite <- rsum_plus, <- rsum_minus, <- rsum_plus. apply rsum_ext. intros; ring.
Qed.
Lemma bilinear_add : forall n A x y, symmetric n A ->
  bilinear n A (add_v x y) (add_v x y) = bilinear n A x x + 2 * bilinear n A x y + bilinear n A y y.
Proof.
  intros n A x y Sy. replace (2 * bilinear n A x y) with (bilinear n A x y + bilinear n A y x) by (rewrite (bilinear_comm n A y x Sy); ring).
  unfold bilinear, add_v. rewrite <- rsum_plus, <- rsum_plus, <- rsum_plus. apply rsum_ext. intros i Hi.
  rewrite <- rsum_plus, <- rsum_plus, <- rsum_plus. apply rsum_ext. intros; ring.
Qed.
Lemma bilinear_scal : forall n c A x y, bilinear n (scal_m c A) x y = c * bilinear n A x y.
Proof.
  intros. unfold bilinear, scal_m. rewrite <- rsum_scal. apply rsum_ext. intros. rewrite <- rsum_scal. apply rsum_ext. intros; ring.
Qed.
Lemma innerm_outer : forall n A x y, innerm n A (outerv x y) = bilinear n A x y.
Proof. intros. apply rsum_ext. intros i Hi. apply rsum_ext. intros j Hj. unfold outerv. ring. Qed.
Lemma innerm_add_r : forall n A B C, innerm n A (add_m B C) = innerm n A B + innerm n A C.
Proof. intros. unfold innerm, add_m. rewrite <- rsum_plus. apply rsum_ext. intros. rewrite <- rsum_plus. apply rsum_ext. intros; ring. Qed.
Lemma innerm_scal_l : forall n c A B, innerm n (scal_m c A) B = c * innerm n A B.
Proof. intros. unfold innerm, scal_m. rewrite <- rsum_scal. apply rsum_ext. intros. rewrite <- rsum_scal. apply rsum_ext. intros; ring. Qed.
Lemma innerm_scal_r : forall n c A B, innerm n A (scal_m c B) = c * innerm n A B.
Proof. intros. unfold innerm, scal_m. rewrite <- rsum_scal. apply rsum_ext. intros. rewrite <- rsum_scal. apply rsum_ext. intros; ring. Qed.
Lemma innerm_comm : forall n A B, innerm n A B = innerm n B A.
Proof. intros. apply rsum_ext. intros. apply rsum_ext. intros; ring. Qed.
Lemma symmetric_scal : forall n c A, symmetric n A -> symmetric n (scal_m c A).
Proof. intros n c A H i j Hi Hj. unfold scal_m. now rewrite H. Qed.

Lemma chol_cases : forall n A, symmetric n A ->
  (posdef n A /\ exists U, cho_factor n A = Ok U /\ chol n A = Ok U) \/
  (~ posdef n A /\ chol n A = Err PyException).
Proof.
  intros n A Sy. unfold chol. destruct (cho_factor n A) as [U|e] eqn:E.
  - left. split; [now apply (chol_posdef n A U)|]. now exists U.
  - right. split; [|reflexivity]. intros P. destruct (posdef_chol n A P) as [U E']. congruence.
Qed.
Lemma chol_ok : forall n A U, chol n A = Ok U -> cho_factor n A = Ok U.
Proof. intros n A U H. unfold chol in H. destruct (cho_factor n A); congruence. Qed.

Lemma posdef_scal : forall n c A, 0 < c -> posdef n A -> posdef n (scal_m c A).
Proof.
  intros n c A Hc [Sy P]. split; [now apply symmetric_scal|]. intros x Hx. rewrite bilinear_scal.
  apply Rmult_lt_0_compat; auto.
Qed.

(** ** C20: messages *)

(** <phi(u), x> + cgf(u) + f = <message, u> + a term without u. *)
Theorem C20_gaussian : forall D x f, exists rest, forall Lmu muLmu L ld,
  let u := (Lmu, muLmu, L, ld) in
  let '(m0, m1, m2, m3) := gaussian_message x in
  innerv D (fst (gaussian_phi u)) (fst x) + innerm D (snd (gaussian_phi u)) (snd x) + gaussian_cgf u + f
  = innerv D m0 Lmu + m1 * muLmu + innerm D m2 L + m3 * ld + rest.
Proof.
  intros D [x xx] f. exists f. intros Lmu muLmu L ld. cbn. rewrite !innerm_scal_l, (innerv_comm D x), (innerm_comm D xx). ring.
Qed.
Print Assumptions C20_gaussian.

Theorem C20_gaussian_ard : forall D x f, exists rest, forall am am2 a la,
  let u := (am, am2, a, la) in
  let '(m0, m1, m2, m3) := ard_message x in
  innerv D (fst (ard_phi u)) (fst x) + innerm D (snd (ard_phi u)) (snd x) + ard_cgf D u + f
  = innerv D m0 am + innerv D m1 am2 + innerv D m2 a + innerv D m3 la + rest.
Proof.
  intros D [x xx] f. exists f. intros am am2 a la. cbn [ard_message ard_phi ard_cgf fst snd].
  assert (E : innerm D (diag (fun i => 1 * (-0.5 * a i))) xx = innerv D (fun i => -0.5 * get_diag xx i) a).
  { unfold innerm, innerv. apply rsum_ext. intros i Hi.
    rewrite (rsum_ext D _ (fun j => if j =? i then -0.5 * get_diag xx i * a i else 0)).
    - now apply (rsum_single D i (fun _ => -0.5 * get_diag xx i * a i)).
    - intros j Hj. unfold diag, get_diag. rewrite (Nat.eqb_sym i j). destruct (Nat.eqb_spec j i) as [->|]; ring. }
  rewrite E. unfold innerv. rewrite <- !rsum_scal.
  rewrite (rsum_ext D (fun x0 => -0.5 * (am2 x0 * 1)) (fun i => -0.5 * 1 * am2 i)) by (intros; ring).
  rewrite (rsum_ext D (fun x0 => 0.5 * (la x0 * 1)) (fun i => 0.5 * 1 * la i)) by (intros; ring).
  rewrite (rsum_ext D (fun i => 1 * am i * x i) (fun i => x i * am i)) by (intros; ring). ring.
Qed.
Print Assumptions C20_gaussian_ard.

Theorem C20_gaussian_gamma : forall D x f,
  (forall u_a u_b, exists rest, forall Lmu muLmu L ld,
     let u := (Lmu, muLmu, L, ld) in
     let '(x0, x1, x2, x3) := x in
     let '(p0, p1, p2, p3) := gg_phi u u_a u_b in
     let '(m0, m1, m2, m3) := gg_message_muLambda x in
     innerv D p0 x0 + innerm D p1 x1 + p2 * x2 + p3 * x3 + gg_cgf u u_a u_b + f
     = innerv D m0 Lmu + m1 * muLmu + innerm D m2 L + m3 * ld + rest) /\
  (forall u u_b, exists rest, forall u_a,
     let '(x0, x1, x2, x3) := x in
     let '(p0, p1, p2, p3) := gg_phi u u_a u_b in
     innerv D p0 x0 + innerm D p1 x1 + p2 * x2 + p3 * x3 + gg_cgf u u_a u_b + f
     = fst (gg_message_a x u_b) * fst u_a + snd (gg_message_a x u_b) * snd u_a + rest) /\
  (forall u u_a, exists rest, forall u_b,
     let '(x0, x1, x2, x3) := x in
     let '(p0, p1, p2, p3) := gg_phi u u_a u_b in
     innerv D p0 x0 + innerm D p1 x1 + p2 * x2 + p3 * x3 + gg_cgf u u_a u_b + f
     = fst (gg_message_b x u_a) * fst u_b + snd (gg_message_b x u_a) * snd u_b + rest).
Proof.
  intros D [[[x0 x1] x2] x3] f. split; [|split].
  - intros u_a u_b. exists (- fst u_b * x2 + fst u_a * x3 + fst u_a * snd u_b - snd u_a + f).
    intros Lmu muLmu L ld. cbn. rewrite !innerm_scal_l, (innerv_comm D x0), (innerm_comm D x1). ring.
  - intros [[[Lmu muLmu] L] ld] u_b.
    exists (innerv D Lmu x0 + innerm D (scal_m (-0.5) L) x1 + (-0.5 * muLmu - fst u_b) * x2 + 0.5 * ld + f).
    intros u_a. cbn. ring.
  - intros [[[Lmu muLmu] L] ld] u_a.
    exists (innerv D Lmu x0 + innerm D (scal_m (-0.5) L) x1 + (-0.5 * muLmu) * x2 + fst u_a * x3 + 0.5 * ld - snd u_a + f).
    intros u_b. cbn. ring.
Qed.
Print Assumptions C20_gaussian_gamma.

(** The message to the degrees of freedom raises NotImplementedError in the code. *)
Theorem C20_wishart : forall k x f u_n, exists rest, forall u_V,
  innerm k (fst (wishart_phi u_n u_V)) (fst x) + snd (wishart_phi u_n u_V) * snd x + wishart_cgf k u_n u_V + f
  = innerm k (fst (wishart_message_V x u_n)) (fst u_V) + snd (wishart_message_V x u_n) * snd u_V + rest.
Proof.
  intros k [x ld] f u_n. exists (0.5 * fst u_n * ld - 0.5 * INR k * fst u_n * ln 2 - snd u_n + f).
  intros u_V. cbn. rewrite !innerm_scal_l, (innerm_comm k x). unfold wishart_cgf. ring.
Qed.
Print Assumptions C20_wishart.

(** The wrappers that join a mean and a precision: <m, u> is, for both parents, the
    inner product with the message to that parent. *)
Theorem C20_wrap_gaussian_gamma : forall D m0 m1 m2 m3,
  let m := (m0, m1, m2, m3) in
  let pair := fun (u v : vec * mat * R * R) =>
    let '(u0, u1, u2, u3) := u in let '(v0, v1, v2, v3) := v in
    innerv D u0 v0 + innerm D u1 v1 + u2 * v2 + u3 * v3 in
  (forall ua, exists rest, forall uX,
     pair m (wrap_gg_moments uX ua) = pair (wrap_gg_message_x m ua) uX + rest) /\
  (forall uX, exists rest, forall ua,
     pair m (wrap_gg_moments uX ua)
     = fst (wrap_gg_message_alpha D m uX) * fst ua + snd (wrap_gg_message_alpha D m uX) * snd ua + rest).
Proof.
  intros D m0 m1 m2 m3 m pair.
  assert (S1 : forall a u v, innerv D u (scal_v a v) = a * innerv D u v).
  { intros. unfold innerv, scal_v. rewrite <- rsum_scal. apply rsum_ext. intros; ring. }
  assert (S2 : forall a u v, innerv D (scal_v a u) v = a * innerv D u v).
  { intros. unfold innerv, scal_v. rewrite <- rsum_scal. apply rsum_ext. intros; ring. }
  split.
  - intros ua. exists (m3 * snd ua). intros [[[x xx] tau] lt]. cbn. rewrite S1, S2, innerm_scal_l, innerm_scal_r. ring.
  - intros [[[x xx] tau] lt]. exists (m3 * lt). intros ua. cbn. rewrite S1, innerm_scal_r. ring.
Qed.
Print Assumptions C20_wrap_gaussian_gamma.

Theorem C20_wrap_gaussian_wishart : forall D m0 m1 m2 m3,
  let m := (m0, m1, m2, m3) in
  let pair := fun (u v : vec * R * mat * R) =>
    let '(u0, u1, u2, u3) := u in let '(v0, v1, v2, v3) := v in
    innerv D u0 v0 + u1 * v1 + innerm D u2 v2 + u3 * v3 in
  (forall uL, symmetric D (fst uL) -> exists rest, forall uX,
     let '(x0, x1, x2, x3) := uX in
     let '(n0, n1, n2, n3) := wrap_gw_message_x D m uL in
     pair m (wrap_gw_moments D uX uL) = innerv D n0 x0 + innerm D n1 x1 + n2 * x2 + n3 * x3 + rest) /\
  (forall uX, exists rest, forall uL, symmetric D (fst uL) ->
     pair m (wrap_gw_moments D uX uL)
     = innerm D (fst (wrap_gw_message_Lambda m uX)) (fst uL) + snd (wrap_gw_message_Lambda m uX) * snd uL + rest).
Proof.
  intros D m0 m1 m2 m3 m pair.
  split.
  - intros [L ld] Sy. exists (m3 * ld). intros [[[x xx] al] la]. cbn in Sy. cbn -[innerm].
    rewrite innerm_scal_l, innerm_scal_r, (innerv_comm D (mvdot D L m0)), <- !bilinear_mv, (bilinear_comm D L x m0 Sy), (innerm_comm D m2). ring.
  - intros [[[x xx] al] la]. exists (m3 * (INR D * la)). intros [L ld] Sy. cbn in Sy. cbn -[innerm].
    rewrite innerm_scal_r, <- bilinear_mv.
    assert (E : innerm D (fun i j => 0.5 * outerv x m0 i j + 0.5 * outerv m0 x i j + xx i j * m1 + al * m2 i j) L
      = bilinear D L m0 x + m1 * innerm D L xx + al * innerm D m2 L).
    { transitivity (0.5 * innerm D L (outerv x m0) + 0.5 * innerm D L (outerv m0 x) + m1 * innerm D L xx + al * innerm D m2 L).
      - unfold innerm. rewrite <- !rsum_scal, <- !rsum_plus. apply rsum_ext. intros i Hi.
        rewrite <- !rsum_scal, <- !rsum_plus. apply rsum_ext. intros j Hj. ring.
      - rewrite !innerm_outer, (bilinear_comm D L x m0 Sy). lra. }
    rewrite E. ring.
Qed.
Print Assumptions C20_wrap_gaussian_wishart.

(** ** C21: densities of observed nodes *)

Lemma wishart_parent : forall D Lambda, posdef D Lambda ->
  0 < mdet D Lambda /\ wishartmoments_fixed D Lambda = Ok (Lambda, ln (mdet D Lambda)).
Proof.
  intros D L P. destruct (chol_cases D L (proj1 P)) as [(_ & U & E & E')|[]]; [|contradiction].
  destruct (chol_logdet_ok D L U (proj1 P) E) as [H1 H2]. split; [exact H1|].
  unfold wishartmoments_fixed. rewrite E'. cbn. now rewrite H2.
Qed.
Lemma ln_sqrt : forall x, 0 < x -> ln (sqrt x) = ln x / 2.
Proof.
  intros x Hx. pose proof (sqrt_lt_R0 x Hx). assert (E : ln (sqrt x * sqrt x) = ln x) by (rewrite sqrt_sqrt; lra).
  rewrite ln_mult in E by assumption. lra.
Qed.
Lemma ln_normal : forall D mu L x, 0 < mdet D L ->
  ln (normal_pdf D mu L x) = ln (mdet D L) / 2 - INR D / 2 * ln (2 * PI)
    - bilinear D L (sub_v x mu) (sub_v x mu) / 2.
Proof.
  intros D mu L x H. pose proof PI_RGT_0 as HP. assert (HQ : 0 < (2 * PI) ^ D) by (apply pow_lt; lra).
  assert (0 < mdet D L / (2 * PI) ^ D) by now apply Rdiv_lt_0_compat.
  unfold normal_pdf. rewrite ln_mult, ln_exp, ln_sqrt by auto using exp_pos, sqrt_lt_R0.
  rewrite ln_div, ln_pow by lra. field.
Qed.
Lemma scal_v_1 : forall v, scal_v 1 v = v.
Proof. intros. apply functional_extensionality. intros. unfold scal_v. ring. Qed.
Lemma scal_m_1 : forall A, scal_m 1 A = A.
Proof. intros. apply functional_extensionality. intros i. apply functional_extensionality. intros. unfold scal_m. ring. Qed.

Theorem C21_gaussian : forall D mu Lambda x, posdef D Lambda ->
  exists u_Lambda,
    wishartmoments_fixed D Lambda = Ok u_Lambda /\
    let u_p := wrap_gw_moments D (to_gg_moments (gaussianmoments_fixed mu)) u_Lambda in
    let '(u, f) := gaussian_fixed D x in
    innerv D (fst (gaussian_phi u_p)) (fst u) + innerm D (snd (gaussian_phi u_p)) (snd u)
      + gaussian_cgf u_p + f = ln (normal_pdf D mu Lambda x).
Proof.
  intros D mu L x P. destruct (wishart_parent D L P) as [Hd E]. exists (L, ln (mdet D L)). split; [exact E|].
  cbn -[innerm]. rewrite ln_normal, bilinear_sub by (auto; apply P).
  rewrite scal_m_1, innerm_scal_l, !innerm_outer, innerv_comm, <- bilinear_mv. lra.
Qed.
Print Assumptions C21_gaussian.

Theorem C21_gaussian_ard : forall D mu alpha x, (forall i, (i < D)%nat -> 0 < alpha i) ->
  let u_p := ((fun i => alpha i * mu i), (fun i => alpha i * mu i ^ 2), alpha, (fun i => ln (alpha i))) in
  let '(u, f) := ard_fixed D x in
  innerv D (fst (ard_phi u_p)) (fst u) + innerm D (snd (ard_phi u_p)) (snd u) + ard_cgf D u_p + f
  = ln (rprod D (fun i => normal1_pdf (mu i) (alpha i) (x i))).
Proof.
  intros D mu alpha x Ha. cbn -[innerm]. pose proof PI_RGT_0 as HP.
  assert (Q : forall i, (i < D)%nat -> 0 < alpha i / (2 * PI)) by (intros; apply Rdiv_lt_0_compat; [auto|lra]).
  rewrite (proj2 (ln_rprod D (fun i => normal1_pdf (mu i) (alpha i) (x i))
     ltac:(intros; unfold normal1_pdf; auto using Rmult_lt_0_compat, sqrt_lt_R0, exp_pos))).
  assert (E : innerm D (diag (fun i => 1 * (-0.5 * alpha i))) (outerv x x) = rsum D (fun i => -0.5 * alpha i * x i ^ 2)).
  { unfold innerm. apply rsum_ext. intros i Hi.
    rewrite (rsum_ext D _ (fun j => if j =? i then -0.5 * alpha i * x i ^ 2 else 0)).
    - now apply (rsum_single D i (fun _ => -0.5 * alpha i * x i ^ 2)).
    - intros j Hj. unfold diag, outerv. rewrite (Nat.eqb_sym i j). destruct (Nat.eqb_spec j i) as [->|]; ring. }
  rewrite E. unfold innerv. rewrite <- !rsum_scal.
  replace (- INR D / 2 * ln (2 * PI)) with (rsum D (fun _ => - ln (2 * PI) / 2)) by (rewrite rsum_const; field).
  rewrite <- !rsum_plus. apply rsum_ext. intros i Hi. unfold normal1_pdf.
  rewrite (ln_mult (sqrt _)), ln_exp, ln_sqrt, ln_div by (auto using exp_pos, sqrt_lt_R0; lra). lra.
Qed.
Print Assumptions C21_gaussian_ard.

Theorem C21_gaussian_gamma : forall lg Gam D mu Lambda a b x tau,
  is_log_of lg Gam -> posdef D Lambda -> 0 < a -> 0 < b -> 0 < tau ->
  exists u_Lambda u_a u_b,
    wishartmoments_fixed D Lambda = Ok u_Lambda /\
    gammaprior_fixed lg a = Ok u_a /\ gammamoments_fixed b = Ok u_b /\
    let u_p := wrap_gw_moments D (to_gg_moments (gaussianmoments_fixed mu)) u_Lambda in
    let '((x0, x1, x2, x3), f) := gg_fixed D x tau in
    let '(p0, p1, p2, p3) := gg_phi u_p u_a u_b in
    innerv D p0 x0 + innerm D p1 x1 + p2 * x2 + p3 * x3 + gg_cgf u_p u_a u_b + f
    = ln (normal_gamma_pdf Gam D mu Lambda a b x tau).
Proof.
  intros lg Gam D mu L a b x tau HG P Ha Hb Ht. destruct (wishart_parent D L P) as [Hd E].
  destruct (HG a Ha) as [HGa Hlg].
  exists (L, ln (mdet D L)), (a, lg a), (b, ln b). split; [exact E|].
  unfold gammaprior_fixed, gammamoments_fixed.
  destruct (Rle_dec a 0); [lra|]. destruct (Rlt_dec b 0); [lra|]. split; [reflexivity|]. split; [reflexivity|].
  cbn -[innerm].
  assert (Hd' : 0 < mdet D (scal_m tau L)) by (rewrite mdet_scal; apply Rmult_lt_0_compat; [now apply pow_lt|exact Hd]).
  assert (NP : 0 < normal_pdf D mu (scal_m tau L) x).
  { unfold normal_pdf. apply Rmult_lt_0_compat; [|apply exp_pos]. apply sqrt_lt_R0, Rdiv_lt_0_compat; [exact Hd'|].
    apply pow_lt. pose proof PI_RGT_0. lra. }
  assert (GP : 0 < gamma_pdf Gam a b tau).
  { unfold gamma_pdf, Rpower. repeat apply Rmult_lt_0_compat; auto using exp_pos, Rinv_0_lt_compat. }
  unfold normal_gamma_pdf. change (fun i j => tau * L i j) with (scal_m tau L).
  rewrite (ln_mult (normal_pdf D mu (scal_m tau L) x)) by assumption.
  rewrite ln_normal, mdet_scal, (ln_mult (tau ^ D)), ln_pow by (auto using pow_lt).
  rewrite bilinear_scal, bilinear_sub by apply P.
  assert (G : ln (gamma_pdf Gam a b tau) = a * ln b - lg a + (a - 1) * ln tau - b * tau).
  { unfold gamma_pdf. rewrite !ln_mult, ln_div, !ln_Rpower, ln_exp, Hlg;
      try (unfold Rpower; auto using exp_pos, Rmult_lt_0_compat, Rdiv_lt_0_compat); try lra.
    all: unfold Rpower, Rdiv; repeat apply Rmult_lt_0_compat; auto using exp_pos, Rinv_0_lt_compat. }
  rewrite G, scal_m_1, innerm_scal_l, innerm_scal_r, !innerm_outer.
  assert (S1 : innerv D (mvdot D L mu) (scal_v tau x) = tau * bilinear D L x mu).
  { rewrite innerv_comm, bilinear_mv. unfold innerv, scal_v. rewrite <- rsum_scal. apply rsum_ext. intros; ring. }
  rewrite S1. lra.
Qed.
Print Assumptions C21_gaussian_gamma.

Lemma tracedot_innerm : forall k A B, symmetric k B -> tracedot k A B = innerm k A B.
Proof. intros k A B Sy. apply rsum_ext. intros i Hi. apply rsum_ext. intros j Hj. now rewrite (Sy j i). Qed.
Lemma ln_multigamma : forall lg Gam k a, is_log_of lg Gam -> (forall j, (j < k)%nat -> INR j / 2 < a) ->
  0 < multigamma Gam k a /\ ln (multigamma Gam k a) = multigammaln lg a k.
Proof.
  intros lg Gam k a HG Ha.
  assert (P : forall j, (j < k)%nat -> 0 < Gam (a - INR j / 2)) by (intros j Hj; apply HG; specialize (Ha j Hj); lra).
  assert (Q : 0 < rprod k (fun j => Gam (a - INR j / 2))) by now apply ln_rprod.
  unfold multigamma. split; [apply Rmult_lt_0_compat; [apply exp_pos|exact Q]|].
  rewrite ln_mult by (auto; apply exp_pos). rewrite ln_Rpower, (proj2 (ln_rprod k _ P)). unfold multigammaln. f_equal; [lra|].
  apply rsum_ext. intros j Hj. specialize (Ha j Hj). replace (a - 0.5 * INR j) with (a - INR j / 2) by lra.
  symmetry. apply HG. lra.
Qed.

Theorem C21_wishart : forall lg Gam k n V Lambda,
  is_log_of lg Gam -> posdef k V -> posdef k Lambda -> INR k - 1 < n ->
  exists u_V u f,
    wishartmoments_fixed k V = Ok u_V /\ wishart_fixed k Lambda = Ok (u, f) /\
    let u_n := wishartprior_fixed lg k n in
    innerm k (fst (wishart_phi u_n u_V)) (fst u) + snd (wishart_phi u_n u_V) * snd u
      + wishart_cgf k u_n u_V + f = ln (wishart_pdf Gam k n V Lambda).
Proof.
  intros lg Gam k n V L HG PV PL Hn.
  destruct (wishart_parent k V PV) as [HdV EV]. destruct (wishart_parent k L PL) as [HdL EL].
  destruct (ln_multigamma lg Gam k (n / 2) HG) as [MP ML].
  { intros j Hj. assert (INR j <= INR k - 1); [|lra].
    apply le_INR in Hj. rewrite S_INR in Hj. lra. }
  exists (V, ln (mdet k V)), (L, ln (mdet k L)), (- (INR k + 1) / 2 * ln (mdet k L)).
  split; [exact EV|]. split.
  - unfold wishartmoments_fixed in EL. unfold wishart_fixed. destruct (chol k L); [|discriminate]. cbn in EL |- *.
    injection EL as <-. reflexivity.
  - cbn -[innerm]. unfold wishart_cgf, wishartprior_fixed. cbn [fst snd]. unfold wishart_pdf.
    rewrite ln_div, !ln_mult, !ln_Rpower, ln_exp, ML;
      repeat (first [exact MP | apply Rmult_lt_0_compat | apply exp_pos]).
    rewrite innerm_scal_l, (tracedot_innerm k V L (proj1 PL)). replace (0.5 * n) with (n / 2) by lra. lra.
Qed.
Print Assumptions C21_wishart.
