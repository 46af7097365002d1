(** C59, continued: draws from Gaussian nodes, and the samplers of random matrices. *)
From Coq Require Import List Arith ZArith Lia Bool Reals Lra FunctionalExtensionality.
From Verif Require Import Base NumPy TensorLemmas MarkovLemmas Families SpecFamilies FamiliesLemmas
  Linalg MatBridge SpecLinalg LinalgLemmas Gaussian SpecGaussian GaussLemmas GaussAlg PGaussian PGaussian2
  RandomDraw SpecRandomDraw RandomDrawLemmas.
Import ListNotations.
Open Scope R_scope.

(** A Wishart sample with nu degrees of freedom is the D x D scatter matrix of nu
    normal vectors, the rows of X. *)
Definition scatter (nu : nat) (X : mat) : mat := fun i j => rsum nu (fun s => X s i * X s j).

Lemma draws_mean_cov_ext : forall D f g mu nu Cov Cov', draws_mean_cov D f mu Cov ->
  (forall z x, f z = Ok x -> exists x', g z = Ok x' /\ veq D x' x) -> veq D mu nu -> meq D Cov Cov' ->
  draws_mean_cov D g nu Cov'.
Proof.
  intros D f g mu nu Cov Cov' (A & H & C) E V M. exists A. split.
  - intros z. destruct (H z) as (x & Ex & Hx). destruct (E z x Ex) as (x' & Ex' & Hx'). exists x'. split; [exact Ex'|].
    intros i Hi. rewrite (Hx' i Hi), (Hx i Hi), (V i Hi). reflexivity.
  - intros i j Hi Hj. rewrite (C i j Hi Hj). auto.
Qed.
Lemma draws_density_ext : forall D f g q q', draws_density D f q ->
  (forall z x, f z = Ok x -> exists x', g z = Ok x' /\ veq D x' x /\ q' x' = q x) ->
  draws_density D g q'.
Proof.
  intros D f g q q' (A & c & Nz & H) E. exists A, c. split; [exact Nz|].
  intros z. destruct (H z) as (x & Ex & Hx & Hq). destruct (E z x Ex) as (x' & Ex' & Hx' & Hq'). exists x'. split; [exact Ex'|]. split.
  - intros i Hi. rewrite (Hx' i Hi). auto.
  - now rewrite Hq'.
Qed.
Lemma vector_density_ext : forall D phi g f x y, veq D x y -> vector_density D phi g f x = vector_density D phi g f y.
Proof.
  intros D phi g f x y V. unfold vector_density. f_equal. f_equal. f_equal. f_equal.
  - apply innerv_ext; [intros ? ?; reflexivity|exact V].
  - unfold innerm. apply rsum_ext. intros i Hi. apply rsum_ext. intros j Hj. unfold outerv. now rewrite (V i Hi), (V j Hj).
Qed.
Lemma normal_pdf_pos : forall D mu L x, 0 < mdet D L -> 0 < normal_pdf D mu L x.
Proof.
  intros D mu L x H. unfold normal_pdf. apply Rmult_lt_0_compat; [|apply exp_pos].
  apply sqrt_lt_R0, Rdiv_lt_0_compat; [exact H|]. apply pow_lt. pose proof PI_RGT_0. lra.
Qed.

(** ** Gaussian nodes: where the moments exist, the drawn vector has the mean and the
    covariance that the node reports, and its density is exp(phi . u(x) + g + f(x)),
    by the change of variables from the standard normal variates; otherwise the draw
    raises the same exception as the moments. *)
Theorem C59_gaussian : forall D (phi : vec * mat), symmetric D (snd phi) ->
  (forall u g, gaussian_moments D phi = Ok (u, g) ->
     draws_mean_cov D (gaussian_random D phi) (fst u) (sub_m (snd u) (outerv (fst u) (fst u))) /\
     draws_density D (gaussian_random D phi) (vector_density D phi g (- INR D / 2 * ln (2 * PI)))) /\
  (forall e, gaussian_moments D phi = Err e -> forall z, gaussian_random D phi z = Err e).
Proof.
  intros D phi Sy. split.
  - intros u g M. destruct (gm_spec D phi u g Sy M) as [Pd (_ & I & Dp & _)].
    destruct (proj2 (C44_gaussian_moments D phi Sy) Pd) as (u' & g' & M' & _ & Q). rewrite M in M'. injection M' as <- <-.
    unfold gaussian_moments in M. set (L := scal_m (-2) (snd phi)) in *. destruct (posdef_chol D L Pd) as [U E].
    assert (EC : chol D L = Ok U) by (unfold chol; now rewrite E). rewrite EC in M. cbn [bind] in M.
    assert (EU : fst u = chol_solve D U (fst phi)) by (injection M as <- _; reflexivity).
    assert (EG : gaussian_random D phi = fun z => Ok (fun i => fst u i + back_solve D U z i)).
    { apply functional_extensionality. intros z. unfold gaussian_random. fold L. rewrite EC, EU. reflexivity. }
    rewrite EG. split; [exact (chol_draw_cov D L U (fst u) _ (proj1 Pd) E I)|].
    apply (draws_density_ext D _ _ _ _ (chol_draw_density D L U (fst u) (proj1 Pd) E)).
    intros z x Ex. exists x. split; [exact Ex|]. split; [intros ? ?; reflexivity|].
    unfold vector_density. specialize (Q x). cbn [gaussian_fixed fst snd] in Q.
    rewrite Q. apply exp_ln. now apply normal_pdf_pos.
  - intros e M z. unfold gaussian_moments in M. unfold gaussian_random.
    destruct (chol D (scal_m (-2) (snd phi))) as [U|e']; cbn [bind] in *; [discriminate|injection M as ->; reflexivity].
Qed.
Print Assumptions C59_gaussian.

(** The formula for one element draws the same as the general one. *)
Lemma ard_random_eq : forall D phi z U, cho_factor D (scal_m (-2) (snd phi)) = Ok U ->
  exists x, ard_random D phi z = Ok x /\ veq D x (fun i => chol_solve D U (fst phi) i + back_solve D U z i).
Proof.
  intros D phi z U E. unfold ard_random. destruct (Nat.eqb_spec D 1) as [->|N].
  - eexists. split; [reflexivity|]. intros i Hi. assert (i = O) as -> by lia.
    cbn [cho_factor] in E. destruct (Rle_dec (scal_m (-2) (snd phi) O O) 0) as [|P]; [discriminate|]. cbn [bind] in E.
    injection E as <-. unfold scal_m in *. set (L := -2 * snd phi O O) in *.
    unfold chol_solve, cho_solve. cbn [back_solve forward_solve cons_v rsum].
    assert (HL : 0 < L) by lra. assert (SL : 0 < sqrt L) by now apply sqrt_lt_R0.
    assert (SS : sqrt L * sqrt L = L) by (apply sqrt_sqrt; lra).
    assert (V : -0.5 / snd phi O O = / L).
    { unfold L. assert (snd phi O O <> 0) by (unfold L in HL; lra). replace (-0.5) with (- / 2) by lra. field. assumption. }
    rewrite V. rewrite sqrt_inv.
    replace (/ L) with (/ sqrt L * / sqrt L) by (rewrite <- SS at 3; field; lra). field. lra.
  - unfold chol. rewrite E. cbn [bind]. eexists. split; [reflexivity|]. intros i Hi. reflexivity.
Qed.

(** Gaussian-ARD nodes (scalars, vectors and arrays with D elements). *)
Theorem C59_gaussian_ard : forall D (phi : vec * mat) u g, symmetric D (snd phi) ->
  ard_moments D phi = Ok (u, g) ->
  draws_mean_cov D (ard_random D phi) (fst u) (sub_m (snd u) (outerv (fst u) (fst u))) /\
  draws_density D (ard_random D phi) (vector_density D phi g (- INR D / 2 * ln (2 * PI))).
Proof.
  intros D phi u g Sy M. unfold ard_moments in M.
  destruct (chol D (scal_m (-2) (snd phi))) as [U|] eqn:EC; [|discriminate]. cbn [bind] in M.
  assert (E : cho_factor D (scal_m (-2) (snd phi)) = Ok U) by (unfold chol in EC; destruct (cho_factor D _); congruence).
  injection M as <- <-. cbn [fst snd].
  destruct (proj1 (C59_gaussian D phi Sy) (chol_solve D U (fst phi),
     add_m (chol_inv D U) (outerv (chol_solve D U (fst phi)) (chol_solve D U (fst phi))))
     (-0.5 * innerv D (chol_solve D U (fst phi)) (fst phi) + 0.5 * chol_logdet D U)) as [G1 G2].
  { unfold gaussian_moments. rewrite EC. reflexivity. }
  cbn [fst snd] in G1.
  assert (EG : forall z x, gaussian_random D phi z = Ok x -> exists x', ard_random D phi z = Ok x' /\ veq D x' x).
  { intros z x H. unfold gaussian_random in H. rewrite EC in H. cbn [bind] in H. injection H as <-.
    exact (ard_random_eq D phi z U E). }
  split.
  - apply (draws_mean_cov_ext D _ _ _ _ _ _ G1 EG); [intros ? ?; reflexivity|].
    intros i j Hi Hj. unfold sub_m, add_m. ring.
  - apply (draws_density_ext D _ _ _ _ G2). intros z x H. destruct (EG z x H) as (x' & A & B). exists x'.
    split; [exact A|]. split; [exact B|]. now apply vector_density_ext.
Qed.
Print Assumptions C59_gaussian_ard.

(** ** Gaussian-gamma nodes *)

(** Given the drawn scale alpha, the vector has the mean and the covariance of the
    node's conditional distribution. *)
Theorem C59_gaussian_gamma_partial : forall lg dg D phi0 phi1 phi2 phi3 u0 u1 u2 u3 g alpha,
  symmetric D phi1 -> 0 < phi3 -> 0 < alpha ->
  gg_moments lg dg D (phi0, phi1, phi2, phi3) = Ok ((u0, u1, u2, u3), g) ->
  draws_mean_cov D (fun z => x <- gg_random D (phi0, phi1, phi2, phi3) alpha z ;; Ok (fst x))
    (scal_v (/ u2) u0) (scal_m (/ alpha) (sub_m u1 (scal_m (/ u2) (outerv u0 u0)))).
Proof.
  intros lg dg D phi0 phi1 phi2 phi3 u0 u1 u2 u3 g alpha Sy Ha Hal M. unfold gg_moments in M.
  destruct (chol D (scal_m (-2) phi1)) as [U|] eqn:EC; [|discriminate]. cbn [bind] in M.
  set (mu := chol_solve D U phi0) in *. set (b := - phi2 - 0.5 * innerv D mu phi0) in *.
  destruct (Rle_dec b 0) as [|Hb]; [discriminate|].
  assert (E : cho_factor D (scal_m (-2) phi1) = Ok U) by (unfold chol in EC; destruct (cho_factor D _); congruence).
  set (L := scal_m (-2) phi1) in *.
  assert (SL : symmetric D L) by now apply symmetric_scal.
  assert (PL := chol_posdef D L U SL E).
  set (L' := scal_m (-2) (scal_m alpha phi1)).
  assert (EL : meq D L' (scal_m alpha L)) by (intros i j Hi Hj; unfold L', L, scal_m; ring).
  assert (PL' : posdef D L').
  { split; [unfold L'; apply symmetric_scal, symmetric_scal; exact Sy|]. intros x Hx.
    rewrite (bilinear_ext D _ _ x x x x EL) by (intros ? ?; reflexivity).
    replace (bilinear D (scal_m alpha L) x x) with (alpha * bilinear D L x x); [apply Rmult_lt_0_compat; [exact Hal|now apply PL]|].
    unfold bilinear. rewrite <- rsum_scal. apply rsum_ext. intros i Hi. rewrite <- rsum_scal. apply rsum_ext. intros j Hj. unfold scal_m. ring. }
  destruct (posdef_chol D L' PL') as [U' E'].
  assert (IL := chol_inv_ok D L U SL E).
  assert (I' : is_inverse D L' (scal_m (/ alpha) (chol_inv D U))).
  { destruct IL as [I1 I2]. split; intros i j Hi Hj; [rewrite <- (I1 i j Hi Hj)|rewrite <- (I2 i j Hi Hj)]; unfold mmdot; apply rsum_ext; intros k Hk; rewrite (EL _ _) by assumption; unfold scal_m; field; lra. }
  assert (C := chol_draw_cov D L' U' (chol_solve D U' (scal_v alpha phi0)) _ (proj1 PL') E' I').
  assert (Emu : veq D (chol_solve D U' (scal_v alpha phi0)) mu).
  { apply (solve_unique D L' (scal_m (/ alpha) (chol_inv D U))); [exact I'|]. intros i Hi.
    change (mvdot D L' (cho_solve D U' (scal_v alpha phi0)) i = mvdot D L' mu i).
    rewrite (cho_factor_solve D L' U' (scal_v alpha phi0) (proj1 PL') E' i Hi).
    rewrite (mvdot_ext D L' (scal_m alpha L) mu mu EL (fun _ _ => eq_refl) i Hi).
    unfold scal_v. rewrite <- (cho_factor_solve D L U phi0 SL E i Hi). change (cho_solve D U phi0) with mu. unfold mvdot, scal_m.
    rewrite <- rsum_scal. apply rsum_ext. intros; ring. }
  assert (N2 : phi3 / b <> 0) by (apply Rgt_not_eq, Rdiv_lt_0_compat; lra).
  assert (M0 : u0 = scal_v u2 mu /\ u1 = add_m (chol_inv D U) (scal_m u2 (outerv mu mu)) /\ u2 = phi3 / b) by (injection M as <- <- <- _ _; auto).
  destruct M0 as (-> & -> & H2). rewrite <- H2 in N2.
  apply (draws_mean_cov_ext D _ _ _ _ _ _ C).
  - intros z x Ex. injection Ex as <-. unfold gg_random.
    destruct (ard_random_eq D (scal_v alpha phi0, scal_m alpha phi1) z U' E') as (x' & A & B).
    rewrite A. cbn [bind]. exists x'. split; [reflexivity|exact B].
  - intros i Hi. rewrite (Emu i Hi). unfold scal_v. field. exact N2.
  - intros i j Hi Hj. unfold scal_m, sub_m, add_m, outerv, scal_v. field. split; [exact N2|lra].
Qed.
Print Assumptions C59_gaussian_gamma_partial.

(** The scale itself is not drawn from the node's distribution: its mean is not the
    moment that the node reports. *)
Theorem C59_gaussian_gamma_refuted : forall lg dg,
  exists phi u0 u1 u2 u3 g, gg_moments lg dg 1 phi = Ok ((u0, u1, u2, u3), g) /\
    let '(shape, scale) := gg_alpha_request phi in
    u2 = 2 /\ np_gamma_mean shape scale = 1.
Proof.
  intros lg dg.
  set (phi := ((fun _ : nat => 1) : vec, (fun _ _ : nat => - / 2) : mat, -1, 1)).
  assert (C : chol 1 (scal_m (-2) (fun _ _ => - / 2)) = Ok (fun i j => match i, j with O, O => 1 | O, S _ => 1 | S _, O => 0 | S _, S _ => 0 end)).
  { unfold chol. cbn [cho_factor]. unfold scal_m. destruct (Rle_dec (-2 * - / 2) 0) as [L|L]; [exfalso; lra|]. cbn [bind].
    replace (-2 * - / 2) with 1 by lra. rewrite sqrt_1. f_equal.
    apply functional_extensionality; intros [|i]; apply functional_extensionality; intros [|j]; try reflexivity. field. }
  unfold gg_moments. 
  exists phi. unfold phi at 1. rewrite C. cbn [bind].
  destruct (Rle_dec _ 0) as [L|L].
  - exfalso. revert L. unfold innerv, chol_solve, cho_solve. cbn. lra.
  - do 5 eexists. split; [reflexivity|]. unfold phi, gg_alpha_request, gamma_request, np_gamma_mean. cbn [fst snd]. split; [|lra].
    unfold innerv, chol_solve, cho_solve. cbn. replace (0.5) with (/ 2) by lra. field.
Qed.
Print Assumptions C59_gaussian_gamma_refuted.

(** ** random.wishart and random.correlation *)

(** random.wishart does not return the scatter matrix: its result has the shape
    (nu, nu) instead of (D, D), and for nu = D its elements are others. *)
Theorem C59_wishart_refuted :
  (forall nu D X, (nu < D)%nat -> wishart_rand nu D X = Err ValueError) /\
  (forall nu D X, (D < nu)%nat -> exists r c M, wishart_rand nu D X = Ok (r, c, M) /\ (r, c) <> (D, D)) /\
  exists D X r c M, wishart_rand D D X = Ok (r, c, M) /\ ~ meq D M (scatter D X).
Proof.
  split; [|split].
  - intros nu D X H. unfold wishart_rand. destruct (Nat.ltb_spec nu D); [reflexivity|lia].
  - intros nu D X H. unfold wishart_rand. destruct (Nat.ltb_spec nu D); [lia|]. do 3 eexists. split; [reflexivity|].
    intros E. injection E as E _. lia.
  - exists 2%nat, (fun i j => match i, j with O, _ => 1 | S _, O => 0 | S _, S _ => 1 end).
    unfold wishart_rand. cbn [Nat.ltb Nat.leb]. do 3 eexists. split; [reflexivity|]. intros H.
    specialize (H O O ltac:(lia) ltac:(lia)). unfold scatter in H. cbn in H. lra.
Qed.
Print Assumptions C59_wishart_refuted.

(** A random correlation matrix is symmetric and positive semidefinite with unit
    diagonal, and its elements are in [-1, 1]. *)
Theorem C59_correlation : forall D X, (forall i, (i < D)%nat -> exists k, (k < D)%nat /\ X i k <> 0) ->
  let C := correlation_rand D X in
  symmetric D C /\ (forall i, (i < D)%nat -> C i i = 1) /\
  (forall i j, (i < D)%nat -> (j < D)%nat -> -1 <= C i j <= 1) /\
  (forall x, 0 <= bilinear D C x x).
Proof.
  intros D X H C.
  set (s := fun i => sqrt (rsum D (fun k => X i k ^ 2))). set (Y := fun i k => X i k / s i).
  assert (EC : forall i j, C i j = rsum D (fun k => Y i k * Y j k)) by reflexivity.
  assert (Sp : forall i, (i < D)%nat -> 0 < s i /\ s i * s i = rsum D (fun k => X i k ^ 2)).
  { intros i Hi. assert (P : 0 < rsum D (fun k => X i k ^ 2)).
    { destruct (Rle_lt_dec (rsum D (fun k => X i k ^ 2)) 0) as [L|]; [|assumption]. exfalso. destruct (H i Hi) as (k & Hk & N). apply N.
      assert (Z := rsum_nonneg_zero D (fun k => X i k ^ 2) (fun k _ => pow2_ge_0 _) L k Hk). cbn beta in Z. nra. }
    split; [now apply sqrt_lt_R0|]. apply sqrt_sqrt. lra. }
  assert (Dg : forall i, (i < D)%nat -> C i i = 1).
  { intros i Hi. rewrite EC. destruct (Sp i Hi) as [P Q].
    rewrite (rsum_ext D _ (fun k => / (s i * s i) * X i k ^ 2)) by (intros k Hk; unfold Y; field; lra).
    rewrite rsum_scal, <- Q. field. lra. }
  assert (Nn : forall f : nat -> R, 0 <= rsum D (fun k => f k * f k)).
  { intros f. induction D as [|n IH]; [simpl; lra|]. clear -f. induction (S n) as [|m IHm]; simpl; [lra|]. pose proof (Rle_0_sqr (f m)). unfold Rsqr in *. lra. }
  split; [intros i j _ _; rewrite !EC; apply rsum_ext; intros; ring|]. split; [exact Dg|]. split.
  - intros i j Hi Hj.
    assert (A := Nn (fun k => Y i k + Y j k)). assert (B := Nn (fun k => Y i k - Y j k)).
    assert (EA : rsum D (fun k => (Y i k + Y j k) * (Y i k + Y j k)) = C i i + 2 * C i j + C j j).
    { rewrite !EC, <- rsum_scal, <- !rsum_plus. apply rsum_ext. intros; ring. }
    assert (EB : rsum D (fun k => (Y i k - Y j k) * (Y i k - Y j k)) = C i i + (-2) * C i j + C j j).
    { rewrite !EC, <- rsum_scal, <- !rsum_plus. apply rsum_ext. intros; ring. }
    cbn beta in A, B. rewrite EA, !Dg in A by assumption. rewrite EB, !Dg in B by assumption. lra.
  - intros x. assert (A := Nn (fun k => rsum D (fun i => x i * Y i k))). cbn beta in A.
    replace (bilinear D C x x) with (rsum D (fun k => rsum D (fun i => x i * Y i k) * rsum D (fun i => x i * Y i k))); [exact A|].
    unfold bilinear. rewrite (rsum_ext D _ (fun k => rsum D (fun i => rsum D (fun j => x i * (Y i k * Y j k) * x j)))).
    + rewrite rsum_swap. apply rsum_ext. intros i Hi. rewrite rsum_swap. apply rsum_ext. intros j Hj.
      rewrite EC. rewrite (rsum_ext D _ (fun k => (x i * x j) * (Y i k * Y j k))) by (intros; ring). rewrite rsum_scal. ring.
    + intros k Hk. rewrite <- rsum_scal_r. apply rsum_ext. intros i Hi. rewrite <- rsum_scal. apply rsum_ext. intros j Hj. ring.
Qed.
Print Assumptions C59_correlation.

(** ** The hypotheses are met *)
Example ex_C59_gaussian : exists u g,
  let phi := ((fun i : nat => match i with O => 1 | _ => 2 end) : vec,
              (fun i j : nat => match i, j with O, O => -1 | S O, S O => -1 | _, _ => - / 2 end) : mat) in
  symmetric 2 (snd phi) /\ gaussian_moments 2 phi = Ok (u, g) /\
  draws_mean_cov 2 (gaussian_random 2 phi) (fst u) (sub_m (snd u) (outerv (fst u) (fst u))).
Proof.
  set (phi := ((fun i : nat => match i with O => 1 | _ => 2 end) : vec,
              (fun i j : nat => match i, j with O, O => -1 | S O, S O => -1 | _, _ => - / 2 end) : mat)).
  assert (S : symmetric 2 (snd phi)).
  { intros [|[|i]] [|[|j]] Hi Hj; cbn; try lia; reflexivity. }
  assert (M : exists u g, gaussian_moments 2 phi = Ok (u, g)).
  { unfold gaussian_moments, chol. cbn [cho_factor]. unfold scal_m at 1. destruct (Rle_dec _ 0) as [L|L]; [exfalso; cbn in L; lra|].
    cbn [bind]. destruct (Rle_dec _ 0) as [L'|L'].
    - exfalso. revert L'. unfold scal_m. cbn [phi snd].
      assert (Q : sqrt (-2 * -1) * sqrt (-2 * -1) = 2) by (replace (-2 * -1) with 2 by lra; apply sqrt_sqrt; lra).
      set (q := sqrt (-2 * -1)) in *. assert (q <> 0) by (intros Z; rewrite Z in Q; lra).
      replace (-2 * - / 2 / q * (-2 * - / 2 / q)) with (1 / (q * q)) by (field; assumption). rewrite Q. lra.
    - cbn [bind]. do 2 eexists. reflexivity. }
  destruct M as (u & g & M). exists u, g. split; [exact S|]. split; [exact M|].
  exact (proj1 (proj1 (C59_gaussian 2 phi S) u g M)).
Qed.
