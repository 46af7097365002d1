(** C24: updates of Gaussian-type and Wishart nodes maximise the bound: the families
    satisfy Gibbs' inequality, with equality only for the same moments. *)
From Coq Require Import List Arith ZArith Lia Bool Reals Lra FunctionalExtensionality.
From Verif Require Import Base Shapes SpecShapes ShapesLemmas NumPy MiscArray TensorLemmas
  EinsumLemmas SumMultiplyLemmas SpecArray PlateSumLemmas PlateSum2Lemmas MessageLemmas
  ShapeOpsLemmas DiagLemmas ExpFam SpecExpFam ExpFamLemmas ExpFamBound ExpFamGrad PExpFam SpecUpdate
  UpdateLemmas ExtReal Families SpecFamilies FamiliesLemmas FamiliesLemmas2 PFamilies2
  Markov SpecMarkov MarkovLemmas MarkovLemmas2 PMarkov FamilyDist SpecFamilyDist PUpdate PFamilyDist
  Linalg MatBridge SpecLinalg LinalgLemmas Gaussian SpecGaussian GaussLemmas GaussAlg PGaussian PGaussian2 GaussGibbs GaussianDist.
Import ListNotations.
Open Scope R_scope.

Lemma total_2d : forall a b F, total [a; b] F = rsum a (fun i => rsum b (fun j => F (upd (upd env0 1 i) 0 j))).
Proof.
  intros a b F. rewrite total_iter. cbn [length seq map]. unfold itersum. cbn [fold_right fst snd].
  change (ax [a; b] 0) with b. change (ax [a; b] 1) with a. unfold sumax.
  rewrite rsum_swap. apply rsum_ext. intros i _. apply rsum_ext. intros j _.
  f_equal. apply functional_extensionality. intros k. unfold upd.
  destruct (Nat.eqb_spec k 1), (Nat.eqb_spec k 0); try reflexivity; lia.
Qed.
Lemma total_vec : forall D p u, total [D] (fun v => p v * of_vec u v) = innerv D (as_vec p) u.
Proof. intros. rewrite total_1d. reflexivity. Qed.
Lemma total_mat : forall D p A, total [D; D] (fun v => p v * of_mat A v) = innerm D (as_mat p) A.
Proof. intros. rewrite total_2d. reflexivity. Qed.

(** The second natural parameter is a symmetric matrix. *)
Definition symmetric_phi (D : nat) (phi : list (env -> R)) : Prop :=
  match phi with [_; q] => symmetric D (as_mat q) | _ => False end.

Lemma gaussian_fam_kl : forall D, fam_gibbs (gaussian_family D) (symmetric_phi D) /\ fam_strict (gaussian_family D) (symmetric_phi D).
Proof.
  intros D. assert (K : forall phi phi' u g u' g', length phi = 2%nat -> length phi' = 2%nat ->
    symmetric_phi D phi -> symmetric_phi D phi' ->
    fam_moments (gaussian_family D) phi = Ok (u, g) -> fam_moments (gaussian_family D) phi' = Ok (u', g') ->
    exists w w', u = [of_vec (fst w); of_mat (snd w)] /\ u' = [of_vec (fst w'); of_mat (snd w')] /\
      let KL := fdot [[D]; [D; D]] phi u - fdot [[D]; [D; D]] phi' u + g - g' in
      KL >= 0 /\ (KL = 0 -> veq D (fst w) (fst w') /\ meq D (snd w) (snd w'))).
  { intros phi phi' u g u' g' L L' S S' E E'. list2 phi. list2 phi'. cbn [fam_moments gaussian_family symmetric_phi] in *.
    destruct (gaussian_moments D (as_vec p, as_mat q)) as [[w h]|] eqn:M; [|discriminate].
    destruct (gaussian_moments D (as_vec p0, as_mat q0)) as [[w' h']|] eqn:M'; [|discriminate].
    cbn [bind] in *. injection E as <- <-. injection E' as <- <-. exists w, w'. split; [reflexivity|]. split; [reflexivity|].
    cbn [fdot]. rewrite !total_vec, !total_mat.
    pose proof (gaussian_kl D (as_vec p, as_mat q) (as_vec p0, as_mat q0) w w' h h' S S' M M') as G. cbn [fst snd] in G.
    rewrite !Rplus_0_r. exact G. }
  split; intros phi phi' u g u' g' L L' P P' E E'; destruct (K _ _ _ _ _ _ L L' P P' E E') as (w & w' & -> & -> & [G1 G2]).
  - split; [reflexivity|exact G1].
  - intros Z. destruct (G2 Z) as [Q0 Q1]. split; [reflexivity|]. split; [reflexivity|].
    intros [|[|[|i]]] d v Hd Hv; try discriminate; injection Hd as <-; cbn [nth].
    + apply Q0. apply (Hv 0%nat).
    + apply Q1; [apply (Hv 1%nat)|apply (Hv 0%nat)].
Qed.

Theorem C24_gaussian_node : forall pm val (Dd : dist pm val) plates D,
  d_moments Dd = lift_moments (gaussian_family D) plates ->
  let proper := proper_at (gaussian_family D) (symmetric_phi D) plates in
  gibbs Dd plates [[D]; [D; D]] proper /\ strict_gibbs Dd plates [[D]; [D; D]] proper.
Proof.
  intros pm val Dd plates D ED. destruct (gaussian_fam_kl D) as [G ST]. split.
  - exact (lift_gibbs _ _ Dd (gaussian_family D) _ plates ED G).
  - exact (lift_strict _ _ Dd (gaussian_family D) _ plates ED G ST).
Qed.
Print Assumptions C24_gaussian_node.

Lemma ard_fam : forall D phi u g, fam_moments (ard_family D) phi = Ok (u, g) ->
  exists u', fam_moments (gaussian_family D) phi = Ok (u', g) /\ length u = 2%nat /\ length u' = 2%nat /\
    forall i v, nth i u (fun _ => 0) v = nth i u' (fun _ => 0) v.
Proof.
  intros D [|p [|q [|r phi]]] u g H; try discriminate. cbn [fam_moments ard_family gaussian_family] in *.
  unfold ard_moments, gaussian_moments in *. cbn [fst snd] in *. destruct (chol D (scal_m (-2) (as_mat q))) as [U|]; [|discriminate].
  cbn [bind] in *. injection H as <- <-. eexists. split; [reflexivity|]. split; [reflexivity|]. split; [reflexivity|].
  intros [|[|i]] v; cbn [nth]; try reflexivity. unfold of_mat, add_m. cbn. ring.
Qed.
Lemma fdot_nth : forall dims a u u', length u = length u' -> (forall i v, nth i u (fun _ => 0) v = nth i u' (fun _ => 0) v) ->
  fdot dims a u = fdot dims a u'.
Proof.
  induction dims as [|d dims IH]; intros [|x a] [|y u] [|y' u'] L H; try discriminate; try reflexivity. cbn [fdot]. f_equal.
  - apply total_ext. intros v Hv. f_equal. exact (H 0%nat v).
  - apply IH; [now injection L|]. intros i v. exact (H (S i) v).
Qed.

Lemma ard_fam_kl : forall D, fam_gibbs (ard_family D) (symmetric_phi D) /\ fam_strict (ard_family D) (symmetric_phi D).
Proof.
  intros D. destruct (gaussian_fam_kl D) as [G ST].
  assert (G' : fam_gibbs (ard_family D) (symmetric_phi D)).
  { intros phi phi' u g u' g' L L' P P' E E'. destruct (ard_fam D _ _ _ E) as (w & M & Lu & Lw & N).
    destruct (ard_fam D _ _ _ E') as (w' & M' & Lu' & Lw' & N').
    destruct (G _ _ _ _ _ _ L L' P P' M M') as [_ K]. split; [exact Lu|]. cbn [fam_dims ard_family] in *.
    rewrite !(fdot_nth _ _ u w) by (auto; congruence). exact K. }
  assert (ST' : fam_strict (ard_family D) (symmetric_phi D)).
  { intros phi phi' u g u' g' L L' P P' E E' Z. destruct (ard_fam D _ _ _ E) as (w & M & Lu & Lw & N).
    destruct (ard_fam D _ _ _ E') as (w' & M' & Lu' & Lw' & N'). cbn [fam_dims ard_family] in *.
    rewrite !(fdot_nth _ _ u w) in Z by (auto; congruence).
    destruct (ST _ _ _ _ _ _ L L' P P' M M' Z) as (_ & _ & K). split; [exact Lu|]. split; [exact Lu'|].
    intros i d v Hd Hv. rewrite N, N'. exact (K i d v Hd Hv). }
  now split.
Qed.

Theorem C24_gaussian_ard_node : forall pm val (Dd : dist pm val) plates D,
  d_moments Dd = lift_moments (ard_family D) plates ->
  let proper := proper_at (ard_family D) (symmetric_phi D) plates in
  gibbs Dd plates [[D]; [D; D]] proper /\ strict_gibbs Dd plates [[D]; [D; D]] proper.
Proof.
  intros pm val Dd plates D ED. destruct (ard_fam_kl D) as [G' ST'].
  split.
  - exact (lift_gibbs _ _ Dd (ard_family D) _ plates ED G').
  - exact (lift_strict _ _ Dd (ard_family D) _ plates ED G' ST').
Qed.
Print Assumptions C24_gaussian_ard_node.

(** Scalar GaussianARD. *)
Lemma normal1_kl : forall m v m' v', 0 < v -> 0 < v' ->
  let KL := v / v' - 1 - ln (v / v') + (m - m') ^ 2 / v' in
  KL >= 0 /\ (KL = 0 -> m = m' /\ v = v').
Proof.
  intros m v m' v' Hv Hv' KL. assert (Pr : 0 < v / v') by now apply Rdiv_lt_0_compat.
  pose proof (ln_le_sub1 _ Pr) as L. pose proof (ln_eq_sub1 _ Pr) as LE.
  assert (Q : 0 <= (m - m') ^ 2 / v').
  { apply Rmult_le_pos; [apply pow2_ge_0|left; now apply Rinv_0_lt_compat]. }
  split; [unfold KL; lra|]. intros Z. unfold KL in Z.
  assert (Z1 : v / v' = 1) by (apply LE; lra).
  assert (Z2 : (m - m') ^ 2 / v' = 0) by lra.
  split.
  - assert (Z3 : (m - m') ^ 2 = 0) by (apply (Rmult_eq_reg_r (/ v')); [unfold Rdiv in Z2; lra|apply Rinv_neq_0_compat; lra]).
    nra.
  - apply (Rmult_eq_compat_r v') in Z1. unfold Rdiv in Z1. rewrite Rmult_assoc, Rinv_l in Z1 by lra. lra.
Qed.

Lemma ard0_fam_kl : fam_gibbs ard0_family anything /\ fam_strict ard0_family anything.
Proof.
  assert (K : forall phi phi' u g u' g', length phi = 2%nat -> length phi' = 2%nat ->
    fam_moments ard0_family phi = Ok (u, g) -> fam_moments ard0_family phi' = Ok (u', g') ->
    exists m v m' v', 0 < v /\ 0 < v' /\ u = [fun _ => m; fun _ => m ^ 2 + v] /\ u' = [fun _ => m'; fun _ => m' ^ 2 + v'] /\
      fdot [[]; []] phi u - fdot [[]; []] phi' u + g - g' = (v / v' - 1 - ln (v / v') + (m - m') ^ 2 / v') / 2).
  { intros phi phi' u g u' g' L L' E E'. list2 phi. list2 phi'. cbn [fam_moments ard0_family] in *.
    destruct (C44_ard_scalar_moments (p env0) (q env0)) as [B1 A1]. destruct (C44_ard_scalar_moments (p0 env0) (q0 env0)) as [B2 A2].
    destruct (Rle_lt_dec 0 (q env0)) as [H|H]; [destruct (B1 H) as [e X]; rewrite X in E; discriminate|].
    destruct (Rle_lt_dec 0 (q0 env0)) as [H'|H']; [destruct (B2 H') as [e X]; rewrite X in E'; discriminate|].
    destruct (A1 H) as (m & v & M & Hv & V1 & V2 & _). destruct (A2 H') as (m' & v' & M' & Hv' & V1' & V2' & _).
    rewrite M in E. rewrite M' in E'. cbn [bind fst snd] in *. injection E as <- <-. injection E' as <- <-.
    exists m, v, m', v'. split; [exact Hv|]. split; [exact Hv'|]. split; [reflexivity|]. split; [reflexivity|].
    cbn [fdot]. rewrite !total_0d, ln_div by assumption.
    assert (F1 : q env0 = - / v / 2) by (apply (Rmult_eq_reg_l v); [|lra]; field_simplify; lra).
    assert (F2 : q0 env0 = - / v' / 2) by (apply (Rmult_eq_reg_l v'); [|lra]; field_simplify; lra).
    assert (F3 : p env0 = m / v) by (rewrite V2; field; lra).
    assert (F4 : p0 env0 = m' / v') by (rewrite V2'; field; lra).
    rewrite F1, F2, F3, F4. field. lra. }
  split; intros phi phi' u g u' g' L L' P P' E E'; destruct (K _ _ _ _ _ _ L L' E E') as (m & v & m' & v' & Hv & Hv' & -> & -> & X);
    cbn [fam_dims ard0_family]; rewrite X; destruct (normal1_kl m v m' v' Hv Hv') as [G1 G2].
  - split; [reflexivity|lra].
  - intros Z. destruct G2 as [<- <-]; [lra|]. split; [reflexivity|]. split; reflexivity.
Qed.

Theorem C24_scalar_ard_node : forall pm val (Dd : dist pm val) plates,
  d_moments Dd = lift_moments ard0_family plates ->
  gibbs Dd plates [[]; []] anything /\ strict_gibbs Dd plates [[]; []] anything.
Proof.
  intros pm val Dd plates ED. destruct ard0_fam_kl as [G ST]. split.
  - intros phi phi' mask u g u' g' F1 F2 _ _. now apply (lift_gibbs _ _ Dd _ _ plates ED G).
  - intros phi phi' mask u g u' g' F1 F2 _ _. now apply (lift_strict _ _ Dd _ _ plates ED G ST).
Qed.
Print Assumptions C24_scalar_ard_node.

(** GaussianGamma: phi1 symmetric, the shape positive. *)
Definition gaussian_gamma_proper (D : nat) (phi : list (env -> R)) : Prop :=
  match phi with [_; q; _; s] => symmetric D (as_mat q) /\ 0 < s env0 | _ => False end.

Lemma gaussian_gamma_fam_kl : forall lg psi D, gamma_convex lg psi ->
  fam_gibbs (gaussian_gamma_family lg psi D) (gaussian_gamma_proper D) /\
  (gamma_strictly_convex lg psi -> fam_strict (gaussian_gamma_family lg psi D) (gaussian_gamma_proper D)).
Proof.
  intros lg psi D HC.
  assert (K : forall phi phi' u g u' g', length phi = 4%nat -> length phi' = 4%nat ->
    gaussian_gamma_proper D phi -> gaussian_gamma_proper D phi' ->
    fam_moments (gaussian_gamma_family lg psi D) phi = Ok (u, g) -> fam_moments (gaussian_gamma_family lg psi D) phi' = Ok (u', g') ->
    exists w0 w1 w2 w3 x0 x1 x2 x3, u = [of_vec w0; of_mat w1; (fun _ => w2); (fun _ => w3)] /\ u' = [of_vec x0; of_mat x1; (fun _ => x2); (fun _ => x3)] /\
      let KL := fdot [[D]; [D; D]; []; []] phi u - fdot [[D]; [D; D]; []; []] phi' u + g - g' in
      KL >= 0 /\ (gamma_strictly_convex lg psi -> KL = 0 -> veq D w0 x0 /\ meq D w1 x1 /\ w2 = x2 /\ w3 = x3)).
  { intros phi phi' u g u' g' L L' S S' E E'. destruct phi as [|p [|q [|r [|s [|]]]]]; try discriminate.
    destruct phi' as [|p' [|q' [|r' [|s' [|]]]]]; try discriminate. cbn [fam_moments gaussian_gamma_family gaussian_gamma_proper] in *.
    destruct (gg_moments lg psi D (as_vec p, as_mat q, r env0, s env0)) as [[[[[w0 w1] w2] w3] h]|] eqn:M; [|discriminate].
    destruct (gg_moments lg psi D (as_vec p', as_mat q', r' env0, s' env0)) as [[[[[x0 x1] x2] x3] h']|] eqn:M'; [|discriminate].
    cbn [bind] in *. injection E as <- <-. injection E' as <- <-. exists w0, w1, w2, w3, x0, x1, x2, x3. split; [reflexivity|]. split; [reflexivity|].
    cbn [fdot]. rewrite !total_vec, !total_mat, !total_0d.
    pose proof (gg_kl lg psi D (as_vec p, as_mat q, r env0, s env0) (as_vec p', as_mat q', r' env0, s' env0)
      (w0, w1, w2, w3) (x0, x1, x2, x3) h h' HC S S' M M') as G. cbv zeta in G. unfold gg_pair in G. cbv zeta.
    rewrite !Rplus_0_r. rewrite <- !Rplus_assoc. exact G. }
  assert (G : fam_gibbs (gaussian_gamma_family lg psi D) (gaussian_gamma_proper D)).
  { intros phi phi' u g u' g' L L' P P' E E'.
    destruct (K _ _ _ _ _ _ L L' P P' E E') as (w0 & w1 & w2 & w3 & x0 & x1 & x2 & x3 & -> & -> & [G1 G2]). split; [reflexivity|exact G1]. }
  split; [exact G|]. intros HS.
  intros phi phi' u g u' g' L L' P P' E E' Z.
  destruct (K _ _ _ _ _ _ L L' P P' E E') as (w0 & w1 & w2 & w3 & x0 & x1 & x2 & x3 & -> & -> & [G1 G2]).
  destruct (G2 HS Z) as (Q0 & Q1 & Q2 & Q3). split; [reflexivity|]. split; [reflexivity|].
  intros [|[|[|[|[|i]]]]] d v Hd Hv; try discriminate; injection Hd as <-; cbn [nth]; try assumption.
  - apply Q0. apply (Hv 0%nat).
  - apply Q1; [apply (Hv 1%nat)|apply (Hv 0%nat)].
Qed.

Theorem C24_gaussian_gamma_node : forall pm val (Dd : dist pm val) plates lg psi D, gamma_convex lg psi ->
  d_moments Dd = lift_moments (gaussian_gamma_family lg psi D) plates ->
  let proper := proper_at (gaussian_gamma_family lg psi D) (gaussian_gamma_proper D) plates in
  gibbs Dd plates [[D]; [D; D]; []; []] proper /\
  (gamma_strictly_convex lg psi -> strict_gibbs Dd plates [[D]; [D; D]; []; []] proper).
Proof.
  intros pm val Dd plates lg psi D HC ED.
  destruct (gaussian_gamma_fam_kl lg psi D HC) as [G ST].
  split; [exact (lift_gibbs _ _ Dd (gaussian_gamma_family lg psi D) _ plates ED G)|]. intros HS.
  refine (lift_strict _ _ Dd (gaussian_gamma_family lg psi D) _ plates ED G _).
  exact (ST HS).
Qed.
Print Assumptions C24_gaussian_gamma_node.

(** Wishart: phi0 symmetric, more than k - 1 degrees of freedom. *)
Definition wishart_proper (k : nat) (phi : list (env -> R)) : Prop :=
  match phi with [p; q] => symmetric k (as_mat p) /\ INR k - 1 < 2 * q env0 | _ => False end.

Lemma wishart_fam_kl : forall lg psi k, gamma_convex lg psi ->
  fam_gibbs (wishart_family lg psi k) (wishart_proper k) /\
  (gamma_strictly_convex lg psi -> fam_strict (wishart_family lg psi k) (wishart_proper k)).
Proof.
  intros lg psi k HC.
  assert (K : forall phi phi' u g u' g', length phi = 2%nat -> length phi' = 2%nat ->
    wishart_proper k phi -> wishart_proper k phi' ->
    fam_moments (wishart_family lg psi k) phi = Ok (u, g) -> fam_moments (wishart_family lg psi k) phi' = Ok (u', g') ->
    exists w w', u = [of_mat (fst w); (fun _ => snd w)] /\ u' = [of_mat (fst w'); (fun _ => snd w')] /\
      let KL := fdot [[k; k]; []] phi u - fdot [[k; k]; []] phi' u + g - g' in
      KL >= 0 /\ (gamma_strictly_convex lg psi -> KL = 0 -> meq k (fst w) (fst w') /\ snd w = snd w')).
  { intros phi phi' u g u' g' L L' S S' E E'. list2 phi. list2 phi'. cbn [fam_moments wishart_family wishart_proper] in *.
    destruct (wishart_moments lg psi k (as_mat p, q env0)) as [[w h]|] eqn:M; [|discriminate].
    destruct (wishart_moments lg psi k (as_mat p0, q0 env0)) as [[w' h']|] eqn:M'; [|discriminate].
    cbn [bind] in *. injection E as <- <-. injection E' as <- <-. exists w, w'. split; [reflexivity|]. split; [reflexivity|].
    cbn [fdot]. rewrite !total_mat, !total_0d.
    pose proof (wishart_kl lg psi k (as_mat p, q env0) (as_mat p0, q0 env0) w w' h h' HC S S' M M') as G. cbn [fst snd] in G.
    rewrite !Rplus_0_r. exact G. }
  assert (G : fam_gibbs (wishart_family lg psi k) (wishart_proper k)).
  { intros phi phi' u g u' g' L L' P P' E E'.
    destruct (K _ _ _ _ _ _ L L' P P' E E') as (w & w' & -> & -> & [G1 G2]). split; [reflexivity|exact G1]. }
  split; [exact G|]. intros HS.
  intros phi phi' u g u' g' L L' P P' E E' Z.
  destruct (K _ _ _ _ _ _ L L' P P' E E') as (w & w' & -> & -> & [G1 G2]).
  destruct (G2 HS Z) as (Q0 & Q1). split; [reflexivity|]. split; [reflexivity|].
  intros [|[|[|i]]] d v Hd Hv; try discriminate; injection Hd as <-; cbn [nth].
  - apply Q0; [apply (Hv 1%nat)|apply (Hv 0%nat)].
  - exact Q1.
Qed.

Theorem C24_wishart_node : forall pm val (Dd : dist pm val) plates lg psi k, gamma_convex lg psi ->
  d_moments Dd = lift_moments (wishart_family lg psi k) plates ->
  let proper := proper_at (wishart_family lg psi k) (wishart_proper k) plates in
  gibbs Dd plates [[k; k]; []] proper /\
  (gamma_strictly_convex lg psi -> strict_gibbs Dd plates [[k; k]; []] proper).
Proof.
  intros pm val Dd plates lg psi k HC ED.
  destruct (wishart_fam_kl lg psi k HC) as [G ST].
  split; [exact (lift_gibbs _ _ Dd (wishart_family lg psi k) _ plates ED G)|]. intros HS.
  refine (lift_strict _ _ Dd (wishart_family lg psi k) _ plates ED G _).
  exact (ST HS).
Qed.
Print Assumptions C24_wishart_node.

(** A concrete case: the correlated plane Gaussian, and its matrix as a Wishart. *)
Lemma as_of_mat : forall A, as_mat (of_mat A) = A.
Proof. reflexivity. Qed.
Example ex_gaussian_family : symmetric_phi 2 [of_vec (fst ex_phi); of_mat (snd ex_phi)] /\
  exists r, fam_moments (gaussian_family 2) [of_vec (fst ex_phi); of_mat (snd ex_phi)] = Ok r.
Proof.
  destruct ex_state as (Sy & u & u' & g & H & _). split; [exact Sy|].
  cbn [fam_moments gaussian_family]. change (as_vec (of_vec (fst ex_phi)), as_mat (of_mat (snd ex_phi))) with ex_phi.
  rewrite H. eexists. reflexivity.
Qed.
Example ex_wishart_family : wishart_proper 2 [of_mat (scal_m (-1) ex_A); fun _ => 2] /\
  exists r, fam_moments (wishart_family (fun _ => 0) (fun _ => 0) 2) [of_mat (scal_m (-1) ex_A); fun _ => 2] = Ok r.
Proof.
  split; [split; [apply symmetric_scal, ex_posdef|cbn; lra]|]. cbn [fam_moments wishart_family]. rewrite as_of_mat.
  assert (P : posdef 2 (scal_m (-1) (scal_m (-1) ex_A))).
  { apply (posdef_ext 2 ex_A); [intros i j _ _; unfold scal_m; ring|exact ex_posdef]. }
  destruct (posdef_chol 2 _ P) as [U E]. unfold wishart_moments, chol. cbn [fst snd]. rewrite E. eexists. reflexivity.
Qed.
