(** The gradients of the code are the derivative of the objective along a curve. *)
From Coq Require Import List Arith Lia Bool Reals Lra.
From Verif Require Import Base NumPy TensorLemmas Families FamiliesLemmas FamiliesLemmas2 Linalg MatBridge SpecLinalg LinalgLemmas Gaussian SpecGaussian GaussLemmas GaussAlg DetCurve
  RotateARD SpecRotateARD RotateChain SpecRotateChain PlateRotate SpecPlateRotate PlateRotLemmas PlateRotLemmas2 PlateRotLemmas3 PlateRotGrad.
Import ListNotations.
Open Scope R_scope.

Section Slope.
Variable n : plate_nodes.
Let P := pn_P n.
Let M := pn_M n.
Variables (Rt Qt : R -> mat) (t0 : R) (dR dQ : mat) (ld : R -> R) (dl : R) (inv : mat).
Hypothesis TR : tangent M Rt t0 dR.
Hypothesis TQ : tangent P Qt t0 dQ.
Hypothesis TL : derivable_pt_lim ld t0 dl.
Hypothesis EL : dl = pair_sum M (transpose inv) dR.
Let R0 := Rt t0.
Let Q0 := Qt t0.
Hypothesis Sy : forall p, (p < P)%nat -> symmetric M (pl_CovX n p).
Hypothesis NZ : sums_nonzero P Q0.
Let dd p k := ddev_R n Rt Qt t0 dR p k + ddev_Q n Rt Qt t0 dQ p k.

Lemma both_parts : forall w : nat -> nat -> R, rsum P (fun p => rsum M (fun k => w (to_row n p) (to_col n k) * dd p k)) + (INR P * dl + rsum P (fun i => rsum P (fun j => INR M / sumQ n Q0 j * dQ i j)))
  = pair_sum M (fun i j => rsum (rows n) (fun c => w c (to_col n i) * pl_D_dev n R0 Q0 c i j) + INR P * transpose inv i j) dR
    + pair_sum P (fun i j => 2 * pl_psi n R0 Q0 w i j + INR M / sumQ n Q0 j) dQ.
Proof.
  intros w. unfold dd. rewrite (rsum_ext P _ (fun p => rsum M (fun k => w (to_row n p) (to_col n k) * ddev_R n Rt Qt t0 dR p k) + rsum M (fun k => w (to_row n p) (to_col n k) * ddev_Q n Rt Qt t0 dQ p k)))
    by (intros; rewrite <- rsum_plus; apply rsum_ext; intros; ring).
  rewrite rsum_plus. pose proof (gradient_R_slope n Rt Qt t0 dR Sy w) as G1. pose proof (psi_slope n Rt Qt t0 dQ w) as G2. fold R0 Q0 P M in G1, G2. rewrite <- G1, <- G2.
  rewrite (pair_sum_add M), (pair_sum_add P), (pair_sum_scal M), <- EL. unfold pair_sum. ring.
Qed.

(** ** alpha is not updated *)
Section Fixed.
Hypothesis EF : pn_gamma n = None.
Let w c d := -0.5 * pn_alpha n c d.
Lemma fixed_objective_slope : derivable_pt_lim (fun t => plate_objective n (Rt t) (Qt t) (ld t)) t0
  (rsum P (fun p => rsum M (fun k => w (to_row n p) (to_col n k) * dd p k)) + (INR P * dl + rsum P (fun i => rsum P (fun j => INR M / sumQ n Q0 j * dQ i j)))).
Proof.
  apply (dlim_ext (fun t => rsum P (fun p => rsum M (fun k => w (to_row n p) (to_col n k) * el_dev n (Rt t) (Qt t) p k)) + entropy_sum n (Qt t) (ld t))).
  - intros t. unfold plate_objective. rewrite (terms_fixed n _ _ _ EF). fold P M. rewrite <- rsum_scal.
    rewrite (rsum_ext P _ (fun p => -0.5 * rsum M (fun k => pn_alpha n (to_row n p) (to_col n k) * el_dev n (Rt t) (Qt t) p k))) by (intros; rewrite <- rsum_scal; apply rsum_ext; intros; unfold w; ring).
    ring.
  - apply d_plus; [|exact (entropy_slope n Qt t0 dQ TQ ld dl TL NZ)].
    apply (d_rsum P (fun p t => rsum M (fun k => w (to_row n p) (to_col n k) * el_dev n (Rt t) (Qt t) p k))). intros p Hp.
    apply (d_rsum M (fun k t => w (to_row n p) (to_col n k) * el_dev n (Rt t) (Qt t) p k)). intros k Hk.
    apply d_scal. exact (d_dev n Rt Qt t0 dR dQ TR TQ Sy p k Hp Hk).
Qed.
Lemma fixed_slope : exists gR gQ, plate_gradient_R n R0 inv Q0 = Ok gR /\ plate_gradient_Q n R0 Q0 = Ok gQ /\
  derivable_pt_lim (fun t => plate_objective n (Rt t) (Qt t) (ld t)) t0 (pair_sum M gR dR + pair_sum P gQ dQ).
Proof.
  unfold plate_gradient_R, plate_gradient_Q. rewrite EF. eexists. eexists. split; [reflexivity|]. split; [reflexivity|].
  eapply dlim_eq; [exact fixed_objective_slope|]. rewrite both_parts. f_equal.
  - unfold pair_sum. apply rsum_ext. intros i Hi. apply rsum_ext. intros j Hj. f_equal. unfold w, gaussian_logpdf, gaussian_entropy, transpose. fold P M.
    rewrite (rsum_ext (rows n) _ (fun c => -0.5 * (pn_alpha n c (to_col n i) * pl_D_dev n R0 Q0 c i j))) by (intros; ring).
    rewrite rsum_scal. lra.
  - unfold pair_sum. apply rsum_ext. intros i Hi. apply rsum_ext. intros j Hj. f_equal. unfold gaussian_logpdf, gaussian_entropy. fold M.
    replace (pl_psi n R0 Q0 w i j) with (-0.5 * pl_psi n R0 Q0 (pn_alpha n) i j); [lra|].
    unfold pl_psi, w. cbv zeta. rewrite !Rmult_minus_distr_l, !Rmult_plus_distr_l, <- !rsum_scal.
    f_equal; [f_equal|]; apply rsum_ext; intros; ring.
Qed.
End Fixed.

(** ** alpha is updated *)
Section Gamma.
Variable g : plate_gamma.
Hypothesis EG : pn_gamma n = Some g.
Hypothesis BP : forall Rm Q c d, (c < rows n)%nat -> (d < cols n)%nat -> 0 < pl_b n g Rm Q c d.
Let E0 c d := sum_cols n (pl_dev n R0 Q0 c) d.
Let b c d := pl_b n g R0 Q0 c d.
Let al c d := pl_alpha n g R0 Q0 c d.
Let w c d := -0.5 * al c d + 0.25 * (al c d / b c d * E0 c d) - (0.5 * repeats n + at2 (pg_a0 g) c d) * 0.5 * (1 / b c d) + 0.5 * at2 (pg_b0 g) c d * (al c d / b c d).

Definition cell (Rm Q : mat) (c d : nat) : R :=
  -0.5 * (pl_alpha n g Rm Q c d * sum_cols n (pl_dev n Rm Q c) d) + 0.5 * (repeats n * - ln (pl_b n g Rm Q c d))
  + at2 (pg_a0 g) c d * - ln (pl_b n g Rm Q c d) - at2 (pg_b0 g) c d * pl_alpha n g Rm Q c d.
Lemma sum_alpha_ext : forall F G, (forall c d, (c < rows n)%nat -> (d < cols n)%nat -> F c d = G c d) -> sum_alpha n F = sum_alpha n G.
Proof. intros F G H. unfold sum_alpha. apply rsum_ext. intros c Hc. apply rsum_ext. intros d Hd. now apply H. Qed.
Lemma objective_cells : forall Rm Q l, plate_objective n Rm Q l = sum_alpha n (cell Rm Q) + entropy_sum n Q l.
Proof.
  intros Rm Q l. unfold plate_objective. rewrite (terms_gamma n g _ _ _ EG). fold P M.
  pose proof (both_back n (pl_alpha n g Rm Q) (el_dev n Rm Q)) as BB. fold P M in BB. rewrite <- BB.
  pose proof (repeats_eq n (fun c d => - ln (pl_b n g Rm Q c d))) as RE. fold P M in RE. cbv beta in RE. rewrite <- RE.
  rewrite (sum_alpha_ext (fun c d => pl_alpha n g Rm Q c d * _) (fun c d => pl_alpha n g Rm Q c d * sum_cols n (pl_dev n Rm Q c) d)) by (intros c d Hc Hd; now rewrite sum_dev).
  unfold sum_alpha, cell.
  rewrite (rsum_ext (rows n) (fun c => rsum (cols n) (fun d => -0.5 * _ + _ + _ - _)) (fun c =>
     -0.5 * rsum (cols n) (fun d => pl_alpha n g Rm Q c d * sum_cols n (pl_dev n Rm Q c) d) + 0.5 * (repeats n * rsum (cols n) (fun d => - ln (pl_b n g Rm Q c d)))
     + rsum (cols n) (fun d => at2 (pg_a0 g) c d * - ln (pl_b n g Rm Q c d)) - rsum (cols n) (fun d => at2 (pg_b0 g) c d * pl_alpha n g Rm Q c d)))
    by (intros c Hc; now rewrite rsum_minus, !rsum_plus, !rsum_scal).
  rewrite rsum_minus, !rsum_plus, !rsum_scal. ring.
Qed.
Lemma cell_slope : forall c d, (c < rows n)%nat -> (d < cols n)%nat ->
  derivable_pt_lim (fun t => cell (Rt t) (Qt t) c d) t0 (w c d * sum_cols n (fun k => sum_rows n (fun p => dd p k) c) d).
Proof.
  intros c d Hc Hd. set (e := sum_cols n (fun k => sum_rows n (fun p => dd p k) c) d).
  assert (DE : derivable_pt_lim (fun t => sum_cols n (pl_dev n (Rt t) (Qt t) c) d) t0 e).
  { apply (dlim_ext (fun t => sum_cols n (fun k => sum_rows n (fun p => el_dev n (Rt t) (Qt t) p k) c) d)); [intros t; symmetry; now apply sum_dev|].
    apply (d_cols_rows n t0 (fun p k t => el_dev n (Rt t) (Qt t) p k)); [exact Hc|exact Hd|]. intros p k Hp Hk. exact (d_dev n Rt Qt t0 dR dQ TR TQ Sy p k Hp Hk). }
  assert (DB : derivable_pt_lim (fun t => pl_b n g (Rt t) (Qt t) c d) t0 (0.5 * e)).
  { unfold pl_b. eapply dlim_eq; [apply (d_plus (fun _ => at2 (pg_b0 g) c d)); [exact (d_const (at2 (pg_b0 g) c d) t0)|apply (d_scal 0.5); exact DE]|]. ring. }
  pose proof (BP (Rt t0) (Qt t0) c d Hc Hd) as B0.
  assert (DLn : derivable_pt_lim (fun t => - ln (pl_b n g (Rt t) (Qt t) c d)) t0 (- (/ b c d * (0.5 * e)))).
  { apply d_opp. apply (d_comp (fun t => pl_b n g (Rt t) (Qt t) c d) ln); [exact DB|]. exact (d_ln (pl_b n g (Rt t0) (Qt t0) c d) B0). }
  assert (DA : derivable_pt_lim (fun t => pl_alpha n g (Rt t) (Qt t) c d) t0 (pg_a g c d * (- (0.5 * e) / b c d ^ 2))).
  { unfold pl_alpha. apply (d_scal (pg_a g c d) (fun t => / pl_b n g (Rt t) (Qt t) c d)). apply (d_inv (fun t => pl_b n g (Rt t) (Qt t) c d)); [|exact DB]. cbv beta. lra. }
  unfold cell. eapply dlim_eq.
  - apply d_minus; [|apply (d_scal (at2 (pg_b0 g) c d)); exact DA].
    apply d_plus; [|apply (d_scal (at2 (pg_a0 g) c d)); exact DLn].
    apply d_plus; [|apply (d_scal 0.5); apply (d_scal (repeats n)); exact DLn].
    apply (d_scal (-0.5)). exact (d_mult _ _ t0 _ _ DA DE).
  - cbv beta. fold R0 Q0. fold (E0 c d) (al c d) (b c d). unfold w. unfold al at 2 3. unfold pl_alpha. fold (b c d).
    assert (NB : b c d <> 0) by (unfold b, R0, Q0; lra).
    replace (al c d) with (pg_a g c d / b c d) by reflexivity. replace (-0.5) with (- / 2) by lra. replace 0.5 with (/ 2) by lra. replace 0.25 with (/ 4) by lra. field. exact NB.
Qed.
Lemma gamma_objective_slope : derivable_pt_lim (fun t => plate_objective n (Rt t) (Qt t) (ld t)) t0
  (rsum P (fun p => rsum M (fun k => w (to_row n p) (to_col n k) * dd p k)) + (INR P * dl + rsum P (fun i => rsum P (fun j => INR M / sumQ n Q0 j * dQ i j)))).
Proof.
  apply (dlim_ext (fun t => sum_alpha n (cell (Rt t) (Qt t)) + entropy_sum n (Qt t) (ld t))); [intros t; symmetry; apply objective_cells|].
  apply d_plus; [|exact (entropy_slope n Qt t0 dQ TQ ld dl TL NZ)].
  pose proof (both_back n w dd) as BB. fold P M in BB. rewrite <- BB. unfold sum_alpha.
  apply (d_rsum (rows n) (fun c t => rsum (cols n) (fun d => cell (Rt t) (Qt t) c d))). intros c Hc.
  apply (d_rsum (cols n) (fun d t => cell (Rt t) (Qt t) c d)). intros d Hd. now apply cell_slope.
Qed.
Hypothesis OP : one_prior n.
Lemma prior_const : forall c d c' d', at2 (pg_a0 g) c d = at2 (pg_a0 g) c' d' /\ at2 (pg_b0 g) c d = at2 (pg_b0 g) c' d'.
Proof. intros. destruct (OP g EG) as (A & B & C & D). unfold at2. rewrite A, B, C, D. split; reflexivity. Qed.
Lemma psi_lin : forall k1 k2 k3 k4 v1 v2 v3 v4 i j,
  pl_psi n R0 Q0 (fun c d => k1 * v1 c d + k2 * v2 c d - k3 * v3 c d + k4 * v4 c d) i j
  = k1 * pl_psi n R0 Q0 v1 i j + k2 * pl_psi n R0 Q0 v2 i j - k3 * pl_psi n R0 Q0 v3 i j + k4 * pl_psi n R0 Q0 v4 i j.
Proof.
  intros. rewrite !(psi_eq n Rt Qt t0). fold R0 Q0 M.
  rewrite (rsum_ext M (fun k => (k1 * v1 (to_row n i) (to_col n k) + _ - _ + _) * _) (fun k => k1 * (v1 (to_row n i) (to_col n k) * ((el_mean n R0 Q0 i k - pl_mu n i k) * pl_RX n R0 j k))
    + k2 * (v2 (to_row n i) (to_col n k) * ((el_mean n R0 Q0 i k - pl_mu n i k) * pl_RX n R0 j k)) - k3 * (v3 (to_row n i) (to_col n k) * ((el_mean n R0 Q0 i k - pl_mu n i k) * pl_RX n R0 j k))
    + k4 * (v4 (to_row n i) (to_col n k) * ((el_mean n R0 Q0 i k - pl_mu n i k) * pl_RX n R0 j k)))) by (intros; ring).
  rewrite (rsum_ext M (fun k => (k1 * v1 (to_row n j) (to_col n k) + _ - _ + _) * _) (fun k => k1 * (v1 (to_row n j) (to_col n k) * (sumQ n Q0 j * el_var n R0 j k))
    + k2 * (v2 (to_row n j) (to_col n k) * (sumQ n Q0 j * el_var n R0 j k)) - k3 * (v3 (to_row n j) (to_col n k) * (sumQ n Q0 j * el_var n R0 j k))
    + k4 * (v4 (to_row n j) (to_col n k) * (sumQ n Q0 j * el_var n R0 j k)))) by (intros; ring).
  rewrite !rsum_plus, !rsum_minus, !rsum_plus, !rsum_scal. ring.
Qed.
Lemma gamma_slope : exists gR gQ, plate_gradient_R n R0 inv Q0 = Ok gR /\ plate_gradient_Q n R0 Q0 = Ok gQ /\
  derivable_pt_lim (fun t => plate_objective n (Rt t) (Qt t) (ld t)) t0 (pair_sum M gR dR + pair_sum P gQ dQ).
Proof.
  destruct (OP g EG) as (A1 & A2 & A3 & A4).
  unfold plate_gradient_R, plate_gradient_Q. rewrite EG. cbv zeta. unfold times_prior. rewrite A1, A2, A3, A4. cbn [negb orb andb bind].
  eexists. eexists. split; [reflexivity|]. split; [reflexivity|].
  eapply dlim_eq; [exact gamma_objective_slope|]. rewrite both_parts. f_equal.
  - unfold pair_sum. apply rsum_ext. intros i Hi. apply rsum_ext. intros j Hj. f_equal. unfold gaussian_logpdf, gaussian_entropy, gamma_logpdf, transpose. fold P M.
    set (X := rsum (rows n) (fun c => w c (to_col n i) * pl_D_dev n R0 Q0 c i j)).
    match goal with |- _ = ?r => assert (EX : X = r - INR P * inv j i) end; [|lra].
    unfold X. rewrite (rsum_ext (rows n) _ (fun c =>
       -0.5 * (pl_alpha n g R0 Q0 c (to_col n i) * pl_D_dev n R0 Q0 c i j + sum_cols n (pl_dev n R0 Q0 c) (to_col n i) * pl_alpha n g R0 Q0 c (to_col n i) * (-1 / pl_b n g R0 Q0 c (to_col n i)) * (0.5 * pl_D_dev n R0 Q0 c i j))
       + (0.5 * repeats n) * - (1 / pl_b n g R0 Q0 c (to_col n i) * (0.5 * pl_D_dev n R0 Q0 c i j))
       + at2 (pg_a0 g) i j * - (1 / pl_b n g R0 Q0 c (to_col n i) * (0.5 * pl_D_dev n R0 Q0 c i j))
       - at2 (pg_b0 g) c (to_col n i) * pl_alpha n g R0 Q0 c (to_col n i) * (-1 / pl_b n g R0 Q0 c (to_col n i)) * (0.5 * pl_D_dev n R0 Q0 c i j))).
    2:{ intros c Hc. destruct (prior_const i j c (to_col n i)) as [-> _]. unfold w. fold (E0 c (to_col n i)) (al c (to_col n i)) (b c (to_col n i)).
        pose proof (BP R0 Q0 c (to_col n i) Hc (to_col_lt n i Hi)) as B0. fold (b c (to_col n i)) in B0.
        replace (-0.5) with (- / 2) by lra. replace 0.5 with (/ 2) by lra. replace 0.25 with (/ 4) by lra. field. lra. }
    rewrite rsum_minus, !rsum_plus, !rsum_scal, !rsum_plus. unfold repeats. fold P M. lra.
  - unfold pair_sum. apply rsum_ext. intros i Hi. apply rsum_ext. intros j Hj. f_equal. unfold gaussian_logpdf, gaussian_entropy, gamma_logpdf. fold M.
    assert (EW : pl_psi n R0 Q0 w i j = pl_psi n R0 Q0 (fun c d => -0.5 * al c d + 0.25 * (al c d / b c d * E0 c d) - (0.5 * repeats n + at2 (pg_a0 g) i j) * 0.5 * (1 / b c d) + 0.5 * at2 (pg_b0 g) i j * (al c d / b c d)) i j).
    { rewrite !(psi_eq n Rt Qt t0). f_equal; apply rsum_ext; intros k Hk; f_equal; unfold w; destruct (prior_const i j (to_row n i) (to_col n k)) as [-> ->]; destruct (prior_const (to_row n i) (to_col n k) (to_row n j) (to_col n k)) as [-> ->]; reflexivity. }
    rewrite EW, (psi_lin (-0.5) 0.25 ((0.5 * repeats n + at2 (pg_a0 g) i j) * 0.5) (0.5 * at2 (pg_b0 g) i j) al (fun c d => al c d / b c d * E0 c d) (fun c d => 1 / b c d) (fun c d => al c d / b c d)).
    unfold al, b, E0. change (fun c d => pl_alpha n g R0 Q0 c d) with (pl_alpha n g R0 Q0). lra.
Qed.
End Gamma.

Lemma curve_slope_plates : (forall g, pn_gamma n = Some g -> forall Rm Q c d, (c < rows n)%nat -> (d < cols n)%nat -> 0 < pl_b n g Rm Q c d) -> one_prior n ->
  exists gR gQ, plate_gradient_R n R0 inv Q0 = Ok gR /\ plate_gradient_Q n R0 Q0 = Ok gQ /\
  derivable_pt_lim (fun t => plate_objective n (Rt t) (Qt t) (ld t)) t0 (pair_sum M gR dR + pair_sum P gQ dQ).
Proof. intros B OP. destruct (pn_gamma n) as [g|] eqn:E; [exact (gamma_slope g E (B g eq_refl) OP)|exact (fixed_slope E)]. Qed.
End Slope.
