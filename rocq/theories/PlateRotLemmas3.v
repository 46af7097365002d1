(** The objective against the terms of the lower bound. *)
From Coq Require Import List Arith Lia Bool Reals Lra.
From Verif Require Import Base NumPy TensorLemmas Families FamiliesLemmas FamiliesLemmas2 Linalg MatBridge SpecLinalg LinalgLemmas Gaussian SpecGaussian GaussLemmas GaussAlg
  RotateARD SpecRotateARD RotateChain SpecRotateChain PlateRotate SpecPlateRotate PlateRotLemmas PlateRotLemmas2.
Import ListNotations.
Open Scope R_scope.

Section Terms.
Variable n : plate_nodes.
Let P := pn_P n.
Let M := pn_M n.
(** The objective as a sum over the elements of X and of alpha. *)
Definition entropy_sum (Q : mat) (logdet : R) : R := rsum P (fun p => logdet + INR M * ln (Rabs (sumQ n Q p))).
Lemma terms_gamma : forall g Rm Q logdet, pn_gamma n = Some g ->
  plate_terms n Rm Q logdet =
  (-0.5 * rsum P (fun p => rsum M (fun k => pl_alpha n g Rm Q (to_row n p) (to_col n k) * el_dev n Rm Q p k))
   + 0.5 * rsum P (fun p => rsum M (fun k => - ln (pl_b n g Rm Q (to_row n p) (to_col n k)))) + entropy_sum Q logdet,
   sum_alpha n (fun c d => at2 (pg_a0 g) c d * - ln (pl_b n g Rm Q c d)) - sum_alpha n (fun c d => at2 (pg_b0 g) c d * pl_alpha n g Rm Q c d)).
Proof.
  intros g Rm Q logdet E. unfold plate_terms. rewrite E. rewrite (weighted_dev n Rm Q (pl_alpha n g Rm Q)), repeats_eq.
  unfold gaussian_logpdf, gamma_logpdf, pl_logH, gaussian_entropy. fold P M. fold (entropy_sum Q logdet). f_equal; lra.
Qed.
Lemma terms_fixed : forall Rm Q logdet, pn_gamma n = None ->
  plate_terms n Rm Q logdet =
  (-0.5 * rsum P (fun p => rsum M (fun k => pn_alpha n (to_row n p) (to_col n k) * el_dev n Rm Q p k)) + entropy_sum Q logdet, 0).
Proof.
  intros Rm Q logdet E. unfold plate_terms. rewrite E. rewrite (weighted_dev n Rm Q (pn_alpha n)).
  unfold gaussian_logpdf, pl_logH, gaussian_entropy. fold P M. fold (entropy_sum Q logdet). f_equal; lra.
Qed.
End Terms.

Lemma gamma_term_value : forall lg psi a0 ga0 b0 lb0 a b, 0 < b ->
  gamma_term lg psi (a0, ga0) (b0, lb0) (- b, a) = a0 * - ln b - b0 * (a / b) + (a0 * lb0 - ga0 + lg a + a + (a0 - a) * psi a).
Proof.
  intros lg psi a0 ga0 b0 lb0 a b Hb. unfold gamma_term, gamma_moments. cbn [fst snd]. rewrite Ropp_involutive.
  destruct (Rle_dec b 0) as [L|_]; [lra|]. unfold gamma_cgf, gamma_phi. cbn [fst snd]. field. lra.
Qed.

Section Objective.
Variables lg psi : R -> R.
Variable m : plate_model.
Let n := pm_nodes m.
Let P := pn_P n.
Let M := pn_M n.
Hypothesis OK : plates_fit m.
Definition alpha_const (g : plate_gamma) (c d : nat) : R :=
  at2 (pg_a0 g) c d * pm_logb0 m c d - pm_ga0 m c d + lg (updated_a m g c d) + updated_a m g c d
  + (at2 (pg_a0 g) c d - updated_a m g c d) * psi (updated_a m g c d).

Lemma objective_gamma : forall g, pn_gamma n = Some g -> forall Rm inv Q x, is_inverse M Rm inv -> sums_nonzero P Q ->
  (forall p, (p < P)%nat -> plate_rotated m Rm inv Q (ln (Rabs (mdet M Rm))) p = Ok (x p)) ->
  terms_after lg psi m x =
  (fst (plate_terms n Rm Q (ln (Rabs (mdet M Rm)))) + (0.5 * rsum P (fun p => rsum M (fun k => psi (updated_a m g (row_of m p) (col_of m k)))) - rsum P (log_prec m)),
   snd (plate_terms n Rm Q (ln (Rabs (mdet M Rm)))) + sum_alpha n (alpha_const g)).
Proof.
  intros g Eg Rm inv Q x I NZ HX. set (ld := ln (Rabs (mdet M Rm))) in *.
  assert (EB : forall c d, (c < rows n)%nat -> (d < cols n)%nat -> updated_b m g x c d = pl_b n g Rm Q c d) by (intros; now apply (after_b m OK Rm inv Q I NZ x HX)).
  assert (PB : forall c d, (c < rows n)%nat -> (d < cols n)%nat -> 0 < pl_b n g Rm Q c d) by (intros; now apply (b_pos m OK)).
  assert (EA : forall c d, (c < rows n)%nat -> (d < cols n)%nat -> updated_a m g c d = pg_a g c d).
  { intros c d Hc Hd. destruct (pf_gamma m OK g Eg c d Hc Hd) as [_ A]. now rewrite A. }
  unfold terms_after. fold n. rewrite Eg. rewrite (terms_gamma n g Rm Q ld Eg). cbn [fst snd]. f_equal.
  - rewrite (X_terms_eq m OK Rm inv Q I NZ x HX). fold n P M. fold ld. change (rsum P (fun p => ld + INR M * ln (Rabs (sumQ n Q p)))) with (entropy_sum n Q ld).
    change (row_of m) with (to_row n). change (col_of m) with (to_col n).
    rewrite (rsum_ext P (fun p => rsum M (fun k => updated_a m g (to_row n p) (to_col n k) / _ * _))
      (fun p => rsum M (fun k => pl_alpha n g Rm Q (to_row n p) (to_col n k) * el_dev n Rm Q p k))).
    + rewrite (rsum_ext P (fun p => rsum M (fun k => psi _ - ln _))
        (fun p => rsum M (fun k => psi (updated_a m g (to_row n p) (to_col n k))) + rsum M (fun k => - ln (pl_b n g Rm Q (to_row n p) (to_col n k))))).
      * rewrite rsum_plus. lra.
      * intros p Hp. rewrite <- rsum_plus. apply rsum_ext. intros k Hk. rewrite EB by (now apply to_row_lt || now apply to_col_lt). lra.
    + intros p Hp. apply rsum_ext. intros k Hk. unfold pl_alpha. now rewrite EB, EA by (now apply to_row_lt || now apply to_col_lt).
  - unfold alpha_terms. fold n P M. change (if pn_pa n then P else 1%nat) with (rows n). change (if pn_da n then M else 1%nat) with (cols n).
    unfold sum_alpha. rewrite <- rsum_minus, <- rsum_plus. apply rsum_ext. intros c Hc. rewrite <- rsum_minus, <- rsum_plus. apply rsum_ext. intros d Hd.
    rewrite EB by assumption. rewrite gamma_term_value by now apply PB. unfold alpha_const, pl_alpha. now rewrite <- EA by assumption.
Qed.
Lemma objective_fixed : pn_gamma n = None -> forall Rm inv Q x, is_inverse M Rm inv -> sums_nonzero P Q ->
  (forall p, (p < P)%nat -> plate_rotated m Rm inv Q (ln (Rabs (mdet M Rm))) p = Ok (x p)) ->
  terms_after lg psi m x =
  (fst (plate_terms n Rm Q (ln (Rabs (mdet M Rm)))) + (0.5 * rsum P (fun p => rsum M (fun k => pm_logalpha m p k)) - rsum P (log_prec m)),
   snd (plate_terms n Rm Q (ln (Rabs (mdet M Rm)))) + 0).
Proof.
  intros Eg Rm inv Q x I NZ HX. set (ld := ln (Rabs (mdet M Rm))) in *.
  unfold terms_after. fold n. rewrite Eg. rewrite (terms_fixed n Rm Q ld Eg). cbn [fst snd]. f_equal; [|ring].
  rewrite (X_terms_eq m OK Rm inv Q I NZ x HX). fold n P M. fold ld. change (rsum P (fun p => ld + INR M * ln (Rabs (sumQ n Q p)))) with (entropy_sum n Q ld).
  rewrite (rsum_ext P (fun p => rsum M (fun k => pn_alpha n p k * _)) (fun p => rsum M (fun k => pn_alpha n (to_row n p) (to_col n k) * el_dev n Rm Q p k))); [lra|].
  intros p Hp. apply rsum_ext. intros k Hk. f_equal. exact (pf_alpha m OK Eg p k Hp Hk).
Qed.
End Objective.
