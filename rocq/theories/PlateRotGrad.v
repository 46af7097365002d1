(** The derivative of the objective of the rotation of X and its plates. *)
From Coq Require Import List Arith Lia Bool Reals Lra.
From Verif Require Import Base NumPy TensorLemmas Families FamiliesLemmas FamiliesLemmas2 Linalg MatBridge SpecLinalg LinalgLemmas Gaussian SpecGaussian GaussLemmas GaussAlg DetCurve
  RotateARD SpecRotateARD RotateChain SpecRotateChain PlateRotate SpecPlateRotate PlateRotLemmas PlateRotLemmas2 PlateRotLemmas3.
Import ListNotations.
Open Scope R_scope.

Lemma ln_abs_sq : forall x, ln (Rabs x) = / 2 * ln (x * x).
Proof.
  intros x. destruct (Req_dec x 0) as [->|H].
  - rewrite Rabs_R0, Rmult_0_l. unfold ln. destruct (Rlt_dec 0 0) as [L|L]; [exfalso; lra|ring].
  - replace (x * x) with (Rabs x * Rabs x) by (rewrite <- Rabs_mult; apply Rabs_right; apply Rle_ge; exact (Rle_0_sqr x)).
    rewrite ln_mult by (now apply Rabs_pos_lt). field.
Qed.
Lemma d_ln_abs : forall f t l, derivable_pt_lim f t l -> f t <> 0 -> derivable_pt_lim (fun s => ln (Rabs (f s))) t (l / f t).
Proof.
  intros f t l H N. apply (dlim_ext (fun s => / 2 * ln (f s * f s))); [intros s; symmetry; apply ln_abs_sq|].
  eapply dlim_eq.
  - apply (d_scal (/ 2)). exact (derivable_pt_lim_comp (fun s => f s * f s) ln t _ _ (d_mult f f t l l H H) (d_ln (f t * f t) (Rsqr_pos_lt (f t) N))).
  - cbv beta. field. exact N.
Qed.

Section Curve.
Variable n : plate_nodes.
Let P := pn_P n.
Let M := pn_M n.
Variables (Rt Qt : R -> mat) (t0 : R) (dR dQ : mat).
Hypothesis TR : tangent M Rt t0 dR.
Hypothesis TQ : tangent P Qt t0 dQ.
Hypothesis Sy : forall p, (p < P)%nat -> symmetric M (pl_CovX n p).
Let R0 := Rt t0.
Let Q0 := Qt t0.

Definition d_sum (p : nat) : R := rsum P (fun i => dQ i p).
Definition cov_row (p k l : nat) : R := rsum M (fun l' => pl_CovX n p l l' * R0 k l').
Definition slope_R (p k l : nat) : R := 2 * (el_mean n R0 Q0 p k - pl_mu n p k) * pl_QX n Q0 p l + 2 * (sumQ n Q0 p ^ 2 * cov_row p k l).
Definition ddev_R (p k : nat) : R := rsum M (fun l => slope_R p k l * dR k l).
Definition ddev_Q (p k : nat) : R :=
  rsum P (fun j => 2 * (el_mean n R0 Q0 p k - pl_mu n p k) * pl_RX n R0 j k * dQ p j) + 2 * (sumQ n Q0 p * el_var n R0 p k) * d_sum p.

Lemma d_sumQ : forall p, (p < P)%nat -> derivable_pt_lim (fun t => sumQ n (Qt t) p) t0 (d_sum p).
Proof. intros p Hp. unfold sumQ. apply (d_rsum P (fun i t => Qt t i p)). intros i Hi. now apply TQ. Qed.
Lemma d_QX : forall p l, (p < P)%nat -> derivable_pt_lim (fun t => pl_QX n (Qt t) p l) t0 (rsum P (fun j => dQ p j * fst (pn_u n j) l)).
Proof.
  intros p l Hp. unfold pl_QX. apply (d_rsum P (fun j t => Qt t p j * fst (pn_u n j) l)). intros j Hj.
  eapply dlim_eq; [apply (d_mult (fun t => Qt t p j) (fun _ => fst (pn_u n j) l)); [now apply TQ|exact (d_const (fst (pn_u n j) l) t0)]|]. cbv beta. ring.
Qed.
Lemma d_mean : forall p k, (p < P)%nat -> (k < M)%nat ->
  derivable_pt_lim (fun t => el_mean n (Rt t) (Qt t) p k) t0 (rsum M (fun l => pl_QX n Q0 p l * dR k l) + rsum P (fun j => pl_RX n R0 j k * dQ p j)).
Proof.
  intros p k Hp Hk. unfold el_mean. eapply dlim_eq.
  - apply (d_rsum M (fun l t => Rt t k l * pl_QX n (Qt t) p l)). intros l Hl.
    exact (d_mult (fun t => Rt t k l) (fun t => pl_QX n (Qt t) p l) t0 _ _ (TR k l Hk Hl) (d_QX p l Hp)).
  - cbv beta. fold R0 Q0. rewrite rsum_plus. f_equal; [apply rsum_ext; intros; ring|].
    unfold pl_RX, mvdot. fold M. rewrite (rsum_ext M _ (fun l => rsum P (fun j => R0 k l * fst (pn_u n j) l * dQ p j))) by (intros l Hl; rewrite <- rsum_scal; apply rsum_ext; intros; ring).
    rewrite rsum_swap. apply rsum_ext. intros j Hj. now rewrite rsum_scal_r.
Qed.
Lemma d_var : forall p k, (p < P)%nat -> (k < M)%nat -> derivable_pt_lim (fun t => el_var n (Rt t) p k) t0 (rsum M (fun l => 2 * cov_row p k l * dR k l)).
Proof.
  intros p k Hp Hk. unfold el_var. eapply dlim_eq.
  - apply (d_rsum M (fun l t => rsum M (fun l' => Rt t k l * pl_CovX n p l l' * Rt t k l')) t0
      (fun l => rsum M (fun l' => dR k l * pl_CovX n p l l' * R0 k l' + R0 k l * pl_CovX n p l l' * dR k l'))). intros l Hl.
    apply (d_rsum M (fun l' t => Rt t k l * pl_CovX n p l l' * Rt t k l')). intros l' Hl'.
    apply (d_mult (fun t => Rt t k l * pl_CovX n p l l') (fun t => Rt t k l')); [|now apply TR].
    eapply dlim_eq; [apply (d_mult (fun t => Rt t k l) (fun _ => pl_CovX n p l l')); [now apply TR|exact (d_const (pl_CovX n p l l') t0)]|]. cbv beta. ring.
  - rewrite (rsum_ext M _ (fun l => rsum M (fun l' => dR k l * pl_CovX n p l l' * R0 k l') + rsum M (fun l' => R0 k l * pl_CovX n p l l' * dR k l'))) by (intros; apply rsum_plus).
    rewrite rsum_plus, (rsum_swap M M (fun l l' => R0 k l * pl_CovX n p l l' * dR k l')), <- rsum_plus. apply rsum_ext. intros l Hl.
    unfold cov_row. rewrite <- rsum_scal, <- rsum_scal_r, <- rsum_plus. apply rsum_ext. intros l' Hl'. rewrite (Sy p Hp l' l Hl' Hl). ring.
Qed.
Lemma d_dev : forall p k, (p < P)%nat -> (k < M)%nat ->
  derivable_pt_lim (fun t => el_dev n (Rt t) (Qt t) p k) t0 (ddev_R p k + ddev_Q p k).
Proof.
  intros p k Hp Hk. unfold el_dev. pose proof (d_mean p k Hp Hk) as DM. pose proof (d_var p k Hp Hk) as DV. pose proof (d_sumQ p Hp) as DS.
  eapply dlim_eq.
  - apply (d_plus (fun t => el_mean n (Rt t) (Qt t) p k * el_mean n (Rt t) (Qt t) p k + sumQ n (Qt t) p ^ 2 * el_var n (Rt t) p k - 2 * (el_mean n (Rt t) (Qt t) p k * pl_mu n p k)) (fun _ => pl_mu2 n p k)); [|exact (d_const (pl_mu2 n p k) t0)].
    apply d_minus.
    + apply d_plus; [exact (d_mult _ _ t0 _ _ DM DM)|].
      apply (d_mult (fun t => sumQ n (Qt t) p ^ 2) (fun t => el_var n (Rt t) p k)); [|exact DV].
      apply (dlim_ext (fun t => sumQ n (Qt t) p * sumQ n (Qt t) p)); [intros t; ring|]. exact (d_mult _ _ t0 _ _ DS DS).
    + apply (d_scal 2). apply (d_mult (fun t => el_mean n (Rt t) (Qt t) p k) (fun _ => pl_mu n p k)); [exact DM|exact (d_const (pl_mu n p k) t0)].
  - cbv beta. fold R0 Q0. unfold ddev_R, ddev_Q, slope_R.
    rewrite (rsum_ext M (fun l => (2 * (el_mean n R0 Q0 p k - pl_mu n p k) * pl_QX n Q0 p l + 2 * (sumQ n Q0 p ^ 2 * cov_row p k l)) * dR k l)
      (fun l => 2 * (el_mean n R0 Q0 p k - pl_mu n p k) * (pl_QX n Q0 p l * dR k l) + sumQ n Q0 p ^ 2 * (2 * cov_row p k l * dR k l))) by (intros; ring).
    rewrite rsum_plus, !rsum_scal.
    rewrite (rsum_ext P (fun j => 2 * (el_mean n R0 Q0 p k - pl_mu n p k) * pl_RX n R0 j k * dQ p j) (fun j => 2 * (el_mean n R0 Q0 p k - pl_mu n p k) * (pl_RX n R0 j k * dQ p j))) by (intros; ring).
    rewrite rsum_scal. ring.
Qed.

(** Sums over alpha and over X. *)
Lemma both_back : forall (w F : nat -> nat -> R),
  sum_alpha n (fun c d => w c d * sum_cols n (fun k => sum_rows n (fun p => F p k) c) d)
  = rsum P (fun p => rsum M (fun k => w (to_row n p) (to_col n k) * F p k)).
Proof.
  intros w F. unfold sum_alpha. rewrite (rsum_ext (rows n) _ (fun c => rsum M (fun k => w c (to_col n k) * sum_rows n (fun p => F p k) c))).
  - rewrite rsum_swap, (rsum_ext M _ (fun k => rsum P (fun p => w (to_row n p) (to_col n k) * F p k))).
    + apply rsum_swap.
    + intros k Hk. exact (rows_back n (fun c => w c (to_col n k)) (fun p => F p k)).
  - intros c Hc. exact (cols_back n (fun d => w c d) (fun k => sum_rows n (fun p => F p k) c)).
Qed.
Lemma d_cols_rows : forall (F : nat -> nat -> R -> R) l c d, (c < rows n)%nat -> (d < cols n)%nat ->
  (forall p k, (p < P)%nat -> (k < M)%nat -> derivable_pt_lim (F p k) t0 (l p k)) ->
  derivable_pt_lim (fun t => sum_cols n (fun k => sum_rows n (fun p => F p k t) c) d) t0 (sum_cols n (fun k => sum_rows n (fun p => l p k) c) d).
Proof.
  intros F l c d Hc Hd H. unfold sum_cols, sum_rows, rows, cols in *. fold P M in Hc, Hd |- *. destruct (pn_pa n), (pn_da n).
  - now apply H.
  - apply (d_rsum M (fun k t => F c k t)). intros k Hk. now apply H.
  - apply (d_rsum P (fun p t => F p d t)). intros p Hp. now apply H.
  - apply (d_rsum M (fun k t => rsum P (fun p => F p k t))). intros k Hk. apply (d_rsum P (fun p t => F p k t)). intros p Hp. now apply H.
Qed.

(** ** The gradients of the code *)
Lemma D_dev_eq : forall c i j, (c < rows n)%nat -> (i < M)%nat -> (j < M)%nat -> pl_D_dev n R0 Q0 c i j = sum_rows n (fun p => slope_R p i j) c.
Proof.
  intros c i j Hc Hi Hj. unfold pl_D_dev, pl_RXX, pl_XX, pl_Xmu, mmdot. fold M.
  rewrite (rsum_ext M _ (fun l => sum_rows n (fun p => R0 i l * (sumQ n Q0 p ^ 2 * pl_CovX n p l j + pl_QX n Q0 p l * pl_QX n Q0 p j)) c)) by (intros l Hl; now rewrite sr_scal, sr_plus).
  rewrite <- (sr_rsum n M (fun l p => R0 i l * (sumQ n Q0 p ^ 2 * pl_CovX n p l j + pl_QX n Q0 p l * pl_QX n Q0 p j))). rewrite <- !sr_scal, <- sr_minus.
  apply sr_ext; [exact Hc|]. intros p Hp. unfold slope_R, el_mean, cov_row. fold M.
  rewrite (rsum_ext M _ (fun l => sumQ n Q0 p ^ 2 * (pl_CovX n p j l * R0 i l) + R0 i l * pl_QX n Q0 p l * pl_QX n Q0 p j)) by (intros l Hl; rewrite (Sy p Hp j l Hj Hl); ring).
  rewrite rsum_plus, rsum_scal, rsum_scal_r. ring.
Qed.
Lemma gradient_R_slope : forall w : nat -> nat -> R,
  rsum M (fun i => rsum M (fun j => rsum (rows n) (fun c => w c (to_col n i) * pl_D_dev n R0 Q0 c i j) * dR i j))
  = rsum P (fun p => rsum M (fun k => w (to_row n p) (to_col n k) * ddev_R p k)).
Proof.
  intros w. rewrite (rsum_swap P M). apply rsum_ext. intros i Hi. unfold ddev_R.
  rewrite (rsum_ext M _ (fun j => rsum P (fun p => w (to_row n p) (to_col n i) * (slope_R p i j * dR i j)))).
  - rewrite rsum_swap. apply rsum_ext. intros p Hp. now rewrite rsum_scal.
  - intros j Hj. rewrite (rsum_ext (rows n) _ (fun c => w c (to_col n i) * sum_rows n (fun p => slope_R p i j) c)) by (intros c Hc; now rewrite D_dev_eq).
    rewrite (rows_back n (fun c => w c (to_col n i)) (fun p => slope_R p i j)). fold P. rewrite <- rsum_scal_r. apply rsum_ext. intros; ring.
Qed.
Lemma mean_alt : forall p k, rsum P (fun j => Q0 p j * pl_RX n R0 j k) = el_mean n R0 Q0 p k.
Proof.
  intros p k. unfold el_mean, pl_QX, pl_RX, mvdot. fold M P.
  rewrite (rsum_ext P _ (fun j => rsum M (fun l => R0 k l * (Q0 p j * fst (pn_u n j) l)))) by (intros j Hj; rewrite <- rsum_scal; apply rsum_ext; intros; ring).
  rewrite rsum_swap. apply rsum_ext. intros l Hl. now rewrite rsum_scal.
Qed.
Lemma psi_eq : forall v i j, pl_psi n R0 Q0 v i j =
  rsum M (fun k => v (to_row n i) (to_col n k) * ((el_mean n R0 Q0 i k - pl_mu n i k) * pl_RX n R0 j k))
  + rsum M (fun k => v (to_row n j) (to_col n k) * (sumQ n Q0 j * el_var n R0 j k)).
Proof.
  intros v i j. unfold pl_psi. fold P M. cbv zeta beta.
  rewrite (rsum_ext M (fun k => rsum P (fun p => Q0 i p * pl_RX n R0 p k) * pl_RX n R0 j k * _) (fun k => el_mean n R0 Q0 i k * pl_RX n R0 j k * v (to_row n i) (to_col n k))) by (intros k Hk; now rewrite mean_alt).
  rewrite (rsum_ext M (fun k => v (to_row n i) (to_col n k) * ((el_mean n R0 Q0 i k - pl_mu n i k) * pl_RX n R0 j k))
    (fun k => el_mean n R0 Q0 i k * pl_RX n R0 j k * v (to_row n i) (to_col n k) - v (to_row n i) (to_col n k) * (pl_RX n R0 j k * pl_mu n i k))) by (intros; ring).
  rewrite rsum_minus.
  rewrite (rsum_ext M (fun k => v (to_row n j) (to_col n k) * (sumQ n Q0 j * el_var n R0 j k))
    (fun k => rsum M (fun k0 => rsum M (fun l => R0 k k0 * pl_CovX n j k0 l * R0 k l)) * sumQ n Q0 j * v (to_row n j) (to_col n k))) by (intros; unfold el_var; fold M; ring).
  ring.
Qed.
Lemma psi_slope : forall v,
  rsum P (fun i => rsum P (fun j => 2 * pl_psi n R0 Q0 v i j * dQ i j)) = rsum P (fun p => rsum M (fun k => v (to_row n p) (to_col n k) * ddev_Q p k)).
Proof.
  intros v.
  set (A := fun i j => rsum M (fun k => v (to_row n i) (to_col n k) * ((el_mean n R0 Q0 i k - pl_mu n i k) * pl_RX n R0 j k))).
  set (B := fun j => rsum M (fun k => v (to_row n j) (to_col n k) * (sumQ n Q0 j * el_var n R0 j k))).
  rewrite (rsum_ext P _ (fun i => rsum P (fun j => 2 * A i j * dQ i j) + rsum P (fun j => 2 * B j * dQ i j))).
  2:{ intros i Hi. rewrite <- rsum_plus. apply rsum_ext. intros j Hj. rewrite psi_eq. fold (A i j) (B j). ring. }
  rewrite rsum_plus, (rsum_swap P P (fun i j => 2 * B j * dQ i j)), <- rsum_plus. apply rsum_ext. intros p Hp. unfold ddev_Q.
  rewrite (rsum_ext M _ (fun k => rsum P (fun j => v (to_row n p) (to_col n k) * (2 * (el_mean n R0 Q0 p k - pl_mu n p k) * pl_RX n R0 j k * dQ p j))
     + 2 * d_sum p * (v (to_row n p) (to_col n k) * (sumQ n Q0 p * el_var n R0 p k)))) by (intros k Hk; rewrite rsum_scal; ring).
  rewrite rsum_plus, (rsum_scal M (2 * d_sum p)). f_equal.
  - rewrite rsum_swap. apply rsum_ext. intros j Hj. unfold A. rewrite <- rsum_scal, <- rsum_scal_r. apply rsum_ext. intros; ring.
  - change (rsum P (fun i => 2 * B p * dQ i p) = 2 * d_sum p * B p). rewrite rsum_scal. unfold d_sum. ring.
Qed.
Lemma entropy_slope : forall ld dl, derivable_pt_lim ld t0 dl -> sums_nonzero P Q0 ->
  derivable_pt_lim (fun t => entropy_sum n (Qt t) (ld t)) t0 (INR P * dl + rsum P (fun i => rsum P (fun j => INR M / sumQ n Q0 j * dQ i j))).
Proof.
  intros ld dl HL NZ. unfold entropy_sum. fold P M. eapply dlim_eq.
  - apply (d_rsum P (fun p t => ld t + INR M * ln (Rabs (sumQ n (Qt t) p))) t0 (fun p => dl + INR M * (d_sum p / sumQ n Q0 p))). intros p Hp.
    apply d_plus; [exact HL|]. apply (d_scal (INR M)). now apply d_ln_abs; [apply d_sumQ|apply NZ].
  - rewrite rsum_plus, rsum_const, (rsum_swap P P). f_equal. apply rsum_ext. intros p Hp. rewrite rsum_scal. unfold d_sum. field. now apply NZ.
Qed.
End Curve.
