(** The objective of the rotation of X and its plates, as a sum over the elements of X. *)
From Coq Require Import List Arith Lia Bool Reals Lra.
From Verif Require Import Base NumPy TensorLemmas Families FamiliesLemmas FamiliesLemmas2 Linalg MatBridge SpecLinalg LinalgLemmas Gaussian SpecGaussian GaussLemmas GaussAlg
  PGaussian PGaussian2 GaussGibbs GaussNodes GaussNodes4 Rotation PRotation BlockBanded GaussMarkov SpecGaussMarkov GaussMarkovLemmas PGaussMarkov RotateARD SpecRotateARD RotateChain SpecRotateChain RotateChainLemmas
  PlateRotate SpecPlateRotate PlateRotLemmas.
Import ListNotations.
Open Scope R_scope.

Section Sums.
Variable n : plate_nodes.
Let P := pn_P n.
Let M := pn_M n.

Lemma sr_ext : forall F G c, (c < rows n)%nat -> (forall p, (p < P)%nat -> F p = G p) -> sum_rows n F c = sum_rows n G c.
Proof. intros F G c Hc H. unfold sum_rows, rows in *. destruct (pn_pa n); [now apply H|]. apply rsum_ext. intros; now apply H. Qed.
Lemma sr_plus : forall F G c, sum_rows n (fun p => F p + G p) c = sum_rows n F c + sum_rows n G c.
Proof. intros. unfold sum_rows. destruct (pn_pa n); [reflexivity|]. apply rsum_plus. Qed.
Lemma sr_minus : forall F G c, sum_rows n (fun p => F p - G p) c = sum_rows n F c - sum_rows n G c.
Proof. intros. unfold sum_rows. destruct (pn_pa n); [reflexivity|]. apply rsum_minus. Qed.
Lemma sr_scal : forall k F c, sum_rows n (fun p => k * F p) c = k * sum_rows n F c.
Proof. intros. unfold sum_rows. destruct (pn_pa n); [reflexivity|]. apply rsum_scal. Qed.
Lemma sr_scal_r : forall k F c, sum_rows n (fun p => F p * k) c = sum_rows n F c * k.
Proof. intros. unfold sum_rows. destruct (pn_pa n); [reflexivity|]. apply rsum_scal_r. Qed.
Lemma sr_rsum : forall K F c, sum_rows n (fun p => rsum K (fun k => F k p)) c = rsum K (fun k => sum_rows n (F k) c).
Proof. intros. unfold sum_rows. destruct (pn_pa n); [reflexivity|]. apply rsum_swap. Qed.
Lemma sc_ext : forall F G d, (d < cols n)%nat -> (forall k, (k < M)%nat -> F k = G k) -> sum_cols n F d = sum_cols n G d.
Proof. intros F G d Hd H. unfold sum_cols, cols in *. destruct (pn_da n); [now apply H|]. apply rsum_ext. intros; now apply H. Qed.
Lemma rows_back : forall g F, rsum (rows n) (fun c => g c * sum_rows n F c) = rsum P (fun p => g (to_row n p) * F p).
Proof.
  intros g F. unfold rows, sum_rows, to_row. destruct (pn_pa n); [reflexivity|]. cbn [rsum]. rewrite Rplus_0_l. now rewrite rsum_scal.
Qed.
Lemma cols_back : forall g F, rsum (cols n) (fun d => g d * sum_cols n F d) = rsum M (fun k => g (to_col n k) * F k).
Proof.
  intros g F. unfold cols, sum_cols, to_col. destruct (pn_da n); [reflexivity|]. cbn [rsum]. rewrite Rplus_0_l. now rewrite rsum_scal.
Qed.
Lemma to_row_lt : forall p, (p < P)%nat -> (to_row n p < rows n)%nat.
Proof. intros p H. unfold to_row, rows. destruct (pn_pa n); [exact H|lia]. Qed.
Lemma to_col_lt : forall k, (k < M)%nat -> (to_col n k < cols n)%nat.
Proof. intros p H. unfold to_col, cols. destruct (pn_da n); [exact H|lia]. Qed.
Lemma repeats_eq : forall V, repeats n * sum_alpha n V = rsum P (fun p => rsum M (fun k => V (to_row n p) (to_col n k))).
Proof.
  intros V. unfold repeats, sum_alpha. fold P M.
  rewrite (rsum_ext P _ (fun p => (fun c => (if pn_da n then 1 else INR M) * rsum (cols n) (fun d => V c d)) (to_row n p) * 1)).
  - rewrite <- (rows_back (fun c => (if pn_da n then 1 else INR M) * rsum (cols n) (fun d => V c d)) (fun _ => 1)).
    rewrite <- rsum_scal. apply rsum_ext. intros c Hc.
    assert (E : sum_rows n (fun _ => 1) c = if pn_pa n then 1 else INR P); [|rewrite E; ring].
    unfold sum_rows. destruct (pn_pa n); [reflexivity|]. fold P. rewrite rsum_const. ring.
  - intros p Hp. cbv beta.
    rewrite (rsum_ext M _ (fun k => (fun d => V (to_row n p) d) (to_col n k) * 1)) by (intros; ring).
    rewrite <- (cols_back (fun d => V (to_row n p) d) (fun _ => 1)). rewrite Rmult_1_r, <- rsum_scal. apply rsum_ext. intros d Hd.
    assert (E : sum_cols n (fun _ => 1) d = if pn_da n then 1 else INR M); [|rewrite E; ring].
    unfold sum_cols. destruct (pn_da n); [reflexivity|]. fold M. rewrite rsum_const. ring.
Qed.
Lemma users_eq : forall m F c d, pm_nodes m = n -> (c < rows n)%nat -> (d < cols n)%nat ->
  users m F c d = sum_cols n (fun k => sum_rows n (fun p => F p k) c) d.
Proof.
  intros m F c d E Hc Hd. unfold users, row_of, col_of, sum_rows, sum_cols, rows, cols in *. rewrite E. fold P M.
  assert (A : forall N x (f : nat -> R), (x < N)%nat -> rsum N (fun k => if (k =? x)%nat then f k else 0) = f x) by (intros; now apply rsum_single).
  destruct (pn_pa n), (pn_da n).
  - rewrite (rsum_ext P _ (fun p => if (p =? c)%nat then rsum M (fun k => if (k =? d)%nat then F p k else 0) else 0)).
    + rewrite A by exact Hc. now rewrite A.
    + intros p _. destruct (p =? c)%nat; cbn [andb]; [reflexivity|]. apply rsum_0.
  - assert (d = O) by lia. subst d.
    rewrite (rsum_ext P _ (fun p => if (p =? c)%nat then rsum M (fun k => F p k) else 0)).
    + now rewrite A.
    + intros p _. destruct (p =? c)%nat; cbn [andb Nat.eqb]; [reflexivity|]. apply rsum_0.
  - assert (c = O) by lia. subst c. cbn [Nat.eqb andb]. apply rsum_ext. intros p Hp. now rewrite A.
  - assert (c = O) by lia. assert (d = O) by lia. subst c d. cbn [Nat.eqb andb]. apply rsum_swap.
Qed.

(** ** The deviations *)
Section Dev.
Variables Rm Q : mat.
Definition el_mean (p k : nat) : R := rsum M (fun l => Rm k l * pl_QX n Q p l).
Definition el_var (p k : nat) : R := rsum M (fun l => rsum M (fun l' => Rm k l * pl_CovX n p l l' * Rm k l')).
Definition el_dev (p k : nat) : R :=
  el_mean p k * el_mean p k + sumQ n Q p ^ 2 * el_var p k - 2 * (el_mean p k * pl_mu n p k) + pl_mu2 n p k.
Lemma dev_eq : forall c k, (c < rows n)%nat -> pl_dev n Rm Q c k = sum_rows n (fun p => el_dev p k) c.
Proof.
  intros c k Hc. unfold pl_dev, el_dev. fold M. rewrite sr_plus, sr_minus, sr_plus, sr_scal. f_equal. f_equal; [|f_equal].
  - unfold pl_RXX, pl_XX, mmdot. fold M.
    rewrite <- sr_plus. rewrite (sr_ext _ (fun p => rsum M (fun j => rsum M (fun l => Rm k l * (sumQ n Q p ^ 2 * pl_CovX n p l j + pl_QX n Q p l * pl_QX n Q p j) * Rm k j)))); [|exact Hc|].
    + rewrite (sr_rsum M (fun j p => rsum M (fun l => Rm k l * (sumQ n Q p ^ 2 * pl_CovX n p l j + pl_QX n Q p l * pl_QX n Q p j) * Rm k j))).
      apply rsum_ext. intros j Hj. rewrite (sr_rsum M (fun l p => Rm k l * (sumQ n Q p ^ 2 * pl_CovX n p l j + pl_QX n Q p l * pl_QX n Q p j) * Rm k j)).
      rewrite <- rsum_scal_r. apply rsum_ext. intros l Hl. now rewrite sr_scal_r, sr_scal, sr_plus.
    + intros p Hp.
      assert (A : sumQ n Q p ^ 2 * el_var p k = rsum M (fun j => rsum M (fun l => Rm k l * (sumQ n Q p ^ 2 * pl_CovX n p l j) * Rm k j))).
      { unfold el_var. rewrite rsum_swap, <- rsum_scal. apply rsum_ext. intros j Hj. rewrite <- rsum_scal. apply rsum_ext. intros; ring. }
      assert (B : el_mean p k * el_mean p k = rsum M (fun j => rsum M (fun l => Rm k l * (pl_QX n Q p l * pl_QX n Q p j) * Rm k j))).
      { unfold el_mean. rewrite <- (rsum_scal M). apply rsum_ext. intros j Hj. rewrite <- (rsum_scal_r M). apply rsum_ext. intros; ring. }
      rewrite A, B, <- rsum_plus. apply rsum_ext. intros j Hj. rewrite <- rsum_plus. apply rsum_ext. intros; ring.
  - rewrite (sr_ext _ (fun p => rsum M (fun l => Rm k l * (pl_QX n Q p l * pl_mu n p k)))); [|exact Hc|].
    + rewrite (sr_rsum M (fun l p => Rm k l * (pl_QX n Q p l * pl_mu n p k))). apply rsum_ext. intros l Hl. now rewrite sr_scal.
    + intros p Hp. unfold el_mean. rewrite <- rsum_scal_r. apply rsum_ext. intros; ring.
Qed.
Lemma sum_dev : forall c d, (c < rows n)%nat -> (d < cols n)%nat ->
  sum_cols n (pl_dev n Rm Q c) d = sum_cols n (fun k => sum_rows n (fun p => el_dev p k) c) d.
Proof. intros c d Hc Hd. apply sc_ext; [exact Hd|]. intros k _. now apply dev_eq. Qed.
Lemma weighted_dev : forall al : nat -> nat -> R,
  rsum (rows n) (fun c => rsum M (fun k => pl_dev n Rm Q c k * al c (to_col n k)))
  = rsum P (fun p => rsum M (fun k => al (to_row n p) (to_col n k) * el_dev p k)).
Proof.
  intros al. rewrite (rsum_ext (rows n) _ (fun c => rsum M (fun k => al c (to_col n k) * sum_rows n (fun p => el_dev p k) c))).
  - rewrite rsum_swap. rewrite (rsum_ext M _ (fun k => rsum P (fun p => al (to_row n p) (to_col n k) * el_dev p k))).
    + apply rsum_swap.
    + intros k Hk. exact (rows_back (fun c => al c (to_col n k)) (fun p => el_dev p k)).
  - intros c Hc. apply rsum_ext. intros k Hk. rewrite dev_eq by exact Hc. ring.
Qed.
End Dev.
End Sums.

(** ** The terms after the rotation *)
Section After.
Variables lg psi : R -> R.
Variable m : plate_model.
Let n := pm_nodes m.
Let P := pn_P n.
Let M := pn_M n.
Hypothesis OK : plates_fit m.

Lemma cov_posdef : forall p, (p < P)%nat -> posdef M (pl_CovX n p).
Proof.
  intros p Hp. destruct (pf_X m OK p Hp) as [Sy E]. destruct (C44_ard_moments M (pm_phi m p) Sy) as [C _]. destruct (C _ _ E) as [PD (_ & I & _)].
  exact (posdef_inverse M _ _ PD I).
Qed.
Lemma var_nonneg : forall Rm p k, (p < P)%nat -> 0 <= el_var n Rm p k.
Proof.
  intros Rm p k Hp. pose proof (cov_posdef p Hp) as PD. change (el_var n Rm p k) with (rsum M (fun l => rsum M (fun l' => Rm k l * pl_CovX n p l l' * Rm k l'))).
  replace (rsum M _) with (bilinear M (pl_CovX n p) (Rm k) (Rm k)) by reflexivity. apply posdef_nonneg; exact PD.
Qed.
Lemma dev_nonneg : forall Rm Q p k, (p < P)%nat -> (k < M)%nat -> 0 <= el_dev n Rm Q p k.
Proof.
  intros Rm Q p k Hp Hk. pose proof (var_nonneg Rm p k Hp) as V. pose proof (pf_mu m OK p k Hp Hk) as U.
  unfold mean_mu, second_mu in U. fold n in U. unfold el_dev, pl_mu, pl_mu2. pose proof (Rle_0_sqr (el_mean n Rm Q p k - pn_alpha_mu n p k / pn_alpha n p k)) as S. unfold Rsqr in S.
  assert (0 <= sumQ n Q p ^ 2 * el_var n Rm p k) by (apply Rmult_le_pos; [apply pow2_ge_0|exact V]). nra.
Qed.
Lemma sum_nonneg : forall F c d, (c < rows n)%nat -> (d < cols n)%nat -> (forall p k, (p < P)%nat -> (k < M)%nat -> 0 <= F p k) ->
  0 <= sum_cols n (fun k => sum_rows n (fun p => F p k) c) d.
Proof.
  intros F c d Hc Hd H. unfold sum_cols, sum_rows, rows, cols in Hc, Hd |- *. fold P M in Hc, Hd |- *.
  destruct (pn_pa n), (pn_da n); try (apply rsum_nonneg; intros; try (apply rsum_nonneg; intros)); now apply H.
Qed.

Variables Rm inv Q : mat.
Hypothesis I : is_inverse M Rm inv.
Hypothesis NZ : sums_nonzero P Q.
Let ldet := ln (Rabs (mdet M Rm)).
Variable x : nat -> (vec * mat) * (vec * mat) * R.
Hypothesis HX : forall p, (p < P)%nat -> plate_rotated m Rm inv Q ldet p = Ok (x p).

Definition log_prec (p : nat) : R := ln (mdet M (scal_m (-2) (snd (pm_phi m p)))) / 2 - INR M / 2.
Lemma after_plate : forall p, (p < P)%nat -> let '(u, phi, g) := x p in
  (forall k, (k < M)%nat -> fst u k = el_mean n Rm Q p k /\ snd u k k = el_mean n Rm Q p k * el_mean n Rm Q p k + sumQ n Q p ^ 2 * el_var n Rm p k) /\
  - g - (innerv M (fst phi) (fst u) + innerm M (snd phi) (snd u)) = ldet + INR M * ln (Rabs (sumQ n Q p)) - log_prec p.
Proof.
  intros p Hp. destruct (plate_rotated_ok m Rm inv Q p I (pf_X m OK) Hp (NZ p Hp)) as (u & phi & g & E & V & W & G).
  fold n P M in E, V, W, G. fold ldet in E, G. rewrite (HX p Hp) in E. injection E as ->. split.
  - intros k Hk.
    assert (E1 : fst u k = el_mean n Rm Q p k).
    { rewrite (V k Hk). unfold el_mean, pl_QX, mvdot. fold M P. 
      rewrite (rsum_ext P _ (fun j => rsum M (fun l => Rm k l * (Q p j * fst (pn_u n j) l)))) by (intros j Hj; rewrite <- rsum_scal; apply rsum_ext; intros; ring).
      rewrite rsum_swap. apply rsum_ext. intros l Hl. now rewrite rsum_scal. }
    split; [exact E1|]. pose proof (W k k Hk Hk) as W2. unfold sub_m, outerv in W2. rewrite E1 in W2.
    assert (E2 : dot3 M Rm (pl_CovX n p) (transpose Rm) k k = el_var n Rm p k).
    { unfold dot3, mmdot, transpose, el_var. fold M. rewrite (rsum_ext M _ (fun l' => rsum M (fun l => Rm k l * pl_CovX n p l l' * Rm k l'))) by (intros; now rewrite rsum_scal_r). apply rsum_swap. }
    rewrite E2 in W2. lra.
  - unfold log_prec. lra.
Qed.
Lemma squared_eq : forall p k, (p < P)%nat -> (k < M)%nat -> squared m (fst (fst (x p))) p k = el_dev n Rm Q p k.
Proof.
  intros p k Hp Hk. pose proof (after_plate p Hp) as A. destruct (x p) as [[u phi] g]. destruct A as [A _]. destruct (A k Hk) as [E1 E2]. cbn [fst].
  unfold squared, el_dev, mean_mu, second_mu, pl_mu, pl_mu2. fold n. rewrite E1, E2. ring.
Qed.
Lemma after_b : forall g c d, (c < rows n)%nat -> (d < cols n)%nat -> updated_b m g x c d = pl_b n g Rm Q c d.
Proof.
  intros g c d Hc Hd. unfold updated_b, pl_b. rewrite (users_eq n m) by (reflexivity || assumption). rewrite sum_dev by assumption. f_equal. f_equal.
  apply sc_ext; [exact Hd|]. intros k Hk. apply sr_ext; [exact Hc|]. intros p Hp. now apply squared_eq.
Qed.
Lemma b_pos : forall g c d, pn_gamma n = Some g -> (c < rows n)%nat -> (d < cols n)%nat -> 0 < pl_b n g Rm Q c d.
Proof.
  intros g c d Eg Hc Hd. unfold pl_b. rewrite sum_dev by assumption. pose proof (sum_nonneg (el_dev n Rm Q) c d Hc Hd (dev_nonneg Rm Q)).
  destruct (pf_gamma m OK g Eg c d Hc Hd) as [B _]. lra.
Qed.

(** X in terms of the elements. *)
Lemma X_terms_eq : forall al la, X_terms m al la x =
  -0.5 * rsum P (fun p => rsum M (fun k => al p k * el_dev n Rm Q p k)) + 0.5 * rsum P (fun p => rsum M (fun k => la p k))
  + rsum P (fun p => ldet + INR M * ln (Rabs (sumQ n Q p))) - rsum P log_prec.
Proof.
  intros al la. unfold X_terms. fold n P M.
  rewrite <- !rsum_scal, <- !rsum_plus, <- rsum_minus. apply rsum_ext. intros p Hp.
  pose proof (after_plate p Hp) as A. destruct (x p) as [[u phi] g]. destruct A as [A1 A2].
  cbn [ard_cgf ard_phi fst snd].
  replace (ldet + INR M * ln (Rabs (sumQ n Q p)) - log_prec p) with (- g - (innerv M (fst phi) (fst u) + innerm M (snd phi) (snd u))) by exact A2.
  assert (E : innerv M (fun i => 1 * (al p i * mean_mu m p i)) (fst u) + innerm M (diag (fun i => 1 * (-0.5 * al p i))) (snd u) =
              rsum M (fun k => al p k * mean_mu m p k * fst u k - 0.5 * al p k * snd u k k)).
  { rewrite innerm_diag. unfold innerv. rewrite <- rsum_plus. apply rsum_ext. intros; lra. }
  rewrite E. clear E.
  assert (E : -0.5 * rsum M (fun k => al p k * el_dev n Rm Q p k) = -0.5 * rsum M (fun i => al p i * second_mu m p i * 1) + rsum M (fun k => al p k * mean_mu m p k * fst u k - 0.5 * al p k * snd u k k)).
  { rewrite <- !rsum_scal, <- rsum_plus. apply rsum_ext. intros k Hk. destruct (A1 k Hk) as [E1 E2]. rewrite E1, E2.
    unfold el_dev, mean_mu, second_mu, pl_mu, pl_mu2. fold n. lra. }
  rewrite E. rewrite (rsum_ext M (fun i => la p i * 1) (fun k => la p k)) by (intros; ring). lra.
Qed.
End After.
