(** C60: the marginal distributions a GaussianGamma node reports are those of its
    posterior. *)
From Coq Require Import List Arith ZArith Bool Reals Lra Lia FunctionalExtensionality.
From Verif Require Import Base NumPy TensorLemmas MarkovLemmas Families SpecFamilies FamiliesLemmas
  Linalg MatBridge SpecLinalg LinalgLemmas Gaussian SpecGaussian GaussLemmas GaussAlg PGaussian PGaussian2
  GaussNodes GaussNodes4 RotateARD GammaMarginal SpecGammaMarginal.
Import ListNotations.
Open Scope R_scope.

(** ** Auxiliary facts *)

Lemma pick_sum : forall (g : nat -> R) D n (s : nat -> nat) (x : vec),
  (forall i, (i < n)%nat -> (s i < D)%nat) ->
  rsum D (fun k => rsum n (fun i => if (s i =? k)%nat then x i else 0) * g k) = rsum n (fun i => x i * g (s i)).
Proof.
  intros g D n s x Hs.
  transitivity (rsum D (fun k => rsum n (fun i => (if (s i =? k)%nat then x i else 0) * g k))).
  { apply rsum_ext. intros k Hk. now rewrite rsum_scal_r. }
  rewrite rsum_swap. apply rsum_ext. intros i Hi.
  rewrite <- (rsum_single D (s i) (fun k => x i * g k)) by auto.
  apply rsum_ext. intros k Hk. rewrite (Nat.eqb_sym (s i) k). destruct (k =? s i)%nat; ring.
Qed.

Lemma pick_bilinear : forall D n s C x, (forall i, (i < n)%nat -> (nth i s O < D)%nat) ->
  let y := fun k => rsum n (fun i => if (nth i s O =? k)%nat then x i else 0) in
  bilinear n (pick_m s C) x x = bilinear D C y y.
Proof.
  intros D n s C x Hs y. unfold bilinear.
  transitivity (rsum D (fun k => y k * rsum D (fun l => y l * C k l))).
  - unfold y. rewrite (pick_sum (fun k => rsum D (fun l => rsum n (fun i => if (nth i s O =? l)%nat then x i else 0) * C k l)) D n (fun i => nth i s O) x Hs).
    apply rsum_ext. intros i Hi. rewrite (pick_sum (fun l => C (nth i s O) l) D n (fun i => nth i s O) x Hs).
    rewrite <- rsum_scal. apply rsum_ext. intros j Hj. unfold pick_m. ring.
  - apply rsum_ext. intros k Hk. rewrite <- rsum_scal. apply rsum_ext. intros; ring.
Qed.

Lemma pick_posdef : forall D s C, posdef D C -> NoDup s -> (forall i, In i s -> (i < D)%nat) ->
  posdef (length s) (pick_m s C).
Proof.
  intros D s C [Sy P] ND H.
  assert (H' : forall i, (i < length s)%nat -> (nth i s O < D)%nat) by (intros i Hi; apply H, nth_In, Hi).
  split.
  - intros i j Hi Hj. unfold pick_m. apply Sy; auto.
  - intros x (i & Hi & Hx). rewrite (pick_bilinear D) by assumption. apply P.
    exists (nth i s O). split; [auto|]. rewrite (rsum_ext _ _ (fun j => if (j =? i)%nat then x i else 0)).
    + rewrite (rsum_single _ _ (fun _ => x i)) by assumption. exact Hx.
    + intros j Hj. destruct (Nat.eqb_spec (nth j s O) (nth i s O)) as [E|N]; destruct (Nat.eqb_spec j i) as [->|M]; try reflexivity.
      * exfalso. apply M. apply (proj1 (NoDup_nth s O) ND); assumption.
      * now elim N.
Qed.

Lemma index_ok : forall D k i, index_of D k i -> np_index D k = Ok i.
Proof.
  intros D k i [Hi [->| ->]]; unfold np_index.
  - replace (0 <=? Z.of_nat i)%Z with true by (symmetry; apply Z.leb_le; lia).
    replace (Z.of_nat i <? Z.of_nat D)%Z with true by (symmetry; apply Z.ltb_lt; lia).
    cbn [andb]. now rewrite Nat2Z.id.
  - replace (0 <=? Z.of_nat i - Z.of_nat D)%Z with false by (symmetry; apply Z.leb_gt; lia). cbn [andb].
    replace (Z.of_nat i - Z.of_nat D <? 0)%Z with true by (symmetry; apply Z.ltb_lt; lia).
    replace (- Z.of_nat D <=? Z.of_nat i - Z.of_nat D)%Z with true by (symmetry; apply Z.leb_le; lia).
    cbn [andb]. f_equal. lia.
Qed.
Lemma indices_ok : forall D inds s, Forall2 (index_of D) inds s ->
  mapM (np_index D) inds = Ok s /\ length inds = length s /\ forall i, In i s -> (i < D)%nat.
Proof.
  intros D inds s F. induction F as [|k i inds s H F (I1 & I2 & I3)]; [repeat split; intros ? []|].
  cbn [mapM]. rewrite (index_ok _ _ _ H), I1. cbn [bind]. split; [reflexivity|]. split; [cbn; now rewrite I2|].
  intros j [<-|J]; [apply H|auto].
Qed.
Lemma index_error : forall D k, (forall i, ~ index_of D k i) -> np_index D k = Err IndexError.
Proof.
  intros D k N. unfold np_index. destruct ((0 <=? k) && (k <? Z.of_nat D))%Z eqn:E1.
  - apply andb_prop in E1. destruct E1 as [A B]. apply Z.leb_le in A. apply Z.ltb_lt in B.
    elim (N (Z.to_nat k)). split; lia.
  - destruct ((k <? 0) && (- Z.of_nat D <=? k))%Z eqn:E2; [|reflexivity].
    apply andb_prop in E2. destruct E2 as [A B]. apply Z.ltb_lt in A. apply Z.leb_le in B.
    elim (N (Z.to_nat (Z.of_nat D + k))). split; lia.
Qed.

(** What the code computes from a consistent state. *)
Lemma recover : forall lg psi D phi0 phi1 phi2 phi3 u0 u1 tau u3 g mu Lambda Cov a b,
  gg_moments lg psi D (phi0, phi1, phi2, phi3) = Ok ((u0, u1, tau, u3), g) ->
  has_parameters D (phi0, phi1, phi2, phi3) mu Lambda Cov a b ->
  veq D (fun i => u0 i / tau) mu /\ tau = a / b /\ meq D (sub_m u1 (outerv u0 (fun i => u0 i / tau))) Cov /\
  - phi2 - 0.5 * innerv D phi0 (fun i => u0 i / tau) = b /\ meq D (scal_m (-2) phi1) Lambda.
Proof.
  intros lg psi D phi0 phi1 phi2 phi3 u0 u1 tau u3 g mu Lambda Cov a b M (P & I & Ha & Hb & E0 & E1 & E2 & E3).
  assert (EL : meq D (scal_m (-2) phi1) Lambda) by (intros i j Hi Hj; unfold scal_m; rewrite (E1 i j Hi Hj); unfold scal_m; lra).
  assert (Sy : symmetric D phi1) by (intros i j Hi Hj; rewrite (E1 i j Hi Hj), (E1 j i Hj Hi); unfold scal_m; now rewrite (proj1 P i j Hi Hj)).
  destruct (proj1 (C44_gaussian_gamma_moments lg psi D phi0 phi1 phi2 phi3 Sy) _ _ M) as [_ (mu' & Cov' & b' & A0 & A1 & A2 & A3 & A4 & A5 & A6 & A7)].
  assert (Em : veq D mu' mu).
  { apply (solve_unique D Lambda Cov _ _ I). intros i Hi.
    rewrite <- (E0 i Hi), <- (A0 i Hi). apply mvdot_ext; [now apply meq_sym|apply veq_refl|exact Hi]. }
  assert (Ic : is_inverse D Lambda Cov').
  { destruct A1 as [X Y]. split; intros i j Hi Hj; [rewrite <- (X i j Hi Hj)|rewrite <- (Y i j Hi Hj)]; apply mmdot_ext; auto using meq_refl, meq_sym. }
  assert (EC : meq D Cov' Cov) by (apply (inverse_unique D Lambda Cov' Cov Ic); apply I).
  assert (Eb : b' = b).
  { rewrite A2, E2. rewrite (bilinear_ext D _ Lambda mu' mu' mu mu EL Em Em). lra. }
  rewrite Eb in A4, A5, A6. rewrite E3 in A4, A5, A6. clear Eb A2 A3 A7. subst tau.
  assert (NZ : a / b <> 0) by (apply Rgt_not_eq, Rdiv_lt_0_compat; assumption).
  assert (Eu : veq D (fun i => u0 i / (a / b)) mu).
  { intros i Hi. rewrite (A4 i Hi), <- (Em i Hi). unfold scal_v. field. lra. }
  split; [exact Eu|]. split; [reflexivity|]. split; [|split; [|exact EL]].
  - intros i j Hi Hj. rewrite <- (EC i j Hi Hj). unfold sub_m. rewrite (A5 i j Hi Hj). unfold add_m, scal_m, outerv.
    rewrite (Eu j Hj), (A4 i Hi), (Em i Hi), (Em j Hj). unfold scal_v. rewrite (Em i Hi). ring.
  - rewrite (innerv_ext D phi0 (mvdot D Lambda mu) _ mu E0 Eu), innerv_comm, <- bilinear_mv, E2. lra.
Qed.

Lemma allclose_m_ok : forall D A B, meq D A B -> allclose_m D A B = true.
Proof.
  intros D A B E. apply forallb_forall. intros i Hi. apply forallb_forall. intros j Hj.
  apply in_seq in Hi. apply in_seq in Hj. rewrite (E i j) by lia. apply allclose_refl.
Qed.

(** ** The densities *)

Lemma ln_gamma_pdf : forall lg Gam a b x, is_log_of lg Gam -> 0 < a ->
  0 < gamma_pdf Gam a b x /\ ln (gamma_pdf Gam a b x) = a * ln b - lg a + (a - 1) * ln x - b * x.
Proof.
  intros lg Gam a b x HG Ha. destruct (HG a Ha) as [HGa Hlg].
  assert (Q : 0 < Rpower b a / Gam a) by (apply Rdiv_lt_0_compat; [apply Rpower_pos|exact HGa]).
  unfold gamma_pdf. split.
  - apply Rmult_lt_0_compat; [apply Rmult_lt_0_compat; [exact Q|apply Rpower_pos]|apply exp_pos].
  - rewrite ln_mult by auto using Rmult_lt_0_compat, Rpower_pos, exp_pos.
    rewrite (ln_mult (Rpower b a / Gam a)) by auto using Rpower_pos.
    rewrite ln_div by auto using Rpower_pos. rewrite !ln_Rpower, ln_exp, Hlg. lra.
Qed.
Lemma ln_normal_gamma : forall lg Gam n mu L a b x tau, is_log_of lg Gam -> 0 < a -> 0 < mdet n L -> 0 < tau ->
  0 < normal_gamma_pdf Gam n mu L a b x tau /\
  ln (normal_gamma_pdf Gam n mu L a b x tau)
  = INR n / 2 * ln tau + ln (mdet n L) / 2 - INR n / 2 * ln (2 * PI)
    - tau * bilinear n L (sub_v x mu) (sub_v x mu) / 2 + a * ln b - lg a + (a - 1) * ln tau - b * tau.
Proof.
  intros lg Gam n mu L a b x tau HG Ha Hd Ht. destruct (ln_gamma_pdf lg Gam a b tau HG Ha) as [G1 G2].
  assert (Hd' : 0 < mdet n (scal_m tau L)) by (rewrite mdet_scal; apply Rmult_lt_0_compat; [now apply pow_lt|exact Hd]).
  unfold normal_gamma_pdf. change (fun i j => tau * L i j) with (scal_m tau L).
  assert (NP : 0 < normal_pdf n mu (scal_m tau L) x).
  { unfold normal_pdf. apply Rmult_lt_0_compat; [|apply exp_pos]. apply sqrt_lt_R0, Rdiv_lt_0_compat; [exact Hd'|].
    apply pow_lt. pose proof PI_RGT_0. lra. }
  split; [now apply Rmult_lt_0_compat|].
  rewrite ln_mult, ln_normal, G2, mdet_scal, (ln_mult (tau ^ n)), ln_pow, bilinear_scal by (auto using pow_lt). lra.
Qed.
Lemma ln_student : forall lg Gam n mu S Q nu x, is_log_of lg Gam -> 0 < nu -> 0 < mdet n S ->
  0 <= bilinear n Q (sub_v x mu) (sub_v x mu) ->
  0 < student_pdf Gam n mu S Q nu x /\
  ln (student_pdf Gam n mu S Q nu x)
  = lg ((nu + INR n) / 2) - lg (nu / 2) - INR n / 2 * ln (nu * PI) - ln (mdet n S) / 2
    - (nu + INR n) / 2 * ln (1 + bilinear n Q (sub_v x mu) (sub_v x mu) / nu).
Proof.
  intros lg Gam n mu S Q nu x HG Hn Hd Hq. pose proof (pos_INR n).
  destruct (HG ((nu + INR n) / 2)) as [A1 A2]; [lra|]. destruct (HG (nu / 2)) as [B1 B2]; [lra|].
  assert (Z : 0 < Gam (nu / 2) * Rpower (nu * PI) (INR n / 2) * sqrt (mdet n S))
    by (repeat apply Rmult_lt_0_compat; auto using Rpower_pos, sqrt_lt_R0).
  unfold student_pdf. split.
  - apply Rmult_lt_0_compat; [now apply Rdiv_lt_0_compat|apply Rpower_pos].
  - rewrite ln_mult by (auto using Rdiv_lt_0_compat, Rpower_pos). rewrite ln_div by assumption.
    rewrite ln_mult by (auto using Rmult_lt_0_compat, Rpower_pos, sqrt_lt_R0).
    rewrite (ln_mult (Gam (nu / 2))) by (auto using Rpower_pos).
    rewrite !ln_Rpower, ln_sqrt, A2, B2 by assumption. lra.
Qed.

(** Integrating the scale out: the joint density is the Student-t density of x
    times the density of a gamma distribution of tau. *)
Theorem C60_student_factor : forall lg Gam n mu Cov Lambda a b x tau, is_log_of lg Gam ->
  posdef n Lambda -> is_inverse n Lambda Cov -> 0 < a -> 0 < b -> 0 < tau ->
  normal_gamma_pdf Gam n mu Lambda a b x tau
  = student_pdf Gam n mu (scal_m (b / a) Cov) (scal_m (a / b) Lambda) (2 * a) x
    * gamma_pdf Gam (a + INR n / 2) (b + bilinear n Lambda (sub_v x mu) (sub_v x mu) / 2) tau.
Proof.
  intros lg Gam n mu Cov Lambda a b x tau HG P I Ha Hb Ht. pose proof (pos_INR n) as Hn. pose proof PI_RGT_0 as HPI.
  set (z := bilinear n Lambda (sub_v x mu) (sub_v x mu)).
  assert (Hz : 0 <= z) by (apply posdef_nonneg; exact P).
  destruct (posdef_chol n Lambda P) as [U EU]. destruct (chol_logdet_ok n Lambda U (proj1 P) EU) as [Hd _].
  assert (Hdd := @inverse_det n Lambda Cov I).
  assert (Hc : 0 < mdet n Cov) by (apply (Rmult_lt_reg_l (mdet n Lambda)); [exact Hd|rewrite Hdd; lra]).
  assert (Hba : 0 < b / a) by now apply Rdiv_lt_0_compat.
  assert (HS : 0 < mdet n (scal_m (b / a) Cov)) by (rewrite mdet_scal; apply Rmult_lt_0_compat; [now apply pow_lt|exact Hc]).
  assert (Hq : bilinear n (scal_m (a / b) Lambda) (sub_v x mu) (sub_v x mu) = a / b * z) by apply bilinear_scal.
  assert (Hq0 : 0 <= a / b * z) by (apply Rmult_le_pos; [left; now apply Rdiv_lt_0_compat|exact Hz]).
  destruct (ln_normal_gamma lg Gam n mu Lambda a b x tau HG Ha Hd Ht) as [L1 L2].
  destruct (ln_student lg Gam n mu (scal_m (b / a) Cov) (scal_m (a / b) Lambda) (2 * a) x HG) as [S1 S2]; [lra|exact HS|rewrite Hq; exact Hq0|].
  destruct (ln_gamma_pdf lg Gam (a + INR n / 2) (b + z / 2) tau HG) as [G1 G2]; [lra|].
  apply ln_inv; [exact L1|now apply Rmult_lt_0_compat|]. rewrite ln_mult by assumption. fold z in L2. rewrite L2, S2, G2, Hq.
  rewrite mdet_scal, (ln_mult ((b / a) ^ n)), ln_pow by (auto using pow_lt).
  assert (Hdl : ln (mdet n Lambda) + ln (mdet n Cov) = 0) by (rewrite <- ln_mult, Hdd, ln_1; auto).
  replace (1 + a / b * z / (2 * a)) with ((b + z / 2) / b) by (field; lra).
  replace (2 * a * PI) with (a * (2 * PI)) by ring.
  rewrite !ln_div, (ln_mult a) by lra.
  replace ((2 * a + INR n) / 2) with (a + INR n / 2) by lra. replace (2 * a / 2) with a by lra. lra.
Qed.
Print Assumptions C60_student_factor.

(** The posterior of a node: there are such parameters, and the node's density
    exp(phi . u(x, tau) + g + f(x, tau)) is the Gaussian-gamma density. *)
Theorem C60_posterior : forall lg psi Gam D phi0 phi1 phi2 phi3 u g, is_log_of lg Gam -> symmetric D phi1 -> 0 < phi3 ->
  gg_moments lg psi D (phi0, phi1, phi2, phi3) = Ok (u, g) ->
  exists mu Lambda Cov b, has_parameters D (phi0, phi1, phi2, phi3) mu Lambda Cov phi3 b /\
    forall x tau, 0 < tau ->
      let '((x0, x1, x2, x3), f) := gg_fixed D x tau in
      exp (innerv D phi0 x0 + innerm D phi1 x1 + phi2 * x2 + phi3 * x3 + g + f)
      = normal_gamma_pdf Gam D mu Lambda phi3 b x tau.
Proof.
  intros lg psi Gam D phi0 phi1 phi2 phi3 [[[u0 u1] u2] u3] g HG Sy Ha M.
  destruct (proj1 (C44_gaussian_gamma_moments lg psi D phi0 phi1 phi2 phi3 Sy) _ _ M) as [P (mu & Cov & b & A0 & A1 & A2 & A3 & _)].
  set (Lambda := scal_m (-2) phi1) in *.
  exists mu, Lambda, Cov, b. split.
  - split; [exact P|]. split; [exact A1|]. split; [exact Ha|]. split; [exact A3|].
    split; [intros i Hi; now rewrite (A0 i Hi)|]. split; [intros i j Hi Hj; unfold Lambda, scal_m; lra|]. split; [lra|reflexivity].
  - intros x tau Ht. unfold gg_fixed.
    destruct (posdef_chol D Lambda P) as [U EU]. destruct (chol_logdet_ok D Lambda U (proj1 P) EU) as [Hd Hl].
    destruct (ln_normal_gamma lg Gam D mu Lambda phi3 b x tau HG Ha Hd Ht) as [L1 L2].
    rewrite <- (exp_ln _ L1), L2. f_equal.
    unfold gg_moments in M. fold Lambda in M. unfold chol in M. rewrite EU in M. cbn [bind] in M.
    destruct (Rle_dec _ 0) as [|Nb]; [discriminate|]. injection M as _ _ _ _ <-. rewrite Hl.
    assert (Em : veq D (chol_solve D U phi0) mu).
    { apply (solve_unique D Lambda Cov _ _ A1). intros i Hi.
      change (mvdot D Lambda (cho_solve D U phi0) i = mvdot D Lambda mu i).
      rewrite (cho_factor_solve D Lambda U phi0 (proj1 P) EU i Hi), (A0 i Hi). reflexivity. }
    assert (Eb : - phi2 - 0.5 * innerv D (chol_solve D U phi0) phi0 = b).
    { rewrite (innerv_ext D _ mu phi0 (mvdot D Lambda mu) Em (fun i Hi => eq_sym (A0 i Hi))), <- bilinear_mv. lra. }
    rewrite Eb, bilinear_sub by apply P.
    assert (Q1 : innerv D phi0 (scal_v tau x) = tau * bilinear D Lambda x mu).
    { rewrite bilinear_mv; unfold innerv; rewrite <- rsum_scal. apply rsum_ext. intros i Hi. rewrite (A0 i Hi). unfold scal_v. ring. }
    assert (Q2 : innerm D phi1 (scal_m tau (outerv x x)) = - tau / 2 * bilinear D Lambda x x).
    { rewrite <- innerm_outer. unfold innerm. rewrite <- rsum_scal. apply rsum_ext. intros i Hi. rewrite <- rsum_scal. apply rsum_ext.
      intros j Hj. unfold Lambda, scal_m. field. }
    rewrite Q1, Q2. replace phi2 with (- b - bilinear D Lambda mu mu / 2) by lra.
    replace 0.5 with (/ 2) by lra. field.
Qed.
Print Assumptions C60_posterior.

(** ** The node has no attribute ndim *)

(** Both methods begin with a test of self.ndim, and the node has no such attribute:
    they raise AttributeError for every node and every argument. *)
Theorem C60_marginals_refuted : forall lg np_inv ndim D u phi gaussian gamma,
  get_marginal_logpdf lg np_inv ndim D u phi gaussian gamma = Err AttributeError /\
  get_gaussian_mean_and_variance ndim u phi = Err AttributeError.
Proof. intros. split; reflexivity. Qed.
Print Assumptions C60_marginals_refuted.

(** ** get_gaussian_location *)

Theorem C60_location : forall lg psi D phi u g mu Lambda Cov a b,
  gg_moments lg psi D phi = Ok (u, g) -> has_parameters D phi mu Lambda Cov a b ->
  veq D (gg_location u) mu.
Proof.
  intros lg psi D [[[phi0 phi1] phi2] phi3] [[[u0 u1] tau] u3] g mu Lambda Cov a b M H.
  exact (proj1 (recover _ _ _ _ _ _ _ _ _ _ _ _ _ _ _ _ _ M H)).
Qed.
Print Assumptions C60_location.

(** ** The rest of the methods (what is missing: they are never reached, because of
    the test of self.ndim) *)

(** The mean and the variances of the marginal Student-t distribution, when they
    exist; ValueError otherwise. *)
Theorem C60_mean_variance_partial : forall lg psi D phi u g mu Lambda Cov a b,
  gg_moments lg psi D phi = Ok (u, g) -> has_parameters D phi mu Lambda Cov a b ->
  (a <= 1 -> mean_variance_body u phi = Err ValueError) /\
  (1 < a -> exists m v, mean_variance_body u phi = Ok (m, v) /\ veq D m mu /\
     veq D v (student_variance (scal_m (b / a) Cov) (2 * a))).
Proof.
  intros lg psi D [[[phi0 phi1] phi2] phi3] [[[u0 u1] tau] u3] g mu Lambda Cov a b M H.
  destruct (recover _ _ _ _ _ _ _ _ _ _ _ _ _ _ _ _ _ M H) as (R1 & R2 & R3 & _).
  destruct H as (P & I & Ha & Hb & _ & _ & _ & E3). unfold mean_variance_body. rewrite E3. split; intros C.
  - destruct (Rle_dec (2 * a) 1); [reflexivity|]. destruct (Rle_dec (2 * a) 2); [reflexivity|lra].
  - destruct (Rle_dec (2 * a) 1); [lra|]. destruct (Rle_dec (2 * a) 2); [lra|].
    eexists. eexists. split; [reflexivity|]. split; [exact R1|]. intros i Hi. unfold student_variance, scal_m.
    specialize (R3 i i Hi Hi). unfold sub_m, outerv in R3. unfold get_diag.
    rewrite <- R3. rewrite R2. field. lra.
Qed.
Print Assumptions C60_mean_variance_partial.

(** With plates the factor nu / (nu - 2) is broadcast against the elements of the
    vector: ValueError when the numbers differ, and otherwise element i of every
    plate gets the factor of plate i. *)
Theorem C60_variance_plates_refuted : forall P D u phi, (1 < P)%nat -> (1 < D)%nat ->
  (forall p, (p < P)%nat -> let '(_, _, _, a) := phi p in 1 < a) ->
  (P <> D -> mean_variance_plates P D u phi = Err ValueError) /\
  (P = D -> exists v, mean_variance_plates P D u phi = Ok (P, D, v) /\
     forall p i m w, (p < P)%nat -> (i < D)%nat -> mean_variance_body (u p) (phi p) = Ok (m, w) ->
       let '(_, _, _, a) := phi p in
       let '(_, _, _, a') := phi i in
       v p i * ((2 * a / (2 * a - 2))) = w i * (2 * a' / (2 * a' - 2))).
Proof.
  intros P D u phi HP HD Ha. unfold mean_variance_plates.
  assert (N : forall c, c <= 2 -> existsb (fun p => if Rle_dec (2 * (let '(_, _, _, a) := phi p in a)) c then true else false) (seq 0 P) = false).
  { intros c Hc. apply not_true_is_false. intros E. apply existsb_exists in E. destruct E as (p & Hp & E). apply in_seq in Hp.
    specialize (Ha p ltac:(lia)). destruct (phi p) as [[[? ?] ?] a]. destruct (Rle_dec (2 * a) c); [lra|discriminate]. }
  rewrite !N by lra. split; intros E.
  - destruct (Nat.eqb_spec P D); [contradiction|]. destruct (Nat.eqb_spec P 1); [lia|]. destruct (Nat.eqb_spec D 1); [lia|reflexivity].
  - subst D. rewrite Nat.eqb_refl. eexists. split; [reflexivity|]. intros p i m w Hp Hi B.
    pose proof (Ha p Hp) as A1. pose proof (Ha i Hi) as A2. cbv beta.
    destruct (phi p) as [[[? ?] ?] a]. destruct (phi i) as [[[? ?] ?] a']. unfold mean_variance_body in B.
    destruct (u p) as [[[u0 u1] tau] u3]. destruct (Rle_dec (2 * a) 1); [lra|]. destruct (Rle_dec (2 * a) 2); [lra|].
    injection B as _ <-. ring.
Qed.
Print Assumptions C60_variance_plates_refuted.

Section Marginals.
Variables lg psi Gam : R -> R.
Variable np_inv : nat -> mat -> res mat.
Variable D : nat.
Variables phi u : vec * mat * R * R.
Variables g a b : R.
Variables (mu : vec) (Lambda Cov : mat).
Hypothesis HG : is_log_of lg Gam.
Hypothesis HI : exact_inverse np_inv.
Hypothesis HM : gg_moments lg psi D phi = Ok (u, g).
Hypothesis HP : has_parameters D phi mu Lambda Cov a b.

Lemma np_cov : exists W, np_inv D (scal_m (-2) (let '(_, p, _, _) := phi in p)) = Ok W /\ meq D W Cov.
Proof.
  destruct phi as [[[phi0 phi1] phi2] phi3]. destruct u as [[[u0 u1] tau] u3].
  destruct (recover _ _ _ _ _ _ _ _ _ _ _ _ _ _ _ _ _ HM HP) as (_ & _ & _ & _ & EL).
  destruct HP as (P & I & _).
  assert (T : forall V, is_inverse D Lambda V <-> is_inverse D (scal_m (-2) phi1) V).
  { intros V. split; intros [X Y]; split; intros i j Hi Hj; [rewrite <- (X i j Hi Hj)|rewrite <- (Y i j Hi Hj)|rewrite <- (X i j Hi Hj)|rewrite <- (Y i j Hi Hj)]; apply mmdot_ext; auto using meq_refl, meq_sym. }
  destruct (HI D (scal_m (-2) phi1) Cov) as (W & EW & IW); [now apply T|].
  exists W. split; [exact EW|]. apply (inverse_unique D Lambda W Cov); [now apply T|apply I].
Qed.

(** The gamma variable. *)
Lemma gamma_marginal : exists f, marginal_body lg np_inv D u phi None true = Ok (OfNumber f) /\
  forall tau, f tau = ln (gamma_pdf Gam a b tau).
Proof.
  destruct np_cov as (W & EW & MW).
  destruct phi as [[[phi0 phi1] phi2] phi3]. destruct u as [[[u0 u1] tau] u3].
  destruct (recover _ _ _ _ _ _ _ _ _ _ _ _ _ _ _ _ _ HM HP) as (R1 & R2 & R3 & R4 & _).
  destruct HP as (P & I & Ha & Hb & _ & _ & _ & E3).
  unfold marginal_body. cbn [andb negb]. rewrite EW. cbn [bind].
  rewrite allclose_m_ok by (apply (meq_trans D W Cov); [exact MW|now apply meq_sym]). cbn [negb].
  eexists. split; [reflexivity|]. intros t. cbv beta zeta. rewrite R4, E3. unfold gamma_logpdf.
  rewrite (proj2 (ln_gamma_pdf lg Gam a b t HG Ha)). ring.
Qed.

Variables (inds : list Z) (s : list nat).
Hypothesis HS : Forall2 (index_of D) inds s.
Hypothesis ND : NoDup s.
Let n := length s.

Lemma sub_posdef : posdef D Cov /\ posdef n (pick_m s Cov).
Proof.
  destruct phi as [[[phi0 phi1] phi2] phi3]. destruct HP as (P & I & _).
  assert (PC : posdef D Cov) by exact (posdef_inverse D Lambda Cov P I).
  split; [exact PC|]. apply (pick_posdef D); [exact PC|exact ND|apply (indices_ok D inds s HS)].
Qed.

(** The elements given by a list of distinct indices. *)
Lemma student_marginal : forall Q, is_inverse n (pick_m s Cov) Q ->
  exists f, marginal_body lg np_inv D u phi (Some inds) false = Ok (OfVector n f) /\
  forall x, f x = ln (student_pdf Gam n (pick s mu) (scal_m (b / a) (pick_m s Cov)) (scal_m (a / b) Q) (2 * a) x).
Proof.
  intros Q IQ. destruct sub_posdef as [PC PS]. destruct np_cov as (W & EW & MW).
  destruct (indices_ok D inds s HS) as (J1 & J2 & J3).
  destruct phi as [[[phi0 phi1] phi2] phi3]. destruct u as [[[u0 u1] tau] u3].
  destruct (recover _ _ _ _ _ _ _ _ _ _ _ _ _ _ _ _ _ HM HP) as (R1 & R2 & R3 & R4 & _).
  destruct HP as (P & I & Ha & Hb & _ & _ & _ & E3).
  assert (K : forall i, (i < n)%nat -> (nth i s O < D)%nat) by (intros i Hi; apply J3, nth_In, Hi).
  unfold marginal_body. cbn [andb negb]. rewrite EW. cbn [bind].
  rewrite allclose_m_ok by (apply (meq_trans D W Cov); [exact MW|now apply meq_sym]). cbn [negb].
  rewrite J1. cbn [bind]. unfold gaussian_gamma_to_t. rewrite R4, E3, J2. fold n. cbv zeta.
  set (S := scal_m (b / a) (pick_m s Cov)).
  set (S' := fun i j : nat => W (nth i s O) (nth j s O) / (a / b)).
  assert (ES : meq n S' S). { intros i j Hi Hj. unfold S', S, scal_m, pick_m. rewrite MW by auto. field. lra. }
  assert (Hba : 0 < b / a) by now apply Rdiv_lt_0_compat.
  assert (PS1 : posdef n S) by now apply posdef_scal.
  assert (PS' : posdef n S') by (apply (posdef_ext n S); [now apply meq_sym|exact PS1]).
  destruct (posdef_chol n S' PS') as [L EL]. unfold chol. rewrite EL. cbn [bind].
  eexists. split; [reflexivity|]. intros x. cbv beta.
  destruct (chol_logdet_ok n S' L (proj1 PS') EL) as [Hd Hl]. rewrite (mdet_ext ES) in Hd, Hl.
  assert (IQ' : is_inverse n S (scal_m (a / b) Q)).
  { destruct IQ as [X Y]. split; intros i j Hi Hj; [rewrite <- (X i j Hi Hj)|rewrite <- (Y i j Hi Hj)]; unfold mmdot; apply rsum_ext; intros k Hk; unfold S, scal_m; field; lra. }
  assert (IS' : is_inverse n S' (scal_m (a / b) Q)).
  { destruct IQ' as [X Y]. split; intros i j Hi Hj; [rewrite <- (X i j Hi Hj)|rewrite <- (Y i j Hi Hj)]; apply mmdot_ext; auto using meq_refl. }
  set (y := fun i => x i - u0 (nth i s O) / tau).
  assert (Ey : veq n y (sub_v x (pick s mu))).
  { intros i Hi. unfold y, sub_v, pick. now rewrite <- (R1 (nth i s O) (K i Hi)). }
  assert (Ez : innerv n y (chol_solve n L y) = bilinear n (scal_m (a / b) Q) (sub_v x (pick s mu)) (sub_v x (pick s mu))).
  { assert (V : veq n (chol_solve n L y) (mvdot n (scal_m (a / b) Q) y)).
    { apply (solve_unique n S' _ _ _ IS'). intros i Hi. change (mvdot n S' (cho_solve n L y) i = mvdot n S' (mvdot n (scal_m (a / b) Q) y) i).
      rewrite (cho_factor_solve n S' L y (proj1 PS') EL i Hi), (mvdot_assoc n S' _ y i Hi).
      rewrite (mvdot_ext n _ identity y y (proj1 IS') (veq_refl n y) i Hi). symmetry. apply mvdot_id; exact Hi. }
    rewrite (innerv_ext n y y _ _ (veq_refl n y) V), <- bilinear_mv. now apply bilinear_ext; [apply meq_refl| |]. }
  assert (PQ : posdef n (scal_m (a / b) Q)) by exact (posdef_inverse n S _ PS1 IQ').
  rewrite (proj2 (ln_student lg Gam n (pick s mu) S (scal_m (a / b) Q) (2 * a) x HG ltac:(lra) Hd (posdef_nonneg n _ _ PQ))).
  unfold t_logpdf. rewrite Ez, Hl. lra.
Qed.

(** The elements given by a list of distinct indices together with the gamma
    variable: the log-determinant of the covariance has the wrong sign. *)
Lemma joint_marginal : forall Q, is_inverse n (pick_m s Cov) Q ->
  exists f, marginal_body lg np_inv D u phi (Some inds) true = Ok (OfVector (n + 1) f) /\
  forall x, 0 < x n ->
    f x = ln (normal_gamma_pdf Gam n (pick s mu) Q a b x (x n)) + ln (mdet n (pick_m s Cov)).
Proof.
  intros Q IQ. destruct sub_posdef as [PC PS]. destruct np_cov as (W & EW & MW).
  destruct (indices_ok D inds s HS) as (J1 & J2 & J3).
  destruct phi as [[[phi0 phi1] phi2] phi3]. destruct u as [[[u0 u1] tau] u3].
  destruct (recover _ _ _ _ _ _ _ _ _ _ _ _ _ _ _ _ _ HM HP) as (R1 & R2 & R3 & R4 & _).
  destruct HP as (P & I & Ha & Hb & _ & _ & _ & E3).
  assert (K : forall i, (i < n)%nat -> (nth i s O < D)%nat) by (intros i Hi; apply J3, nth_In, Hi).
  unfold marginal_body. cbn [andb negb]. rewrite EW. cbn [bind].
  rewrite allclose_m_ok by (apply (meq_trans D W Cov); [exact MW|now apply meq_sym]). cbn [negb].
  rewrite J1. cbn [bind]. rewrite R4, E3, J2. fold n. cbv zeta.
  set (S := pick_m s Cov) in *.
  set (S' := fun i j : nat => W (nth i s O) (nth j s O)).
  assert (ES : meq n S' S). { intros i j Hi Hj. unfold S', S, pick_m. apply MW; auto. }
  assert (PS' : posdef n S') by (apply (posdef_ext n S); [now apply meq_sym|exact PS]).
  destruct (posdef_chol n S' PS') as [L EL]. unfold chol. rewrite EL. cbn [bind].
  eexists. split; [reflexivity|]. intros x Hx. cbv beta.
  destruct (chol_logdet_ok n S' L (proj1 PS') EL) as [Hd Hl]. rewrite (mdet_ext ES) in Hd, Hl.
  assert (IS' : is_inverse n S' Q).
  { destruct IQ as [X Y]. split; intros i j Hi Hj; [rewrite <- (X i j Hi Hj)|rewrite <- (Y i j Hi Hj)]; apply mmdot_ext; auto using meq_refl. }
  set (y := fun i => x i - u0 (nth i s O) / tau).
  assert (Ey : veq n y (sub_v x (pick s mu))).
  { intros i Hi. unfold y, sub_v, pick. now rewrite <- (R1 (nth i s O) (K i Hi)). }
  assert (Ez : innerv n y (fun i => chol_solve n L y i * x n) = x n * bilinear n Q (sub_v x (pick s mu)) (sub_v x (pick s mu))).
  { assert (V : veq n (chol_solve n L y) (mvdot n Q y)).
    { apply (solve_unique n S' _ _ _ IS'). intros i Hi. change (mvdot n S' (cho_solve n L y) i = mvdot n S' (mvdot n Q y) i).
      rewrite (cho_factor_solve n S' L y (proj1 PS') EL i Hi), (mvdot_assoc n S' _ y i Hi).
      rewrite (mvdot_ext n _ identity y y (proj1 IS') (veq_refl n y) i Hi). symmetry. apply mvdot_id; exact Hi. }
    rewrite <- (bilinear_ext n Q Q y y _ _ (meq_refl n Q) Ey Ey), bilinear_mv.
    rewrite <- (innerv_ext n y y _ _ (veq_refl n y) V). unfold innerv. rewrite <- rsum_scal. apply rsum_ext. intros; ring. }
  assert (PQ : posdef n Q) by exact (posdef_inverse n S _ PS IQ).
  destruct (posdef_chol n Q PQ) as [UQ EQ]. destruct (chol_logdet_ok n Q UQ (proj1 PQ) EQ) as [HdQ _].
  rewrite (proj2 (ln_normal_gamma lg Gam n (pick s mu) Q a b x (x n) HG Ha HdQ Hx)).
  assert (Hdd := @inverse_det n S Q IQ).
  assert (Hdl : ln (mdet n S) + ln (mdet n Q) = 0) by (rewrite <- ln_mult, Hdd, ln_1; auto).
  unfold gaussian_logpdf, gamma_logpdf. rewrite Ez, Hl. lra.
Qed.
End Marginals.

(** get_marginal_logpdf(gamma=True): the log-density of the gamma variable. *)
Theorem C60_gamma_partial : forall lg psi Gam np_inv D phi u g mu Lambda Cov a b,
  is_log_of lg Gam -> exact_inverse np_inv -> gg_moments lg psi D phi = Ok (u, g) ->
  has_parameters D phi mu Lambda Cov a b ->
  exists f, marginal_body lg np_inv D u phi None true = Ok (OfNumber f) /\
    forall tau, f tau = ln (gamma_pdf Gam a b tau).
Proof. intros. eapply gamma_marginal; eassumption. Qed.
Print Assumptions C60_gamma_partial.

(** get_marginal_logpdf(gaussian=inds) for distinct indices: the log-density of the
    Student-t distribution with 2 a degrees of freedom, the selected elements of mu
    and the selected rows and columns of (b / a) Cov. *)
Theorem C60_student_partial : forall lg psi Gam np_inv D phi u g mu Lambda Cov a b inds s Q,
  is_log_of lg Gam -> exact_inverse np_inv -> gg_moments lg psi D phi = Ok (u, g) ->
  has_parameters D phi mu Lambda Cov a b ->
  inds <> [] -> Forall2 (index_of D) inds s -> NoDup s -> is_inverse (length s) (pick_m s Cov) Q ->
  exists f, marginal_body lg np_inv D u phi (Some inds) false = Ok (OfVector (length s) f) /\
    forall x, f x = ln (student_pdf Gam (length s) (pick s mu) (scal_m (b / a) (pick_m s Cov))
                          (scal_m (a / b) Q) (2 * a) x).
Proof. intros. eapply student_marginal; eassumption. Qed.
Print Assumptions C60_student_partial.

(** get_marginal_logpdf(gaussian=inds, gamma=True): the joint log-density, but for the
    log-determinant of the covariance of the selected elements... *)
Theorem C60_joint_partial : forall lg psi Gam np_inv D phi u g mu Lambda Cov a b inds s Q,
  is_log_of lg Gam -> exact_inverse np_inv -> gg_moments lg psi D phi = Ok (u, g) ->
  has_parameters D phi mu Lambda Cov a b ->
  inds <> [] -> Forall2 (index_of D) inds s -> NoDup s -> is_inverse (length s) (pick_m s Cov) Q ->
  exists f, marginal_body lg np_inv D u phi (Some inds) true = Ok (OfVector (length s + 1) f) /\
    forall x, 0 < x (length s) ->
      f x = ln (normal_gamma_pdf Gam (length s) (pick s mu) Q a b x (x (length s)))
            + ln (mdet (length s) (pick_m s Cov)).
Proof. intros. eapply joint_marginal; eassumption. Qed.
Print Assumptions C60_joint_partial.
(** ...so that it is wrong whenever that determinant is not one. *)
Theorem C60_joint_refuted : forall lg psi Gam np_inv D phi u g mu Lambda Cov a b inds s Q,
  is_log_of lg Gam -> exact_inverse np_inv -> gg_moments lg psi D phi = Ok (u, g) ->
  has_parameters D phi mu Lambda Cov a b ->
  inds <> [] -> Forall2 (index_of D) inds s -> NoDup s -> is_inverse (length s) (pick_m s Cov) Q ->
  mdet (length s) (pick_m s Cov) <> 1 ->
  exists f, marginal_body lg np_inv D u phi (Some inds) true = Ok (OfVector (length s + 1) f) /\
    forall x, 0 < x (length s) ->
      f x <> ln (normal_gamma_pdf Gam (length s) (pick s mu) Q a b x (x (length s))).
Proof.
  intros lg psi Gam np_inv D phi u g mu Lambda Cov a b inds s Q HG HI HM HP HN HS ND IQ Hd.
  destruct (joint_marginal lg psi Gam np_inv D phi u g a b mu Lambda Cov HG HI HM HP inds s HS ND Q IQ) as (f & E & F).
  exists f. split; [exact E|]. intros x Hx C. rewrite (F x Hx) in C.
  assert (PS : posdef (length s) (pick_m s Cov)) by (eapply sub_posdef; eassumption).
  destruct (posdef_chol _ _ PS) as [U EU]. destruct (chol_logdet_ok _ _ U (proj1 PS) EU) as [Hp _].
  apply Hd. apply ln_inv; [exact Hp|lra|]. rewrite ln_1. lra.
Qed.
Print Assumptions C60_joint_refuted.

(** The other arguments: nothing selected, an index out of range. *)
Theorem C60_arguments_partial : forall lg psi np_inv D phi u g mu Lambda Cov a b,
  exact_inverse np_inv -> gg_moments lg psi D phi = Ok (u, g) -> has_parameters D phi mu Lambda Cov a b ->
  marginal_body lg np_inv D u phi None false = Err ValueError /\
  (forall inds gamma, (exists k, In k inds /\ forall i, ~ index_of D k i) ->
     marginal_body lg np_inv D u phi (Some inds) gamma = Err IndexError).
Proof.
  intros lg psi np_inv D phi u g mu Lambda Cov a b HI HM HP.
  assert (X : exists W, np_inv D (scal_m (-2) (let '(_, p, _, _) := phi in p)) = Ok W /\ meq D W Cov) by (eapply np_cov; eassumption).
  destruct X as (W & EW & MW).
  destruct phi as [[[phi0 phi1] phi2] phi3]. destruct u as [[[u0 u1] tau] u3].
  destruct (recover _ _ _ _ _ _ _ _ _ _ _ _ _ _ _ _ _ HM HP) as (R1 & R2 & R3 & R4 & _).
  split; [reflexivity|]. intros inds gamma (k & Hk & N). unfold marginal_body. cbn [andb]. rewrite EW. cbn [bind].
  rewrite allclose_m_ok by (apply (meq_trans D W Cov); [exact MW|now apply meq_sym]). cbn [negb].
  assert (E : mapM (np_index D) inds = Err IndexError).
  { clear - Hk N. induction inds as [|l inds IH]; [destruct Hk|]. cbn [mapM].
    destruct (np_index D l) as [i|e] eqn:E.
    - destruct Hk as [->|Hk]; [rewrite (index_error D k N) in E; discriminate|]. cbn [bind]. now rewrite (IH Hk).
    - cbn [bind]. f_equal. unfold np_index in E. destruct (_ && _)%bool; [discriminate|]. destruct (_ && _)%bool; congruence. }
  destruct gamma; rewrite E; reflexivity.
Qed.
Print Assumptions C60_arguments_partial.

(** ** A case that meets the hypotheses *)

(** Two elements with mean (1, -1), covariance (2, 0; 0, 3), a = 2, b = 5; the second
    element, counted from the end. *)
Definition ex_Lambda : mat := diag (fun i => match i with O => / 2 | _ => / 3 end).
Definition ex_Cov : mat := diag (fun i => match i with O => 2 | _ => 3 end).
Definition ex_mean : vec := fun i => match i with O => 1 | _ => -1 end.
Definition ex_phi : vec * mat * R * R :=
  (mvdot 2 ex_Lambda ex_mean, scal_m (-0.5) ex_Lambda, - 5 - bilinear 2 ex_Lambda ex_mean ex_mean / 2, 2).
Example C60_ex : forall lg psi,
  has_parameters 2 ex_phi ex_mean ex_Lambda ex_Cov 2 5 /\
  (exists u g, gg_moments lg psi 2 ex_phi = Ok (u, g)) /\
  Forall2 (index_of 2) [(-1)%Z] [1%nat] /\ NoDup [1%nat] /\
  is_inverse 1 (pick_m [1%nat] ex_Cov) (fun _ _ => / 3) /\ mdet 1 (pick_m [1%nat] ex_Cov) <> 1.
Proof.
  intros lg psi.
  assert (PL : posdef 2 ex_Lambda).
  { split.
    - intros i j Hi Hj. destruct i as [|[|i]]; destruct j as [|[|j]]; try lia; reflexivity.
    - intros x (i & Hi & Hx). unfold bilinear, ex_Lambda, diag. cbn [rsum Nat.eqb].
      assert (x O <> 0 \/ x 1%nat <> 0) as H by (destruct i as [|[|i]]; [auto|auto|lia]).
      assert (0 < x O * x O \/ 0 < x 1%nat * x 1%nat) by (destruct H as [H|H]; [left|right]; apply Rsqr_pos_lt; exact H).
      pose proof (Rle_0_sqr (x O)) as Q0. pose proof (Rle_0_sqr (x 1%nat)) as Q1. unfold Rsqr in *. lra. }
  assert (IL : is_inverse 2 ex_Lambda ex_Cov).
  { split; intros i j Hi Hj; destruct i as [|[|i]]; destruct j as [|[|j]]; try lia; unfold mmdot, ex_Lambda, ex_Cov, diag, identity; cbn [rsum Nat.eqb]; lra. }
  split; [|split; [|split; [|split; [|split]]]].
  - unfold has_parameters, ex_phi. repeat split; try (intros ? ?; reflexivity); try lra; try apply PL; apply IL.
  - destruct (C44_gaussian_gamma_moments lg psi 2 (mvdot 2 ex_Lambda ex_mean) (scal_m (-0.5) ex_Lambda)
      (- 5 - bilinear 2 ex_Lambda ex_mean ex_mean / 2) 2) as [_ H].
    { apply symmetric_scal, PL. }
    assert (EM : meq 2 (scal_m (-2) (scal_m (-0.5) ex_Lambda)) ex_Lambda) by (intros i j Hi Hj; unfold scal_m; lra).
    apply (H ex_mean).
    + apply (posdef_ext 2 ex_Lambda); [now apply meq_sym|exact PL].
    + apply mvdot_ext; [exact EM|apply veq_refl].
    + rewrite (bilinear_ext 2 _ ex_Lambda _ _ _ _ EM (veq_refl 2 _) (veq_refl 2 _)). lra.
  - constructor; [|constructor]. split; [lia|right; reflexivity].
  - constructor; [intros []|constructor].
  - split; intros i j Hi Hj; assert (i = O) as -> by lia; assert (j = O) as -> by lia; unfold mmdot, pick_m, ex_Cov, diag, identity; cbn [rsum nth Nat.eqb]; lra.
  - intros E.
    assert (T : triangular 1 (pick_m [1%nat] ex_Cov)).
    { constructor; [intros i j Hi Hj; lia|intros i Hi; assert (i = O) as -> by lia; unfold pick_m, ex_Cov, diag; cbn; lra]. }
    rewrite (mdet_tri 1 _ T) in E. unfold pick_m, ex_Cov, diag in E. cbn in E. lra.
Qed.
