(** C58: rotating a GaussianARD node together with its plates. *)
From Coq Require Import List Arith Lia Bool Reals Lra.
From Verif Require Import Base NumPy TensorLemmas Families FamiliesLemmas FamiliesLemmas2 Linalg MatBridge SpecLinalg LinalgLemmas Gaussian SpecGaussian GaussLemmas GaussAlg DetGrad DetCurve
  PGaussian2 BlockBanded GaussMarkov SpecGaussMarkov RotateARD SpecRotateARD RotateGrad5 RotateChain SpecRotateChain RotateChainLemmas PRotateChain BlockDet
  PlateRotate SpecPlateRotate PlateRotLemmas PlateRotLemmas2 PlateRotLemmas3 PlateRotGrad PlateRotGrad2.
Import ListNotations.
Open Scope R_scope.

(** ** The objective *)
(** After X.rotate(R), X.rotate_plates(Q) and the update of alpha, the terms of X and of alpha
    in the lower bound are those of the objective, up to constants that do not depend on R and
    Q. *)
Theorem C58_objective : forall lg psi m, plates_fit m -> exists cx ca, forall Rm inv Q,
  is_inverse (pn_M (pm_nodes m)) Rm inv -> sums_nonzero (pn_P (pm_nodes m)) Q ->
  let logdet := ln (Rabs (mdet (pn_M (pm_nodes m)) Rm)) in
  exists x, (forall p, (p < pn_P (pm_nodes m))%nat -> plate_rotated m Rm inv Q logdet p = Ok (x p)) /\
    terms_after lg psi m x = (fst (plate_terms (pm_nodes m) Rm Q logdet) + cx, snd (plate_terms (pm_nodes m) Rm Q logdet) + ca).
Proof.
  intros lg psi m OK. set (n := pm_nodes m). set (P := pn_P n). set (M := pn_M n).
  assert (EX : forall Rm inv Q, is_inverse M Rm inv -> sums_nonzero P Q ->
    exists x, forall p, (p < P)%nat -> plate_rotated m Rm inv Q (ln (Rabs (mdet M Rm))) p = Ok (x p)).
  { intros Rm inv Q I NZ.
    exists (fun p => match plate_rotated m Rm inv Q (ln (Rabs (mdet M Rm))) p with Ok v => v | Err _ => (((fun _ => 0), (fun _ _ => 0)), ((fun _ => 0), (fun _ _ => 0)), 0) end).
    intros p Hp. destruct (plate_rotated_ok m Rm inv Q p I (pf_X m OK) Hp (NZ p Hp)) as (u & phi & g & E & _). fold n M in E. now rewrite E. }
  destruct (pn_gamma n) as [g|] eqn:EG.
  - eexists. eexists. intros Rm inv Q I NZ. destruct (EX Rm inv Q I NZ) as [x Hx]. exists x. split; [exact Hx|].
    exact (objective_gamma lg psi m OK g EG Rm inv Q x I NZ Hx).
  - eexists. eexists. intros Rm inv Q I NZ. destruct (EX Rm inv Q I NZ) as [x Hx]. exists x. split; [exact Hx|].
    exact (objective_fixed lg psi m OK EG Rm inv Q x I NZ Hx).
Qed.
Print Assumptions C58_objective.

(** When a column of Q sums to zero, the rotation of the plates fails. *)
Theorem C58_singular : forall m Rm inv Q logdet p, rsum (pn_P (pm_nodes m)) (fun i => Q i p) = 0 -> plate_rotated m Rm inv Q logdet p = Err PyException.
Proof. intros m Rm inv Q logdet p Z. unfold plate_rotated, rotate_plates. cbv zeta. destruct (Req_EM_T _ 0) as [_|N]; [reflexivity|contradiction]. Qed.
Print Assumptions C58_singular.

(** ** The gradients *)
Lemma entry_same : forall A i j, set_entry A i j (A i j) = A.
Proof.
  intros A i j. apply FunctionalExtensionality.functional_extensionality. intros k. apply FunctionalExtensionality.functional_extensionality. intros l.
  unfold set_entry. destruct (Nat.eqb_spec k i) as [->|]; [|reflexivity]. destruct (Nat.eqb_spec l j) as [->|]; reflexivity.
Qed.
Lemma const_tangent : forall N A t, tangent N (fun _ => A) t (fun _ _ => 0).
Proof. intros N A t i j _ _. exact (d_const (A i j) t). Qed.
Lemma pair_sum_zero : forall N c, pair_sum N c (fun _ _ => 0) = 0.
Proof.
  intros N c. unfold pair_sum. rewrite (rsum_ext N _ (fun _ => 0 * 0)); [rewrite rsum_scal; ring|]. intros i Hi.
  rewrite (rsum_ext N _ (fun _ => 0 * 0)) by (intros; ring). rewrite rsum_scal. ring.
Qed.
Lemma slope_ready : forall m, plates_fit m ->
  (forall p, (p < pn_P (pm_nodes m))%nat -> symmetric (pn_M (pm_nodes m)) (pl_CovX (pm_nodes m) p)) /\
  (forall g, pn_gamma (pm_nodes m) = Some g -> forall Rm Q c d, (c < rows (pm_nodes m))%nat -> (d < PlateRotate.cols (pm_nodes m))%nat -> 0 < pl_b (pm_nodes m) g Rm Q c d).
Proof.
  intros m OK. split.
  - intros p Hp. exact (proj1 (cov_posdef m OK p Hp)).
  - intros g Eg Rm Q c d Hc Hd. exact (b_pos m OK Rm Q g c d Eg Hc Hd).
Qed.
Theorem C58_gradient : forall m, plates_fit m -> one_prior (pm_nodes m) -> forall Rm inv Q,
  is_inverse (pn_M (pm_nodes m)) Rm inv -> sums_nonzero (pn_P (pm_nodes m)) Q ->
  let n := pm_nodes m in
  let logdet := fun A => ln (Rabs (mdet (pn_M n) A)) in
  exists gR gQ, plate_bound n Rm inv Q (logdet Rm) = Ok (plate_objective n Rm Q (logdet Rm), gR, gQ) /\
    (forall i j, (i < pn_M n)%nat -> (j < pn_M n)%nat ->
       derivable_pt_lim (fun t => plate_objective n (set_entry Rm i j t) Q (logdet (set_entry Rm i j t))) (Rm i j) (gR i j)) /\
    (forall i j, (i < pn_P n)%nat -> (j < pn_P n)%nat ->
       derivable_pt_lim (fun t => plate_objective n Rm (set_entry Q i j t) (logdet Rm)) (Q i j) (gQ i j)).
Proof.
  intros m OK OP Rm inv Q I NZ n logdet. set (P := pn_P n) in *. set (M := pn_M n) in *. destruct (slope_ready m OK) as [Sy BP]. fold n in Sy, BP.
  destruct (curve_slope_plates n (fun _ => Rm) (fun _ => Q) 0 (fun _ _ => 0) (fun _ _ => 0) (fun _ => logdet Rm) 0 inv
     (const_tangent M Rm 0) (const_tangent P Q 0) (d_const (logdet Rm) 0) (eq_sym (pair_sum_zero M _)) Sy NZ BP OP) as (gR & gQ & E1 & E2 & _).
  exists gR, gQ. split; [unfold plate_bound, plate_objective; rewrite E1, E2; now destruct (plate_terms n Rm Q (logdet Rm))|]. split; intros i j Hi Hj.
  - pose proof (@entry_tangent M Rm i j) as T. change (mupd Rm i j) with (set_entry Rm i j) in T.
    assert (DL : derivable_pt_lim (fun t => logdet (set_entry Rm i j t)) (Rm i j) (inv j i)).
    { apply (@logdet_derive M Rm inv i j Hi Hj I). intro Z. pose proof (inverse_det I) as X. change (mdet M Rm * mdet M inv = 1) in X. rewrite Z in X. lra. }
    destruct (curve_slope_plates n (set_entry Rm i j) (fun _ => Q) (Rm i j) _ (fun _ _ => 0) (fun t => logdet (set_entry Rm i j t)) (inv j i) inv
      T (const_tangent P Q (Rm i j)) DL (eq_sym (@pair_sum_unit M (transpose inv) i j Hi Hj)) Sy NZ BP OP) as (gR' & gQ' & F1 & F2 & F3).
    rewrite entry_same in F1, F2. rewrite E1 in F1. injection F1 as <-. fold M P in F3. rewrite pair_sum_zero, Rplus_0_r, (@pair_sum_unit M gR i j Hi Hj) in F3. exact F3.
  - pose proof (@entry_tangent P Q i j) as T. change (mupd Q i j) with (set_entry Q i j) in T.
    assert (NZ' : sums_nonzero P (set_entry Q i j (Q i j))) by (rewrite entry_same; exact NZ).
    destruct (curve_slope_plates n (fun _ => Rm) (set_entry Q i j) (Q i j) (fun _ _ => 0) _ (fun _ => logdet Rm) 0 inv
      (const_tangent M Rm (Q i j)) T (d_const (logdet Rm) (Q i j)) (eq_sym (pair_sum_zero M _)) Sy NZ' BP OP) as (gR' & gQ' & F1 & F2 & F3).
    rewrite entry_same in F1, F2. rewrite E2 in F2. injection F2 as <-. fold M P in F3. rewrite pair_sum_zero, Rplus_0_l, (@pair_sum_unit P gQ i j Hi Hj) in F3. exact F3.
Qed.
Print Assumptions C58_gradient.

(** ** The rotation of a chain and of its dynamics *)
Lemma block_logdet : forall D M Rm inv, (D <= M)%nat -> is_inverse D Rm inv ->
  ln (Rabs (mdet M (block_diag D (transpose inv)))) = - ln (Rabs (mdet D Rm)).
Proof.
  intros D M Rm inv HM I. assert (E : mdet M (block_diag D (transpose inv)) = mdet D inv).
  { rewrite <- (mdet_tr D inv). pose proof (@block_diag_det D (M - D) (transpose inv)) as H. change (ssrnat.addn D (M - D)) with (D + (M - D))%nat in H. now replace (D + (M - D))%nat with M in H by lia. }
  rewrite E. pose proof (inverse_det I) as X. assert (N : mdet D Rm <> 0) by (intro Z; rewrite Z in X; lra).
  replace (mdet D inv) with (/ mdet D Rm) by (apply (Rmult_eq_reg_l (mdet D Rm)); [rewrite X; field; exact N|exact N]).
  rewrite Rabs_inv. apply ln_Rinv. now apply Rabs_pos_lt.
Qed.
Lemma block_inv_tr : forall D M Rm inv, (D <= M)%nat -> is_inverse D Rm inv -> is_inverse M (block_diag D (transpose inv)) (block_diag D (transpose Rm)).
Proof. intros D M Rm inv HM [I1 I2]. apply block_inverse; [exact HM|]. split; intros i j Hi Hj; unfold mmdot, transpose.
  - rewrite (rsum_ext D _ (fun k => Rm j k * inv k i)) by (intros; ring). pose proof (I1 j i Hj Hi) as E. unfold mmdot in E. rewrite E. unfold identity. now rewrite Nat.eqb_sym.
  - rewrite (rsum_ext D _ (fun k => inv j k * Rm k i)) by (intros; ring). pose proof (I2 j i Hj Hi) as E. unfold mmdot in E. rewrite E. unfold identity. now rewrite Nat.eqb_sym.
Qed.

(** The terms of X, of its dynamics A (the same for all times) and of the precisions of A after
    the rotation are the objective of the rotator of the chain, up to a constant. *)
Theorem C58_markov_objective : forall lg psi N D K u phi g u_mL m u_in, (1 <= N)%nat -> (D <= width D K u_in)%nat ->
  (let '(_, _, Lambda, _) := u_mL in symmetric D Lambda) ->
  plates_fit m -> one_prior (pm_nodes m) -> pn_P (pm_nodes m) = D -> pn_M (pm_nodes m) = width D K u_in ->
  exists c, forall Rm inv, is_inverse D Rm inv -> sums_nonzero D Rm ->
    let logdet := ln (Rabs (mdet D Rm)) in
    exists x, (forall d, (d < D)%nat -> plate_rotated m (block_diag D (transpose inv)) (block_diag D (transpose Rm)) Rm (- logdet) d = Ok (x d)) /\
    let '(u', phi', dg) := gmc_rotate N D u phi Rm inv logdet in
    exists t v gr, chain_term N D K u_mL (unit_noise D (fun _ d => fst (fst (x d)))) u_in u' phi' (g + dg) = Ok t /\
      markov_bound N D (chain_setup N D K u u_mL (fun _ d => pn_u (pm_nodes m) d) u_in) (pm_nodes m) Rm inv logdet = Ok (v, gr) /\
      t + (fst (terms_after lg psi m x) + snd (terms_after lg psi m x)) = v + c.
Proof.
  intros lg psi N D K u phi g u_mL m u_in HN HW SL OK OP EP EM.
  assert (SA : forall d, (d < D)%nat -> symmetric (width D K u_in) (snd (pn_u (pm_nodes m) d))).
  { intros d Hd i j Hi Hj. rewrite <- EP in Hd. rewrite <- EM in Hi, Hj. pose proof (proj1 (cov_posdef m OK d Hd) i j Hi Hj) as S. unfold pl_CovX, sub_m, outerv in S. lra. }
  destruct (C57_objective N D K u phi g u_mL (fun _ d => pn_u (pm_nodes m) d) u_in HN SL (fun n d _ Hd => SA d Hd)) as [c1 H1].
  destruct (C58_objective lg psi m OK) as (cx & ca & H2). rewrite EP, EM in H2.
  exists (c1 + (cx + ca)). intros Rm inv I NZ logdet.
  destruct (H2 _ _ Rm (block_inv_tr D _ Rm inv HW I) NZ) as (x & X1 & X2). rewrite (block_logdet D _ Rm inv HW I) in X1, X2. fold logdet in X1, X2.
  exists x. split; [exact X1|].
  assert (RR : forall n d, (n < N - 1)%nat -> (d < D)%nat -> row_rotated D (width D K u_in) Rm inv (fun d => pn_u (pm_nodes m) d) d (fst (fst (x d)))).
  { intros n d _ Hd. destruct (dynamics_ok D (width D K u_in) Rm inv (fun d => pn_u (pm_nodes m) d) (pm_phi m) d HW Hd I) as (y & gy & Y1 & Y2).
    - intros k Hk. rewrite <- EM. rewrite <- EP in Hk. destruct (pf_X m OK k Hk) as [S E]. split; [exact S|]. now exists (pm_g m k).
    - exact (NZ d Hd).
    - pose proof (X1 d Hd) as X. unfold plate_rotated in X. rewrite EP, EM in X. unfold rotate_dynamics in Y1.
      change (rotate_plates D (width D K u_in) Rm (fun k => fst (fst (ard_rotate (width D K u_in) (block_diag D (transpose inv)) (block_diag D (transpose Rm)) (- logdet) (pn_u (pm_nodes m) k) (pm_phi m k) (pm_g m k))))
        (fun k => snd (fst (ard_rotate (width D K u_in) (block_diag D (transpose inv)) (block_diag D (transpose Rm)) (- logdet) (pn_u (pm_nodes m) k) (pm_phi m k) (pm_g m k)))) d = Ok (y, gy)) in Y1.
      rewrite Y1 in X. cbn [bind] in X. injection X as X. now rewrite <- X. }
  pose proof (H1 Rm inv (fun _ d => fst (fst (x d))) I RR) as C. cbv zeta in C. fold logdet in C.
  destruct (gmc_rotate N D u phi Rm inv logdet) as [[u' phi'] dg].
  destruct (C58_gradient m OK OP (block_diag D (transpose inv)) (block_diag D (transpose Rm)) Rm) as (gR & gQ & B & _).
  { rewrite EM. exact (block_inv_tr D _ Rm inv HW I). }
  { rewrite EP. exact NZ. }
  rewrite EM, (block_logdet D _ Rm inv HW I) in B. fold logdet in B.
  eexists. eexists. eexists. split; [exact C|]. split; [unfold markov_bound; rewrite B; cbn [bind]; reflexivity|].
  rewrite X2. cbn [fst snd]. unfold plate_objective. destruct (plate_terms (pm_nodes m) (block_diag D (transpose inv)) Rm (- logdet)) as [p1 p2]. cbn [fst snd]. ring.
Qed.
Print Assumptions C58_markov_objective.

(** The gradient of that rotator is the derivative of its objective, where the inverse of R is
    a function of R. *)
Definition markov_objective (N D : nat) (s : chain_stats) (A : plate_nodes) (Rm inv : mat) : R :=
  chain_bound N D s Rm (ln (Rabs (mdet D Rm))) + plate_objective A (block_diag D (transpose inv)) Rm (- ln (Rabs (mdet D Rm))).
Lemma block_diag_ext : forall D A B, meq D A B -> block_diag D (transpose A) = block_diag D (transpose B).
Proof.
  intros D A B H. apply FunctionalExtensionality.functional_extensionality. intros i. apply FunctionalExtensionality.functional_extensionality. intros j.
  unfold block_diag, transpose. destruct (Nat.ltb_spec i D), (Nat.ltb_spec j D); try reflexivity. now apply H.
Qed.
Lemma rsum_upto : forall D M f, (D <= M)%nat -> rsum M (fun a => if (a <? D)%nat then f a else 0) = rsum D f.
Proof.
  intros D M f HM. replace M with (D + (M - D))%nat by lia. rewrite rsum_app, (rsum_ext D _ f), (rsum_ext (M - D) _ (fun _ => 0 * 0)).
  - rewrite rsum_scal. ring.
  - intros k Hk. destruct (Nat.ltb_spec (D + k) D); [lia|ring].
  - intros k Hk. destruct (Nat.ltb_spec k D); [reflexivity|lia].
Qed.
Theorem C58_markov_gradient : forall N D K u u_mL m u_in, (1 <= N)%nat -> (D <= width D K u_in)%nat ->
  (let '(_, u1, _) := u in forall n, (n < N)%nat -> symmetric D (u1 n)) ->
  (let '(_, _, Lambda, _) := u_mL in symmetric D Lambda) ->
  (forall n, (n < N - 1)%nat -> match u_in with Some (_, zz) => symmetric K (zz n) | None => True end) ->
  plates_fit m -> one_prior (pm_nodes m) -> pn_P (pm_nodes m) = D -> pn_M (pm_nodes m) = width D K u_in ->
  let s := chain_setup N D K u u_mL (fun _ d => pn_u (pm_nodes m) d) u_in in
  forall Rm inv, is_inverse D Rm inv -> sums_nonzero D Rm ->
  exists gr, markov_bound N D s (pm_nodes m) Rm inv (ln (Rabs (mdet D Rm))) = Ok (markov_objective N D s (pm_nodes m) Rm inv, gr) /\
  forall i j inverse, (i < D)%nat -> (j < D)%nat ->
    (forall t, mdet D (set_entry Rm i j t) <> 0 -> is_inverse D (set_entry Rm i j t) (inverse t)) ->
    derivable_pt_lim (fun t => markov_objective N D s (pm_nodes m) (set_entry Rm i j t) (inverse t)) (Rm i j) (gr i j).
Proof.
  intros N D K u u_mL m u_in HN HW S1 SL Sz OK OP EP EM s Rm inv I NZ.
  set (n := pm_nodes m) in *. set (M := width D K u_in) in *.
  destruct (C58_gradient m OK OP (block_diag D (transpose inv)) (block_diag D (transpose Rm)) Rm) as (gR & gQ & B & _).
  { fold n. rewrite EM. exact (block_inv_tr D _ Rm inv HW I). }
  { fold n. rewrite EP. exact NZ. }
  fold n in B. cbv zeta in B. fold n in B. rewrite EM, (block_logdet D _ Rm inv HW I) in B.
  eexists. split; [unfold markov_bound; rewrite B; cbn [bind]; reflexivity|].
  assert (E12 : plate_gradient_R n (block_diag D (transpose inv)) (block_diag D (transpose Rm)) Rm = Ok gR /\ plate_gradient_Q n (block_diag D (transpose inv)) Rm = Ok gQ).
  { unfold plate_bound in B. destruct (plate_terms _ _ _ _) as [p1 p2]. destruct (plate_gradient_R _ _ _ _) as [r|]; [|discriminate]. cbn [bind] in B.
    destruct (plate_gradient_Q _ _ _) as [q|]; [|discriminate]. cbn [bind] in B. injection B as _ -> ->. split; reflexivity. }
  destruct E12 as [E1 E2]. clear B.
  intros i j inverse Hi Hj HI. destruct (slope_ready m OK) as [Sy BP]. fold n in Sy, BP.
  set (ld := fun t => - ln (Rabs (mdet D (set_entry Rm i j t)))).
  set (Rt := fun t => block_diag D (transpose (sm_inv Rm inv i j t))).
  set (dB := fun a b => if (a <? D)%nat then if (b <? D)%nat then - (inv b i * inv j a) else 0 else 0).
  assert (TB : tangent M Rt (Rm i j) dB).
  { intros a b Ha Hb. unfold Rt, block_diag, dB, transpose. destruct (Nat.ltb_spec a D), (Nat.ltb_spec b D).
    - exact (sm_derive Rm inv i j b a).
    - exact (d_const 0 (Rm i j)).
    - exact (d_const 0 (Rm i j)).
    - exact (d_const (if (a =? b)%nat then 1 else 0) (Rm i j)). }
  assert (R0 : Rt (Rm i j) = block_diag D (transpose inv)).
  { unfold Rt. apply block_diag_ext. intros a b _ _. unfold sm_inv. replace (Rm i j - Rm i j) with 0 by ring. field. }
  pose proof (@entry_tangent D Rm i j) as TQ. change (mupd Rm i j) with (set_entry Rm i j) in TQ.
  assert (ND : mdet D Rm <> 0) by (intro Z; pose proof (inverse_det I) as X; rewrite Z in X; lra).
  assert (DL : derivable_pt_lim ld (Rm i j) (- inv j i)) by (apply d_opp; exact (@logdet_derive D Rm inv i j Hi Hj I ND)).
  assert (PB : forall c, pair_sum M c dB = - rsum D (fun a => rsum D (fun b => c a b * (inv b i * inv j a)))).
  { intros c. unfold pair_sum. rewrite (rsum_ext M _ (fun a => if (a <? D)%nat then rsum D (fun b => - (c a b * (inv b i * inv j a))) else 0)).
    - rewrite (rsum_upto D M _ HW). rewrite <- rsum_opp. apply rsum_ext. intros a Ha. apply rsum_opp.
    - intros a Ha. unfold dB. destruct (a <? D)%nat.
      + rewrite <- (rsum_upto D M _ HW). apply rsum_ext. intros b Hb. destruct (b <? D)%nat; ring.
      + rewrite (rsum_ext M _ (fun _ => 0 * 0)) by (intros; ring). rewrite rsum_scal. ring. }
  assert (EL : - inv j i = pair_sum M (transpose (block_diag D (transpose Rm))) dB).
  { rewrite PB. f_equal. rewrite (rsum_ext D _ (fun a => inv j a * (if (a =? i)%nat then 1 else 0))).
    - rewrite (rsum_ext D _ (fun a => if (a =? i)%nat then inv j a else 0)) by (intros a Ha; destruct (a =? i)%nat; ring). now rewrite (rsum_single D i (fun a => inv j a) Hi).
    - intros a Ha. destruct I as [I1 _]. pose proof (I1 a i Ha Hi) as E. unfold mmdot, identity in E. rewrite <- E, <- rsum_scal. apply rsum_ext. intros b Hb.
      unfold transpose, block_diag. destruct (Nat.ltb_spec a D); [|lia]. destruct (Nat.ltb_spec b D); [|lia]. ring. }
  assert (NZ' : sums_nonzero D (set_entry Rm i j (Rm i j))) by (rewrite entry_same; exact NZ).
  pose proof (curve_slope_plates n Rt (set_entry Rm i j) (Rm i j) dB) as CS. rewrite EM, EP in CS.
  destruct (CS _ ld (- inv j i) (block_diag D (transpose Rm)) TB TQ DL EL) as (gR' & gQ' & F1 & F2 & F3); [intros p Hp; rewrite <- EM; apply Sy; now rewrite EP|exact NZ'|exact BP|exact OP|].
  rewrite R0, entry_same in F1. rewrite R0, entry_same in F2. rewrite E1 in F1. injection F1 as <-. rewrite E2 in F2. injection F2 as <-.
  rewrite (@pair_sum_unit D gQ i j Hi Hj), PB in F3.
  pose proof (C57_gradient N D K u u_mL (fun _ d => pn_u n d) u_in HN S1 SL Sz Rm inv i j I Hi Hj) as G. cbv zeta in G. fold s in G.
  apply (dlim_ext_near (fun t => chain_bound N D s (set_entry Rm i j t) (ln (Rabs (mdet D (set_entry Rm i j t)))) + plate_objective n (Rt t) (set_entry Rm i j t) (ld t)) _ (Rm i j) _ (/ (1 + Rabs (inv j i)))).
  - apply Rinv_0_lt_compat. pose proof (Rabs_pos (inv j i)). lra.
  - intros t Ht. unfold markov_objective. f_equal. unfold Rt, ld. f_equal. apply block_diag_ext.
    pose proof (sm_inv_ok D Rm inv i j I Hi Hj t (sm_near Rm inv i j t Ht)) as J. change (mupd Rm i j) with (set_entry Rm i j) in J.
    apply (inverse_unique D (set_entry Rm i j t)); [exact J|]. apply HI. intro Z. pose proof (inverse_det J) as X. rewrite Z in X. lra.
  - eapply dlim_eq; [exact (d_plus _ _ _ _ _ G F3)|]. cbv beta. unfold dot3, mmdot, transpose.
    replace (rsum D (fun k => rsum D (fun k0 => inv k0 i * gR k k0) * inv j k)) with (rsum D (fun a => rsum D (fun b => gR a b * (inv b i * inv j a)))).
    + unfold Rminus. lra.
    + apply rsum_ext. intros a Ha. rewrite <- rsum_scal_r. apply rsum_ext. intros; ring.
Qed.
Print Assumptions C58_markov_gradient.

(** ** Priors of alpha that vary *)
(** X: P plates of vectors of two elements, N(0, I); mu = 0; alpha has one element for each
    element of the vectors, with the prior Gamma(1, b0). *)
Definition ex_phi : vec * mat := ((fun _ => 0), scal_m (-0.5) identity).
Definition ex_model (P : nat) (u : vec * mat) (g : R) (b0 : arr2) : plate_model :=
  PlateModel (PlateNodes P 2 (fun _ => u) (fun _ _ => 0) (fun _ _ => 0) (fun _ _ => 1) false true
                (Some (PlateGamma (fun _ _ => 1 + 0.5 * INR P) (Arr2 false false (fun _ _ => 1)) b0)))
    (fun _ => ex_phi) (fun _ => g) (fun _ _ => 0) (fun _ _ => 0) (fun _ _ => 0).
Lemma ex_posterior : symmetric 2 (snd ex_phi) /\ exists u g, ard_moments 2 ex_phi = Ok (u, g) /\ veq 2 (fst u) (fun _ => 0) /\ meq 2 (snd u) identity.
Proof.
  assert (Sy : symmetric 2 (snd ex_phi)) by (intros i j _ _; unfold ex_phi, scal_m, identity; cbn [snd]; rewrite (Nat.eqb_sym i j); reflexivity).
  split; [exact Sy|]. assert (MI : meq 2 identity (scal_m (-2) (snd ex_phi))) by (intros i j _ _; unfold ex_phi, scal_m; cbn [snd]; lra).
  assert (PD : posdef 2 (scal_m (-2) (snd ex_phi))).
  { apply (posdef_ext 2 identity); [exact MI|]. split; [intros i j _ _; unfold identity; now rewrite Nat.eqb_sym|].
    intros x (i & Hi & Nx). unfold bilinear, identity. cbn [rsum Nat.eqb].
    pose proof (Rle_0_sqr (x O)). pose proof (Rle_0_sqr (x 1%nat)). pose proof (Rsqr_pos_lt _ Nx). unfold Rsqr in *.
    destruct i as [|[|i]]; try lia; lra. }
  destruct (C44_ard_moments 2 ex_phi Sy) as [C1 C2]. destruct (C2 PD) as (u & g & E). exists u, g. split; [exact E|].
  destruct (C1 u g E) as [_ (N1 & [N2 _] & _)].
  assert (V1 : veq 2 (fst u) (fun _ => 0)).
  { intros i Hi. pose proof (N1 i Hi) as Q. unfold mvdot, ex_phi, scal_m, identity in Q. destruct i as [|[|i]]; try lia; cbn [rsum fst snd Nat.eqb] in Q; lra. }
  split; [exact V1|]. intros i j Hi Hj. pose proof (N2 i j Hi Hj) as Q. pose proof (V1 O ltac:(lia)) as Z0. pose proof (V1 1%nat ltac:(lia)) as Z1.
  unfold mmdot, sub_m, outerv, ex_phi, scal_m, identity in Q. unfold identity.
  destruct i as [|[|i]], j as [|[|j]]; try lia; cbn [rsum fst snd Nat.eqb] in Q |- *; rewrite ?Z0, ?Z1 in Q; lra.
Qed.
Lemma ex_fit : forall P u g b0, ard_moments 2 ex_phi = Ok (u, g) -> (forall d, (d < 2)%nat -> 0 < at2 b0 O d) -> plates_fit (ex_model P u g b0).
Proof.
  intros P u g b0 E HB. constructor.
  - intros p _. split; [exact (proj1 ex_posterior)|exact E].
  - intros p k _ _. unfold mean_mu, second_mu. cbn. lra.
  - intros h [= <-] c d Hc Hd. cbn in Hc, Hd. split; [cbn [pg_b0]; replace c with O by lia; now apply HB|].
    cbn [pg_a]. unfold updated_a, users, row_of, col_of. cbn [pg_a0 ex_model pm_nodes pn_pa pn_da pn_P pn_M]. unfold at2. cbn [a2_v].
    f_equal. f_equal. replace c with O by lia. cbn [Nat.eqb andb]. rewrite (rsum_ext P _ (fun _ => 1 * 1)).
    + rewrite rsum_scal, rsum_const. ring.
    + intros p _. destruct d as [|[|d]]; [cbn; ring|cbn; ring|lia].
  - discriminate.
Qed.
Lemma ident_inverse : forall n, is_inverse n identity identity.
Proof. intros n. split; intros i j Hi Hj; now rewrite mmdot_id_r. Qed.
Lemma ident_sums : forall P, sums_nonzero P identity.
Proof.
  intros P p Hp. unfold identity. rewrite (rsum_single P p (fun _ => 1) Hp). lra.
Qed.
(** With one rate for every element of the vectors the gradient cannot be computed for three
    plates, and for two plates it is not the derivative. *)
Theorem C58_prior_refuted :
  (exists m, plates_fit m /\ plate_bound (pm_nodes m) identity identity identity 0 = Err ValueError) /\
  (exists m x gR gQ, plates_fit m /\ is_inverse (pn_M (pm_nodes m)) identity identity /\ sums_nonzero (pn_P (pm_nodes m)) identity /\ pn_P (pm_nodes m) = 2%nat /\
     plate_bound (pm_nodes m) identity identity identity 0 = Ok (x, gR, gQ) /\
     ~ derivable_pt_lim (fun t => plate_objective (pm_nodes m) identity (set_entry identity 0 0 t) 0) 1 (gQ 0%nat 0%nat)).
Proof.
  destruct ex_posterior as (_ & u & g & E & V1 & V2).
  set (b0 := Arr2 false true (fun _ d => if (d =? 0)%nat then 1 else 3)).
  assert (HB : forall d, (d < 2)%nat -> 0 < at2 b0 O d) by (intros [|[|d]] Hd; try lia; cbn; lra).
  split; [exists (ex_model 3 u g b0); split; [exact (ex_fit 3 u g b0 E HB)|reflexivity]|].
  set (m := ex_model 2 u g b0). set (n := pm_nodes m). pose proof (ex_fit 2 u g b0 E HB) as OK. fold m in OK.
  exists m. eexists. eexists. eexists. split; [exact OK|]. split; [apply ident_inverse|]. split; [apply ident_sums|]. split; [reflexivity|]. split; [reflexivity|].
  destruct (slope_ready m OK) as [Sy BP]. fold n in Sy, BP. intros D1.
  pose proof (@entry_tangent 2 identity O O) as T. change (mupd identity O O) with (set_entry identity O O) in T.
  assert (NZ : sums_nonzero 2 (set_entry identity O O (identity O O))) by (rewrite entry_same; apply ident_sums).
  set (gm := PlateGamma (fun _ _ => 1 + 0.5 * INR 2) (Arr2 false false (fun _ _ => 1)) b0).
  pose proof (gamma_objective_slope n (fun _ => identity) (set_entry identity O O) (identity O O) (fun _ _ => 0) _ (fun _ => 0) 0
    (const_tangent 2 identity _) T (d_const 0 _) Sy NZ gm eq_refl (BP gm eq_refl)) as D2.
  pose proof (both_parts n (fun _ => identity) (set_entry identity O O) (identity O O) (fun _ _ => 0) (fun a b => if (Nat.eqb a O && Nat.eqb b O)%bool then 1 else 0) 0 identity (eq_sym (pair_sum_zero 2 _)) Sy) as BPs.
  rewrite BPs in D2. clear BPs. rewrite entry_same in D2. change (pn_M n) with 2%nat in D2. change (pn_P n) with 2%nat in D2.
  rewrite pair_sum_zero, (@pair_sum_unit 2 _ O O ltac:(lia) ltac:(lia)) in D2.
  pose proof (uniqueness_limite _ _ _ _ D1 D2) as U. clear D1 D2.
  assert (PS : forall v, pl_psi n identity identity v O O = v O O + v O 1%nat).
  { intros v. unfold pl_psi, pl_RX, pl_CovX, pl_mu, sumQ, mvdot, sub_m, outerv. cbn [n m ex_model pm_nodes pn_P pn_M pn_u pn_alpha_mu pn_alpha to_row to_col pn_pa pn_da rsum].
    unfold to_row, to_col. cbn [n m ex_model pm_nodes pn_pa pn_da]. rewrite (V1 O) by lia. rewrite (V1 1%nat) by lia. rewrite !V2 by lia. unfold identity. cbn [Nat.eqb]. field. }
  rewrite !PS in U.
  assert (DV : forall d, (d < 2)%nat -> pl_dev n identity identity O d = 2).
  { intros d Hd. rewrite dev_eq by (cbn; lia). unfold el_dev, el_mean, el_var, pl_QX, pl_CovX, pl_mu, pl_mu2, sumQ, sum_rows, sub_m, outerv.
    cbn [n m ex_model pm_nodes pn_P pn_M pn_u pn_alpha_mu pn_alpha_mu2 pn_alpha pn_pa pn_da rsum]. rewrite (V1 O) by lia. rewrite (V1 1%nat) by lia. rewrite !V2 by lia.
    destruct d as [|[|d]]; try lia; unfold identity; cbn [Nat.eqb]; field. }
  unfold pl_alpha, pl_b, sum_cols, repeats, gaussian_logpdf, gaussian_entropy, gamma_logpdf in U.
  cbn [n m ex_model pm_nodes pn_da pn_pa pn_P pn_M gm pg_b0 pg_a0 pg_a b0] in U. fold n m in U.
  change (pm_nodes (ex_model 2 u g b0)) with n in U. rewrite !DV in U by lia. unfold at2, identity in U. cbn [b0 a2_v a2_r a2_c Nat.eqb INR] in U.
  unfold sumQ in U. cbn [pn_P rsum Nat.eqb] in U. set (L := ln (2 * PI)) in U. clearbody L. clear - U.
  replace (1 + 0.5 * 2) with 2 in U by lra. replace (3 + 0.5 * 2) with 4 in U by lra. replace (1 + 0.5 * (1 + 1)) with 2 in U by lra. lra.
Qed.
Print Assumptions C58_prior_refuted.

(** More generally: a prior shape or rate with an axis for the plates needs as many plates as
    elements, one with an axis for the elements as many elements as plates; otherwise the
    gradient raises, whatever the rotation. *)
Theorem C58_prior_axes_refuted : forall n g Rm inv Q l, pn_gamma n = Some g -> pn_P n <> pn_M n ->
  (1 < pn_P n)%nat -> (1 < pn_M n)%nat ->
  a2_r (pg_a0 g) = true \/ a2_c (pg_a0 g) = true \/ a2_c (pg_b0 g) = true ->
  plate_bound n Rm inv Q l = Err ValueError /\
  (a2_r (pg_a0 g) = true -> plate_gradient_R n Rm inv Q = Err ValueError) /\
  (a2_c (pg_a0 g) = true \/ a2_c (pg_b0 g) = true -> plate_gradient_Q n Rm Q = Err ValueError).
Proof.
  intros n g Rm inv Q l E N _ _ H.
  assert (A : a2_r (pg_a0 g) = true -> plate_gradient_R n Rm inv Q = Err ValueError).
  { intros HA. unfold plate_gradient_R. rewrite E. unfold times_prior. rewrite HA. cbn [negb orb].
    destruct (Nat.eqb_spec (pn_P n) (pn_M n)); [contradiction|]. reflexivity. }
  assert (B : a2_c (pg_a0 g) = true \/ a2_c (pg_b0 g) = true -> plate_gradient_Q n Rm Q = Err ValueError).
  { intros HB. unfold plate_gradient_Q. rewrite E. unfold times_prior.
    destruct (Nat.eqb_spec (pn_M n) (pn_P n)) as [X|_]; [congruence|].
    destruct HB as [HB|HB]; rewrite HB; cbn [negb orb]; rewrite ?andb_false_r; [|reflexivity].
    destruct (_ && _)%bool; reflexivity. }
  split; [|split; assumption]. unfold plate_bound. destruct (plate_terms n Rm Q l) as [x a].
  destruct H as [H|H]; [now rewrite (A H)|]. rewrite (B H).
  destruct (plate_gradient_R n Rm inv Q) as [gR|e] eqn:ER; [reflexivity|]. cbn [bind]. f_equal.
  unfold plate_gradient_R in ER. rewrite E in ER. unfold times_prior in ER.
  destruct (_ && _)%bool in ER; cbn [bind] in ER; [discriminate|]. now injection ER.
Qed.
Print Assumptions C58_prior_axes_refuted.

(** ** Examples *)
(** The hypotheses of the theorems hold for two plates and one rate, and a shear. *)
Example ex_C58 : exists u g, let m := ex_model 2 u g (Arr2 false false (fun _ _ => 3)) in
  plates_fit m /\ one_prior (pm_nodes m) /\ is_inverse (pn_M (pm_nodes m)) ex_shear ex_unshear /\ sums_nonzero (pn_P (pm_nodes m)) ex_shear /\
  pn_M (pm_nodes m) = width 2 0 None.
Proof.
  destruct ex_posterior as (_ & u & g & E & _). exists u, g. cbv zeta. split; [apply (ex_fit 2 u g _ E); intros; cbn; lra|].
  split; [intros h [= <-]; repeat split|]. split; [exact ex_shear_inverse|]. split; [|reflexivity].
  intros [|[|p]] Hp; cbn in Hp |- *; unfold ex_shear; cbn; lra || lia.
Qed.
