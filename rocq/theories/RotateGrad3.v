(** The gradient of the rotation object is the derivative of its objective. *)
From Coq Require Import List Arith ZArith Lia Bool Reals Lra FunctionalExtensionality.
From Verif Require Import Base Shapes SpecShapes ShapesLemmas NumPy MiscArray TensorLemmas EinsumLemmas SumMultiplyLemmas SpecArray PlateSumLemmas PlateSum2Lemmas
  PlateSum3Lemmas MessageLemmas ShapeOpsLemmas SpecDot ExpFam ExpFamLemmas ExpFamBound NetworkLemmas DetNetLemmas GateLemmas PArrays PGate DotPart AddNode LinalgLemmas2 ConcatLemmas3 MarkovLemmas
  Families FamiliesLemmas FamiliesLemmas2 Linalg MatBridge SpecLinalg LinalgLemmas Gaussian SpecGaussian GaussLemmas GaussAlg PGaussian PGaussian2 PRotation DiagLemmas DetGrad
  RotateARD SpecRotateARD RotateLemmas RotateLemmas2 RotateLemmas3 RotateLemmas4 RotateGrad RotateGrad2.
Import ListNotations.
Open Scope nat_scope.

Section Objective.
Variable M : rot_model.
Let n := rm_nodes M.
Let P := rn_plates n.
Let D := rn_D n.
Let q := outer_alpha n.
Let PA := plates_alpha n.
Hypothesis OK : rot_ok M.
Hypothesis PR : proper M.
Hypothesis SYM : forall p, valid P p -> forall k l, k < D -> l < D -> x_second M p k l = x_second M p l k.
Variable s : ard_stats.
Hypothesis SO : stats_of M s.
Variables (Rm inv : mat) (i j : nat).
Hypothesis I : is_inverse D Rm inv.
Hypothesis Hi : i < D.
Hypothesis Hj : j < D.
Let Rt t := mupd Rm i j t.
Let x0 := Rm i j.
Let PAQ := pa_ok M OK.
Lemma at_x0 : mupd Rm i j (Rm i j) = Rm.
Proof. apply functional_extensionality. intros a. apply functional_extensionality. intros b. apply mupd_self. Qed.
Let dev0 := deviation M Rm inv 0%R.
Let dE := de M Rm i j.
Lemma d_dev : forall e, valid (P ++ [D]) e -> derivable_pt_lim (fun t => deviation M (Rt t) inv 0%R e) x0 (dE e).
Proof. intros e He. now apply (d_deviation M SYM Rm inv i j Hj). Qed.

Definition objective_value (t : R) : R := objective n s (Rt t).

Lemma derive_fixed : rn_gamma n = None -> derivable_pt_lim objective_value x0
  (-0.5 * total q (fun t => bget (rn_alpha n) (vec_at t i) * W M Rm t i j) + total P (fun _ => inv j i))%R.
Proof.
  intros HN.
  refine (dlim_ext (fun t => -0.5 * total (P ++ [D]) (fun e => bget (rn_alpha n) e * deviation M (Rt t) inv 0 e) + total P (fun _ => ln (Rabs (mdet D (Rt t)))))%R _ _ _ _ _).
  - intros t. unfold objective_value, objective. fold D. unfold n. rewrite (value_fixed M OK s (Rt t) inv (ln (Rabs (mdet D (Rt t)))) HN SO). rewrite Rplus_0_r. reflexivity.
  - eapply dlim_eq; [apply d_plus; [apply d_scal, (d_total (P ++ [D]) (fun e t => bget (rn_alpha n) e * deviation M (Rt t) inv 0 e)%R); intros e He; apply d_scal, d_dev, He|apply (d_entropy M Rm inv i j I Hi Hj)]|].
    f_equal. f_equal. apply (row_sum M OK Rm i j Hi Hj (bget (rn_alpha n))). intros k Hk e x. destruct (ro_shape M OK) as [_ B].
    apply bget_indep. destruct B as [_ B]. change (rm_nodes M) with n in Hk; unfold plates_alpha in Hk. rewrite HN in Hk. fold n in B.
    destruct (B k) as [E|E]; [exact E|]. rewrite E. destruct (rn_shape n); [destruct k; reflexivity|exact Hk].
Qed.

Variable a : gamma_alpha.
Hypothesis HG : rn_gamma n = Some a.
Let gp := ga_plates a.
Let nb := new_b M a Rm inv 0%R.
Let na := bget (ga_phi1 a).
Definition db (c : env) : R := (0.5 * fibre_sum (P ++ [D]) PA c dE)%R.
Lemma d_new_b : forall c, derivable_pt_lim (fun t => new_b M a (Rt t) inv 0%R c) x0 (db c).
Proof.
  intros c. unfold new_b. eapply dlim_eq; [apply d_plus; [apply d_const|apply d_scal, (d_fibre (P ++ [D]) (ga_plates a) c (fun e t => deviation M (Rt t) inv 0%R e)); intros e He; apply d_dev, He]|].
  unfold db. rewrite Rplus_0_l. f_equal. symmetry. apply same_fibre. exact (ga_ax M a HG).
Qed.
Lemma nb_pos : forall c, valid gp c -> (0 < nb c)%R.
Proof. intros c Hc. apply (new_b_pos M PR a HG); exact Hc. Qed.
Lemma d_ln_b : forall c, valid gp c -> derivable_pt_lim (fun t => ln (new_b M a (Rt t) inv 0%R c)) x0 (db c / nb c)%R.
Proof.
  intros c Hc. eapply dlim_eq; [apply (d_comp (fun t => new_b M a (Rt t) inv 0%R c) ln); [apply d_new_b|apply d_ln; unfold Rt, x0; rewrite at_x0; apply nb_pos, Hc]|]. unfold Rt, x0; rewrite at_x0. fold nb. unfold Rdiv. ring.
Qed.
Lemma d_alpha : forall c, valid gp c -> derivable_pt_lim (fun t => na c / new_b M a (Rt t) inv 0%R c)%R x0 (- (na c / nb c / nb c * db c))%R.
Proof.
  intros c Hc. pose proof (nb_pos c Hc) as Pb. unfold Rdiv at 1. eapply dlim_eq; [apply d_scal, d_inv; [unfold Rt, x0; rewrite at_x0; fold nb; lra|apply d_new_b]|]. unfold Rt, x0; rewrite at_x0. fold nb. field. lra.
Qed.
Lemma valid_c : forall e, valid (P ++ [D]) e -> valid gp (clip gp e).
Proof. intros e He. apply (valid_clip gp (P ++ [D])); [|exact He]. exact (proj1 (ro_gamma M OK a HG)). Qed.

Lemma derive_updated : derivable_pt_lim objective_value x0
  (-0.5 * total (P ++ [D]) (fun e => let c := clip gp e in - (na c / nb c / nb c * db c) * dev0 e + na c / nb c * dE e)
   + 0.5 * total (P ++ [D]) (fun e => -1 * (db (clip gp e) / nb (clip gp e))) + total P (fun _ => inv j i)
   + total PA (fun c => bget (ga_a0 a) c * - (db c / nb c) - bget (ga_b0 a) c * - (na c / nb c / nb c * db c)))%R.
Proof.
  refine (dlim_ext (fun t => -0.5 * total (P ++ [D]) (fun e => obj_alpha M a (Rt t) inv 0 e * deviation M (Rt t) inv 0 e)
      + 0.5 * total (P ++ [D]) (fun e => -1 * ln (new_b M a (Rt t) inv 0 (clip (ga_plates a) e))) + total P (fun _ => ln (Rabs (mdet D (Rt t))))
      + total PA (fun s => bget (ga_a0 a) s * - ln (new_b M a (Rt t) inv 0 s) - bget (ga_b0 a) s * (bget (ga_phi1 a) s / new_b M a (Rt t) inv 0 s)))%R _ _ _ _ _).
  - intros t. unfold objective_value, objective. fold D. unfold n. rewrite (value_updated M OK a HG s (Rt t) inv (ln (Rabs (mdet D (Rt t)))) SO). reflexivity.
  - apply d_plus; [apply d_plus; [apply d_plus|]|].
    + apply d_scal, (d_total (P ++ [D]) (fun e t => obj_alpha M a (Rt t) inv 0 e * deviation M (Rt t) inv 0 e)%R). intros e He. cbv zeta.
      eapply dlim_eq; [apply d_mult; [apply (d_alpha _ (valid_c e He))|apply (d_dev e He)]|]. unfold Rt, x0; rewrite at_x0. reflexivity.
    + apply d_scal, (d_total (P ++ [D]) (fun e t => -1 * ln (new_b M a (Rt t) inv 0 (clip (ga_plates a) e)))%R). intros e He. apply d_scal, d_ln_b, valid_c, He.
    + apply (d_entropy M Rm inv i j I Hi Hj).
    + apply (d_total PA (fun c t => bget (ga_a0 a) c * - ln (new_b M a (Rt t) inv 0 c) - bget (ga_b0 a) c * (bget (ga_phi1 a) c / new_b M a (Rt t) inv 0 c))%R). intros c Hc.
      assert (Hc' : valid gp c) by (apply (same_valid PA); [exact (ga_ax M a HG)|exact Hc]).
      apply d_minus; apply d_scal; [apply d_opp, d_ln_b, Hc'|apply (d_alpha c Hc')].
Qed.

Lemma fibre_clip : forall e, fibre_sum (P ++ [D]) PA (clip gp e) dE = fibre_sum (P ++ [D]) PA (clip PA e) dE.
Proof. intros e. f_equal. symmetry. apply same_clip. exact (ga_ax M a HG). Qed.
Lemma indep_clip : forall (F : env -> R) k, ax PA k = 1 -> indep k (fun e => F (clip PA e)).
Proof. intros F k Hk e x. f_equal. apply functional_extensionality. intros l. unfold clip, upd. destruct (Nat.eqb_spec l k) as [->|]; [|reflexivity]. now rewrite Hk. Qed.
Lemma indep_bget : forall (x : arr R) k, ash x = PA -> ax PA k = 1 -> indep k (bget x).
Proof. intros x k E Hk e v. apply bget_indep. now rewrite E. Qed.

(** The exact error when the shape of the prior differs between the elements of X. *)
Definition prior_error : R :=
  ((bget (ga_a0 a) (vec_at env0 i) - bget (ga_a0 a) (vec_at env0 j)) *
   total q (fun t => - (1 / nb (clip gp (vec_at t i)) * 0.5) * W M Rm t i j))%R.
Lemma derivative_updated : (forall k, ax (ash (ga_a0 a)) (S k) = 1) ->
  exists g, ard_gradient n s Rm inv = Ok g /\ derivable_pt_lim objective_value x0 (g i j + prior_error)%R.
Proof.
  intros A0. destruct (gradient_updated M OK s SO Rm inv a HG A0) as (y & b & alpha & Sy & Sb & Sa & V & g & Eg & Vg).
  exists g. split; [exact Eg|]. rewrite (Vg i j Hi Hj). clear Eg Vg g. refine (dlim_eq _ _ _ _ derive_updated _). cbv zeta.
  change (rm_nodes M) with n in V, Sy, Sb, Sa |- *. fold P D q PA in V, Sy, Sb, Sa |- *.
  assert (VA : forall e, valid (P ++ [D]) e -> (na (clip gp e) / nb (clip gp e))%R = bget alpha e) by (intros e He; destruct (V e He) as (_ & _ & ->); reflexivity).
  assert (VB : forall e, valid (P ++ [D]) e -> nb (clip gp e) = bget b e) by (intros e He; destruct (V e He) as (_ & -> & _); reflexivity).
  assert (INA : forall c, valid PA c -> valid (P ++ [D]) c) by (intros c Hc; apply (in_alpha M OK); exact Hc).
  assert (CID : forall c, valid PA c -> clip gp c = c) by (intros c Hc; apply clip_valid_id, (same_valid PA); [exact (ga_ax M a HG)|exact Hc]).
  assert (VY : forall c, valid PA c -> fibre_sum (P ++ [D]) PA c dev0 = bget y c).
  { intros c Hc. destruct (V c (INA c Hc)) as (-> & _). fold gp. rewrite (CID c Hc). apply same_fibre. exact (ga_ax M a HG). }
  assert (Z0 : forall c, bget (ga_a0 a) c = bget (ga_a0 a) (vec_at env0 (c 0))) by (intros c; apply bget_ext; intros [|k] _ N; [reflexivity|]; exfalso; apply N, A0).
  assert (Z1 : forall k, ax PA k = 1 -> indep k (bget (ga_a0 a))).
  { intros k Hk e x. apply bget_indep. destruct (ro_gamma M OK a HG) as (_ & _ & [_ B] & _). destruct (B k) as [E|E]; [exact E|]. rewrite E. rewrite <- (ga_ax M a HG k). exact Hk. }
  assert (B0 : forall k, ax PA k = 1 -> indep k (bget (ga_b0 a))).
  { intros k Hk e x. apply bget_indep. destruct (ro_gamma M OK a HG) as (_ & _ & _ & [_ B]). destruct (B k) as [E|E]; [exact E|]. rewrite E. rewrite <- (ga_ax M a HG k). exact Hk. }
  assert (RS : forall G, (forall k, ax PA k = 1 -> indep k G) -> total (P ++ [D]) (fun e => G e * dE e)%R = total q (fun t => G (vec_at t i) * W M Rm t i j)%R)
    by exact (row_sum M OK Rm i j Hi Hj).
  assert (RA : forall G, (forall k, ax PA k = 1 -> indep k G) -> total PA (fun c => G c * fibre_sum (P ++ [D]) PA c dE)%R = total q (fun t => G (vec_at t i) * W M Rm t i j)%R)
    by exact (row_sum_alpha M OK Rm i j Hi Hj).
  assert (CS : forall G, (forall k, ax PA k = 1 -> indep k G) ->
    total (P ++ [D]) G = (INR (bm_value P [q]) * (INR (bm_value [D] [[last PA 1%nat]]) * total PA G))%R) by exact (count_sum M OK i j Hi Hj).
  (* the deviations *)
  rewrite (total_ext (P ++ [D]) (fun e => - _ * dev0 e + _)%R
    (fun e => (- (bget alpha e / bget b e * (0.5 * fibre_sum (P ++ [D]) PA (clip PA e) dE))) * dev0 e + bget alpha e * dE e)%R).
  2:{ intros e He. rewrite (VA e He), (VB e He). unfold db. now rewrite fibre_clip. }
  rewrite total_add.
  rewrite (total_mul (P ++ [D]) PA dev0 (fun e => - (bget alpha e / bget b e * (0.5 * fibre_sum (P ++ [D]) PA (clip PA e) dE)))%R PAQ).
  2:{ intros k Hk e x. pose proof (indep_bget alpha k Sa Hk e x). pose proof (indep_bget b k Sb Hk e x). pose proof (indep_clip (fun c => fibre_sum (P ++ [D]) PA c dE) k Hk e x) as H1.
      cbv beta in H1. congruence. }
  rewrite (total_ext PA _ (fun c => (- (bget alpha c / bget b c * 0.5 * bget y c)) * fibre_sum (P ++ [D]) PA c dE)%R).
  2:{ intros c Hc. rewrite (VY c Hc), (clip_valid_id PA c Hc). ring. }
  rewrite (RA (fun c => - (bget alpha c / bget b c * 0.5 * bget y c))%R).
  2:{ intros k Hk e x. pose proof (indep_bget alpha k Sa Hk e x). pose proof (indep_bget b k Sb Hk e x). pose proof (indep_bget y k Sy Hk e x). congruence. }
  rewrite (RS (bget alpha)) by (intros k Hk; apply indep_bget; assumption).
  (* the logarithms *)
  rewrite (total_ext (P ++ [D]) (fun e => -1 * _)%R (fun e => (- (1 / bget b e * 0.5)) * fibre_sum (P ++ [D]) PA (clip PA e) dE)%R).
  2:{ intros e He. rewrite (VB e He). unfold db. rewrite fibre_clip. unfold Rdiv. ring. }
  rewrite CS.
  2:{ intros k Hk e x. pose proof (indep_bget b k Sb Hk e x). pose proof (indep_clip (fun c => fibre_sum (P ++ [D]) PA c dE) k Hk e x) as H1. cbv beta in H1. congruence. }
  rewrite (total_ext PA (fun c => - (1 / bget b c * 0.5) * _)%R (fun c => (- (1 / bget b c * 0.5)) * fibre_sum (P ++ [D]) PA c dE)%R) by (intros c Hc; now rewrite (clip_valid_id PA c Hc)).
  rewrite (RA (fun c => - (1 / bget b c * 0.5))%R) by (intros k Hk e x; pose proof (indep_bget b k Sb Hk e x); congruence).
  (* alpha *)
  rewrite (total_ext PA (fun c => bget (ga_a0 a) c * _ - _)%R
    (fun c => (bget (ga_a0 a) c * (- (1 / bget b c * 0.5))) * fibre_sum (P ++ [D]) PA c dE
              + (bget (ga_b0 a) c * (bget alpha c / bget b c * 0.5)) * fibre_sum (P ++ [D]) PA c dE)%R).
  2:{ intros c Hc. pose proof (VA c (INA c Hc)) as H1. pose proof (VB c (INA c Hc)) as H2. rewrite (CID c Hc) in H1, H2. rewrite H1, H2. unfold db, Rdiv. ring. }
  rewrite total_add.
  rewrite (RA (fun c => bget (ga_a0 a) c * - (1 / bget b c * 0.5))%R).
  2:{ intros k Hk e x; pose proof (indep_bget b k Sb Hk e x). pose proof (Z1 k Hk e x). congruence. }
  rewrite (total_ext q (fun t => bget (ga_a0 a) (vec_at t i) * - (1 / bget b (vec_at t i) * 0.5) * W M Rm t i j)%R
    (fun t => bget (ga_a0 a) (vec_at env0 i) * (- (1 / bget b (vec_at t i) * 0.5) * W M Rm t i j))%R) by (intros t _; rewrite (Z0 (vec_at t i)), vec_at_0; ring).
  rewrite total_rscal.
  assert (PE : prior_error = ((bget (ga_a0 a) (vec_at env0 i) - bget (ga_a0 a) (vec_at env0 j)) * total q (fun t => - (1 / bget b (vec_at t i) * 0.5) * W M Rm t i j))%R).
  { unfold prior_error. f_equal. apply total_ext. intros t Ht. f_equal. f_equal. f_equal. f_equal. apply VB. apply valid_vec; [|exact Hi]. intros k. specialize (Ht k).
    destruct (q_ok M OK) as [_ B]. specialize (B k). pose proof (ro_plates M OK k) as PP. fold n q in B. fold n P in B, PP. destruct B as [E|E]; [rewrite E in Ht; lia|now rewrite <- E]. }
  rewrite PE. clear PE.
  rewrite (RA (fun c => bget (ga_b0 a) c * (bget alpha c / bget b c * 0.5))%R).
  2:{ intros k Hk e x. pose proof (indep_bget alpha k Sa Hk e x). pose proof (indep_bget b k Sb Hk e x). pose proof (B0 k Hk e x). congruence. }
  rewrite (total_ext q (fun t => (bget alpha (vec_at t i) - _) * _)%R
    (fun t => - (bget alpha (vec_at t i) / bget b (vec_at t i) * 0.5 * bget y (vec_at t i)) * W M Rm t i j + bget alpha (vec_at t i) * W M Rm t i j)%R) by (intros; unfold Rdiv; ring).
  rewrite total_add.
  rewrite (total_ext q (fun t => - (1 / bget b (vec_at t i) * (0.5 * W M Rm t i j)))%R (fun t => - (1 / bget b (vec_at t i) * 0.5) * W M Rm t i j)%R) by (intros; unfold Rdiv; ring).
  rewrite (total_ext q (fun t => - (bget (ga_b0 a) (vec_at t i) * _) * _)%R
    (fun t => -1 * (bget (ga_b0 a) (vec_at t i) * (bget alpha (vec_at t i) / bget b (vec_at t i) * 0.5) * W M Rm t i j))%R) by (intros; unfold Rdiv; ring).
  rewrite total_rscal. ring.
Qed.
End Objective.
