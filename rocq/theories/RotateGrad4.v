(** The derivative of the rotation objective along a curve of matrices, and of the cost of two blocks. *)
From Coq Require Import List Arith ZArith Lia Bool Reals Lra FunctionalExtensionality.
From Verif Require Import Base Shapes SpecShapes ShapesLemmas NumPy MiscArray TensorLemmas EinsumLemmas SumMultiplyLemmas SpecArray PlateSumLemmas PlateSum2Lemmas
  PlateSum3Lemmas MessageLemmas ShapeOpsLemmas SpecDot ExpFam ExpFamLemmas ExpFamBound NetworkLemmas DetNetLemmas GateLemmas PArrays PGate DotPart AddNode LinalgLemmas2 ConcatLemmas3 MarkovLemmas
  Families FamiliesLemmas FamiliesLemmas2 Linalg MatBridge SpecLinalg LinalgLemmas Gaussian SpecGaussian GaussLemmas GaussAlg PGaussian PGaussian2 PRotation DiagLemmas DetGrad
  RotateARD SpecRotateARD RotateLemmas RotateLemmas2 RotateLemmas3 RotateLemmas4 RotateGrad RotateGrad2 RotateGrad3.
Import ListNotations.
Open Scope nat_scope.

Lemma linear_rsum : forall (L : (env -> R) -> R) D (c : nat -> R) (F : nat -> env -> R),
  (forall k F G, L (fun e => k * F e + G e) = k * L F + L G)%R -> L (fun _ => 0%R) = 0%R ->
  L (fun e => rsum D (fun b => c b * F b e))%R = rsum D (fun b => c b * L (F b))%R.
Proof.
  intros L D c F HL H0. induction D as [|D IH]; cbn [rsum]; [exact H0|].
  transitivity (L (fun e => c D * F D e + rsum D (fun b => c b * F b e))%R).
  - f_equal. apply functional_extensionality. intros e. ring.
  - rewrite HL, IH. ring.
Qed.

Section Curve.
Variable M : rot_model.
Let n := rm_nodes M.
Let P := rn_plates n.
Let D := rn_D n.
Let PA := plates_alpha n.
Hypothesis OK : rot_ok M.
Hypothesis PR : proper M.
Hypothesis SYM : forall p, valid P p -> forall k l, k < D -> l < D -> x_second M p k l = x_second M p l k.
Variable s : ard_stats.
Hypothesis SO : stats_of M s.
Variables (Rt : R -> mat) (ld : R -> R) (x0 dl : R) (dR : mat).
Let Rm := Rt x0.
Hypothesis HR : forall a b, a < D -> b < D -> derivable_pt_lim (fun t => Rt t a b) x0 (dR a b).
Hypothesis HL : derivable_pt_lim ld x0 dl.
Variable inv : mat.

Definition curve_dev (e : env) : R := rsum D (fun a => rsum D (fun b => dR a b * de M Rm a b e))%R.
Lemma curve_dev_eq : forall e, e 0 < D -> curve_dev e = rsum D (fun b => (dR (e 0%nat) b * dd M Rm (e 0%nat) b (outer_plate e))%R).
Proof.
  intros e He. unfold curve_dev. rewrite (rsum_ext D _ (fun a => if a =? e 0 then rsum D (fun b => (dR (e 0%nat) b * dd M Rm (e 0%nat) b (outer_plate e))%R) else 0%R)).
  - apply (rsum_single D (e 0) (fun _ => rsum D (fun b => (dR (e 0%nat) b * dd M Rm (e 0%nat) b (outer_plate e))%R)) He).
  - intros a Ha. unfold de. rewrite Nat.eqb_sym. destruct (Nat.eqb_spec a (e 0)) as [->|N]; [reflexivity|]. rewrite (rsum_ext D _ (fun _ => 0%R)) by (intros; ring). apply rsum_0.
Qed.
Lemma d_curve_dev : forall e, valid (P ++ [D]) e -> derivable_pt_lim (fun t => deviation M (Rt t) inv 0%R e) x0 (curve_dev e).
Proof.
  intros e He. destruct (valid_outer _ _ _ He) as [Ho Ha]. rewrite curve_dev_eq by exact Ha. 
  assert (E : forall t, deviation M (Rt t) inv 0%R (vec_at (outer_plate e) (e 0)) = deviation M (Rt t) inv 0%R e) by (intros; now rewrite at_vec).
  refine (dlim_ext _ _ _ _ E _). clear E. set (p := outer_plate e) in *. set (a := e 0) in *.
  refine (dlim_ext _ _ _ _ (fun t => eq_sym (deviation_eq M (Rt t) inv 0%R p a Ha)) _). fold n D.
  eapply dlim_eq.
  - apply d_plus; [apply d_minus; [apply d_rsum; intros k Hk; apply d_mult; [apply d_rsum; intros l Hl; apply d_mult; [apply (HR a l Ha Hl)|apply d_const]|apply (HR a k Ha Hk)]
      |apply d_scal, d_rsum; intros k Hk; apply d_mult; [apply (HR a k Ha Hk)|apply d_const]]|apply d_const].
  - cbv beta. fold Rm. unfold dd. fold n D.
    rewrite (rsum_ext D (fun i => rsum D (fun i0 => dR a i0 * _ + _ * 0) * _ + _)%R
      (fun k => rsum D (fun l => dR a l * x_second M p l k) * Rm a k + dR a k * rsum D (fun l => Rm a l * x_second M p l k)))%R.
    2:{ intros k Hk. rewrite (rsum_ext D (fun i0 => _ + _ * 0)%R (fun l => dR a l * x_second M p l k)%R) by (intros; ring). ring. }
    rewrite rsum_plus.
    rewrite (rsum_ext D (fun k => rsum D (fun l => dR a l * x_second M p l k) * Rm a k)%R (fun k => rsum D (fun l => dR a l * x_second M p l k * Rm a k))%R) by (intros; now rewrite rsum_scal_r).
    rewrite rsum_swap.
    rewrite (rsum_ext D (fun j => rsum D (fun i => dR a j * x_second M p j i * Rm a i))%R (fun k => dR a k * rsum D (fun l => Rm a l * x_second M p l k)))%R.
    2:{ intros k Hk. rewrite <- rsum_scal. apply rsum_ext. intros l Hl. rewrite (SYM p Ho k l Hk Hl). ring. }
    rewrite (rsum_ext D (fun b => dR a b * (2 * _ - 2 * _))%R (fun b => 2 * (dR a b * rsum D (fun k => Rm a k * x_second M p k b)) - 2 * (dR a b * (x_mean M p b * mu_mean M (vec_at p a))))%R) by (intros; ring).
    rewrite rsum_minus, !rsum_scal.
    rewrite (rsum_ext D (fun i => dR a i * (x_mean M p i * mu_mean M (vec_at p a)) + Rm a i * 0)%R (fun b => dR a b * (x_mean M p b * mu_mean M (vec_at p a)))%R) by (intros; ring).
    ring.
Qed.

Definition curve_value (t : R) : R := match ard_terms n s (Rt t) (ld t) with Ok (x, a) => (x + a)%R | Err _ => 0%R end.

Definition slope_fixed (F : env -> R) : R := (-0.5 * total (P ++ [D]) (fun e => bget (rn_alpha n) e * F e))%R.
Lemma curve_fixed : rn_gamma n = None -> derivable_pt_lim curve_value x0 (slope_fixed curve_dev + total P (fun _ => dl))%R.
Proof.
  intros HN.
  refine (dlim_ext (fun t => -0.5 * total (P ++ [D]) (fun e => bget (rn_alpha n) e * deviation M (Rt t) inv 0 e) + total P (fun _ => ld t))%R _ _ _ _ _).
  - intros t. unfold curve_value. unfold n. rewrite (value_fixed M OK s (Rt t) inv (ld t) HN SO). rewrite Rplus_0_r. reflexivity.
  - apply d_plus; [apply d_scal, (d_total (P ++ [D]) (fun e t => bget (rn_alpha n) e * deviation M (Rt t) inv 0 e)%R); intros e He; apply d_scal, d_curve_dev, He|].
    apply (d_total P (fun _ t => ld t)). intros e _. exact HL.
Qed.

Variable a : gamma_alpha.
Hypothesis HG : rn_gamma n = Some a.
Let gp := ga_plates a.
Let nb := new_b M a Rm inv 0%R.
Let na := bget (ga_phi1 a).
Let dbF (F : env -> R) (c : env) : R := (0.5 * fibre_sum (P ++ [D]) PA c F)%R.
Definition slope_updated (F : env -> R) : R :=
  (-0.5 * total (P ++ [D]) (fun e => let c := clip gp e in - (na c / nb c / nb c * dbF F c) * deviation M Rm inv 0 e + na c / nb c * F e)
   + 0.5 * total (P ++ [D]) (fun e => -1 * (dbF F (clip gp e) / nb (clip gp e)))
   + total PA (fun c => bget (ga_a0 a) c * - (dbF F c / nb c) - bget (ga_b0 a) c * - (na c / nb c / nb c * dbF F c)))%R.
Lemma cd_new_b : forall c, derivable_pt_lim (fun t => new_b M a (Rt t) inv 0%R c) x0 (dbF curve_dev c).
Proof.
  intros c. unfold new_b. eapply dlim_eq; [apply d_plus; [apply d_const|apply d_scal, (d_fibre (P ++ [D]) (ga_plates a) c (fun e t => deviation M (Rt t) inv 0%R e)); intros e He; apply d_curve_dev, He]|].
  unfold dbF. rewrite Rplus_0_l. f_equal. symmetry. apply same_fibre. exact (ga_ax M a HG).
Qed.
Lemma cnb_pos : forall c, valid gp c -> (0 < nb c)%R.
Proof. intros c Hc. apply (new_b_pos M PR a HG); exact Hc. Qed.
Lemma cd_ln_b : forall c, valid gp c -> derivable_pt_lim (fun t => ln (new_b M a (Rt t) inv 0%R c)) x0 (dbF curve_dev c / nb c)%R.
Proof.
  intros c Hc. eapply dlim_eq; [apply (d_comp (fun t => new_b M a (Rt t) inv 0%R c) ln); [apply cd_new_b|apply d_ln; apply cnb_pos, Hc]|]. change (new_b M a (Rt x0) inv 0%R c) with (nb c). unfold Rdiv. ring.
Qed.
Lemma cd_alpha : forall c, valid gp c -> derivable_pt_lim (fun t => na c / new_b M a (Rt t) inv 0%R c)%R x0 (- (na c / nb c / nb c * dbF curve_dev c))%R.
Proof.
  intros c Hc. pose proof (cnb_pos c Hc) as Pb. unfold Rdiv at 1. eapply dlim_eq; [apply d_scal, d_inv; [change (nb c <> 0%R); lra|apply cd_new_b]|]. cbv beta. change (new_b M a (Rt x0) inv 0%R c) with (nb c). field. lra.
Qed.
Lemma cvalid_c : forall e, valid (P ++ [D]) e -> valid gp (clip gp e).
Proof. intros e He. apply (valid_clip gp (P ++ [D])); [|exact He]. exact (proj1 (ro_gamma M OK a HG)). Qed.

Lemma curve_updated : derivable_pt_lim curve_value x0 (slope_updated curve_dev + total P (fun _ => dl))%R.
Proof.
  refine (dlim_ext (fun t => -0.5 * total (P ++ [D]) (fun e => obj_alpha M a (Rt t) inv 0 e * deviation M (Rt t) inv 0 e)
      + 0.5 * total (P ++ [D]) (fun e => -1 * ln (new_b M a (Rt t) inv 0 (clip (ga_plates a) e)))
      + total PA (fun s => bget (ga_a0 a) s * - ln (new_b M a (Rt t) inv 0 s) - bget (ga_b0 a) s * (bget (ga_phi1 a) s / new_b M a (Rt t) inv 0 s)) + total P (fun _ => ld t))%R _ _ _ _ _).
  - intros t. unfold curve_value. unfold n. rewrite (value_updated M OK a HG s (Rt t) inv (ld t) SO). fold n P D PA.
    change (obj_alpha M a (Rt t) inv (ld t)) with (obj_alpha M a (Rt t) inv 0). change (new_b M a (Rt t) inv (ld t)) with (new_b M a (Rt t) inv 0).
    change (deviation M (Rt t) inv (ld t)) with (deviation M (Rt t) inv 0). ring.
  - unfold slope_updated. apply d_plus; [apply d_plus; [apply d_plus|]|].
    + apply d_scal, (d_total (P ++ [D]) (fun e t => obj_alpha M a (Rt t) inv 0 e * deviation M (Rt t) inv 0 e)%R). intros e He. cbv zeta.
      eapply dlim_eq; [apply d_mult; [apply (cd_alpha _ (cvalid_c e He))|apply (d_curve_dev e He)]|]. reflexivity.
    + apply d_scal, (d_total (P ++ [D]) (fun e t => -1 * ln (new_b M a (Rt t) inv 0 (clip (ga_plates a) e)))%R). intros e He. apply d_scal, cd_ln_b, cvalid_c, He.
    + apply (d_total PA (fun c t => bget (ga_a0 a) c * - ln (new_b M a (Rt t) inv 0 c) - bget (ga_b0 a) c * (bget (ga_phi1 a) c / new_b M a (Rt t) inv 0 c))%R). intros c Hc.
      assert (Hc' : valid gp c) by (apply (same_valid PA); [exact (ga_ax M a HG)|exact Hc]).
      apply d_minus; apply d_scal; [apply d_opp, cd_ln_b, Hc'|apply (cd_alpha c Hc')].
    + apply (d_total P (fun _ t => ld t)). intros e _. exact HL.
Qed.

Lemma dbF_lin : forall k F G c, dbF (fun e => k * F e + G e)%R c = (k * dbF F c + dbF G c)%R.
Proof.
  intros k F G c. unfold dbF. rewrite (fibre_ext _ _ _ (fun e => k * F e + G e)%R (fun e => k * F e + 1 * G e)%R) by (intros; ring). rewrite fibre_lin. ring.
Qed.
Lemma total_lin : forall q k (F G H : env -> R), (forall e, H e = k * F e + G e)%R -> total q H = (k * total q F + total q G)%R.
Proof. intros q k F G H E. rewrite (total_ext q H (fun e => k * F e + G e)%R) by (intros; apply E). rewrite total_add, total_rscal. reflexivity. Qed.
Lemma slope_updated_lin : forall k F G, slope_updated (fun e => k * F e + G e)%R = (k * slope_updated F + slope_updated G)%R.
Proof.
  intros k F G. unfold slope_updated. cbv zeta.
  match goal with |- (-0.5 * ?A + 0.5 * ?B + ?C = k * (-0.5 * ?A1 + 0.5 * ?B1 + ?C1) + (-0.5 * ?A2 + 0.5 * ?B2 + ?C2))%R =>
    assert (EA : A = (k * A1 + A2)%R) by (apply total_lin; intros e; rewrite dbF_lin; ring);
    assert (EB : B = (k * B1 + B2)%R) by (apply total_lin; intros e; rewrite dbF_lin; unfold Rdiv; ring);
    assert (EC : C = (k * C1 + C2)%R) by (apply total_lin; intros e; rewrite dbF_lin; unfold Rdiv; ring);
    rewrite EA, EB, EC end. ring.
Qed.
Lemma slope_updated_0 : slope_updated (fun _ => 0%R) = 0%R.
Proof. pose proof (slope_updated_lin (-1) (fun _ => 0%R) (fun _ => 0%R)) as H. cbv beta in H. replace (-1 * 0 + 0)%R with 0%R in H by ring. lra. Qed.
End Curve.
