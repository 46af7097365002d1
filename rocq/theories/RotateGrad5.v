(** The gradient of the rotation objective as the derivative along curves, and the derivative of the inverse. *)
From Coq Require Import List Arith ZArith Lia Bool Reals Lra FunctionalExtensionality.
From Verif Require Import Base Shapes SpecShapes ShapesLemmas NumPy MiscArray TensorLemmas EinsumLemmas SumMultiplyLemmas SpecArray PlateSumLemmas PlateSum2Lemmas
  PlateSum3Lemmas MessageLemmas ShapeOpsLemmas SpecDot ExpFam ExpFamLemmas ExpFamBound NetworkLemmas DetNetLemmas GateLemmas PArrays PGate DotPart AddNode LinalgLemmas2 ConcatLemmas3 MarkovLemmas
  Families FamiliesLemmas FamiliesLemmas2 Linalg MatBridge SpecLinalg LinalgLemmas Gaussian SpecGaussian GaussLemmas GaussAlg PGaussian PGaussian2 PRotation DiagLemmas DetGrad
  RotateARD SpecRotateARD RotateLemmas RotateLemmas2 RotateLemmas3 RotateLemmas4 RotateGrad RotateGrad2 RotateGrad3 RotateGrad4.
Import ListNotations.
Open Scope nat_scope.

Section Model.
Variable M : rot_model.
Let n := rm_nodes M.
Let P := rn_plates n.
Let D := rn_D n.
Hypothesis OK : rot_ok M.
Hypothesis PR : proper M.
Hypothesis SYM : forall p, valid P p -> forall k l, k < D -> l < D -> x_second M p k l = x_second M p l k.
Hypothesis A0 : forall a, rn_gamma n = Some a -> forall k, ax (ash (ga_a0 a)) k = 1.
Variable s : ard_stats.
Hypothesis SO : stats_of M s.

Definition slope (Rm inv : mat) (F : env -> R) : R :=
  match rn_gamma n with None => slope_fixed M F | Some a => slope_updated M (fun _ => Rm) 0%R inv a F end.
Lemma slope_lin : forall Rm inv k F G, slope Rm inv (fun e => k * F e + G e)%R = (k * slope Rm inv F + slope Rm inv G)%R.
Proof.
  intros. unfold slope. destruct (rn_gamma n); [apply slope_updated_lin|]. unfold slope_fixed.
  rewrite (total_lin _ k (fun e => bget (rn_alpha (rm_nodes M)) e * F e)%R (fun e => bget (rn_alpha (rm_nodes M)) e * G e)%R) by (intros; ring). ring.
Qed.
Lemma slope_0 : forall Rm inv, slope Rm inv (fun _ => 0%R) = 0%R.
Proof. intros. pose proof (slope_lin Rm inv (-1) (fun _ => 0%R) (fun _ => 0%R)) as H. cbv beta in H. replace (-1 * 0 + 0)%R with 0%R in H by ring. lra. Qed.

Lemma curve_slope : forall Rt ld x0 dl dR inv,
  (forall a b, a < D -> b < D -> derivable_pt_lim (fun t => Rt t a b) x0 (dR a b)) -> derivable_pt_lim ld x0 dl ->
  derivable_pt_lim (curve_value M s Rt ld) x0 (slope (Rt x0) inv (curve_dev M Rt x0 dR) + total P (fun _ => dl))%R.
Proof.
  intros Rt ld x0 dl dR inv HR HL. unfold slope. destruct (rn_gamma n) as [a|] eqn:HG.
  - exact (curve_updated M OK PR SYM s SO Rt ld x0 dl dR HR HL inv a HG).
  - exact (curve_fixed M OK SYM s SO Rt ld x0 dl dR HR HL inv HG).
Qed.

Lemma entry_gradient : forall Rm inv g i j, is_inverse D Rm inv -> ard_gradient n s Rm inv = Ok g -> i < D -> j < D ->
  derivable_pt_lim (fun t => objective n s (mupd Rm i j t)) (Rm i j) (g i j).
Proof.
  intros Rm inv g i j I Eg Hi Hj. destruct (rn_gamma n) as [a|] eqn:HG.
  - destruct (derivative_updated M OK PR SYM s SO Rm inv i j I Hi Hj a HG (fun k => A0 a eq_refl (S k))) as (g' & Eg' & Dg).
    pose proof (eq_trans (eq_sym Eg) Eg') as EE. injection EE as <-. refine (dlim_eq _ _ _ _ Dg _). unfold prior_error.
    replace (bget (ga_a0 a) (vec_at env0 i)) with (bget (ga_a0 a) (vec_at env0 j)); [ring|]. apply bget_ext. intros k _ N. exfalso. apply N, (A0 a eq_refl).
  - destruct (gradient_fixed M OK s SO Rm inv HG) as (g' & Eg' & Vg). pose proof (eq_trans (eq_sym Eg) Eg') as EE. injection EE as <-. rewrite (Vg i j Hi Hj).
    exact (derive_fixed M OK SYM s SO Rm inv i j I Hi Hj HG).
Qed.
Lemma entry_slope : forall Rm inv g i j, is_inverse D Rm inv -> ard_gradient n s Rm inv = Ok g -> i < D -> j < D ->
  slope Rm inv (de M Rm i j) = (g i j - total P (fun _ => inv j i))%R.
Proof.
  intros Rm inv g i j I Eg Hi Hj.
  pose proof (entry_gradient Rm inv g i j I Eg Hi Hj) as H1.
  pose proof (curve_slope (mupd Rm i j) (fun t => ln (Rabs (mdet D (mupd Rm i j t)))) (Rm i j) (inv j i) (fun a b => if (a =? i) && (b =? j) then 1%R else 0%R) inv
    (fun a b _ _ => d_entry Rm i j a b) (logdet_derive Hi Hj I (inverse_nonzero M Rm inv I))) as H2.
  rewrite at_x0 in H2.
  assert (E : curve_dev M (mupd Rm i j) (Rm i j) (fun a b => if (a =? i) && (b =? j) then 1%R else 0%R) = de M Rm i j).
  { apply functional_extensionality. intros e. unfold curve_dev. rewrite at_x0. fold n D.
    rewrite (rsum_ext D _ (fun a => if a =? i then de M Rm i j e else 0%R)).
    - apply (rsum_single D i (fun _ => de M Rm i j e) Hi).
    - intros a Ha. destruct (Nat.eqb_spec a i) as [->|N]; cbn [andb].
      + rewrite (rsum_ext D _ (fun b => if b =? j then de M Rm i j e else 0%R)); [apply (rsum_single D j (fun _ => de M Rm i j e) Hj)|].
        intros b Hb. destruct (Nat.eqb_spec b j) as [->|N]; ring.
      + rewrite (rsum_ext D _ (fun _ => 0%R)) by (intros; ring). apply rsum_0. }
  rewrite E in H2. pose proof (uniqueness_limite _ _ _ _ H1 H2) as U. lra.
Qed.

(** The derivative along a curve is the gradient times the direction. *)
Lemma curve_gradient : forall Rt ld x0 dl dR inv g,
  (forall a b, a < D -> b < D -> derivable_pt_lim (fun t => Rt t a b) x0 (dR a b)) -> derivable_pt_lim ld x0 dl ->
  is_inverse D (Rt x0) inv -> ard_gradient n s (Rt x0) inv = Ok g ->
  rsum D (fun a => rsum D (fun b => dR a b * inv b a))%R = dl ->
  derivable_pt_lim (curve_value M s Rt ld) x0 (rsum D (fun a => rsum D (fun b => g a b * dR a b)))%R.
Proof.
  intros Rt ld x0 dl dR inv g HR HL I Eg Edl. eapply dlim_eq; [exact (curve_slope Rt ld x0 dl dR inv HR HL)|].
  unfold curve_dev. fold n D.
  rewrite (f_equal (slope (Rt x0) inv) (functional_extensionality _ (fun e => rsum D (fun a => 1 * rsum D (fun b => dR a b * de M (Rt x0) a b e)))%R
    (fun e => rsum_ext D _ _ (fun a _ => eq_sym (Rmult_1_l (rsum D (fun b => dR a b * de M (Rt x0) a b e)%R)))))).
  rewrite (linear_rsum (slope (Rt x0) inv) D (fun _ => 1%R) (fun a e => rsum D (fun b => dR a b * de M (Rt x0) a b e)%R) (slope_lin _ _) (slope_0 _ _)).
  rewrite (rsum_ext D (fun b => 1 * slope _ _ _)%R (fun a => rsum D (fun b => g a b * dR a b) - total P (fun _ => rsum D (fun b => dR a b * inv b a)))%R).
  - rewrite rsum_minus.
    assert (T : rsum D (fun x => total P (fun _ => rsum D (fun b => dR x b * inv b x)))%R = total P (fun _ => dl)); [|rewrite T; ring].
    rewrite (rsum_ext D _ (fun x => total P (fun _ => 1%R) * rsum D (fun b => dR x b * inv b x))%R).
    + rewrite rsum_scal, Edl. rewrite (total_ext P (fun _ => dl) (fun _ => dl * 1)%R) by (intros; ring). rewrite total_rscal. ring.
    + intros x _. rewrite (total_ext P _ (fun _ => rsum D (fun b => dR x b * inv b x) * 1)%R) by (intros; ring). rewrite total_rscal. ring.
  - intros a Ha. rewrite Rmult_1_l.
    rewrite (linear_rsum (slope (Rt x0) inv) D (fun b => dR a b) (fun b e => de M (Rt x0) a b e) (slope_lin _ _) (slope_0 _ _)).
    rewrite (rsum_ext D (fun b => dR a b * slope _ _ _)%R (fun b => g a b * dR a b - total P (fun _ => 1%R) * (dR a b * inv b a))%R).
    + rewrite rsum_minus, rsum_scal. f_equal. rewrite (total_ext P (fun _ => rsum D _) (fun _ => rsum D (fun b => dR a b * inv b a) * 1)%R) by (intros; ring). rewrite total_rscal. ring.
    + intros b Hb. change (fun e => de M (Rt x0) a b e) with (de M (Rt x0) a b). rewrite (entry_slope (Rt x0) inv g a b I Eg Ha Hb). rewrite (total_ext P (fun _ => inv b a) (fun _ => inv b a * 1)%R) by (intros; ring). rewrite total_rscal. ring.
Qed.
End Model.

(** The inverse of a matrix with another entry (Sherman-Morrison), and its derivative. *)
Section Inverse.
Variables (D : nat) (A V : mat) (i j : nat).
Hypothesis I : is_inverse D A V.
Hypothesis Hi : i < D.
Hypothesis Hj : j < D.
Let r := A i j.
Let k := V j i.
Definition sm_inv (t : R) : mat := fun a b => (V a b - (t - r) * V a i * V j b / (1 + (t - r) * k))%R.

Lemma mupd_split : forall t a b, mupd A i j t a b = (A a b + (t - r) * (if a =? i then if b =? j then 1 else 0 else 0))%R.
Proof. intros t a b. unfold mupd, r. destruct (Nat.eqb_spec a i) as [->|], (Nat.eqb_spec b j) as [->|]; cbn [andb]; ring. Qed.
Lemma sm_inv_ok : forall t, (1 + (t - r) * k <> 0)%R -> is_inverse D (mupd A i j t) (sm_inv t).
Proof.
  intros t N. destruct I as [I1 I2]. set (h := (t - r)%R). split; intros a b Ha Hb.
  - unfold mmdot. rewrite (rsum_ext D _ (fun c => A a c * V c b - h / (1 + h * k) * V j b * (A a c * V c i) + (if c =? j then h * (if a =? i then 1 else 0) * sm_inv t c b else 0))%R).
    + rewrite rsum_plus, rsum_minus, rsum_scal, (rsum_single D j (fun c => h * (if a =? i then 1 else 0) * sm_inv t c b)%R Hj).
      pose proof (I1 a b Ha Hb) as E1. pose proof (I1 a i Ha Hi) as E2. unfold mmdot in E1, E2. rewrite E1, E2. unfold identity, sm_inv. fold h k.
      destruct (a =? i); field; exact N.
    + intros c Hc. rewrite mupd_split. unfold sm_inv. fold h k. destruct (c =? j), (a =? i); field; exact N.
  - unfold mmdot. rewrite (rsum_ext D _ (fun c => V a c * A c b - h / (1 + h * k) * V a i * (V j c * A c b) + (if c =? i then h * (if b =? j then 1 else 0) * sm_inv t a c else 0))%R).
    + rewrite rsum_plus, rsum_minus, rsum_scal, (rsum_single D i (fun c => h * (if b =? j then 1 else 0) * sm_inv t a c)%R Hi).
      pose proof (I2 a b Ha Hb) as E1. pose proof (I2 j b Hj Hb) as E2. unfold mmdot in E1, E2. rewrite E1, E2. unfold identity, sm_inv. fold h k.
      rewrite (Nat.eqb_sym j b). destruct (b =? j); field; exact N.
    + intros c Hc. rewrite mupd_split. unfold sm_inv. fold h k. destruct (c =? i), (b =? j); field; exact N.
Qed.
Lemma sm_near : forall t, (Rabs (t - r) < / (1 + Rabs k))%R -> (1 + (t - r) * k <> 0)%R.
Proof.
  intros t H E. pose proof (Rabs_pos k) as Pk. assert (B : (Rabs ((t - r) * k) < 1)%R).
  - rewrite Rabs_mult. apply Rle_lt_trans with (Rabs (t - r) * (1 + Rabs k))%R; [apply Rmult_le_compat_l; [apply Rabs_pos|lra]|].
    apply (Rmult_lt_compat_r (1 + Rabs k)) in H; [|lra]. rewrite Rinv_l in H by lra. exact H.
  - apply Rabs_def2 in B. lra.
Qed.
Lemma sm_derive : forall a b, derivable_pt_lim (fun t => sm_inv t a b) r (- (V a i * V j b))%R.
Proof.
  intros a b. assert (N : (1 + (r - r) * k <> 0)%R) by (replace (r - r)%R with 0%R by ring; rewrite Rmult_0_l; lra).
  eapply dlim_eq.
  - unfold sm_inv, Rdiv. apply d_minus; [apply d_const|]. apply (d_mult (fun t => (t - r) * V a i * V j b)%R (fun t => / (1 + (t - r) * k))%R).
    + apply d_mult; [apply d_mult; [apply d_minus; [apply d_id|apply d_const]|apply d_const]|apply d_const].
    + apply (d_inv (fun t => 1 + (t - r) * k)%R); [exact N|]. apply d_plus; [apply d_const|]. apply d_mult; [apply d_minus; [apply d_id|apply d_const]|apply d_const].
  - cbv beta. replace (r - r)%R with 0%R by ring. field.
Qed.
End Inverse.
