(** Property C52: the objective of a rotation is the lower bound after it.
    Property C53: the gradient of the objective is its derivative. *)
From Coq Require Import List Arith ZArith Lia Bool Reals Lra FunctionalExtensionality.
From Verif Require Import Base Shapes SpecShapes ShapesLemmas NumPy MiscArray TensorLemmas SpecArray PlateSumLemmas DetNetLemmas SpecDot ExpFam
  Families FamiliesLemmas FamiliesLemmas2 Linalg MatBridge SpecLinalg LinalgLemmas Gaussian SpecGaussian GaussLemmas GaussAlg PGate Rotation PRotation DetGrad
  RotateARD SpecRotateARD RotateLemmas RotateLemmas2 RotateLemmas3 RotateLemmas4 RotateGrad RotateGrad2 RotateGrad3 RotateGrad4 RotateGrad5.
Import ListNotations.
Open Scope nat_scope.

(** What the object maximises differs from the terms of X and alpha in the lower bound, after X
    is rotated and alpha updated, by a number that does not depend on the rotation. *)
Theorem C52_rotation_objective : forall lg psi M, rot_ok M -> proper M ->
  exists s c, ard_setup (rm_nodes M) = Ok s /\
  forall Rm inv logdet, is_inverse (rn_D (rm_nodes M)) Rm inv ->
  exists x a, ard_terms (rm_nodes M) s Rm logdet = Ok (x, a) /\
    (fst (bound_terms lg psi M Rm inv logdet) + snd (bound_terms lg psi M Rm inv logdet) = x + a + c)%R.
Proof.
  intros lg psi M OK PR. destruct (setup_ok M OK) as (s & E & SO). exists s. destruct (rn_gamma (rm_nodes M)) as [a|] eqn:HG.
  - eexists. split; [exact E|]. intros Rm inv logdet I. destruct (total_updated lg psi M OK PR a HG s Rm inv logdet SO I) as (x & y & T & B).
    exists x, y. split; [exact T|]. unfold bound_terms. rewrite HG. exact B.
  - eexists. split; [exact E|]. intros Rm inv logdet I. destruct (terms_fixed M OK s Rm inv logdet HG SO I) as (x & T & B).
    exists x, 0%R. split; [exact T|]. unfold bound_terms. rewrite HG. cbn [fst snd]. rewrite B. rewrite (Rplus_0_r x). apply Rplus_0_r.
Qed.
Print Assumptions C52_rotation_objective.

(** When alpha has been updated before, this holds for each of the two terms. *)
Theorem C52_rotation_terms : forall lg psi M, rot_ok M -> proper M -> shape_updated M ->
  exists s cX cA, ard_setup (rm_nodes M) = Ok s /\
  forall Rm inv logdet, is_inverse (rn_D (rm_nodes M)) Rm inv ->
  exists x a, ard_terms (rm_nodes M) s Rm logdet = Ok (x, a) /\
    bound_terms lg psi M Rm inv logdet = (x + cX, a + cA)%R.
Proof.
  intros lg psi M OK PR SU. destruct (setup_ok M OK) as (s & E & SO). exists s. destruct (rn_gamma (rm_nodes M)) as [a|] eqn:HG.
  - eexists _, _. split; [exact E|]. intros Rm inv logdet I. destruct (terms_updated lg psi M OK PR a HG SU s Rm inv logdet SO I) as (x & y & T & B1 & B2).
    exists x, y. split; [exact T|]. unfold bound_terms. rewrite HG. rewrite B1, B2. reflexivity.
  - eexists _, 0%R. split; [exact E|]. intros Rm inv logdet I. destruct (terms_fixed M OK s Rm inv logdet HG SO I) as (x & T & B).
    exists x, 0%R. split; [exact T|]. unfold bound_terms. rewrite HG. cbn [fst snd]. rewrite B. rewrite (Rplus_0_r 0). reflexivity.
Qed.
Print Assumptions C52_rotation_terms.

(** RotationOptimizer with two such blocks: R for the first block, its inverse transposed for
    the second one.  The decrease of the cost is the increase of the lower bound. *)
Definition both_bounds lg psi M1 M2 (Rm inv : mat) (logdet : R) : R :=
  (fst (bound_terms lg psi M1 Rm inv logdet) + snd (bound_terms lg psi M1 Rm inv logdet)
   + (fst (bound_terms lg psi M2 (transpose inv) (transpose Rm) (- logdet)) + snd (bound_terms lg psi M2 (transpose inv) (transpose Rm) (- logdet))))%R.
Theorem C52_optimizer_cost : forall lg psi np_inv np_logdet M1 M2 s1 s2 b1 b2,
  let D := rn_D (rm_nodes M1) in
  rot_ok M1 -> proper M1 -> rot_ok M2 -> proper M2 -> rn_D (rm_nodes M2) = D ->
  (forall A V, np_inv A = Ok V -> is_inverse D A V) ->
  ard_setup (rm_nodes M1) = Ok s1 -> b_kind b1 = RotGaussianARD -> b_bound b1 = ard_bound (rm_nodes M1) s1 ->
  ard_setup (rm_nodes M2) = Ok s2 -> b_kind b2 = RotGaussianARD -> b_bound b2 = ard_bound (rm_nodes M2) s2 ->
  forall R0 R1 inv0 inv1 c0 c1 d0 d1, np_inv R0 = Ok inv0 -> np_inv R1 = Ok inv1 ->
  rotation_cost np_inv np_logdet D b1 b2 R0 = Ok (c0, d0) ->
  rotation_cost np_inv np_logdet D b1 b2 R1 = Ok (c1, d1) ->
  (both_bounds lg psi M1 M2 R1 inv1 (np_logdet R1) - both_bounds lg psi M1 M2 R0 inv0 (np_logdet R0) = c0 - c1)%R.
Proof.
  intros lg psi np_inv np_logdet M1 M2 s1 s2 b1 b2 D O1 P1 O2 P2 ED HI E1 K1 B1 E2 K2 B2.
  destruct (C52_rotation_objective lg psi M1 O1 P1) as (s1' & k1 & E1' & H1). rewrite E1 in E1'. injection E1' as <-.
  destruct (C52_rotation_objective lg psi M2 O2 P2) as (s2' & k2 & E2' & H2). rewrite E2 in E2'. injection E2' as <-.
  assert (C : forall Rm inv c d, np_inv Rm = Ok inv -> rotation_cost np_inv np_logdet D b1 b2 Rm = Ok (c, d) ->
    both_bounds lg psi M1 M2 Rm inv (np_logdet Rm) = (- c + k1 + k2)%R).
  { intros Rm inv c d EI H. unfold rotation_cost, block_bound in H. rewrite EI, K1, K2, B1, B2 in H. cbn [bind] in H. pose proof (HI _ _ EI) as I.
    assert (I2 : is_inverse (rn_D (rm_nodes M2)) (transpose inv) (transpose Rm)) by (rewrite ED; apply inverse_tr, inverse_sym, I).
    destruct (H1 Rm inv (np_logdet Rm) I) as (x1 & a1 & T1 & Q1). destruct (H2 _ _ (- np_logdet Rm)%R I2) as (x2 & a2 & T2 & Q2).
    unfold ard_bound in H. rewrite T1 in H. cbn [bind] in H. destruct (ard_gradient (rm_nodes M1) s1 Rm inv); [|discriminate]. cbn [bind] in H.
    rewrite T2 in H. cbn [bind] in H. destruct (ard_gradient (rm_nodes M2) s2 _ _); [|discriminate]. cbn [bind fst snd] in H. injection H as <- _.
    unfold both_bounds. rewrite Q1, Q2. ring. }
  intros R0 R1 inv0 inv1 c0 c1 d0 d1 J0 J1 H0 H3. rewrite (C _ _ _ _ J0 H0), (C _ _ _ _ J1 H3). ring.
Qed.
Print Assumptions C52_optimizer_cost.

(** The gradient, when the shape of the prior of alpha is one number. *)
Theorem C53_gradient : forall M, rot_ok M -> proper M ->
  let n := rm_nodes M in let D := rn_D n in
  (forall p, valid (rn_plates n) p -> forall k l, k < D -> l < D -> x_second M p k l = x_second M p l k) ->
  (forall a, rn_gamma n = Some a -> forall k, ax (ash (ga_a0 a)) k = 1) ->
  exists s, ard_setup n = Ok s /\
  forall Rm inv, is_inverse D Rm inv ->
  exists g, ard_gradient n s Rm inv = Ok g /\
  forall i j, i < D -> j < D -> derivable_pt_lim (fun t => objective n s (set_entry Rm i j t)) (Rm i j) (g i j).
Proof.
  intros M OK PR n D SYM A0. destruct (setup_ok M OK) as (s & E & SO). exists s. split; [exact E|]. intros Rm inv I.
  destruct (rn_gamma n) as [a|] eqn:HG.
  - destruct (gradient_updated M OK s SO Rm inv a HG (fun k => A0 a eq_refl (S k))) as (_ & _ & _ & _ & _ & _ & _ & g & Eg & _).
    exists g. split; [exact Eg|]. intros i j Hi Hj.
    destruct (derivative_updated M OK PR SYM s SO Rm inv i j I Hi Hj a HG (fun k => A0 a eq_refl (S k))) as (g' & Eg' & Dg).
    pose proof (eq_trans (eq_sym Eg) Eg') as EE. injection EE as <-. refine (dlim_eq _ _ _ _ Dg _). unfold prior_error.
    replace (bget (ga_a0 a) (vec_at env0 i)) with (bget (ga_a0 a) (vec_at env0 j)); [ring|]. apply bget_ext. intros k _ N. exfalso. apply N, (A0 a eq_refl).
  - destruct (gradient_fixed M OK s SO Rm inv HG) as (g & Eg & Vg). exists g. split; [exact Eg|]. intros i j Hi Hj. rewrite (Vg i j Hi Hj).
    exact (derive_fixed M OK SYM s SO Rm inv i j I Hi Hj HG).
Qed.
Print Assumptions C53_gradient.

(** The gradient the optimizer is given: the derivative of the cost of two blocks rotated by R and
    by the transposed inverse of R, with respect to every element of R. *)
Definition cost_of (r : res (R * mat)) : R := match r with Ok (c, _) => c | Err _ => 0%R end.
Theorem C53_cost_gradient : forall np_inv np_logdet M1 M2 s1 s2 b1 b2,
  let D := rn_D (rm_nodes M1) in
  (forall M, M = M1 \/ M = M2 ->
     rot_ok M /\ proper M /\ rn_D (rm_nodes M) = D /\
     (forall p, valid (rn_plates (rm_nodes M)) p -> forall k l, k < D -> l < D -> x_second M p k l = x_second M p l k) /\
     (forall a, rn_gamma (rm_nodes M) = Some a -> forall k, ax (ash (ga_a0 a)) k = 1)) ->
  (forall A V, np_inv A = Ok V -> is_inverse D A V) ->
  (forall A, (exists V, is_inverse D A V) -> exists V, np_inv A = Ok V) ->
  (forall A, np_logdet A = ln (Rabs (mdet D A))) ->
  ard_setup (rm_nodes M1) = Ok s1 -> b_kind b1 = RotGaussianARD -> b_bound b1 = ard_bound (rm_nodes M1) s1 ->
  ard_setup (rm_nodes M2) = Ok s2 -> b_kind b2 = RotGaussianARD -> b_bound b2 = ard_bound (rm_nodes M2) s2 ->
  forall Rm, (exists V, is_inverse D Rm V) ->
  exists c g, rotation_cost np_inv np_logdet D b1 b2 Rm = Ok (c, g) /\
  forall i j, i < D -> j < D ->
    (exists r, (0 < r)%R /\ forall t, (Rabs (t - Rm i j) < r)%R -> exists x, rotation_cost np_inv np_logdet D b1 b2 (set_entry Rm i j t) = Ok x) /\
    derivable_pt_lim (fun t => cost_of (rotation_cost np_inv np_logdet D b1 b2 (set_entry Rm i j t))) (Rm i j) (g i j).
Proof.
  intros np_inv np_logdet M1 M2 s1 s2 b1 b2 D HM HI HX HL E1 K1 B1 E2 K2 B2.
  destruct (HM M1 (or_introl eq_refl)) as (O1 & P1 & _ & S1 & A1). destruct (HM M2 (or_intror eq_refl)) as (O2 & P2 & ED & S2 & A2). clear HM.
  destruct (setup_ok M1 O1) as (s1' & E1' & SO1). rewrite E1 in E1'. injection E1' as <-.
  destruct (setup_ok M2 O2) as (s2' & E2' & SO2). rewrite E2 in E2'. injection E2' as <-.
  destruct (C52_rotation_objective (fun _ => 0%R) (fun _ => 0%R) M1 O1 P1) as (s1' & k1 & E1' & T1). rewrite E1 in E1'. injection E1' as <-.
  destruct (C52_rotation_objective (fun _ => 0%R) (fun _ => 0%R) M2 O2 P2) as (s2' & k2 & E2' & T2). rewrite E2 in E2'. injection E2' as <-.
  assert (G : forall M s, rot_ok M -> proper M -> (forall p, valid (rn_plates (rm_nodes M)) p -> forall k l, k < rn_D (rm_nodes M) -> l < rn_D (rm_nodes M) -> x_second M p k l = x_second M p l k) ->
    (forall a, rn_gamma (rm_nodes M) = Some a -> forall k, ax (ash (ga_a0 a)) k = 1) -> ard_setup (rm_nodes M) = Ok s ->
    forall Rm inv, is_inverse (rn_D (rm_nodes M)) Rm inv -> exists g, ard_gradient (rm_nodes M) s Rm inv = Ok g).
  { intros M s O Pm Sy A E Rm inv I. destruct (C53_gradient M O Pm Sy A) as (s' & Es & H). rewrite E in Es. injection Es as <-.
    destruct (H Rm inv I) as (g & Eg & _). exists g. exact Eg. }
  pose proof (G M1 s1 O1 P1 S1 A1 E1) as G1. assert (S2' := S2). rewrite <- ED in S2'. pose proof (G M2 s2 O2 P2 S2' A2 E2) as G2. clear G.
  set (n1 := rm_nodes M1) in *. set (n2 := rm_nodes M2) in *.
  assert (VAL : forall Q V, np_inv Q = Ok V -> exists g1 g2,
    ard_gradient n1 s1 Q V = Ok g1 /\ ard_gradient n2 s2 (transpose V) (transpose Q) = Ok g2 /\
    rotation_cost np_inv np_logdet D b1 b2 Q = Ok (- (objective n1 s1 Q + curve_value M2 s2 (fun _ => transpose V) (fun _ => - ln (Rabs (mdet D Q))) 0),
      scal_m (-1) (add_m g1 (scal_m (-1) (dot3 D (transpose V) (transpose g2) (transpose V)))))%R).
  { intros Q V EV. pose proof (HI _ _ EV) as I. assert (I2 : is_inverse (rn_D n2) (transpose V) (transpose Q)) by (rewrite ED; apply inverse_tr, inverse_sym, I).
    destruct (G1 Q V I) as (g1 & Eg1). destruct (G2 _ _ I2) as (g2 & Eg2). exists g1, g2. split; [exact Eg1|split; [exact Eg2|]].
    destruct (T1 Q V (ln (Rabs (mdet D Q))) I) as (x1 & y1 & Et1 & _). destruct (T2 _ _ (- ln (Rabs (mdet D Q)))%R I2) as (x2 & y2 & Et2 & _).
    unfold rotation_cost, block_bound. rewrite EV, K1, K2, B1, B2, HL. cbn [bind]. unfold ard_bound. rewrite Et1. cbn [bind]. rewrite Eg1. cbn [bind]. rewrite Et2. cbn [bind]. rewrite Eg2. cbn [bind fst snd].
    unfold objective, curve_value. fold n2. change (rn_D n1) with D. rewrite Et1, Et2. reflexivity. }
  intros Rm EX. destruct (HX Rm EX) as (V & EV). pose proof (HI _ _ EV) as I. destruct (VAL _ _ EV) as (g1 & g2 & Eg1 & Eg2 & EC). clear EX.
  eexists _, _. split; [exact EC|]. intros i j Hi Hj. set (r := (/ (1 + Rabs (V j i)))%R).
  assert (Pr : (0 < r)%R) by (apply Rinv_0_lt_compat; pose proof (Rabs_pos (V j i)); lra).
  assert (NR : forall t, (Rabs (t - Rm i j) < r)%R -> exists W, np_inv (mupd Rm i j t) = Ok W /\ meq D W (sm_inv Rm V i j t)).
  { intros t Ht. pose proof (sm_inv_ok D Rm V i j I Hi Hj t (sm_near Rm V i j t Ht)) as It. destruct (HX _ (ex_intro _ _ It)) as (W & EW).
    exists W. split; [exact EW|]. apply (inverse_unique D (mupd Rm i j t)); [apply (HI _ _ EW)|exact (proj1 It)]. }
  split.
  - exists r. split; [exact Pr|]. intros t Ht. destruct (NR t Ht) as (W & EW & _). destruct (VAL _ _ EW) as (h1 & h2 & _ & _ & EQ). eexists. exact EQ.
  - set (Vt := fun t => match np_inv (mupd Rm i j t) with Ok W => W | Err _ => identity end).
    assert (V0 : Vt (Rm i j) = V) by (unfold Vt; rewrite at_x0, EV; reflexivity).
    assert (I2 : is_inverse (rn_D n2) (transpose V) (transpose Rm)) by (rewrite ED; apply inverse_tr, inverse_sym, I).
    apply (dlim_ext_near (fun t => - (objective n1 s1 (mupd Rm i j t) + curve_value M2 s2 (fun t => transpose (Vt t)) (fun t => - ln (Rabs (mdet D (mupd Rm i j t)))) t))%R _ _ _ r Pr).
    { intros t Ht. destruct (NR t Ht) as (W & EW & _). destruct (VAL _ _ EW) as (h1 & h2 & _ & _ & EQ). change (set_entry Rm i j t) with (mupd Rm i j t). rewrite EQ. cbn [cost_of].
      unfold Vt, curve_value. rewrite EW. reflexivity. }
    assert (D1 : derivable_pt_lim (fun t => objective n1 s1 (mupd Rm i j t)) (Rm i j) (g1 i j)) by exact (entry_gradient M1 O1 P1 S1 A1 s1 SO1 Rm V g1 i j I Eg1 Hi Hj).
    assert (D2 : derivable_pt_lim (curve_value M2 s2 (fun t => transpose (Vt t)) (fun t => - ln (Rabs (mdet D (mupd Rm i j t))))%R) (Rm i j)
      (rsum D (fun a => rsum D (fun b => g2 a b * - (V b i * V j a))))%R).
    { eapply dlim_eq; [apply (curve_gradient M2 O2 P2 S2' A2 s2 SO2 _ _ _ (- V j i)%R (fun a b => - (V b i * V j a))%R (transpose Rm) g2)|fold n2; rewrite ED; reflexivity].
      - fold n2. rewrite ED. intros a b Ha Hb. unfold transpose. apply (dlim_ext_near (fun t => sm_inv Rm V i j t b a) _ _ _ r Pr).
        + intros t Ht. unfold Vt. destruct (NR t Ht) as (W & EW & Q). rewrite EW. symmetry. apply Q; assumption.
        + apply sm_derive.
      - apply d_opp, logdet_derive; [exact Hi|exact Hj|exact I|exact (inverse_nonzero M1 Rm V I)].
      - fold n2. rewrite V0. exact I2.
      - fold n2. rewrite V0. exact Eg2.
      - fold n2. rewrite ED. unfold transpose. rewrite rsum_swap.
        rewrite (rsum_ext D _ (fun b => if b =? j then - V b i else 0)%R); [apply (rsum_single D j (fun b => - V b i)%R Hj)|].
        intros b Hb. rewrite (rsum_ext D _ (fun a => - V b i * (V j a * Rm a b))%R) by (intros; ring). rewrite rsum_scal.
        pose proof (proj2 I j b Hj Hb) as EI. unfold mmdot, identity in EI. rewrite EI, (Nat.eqb_sym j b). destruct (b =? j); ring. }
    eapply dlim_eq; [apply d_opp, d_plus; [exact D1|exact D2]|].
    unfold scal_m, add_m, dot3, mmdot, transpose.
    rewrite (rsum_ext D (fun a => rsum D (fun b => g2 a b * - (V b i * V j a)))%R (fun k => -1 * (rsum D (fun l => V l i * g2 k l) * V j k))%R); [rewrite rsum_scal; ring|].
    intros a _. rewrite <- rsum_scal_r, <- rsum_scal. apply rsum_ext. intros. ring.
Qed.
Print Assumptions C53_cost_gradient.

(** A concrete model: three plates of two elements with correlated posteriors, alpha with one
    value for each element. *)
Definition ex_X : arr R := Arr [2] (fun e => if e 0 =? 0 then 1%R else 0%R).
Definition ex_XX : arr R := Arr [2; 2] (fun e => if (e 0 =? 0) && (e 1 =? 0) then 2%R else 1%R).
Definition ex_nodes (P : shape) (g : option gamma_alpha) : ard_nodes :=
  ArdNodes P 2 ex_X ex_XX (scalar 0%R) (scalar 0%R) (Arr [2] (fun _ => 1%R)) [2] g.
Definition ex_model (P : shape) (g : option gamma_alpha) : rot_model :=
  RotModel (ex_nodes P g) (fun _ => (fun _ => 0%R, fun i j => if i =? j then (- 0.5)%R else 0%R)) (fun _ => 0%R) (fun _ => 0%R) (fun _ => 0%R) (fun _ => 0%R).
Definition ex_alpha (phi1 : R) (a0 : arr R) : gamma_alpha := GammaAlpha [2] (scalar phi1) a0 (scalar 1%R).

Lemma ex_broadcast : forall P (s : shape), broadcasts_to s [2] -> broadcasts_to s (P ++ [2]).
Proof.
  intros P s [L K]. split; [rewrite app_length; cbn in *; lia|]. intros k. rewrite ax_app. cbn [length]. destruct k as [|k]; [exact (K 0)|]. cbn [Nat.ltb Nat.leb].
  left. apply ax_overflow. cbn in L. lia.
Qed.
Lemma ex_scalar : forall (x : R) s, broadcasts_to (ash (scalar x)) s.
Proof. intros. split; [cbn; lia|]. intros k. left. destruct k; reflexivity. Qed.
Lemma ex_ok : forall P phi1 a0, (forall k, 0 < ax P k) -> broadcasts_to (ash a0) [2] -> rot_ok (ex_model P (Some (ex_alpha phi1 a0))).
Proof.
  intros P phi1 a0 HP HA. split; cbn [ex_model ex_nodes rm_nodes rn_plates rn_D rn_X rn_XX rn_alpha rn_alpha_mu rn_alpha_mu2 rn_shape rn_gamma].
  - exact HP.
  - lia.
  - split; [cbn; lia|]. split; [intros i _; reflexivity|]. apply ex_broadcast, broadcasts_to_refl.
  - split; [cbn; lia|]. split; [intros i _; reflexivity|]. split; [rewrite app_length; cbn; lia|]. intros k. rewrite ax_app. cbn [length].
    destruct (Nat.ltb_spec k 2); [now right|left; apply ax_overflow; cbn; lia].
  - split; [apply ex_broadcast, broadcasts_to_refl|]. split; apply ex_scalar.
  - intros e _. unfold bget. cbn. lra.
  - split; [apply ex_broadcast, broadcasts_to_refl|]. apply broadcasts_to_refl.
  - intros a E. injection E as <-. cbn. split; [apply ex_broadcast, broadcasts_to_refl|]. split; [exact (ex_scalar 0 _)|]. split; [exact HA|exact (ex_scalar 0 _)].
Qed.
Lemma ex_second : forall P g p i j, i < 2 -> j < 2 -> x_second (ex_model P g) p i j = if (i =? 0) && (j =? 0) then 2%R else 1%R.
Proof. intros P g p i j Hi Hj. destruct i as [|[|]], j as [|[|]]; try lia; reflexivity. Qed.
Lemma ex_mean : forall P g p i, i < 2 -> x_mean (ex_model P g) p i = if i =? 0 then 1%R else 0%R.
Proof. intros P g p i Hi. destruct i as [|[|]]; try lia; reflexivity. Qed.
Lemma ex_proper : forall P phi1 a0, proper (ex_model P (Some (ex_alpha phi1 a0))).
Proof.
  intros P phi1 a0. split.
  - intros p _ v. cbn [ex_model ex_nodes rm_nodes rn_D]. unfold innerv. cbn [rsum]. rewrite !ex_mean, !ex_second by lia. cbn [Nat.eqb andb].
    pose proof (Rle_0_sqr (v 0%nat + v 1%nat)%R) as S1. unfold Rsqr in S1. lra.
  - intros e _. unfold mu_mean, mu_second, bget. cbn. lra.
  - intros a E s _. injection E as <-. unfold bget. cbn. lra.
Qed.
Example ex_rotation_models :
  let M := ex_model [3] (Some (ex_alpha 2.5 (scalar 1%R))) in
  rot_ok M /\ proper M /\ shape_updated M /\
  (forall p, valid [3] p -> forall k l, k < 2 -> l < 2 -> x_second M p k l = x_second M p l k) /\
  (forall a, rn_gamma (rm_nodes M) = Some a -> forall k, ax (ash (ga_a0 a)) k = 1) /\
  exists Rm inv, is_inverse 2 Rm inv /\ Rm 0 1 = 1%R.
Proof.
  cbv zeta. split; [apply ex_ok; [intros [|[|k]]; unfold ax; cbn; lia|apply ex_scalar]|]. split; [apply ex_proper|].
  split.
  { intros a E s Hs. injection E as <-. unfold new_a. pose proof (Hs 0) as H0. cbn [ex_alpha ga_plates ax rev nth] in H0. unfold ax in H0. cbn in H0.
    pose proof (Hs 1) as H1. unfold ax in H1. cbn in H1.
    assert (F : fibre_sum ([3] ++ [2]) [2] s (fun _ => 1%R) = 3%R).
    { rewrite fibre_total. change ([3] ++ [2]) with ([3] ++ [2]). rewrite total_vec, total_one. unfold rsum, maps_to. cbn. replace (s 1) with 0 by lia.
      destruct (s 0) as [|[|]]; cbn; try lia; lra. }
    cbn [ex_model ex_nodes rm_nodes rn_plates rn_D ex_alpha ga_plates ga_a0 ga_phi1] in *. rewrite F. unfold bget. cbn. lra. }
  split; [intros p _ k l Hk Hl; rewrite !ex_second by assumption; now rewrite andb_comm|].
  split; [intros a E k; injection E as <-; destruct k; reflexivity|].
  exists (fun i j => if (i =? 0) && (j =? 1) then 1%R else identity i j), (fun i j => if (i =? 0) && (j =? 1) then (-1)%R else identity i j). split; [|reflexivity].
  split; intros i j Hi Hj; unfold mmdot, identity; cbn [rsum]; destruct i as [|[|]], j as [|[|]]; try lia; cbn; lra.
Qed.

(** A matrix inverse as C53_cost_gradient assumes it; the models of the two blocks may be the one above. *)
Example ex_inverse : (forall A V, ex_inv A = Ok V -> is_inverse 2 A V) /\ (forall A, (exists V, is_inverse 2 A V) -> exists V, ex_inv A = Ok V).
Proof.
  split; intros A; unfold ex_inv; destruct (ClassicalEpsilon.excluded_middle_informative _) as [E|N].
  - intros V. destruct (ClassicalEpsilon.constructive_indefinite_description _ E) as [W HW]. cbn. now injection 1 as <-.
  - discriminate.
  - intros _. eexists. reflexivity.
  - intros H. contradiction.
Qed.

(** The shape of the prior may be an array with one value for each element of X.  The gradient
    then multiplies column j with the value of element j; it should be row i. *)
Theorem C53_vector_prior_refuted : exists M s g,
  let n := rm_nodes M in
  rot_ok M /\ proper M /\
  (forall p, valid (rn_plates n) p -> forall k l, k < rn_D n -> l < rn_D n -> x_second M p k l = x_second M p l k) /\
  ard_setup n = Ok s /\ is_inverse (rn_D n) identity identity /\ ard_gradient n s identity identity = Ok g /\
  ~ derivable_pt_lim (fun t => objective n s (set_entry identity 0 1 t)) (identity 0 1) (g 0 1).
Proof.
  set (a := ex_alpha 1 (Arr [2] (fun e => if e 0 =? 0 then 1%R else 2%R))). set (M := ex_model [] (Some a)).
  assert (OK : rot_ok M) by (apply ex_ok; [intros [|k]; unfold ax; cbn; lia|apply broadcasts_to_refl]).
  assert (PR : proper M) by apply ex_proper.
  assert (SYM : forall p, valid (rn_plates (rm_nodes M)) p -> forall k l, k < 2 -> l < 2 -> x_second M p k l = x_second M p l k).
  { intros p _ k l Hk Hl. unfold M. rewrite !ex_second by assumption. now rewrite andb_comm. }
  assert (I : is_inverse 2 identity identity) by (split; intros i j Hi Hj; unfold mmdot, identity; cbn [rsum]; destruct i as [|[|]], j as [|[|]]; try lia; cbn; lra).
  assert (A0 : forall k, ax (ash (ga_a0 a)) (S k) = 1) by (intros [|k]; reflexivity).
  destruct (setup_ok M OK) as (s & E & SO).
  assert (H0 : 0 < 2) by lia. assert (H1 : 1 < 2) by lia.
  destruct (derivative_updated M OK PR SYM s SO identity identity 0 1 I H0 H1 a eq_refl A0) as (g & Eg & Dg).
  exists M, s, g. cbv zeta. split; [exact OK|]. split; [exact PR|]. split; [exact SYM|]. split; [exact E|]. split; [exact I|]. split; [exact Eg|].
  intros Dg'. assert (Z : prior_error M identity identity 0 1 a = 0%R).
  { pose proof (uniqueness_limite _ _ _ _ Dg Dg') as U. lra. }
  assert (TN : forall F, total [] F = (F env0 + 0)%R) by reflexivity.
  revert Z. unfold prior_error. change (outer_alpha (rm_nodes M)) with (@nil nat). rewrite TN.
  assert (NB : (0 < new_b M a identity identity 0 (clip (ga_plates a) (vec_at env0 0)))%R).
  { apply (new_b_pos M PR a eq_refl). apply (valid_clip [2] [2]); [apply broadcasts_to_refl|]. intros [|[|k]]; unfold vec_at, join, upd, env0, ax; cbn; lia. }
  set (nb := new_b M a identity identity 0 (clip (ga_plates a) (vec_at env0 0))) in *. clearbody nb.
  assert (EW : W M identity env0 0 1 = 2%R).
  { unfold W. change (outer_alpha (rm_nodes M)) with (@nil nat). change (rn_plates (rm_nodes M)) with (@nil nat). change (fibre_sum [] [] env0 (dd M identity 0 1)) with (dd M identity 0 1 env0 + 0)%R. unfold dd.
    change (rn_D (rm_nodes M)) with 2. cbn [rsum]. unfold M. rewrite !ex_second, !ex_mean by lia. unfold mu_mean, bget, identity. cbn. lra. }
  rewrite EW. replace (bget (ga_a0 a) (vec_at env0 0)) with 1%R by reflexivity. replace (bget (ga_a0 a) (vec_at env0 1)) with 2%R by reflexivity.
  assert (P1 : (0 < / nb)%R) by now apply Rinv_0_lt_compat. unfold Rdiv. lra.
Qed.
Print Assumptions C53_vector_prior_refuted.

(** Masked plates of X are not part of the lower bound, but of the objective. *)
Definition masked_X_bound M (mask : env -> bool) (alpha logalpha : env -> R) (Rm inv : mat) (logdet : R) : R :=
  total (rn_plates (rm_nodes M)) (fun p => if mask p then
    let '(u, phi, g) := rotated M Rm inv logdet p in x_term M (parent_moments M alpha logalpha p) u phi g else 0%R).
Lemma ex_ok_fixed : forall P, (forall k, 0 < ax P k) -> rot_ok (ex_model P None) /\ proper (ex_model P None).
Proof.
  intros P HP. pose proof (ex_ok P 0 (scalar 0%R) HP (ex_scalar _ _)) as O. pose proof (ex_proper P 0 (scalar 0%R)) as Q.
  split; [destruct O as [O1 O2 O3 O4 O5 O6 O7 O8]|destruct Q as [Q1 Q2 Q3]]; split; try assumption; intros a E; discriminate.
Qed.
Theorem C52_masked_refuted : exists M mask, rot_ok M /\ proper M /\ rn_gamma (rm_nodes M) = None /\
  ~ exists s c, ard_setup (rm_nodes M) = Ok s /\
    forall Rm inv, is_inverse (rn_D (rm_nodes M)) Rm inv ->
    exists x a, ard_terms (rm_nodes M) s Rm (ln (Rabs (mdet (rn_D (rm_nodes M)) Rm))) = Ok (x, a) /\
      (masked_X_bound M mask (bget (rn_alpha (rm_nodes M))) (rm_logalpha M) Rm inv (ln (Rabs (mdet (rn_D (rm_nodes M)) Rm))) = x + a + c)%R.
Proof.
  set (M := ex_model [2] None). exists M, (fun p => p 0 =? 0). assert (HP : forall k, 0 < ax [2] k) by (intros [|[|k]]; unfold ax; cbn; lia).
  destruct (ex_ok_fixed [2] HP) as [OK PR]. fold M in OK, PR. split; [exact OK|]. split; [exact PR|]. split; [reflexivity|].
  intros (s & c & E & H). destruct (C52_rotation_objective (fun _ => 0%R) (fun _ => 0%R) M OK PR) as (s' & c' & E' & H'). rewrite E in E'. injection E' as <-.
  (* the term of the masked plate would not depend on R *)
  set (al := bget (rn_alpha (rm_nodes M))) in *.
  assert (T : forall Rm inv, is_inverse 2 Rm inv -> (plate_const M (upd env0 0 1) + ln (Rabs (mdet 2 Rm))
     + rsum 2 (fun i => -0.5 * (al (vec_at (upd env0 0 1) i) * deviation M Rm inv (ln (Rabs (mdet 2 Rm))) (vec_at (upd env0 0 1) i)) + 0.5 * 0) = c' - c)%R).
  { intros Rm inv I. destruct (H Rm inv I) as (x & y & T1 & B1). destruct (H' Rm inv (ln (Rabs (mdet 2 Rm))) I) as (x' & y' & T2 & B2).
    change (rn_D (rm_nodes M)) with 2 in *. rewrite T1 in T2. injection T2 as <- <-. unfold bound_terms in B2. change (rn_gamma (rm_nodes M)) with (@None gamma_alpha) in B2. cbn [fst snd] in B2.
    unfold masked_X_bound, X_bound in *. change (rn_plates (rm_nodes M)) with [2] in *. rewrite total_one in *. cbn [rsum] in B1, B2. change (upd env0 0 0 0 =? 0) with true in B1. change (upd env0 0 1 0 =? 0) with false in B1.
    cbv iota in B1. fold al in B2.
    pose proof (x_term_eq M Rm inv (ln (Rabs (mdet 2 Rm))) al (rm_logalpha M) (upd env0 0 1) I) as X1. cbv beta in X1. change (rn_D (rm_nodes M)) with 2 in X1.
    change (rm_logalpha M) with (fun _ : env => 0%R) in *. cbv beta in X1. rewrite <- X1. lra. }
  assert (Q : forall (r : R), r <> 0%R -> is_inverse 2 (fun i j => r * identity i j)%R (fun i j => / r * identity i j)%R).
  { intros r Hr. split; intros i j Hi Hj; unfold mmdot, identity; cbn [rsum]; destruct i as [|[|]], j as [|[|]]; try lia; cbn; field; exact Hr. }
  assert (Dt : forall r, (0 < r)%R -> mdet 2 (fun i j => r * identity i j)%R = (r * r)%R).
  { intros r Hr. rewrite mdet_tri; [unfold identity; cbn; ring|]. split; intros i; unfold identity; [intros j Hij Hj; destruct (Nat.eqb_spec i j); [lia|ring]|intros Hi; rewrite Nat.eqb_refl; lra]. }
  assert (Dv : forall r inv l, rsum 2 (fun i => -0.5 * (al (vec_at (upd env0 0 1) i) * deviation M (fun i j => r * identity i j)%R inv l (vec_at (upd env0 0 1) i)) + 0.5 * 0)%R = (- 1.5 * (r * r))%R).
  { intros r inv l. cbn [rsum]. unfold M. rewrite !deviation_eq by (cbn; lia). change (rn_D (rm_nodes (ex_model [2] None))) with 2. cbn [rsum]. rewrite !ex_second, !ex_mean by lia.
    unfold al, mu_mean, mu_second, identity, bget. cbn. lra. }
  pose proof (T _ _ (Q 1%R ltac:(lra))) as T1. pose proof (T _ _ (Q 2%R ltac:(lra))) as T2. pose proof (T _ _ (Q (1/2)%R ltac:(lra))) as T3.
  rewrite Dv, Dt in T1, T2, T3 by lra.
  replace (1 * 1)%R with 1%R in T1 by ring. rewrite Rabs_R1, ln_1 in T1.
  replace (1 / 2 * (1 / 2))%R with (/ (2 * 2))%R in T3 by field. rewrite Rabs_inv, ln_Rinv in T3 by (rewrite Rabs_right; lra). lra.
Qed.
Print Assumptions C52_masked_refuted.
