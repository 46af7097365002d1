(** Properties C22 and C41 for the Gaussian-type and Wishart distributions. *)
From Coq Require Import List Arith Lia Bool Reals Lra FunctionalExtensionality.
From Verif Require Import Base NumPy TensorLemmas MarkovLemmas Families SpecFamilies FamiliesLemmas FamiliesLemmas2 PFamilies2
  Linalg MatBridge SpecLinalg LinalgLemmas Gaussian SpecGaussian GaussLemmas GaussAlg PGaussian PGaussian2 GaussGibbs
  SpecGradient GaussDeriv GaussDeriv2 GaussianGrad.
Import ListNotations.
Open Scope R_scope.

(** ** C22: the moments are the gradient of -g, in every direction *)

Theorem C22_gaussian : forall D (phi d : vec * mat), symmetric D (snd phi) -> symmetric D (snd d) ->
  posdef D (scal_m (-2) (snd phi)) ->
  exists u g, gaussian_moments D phi = Ok (u, g) /\
    derivable_pt_lim (fun t => - cgf_of (gaussian_moments D (gline phi d t))) 0
      (dotv D (fst d) (fst u) + dot_m D (snd d) (snd u)).
Proof.
  intros D phi d Sy Sd P. destruct (gm_near D phi d Sy P) as (r & Hr & K & _).
  specialize (K 0 ltac:(rewrite Rabs_R0; lra)). rewrite gline0 in K. do 2 eexists. split; [exact K|].
  exact (gm_g_deriv D phi d Sy Sd P).
Qed.
Print Assumptions C22_gaussian.

Lemma ard_as_gaussian : forall D (phi : vec * mat),
  match gaussian_moments D phi with
  | Ok (u, g) => exists u', ard_moments D phi = Ok (u', g) /\ fst u' = fst u /\ snd u' = snd u
  | Err e => ard_moments D phi = Err e end.
Proof.
  intros D phi. unfold gaussian_moments, ard_moments. destruct (chol D (scal_m (-2) (snd phi))) as [U|e]; cbn [bind]; [|reflexivity].
  eexists. split; [reflexivity|]. split; [reflexivity|]. cbn [snd]. extensionality i. extensionality j. unfold add_m. ring.
Qed.
Lemma ard_gaussian : forall D phi, ard_moments D phi = gaussian_moments D phi.
Proof.
  intros D phi. pose proof (ard_as_gaussian D phi) as H. destruct (gaussian_moments D phi) as [[[u0 u1] g]|e]; [|exact H].
  destruct H as ([v0 v1] & -> & E0 & E1). cbn [fst snd] in *. now rewrite E0, E1.
Qed.
Theorem C22_gaussian_ard : forall D (phi d : vec * mat), symmetric D (snd phi) -> symmetric D (snd d) ->
  posdef D (scal_m (-2) (snd phi)) ->
  exists u g, ard_moments D phi = Ok (u, g) /\
    derivable_pt_lim (fun t => - cgf_of (ard_moments D (gline phi d t))) 0
      (dotv D (fst d) (fst u) + dot_m D (snd d) (snd u)).
Proof.
  intros D phi d Sy Sd P. destruct (C22_gaussian D phi d Sy Sd P) as (u & g & E & H). exists u, g.
  split; [now rewrite ard_gaussian|]. eapply dlim_ext; [|exact H]. intros t. cbv beta. now rewrite ard_gaussian.
Qed.
Print Assumptions C22_gaussian_ard.

Theorem C22_gaussian_ard_scalar : forall phi0 phi1, phi1 < 0 ->
  exists u g, ard0_moments (phi0, phi1) = Ok (u, g) /\
    derivable_pt_lim (fun t => - cgf_of (ard0_moments (t, phi1))) phi0 (fst u) /\
    derivable_pt_lim (fun t => - cgf_of (ard0_moments (phi0, t))) phi1 (snd u).
Proof.
  intros p0 p1 H. unfold ard0_moments. cbn [fst snd]. destruct (Rle_dec (-2 * p1) 0); [lra|].
  do 2 eexists. split; [reflexivity|]. cbn [fst snd]. split.
  - apply (dlim_ext (fun t => - / (4 * p1) * (t * t) - 0.5 * ln (-2 * p1))).
    { intros t. cbn. replace 0.5 with (/ 2) by lra. replace (-0.5) with (- / 2) by lra. field. lra. }
    eapply dlim_eq; [apply d_minus; [apply d_scal; apply (d_mult (fun t => t) (fun t => t)); apply d_id|apply d_const]|].
    field. lra.
  - apply (dlim_ext_near (fun t => - (p0 * p0 / 4) * / t - 0.5 * ln (-2 * t)) _ _ _ (- p1)); [lra| |].
    + intros t Ht. apply Rabs_def2 in Ht. destruct (Rle_dec (-2 * t) 0); [lra|]. cbn.
      replace 0.5 with (/ 2) by lra. replace (-0.5) with (- / 2) by lra. field. lra.
    + eapply dlim_eq.
      * apply d_minus; [apply d_scal, (d_inv (fun t => t)); [lra|apply d_id]|].
        apply d_scal. apply (d_comp (fun t => -2 * t) ln); [apply d_scal, d_id|apply d_ln; lra].
      * cbn. replace 0.5 with (/ 2) by lra. field. lra.
Qed.
Print Assumptions C22_gaussian_ard_scalar.

(** Half the log-determinant of -2 (p + t d). *)
Lemma half_ld : forall D (p d : mat) V, symmetric D p -> symmetric D d -> posdef D (scal_m (-2) p) ->
  is_inverse D (scal_m (-2) p) V ->
  derivable_pt_lim (fun t => ln (mdet D (scal_m (-2) (mline p d t))) / 2) 0 (- innerm D d V).
Proof.
  intros D p d V Sy Sd P HV. set (z := fun _ : nat => 0).
  destruct (gm_near D (z, p) (z, d) Sy P) as (r & Hr & K & _).
  pose proof (gm_g_deriv D (z, p) (z, d) Sy Sd P) as H. cbn [fst snd] in H.
  assert (Z : vline z z = fun _ => z) by (extensionality t; extensionality i; unfold vline, z; ring).
  assert (GG : forall t, Rabs t < r -> gm_g D (gline (z, p) (z, d) t) = ln (mdet D (scal_m (-2) (mline p d t))) / 2 /\
            forall i, (i < D)%nat -> fst (gm_u D (gline (z, p) (z, d) t)) i = 0).
  { intros t Ht. assert (St : symmetric D (snd (gline (z, p) (z, d) t))) by now apply mline_symmetric.
    destruct (gm_spec D _ _ _ St (K t Ht)) as [Pt (Hm & I & _ & Hg)]. cbn [gline fst snd] in Hm, I, Hg, Pt. rewrite Z in Hm.
    set (m := fst (gm_u D (gline (z, p) (z, d) t))) in *.
    change (vline z z t, mline p d t) with (gline (z, p) (z, d) t) in *. fold m in Hm, I, Hg.
    assert (B0 : bilinear D (scal_m (-2) (mline p d t)) m m = 0).
    { rewrite bilinear_mv. rewrite (innerv_ext D m m _ z (fun _ _ => eq_refl) Hm). unfold innerv, z.
      rewrite (rsum_ext D _ (fun _ => 0)) by (intros; ring). apply rsum_0. }
    split; [rewrite Hg, B0; lra|]. apply (quad_zero D (scal_m (-2) (mline p d t))); [exact Pt|lra]. }
  apply (dlim_ext_near (fun t => - - gm_g D (gline (z, p) (z, d) t)) _ _ _ r Hr).
  { intros t Ht. rewrite Rminus_0_r in Ht. rewrite Ropp_involutive. now apply GG. }
  apply d_opp. eapply dlim_eq; [exact H|]. cbn [fst snd].
  assert (R0 : Rabs 0 < r) by (rewrite Rabs_R0; lra). destruct (GG 0 R0) as [_ M0]. rewrite gline0 in M0.
  specialize (K 0 R0). rewrite gline0 in K. destruct (gm_spec D (z, p) _ _ Sy K) as [_ (_ & I & _)]. cbn [snd] in I.
  transitivity (0 + innerm D d V); [|ring]. f_equal.
  - unfold innerv, z. rewrite (rsum_ext D _ (fun _ => 0)) by (intros; ring). apply rsum_0.
  - apply innerm_ext; [apply meq_refl|]. intros i j Hi Hj.
    pose proof (inverse_unique D _ _ V I (proj1 HV) i j Hi Hj) as E. unfold sub_m, outerv in E. rewrite (M0 i Hi) in E. lra.
Qed.

Theorem C22_gaussian_gamma : forall lg psi D phi d, is_digamma lg psi ->
  let '(phi0, phi1, phi2, phi3) := phi in let '(d0, d1, d2, d3) := d in
  symmetric D phi1 -> symmetric D d1 -> 0 < phi3 ->
  forall u g, gg_moments lg psi D phi = Ok (u, g) ->
  let '(u0, u1, u2, u3) := u in
  derivable_pt_lim (fun t => - cgf_of (gg_moments lg psi D (ggline phi d t))) 0
    (dotv D d0 u0 + dot_m D d1 u1 + d2 * u2 + d3 * u3).
Proof.
  intros lg psi D [[[p0 p1] p2] p3] [[[d0 d1] d2] d3] HD Sy Sd Hp [[[u0 u1] u2] u3] g E.
  destruct (gg_split _ _ _ _ _ _ _ _ _ _ _ _ E) as (m & S & g0 & G & Hb & U0 & U1 & U2 & U3 & Eg).
  destruct (gm_spec D (p0, p1) (m, S) g0 Sy G) as [P (Hm & HV & Hd & Hg)]. cbn [fst snd] in *.
  destruct (gm_near D (p0, p1) (d0, d1) Sy P) as (r & Hr & K & C0 & C1).
  set (ph := gline (p0, p1) (d0, d1)) in *.
  assert (E0 : gm_u D (ph 0) = (m, S)) by (unfold ph, gm_u; now rewrite gline0, G).
  set (mt := fun t => fst (gm_u D (ph t))) in *.
  set (q := fun t => 0.5 * innerv D (mt t) (vline p0 d0 t)).
  assert (Cq : cont q).
  { unfold q. apply c_mult; [apply c_const|]. apply (c_rsum D (fun t i => mt t i * vline p0 d0 t i)). intros i Hi.
    apply c_mult; [now apply C0|apply c_line]. }
  set (b := fun t => - (p2 + t * d2) - q t).
  assert (Cb : cont b).
  { unfold b. apply c_minus; [|exact Cq]. apply (c_near (fun t => - p2 + t * (- d2)) _ 1); [lra|intros; ring|apply c_line]. }
  assert (Q0 : q 0 = 0.5 * innerv D m p0) by (unfold q, mt; now rewrite E0, vline0).
  assert (B0 : b 0 = - p2 - 0.5 * innerv D m p0) by (unfold b; rewrite Q0; ring).
  destruct (c_pos b Cb) as (r1 & Hr1 & Kb); [rewrite B0; exact Hb|].
  set (h := fun t => ln (mdet D (scal_m (-2) (mline p1 d1 t))) / 2).
  set (V := sub_m S (outerv m m)) in *.
  assert (Dh : derivable_pt_lim h 0 (- innerm D d1 V)) by (apply (half_ld D p1 d1 V Sy Sd P HV)).
  pose proof (gm_g_deriv D (p0, p1) (d0, d1) Sy Sd P) as Dg. cbn [fst snd] in Dg. fold ph in Dg.
  rewrite gline0 in E0 || idtac. assert (E0' : gm_u D (p0, p1) = (m, S)) by (unfold gm_u; now rewrite G). rewrite E0' in Dg. cbn [fst snd] in Dg.
  assert (HG : forall t, Rabs t < r -> gm_g D (ph t) + q t = h t).
  { intros t Ht. assert (St : symmetric D (snd (ph t))) by now apply mline_symmetric.
    destruct (gm_spec D _ _ _ St (K t Ht)) as [_ (Hmt & _ & _ & Hgt)]. rewrite Hgt. unfold q, h.
    change (fst (gm_u D (ph t))) with (mt t) in *. change (snd (ph t)) with (mline p1 d1 t) in *. change (fst (ph t)) with (vline p0 d0 t) in *.
    rewrite bilinear_mv, (innerv_ext D (mt t) (mt t) _ _ (fun _ _ => eq_refl) Hmt). lra. }
  assert (ES : innerm D d1 S = innerm D d1 V + innerm D d1 (outerv m m)).
  { rewrite <- innerm_add_r. apply innerm_ext; [apply meq_refl|]. intros i j _ _. unfold V, add_m, sub_m. ring. }
  assert (Dq : derivable_pt_lim q 0 (innerv D d0 m + innerm D d1 (outerv m m))).
  { apply (dlim_ext_near (fun t => h t + - gm_g D (ph t)) _ _ _ r Hr).
    - intros t Ht. rewrite Rminus_0_r in Ht. rewrite <- (HG t Ht). ring.
    - eapply dlim_eq; [apply d_plus; [exact Dh|exact Dg]|]. rewrite ES. ring. }
  assert (Db : derivable_pt_lim b 0 (- d2 - (innerv D d0 m + innerm D d1 (outerv m m)))).
  { unfold b. apply d_minus; [|exact Dq]. eapply dlim_eq; [apply d_opp, d_plus; [apply d_const|apply (d_mult (fun t => t) (fun _ => d2)); [apply d_id|apply d_const]]|]. ring. }
  assert (Da : derivable_pt_lim (fun t => p3 + t * d3) 0 d3).
  { eapply dlim_eq; [apply d_plus; [apply d_const|apply (d_mult (fun t => t) (fun _ => d3)); [apply d_id|apply d_const]]|]. ring. }
  assert (Hm2 : 0 < Rmin r r1) by now apply Rmin_pos.
  apply (dlim_ext_near (fun t => - (h t + (p3 + t * d3) * ln (b t) - lg (p3 + t * d3))) _ _ _ _ Hm2).
  { intros t Ht. rewrite Rminus_0_r in Ht.
    assert (T1 : Rabs t < r) by (eapply Rlt_le_trans; [exact Ht|apply Rmin_l]).
    assert (T2 : Rabs t < r1) by (eapply Rlt_le_trans; [exact Ht|apply Rmin_r]).
    assert (Gt := K t T1). destruct (gm_u D (ph t)) as [mm SS] eqn:Eu.
    assert (Emt : mm = mt t) by (unfold mt; now rewrite Eu).
    unfold ph, gline in Gt. cbn [fst snd] in Gt.
    assert (Bt : b t = - (p2 + t * d2) - 0.5 * innerv D mm (vline p0 d0 t)) by (rewrite Emt; reflexivity).
    destruct (gg_join lg psi D (vline p0 d0 t) (mline p1 d1 t) (p2 + t * d2) (p3 + t * d3) mm SS _ Gt) as (w & Ew & _).
    { rewrite <- Bt. now apply Kb. }
    unfold ggline. rewrite Ew. unfold cgf_of. rewrite <- Bt, <- (HG t T1). unfold q. rewrite <- Emt. unfold ph, gline. cbn [fst snd]. ring. }
  eapply dlim_eq.
  - apply d_opp, d_minus; [apply d_plus; [exact Dh|]|].
    + apply (d_mult (fun t => p3 + t * d3) (fun t => ln (b t))); [exact Da|].
      apply (d_comp b ln); [exact Db|apply d_ln]. rewrite B0. exact Hb.
    + apply (d_comp (fun t => p3 + t * d3) lg); [exact Da|]. apply HD. lra.
  - cbv beta. rewrite B0. rewrite Rmult_0_l, Rplus_0_r. set (bb := - p2 - 0.5 * innerv D m p0) in *.
    change (dot_m D d1 u1) with (innerm D d1 u1). change (dotv D d0 u0) with (innerv D d0 u0).
    rewrite (innerm_ext D d1 d1 u1 _ (meq_refl D d1) U1), innerm_add_r, innerm_scal_r, U0, U2, U3.
    replace (innerv D d0 (scal_v (p3 / bb) m)) with (p3 / bb * innerv D d0 m)
      by (unfold innerv, scal_v; rewrite <- rsum_scal; apply rsum_ext; intros; ring).
    field. lra.
Qed.
Print Assumptions C22_gaussian_gamma.

Theorem C22_wishart : forall lg psi k (phi d : mat * R), is_digamma lg psi ->
  symmetric k (fst phi) -> symmetric k (fst d) -> posdef k (scal_m (-1) (fst phi)) -> INR k - 1 < 2 * snd phi ->
  exists u g, wishart_moments lg psi k phi = Ok (u, g) /\
    derivable_pt_lim (fun t => - cgf_of (wishart_moments lg psi k (wline phi d t))) 0
      (dot_m k (fst d) (fst u) + snd d * snd u).
Proof.
  intros lg psi k [p a] [d e] HD Sy Sd P Ha. cbn [fst snd] in *.
  set (A := fun t => scal_m (-1) (mline p d t)).
  assert (A0 : A 0 = scal_m (-1) p) by (unfold A; now rewrite mline0).
  destruct (posdef_chol k _ P) as [U E].
  assert (CA : forall i j, (i < k)%nat -> (j < k)%nat -> cont (fun t => A t i j)).
  { intros i j _ _. unfold A, scal_m, mline. apply c_mult; [apply c_const|apply c_line]. }
  destruct (fac_cont k A CA U) as (r & Hr & K & _); [now rewrite A0|].
  pose proof (chol_inv_ok k _ U (proj1 P) E) as HV. set (V := chol_inv k U) in *.
  assert (Dld : derivable_pt_lim (fun t => ln (mdet k (A t))) 0 (- innerm k d V)).
  { assert (EA : forall t, A t = scal_m (-2) (mline (scal_m (1/2) p) (scal_m (1/2) d) t)).
    { intros t. extensionality i. extensionality j. unfold A, scal_m, mline. field. }
    assert (H2 : derivable_pt_lim (fun t => ln (mdet k (A t)) / 2) 0 (- innerm k (scal_m (1/2) d) V)).
    { apply (dlim_ext (fun t => ln (mdet k (scal_m (-2) (mline (scal_m (1/2) p) (scal_m (1/2) d) t))) / 2)).
      - intros t. now rewrite <- EA.
      - assert (EP : scal_m (-2) (scal_m (1/2) p) = scal_m (-1) p).
        { extensionality i. extensionality j. unfold scal_m. field. }
        apply half_ld; rewrite ?EP; auto; now apply symmetric_scal. }
    apply (dlim_ext (fun t => 2 * (ln (mdet k (A t)) / 2))); [intros; field|].
    eapply dlim_eq; [apply d_scal, H2|]. rewrite innerm_scal_l. field. }
  unfold wishart_moments. cbn [fst snd].
  assert (Ec : chol k (scal_m (-1) p) = Ok U) by (unfold chol; now rewrite E). rewrite Ec. cbn [bind].
  do 2 eexists. split; [reflexivity|]. cbn [fst snd].
  apply (dlim_ext_near (fun t => multigammaln lg (a + t * e) k - (a + t * e) * ln (mdet k (A t))) _ _ _ r Hr).
  { intros t Ht. rewrite Rminus_0_r in Ht. unfold wline, chol. cbn [fst snd]. fold (A t). rewrite (K t Ht). cbn [bind cgf_of].
    rewrite (proj2 (chol_logdet_ok k (A t) _ (symmetric_scal k _ _ (mline_symmetric k p d t Sy Sd)) (K t Ht))). ring. }
  assert (Da : derivable_pt_lim (fun t => a + t * e) 0 e).
  { eapply dlim_eq; [apply d_plus; [apply d_const|apply (d_mult (fun t => t) (fun _ => e)); [apply d_id|apply d_const]]|]. ring. }
  eapply dlim_eq.
  - apply d_minus.
    + unfold multigammaln. apply d_plus; [apply d_const|].
      apply (d_rsum k (fun j t => lg (a + t * e - 0.5 * INR j)) 0 (fun j => psi (a - 0.5 * INR j) * e)). intros j Hj.
      assert (Hj0 : 0 < a - 0.5 * INR j) by (apply le_INR in Hj; rewrite S_INR in Hj; lra).
      eapply dlim_eq; [apply (d_comp (fun t => a + t * e - 0.5 * INR j) lg 0 e (psi (a + 0 * e - 0.5 * INR j)))|].
      * eapply dlim_eq; [apply d_minus; [exact Da|apply d_const]|]. ring.
      * apply HD. lra.
      * rewrite Rmult_0_l, Rplus_0_r. reflexivity.
    + apply (d_mult (fun t => a + t * e) (fun t => ln (mdet k (A t)))); [exact Da|exact Dld].
  - cbv beta. rewrite A0, <- (proj2 (chol_logdet_ok k _ U (proj1 P) E)).
    change (dot_m k d (scal_m a V)) with (innerm k d (scal_m a V)). rewrite innerm_scal_r.
    unfold multidigamma. rewrite rsum_scal_r. fold V. ring.
Qed.
Print Assumptions C22_wishart.

(** ** C41: compute_gradient is the gradient of <g, u(phi)>, in every direction *)

Theorem C41_gaussian : forall D (phi d g : vec * mat), symmetric D (snd phi) -> symmetric D (snd d) -> symmetric D (snd g) ->
  posdef D (scal_m (-2) (snd phi)) ->
  exists u c, gaussian_moments D phi = Ok (u, c) /\
    derivable_pt_lim (fun t => at_moments (fun u => dotv D (fst g) (fst u) + dot_m D (snd g) (snd u))
                                          (gaussian_moments D (gline phi d t))) 0
      (dotv D (fst d) (fst (gaussian_gradient D g u)) + dot_m D (snd d) (snd (gaussian_gradient D g u))).
Proof.
  intros D phi d g Sy Sd Sg P. destruct (gm_near D phi d Sy P) as (r & Hr & K & _).
  assert (K0 := K 0 ltac:(rewrite Rabs_R0; lra)). rewrite gline0 in K0. do 2 eexists. split; [exact K0|].
  apply (dlim_ext_near (fun t => let u := gm_u D (gline phi d t) in innerv D (fst g) (fst u) + innerm D (snd g) (snd u)) _ _ _ r Hr).
  - intros t Ht. rewrite Rminus_0_r in Ht. rewrite (K t Ht). reflexivity.
  - exact (gm_u_deriv D phi d g Sy Sd Sg P).
Qed.
Print Assumptions C41_gaussian.

Theorem C41_gaussian_ard : forall D (phi d g : vec * mat), symmetric D (snd phi) -> symmetric D (snd d) -> symmetric D (snd g) ->
  posdef D (scal_m (-2) (snd phi)) ->
  exists u c r, ard_moments D phi = Ok (u, c) /\ ard_gradient 1 D g u = Ok r /\
    derivable_pt_lim (fun t => at_moments (fun u => dotv D (fst g) (fst u) + dot_m D (snd g) (snd u))
                                          (ard_moments D (gline phi d t))) 0
      (dotv D (fst d) (fst r) + dot_m D (snd d) (snd r)).
Proof.
  intros D phi d g Sy Sd Sg P. destruct (C41_gaussian D phi d g Sy Sd Sg P) as (u & c & E & H). exists u, c, (gaussian_gradient D g u).
  split; [now rewrite ard_gaussian|]. split; [reflexivity|]. eapply dlim_ext; [|exact H]. intros t. cbv beta. now rewrite ard_gaussian.
Qed.
Print Assumptions C41_gaussian_ard.

(** The scalar variable. *)
Theorem C41_gaussian_ard_scalar : forall g phi0 phi1, phi1 < 0 ->
  exists u c, ard0_moments (phi0, phi1) = Ok (u, c) /\
    let F := at_moments (fun u => fst g * fst u + snd g * snd u) in
    derivable_pt_lim (fun t => F (ard0_moments (t, phi1))) phi0 (fst (ard0_gradient g u)) /\
    derivable_pt_lim (fun t => F (ard0_moments (phi0, t))) phi1 (snd (ard0_gradient g u)).
Proof.
  intros [g0 g1] p0 p1 H. unfold ard0_moments. cbn [fst snd]. destruct (Rle_dec (-2 * p1) 0); [lra|].
  do 2 eexists. split; [reflexivity|]. unfold at_moments, ard0_gradient. cbn [fst snd]. split.
  - apply (dlim_ext (fun t => g0 * (- / (2 * p1) * t) + g1 * (/ (4 * p1 * p1) * (t * t) - / (2 * p1)))).
    { intros t. field. lra. }
    eapply dlim_eq.
    + apply d_plus; apply d_scal; [apply d_scal, d_id|].
      apply d_minus; [apply d_scal; apply (d_mult (fun t => t) (fun t => t)); apply d_id|apply d_const].
    + field. lra.
  - apply (dlim_ext_near (fun t => g0 * (- (p0 / 2) * / t) + g1 * (p0 * p0 / 4 * (/ t * / t) - / 2 * / t)) _ _ _ (- p1)); [lra| |].
    + intros t Ht. apply Rabs_def2 in Ht. destruct (Rle_dec (-2 * t) 0); [lra|]. cbn. field. lra.
    + eapply dlim_eq.
      * apply d_plus; apply d_scal; [apply d_scal, (d_inv (fun t => t)); [lra|apply d_id]|].
        apply d_minus; apply d_scal; [apply (d_mult (fun t => / t) (fun t => / t))|]; apply (d_inv (fun t => t)); try lra; apply d_id.
      * cbn. field. lra.
Qed.
Print Assumptions C41_gaussian_ard_scalar.

(** A variable with two or more axes has no gradient: the code raises. *)
Theorem C41_gaussian_ard_matrix_refuted : forall ndim D g u, (1 < ndim)%nat -> ard_gradient ndim D g u = Err PyException.
Proof. intros [|[|n]] D g u H; [lia|lia|reflexivity]. Qed.
Print Assumptions C41_gaussian_ard_matrix_refuted.

(** A two-dimensional Gaussian, a symmetric direction and a symmetric gradient. *)
Example ex_C41_gaussian : symmetric 2 (snd ex_phi) /\ symmetric 2 ex_A /\ posdef 2 (scal_m (-2) (snd ex_phi)) /\
  exists u c, gaussian_moments 2 ex_phi = Ok (u, c).
Proof.
  assert (E : scal_m (-2) (snd ex_phi) = ex_A).
  { extensionality i. extensionality j. unfold scal_m, ex_phi. cbn [snd]. unfold scal_m. field. }
  assert (S : symmetric 2 (snd ex_phi)) by (apply symmetric_scal, ex_posdef).
  split; [exact S|]. split; [apply ex_posdef|]. split; [rewrite E; apply ex_posdef|].
  destruct (C22_gaussian 2 ex_phi ex_phi S S) as (u & c & H & _); [rewrite E; apply ex_posdef|]. eauto.
Qed.
