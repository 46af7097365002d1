(** C57: rotating a Gaussian Markov chain. *)
From Coq Require Import List Arith Lia Bool Reals Lra.
From Verif Require Import Base NumPy TensorLemmas Families FamiliesLemmas FamiliesLemmas2 Linalg MatBridge SpecLinalg LinalgLemmas Gaussian SpecGaussian GaussLemmas GaussAlg
  PGaussian PGaussian2 GaussGibbs Rotation PRotation DetGrad DetCurve BlockBanded GaussMarkov SpecGaussMarkov GaussMarkovLemmas PGaussMarkov RotateARD SpecRotateARD
  RotateChain SpecRotateChain RotateChainLemmas RotateChainLemmas2.
Import ListNotations.
Open Scope R_scope.

(** ** What rotate does to the dynamics *)
(** Row d of the rotated dynamics of one transition, from the posterior of its rows.  When a
    column of R sums to zero the rotation fails. *)
Theorem C57_dynamics : forall D M Rm inv (u phi : nat -> vec * mat) d, (D <= M)%nat -> (d < D)%nat -> is_inverse D Rm inv ->
  (forall k, (k < D)%nat -> symmetric M (snd (phi k)) /\ exists g, ard_moments M (phi k) = Ok (u k, g)) ->
  (rsum D (fun k => Rm k d) <> 0 -> exists x g, rotate_dynamics D M Rm inv u phi d = Ok (x, g) /\ row_rotated D M Rm inv u d x) /\
  (rsum D (fun k => Rm k d) = 0 -> rotate_dynamics D M Rm inv u phi d = Err PyException).
Proof.
  intros D M Rm inv u phi d HM Hd I OK. split.
  - intros HS. now apply dynamics_ok.
  - intros Z. unfold rotate_dynamics, rotate_plates. cbv zeta. destruct (Req_EM_T _ 0) as [_|N]; [reflexivity|contradiction].
Qed.
Print Assumptions C57_dynamics.

(** ** The objective *)
Lemma unit_at : forall D c n d, tarray_at (T1 D (fun _ => c)) n d = c.
Proof. intros. cbn. now destruct (D =? 1)%nat. Qed.
Lemma rotated_symmetric : forall D M Rm inv a d x, symmetric M (snd (a d)) -> row_rotated D M Rm inv a d x -> symmetric M (snd x).
Proof.
  intros D M Rm inv a d x Sy [_ H] i j Hi Hj. rewrite (H i j Hi Hj), (H j i Hj Hi), !rotated_cov_eq, (Rmult_comm (mean_rotated _ _ _ _ _ _ i)). f_equal. f_equal.
  apply congr_symmetric; [|exact Hi|exact Hj]. intros k l Hk Hl. unfold sub_m, outerv. rewrite (Sy k l Hk Hl). ring.
Qed.
(** The term of X in the lower bound after the rotation of X and A, for every invertible R. *)
Theorem C57_objective : forall N D K u phi g u_mL a u_in, (1 <= N)%nat ->
  (let '(_, _, Lambda, _) := u_mL in symmetric D Lambda) ->
  (forall n d, (n < N - 1)%nat -> (d < D)%nat -> symmetric (width D K u_in) (snd (a n d))) ->
  exists c, forall Rm inv a', is_inverse D Rm inv ->
    (forall n d, (n < N - 1)%nat -> (d < D)%nat -> row_rotated D (width D K u_in) Rm inv (a n) d (a' n d)) ->
    let logdet := ln (Rabs (mdet D Rm)) in
    let '(u', phi', dg) := gmc_rotate N D u phi Rm inv logdet in
    chain_term N D K u_mL (unit_noise D a') u_in u' phi' (g + dg)
    = Ok (chain_bound N D (chain_setup N D K u u_mL a u_in) Rm logdet + c).
Proof.
  intros N D K [[u0 u1] u2] phi g [[[Lmu muLmu] L] ld] a u_in HN SL Sa.
  exists (-0.5 * muLmu + 0.5 * ld - chain_dot N D phi (u0, u1, u2) - g).
  intros Rm inv a' I HR logdet. pose proof (dot_invariant N D Rm inv (u0, u1, u2) phi logdet I) as DI.
  destruct (gmc_rotate N D (u0, u1, u2) phi Rm inv logdet) as [[u' phi'] dg] eqn:EG.
  assert (EU : u' = rot_u D Rm (u0, u1, u2) /\ dg = - INR N * logdet).
  { destruct phi as [[p0 p1] p2]. cbn [gmc_rotate] in EG. injection EG as <- <- <-. split; reflexivity. }
  destruct EU as [-> ->]. set (M := width D K u_in) in *.
  unfold chain_term. destruct (unit_noise D a') as [[[nuA nuAA] nu] lnu] eqn:EN.
  assert (FG : forget (option_map (fun x : in_moments => (x, [(N - 1)%nat])) u_in) = u_in) by (destruct u_in; reflexivity).
  assert (CW : forall w, cols D K w = width D K w) by (intros [[z zz]|]; reflexivity).
  assert (HNU : lnu = T1 D (fun _ => 0) /\ forall n d, nuAA n d = scal_m 1 (snd (a' n d))).
  { unfold unit_noise, A_nu_moments in EN. injection EN as <- <- <- <-. split; [reflexivity|]. intros n d. unfold scal_m. cbn. now destruct (D =? 1)%nat. }
  destruct HNU as [HL HA].
  destruct (gmc_total N D K (fun n => mvdot D Rm (u0 n)) (fun n => dot3 D Rm (u1 n) (transpose Rm)) (fun n => dot3 D Rm (u2 n) (transpose Rm))
    Lmu muLmu L ld nuA nuAA nu lnu (option_map (fun x => (x, [(N - 1)%nat])) u_in) HN) as (gp & EGP & ET).
  { rewrite HL. reflexivity. }
  { destruct u_in as [[z zz]|]; cbn; [now left|exact Logic.I]. }
  { intros n d Hn Hd. rewrite FG, CW, HA. apply symmetric_scal. exact (rotated_symmetric D M Rm inv (a n) d _ (Sa n d Hn Hd) (HR n d Hn Hd)). }
  rewrite EGP. cbn [bind]. f_equal. rewrite DI. rewrite FG in ET.
  change (rot_u D Rm (u0, u1, u2)) with ((fun n => mvdot D Rm (u0 n)), (fun n => dot3 D Rm (u1 n) (transpose Rm)), (fun n => dot3 D Rm (u2 n) (transpose Rm))).
  set (q := chain_dot N D (gmc_phi N D K (Lmu, muLmu, L, ld) (nuA, nuAA, nu, lnu) u_in) _) in *. rewrite ET. clear ET EGP. rewrite <- EN. clear q.
  rewrite (rsum_ext (N - 1) _ (fun n => rsum D (fun d =>
      rsum M (fun k => rsum D (fun l => Rm d l * ext_XpXn D (u0, u1, u2) u_in n k l) * mixed D Rm (a n) d k)
      - 0.5 * ((rsum D (fun k => Rm k d)) ^ 2 * innerm M (sub_m (snd (a n d)) (outerv (fst (a n d)) (fst (a n d)))) (ext_XpXp D (u0, u1, u2) u_in n))
      - 0.5 * rsum M (fun k => rsum M (fun l => mixed D Rm (a n) d l * ext_XpXp D (u0, u1, u2) u_in n l k) * mixed D Rm (a n) d k)
      - 0.5 * dot3 D Rm (u1 (S n)) (transpose Rm) d d))).
  2:{ intros n Hn. apply rsum_ext. intros d Hd. rewrite dyn_pair_unit.
      change ((fun n0 => mvdot D Rm (u0 n0)), (fun n0 => dot3 D Rm (u1 n0) (transpose Rm)), (fun n0 => dot3 D Rm (u2 n0) (transpose Rm))) with (rot_u D Rm (u0, u1, u2)).
      rewrite (row_linear D K Rm inv (u0, u1, u2) u_in n (a n) d (a' n d) I Hd (HR n d Hn Hd)), (row_quadratic D K Rm inv (u0, u1, u2) u_in n (a n) d (a' n d) I Hd (HR n d Hn Hd)).
      fold M. cbn [rot_u fst snd]. ring. }
  assert (S3 : forall f1 f2 f3 f4 : nat -> nat -> R, rsum (N - 1) (fun n => rsum D (fun d => f1 n d - 0.5 * f2 n d - 0.5 * f3 n d - 0.5 * f4 n d)) =
     rsum (N - 1) (fun n => rsum D (f1 n)) - 0.5 * rsum (N - 1) (fun n => rsum D (f2 n)) - 0.5 * rsum (N - 1) (fun n => rsum D (f3 n)) - 0.5 * rsum (N - 1) (fun n => rsum D (f4 n))).
  { intros. rewrite <- !rsum_scal, <- !rsum_minus. apply rsum_ext. intros n Hn. rewrite <- !rsum_scal, <- !rsum_minus. reflexivity. }
  rewrite (S3 (fun n d => rsum M (fun k => rsum D (fun l => Rm d l * ext_XpXn D (u0, u1, u2) u_in n k l) * mixed D Rm (a n) d k))
     (fun n d => (rsum D (fun k => Rm k d)) ^ 2 * innerm M (sub_m (snd (a n d)) (outerv (fst (a n d)) (fst (a n d)))) (ext_XpXp D (u0, u1, u2) u_in n))
     (fun n d => rsum M (fun k => rsum M (fun l => mixed D Rm (a n) d l * ext_XpXp D (u0, u1, u2) u_in n l k) * mixed D Rm (a n) d k))
     (fun n d => dot3 D Rm (u1 (S n)) (transpose Rm) d d)). clear S3.
  rewrite (diag_sum (N - 1) D Rm (fun n => u1 (S n))).
  unfold mixed at 1. rewrite (triple (N - 1) D M Rm (ext_XpXn D (u0, u1, u2) u_in) (fun n m => fst (a n m))).
  rewrite (rsum_ext (N - 1) (fun n => rsum D (fun d => rsum M (fun k => rsum M _ * _)))
    (fun n => rsum D (fun d => rsum M (fun k => rsum D (fun l => Rm d l * transpose (fun l => fst (a n l)) k l) * rsum D (fun m => Rm d m * rsum M (fun l => fst (a n m) l * ext_XpXp D (u0, u1, u2) u_in n l k)))))).
  2:{ intros n Hn. apply rsum_ext. intros d Hd. apply rsum_ext. intros k Hk. rewrite Rmult_comm. f_equal. unfold mixed.
      rewrite (rsum_ext M _ (fun l => rsum D (fun k0 => Rm d k0 * (fst (a n k0) l * ext_XpXp D (u0, u1, u2) u_in n l k)))).
      - rewrite rsum_swap. apply rsum_ext. intros m Hm. now rewrite rsum_scal.
      - intros l Hl. rewrite <- rsum_scal_r. apply rsum_ext. intros; ring. }
  rewrite (triple (N - 1) D M Rm (fun n => transpose (fun l => fst (a n l))) (fun n m k => rsum M (fun l => fst (a n m) l * ext_XpXp D (u0, u1, u2) u_in n l k))).
  rewrite (rsum_swap (N - 1) D).
  rewrite (rsum_ext D (fun y => rsum (N - 1) _) (fun d => rsum D (fun i => Rm i d) * cs_CovA_XpXp (chain_setup N D K (u0, u1, u2) (Lmu, muLmu, L, ld) a u_in) d * rsum D (fun i => Rm i d))).
  2:{ intros d Hd. rewrite rsum_scal. cbn [chain_setup cs_CovA_XpXp]. fold M. set (s := rsum D (fun i => Rm i d)). set (q := rsum (N - 1) _).
      match goal with |- _ = s * ?p * s => change p with q end. ring. }
  rewrite initial_linear, innerm_scal_l, (initial_quad D L Rm (u1 O) SL).
  unfold chain_bound, gaussian_logpdf, gaussian_entropy. cbn [chain_setup cs_X0X0 cs_XnXn cs_Lambda cs_Lambda_mu_X0 cs_A_XpXn cs_A_XpXp_A cs_CovA_XpXp]. fold M.
  unfold transpose at 4. unfold transpose. lra.
Qed.
Print Assumptions C57_objective.

(** ** The gradient *)
Lemma d_entry_quad : forall D S g t0 H, tangent D g t0 H ->
  derivable_pt_lim (fun t => tracedot D (mmdot D (g t) S) (transpose (g t))) t0 (pair_sum D (mmdot D (g t0) (add_m S (transpose S))) H).
Proof.
  intros D S g t0 H T. unfold tracedot, mmdot, transpose.
  eapply dlim_eq.
  - apply (d_rsum D (fun i t => rsum D (fun j => rsum D (fun k => g t i k * S k j) * g t i j)) t0
      (fun i => rsum D (fun j => rsum D (fun k => H i k * S k j) * g t0 i j + rsum D (fun k => g t0 i k * S k j) * H i j))). intros i Hi.
    apply (d_rsum D (fun j t => rsum D (fun k => g t i k * S k j) * g t i j)). intros j Hj.
    apply (d_mult (fun t => rsum D (fun k => g t i k * S k j)) (fun t => g t i j)); [|now apply T].
    apply (d_rsum D (fun k t => g t i k * S k j)). intros k Hk. eapply dlim_eq; [apply (d_mult (fun t => g t i k) (fun _ => S k j)); [now apply T|exact (d_const (S k j) t0)]|]. cbv beta. ring.
  - unfold pair_sum, add_m. apply rsum_ext. intros i Hi. rewrite rsum_plus.
    rewrite (rsum_ext D (fun j => rsum D (fun k => H i k * S k j) * g t0 i j) (fun j => rsum D (fun k => H i k * (g t0 i j * S k j)))) by (intros j Hj; rewrite <- rsum_scal_r; apply rsum_ext; intros; ring).
    rewrite rsum_swap, <- rsum_plus. apply rsum_ext. intros j Hj. rewrite rsum_scal, <- (Rmult_comm (H i j)), <- (Rmult_comm (H i j)), <- Rmult_plus_distr_l. f_equal.
    rewrite <- rsum_plus. apply rsum_ext. intros; ring.
Qed.
Lemma d_entry_quad2 : forall D L X g t0 H, symmetric D L -> symmetric D X -> tangent D g t0 H ->
  derivable_pt_lim (fun t => tracedot D (dot3 D L (g t) X) (transpose (g t))) t0 (pair_sum D (fun i j => 2 * dot3 D L (g t0) X i j) H).
Proof.
  intros D L X g t0 H SL SX T.
  assert (E : forall t, tracedot D (dot3 D L (g t) X) (transpose (g t)) = rsum D (fun i => rsum D (fun j => rsum D (fun k => rsum D (fun m => L i m * g t m k) * X k j) * g t i j))) by reflexivity.
  apply (dlim_ext _ _ _ _ (fun t => eq_sym (E t))). clear E.
  eapply dlim_eq.
  - apply (d_rsum D (fun i t => rsum D (fun j => rsum D (fun k => rsum D (fun m => L i m * g t m k) * X k j) * g t i j)) t0
      (fun i => rsum D (fun j => rsum D (fun k => rsum D (fun m => L i m * H m k) * X k j) * g t0 i j + rsum D (fun k => rsum D (fun m => L i m * g t0 m k) * X k j) * H i j))). intros i Hi.
    apply (d_rsum D (fun j t => rsum D (fun k => rsum D (fun m => L i m * g t m k) * X k j) * g t i j)). intros j Hj.
    apply (d_mult (fun t => rsum D (fun k => rsum D (fun m => L i m * g t m k) * X k j)) (fun t => g t i j)); [|now apply T].
    apply (d_rsum D (fun k t => rsum D (fun m => L i m * g t m k) * X k j)). intros k Hk.
    eapply dlim_eq; [apply (d_mult (fun t => rsum D (fun m => L i m * g t m k)) (fun _ => X k j)); [|exact (d_const (X k j) t0)]|].
    + apply (d_rsum D (fun m t => L i m * g t m k)). intros m Hm. apply d_scal. now apply T.
    + cbv beta. ring.
  - rewrite (rsum_ext D _ (fun i => rsum D (fun j => rsum D (fun k => rsum D (fun m => L i m * H m k) * X k j) * g t0 i j) + rsum D (fun j => rsum D (fun k => rsum D (fun m => L i m * g t0 m k) * X k j) * H i j))) by (intros; apply rsum_plus).
    rewrite rsum_plus. unfold pair_sum.
    assert (Q : rsum D (fun i => rsum D (fun j => rsum D (fun k => rsum D (fun m => L i m * H m k) * X k j) * g t0 i j)) = rsum D (fun i => rsum D (fun j => dot3 D L (g t0) X i j * H i j))).
    { transitivity (rsum D (fun i => rsum D (fun j => rsum D (fun k => rsum D (fun m => L i m * H m k * X k j * g t0 i j))))).
      - apply rsum_ext. intros i Hi. apply rsum_ext. intros j Hj. rewrite <- rsum_scal_r. apply rsum_ext. intros k Hk. rewrite <- !rsum_scal_r. reflexivity.
      - transitivity (rsum D (fun m => rsum D (fun k => rsum D (fun j => rsum D (fun i => L i m * H m k * X k j * g t0 i j))))).
        + rewrite (rsum_ext D _ (fun i => rsum D (fun m => rsum D (fun k => rsum D (fun j => L i m * H m k * X k j * g t0 i j))))).
          * rewrite rsum_swap. apply rsum_ext. intros m Hm. rewrite rsum_swap. apply rsum_ext. intros k Hk. apply rsum_swap.
          * intros i Hi. rewrite (rsum_ext D _ (fun j => rsum D (fun m => rsum D (fun k => L i m * H m k * X k j * g t0 i j)))) by (intros; apply rsum_swap).
            rewrite rsum_swap. apply rsum_ext. intros m Hm. apply rsum_swap.
        + apply rsum_ext. intros m Hm. apply rsum_ext. intros k Hk. unfold dot3, mmdot. rewrite <- rsum_scal_r. apply rsum_ext. intros j Hj.
          rewrite (Rmult_comm (rsum D _) (X j k)), Rmult_assoc, <- rsum_scal_r, <- rsum_scal. apply rsum_ext. intros i Hi. rewrite (SL m i Hm Hi), (SX j k Hj Hk). ring. }
    rewrite Q. change (rsum D (fun i => rsum D (fun j => rsum D (fun k => rsum D (fun m => L i m * g t0 m k) * X k j) * H i j))) with (rsum D (fun i => rsum D (fun j => dot3 D L (g t0) X i j * H i j))).
    rewrite (rsum_ext D (fun i => rsum D (fun j => 2 * dot3 D L (g t0) X i j * H i j)) (fun i => 2 * rsum D (fun j => dot3 D L (g t0) X i j * H i j))).
    + rewrite rsum_scal. ring.
    + intros i Hi. rewrite <- rsum_scal. apply rsum_ext. intros; ring.
Qed.
Lemma d_entry_cov : forall D c g t0 H, tangent D g t0 H ->
  derivable_pt_lim (fun t => rsum D (fun k => rsum D (fun i => g t i k) * c k * rsum D (fun i => g t i k))) t0
    (pair_sum D (fun _ k => 2 * (rsum D (fun i => g t0 i k) * c k)) H).
Proof.
  intros D c g t0 H T. eapply dlim_eq.
  - apply (d_rsum D (fun k t => rsum D (fun i => g t i k) * c k * rsum D (fun i => g t i k)) t0 (fun k => rsum D (fun i => H i k) * c k * rsum D (fun i => g t0 i k) + rsum D (fun i => g t0 i k) * c k * rsum D (fun i => H i k))).
    intros k Hk. assert (DS : derivable_pt_lim (fun t => rsum D (fun i => g t i k)) t0 (rsum D (fun i => H i k))).
    { apply (d_rsum D (fun i t => g t i k)). intros i Hi. now apply T. }
    apply (d_mult (fun t => rsum D (fun i => g t i k) * c k) (fun t => rsum D (fun i => g t i k))); [|exact DS].
    eapply dlim_eq; [apply (d_mult (fun t => rsum D (fun i => g t i k)) (fun _ => c k)); [exact DS|exact (d_const (c k) t0)]|]. cbv beta. ring.
  - unfold pair_sum. rewrite rsum_swap. apply rsum_ext. intros k Hk. rewrite rsum_scal. ring.
Qed.
Lemma d_entry_lin : forall D B g t0 H, tangent D g t0 H -> derivable_pt_lim (fun t => tracedot D B (transpose (g t))) t0 (pair_sum D B H).
Proof.
  intros D B g t0 H T. unfold tracedot, transpose, pair_sum.
  apply (d_rsum D (fun i t => rsum D (fun j => B i j * g t i j))). intros i Hi. apply (d_rsum D (fun j t => B i j * g t i j)). intros j Hj. apply d_scal. now apply T.
Qed.
Lemma ext_symmetric : forall D K u u_in n, (let '(_, u1, _) := u in symmetric D (u1 n)) ->
  match u_in with Some (_, zz) => symmetric K (zz n) | None => True end -> symmetric (width D K u_in) (ext_XpXp D u u_in n).
Proof.
  intros D K [[u0 u1] u2] u_in n S1 S2 i j Hi Hj. destruct u_in as [[z zz]|]; cbn [width ext_XpXp] in *; [|now apply S1].
  unfold transpose. destruct (Nat.ltb_spec i D), (Nat.ltb_spec j D); [now apply S1|ring|ring|apply S2; lia].
Qed.
(** The gradient of the objective with respect to every entry of R, log|det R| included. *)
Theorem C57_gradient : forall N D K u u_mL a u_in, (1 <= N)%nat ->
  (let '(_, u1, _) := u in forall n, (n < N)%nat -> symmetric D (u1 n)) ->
  (let '(_, _, Lambda, _) := u_mL in symmetric D Lambda) ->
  (forall n, (n < N - 1)%nat -> match u_in with Some (_, zz) => symmetric K (zz n) | None => True end) ->
  let s := chain_setup N D K u u_mL a u_in in
  forall Rm inv i j, is_inverse D Rm inv -> (i < D)%nat -> (j < D)%nat ->
    derivable_pt_lim (fun t => chain_bound N D s (set_entry Rm i j t) (ln (Rabs (mdet D (set_entry Rm i j t))))) (Rm i j)
      (chain_bound_gradient N D s Rm inv i j).
Proof.
  intros N D K [[u0 u1] u2] [[[Lmu muLmu] L] ld] a u_in HN S1 SL Sz s Rm inv i j I Hi Hj.
  set (H := fun a b : nat => if (Nat.eqb a i && Nat.eqb b j)%bool then 1 else 0).
  pose proof (@entry_tangent D Rm i j) as T. fold H in T. change (mupd Rm i j) with (set_entry Rm i j) in T.
  assert (E0 : set_entry Rm i j (Rm i j) = Rm).
  { apply FunctionalExtensionality.functional_extensionality. intros k. apply FunctionalExtensionality.functional_extensionality. intros l.
    unfold set_entry. destruct (Nat.eqb_spec k i) as [->|]; [|reflexivity]. destruct (Nat.eqb_spec l j) as [->|]; reflexivity. }
  assert (PS : forall c, pair_sum D c H = c i j) by (intros c; exact (pair_sum_unit c Hi Hj)).
  assert (X1 : symmetric D (cs_XnXn s)).
  { intros k l Hk Hl. apply rsum_ext. intros n Hn. apply (S1 (Datatypes.S n)); lia. }
  assert (X2 : symmetric D (cs_A_XpXp_A s)).
  { intros k l Hk Hl. apply rsum_ext. intros n Hn. set (M := width D K u_in).
    assert (SP : symmetric M (ext_XpXp D (u0, u1, u2) u_in n)) by (apply ext_symmetric; [apply S1; lia|now apply Sz]).
    rewrite (rsum_ext M _ (fun p => rsum M (fun q => fst (a n k) q * ext_XpXp D (u0, u1, u2) u_in n q p * fst (a n l) p))) by (intros; now rewrite rsum_scal_r).
    rewrite rsum_swap. apply rsum_ext. intros p Hp. rewrite <- rsum_scal_r. apply rsum_ext. intros q Hq. rewrite (SP p q Hp Hq). ring. }
  assert (X3 : symmetric D (cs_X0X0 s)) by (apply S1; lia).
  assert (X4 : symmetric D (cs_Lambda s)) by exact SL.
  assert (DL : derivable_pt_lim (fun t => ln (Rabs (mdet D (set_entry Rm i j t)))) (Rm i j) (inv j i)).
  { apply (@logdet_derive D Rm inv i j Hi Hj I). intro Z. pose proof (inverse_det I) as Q. rewrite Z in Q. lra. }
  pose proof (d_entry_quad D (cs_XnXn s) _ _ _ T) as Q1. pose proof (d_entry_quad D (cs_A_XpXn s) _ _ _ T) as Q2. pose proof (d_entry_quad D (cs_A_XpXp_A s) _ _ _ T) as Q3.
  pose proof (d_entry_quad2 D (cs_Lambda s) (cs_X0X0 s) _ _ _ X4 X3 T) as Q4. pose proof (d_entry_lin D (cs_Lambda_mu_X0 s) _ _ _ T) as Q5.
  pose proof (d_entry_cov D (cs_CovA_XpXp s) _ _ _ T) as Q6.
  rewrite E0, PS in Q1, Q2, Q3, Q4, Q6. rewrite PS in Q5. cbv beta in Q4, Q6.
  assert (TW : forall S, symmetric D S -> mmdot D Rm (add_m S (transpose S)) i j = 2 * mmdot D Rm S i j).
  { intros S SS. unfold mmdot. rewrite <- rsum_scal. apply rsum_ext. intros k Hk. unfold add_m, transpose. rewrite (SS j k Hj Hk). ring. }
  rewrite (TW _ X1) in Q1. rewrite (TW _ X2) in Q3. clearbody s. clear TW PS X1 X2 X3 X4 E0 T S1 SL Sz.
  unfold chain_bound, gaussian_logpdf, gaussian_entropy. cbv zeta beta.
  eapply dlim_eq.
  - apply d_plus.
    + apply d_minus; [apply d_plus; [apply d_minus; [apply d_plus|]|]|].
      * apply d_scal. apply d_plus; [exact Q1|exact Q4].
      * apply d_plus; [exact Q2|exact Q5].
      * apply d_scal. apply d_plus; [exact Q3|exact Q6].
      * exact (d_const (0.5 * 0) (Rm i j)).
      * exact (d_const (0.5 * 0 * ln (2 * PI)) (Rm i j)).
    + apply d_plus; [apply d_plus|].
      * apply d_scal. apply d_scal. exact DL.
      * exact (d_const (0.5 * 0) (Rm i j)).
      * exact (d_const (0.5 * 0 * ln (2 * PI)) (Rm i j)).
  - unfold chain_bound_gradient, gaussian_logpdf, gaussian_entropy, transpose. cbv zeta beta. lra.
Qed.
Print Assumptions C57_gradient.

(** ** The noise *)
(** The class says that it assumes unit noise, but it takes chains of any noise precision: then
    the objective is not the change of the lower bound. *)
Theorem C57_noise_refuted : exists N D K u phi g u_mL a v, (1 <= N)%nat /\ 0 < v /\
  (let '(_, _, Lambda, _) := u_mL in symmetric D Lambda) /\
  (forall n d, (n < N - 1)%nat -> (d < D)%nat -> symmetric D (snd (a n d))) /\
  ~ exists c, forall Rm inv a', is_inverse D Rm inv ->
    (forall n d, (n < N - 1)%nat -> (d < D)%nat -> row_rotated D D Rm inv (a n) d (a' n d)) ->
    let logdet := ln (Rabs (mdet D Rm)) in
    let '(u', phi', dg) := gmc_rotate N D u phi Rm inv logdet in
    chain_term N D K u_mL (A_nu_moments a' (T1 D (fun _ => v)) (T1 D (fun _ => ln v))) None u' phi' (g + dg)
    = Ok (chain_bound N D (chain_setup N D K u u_mL a None) Rm logdet + c).
Proof.
  exists 2%nat, 1%nat, O, ((fun _ _ => 0), (fun _ _ _ => 1), (fun _ _ _ => 0)), ((fun _ _ => 0), (fun _ _ _ => 0), (fun _ _ _ => 0)), 0,
    ((fun _ => 0), 0, (fun _ _ => 0), 0), (fun _ _ => ((fun _ => 0), (fun _ _ => 0))), 2.
  split; [lia|]. split; [lra|]. split; [intros i j _ _; reflexivity|]. split; [intros n d _ _ i j _ _; reflexivity|].
  intros [c Hc].
  assert (IV : forall r, r <> 0 -> is_inverse 1 (fun _ _ => r) (fun _ _ => / r)).
  { intros r Hr. split; intros i j Hi Hj; unfold mmdot, identity; replace i with O by lia; replace j with O by lia; cbn [rsum Nat.eqb]; field; exact Hr. }
  assert (RR : forall r n d, (n < 2 - 1)%nat -> (d < 1)%nat -> row_rotated 1 1 (fun _ _ => r) (fun _ _ => / r) ((fun _ _ => ((fun _ => 0), (fun _ _ => 0))) n) d ((fun _ => 0), (fun _ _ => 0))).
  { intros r n d _ _. unfold row_rotated, mean_rotated, cov_rotated. cbn [rsum fst snd]. split; intros; ring. }
  pose proof (Hc (fun _ _ => 1) (fun _ _ => / 1) (fun _ _ => ((fun _ => 0), (fun _ _ => 0))) (IV 1 ltac:(lra)) (RR 1)) as H1.
  pose proof (Hc (fun _ _ => 2) (fun _ _ => / 2) (fun _ _ => ((fun _ => 0), (fun _ _ => 0))) (IV 2 ltac:(lra)) (RR 2)) as H2.
  cbv zeta in H1, H2. set (l1 := ln (Rabs (mdet 1 (fun _ _ => 1)))) in *. set (l2 := ln (Rabs (mdet 1 (fun _ _ => 2)))) in *. clearbody l1 l2.
  cbv - [Rplus Rmult Rminus Ropp Rinv ln PI IZR Rdiv Q2R IPR] in H1, H2.
  injection H1 as H1. injection H2 as H2. lra.
Qed.
Print Assumptions C57_noise_refuted.

(** ** Examples *)
(** Two states and one input; a shear as the rotation. *)
Definition ex_shear : mat := fun i j => match i, j with O, O => 1 | O, 1%nat => 1 | 1%nat, 1%nat => 1 | _, _ => 0 end.
Definition ex_unshear : mat := fun i j => match i, j with O, O => 1 | O, 1%nat => -1 | 1%nat, 1%nat => 1 | _, _ => 0 end.
Lemma ex_shear_inverse : is_inverse 2 ex_shear ex_unshear.
Proof. split; intros [|[|i]] [|[|j]] Hi Hj; try lia; unfold mmdot, identity, ex_shear, ex_unshear; cbn; ring. Qed.
Example ex_C57_dynamics : exists u phi : nat -> vec * mat, (2 <= 3)%nat /\ is_inverse 2 ex_shear ex_unshear /\
  (forall k, (k < 2)%nat -> symmetric 3 (snd (phi k)) /\ exists g, ard_moments 3 (phi k) = Ok (u k, g)) /\
  (forall d, (d < 2)%nat -> rsum 2 (fun k => ex_shear k d) <> 0) /\ fst (u O) O = 1.
Proof.
  set (phi := ((fun _ => 1), scal_m (-0.5) identity) : vec * mat).
  assert (Sy : symmetric 3 (snd phi)) by (intros i j _ _; unfold phi, scal_m, identity; cbn [snd]; rewrite (Nat.eqb_sym i j); reflexivity).
  assert (MI : meq 3 identity (scal_m (-2) (snd phi))) by (intros i j _ _; unfold phi, scal_m; cbn [snd]; lra).
  assert (PD : posdef 3 (scal_m (-2) (snd phi))).
  { apply (posdef_ext 3 identity); [exact MI|]. split; [intros i j _ _; unfold identity; now rewrite Nat.eqb_sym|].
    intros x (i & Hi & Nx). unfold bilinear, identity. cbn [rsum Nat.eqb].
    pose proof (Rle_0_sqr (x O)). pose proof (Rle_0_sqr (x 1%nat)). pose proof (Rle_0_sqr (x 2%nat)). pose proof (Rsqr_pos_lt _ Nx). unfold Rsqr in *.
    destruct i as [|[|[|i]]]; try lia; lra. }
  destruct (C44_ard_moments 3 phi Sy) as [C1 C2]. destruct (C2 PD) as (u & g & E). exists (fun _ => u), (fun _ => phi).
  split; [lia|]. split; [exact ex_shear_inverse|]. split; [intros k Hk; split; [exact Sy|now exists g]|]. split.
  - intros [|[|d]] Hd; try lia; unfold ex_shear; cbn; lra.
  - destruct (C1 u g E) as [_ (N1 & _)]. pose proof (N1 O ltac:(lia)) as Q. unfold mvdot in Q. unfold phi, scal_m, identity in Q. cbn [rsum fst snd Nat.eqb] in Q. cbn beta. lra.
Qed.
(** Every rotation of such dynamics meets the hypothesis of C57_objective. *)
Definition ex_rotated (Rm inv : mat) (a : nat -> vec * mat) (d : nat) : vec * mat :=
  (mean_rotated 2 3 Rm inv a d, fun i j => cov_rotated 2 3 Rm inv a d i j + mean_rotated 2 3 Rm inv a d i * mean_rotated 2 3 Rm inv a d j).
Example ex_C57_objective : let u_in := Some ((fun n _ => INR n), (fun n _ _ => INR n ^ 2)) in
  let a := fun (_ d : nat) => ((fun i => INR (d + i)), identity) : vec * mat in
  symmetric 2 identity /\ (forall n d, (n < 3 - 1)%nat -> (d < 2)%nat -> symmetric (width 2 1 u_in) (snd (a n d))) /\
  is_inverse 2 ex_shear ex_unshear /\
  (forall n d, (n < 3 - 1)%nat -> (d < 2)%nat -> row_rotated 2 (width 2 1 u_in) ex_shear ex_unshear (a n) d (ex_rotated ex_shear ex_unshear (a n) d)).
Proof.
  assert (SI : forall n, symmetric n identity) by (intros n i j _ _; unfold identity; now rewrite Nat.eqb_sym).
  split; [apply SI|]. split; [intros; apply SI|]. split; [exact ex_shear_inverse|]. intros n d _ _. split; intros; reflexivity.
Qed.
Example ex_C57_gradient : let u := ((fun n _ => INR n), (fun _ => identity), (fun _ _ _ => 1)) : chain in
  (let '(_, u1, _) := u in forall n, (n < 3)%nat -> symmetric 2 (u1 n)) /\
  (forall n, (n < 3 - 1)%nat -> symmetric 1 ((fun n _ _ => INR n ^ 2) n)).
Proof. split; [intros n _ i j _ _; unfold identity; now rewrite Nat.eqb_sym|]. intros n _ i j _ _. reflexivity. Qed.
