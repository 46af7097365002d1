(** Properties C22, C24 (per plate) and C41 for the scalar and vector families. *)
From Coq Require Import List Arith ZArith Lia Bool Reals Lra.
From Verif Require Import Base NumPy TensorLemmas Families SpecFamilies FamiliesLemmas FamiliesLemmas2.
Import ListNotations.
Open Scope R_scope.

Lemma with_entry_vupd : forall v i t, with_entry v i t = vupd v i t.
Proof. reflexivity. Qed.

(** ** C22: the moments are the partial derivatives of -g. *)

Theorem C22_poisson : forall phi,
  derivable_pt_lim (fun t => - snd (poisson_moments t)) phi (fst (poisson_moments phi)).
Proof.
  intros phi. cbn. apply (dlim_ext exp); [intros; ring|]. apply d_exp.
Qed.
Print Assumptions C22_poisson.

Theorem C22_binomial : forall N phi,
  derivable_pt_lim (fun t => - snd (binomial_moments N t)) phi (fst (binomial_moments N phi)).
Proof.
  intros N phi. cbn. pose proof (exp_pos phi).
  apply (dlim_ext (fun t => N * ln (1 + exp t))); [intros; ring|].
  eapply dlim_eq.
  - apply d_scal. apply (d_comp (fun t => 1 + exp t) ln).
    + apply d_plus; [apply d_const|apply d_exp].
    + apply d_ln. lra.
  - cbn. rewrite exp_Ropp. field. split; lra.
Qed.
Print Assumptions C22_binomial.

Theorem C22_gamma : forall lg psi phi0 phi1, is_digamma lg psi -> phi0 < 0 -> 0 < phi1 ->
  exists u g, gamma_moments lg psi (phi0, phi1) = Ok (u, g) /\
    derivable_pt_lim (fun t => - cgf_of (gamma_moments lg psi (t, phi1))) phi0 (fst u) /\
    derivable_pt_lim (fun t => - cgf_of (gamma_moments lg psi (phi0, t))) phi1 (snd u).
Proof.
  intros lg psi phi0 phi1 H H0 H1. unfold gamma_moments. cbn [fst snd].
  destruct (Rle_dec (- phi0) 0); [lra|]. do 2 eexists. split; [reflexivity|]. cbn [fst snd]. split.
  - apply (dlim_ext_near (fun t => lg phi1 - phi1 * ln (- t)) _ _ _ (- phi0)); [lra| |].
    + intros t Ht. apply Rabs_def2 in Ht. destruct (Rle_dec (- t) 0); [lra|]. cbn. ring.
    + eapply dlim_eq.
      * apply d_minus; [apply d_const|]. apply d_scal.
        apply (d_comp (fun t => - t) ln); [apply d_opp, d_id|apply d_ln; lra].
      * cbn. field. lra.
  - cbn. apply (dlim_ext (fun t => lg t - t * ln (- phi0))); [intros; ring|].
    eapply dlim_eq.
    + apply d_minus; [apply H, H1|]. apply d_mult; [apply d_id|apply d_const].
    + cbn. ring.
Qed.
Print Assumptions C22_gamma.

Theorem C22_dirichlet : forall lg psi K phi, is_digamma lg psi -> (0 < K)%nat ->
  (forall i, (i < K)%nat -> 0 < phi i) ->
  exists u g, dirichlet_moments lg psi K phi = Ok (u, g) /\
    forall i, (i < K)%nat ->
      derivable_pt_lim (fun t => - cgf_of (dirichlet_moments lg psi K (with_entry phi i t))) (phi i) (u i).
Proof.
  intros lg psi K phi H HK Hp. unfold dirichlet_moments at 1. rewrite (proj1 (any_le0_false K phi) Hp).
  do 2 eexists. split; [reflexivity|]. intros i Hi. cbv beta.
  apply (dlim_ext_pos (fun t => rsum K (fun j => lg (vupd phi i t j)) - lg (rsum K (vupd phi i t)))); [auto| |].
  - intros t Ht. unfold dirichlet_moments. change (with_entry phi i t) with (vupd phi i t).
    rewrite (proj1 (any_le0_false K (vupd phi i t))); [cbn; ring|].
    intros j Hj. unfold vupd. destruct (j =? i)%nat; auto.
  - assert (PS : 0 < rsum K phi) by now apply rsum_pos.
    apply d_minus.
    + apply (dlim_ext (fun t => lg t + (rsum K (fun j => lg (phi j)) - lg (phi i)))).
      * intros t. rewrite (rsum_vupd K lg phi i t Hi). ring.
      * eapply dlim_eq; [apply d_plus; [apply H; auto|apply d_const]|ring].
    + eapply dlim_eq.
      * apply (d_comp (fun t => rsum K (vupd phi i t)) lg).
        -- apply (dlim_ext (fun t => t + (rsum K phi - phi i))).
           ++ intros t. pose proof (rsum_vupd K (fun x => x) phi i t Hi) as E. cbv beta in E.
              change (rsum K (fun j => phi j)) with (rsum K phi) in E.
              change (rsum K (fun j => vupd phi i t j)) with (rsum K (vupd phi i t)) in E. rewrite E. ring.
           ++ apply d_plus; [apply d_id|apply d_const].
        -- rewrite vupd_same. apply H, PS.
      * ring.
Qed.
Print Assumptions C22_dirichlet.

Theorem C22_multinomial : forall N K phi i, (i < K)%nat ->
  derivable_pt_lim (fun t => - snd (multinomial_moments N K (with_entry phi i t))) (phi i)
                   (fst (multinomial_moments N K phi) i).
Proof.
  intros N K phi i Hi. assert (HK : (0 < K)%nat) by lia.
  apply (dlim_ext (fun t => N * ln (sumexp K (vupd phi i t)))).
  - intros t. change (with_entry phi i t) with (vupd phi i t).
    rewrite (proj2 (multinomial_moments_ok N K (vupd phi i t) HK)). ring.
  - rewrite (proj1 (multinomial_moments_ok N K phi HK)). apply d_scal. now apply d_ln_sumexp.
Qed.
Print Assumptions C22_multinomial.

(** Functions that meet the assumptions about gammaln and digamma. *)
Lemma xlnx_d : is_digamma (fun x => x * ln x - x) ln.
Proof.
  intros x Hx. eapply dlim_eq.
  - apply d_minus; [apply d_mult; [apply d_id|now apply d_ln]|apply d_id].
  - cbn. field. lra.
Qed.
Example C22_gamma_example : exists u g,
  gamma_moments (fun x => x * ln x - x) ln (-2, 3) = Ok (u, g) /\ fst u = 3 / 2.
Proof.
  destruct (C22_gamma _ _ (-2) 3 xlnx_d ltac:(lra) ltac:(lra)) as (u & g & E & _). exists u, g.
  split; [exact E|]. unfold gamma_moments in E. cbn [fst snd] in E. destruct (Rle_dec (- -2) 0); [lra|].
  injection E as <- _. cbn. field.
Qed.

(** ** C24, one plate: with natural parameters prior + message the bound is at
    least what it is with any other parameters of the family. *)

Theorem C24_poisson : forall prior m phi c,
  let L p := let '(u, g) := poisson_moments p in node_bound (prior * u) (m * u) (p * u) g c in
  L (prior + m) >= L phi /\ (L phi = L (prior + m) -> phi = prior + m).
Proof.
  intros prior m phi c L. unfold L, poisson_moments, node_bound.
  set (q := prior + m). pose proof (exp_tangent phi q). split; [unfold q in *; lra|]. intros E.
  destruct (Req_dec phi q) as [|N]; [assumption|exfalso].
  assert (exp (q - phi) > 1 + (q - phi)) by (apply exp_ineq1; lra).
  assert (exp q = exp phi * exp (q - phi)) by (rewrite <- exp_plus; f_equal; ring).
  pose proof (exp_pos phi). assert (exp phi * (1 + (q - phi)) < exp phi * exp (q - phi)) by (apply Rmult_lt_compat_l; lra).
  unfold q in *. nra.
Qed.
Print Assumptions C24_poisson.

Theorem C24_binomial : forall N prior m phi c, 0 <= N ->
  let L p := let '(u, g) := binomial_moments N p in node_bound (prior * u) (m * u) (p * u) g c in
  L (prior + m) >= L phi.
Proof.
  intros N prior m phi c HN L. unfold L, binomial_moments, node_bound.
  pose proof (binomial_gibbs N phi (prior + m) HN). lra.
Qed.
Print Assumptions C24_binomial.

Theorem C24_gamma : forall lg psi prior m phi c,
  gamma_convex lg psi -> fst phi < 0 -> 0 < snd phi -> fst prior + fst m < 0 -> 0 < snd prior + snd m ->
  let L p := match gamma_moments lg psi p with
             | Ok (u, g) => node_bound (fst prior * fst u + snd prior * snd u)
                              (fst m * fst u + snd m * snd u) (fst p * fst u + snd p * snd u) g c
             | Err _ => 0 end in
  L (fst prior + fst m, snd prior + snd m) >= L phi.
Proof.
  intros lg psi [p0 p1] [m0 m1] [f0 f1] c H H1 H2 H3 H4 L. unfold L, gamma_moments. cbn [fst snd] in *.
  destruct (Rle_dec (- (p0 + m0)) 0); [lra|]. destruct (Rle_dec (- f0) 0); [lra|].
  pose proof (gamma_gibbs lg psi f1 (- f0) (p1 + m1) (- (p0 + m0)) H ltac:(lra) ltac:(lra) ltac:(lra) ltac:(lra)) as G.
  unfold node_bound.
  replace (- - (p0 + m0) - - - f0) with (p0 + m0 - f0) in G by ring. cbn [fst snd].
  set (u0 := f1 / - f0) in *. set (u1 := psi f1 - ln (- f0)) in *.
  set (v0 := (p1 + m1) / - (p0 + m0)). set (v1 := psi (p1 + m1) - ln (- (p0 + m0))).
  assert (E1 : p0 * v0 + p1 * v1 + (m0 * v0 + m1 * v1) - ((p0 + m0) * v0 + (p1 + m1) * v1 + ((p1 + m1) * ln (- (p0 + m0)) - lg (p1 + m1))) + c
     = - ((p1 + m1) * ln (- (p0 + m0)) - lg (p1 + m1)) + c) by ring.
  rewrite E1. lra.
Qed.
Print Assumptions C24_gamma.

Lemma node_bound_split : forall K prior m phi u g c,
  node_bound (dotv K prior u) (dotv K m u) (dotv K phi u) g c =
  rsum K (fun i => (prior i + m i - phi i) * u i) - g + c.
Proof.
  intros. unfold node_bound, dotv.
  rewrite (rsum_ext K (fun i => (prior i + m i - phi i) * u i) (fun i => prior i * u i + m i * u i - phi i * u i)) by (intros; ring).
  rewrite rsum_minus, rsum_plus. ring.
Qed.
Lemma node_bound_opt : forall K prior m u g c,
  node_bound (dotv K prior u) (dotv K m u) (dotv K (fun i => prior i + m i) u) g c = c - g.
Proof.
  intros. rewrite node_bound_split. rewrite (rsum_ext K _ (fun _ => 0)) by (intros; ring). rewrite rsum_0. ring.
Qed.

Theorem C24_dirichlet : forall lg psi K prior m phi c,
  log_beta_convex lg psi -> (0 < K)%nat -> (forall i, (i < K)%nat -> 0 < phi i) ->
  (forall i, (i < K)%nat -> 0 < prior i + m i) ->
  let L p := match dirichlet_moments lg psi K p with
             | Ok (u, g) => node_bound (dotv K prior u) (dotv K m u) (dotv K p u) g c
             | Err _ => 0 end in
  L (fun i => prior i + m i) >= L phi.
Proof.
  intros lg psi K prior m phi c H HK Hp Hq L. unfold L, dirichlet_moments.
  rewrite (proj1 (any_le0_false K phi) Hp), (proj1 (any_le0_false K (fun i => prior i + m i)) Hq).
  pose proof (dirichlet_gibbs lg psi H K phi (fun i => prior i + m i) HK Hp Hq) as G. cbv beta in G.
  cbv zeta. rewrite node_bound_opt, node_bound_split. lra.
Qed.
Print Assumptions C24_dirichlet.

Theorem C24_multinomial : forall N K prior m phi c, 0 <= N -> (0 < K)%nat ->
  let L p := let '(u, g) := multinomial_moments N K p in
             node_bound (dotv K prior u) (dotv K m u) (dotv K p u) g c in
  L (fun i => prior i + m i) >= L phi.
Proof.
  intros N K prior m phi c HN HK L. unfold L.
  pose proof (softmax_gibbs N K phi (fun i => prior i + m i) HN HK) as G. cbv beta in G.
  destruct (multinomial_moments_ok N K (fun i => prior i + m i) HK) as [Q1 Q2].
  destruct (multinomial_moments_ok N K phi HK) as [P1 P2].
  destruct (multinomial_moments N K (fun i => prior i + m i)) as [v gv].
  destruct (multinomial_moments N K phi) as [u gu]. cbn [fst snd] in *. subst gv gu.
  rewrite node_bound_opt, node_bound_split.
  rewrite (rsum_ext K (fun i => (prior i + m i - phi i) * u i)
    (fun i => (prior i + m i - phi i) * (N * (exp (phi i) / sumexp K phi)))) by (intros; now rewrite P1). lra.
Qed.
Print Assumptions C24_multinomial.

Example C24_convex : gamma_convex (fun x => x * ln x - x) ln.
Proof. intros a a' Ha Ha'. right. ring. Qed.
Lemma log_sum : forall x y, 0 < x -> 0 < y -> x * ln x >= x * ln y + x - y.
Proof.
  intros x y Hx Hy. pose proof (ln_tangent (y / x) ltac:(now apply Rdiv_lt_0_compat)) as T.
  rewrite ln_div in T by assumption.
  assert (x * (ln y - ln x) <= x * (y / x - 1)) by (apply Rmult_le_compat_l; lra).
  replace (x * (y / x - 1)) with (y - x) in H by (field; lra). lra.
Qed.
Example C24_log_beta_convex : log_beta_convex (fun x => x * ln x - x) ln.
Proof.
  intros a b a' b' Ha Hb Ha' Hb'. assert (P : 0 < a + b) by lra. assert (P' : 0 < a' + b') by lra.
  pose proof (log_sum a' (a / (a + b) * (a' + b')) Ha' ltac:(apply Rmult_lt_0_compat; [now apply Rdiv_lt_0_compat|lra])) as E1.
  pose proof (log_sum b' (b / (a + b) * (a' + b')) Hb' ltac:(apply Rmult_lt_0_compat; [now apply Rdiv_lt_0_compat|lra])) as E2.
  rewrite ln_mult, ln_div in E1, E2 by (auto using Rdiv_lt_0_compat).
  assert (ES : a / (a + b) * (a' + b') + b / (a + b) * (a' + b') = a' + b') by (field; lra).
  set (X := a / (a + b) * (a' + b')) in *. set (Y := b / (a + b) * (a' + b')) in *. lra.
Qed.

(** ** C41: compute_gradient is the gradient of <g, u(phi)> with respect to phi. *)

Theorem C41_gamma : forall lg psi tri g u phi0 phi1, is_trigamma psi tri -> phi0 < 0 -> 0 < phi1 ->
  let F p0 p1 := match gamma_moments lg psi (p0, p1) with
                 | Ok (v, _) => fst g * fst v + snd g * snd v | Err _ => 0 end in
  derivable_pt_lim (fun t => F t phi1) phi0 (fst (gamma_gradient tri g u (phi0, phi1))) /\
  derivable_pt_lim (fun t => F phi0 t) phi1 (snd (gamma_gradient tri g u (phi0, phi1))).
Proof.
  intros lg psi tri [g0 g1] u phi0 phi1 H H0 H1 F. unfold F, gamma_moments, gamma_gradient. cbn [fst snd]. split.
  - apply (dlim_ext_near (fun t => g0 * (phi1 * / (- t)) + g1 * (psi phi1 - ln (- t))) _ _ _ (- phi0)); [lra| |].
    + intros t Ht. apply Rabs_def2 in Ht. destruct (Rle_dec (- t) 0); [lra|]. reflexivity.
    + eapply dlim_eq.
      * apply d_plus; apply d_scal.
        -- apply d_scal. apply (d_inv (fun t => - t)); [lra|apply d_opp, d_id].
        -- apply d_minus; [apply d_const|]. apply (d_comp (fun t => - t) ln); [apply d_opp, d_id|apply d_ln; lra].
      * cbn. field. lra.
  - destruct (Rle_dec (- phi0) 0); [lra|].
    apply (dlim_ext (fun t => g0 * (/ (- phi0) * t) + g1 * (psi t - ln (- phi0)))).
    + intros t. cbn. field. lra.
    + eapply dlim_eq.
      * apply d_plus; apply d_scal; [apply d_scal, d_id|apply d_minus; [apply H, H1|apply d_const]].
      * cbn. field. lra.
Qed.
Print Assumptions C41_gamma.

Theorem C41_multinomial : forall N K g phi i, N <> 0 -> (i < K)%nat ->
  derivable_pt_lim (fun t => dotv K g (fst (multinomial_moments N K (with_entry phi i t)))) (phi i)
    (multinomial_gradient N K g (fst (multinomial_moments N K phi)) i).
Proof.
  intros N K g phi i HN Hi. assert (HK : (0 < K)%nat) by lia.
  set (W t := rsum K (fun j => g j * exp (vupd phi i t j))).
  apply (dlim_ext (fun t => N * (W t * / sumexp K (vupd phi i t)))).
  { intros t. unfold dotv, W. rewrite <- rsum_scal_r, <- rsum_scal. apply rsum_ext. intros j _.
    change (with_entry phi i t) with (vupd phi i t).
    rewrite (proj1 (multinomial_moments_ok N K (vupd phi i t) HK)). unfold Rdiv. ring. }
  pose proof (sumexp_pos K phi HK) as PS.
  eapply dlim_eq.
  - apply d_scal. apply d_mult.
    + unfold W. apply (d_rsum K (fun j t => g j * exp (vupd phi i t j)) (phi i)
         (fun j => if (j =? i)%nat then g i * exp (phi i) else 0)).
      intros j Hj. unfold vupd. destruct (Nat.eqb_spec j i) as [->|].
      * apply d_scal, d_exp.
      * apply d_const.
    + apply d_inv; [|now apply d_sumexp]. rewrite vupd_same. lra.
  - unfold W. cbv beta. rewrite !vupd_same, (rsum_single K i (fun _ => g i * exp (phi i)) Hi). unfold multinomial_gradient.
    rewrite (proj1 (multinomial_moments_ok N K phi HK)).
    unfold dotv. rewrite (rsum_ext K (fun j => g j * fst (multinomial_moments N K phi) j)
      (fun j => N / sumexp K phi * (g j * exp (phi j)))).
    + rewrite rsum_scal. field. lra.
    + intros j _. rewrite (proj1 (multinomial_moments_ok N K phi HK)). field. lra.
Qed.
Print Assumptions C41_multinomial.

(** The Dirichlet gradient is wrong: it leaves out the cross terms of the
    Jacobian.  With alpha = (1,1) and g = (1,0) the derivative with respect to the
    second parameter is -trigamma(2), the code returns 0. *)
Theorem C41_dirichlet_refuted : forall lg psi tri, is_trigamma psi tri -> tri 2 <> 0 ->
  exists K g phi i, (i < K)%nat /\ (forall j, (j < K)%nat -> 0 < phi j) /\
    let F p := match dirichlet_moments lg psi K p with Ok (u, _) => dotv K g u | Err _ => 0 end in
    exists d, derivable_pt_lim (fun t => F (with_entry phi i t)) (phi i) d /\
      dirichlet_gradient tri K g phi i <> d.
Proof.
  intros lg psi tri H Hn. exists 2%nat, (fun i => match i with O => 1 | _ => 0 end), (fun _ => 1), 1%nat.
  split; [lia|]. split; [intros; lra|]. cbn zeta. exists (- tri 2). split.
  - apply (dlim_ext_pos (fun t => psi 1 - psi (1 + t))); [lra| |].
    + intros t Ht. unfold dirichlet_moments.
      rewrite (proj1 (any_le0_false 2 (with_entry (fun _ => 1) 1 t))).
      * unfold dotv. cbn. replace (0 + 1 + t) with (1 + t) by ring. ring.
      * intros [|[|j]] Hj; cbn; [lra|lra|lia].
    + eapply dlim_eq.
      * apply d_minus; [apply d_const|]. apply (d_comp (fun t => 1 + t) psi).
        -- apply d_plus; [apply d_const|apply d_id].
        -- apply H. lra.
      * replace (1 + 1) with 2 by ring. ring.
  - unfold dirichlet_gradient. cbn. lra.
Qed.
Print Assumptions C41_dirichlet_refuted.

Example C41_trigamma : is_trigamma ln Rinv /\ / 2 <> 0.
Proof. split; [intros x Hx; now apply d_ln|lra]. Qed.
