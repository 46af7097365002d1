(** C56: the gradient of a point-estimated parameter is the derivative of the lower bound. *)
From Coq Require Import List Arith Bool Reals Lra Lia.
From Verif Require Import Base NumPy TensorLemmas Families Linalg MatBridge SpecLinalg LinalgLemmas Gaussian
  FamiliesLemmas FamiliesLemmas2 MaxLik SpecMaxLik MaxLikLemmas.
Import ListNotations.
Open Scope R_scope.

(** The gradients exist and give the derivative of the bound along every differentiable
    curve of parameters. *)
Theorem C56_gradient : forall net theta,
  well_formed net -> length theta = length (n_params net) -> good_functions net theta -> proper net theta ->
  exists g : nat -> vec,
    (forall k, (k < length (n_params net))%nat -> ml_gradient net theta k = Ok (g k)) /\
    forall (th : R -> list vec) t0 Hs, th t0 = theta -> all_move (n_params net) th t0 Hs ->
      derivable_pt_lim (fun t => children_bound net (th t)) t0
        (inner_all (n_params net) g (fun k => nth k Hs zero_v)).
Proof.
  intros net theta WF LT GF PR. exists (msg net theta). split.
  - intros k Hk. unfold ml_gradient, ml_riemannian_gradient. rewrite (msg_ok net theta) by (assumption || lia). reflexivity.
  - intros th t0 Hs T0 MV. now apply gradient_curve.
Qed.

(** Changing one number of one parameter. *)
Definition set_entry (theta : list vec) (k e : nat) (t : R) : list vec :=
  map (fun jx : nat * vec => fun e' => if (fst jx =? k)%nat && (e' =? e)%nat then t else snd jx e')
      (combine (seq 0 (length theta)) theta).
Lemma set_entry_nth : forall theta k e t j e', (j < length theta)%nat ->
  nth j (set_entry theta k e t) zero_v e' = if (j =? k)%nat && (e' =? e)%nat then t else nth j theta zero_v e'.
Proof.
  intros theta k e t j e' Hj. unfold set_entry.
  set (F := fun jx : nat * vec => fun e' => if (fst jx =? k)%nat && (e' =? e)%nat then t else snd jx e').
  rewrite (nth_indep _ zero_v (F (0%nat, zero_v))) by (rewrite map_length, combine_length, seq_length; lia).
  rewrite (map_nth F). rewrite combine_nth by apply seq_length. unfold F. cbn [fst snd]. now rewrite seq_nth.
Qed.
Lemma set_entry_same : forall theta k e, set_entry theta k e (nth k theta zero_v e) = theta.
Proof.
  intros theta k e. apply nth_ext with zero_v zero_v; [unfold set_entry; rewrite map_length, combine_length, seq_length; lia|].
  intros j Hj. unfold set_entry in Hj. rewrite map_length, combine_length, seq_length, Nat.min_id in Hj.
  apply FunctionalExtensionality.functional_extensionality. intros e'. rewrite set_entry_nth by exact Hj.
  destruct (Nat.eqb_spec j k) as [->|]; [|reflexivity]. destruct (Nat.eqb_spec e' e) as [->|]; reflexivity.
Qed.
Definition bump (k e : nat) : nat -> vec := fun j e' => if (j =? k)%nat && (e' =? e)%nat then 1 else 0.
Theorem C56_partial_derivatives : forall net theta k e,
  well_formed net -> length theta = length (n_params net) -> good_functions net theta -> proper net theta ->
  (k < length (n_params net))%nat -> (e < nth k (n_params net) 0)%nat ->
  exists g, ml_gradient net theta k = Ok g /\
    derivable_pt_lim (fun t => children_bound net (set_entry theta k e t)) (nth k theta zero_v e) (g e).
Proof.
  intros net theta k e WF LT GF PR Hk He. destruct (C56_gradient net theta WF LT GF PR) as (g & G1 & G2).
  exists (g k). split; [now apply G1|].
  set (d := bump k e).
  eapply dlim_eq; [apply (G2 _ _ (map d (seq 0 (length (n_params net)))))|].
  - apply set_entry_same.
  - split; [now rewrite map_length, seq_length|]. split.
    + intros t. unfold set_entry. rewrite map_length, combine_length, seq_length. lia.
    + intros i Hi e' He'.
      replace (nth i (map d (seq 0 (length (n_params net)))) zero_v) with (d i).
      * apply (dlim_ext (fun t => if (i =? k)%nat && (e' =? e)%nat then t else nth i theta zero_v e')); [intros t; symmetry; apply set_entry_nth; lia|].
        unfold d, bump. destruct ((i =? k)%nat && (e' =? e)%nat); [apply d_id|apply d_const].
      * rewrite (nth_indep _ zero_v (d 0%nat)) by (now rewrite map_length, seq_length). rewrite (map_nth d). now rewrite seq_nth.
  - unfold inner_all. rewrite (rsum_ext _ _ (fun i => if (i =? k)%nat then g k e else 0)); [now rewrite rsum_single|].
    intros i Hi. rewrite (nth_indep _ zero_v (d 0%nat)) by (now rewrite map_length, seq_length). rewrite (map_nth d). rewrite seq_nth by exact Hi. cbn [Nat.add].
    unfold inner, d, bump. destruct (Nat.eqb_spec i k) as [->|NE]; cbn [andb].
    + rewrite (rsum_ext _ _ (fun e' => if (e' =? e)%nat then g k e else 0)); [now rewrite rsum_single|].
      intros e' _. destruct (Nat.eqb_spec e' e) as [->|]; ring.
    + rewrite (rsum_ext _ _ (fun _ => 0)); [apply rsum_0|intros; ring].
Qed.

(** A small enough step along a nonzero gradient increases the bound. *)
Theorem C56_ascent : forall net theta,
  well_formed net -> length theta = length (n_params net) -> good_functions net theta -> proper net theta ->
  exists g : nat -> vec,
    (forall k, (k < length (n_params net))%nat -> ml_gradient net theta k = Ok (g k)) /\
    ((exists k e, (k < length (n_params net))%nat /\ (e < nth k (n_params net) 0)%nat /\ g k e <> 0) ->
     exists eps, 0 < eps /\ forall s, 0 < s < eps ->
       children_bound net theta <
       children_bound net (map (fun kx : nat * vec => fun e => snd kx e + s * g (fst kx) e) (combine (seq 0 (length theta)) theta))).
Proof.
  intros net theta WF LT GF PR. destruct (C56_gradient net theta WF LT GF PR) as (g & G1 & G2). exists g. split; [exact G1|].
  intros (k0 & e0 & Hk0 & He0 & NZ).
  set (step := fun s => map (fun kx : nat * vec => fun e => snd kx e + s * g (fst kx) e) (combine (seq 0 (length theta)) theta)).
  assert (SN : forall s j e, (j < length theta)%nat -> nth j (step s) zero_v e = nth j theta zero_v e + s * g j e).
  { intros s j e Hj. unfold step. set (F := fun kx : nat * vec => fun e => snd kx e + s * g (fst kx) e).
    rewrite (nth_indep _ zero_v (F (0%nat, zero_v))) by (rewrite map_length, combine_length, seq_length; lia).
    rewrite (map_nth F). rewrite combine_nth by apply seq_length. unfold F. cbn [fst snd]. now rewrite seq_nth. }
  assert (SL : forall s, length (step s) = length theta) by (intros s; unfold step; rewrite map_length, combine_length, seq_length; lia).
  assert (S0 : step 0 = theta).
  { apply nth_ext with zero_v zero_v; [apply SL|]. intros j Hj. rewrite SL in Hj. apply FunctionalExtensionality.functional_extensionality. intros e. rewrite SN by exact Hj. now rewrite Rmult_0_l, Rplus_0_r. }
  assert (NG : forall i, (i < length (n_params net))%nat -> nth i (map g (seq 0 (length (n_params net)))) zero_v = g i).
  { intros i Hi. rewrite (nth_indep _ zero_v (g 0%nat)) by (now rewrite map_length, seq_length). rewrite (map_nth g). now rewrite seq_nth. }
  assert (D : derivable_pt_lim (fun s => children_bound net (step s)) 0 (inner_all (n_params net) g g)).
  { eapply dlim_eq; [apply (G2 step 0 (map g (seq 0 (length (n_params net))))); [exact S0|]|].
    - split; [now rewrite map_length, seq_length|]. split; [intros t; rewrite SL; exact LT|]. intros i Hi e He. rewrite (NG i Hi).
      apply (dlim_ext (fun t => nth i theta zero_v e + t * g i e)); [intros t; symmetry; apply SN; lia|].
      eapply dlim_eq; [apply d_plus; [apply d_const|]; apply d_mult; [apply d_id|apply d_const]|]. cbv beta. ring.
    - unfold inner_all. apply rsum_ext. intros i Hi. now rewrite (NG i Hi). }
  assert (POS : 0 < inner_all (n_params net) g g).
  { unfold inner_all.
    assert (NN : forall n h, 0 <= inner n h h) by (intros n h; apply rsum_nonneg; intros; nra).
    assert (ONE : forall n i (h : nat -> R), (i < n)%nat -> (forall j, (j < n)%nat -> 0 <= h j) -> 0 < h i -> 0 < rsum n h).
    { intros n i h Hi Hn Hp. apply Rlt_le_trans with (rsum n (fun j => if (j =? i)%nat then h i else 0)).
      - now rewrite (rsum_single n i (fun _ => h i)).
      - apply rsum_le. intros j Hj. destruct (Nat.eqb_spec j i) as [->|]; [lra|now apply Hn]. }
    apply (ONE _ k0); [exact Hk0|intros; apply NN|]. unfold inner. apply (ONE _ e0); [exact He0|intros; nra|nra]. }
  set (v := inner_all (n_params net) g g) in *.
  destruct (D (v / 2)) as [delta Hd]; [lra|]. exists delta. split; [apply cond_pos|]. intros s [Hs0 Hs1].
  specialize (Hd s ltac:(lra) ltac:(rewrite Rabs_right; lra)). rewrite Rplus_0_l, S0 in Hd.
  apply Rabs_def2 in Hd as [_ Hd]. change (children_bound net theta < children_bound net (step s)).
  assert (Q : v / 2 < (children_bound net (step s) - children_bound net theta) / s) by lra.
  apply (Rmult_lt_compat_r s) in Q; [|lra]. unfold Rdiv in Q. rewrite (Rmult_assoc _ (/ s) s), Rinv_l in Q by lra. nra.
Qed.

(** The moments a child receives: the matrix and the logarithm of its determinant. *)
Theorem C56_moments : forall c v q, posdef (c_dim c) (plate_matrix (c_dim c) v q) ->
  delta_moments c v q = Ok (plate_matrix (c_dim c) v q, ln (mdet (c_dim c) (plate_matrix (c_dim c) v q))).
Proof.
  intros c v q P. destruct (posdef_chol _ _ P) as [U EU]. unfold delta_moments, wishartmoments_fixed, chol. rewrite EU. cbn [bind].
  now rewrite (proj2 (chol_logdet_ok _ _ U (proj1 P) EU)).
Qed.

(** Refuted for a parameter with a regularization: the lower bound contains the
    regularization (its contribution), the gradient does not.  A parameter x with
    regularization x^2 and no children: the bound is -x^2, the gradient is 0. *)
Theorem C56_regularization_refuted :
  let net := MLNet [1%nat] [] [] in
  let reg : vec -> vec := fun x e => x e * x e in
  let bound x := children_bound net [x] + ml_contribution (Some reg) 1 x in
  exists g, ml_gradient net [fun _ => 1] 0 = Ok g /\ g 0%nat = 0 /\
    derivable_pt_lim (fun t => bound (fun _ => t)) 1 (-2) /\
    ~ derivable_pt_lim (fun t => bound (fun _ => t)) 1 (g 0%nat).
Proof.
  intros net reg bound.
  assert (D : derivable_pt_lim (fun t => bound (fun _ => t)) 1 (-2)).
  { apply (dlim_ext (fun t => (-1) * (t * t))).
    - intros t. unfold bound, children_bound, ml_contribution, net, reg. cbn. unfold lsum. cbn. ring.
    - eapply dlim_eq; [apply d_scal; apply d_mult; apply d_id|]. cbv beta. ring. }
  exists (fun e => 0 + 0). split; [reflexivity|]. split; [ring|]. split; [exact D|].
  intros D'. pose proof (uniqueness_limite _ _ _ _ D D'). lra.
Qed.

(** A case that meets the hypotheses: the parameter is a vector x of length 2, the function
    gives I + x x^T, and the child reads that 2x2 matrix. *)
Definition ex_fun : list vec -> vec := fun xs =>
  let x := nth 0 xs zero_v in
  fun e => match e with
    | 0%nat => 1 + x 0%nat * x 0%nat | 1%nat => x 0%nat * x 1%nat | 2%nat => x 1%nat * x 0%nat | _ => 1 + x 1%nat * x 1%nat end.
Definition ex_grad : vec -> list vec -> vec := fun m xs =>
  let x := nth 0 xs zero_v in
  fun e => match e with
    | 0%nat => 2 * m 0%nat * x 0%nat + (m 1%nat + m 2%nat) * x 1%nat
    | _ => (m 1%nat + m 2%nat) * x 0%nat + 2 * m 3%nat * x 1%nat end.
Definition ex_net : mlnet := MLNet [2%nat] [FNode [0%nat] 4 ex_fun [ex_grad]]
  [Consumer 1 2 1 (fun _ i j => - (1 / 2) * INR (i + j + 1)) (fun _ => 3 / 2)].
Definition ex_theta : list vec := [fun e => match e with 0%nat => 1 | _ => 2 end].
Example ex_ml : well_formed ex_net /\ length ex_theta = length (n_params ex_net) /\
  good_functions ex_net ex_theta /\ proper ex_net ex_theta.
Proof.
  split; [|split; [|split]].
  - split.
    + intros [|[|j]] f E; cbn in E; try discriminate. injection E as <-. cbn. repeat constructor.
    + constructor; [|constructor]. cbn. split; [lia|reflexivity].
  - reflexivity.
  - intros [|[|j]] f E; cbn in E; try discriminate. injection E as <-. split; [reflexivity|]. cbn [map f_parents f_size f_fun f_grads].
    change (size_of ex_net 0) with 2%nat. intros xs t0 Hs E0 (L1 & L2 & M). specialize (M 0%nat ltac:(cbn; lia)). cbn [nth] in M.
    set (x := nth 0 (xs t0) zero_v). set (h := nth 0 Hs zero_v) in *.
    assert (M0 := M 0%nat ltac:(lia)). assert (M1 := M 1%nat ltac:(lia)). cbv beta in M0, M1.
    exists (fun e => match e with 0%nat => 2 * x 0%nat * h 0%nat | 1%nat => x 0%nat * h 1%nat + x 1%nat * h 0%nat
             | 2%nat => x 0%nat * h 1%nat + x 1%nat * h 0%nat | _ => 2 * x 1%nat * h 1%nat end). split.
    + intros e He. unfold ex_fun. destruct e as [|[|[|e]]].
      * eapply dlim_eq; [apply d_plus; [apply d_const|apply d_mult; [exact M0|exact M0]]|]. cbv beta. fold x. ring.
      * eapply dlim_eq; [apply d_mult; [exact M0|exact M1]|]. cbv beta. fold x. ring.
      * eapply dlim_eq; [apply d_mult; [exact M1|exact M0]|]. cbv beta. fold x. ring.
      * eapply dlim_eq; [apply d_plus; [apply d_const|apply d_mult; [exact M1|exact M1]]|]. cbv beta. fold x. ring.
    + intros m. rewrite <- E0. unfold inner_all, inner. cbn [length rsum nth]. unfold ex_grad. fold x. fold h. ring.
  - constructor; [|constructor]. intros q Hq. cbn [c_dim c_node] in *. split.
    + intros i j Hi Hj. unfold plate_matrix. cbn in Hq. assert (q = 0)%nat by lia. subst q.
      destruct i as [|[|i]], j as [|[|j]]; try lia; cbn; ring.
    + intros y (i & Hi & Hy). cbn in Hq. assert (q = 0)%nat by lia. subst q. unfold bilinear, plate_matrix. cbn.
      match goal with |- 0 < ?z => replace z with (y 0%nat * y 0%nat + y 1%nat * y 1%nat + (y 0%nat + 2 * y 1%nat) * (y 0%nat + 2 * y 1%nat)) by ring end.
      pose proof (Rle_0_sqr (y 0%nat)) as Q0. pose proof (Rle_0_sqr (y 1%nat)) as Q1. pose proof (Rle_0_sqr (y 0%nat + 2 * y 1%nat)) as Q2.
      destruct i as [|[|i]]; try lia; pose proof (Rsqr_pos_lt _ Hy) as Q3; unfold Rsqr in *; lra.
Qed.

Print Assumptions C56_gradient.
Print Assumptions C56_partial_derivatives.
Print Assumptions C56_ascent.
Print Assumptions C56_moments.
Print Assumptions C56_regularization_refuted.
