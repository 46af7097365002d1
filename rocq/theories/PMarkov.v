(** Property C42: the forward-backward recursion is exact; C20-C22 and C24 for the
    categorical Markov chain. *)
From Coq Require Import List Arith Lia Bool Reals Lra.
From Verif Require Import Base NumPy TensorLemmas ExtReal Numeric SpecNumeric NumericLemmas Markov SpecMarkov MarkovLemmas MarkovLemmas2
  Families SpecFamilies FamiliesLemmas FamiliesLemmas2.
Import ListNotations.
Open Scope R_scope.

(** For any log-weights (-inf allowed) with at least one possible path, the
    recursion returns the exact probabilities over all D^(N+1) paths. *)
Theorem C42_alpha_beta : forall D N logp0 logP, (0 < N)%nat ->
  (forall i, (i < D)%nat -> log_weight (logp0 i)) ->
  (forall n i j, (n < N)%nat -> (i < D)%nat -> (j < D)%nat -> log_weight (logP n i j)) ->
  let p0 i := weight (logp0 i) in
  let P n i j := weight (logP n i j) in
  0 < normaliser D N p0 P ->
  exists z0 zz,
    alpha_beta_recursion D N D D logp0 logP =
      Ok (map Fin z0, map (map (map Fin)) zz, Fin (- ln (normaliser D N p0 P))) /\
    length z0 = D /\ length zz = N /\
    (forall n, (n < N)%nat -> length (nth n zz []) = D /\
       forall i, (i < D)%nat -> length (nth i (nth n zz []) []) = D) /\
    (forall i, (i < D)%nat -> nth i z0 0 = prob D N p0 P (at_time 0 i)) /\
    (forall n i j, (n < N)%nat -> (i < D)%nat -> (j < D)%nat ->
       nth j (nth i (nth n zz []) []) 0 =
       prob D N p0 P (fun z => at_time n i z && at_time (S n) j z)%bool).
Proof.
  intros D N logp0 logP HN H0 HP p0 P HZ. set (Z := normaliser D N p0 P) in *.
  set (T := fun n i j => prob D N p0 P (fun z => at_time n i z && at_time (S n) j z)%bool).
  exists (map (fun i => prob D N p0 P (at_time 0 i)) (seq 0 D)),
         (map (fun n => map (fun i => map (T n i) (seq 0 D)) (seq 0 D)) (seq 0 N)).
  assert (HD : (0 < D)%nat) by (exact (chain_D D N logp0 logP H0 HP HZ)).
  split.
  2:{ rewrite !map_length, !seq_length. split; [reflexivity|]. split; [reflexivity|].
      assert (NT : forall (A : Type) (f : nat -> A) m k d, (k < m)%nat -> nth k (map f (seq 0 m)) d = f k).
      { intros A f m k d Hk. rewrite (nth_indep _ d (f 0%nat)) by now rewrite map_length, seq_length.
        rewrite map_nth, seq_nth by exact Hk. reflexivity. }
      split; [|split].
      - intros n Hn. rewrite NT by exact Hn. rewrite map_length, seq_length. split; [reflexivity|].
        intros i Hi. rewrite NT by exact Hi. now rewrite map_length, seq_length.
      - intros i Hi. now rewrite NT.
      - intros n i j Hn Hi Hj. now rewrite !NT. }
  unfold alpha_beta_recursion. rewrite !Nat.eqb_refl. cbn [andb negb].
  destruct N as [|s]; [lia|].
  assert (HX : lw_row D (map logp0 (seq 0 D)) (fun j => fw D p0 P 0 j / 1)).
  { intros i Hi. unfold ent. rewrite (nth_indep _ NaN (logp0 0%nat)) by now rewrite map_length, seq_length.
    rewrite map_nth, seq_nth by exact Hi. split; [now apply H0|]. cbn. unfold p0. field. }
  destruct (forward_ok D (S s) logp0 logP H0 HP HZ s 0 _ 1 ltac:(lia) ltac:(lra) HX)
    as (alphas & k & E1 & Pk & Hlast & Hal).
  fold p0 in Hlast, Hal. fold P in Hlast, Hal. rewrite ln_1 in E1. replace (- 0) with 0 in E1 by ring. rewrite E1. cbn [bind].
  cbn [Nat.add] in Hlast, Hal.
  assert (Hv : lw_mat D (fun i j => eadd (ent (nth s alphas []) i) (logP s i j))
                 (fun i j => fw D p0 P s i / k * P s i j)).
  { intros i j Hi Hj. destruct (Hlast i Hi) as [L <-]. apply weight_add; [exact L|]. apply HP; lia. }
  assert (ET : rsum D (fun i => rsum D (fun j => fw D p0 P s i / k * P s i j)) = Z / k).
  { unfold Z. rewrite <- (fw_bw D (S s) p0 P s) by lia. unfold Rdiv at 2. rewrite <- rsum_scal_r. apply rsum_ext. intros i _.
    replace (S s - s)%nat with 1%nat by lia. cbn [bw]. rewrite <- rsum_scal, <- rsum_scal_r. apply rsum_ext.
    intros j _. unfold Rdiv. ring. }
  assert (PZ : 0 < Z / k) by now apply Rdiv_lt_0_compat.
  rewrite (lse_both_w D _ _ Hv) by (rewrite ET; exact PZ). rewrite ET. cbn [bind].
  destruct (backward_ok D (S s) logp0 logP H0 HP HZ s 0 ltac:(lia)) as (betas & E2 & Hbe).
  fold P in Hbe. rewrite E2. cbn [bind].
  assert (Hzz : forall n, (n < S s)%nat ->
    pair_table D (nth n alphas []) (nth n betas []) (logP n) =
    Ok (map (fun i => map (fun j => Fin (T n i j)) (seq 0 D)) (seq 0 D))).
  { intros n Hn. destruct (Hal n ltac:(lia)) as (ka & Pa & Ha). destruct (Hbe n ltac:(lia)) as (kb & Pb & Hb).
    cbn [Nat.add] in Hb.
    assert (HPn : lw_mat D (logP n) (P n)) by (intros i j Hi Hj; split; [apply HP; lia|reflexivity]).
    assert (ES : rsum D (fun i => rsum D (fun j => fw D p0 P n i / ka * (bw D P (s - n) (S n) j / kb) * P n i j)) = Z / (ka * kb)).
    { unfold Z. rewrite <- (fw_bw D (S s) p0 P n) by lia. unfold Rdiv at 3. rewrite <- rsum_scal_r.
      apply rsum_ext. intros i _. replace (S s - n)%nat with (S (s - n)) by lia. cbn [bw].
      rewrite <- rsum_scal, <- rsum_scal_r. apply rsum_ext. intros j _. field. split; lra. }
    assert (PKK : 0 < ka * kb) by now apply Rmult_lt_0_compat.
    assert (PS : 0 < Z / (ka * kb)) by now apply Rdiv_lt_0_compat.
    rewrite (pair_table_ok D _ _ _ _ _ _ Ha Hb HPn) by (rewrite ES; exact PS). f_equal.
    apply map_ext_in. intros i Hi. apply map_ext_in. intros j Hj. apply in_seq in Hi, Hj. f_equal.
    rewrite ES. unfold T, prob. rewrite pair_weight by lia. fold Z.
    replace (S s - S n)%nat with (s - n)%nat by lia. field. repeat split; lra. }
  rewrite (mapM_ext_ok _ _ _ (fun n => map (fun i => map (fun j => Fin (T n i j)) (seq 0 D)) (seq 0 D))).
  2:{ intros n Hn. apply in_seq in Hn. apply Hzz. lia. }
  cbn [bind].
  assert (E0 : nth 0 (map (fun n => map (fun i => map (fun j => Fin (T n i j)) (seq 0 D)) (seq 0 D)) (seq 0 (S s))) []
     = map (fun i => map (fun j => Fin (T 0%nat i j)) (seq 0 D)) (seq 0 D)) by reflexivity.
  assert (EF : forall i, (i < D)%nat -> esum (map (fun j => Fin (T 0%nat i j)) (seq 0 D)) = Fin (prob D (S s) p0 P (at_time 0 i))).
  { intros i Hi. rewrite (esum_map_fin _ _ (T 0%nat i)) by reflexivity. f_equal. rewrite lsum_map_seq.
    unfold prob at 1. rewrite first_weight by (try exact Hi; lia). unfold Rdiv. rewrite <- rsum_scal_r. apply rsum_ext. intros j Hj.
    unfold T, prob. rewrite pair_weight by (try assumption; lia). reflexivity. }
  assert (EZ : map esum (map (fun i => map (fun j => Fin (T 0%nat i j)) (seq 0 D)) (seq 0 D)) =
    map (fun i => Fin (prob D (S s) p0 P (at_time 0 i))) (seq 0 D)).
  { rewrite map_map. apply map_ext_in. intros i Hi. apply in_seq in Hi. apply EF. lia. }
  rewrite E0, EZ.
  assert (E1s : esum (map (fun i => Fin (prob D (S s) p0 P (at_time 0 i))) (seq 0 D)) = Fin 1).
  { rewrite (esum_map_fin _ _ (fun i => prob D (S s) p0 P (at_time 0 i))) by reflexivity. f_equal. rewrite lsum_map_seq.
    unfold prob. unfold Rdiv. rewrite rsum_scal_r. fold Z.
    rewrite (rsum_ext D _ (fun i => p0 i * bw D P (S s) 0 i)).
    - rewrite <- total_bw. fold Z. field. lra.
    - intros i Hi. rewrite first_weight by (try exact Hi; lia). cbn [bw fw]. rewrite <- rsum_scal. apply rsum_ext.
      intros j _. replace (S s - 1)%nat with s by lia. ring. }
  rewrite E1s. do 2 f_equal.
  - f_equal.
    + rewrite map_map, map_map. apply map_ext. intros i. cbn. destruct (Req_EM_T 1 0); [lra|]. f_equal. field.
    + rewrite map_map. apply map_ext. intros n. rewrite map_map. apply map_ext. intros i. now rewrite map_map.
  - cbn. f_equal. unfold Rdiv. rewrite ln_mult, ln_Rinv; auto using Rinv_0_lt_compat. ring.
Qed.
Print Assumptions C42_alpha_beta.

(** A chain with impossible states meets the hypotheses. *)
Example C42_example :
  let logp0 i := match i with O => Fin 0 | _ => NInf end in
  let logP (n i j : nat) := match i, j with O, O => NInf | _, _ => Fin (INR n) end in
  (forall i, (i < 2)%nat -> log_weight (logp0 i)) /\
  (forall n i j, (n < 3)%nat -> (i < 2)%nat -> (j < 2)%nat -> log_weight (logP n i j)) /\
  0 < normaliser 2 3 (fun i => weight (logp0 i)) (fun n i j => weight (logP n i j)).
Proof.
  intros logp0 logP. split; [intros [|i] _; exact I|]. split; [intros n [|i] [|j] _ _ _; exact I|].
  rewrite total_bw. unfold logp0, logP. cbn [rsum bw weight]. pose proof (exp_pos 0).
  pose proof (exp_pos (INR 0)). pose proof (exp_pos (INR 1)). pose proof (exp_pos (INR 2)).
  set (a := exp (INR 0)) in *. set (b := exp (INR 1)) in *. set (c := exp (INR 2)) in *. set (d := exp 0) in *.
  assert (0 < d * (a * (b * c))) by (repeat apply Rmult_lt_0_compat; assumption). nra.
Qed.

(** The node that converts the chain to its individual states returns the
    distribution of every state ... *)
Theorem C42_states : forall D N p0 P n k, (n <= N)%nat -> (k < D)%nat ->
  cmc_to_categorical D (fun i => prob D N p0 P (at_time 0 i))
    (fun n i j => prob D N p0 P (fun z => at_time n i z && at_time (S n) j z)%bool) n k =
  prob D N p0 P (at_time n k).
Proof.
  intros D N p0 P n k Hn Hk. destruct n as [|n]; [reflexivity|]. cbn [cmc_to_categorical].
  unfold prob, Rdiv. rewrite rsum_scal_r. f_equal. unfold weight_of.
  rewrite (rsum_ext D _ (fun i => lsum (map (fun z => if (at_time n i z && at_time (S n) k z)%bool then path_weight p0 P z else 0) (paths D (S N)))))
    by (intros; apply lsum_filter).
  rewrite <- lsum_rsum_swap, lsum_filter. f_equal. apply map_ext_in. intros z Hz.
  rewrite (rsum_ext D _ (fun i => if (i =? nth n z 0)%nat then (if at_time (S n) k z then path_weight p0 P z else 0) else 0)).
  - rewrite rsum_single; [reflexivity|]. apply (paths_lt D (S N)); [exact Hz|lia].
  - intros i _. unfold at_time. rewrite (Nat.eqb_sym i). now destruct (nth n z 0 =? i)%nat.
Qed.
Print Assumptions C42_states.

(** ... and its message is the coefficient of the chain's moments in <m, u>. *)
Theorem C42_states_message : forall D N m z0 zz,
  rsum (S N) (fun n => rsum D (fun k => m n k * cmc_to_categorical D z0 zz n k)) =
  chain_dot D N (fst (cmc_to_categorical_message m)) (snd (cmc_to_categorical_message m)) z0 zz.
Proof.
  intros D N m z0 zz. rewrite rsum_S_l. unfold chain_dot. cbn [cmc_to_categorical cmc_to_categorical_message fst snd].
  f_equal. apply rsum_ext. intros n _. rewrite rsum_swap. apply rsum_ext. intros k _. rewrite <- rsum_scal. reflexivity.
Qed.
Print Assumptions C42_states_message.

(** ** The node's distribution *)
Section Node.
Variables (K N : nat).
Hypothesis (HK : (0 < K)%nat).
Hypothesis (HN : (2 <= N)%nat).
Let run (a0 : nat -> R) (a1 : nat -> nat -> nat -> R) :=
  cmc_moments_and_cgf N K (fun i => Fin (a0 i)) (fun n i j => Fin (a1 n i j)).
Let Z (a0 : nat -> R) (a1 : nat -> nat -> nat -> R) :=
  normaliser K (N - 1) (fun i => exp (a0 i)) (fun n i j => exp (a1 n i j)).
Let pr (a0 : nat -> R) (a1 : nat -> nat -> nat -> R) :=
  prob K (N - 1) (fun i => exp (a0 i)) (fun n i j => exp (a1 n i j)).

Lemma run_ok : forall a0 a1, is_ok (run a0 a1) = true /\
  chain_cgf (run a0 a1) = - ln (Z a0 a1) /\
  (forall i, (i < K)%nat -> chain_u0 (run a0 a1) i = pr a0 a1 (at_time 0 i)) /\
  (forall n i j, (n < N - 1)%nat -> (i < K)%nat -> (j < K)%nat ->
     chain_u1 (run a0 a1) n i j = pr a0 a1 (fun z => at_time n i z && at_time (S n) j z)%bool).
Proof.
  intros a0 a1. unfold run, cmc_moments_and_cgf.
  destruct (C42_alpha_beta K (N - 1) (fun i => Fin (a0 i)) (fun n i j => Fin (a1 n i j)) ltac:(lia)) as (z0 & zz & E & L0 & L1 & L2 & H0 & H1).
  - intros; exact I.
  - intros; exact I.
  - cbn [weight]. now apply normaliser_pos.
  - rewrite E. cbn [weight] in *. split; [reflexivity|]. split; [reflexivity|]. split.
    + intros i Hi. unfold chain_u0, pr. rewrite <- H0 by exact Hi.
      rewrite (nth_indep _ NaN (Fin 0)) by (rewrite map_length; lia). now rewrite map_nth.
    + intros n i j Hn Hi Hj. unfold chain_u1, pr. rewrite <- H1 by assumption.
      change (@nil (list ext)) with (map (map Fin) []). rewrite map_nth.
      change (@nil ext) with (map Fin []). rewrite map_nth. destruct (L2 n Hn) as [L3 L4]. specialize (L4 i Hi).
      rewrite (nth_indep _ NaN (Fin 0)) by (rewrite map_length; lia). now rewrite map_nth.
Qed.

(** ** C22: the moments are the partial derivatives of the log-normaliser. *)
Lemma score_entry1 : forall M a0 a1 i t z, score M (with_entry1 a0 i t) a1 z =
  score M a0 a1 z + (if at_time 0 i z then t - a0 i else 0).
Proof.
  intros. unfold score, with_entry1, at_time. destruct (Nat.eqb_spec (nth 0 z 0%nat) i) as [->|]; ring.
Qed.
Lemma score_entry3 : forall M a0 a1 n i j t z, (n < M)%nat -> score M a0 (with_entry3 a1 n i j t) z =
  score M a0 a1 z + (if (at_time n i z && at_time (S n) j z)%bool then t - a1 n i j else 0).
Proof.
  intros M a0 a1 n i j t z Hn. unfold score. rewrite Rplus_assoc. f_equal.
  rewrite (rsum_ext M _ (fun m => a1 m (nth m z 0%nat) (nth (S m) z 0%nat) +
    (if (m =? n)%nat then (if (at_time n i z && at_time (S n) j z)%bool then t - a1 n i j else 0) else 0))).
  - rewrite rsum_plus. f_equal. now rewrite (rsum_single M n (fun _ => if (at_time n i z && at_time (S n) j z)%bool then t - a1 n i j else 0) Hn).
  - intros m _. unfold with_entry3, at_time. destruct (Nat.eqb_spec m n) as [->|]; [|cbn [andb]; ring]. cbn [andb].
    destruct (Nat.eqb_spec (nth n z 0%nat) i) as [->|]; [|cbn [andb]; ring]. cbn [andb].
    destruct (Nat.eqb_spec (nth (S n) z 0%nat) j) as [->|]; ring.
Qed.

Lemma d_normaliser : forall (b0 : R -> nat -> R) (b1 : R -> nat -> nat -> nat -> R) a0 a1 x (c : list nat -> bool),
  b0 x = a0 -> b1 x = a1 ->
  (forall t z, In z (paths K (S (N - 1))) -> score (N - 1) (b0 t) (b1 t) z = score (N - 1) a0 a1 z + (if c z then t - x else 0)) ->
  derivable_pt_lim (fun t => ln (Z (b0 t) (b1 t))) x (pr a0 a1 c).
Proof.
  intros b0 b1 a0 a1 x c E0 E1 H.
  apply (dlim_ext (fun t => ln (lsum (map (fun z => exp (score (N - 1) (b0 t) (b1 t) z)) (paths K (S (N - 1))))))).
  { intros t. unfold Z. now rewrite normaliser_score. }
  assert (PZ : 0 < Z a0 a1) by now apply normaliser_pos.
  eapply dlim_eq.
  - apply (d_comp _ ln).
    + apply (d_lsum_exp _ (paths K (S (N - 1))) (fun t z => score (N - 1) (b0 t) (b1 t) z) x (fun z => if c z then 1 else 0)).
      intros z Hz. apply (dlim_ext (fun t => score (N - 1) a0 a1 z + (if c z then t - x else 0))).
      * intros t. symmetry. now apply H.
      * destruct (c z).
        -- eapply dlim_eq; [apply d_plus; [apply d_const|apply d_minus; [apply d_id|apply d_const]]|ring].
        -- apply d_const.
    + apply d_ln. cbv beta. rewrite E0, E1, <- normaliser_score. exact PZ.
  - cbv beta. rewrite E0, E1, <- normaliser_score. fold (Z a0 a1). unfold pr, prob, weight_of. fold (Z a0 a1).
    rewrite lsum_filter. unfold Rdiv. rewrite (Rmult_comm _ (/ Z a0 a1)), ?Rmult_1_l.
    rewrite (map_ext_in (fun a => if c a then path_weight (fun i => exp (a0 i)) (fun n i j => exp (a1 n i j)) a else 0)
       (fun a => (if c a then 1 else 0) * exp (score (N - 1) a0 a1 a))); [ring|].
    intros z Hz. apply paths_length in Hz. rewrite (path_score (N - 1)) by exact Hz. destruct (c z); ring.
Qed.
End Node.

Theorem C22_markov_chain : forall K N a0 a1, (0 < K)%nat -> (2 <= N)%nat ->
  let run a0 a1 := cmc_moments_and_cgf N K (fun i => Fin (a0 i)) (fun n i j => Fin (a1 n i j)) in
  is_ok (run a0 a1) = true /\
  (forall i, (i < K)%nat ->
     derivable_pt_lim (fun t => - chain_cgf (run (with_entry1 a0 i t) a1)) (a0 i) (chain_u0 (run a0 a1) i)) /\
  (forall n i j, (n < N - 1)%nat -> (i < K)%nat -> (j < K)%nat ->
     derivable_pt_lim (fun t => - chain_cgf (run a0 (with_entry3 a1 n i j t))) (a1 n i j) (chain_u1 (run a0 a1) n i j)).
Proof.
  intros K N a0 a1 HK HN run. destruct (run_ok K N HK HN a0 a1) as (I0 & _ & U0 & U1). split; [exact I0|]. split.
  - intros i Hi. unfold run. rewrite U0 by exact Hi.
    apply (dlim_ext (fun t => ln (normaliser K (N - 1) (fun x => exp (with_entry1 a0 i t x)) (fun n i j => exp (a1 n i j))))).
    { intros t. destruct (run_ok K N HK HN (with_entry1 a0 i t) a1) as (_ & -> & _). ring. }
    apply (d_normaliser K N HK (fun t => with_entry1 a0 i t) (fun _ => a1) a0 a1); [|reflexivity|].
    + apply FunctionalExtensionality.functional_extensionality. intros y. unfold with_entry1.
      destruct (Nat.eqb_spec y i); congruence.
    + intros t z _. apply score_entry1.
  - intros n i j Hn Hi Hj. unfold run. rewrite U1 by assumption.
    apply (dlim_ext (fun t => ln (normaliser K (N - 1) (fun x => exp (a0 x)) (fun m x y => exp (with_entry3 a1 n i j t m x y))))).
    { intros t. destruct (run_ok K N HK HN a0 (with_entry3 a1 n i j t)) as (_ & -> & _). ring. }
    apply (d_normaliser K N HK (fun _ => a0) (fun t => with_entry3 a1 n i j t) a0 a1); [reflexivity| |].
    + do 3 (apply FunctionalExtensionality.functional_extensionality; intros ?). unfold with_entry3.
      destruct (Nat.eqb_spec x n); [|reflexivity]. destruct (Nat.eqb_spec x0 i); [|reflexivity].
      destruct (Nat.eqb_spec x1 j); cbn [andb]; congruence.
    + intros t z _. now apply score_entry3.
Qed.
Print Assumptions C22_markov_chain.

(** ** C24: parameters prior + message maximise the bound. *)
Theorem C24_markov_chain : forall K N p0 p1 m0 m1 q0 q1 c, (0 < K)%nat -> (2 <= N)%nat ->
  let run a0 a1 := cmc_moments_and_cgf N K (fun i => Fin (a0 i)) (fun n i j => Fin (a1 n i j)) in
  let dot a0 a1 r := chain_dot K (N - 1) a0 a1 (chain_u0 r) (chain_u1 r) in
  let L a0 a1 := let r := run a0 a1 in
                 node_bound (dot p0 p1 r) (dot m0 m1 r) (dot a0 a1 r) (chain_cgf r) c in
  L (fun i => p0 i + m0 i) (fun n i j => p1 n i j + m1 n i j) >= L q0 q1.
Proof.
  intros K N p0 p1 m0 m1 q0 q1 c HK HN run dot L.
  set (M := (N - 1)%nat). set (b0 := fun i => p0 i + m0 i). set (b1 := fun n i j => p1 n i j + m1 n i j).
  set (Ps := paths K (S M)).
  assert (ED : forall a0 a1 d0 d1, dot d0 d1 (run a0 a1) =
     lsum (map (fun z => score M d0 d1 z * (exp (score M a0 a1 z) / lsum (map (fun z => exp (score M a0 a1 z)) Ps))) Ps)).
  { intros a0 a1 d0 d1. unfold dot. destruct (run_ok K N HK HN a0 a1) as (_ & _ & U0 & U1).
    transitivity (chain_dot K M d0 d1 (fun i => prob K M (fun i => exp (a0 i)) (fun n i j => exp (a1 n i j)) (at_time 0 i))
      (fun n i j => prob K M (fun i => exp (a0 i)) (fun n i j => exp (a1 n i j)) (fun z => at_time n i z && at_time (S n) j z)%bool)).
    - unfold chain_dot. fold M. f_equal.
      + apply rsum_ext. intros i Hi. f_equal. now apply U0.
      + apply rsum_ext. intros n Hn. apply rsum_ext. intros i Hi. apply rsum_ext. intros j Hj. f_equal. now apply U1.
    - rewrite dot_expectation. f_equal. apply map_ext_in. intros z Hz. apply paths_length in Hz.
      rewrite (path_score M) by exact Hz. now rewrite normaliser_score. }
  assert (EC : forall a0 a1, chain_cgf (run a0 a1) = - ln (lsum (map (fun z => exp (score M a0 a1 z)) Ps))).
  { intros a0 a1. destruct (run_ok K N HK HN a0 a1) as (_ & E & _). unfold run. rewrite E. now rewrite normaliser_score. }
  assert (SA : forall z, score M b0 b1 z = score M p0 p1 z + score M m0 m1 z).
  { intros z. unfold score, b0, b1. rewrite rsum_plus. ring. }
  assert (EL : forall a0 a1, L a0 a1 = lsum (map (fun z => (score M b0 b1 z - score M a0 a1 z) *
      (exp (score M a0 a1 z) / lsum (map (fun z => exp (score M a0 a1 z)) Ps))) Ps)
      + ln (lsum (map (fun z => exp (score M a0 a1 z)) Ps)) + c).
  { intros a0 a1. unfold L, node_bound. rewrite !ED, EC.
    set (w := fun z => exp (score M a0 a1 z) / lsum (map (fun z => exp (score M a0 a1 z)) Ps)).
    rewrite (map_ext (fun z => (score M b0 b1 z - score M a0 a1 z) * _)
       (fun z => (score M p0 p1 z * w z + score M m0 m1 z * w z) + -1 * (score M a0 a1 z * w z))).
    - rewrite lsum_map_plus, lsum_map_plus, lsum_map_scal_l. unfold w. ring.
    - intros z. rewrite SA. unfold w. ring. }
  rewrite !EL.
  rewrite (map_ext (fun z => (score M b0 b1 z - score M b0 b1 z) * _) (fun z => 0 * score M b0 b1 z)) by (intros; ring).
  rewrite lsum_map_scal_l.
  pose proof (list_gibbs _ Ps (score M q0 q1) (score M b0 b1) (paths_nonempty K (S M) HK)). lra.
Qed.
Print Assumptions C24_markov_chain.

(** ** C20, C21 *)
Theorem C20_markov_chain : forall K N T u_p0 u_P z0 zz, (T = 1 \/ T = N)%nat ->
  let '(phi0, phi1) := cmc_phi T u_p0 u_P in
  let P n := u_P (if (T =? 1)%nat then O else n) in
  chain_dot K N phi0 phi1 z0 zz + cmc_cgf_from_parents =
  rsum K (fun i => cmc_message0 (z0, zz) i * u_p0 i) +
  rsum N (fun n => rsum K (fun i => rsum K (fun j => cmc_message1 (z0, zz) n i j * P n i j))).
Proof.
  intros K N T u_p0 u_P z0 zz HT. unfold cmc_phi, chain_dot, cmc_cgf_from_parents, cmc_message0, cmc_message1. cbn [fst snd].
  rewrite Rplus_0_r. f_equal; apply rsum_ext; intros; [ring|]. apply rsum_ext. intros i _.
  apply rsum_ext. intros j _. ring.
Qed.
Print Assumptions C20_markov_chain.

(** For a fixed path <phi, u> is the logarithm of its probability. *)
Theorem C21_markov_chain : forall K N p0 P x, length x = S N -> (forall k, In k x -> (k < K)%nat) ->
  (forall i, 0 < p0 i) -> (forall n i j, 0 < P n i j) ->
  exists u0 u1, cmc_fixed_moments K x = Ok (u0, u1) /\
    let '(phi0, phi1) := cmc_phi N (fun i => ln (p0 i)) (fun n i j => ln (P n i j)) in
    chain_dot K N phi0 phi1 u0 u1 = ln (path_weight p0 P x).
Proof.
  intros K N p0 P x Hx Hk Hp HP. unfold cmc_fixed_moments.
  rewrite (proj2 (forallb_forall _ x)) by (intros k Hin; apply Nat.ltb_lt; now apply Hk).
  do 2 eexists. split; [reflexivity|]. unfold cmc_phi.
  assert (Hin : In x (paths K (S N))).
  { clear -Hx Hk. revert Hx Hk. generalize (S N). intros M HM Hk. revert x HM Hk.
    induction M as [|M IH]; intros [|a x] HM Hk; try discriminate; [now left|]. cbn [paths]. apply in_flat_map. exists a.
    split; [apply in_seq; specialize (Hk a (or_introl eq_refl)); lia|]. apply in_map. apply IH; [now injection HM|].
    intros; apply Hk; now right. }
  assert (E : path_weight p0 P x = exp (score N (fun i => ln (p0 i)) (fun n i j => ln (P n i j)) x)).
  { rewrite <- path_score by exact Hx. f_equal.
    - apply FunctionalExtensionality.functional_extensionality. intros. now rewrite exp_ln.
    - do 3 (apply FunctionalExtensionality.functional_extensionality; intros ?). now rewrite exp_ln. }
  rewrite E, ln_exp, (score_indicators K N _ _ x Hin). unfold chain_dot, at_time. f_equal.
  apply rsum_ext. intros n Hn. apply rsum_ext. intros i _. apply rsum_ext. intros j _.
  destruct (Nat.eqb_spec N 1) as [EN|_]; [|ring]. assert (n = 0)%nat as -> by lia. ring.
Qed.
Print Assumptions C21_markov_chain.

Example C21_markov_chain_example : exists u0 u1, cmc_fixed_moments 3 [2; 0; 1]%nat = Ok (u0, u1) /\
  u0 2%nat = 1 /\ u1 1%nat 0%nat 1%nat = 1 /\ u1 0%nat 0%nat 1%nat = 0.
Proof. do 2 eexists. split; [reflexivity|]. cbn. auto. Qed.
