From Coq Require Import List Arith Lia Bool Reals Lra.
From Verif Require Import Base NumPy TensorLemmas ExtReal Numeric SpecNumeric NumericLemmas Markov SpecMarkov MarkovLemmas
  Families SpecFamilies FamiliesLemmas FamiliesLemmas2.
Import ListNotations.
Open Scope R_scope.

Lemma lsum_nth : forall A (f : A -> R) l d, lsum (map f l) = rsum (length l) (fun i => f (nth i l d)).
Proof.
  induction l as [|a l IH]; intros d; [reflexivity|]. cbn [map length]. rewrite lsum_cons, rsum_S_l. cbn [nth].
  f_equal. apply IH.
Qed.

Lemma lsum_rsum_swap : forall A (F : nat -> A -> R) D l,
  lsum (map (fun z => rsum D (fun i => F i z)) l) = rsum D (fun i => lsum (map (F i) l)).
Proof.
  induction l as [|a l IH]; cbn [map].
  - cbn. now rewrite rsum_0.
  - rewrite lsum_cons, IH, <- rsum_plus. reflexivity.
Qed.

Lemma paths_lt : forall D n z k, In z (paths D n) -> (k < n)%nat -> (nth k z 0 < D)%nat.
Proof.
  induction n as [|n IH]; intros z k Hz Hk; [lia|]. cbn in Hz.
  apply in_flat_map in Hz as (i & Hi & Hz). apply in_map_iff in Hz as (t & <- & Ht). apply in_seq in Hi.
  destruct k; cbn; [lia|]. apply IH; [exact Ht|lia].
Qed.

Lemma paths_nonempty : forall D n, (0 < D)%nat -> paths D n <> [].
Proof.
  induction n as [|n IH]; intros HD; [discriminate|]. cbn. specialize (IH HD).
  destruct D; [lia|]. cbn. destruct (paths (S D) n); [congruence|discriminate].
Qed.

(** Log-weight of a path. *)
Definition score (N : nat) (a0 : nat -> R) (a1 : nat -> nat -> nat -> R) (z : list nat) : R :=
  a0 (nth 0 z 0%nat) + rsum N (fun n => a1 n (nth n z 0%nat) (nth (S n) z 0%nat)).

Lemma steps_score : forall a1 N z n, length z = S N ->
  steps_weight (fun n i j => exp (a1 n i j)) n z =
  exp (rsum N (fun k => a1 (n + k)%nat (nth k z 0%nat) (nth (S k) z 0%nat))).
Proof.
  induction N as [|N IH]; intros z n Hz.
  - destruct z as [|a [|b z]]; cbn in Hz; try lia. cbn. symmetry. apply exp_0.
  - destruct z as [|a [|b z]]; cbn in Hz; try lia.
    change (steps_weight (fun n i j => exp (a1 n i j)) n (a :: b :: z))
      with (exp (a1 n a b) * steps_weight (fun n i j => exp (a1 n i j)) (S n) (b :: z)).
    rewrite IH by (cbn; lia). rewrite <- exp_plus, rsum_S_l. f_equal. rewrite Nat.add_0_r. cbn [nth]. f_equal.
    apply rsum_ext. intros k _. now rewrite Nat.add_succ_r.
Qed.

Lemma path_score : forall N a0 a1 z, length z = S N ->
  path_weight (fun i => exp (a0 i)) (fun n i j => exp (a1 n i j)) z = exp (score N a0 a1 z).
Proof.
  intros N a0 a1 z Hz. unfold path_weight. destruct z as [|a z]; [discriminate|].
  rewrite (steps_score a1 N) by exact Hz. rewrite <- exp_plus. reflexivity.
Qed.

Lemma normaliser_score : forall D N a0 a1,
  normaliser D N (fun i => exp (a0 i)) (fun n i j => exp (a1 n i j)) =
  lsum (map (fun z => exp (score N a0 a1 z)) (paths D (S N))).
Proof.
  intros. unfold normaliser, weight_of. rewrite lsum_filter. f_equal. apply map_ext_in. intros z Hz.
  apply path_score. now apply paths_length in Hz.
Qed.

Lemma lsum_pos : forall A (f : A -> R) l, l <> [] -> (forall a, 0 < f a) -> 0 < lsum (map f l).
Proof.
  intros A f l Hl H. destruct l as [|a l]; [congruence|]. cbn [map]. rewrite lsum_cons.
  specialize (H a) as H1. assert (0 <= lsum (map f l)); [|lra].
  apply lsum_nonneg. intros v Hv. apply in_map_iff in Hv as (b & <- & _). left. apply H.
Qed.

Lemma normaliser_pos : forall D N a0 a1, (0 < D)%nat ->
  0 < normaliser D N (fun i => exp (a0 i)) (fun n i j => exp (a1 n i j)).
Proof.
  intros. rewrite normaliser_score. apply lsum_pos; [now apply paths_nonempty|]. intros; apply exp_pos.
Qed.

(** The path indicators. *)
Lemma score_indicators : forall D N a0 a1 z, In z (paths D (S N)) ->
  score N a0 a1 z =
  rsum D (fun i => a0 i * (if at_time 0 i z then 1 else 0)) +
  rsum N (fun n => rsum D (fun i => rsum D (fun j =>
     a1 n i j * (if (at_time n i z && at_time (S n) j z)%bool then 1 else 0)))).
Proof.
  intros D N a0 a1 z Hz. unfold score, at_time. f_equal.
  - rewrite (rsum_ext D _ (fun i => if (i =? nth 0 z 0)%nat then a0 i else 0)).
    + rewrite rsum_single; [reflexivity|]. apply (paths_lt D (S N)); [exact Hz|lia].
    + intros i _. rewrite Nat.eqb_sym. destruct (i =? nth 0 z 0)%nat; ring.
  - apply rsum_ext. intros n Hn.
    rewrite (rsum_ext D _ (fun i => if (i =? nth n z 0)%nat then a1 n i (nth (S n) z 0%nat) else 0)).
    + rewrite (rsum_single D (nth n z 0%nat) (fun i => a1 n i (nth (S n) z 0%nat))); [reflexivity|].
      apply (paths_lt D (S N)); [exact Hz|lia].
    + intros i _. destruct (Nat.eqb_spec i (nth n z 0%nat)) as [->|Hi].
      * rewrite (rsum_ext D _ (fun j => if (j =? nth (S n) z 0)%nat then a1 n (nth n z 0%nat) j else 0)).
        -- rewrite rsum_single; [reflexivity|]. apply (paths_lt D (S N)); [exact Hz|lia].
        -- intros j _. rewrite Nat.eqb_refl, (Nat.eqb_sym j). cbn [andb]. destruct (nth (S n) z 0 =? j)%nat; ring.
      * rewrite (rsum_ext D _ (fun _ => 0)); [apply rsum_0|]. intros j _.
        rewrite (proj2 (Nat.eqb_neq _ _)) by congruence. cbn [andb]. ring.
Qed.

Lemma lsum_map_plus : forall A (f g : A -> R) l, lsum (map (fun a => f a + g a) l) = lsum (map f l) + lsum (map g l).
Proof. induction l as [|a l IH]; cbn [map]; rewrite ?lsum_cons; [cbn; ring|]. rewrite IH. ring. Qed.

(** The inner product with the moments is the expected log-weight. *)
Lemma dot_expectation : forall D N a0 a1 p0 P,
  chain_dot D N a0 a1 (fun i => prob D N p0 P (at_time 0 i))
    (fun n i j => prob D N p0 P (fun z => at_time n i z && at_time (S n) j z)%bool) =
  lsum (map (fun z => score N a0 a1 z * (path_weight p0 P z / normaliser D N p0 P)) (paths D (S N))).
Proof.
  intros D N a0 a1 p0 P. set (Z := normaliser D N p0 P). set (w := fun z => path_weight p0 P z / Z).
  assert (EP : forall c, prob D N p0 P c = lsum (map (fun z => (if c z then 1 else 0) * w z) (paths D (S N)))).
  { intros c. unfold prob, weight_of. fold Z. rewrite lsum_filter. unfold Rdiv. rewrite <- lsum_map_mult. f_equal.
    apply map_ext. intros z. unfold w, Rdiv. destruct (c z); ring. }
  unfold chain_dot.
  rewrite (map_ext_in (fun z => score N a0 a1 z * (path_weight p0 P z / Z))
    (fun z => rsum D (fun i => a0 i * ((if at_time 0 i z then 1 else 0) * w z)) +
       rsum N (fun n => rsum D (fun i => rsum D (fun j =>
          a1 n i j * ((if (at_time n i z && at_time (S n) j z)%bool then 1 else 0) * w z)))))).
  2:{ intros z Hz. rewrite (score_indicators D N a0 a1 z Hz). fold (w z). rewrite Rmult_plus_distr_r.
      rewrite <- !rsum_scal_r. f_equal; apply rsum_ext; intros; [ring|].
      rewrite <- !rsum_scal_r. apply rsum_ext; intros. rewrite <- rsum_scal_r. apply rsum_ext; intros. ring. }
  rewrite lsum_map_plus, !lsum_rsum_swap. f_equal.
  - apply rsum_ext. intros i _. rewrite EP, lsum_map_scal_l. reflexivity.
  - apply rsum_ext. intros n _. rewrite lsum_rsum_swap. apply rsum_ext. intros i _. rewrite lsum_rsum_swap.
    apply rsum_ext. intros j _. rewrite EP, lsum_map_scal_l. reflexivity.
Qed.

Lemma list_gibbs : forall A (L : list A) (s s' : A -> R), L <> [] ->
  ln (lsum (map (fun z => exp (s' z)) L)) >= ln (lsum (map (fun z => exp (s z)) L)) +
    lsum (map (fun z => (s' z - s z) * (exp (s z) / lsum (map (fun z => exp (s z)) L))) L).
Proof.
  intros A L s s' HL. destruct L as [|d L0] eqn:EL; [congruence|]. rewrite <- EL in *. clear EL L0.
  assert (HK : (0 < length L)%nat) by (destruct L; [congruence|cbn; lia]).
  pose proof (softmax_gibbs 1 (length L) (fun i => s (nth i L d)) (fun i => s' (nth i L d)) ltac:(lra) HK) as G.
  unfold sumexp in G.
  rewrite <- (lsum_nth A (fun z => exp (s z)) L d), <- (lsum_nth A (fun z => exp (s' z)) L d) in G.
  rewrite !Rmult_1_l in G.
  rewrite (lsum_nth A (fun z => (s' z - s z) * (exp (s z) / lsum (map (fun z => exp (s z)) L))) L d).
  rewrite (rsum_ext _ _ (fun i => (s' (nth i L d) - s (nth i L d)) * (exp (s (nth i L d)) / lsum (map (fun z => exp (s z)) L)))) in G
    by (intros; ring). exact G.
Qed.

(** Derivative of the log-normaliser. *)
Lemma d_lsum_exp : forall A (L : list A) (s : R -> A -> R) x (ds : A -> R),
  (forall a, In a L -> derivable_pt_lim (fun t => s t a) x (ds a)) ->
  derivable_pt_lim (fun t => lsum (map (fun a => exp (s t a)) L)) x
    (lsum (map (fun a => ds a * exp (s x a)) L)).
Proof.
  induction L as [|a L IH]; intros s x ds H; cbn [map].
  - cbn. apply d_const.
  - apply (dlim_ext (fun t => exp (s t a) + lsum (map (fun a => exp (s t a)) L))); [reflexivity|].
    rewrite lsum_cons. apply d_plus.
    + eapply dlim_eq; [apply (d_comp (fun t => s t a) exp)|].
      * apply H. now left.
      * apply d_exp.
      * ring.
    + apply IH. intros; apply H; now right.
Qed.
