From Coq Require Import List Arith Lia Bool Reals Lra.
From Verif Require Import Base NumPy TensorLemmas ExtReal Numeric SpecNumeric NumericLemmas Markov SpecMarkov.
Import ListNotations.
Open Scope R_scope.

(** ** Sums over paths *)
Lemma lsum_cons : forall x l, lsum (x :: l) = x + lsum l.
Proof. reflexivity. Qed.
Lemma lsum_flat_map : forall A (f : A -> list R) l,
  lsum (flat_map f l) = lsum (map (fun a => lsum (f a)) l).
Proof. induction l as [|a l IH]; [reflexivity|]. cbn [flat_map map]. rewrite lsum_app, IH. reflexivity. Qed.

Lemma lsum_map_scal_l : forall A (f : A -> R) c l, lsum (map (fun a => c * f a) l) = c * lsum (map f l).
Proof. induction l as [|a l IH]; cbn; [ring|]. unfold lsum in IH. rewrite IH. ring. Qed.

Lemma lsum_filter : forall A (f : A -> R) p l,
  lsum (map f (filter p l)) = lsum (map (fun a => if p a then f a else 0) l).
Proof.
  induction l as [|a l IH]; [reflexivity|]. cbn [filter map]. rewrite lsum_cons, <- IH.
  destruct (p a); cbn [map]; rewrite ?lsum_cons; ring.
Qed.

(** Backward weights: total weight of [m] steps from state [i] at time [n]. *)
Fixpoint bw (D : nat) (P : nat -> nat -> nat -> R) (m n i : nat) : R :=
  match m with O => 1 | S k => rsum D (fun j => P n i j * bw D P k (S n) j) end.
(** Forward weights. *)
Fixpoint fw (D : nat) (p0 : nat -> R) (P : nat -> nat -> nat -> R) (n j : nat) : R :=
  match n with O => p0 j | S k => rsum D (fun i => fw D p0 P k i * P k i j) end.

Lemma bw_paths : forall D P m n i,
  lsum (map (fun t => steps_weight P n (i :: t)) (paths D m)) = bw D P m n i.
Proof.
  induction m as [|m IH]; intros n i; [cbn; ring|]. cbn [paths bw].
  rewrite flat_map_concat_map, concat_map, map_map.
  rewrite <- flat_map_concat_map, lsum_flat_map, <- lsum_map_seq. f_equal. apply map_ext. intros j.
  rewrite map_map. cbn [steps_weight]. rewrite lsum_map_scal_l. f_equal.
  rewrite <- IH. reflexivity.
Qed.

Lemma total_bw : forall D N p0 P, normaliser D N p0 P = rsum D (fun i => p0 i * bw D P N 0 i).
Proof.
  intros. unfold normaliser, weight_of. rewrite lsum_filter. cbn [paths].
  rewrite flat_map_concat_map, concat_map, map_map.
  rewrite <- flat_map_concat_map, lsum_flat_map, <- lsum_map_seq. f_equal. apply map_ext. intros i.
  rewrite map_map. cbn [path_weight]. rewrite lsum_map_scal_l. f_equal. apply bw_paths.
Qed.

Lemma fw_bw : forall D N p0 P n, (n <= N)%nat ->
  rsum D (fun i => fw D p0 P n i * bw D P (N - n) n i) = normaliser D N p0 P.
Proof.
  induction n as [|n IH]; intros Hn.
  - rewrite total_bw. cbn [fw]. now rewrite Nat.sub_0_r.
  - rewrite <- IH by lia. cbn [fw]. replace (N - n)%nat with (S (N - S n)) by lia. cbn [bw].
    rewrite (rsum_ext D (fun i => fw D p0 P n i * rsum D (fun j => P n i j * bw D P (N - S n) (S n) j))
       (fun i => rsum D (fun j => fw D p0 P n i * P n i j * bw D P (N - S n) (S n) j))).
    2:{ intros i _. rewrite <- rsum_scal. apply rsum_ext. intros; ring. }
    rewrite rsum_swap. apply rsum_ext. intros j _. now rewrite <- rsum_scal_r.
Qed.

(** Restricting a step to one transition. *)
Definition only (P : nat -> nat -> nat -> R) (n i j : nat) : nat -> nat -> nat -> R :=
  fun m x y => if (m =? n)%nat then (if (x =? i)%nat && (y =? j)%nat then P m x y else 0) else P m x y.

Lemma steps_weight_ext : forall P Q z n, (forall m x y, (n <= m)%nat -> P m x y = Q m x y) ->
  steps_weight P n z = steps_weight Q n z.
Proof.
  intros P Q. induction z as [|i z IH]; intros n H; [reflexivity|]. cbn [steps_weight]. destruct z; [reflexivity|].
  rewrite H by lia. f_equal. apply IH. intros; apply H; lia.
Qed.

Lemma steps_only : forall P i j z k n, (S k < length z)%nat ->
  steps_weight (only P (n + k) i j) n z =
  if (at_time k i z && at_time (S k) j z)%bool then steps_weight P n z else 0.
Proof.
  intros P i j. induction z as [|a z IH]; intros k n H; [cbn in H; lia|].
  destruct z as [|b z]; [cbn in H; lia|]. destruct k as [|k].
  - rewrite Nat.add_0_r. 
    change (steps_weight (only P n i j) n (a :: b :: z))
      with (only P n i j n a b * steps_weight (only P n i j) (S n) (b :: z)).
    change (steps_weight P n (a :: b :: z)) with (P n a b * steps_weight P (S n) (b :: z)).
    rewrite (steps_weight_ext (only P n i j) P (b :: z) (S n)).
    2:{ intros m x y Hm. unfold only. destruct (Nat.eqb_spec m n); [lia|reflexivity]. }
    unfold only. rewrite Nat.eqb_refl. unfold at_time. cbn [nth]. destruct (_ && _)%bool; [reflexivity|ring].
  - change (steps_weight (only P (n + S k) i j) n (a :: b :: z))
      with (only P (n + S k) i j n a b * steps_weight (only P (n + S k) i j) (S n) (b :: z)).
    replace (n + S k)%nat with (S n + k)%nat by lia. rewrite IH by (cbn in *; lia).
    change (steps_weight P n (a :: b :: z)) with (P n a b * steps_weight P (S n) (b :: z)).
    unfold only at 1. destruct (Nat.eqb_spec n (S n + k)) as [|_]; [lia|].
    unfold at_time. cbn [nth]. destruct (_ && _)%bool; [reflexivity|ring].
Qed.

Lemma paths_length : forall D n z, In z (paths D n) -> length z = n.
Proof.
  induction n as [|n IH]; intros z Hz; cbn in Hz; [destruct Hz as [<-|[]]; reflexivity|].
  apply in_flat_map in Hz as (i & _ & Hz). apply in_map_iff in Hz as (t & <- & Ht). cbn. now rewrite (IH t).
Qed.

Lemma pair_weight_only : forall D N p0 P n i j, (n < N)%nat ->
  weight_of D N p0 P (fun z => at_time n i z && at_time (S n) j z)%bool = normaliser D N p0 (only P n i j).
Proof.
  intros D N p0 P n i j Hn. unfold normaliser, weight_of. rewrite !lsum_filter. f_equal. apply map_ext_in.
  intros z Hz. apply paths_length in Hz. destruct z as [|a z]; [discriminate|].
  unfold path_weight. pose proof (steps_only P i j (a :: z) n 0 ltac:(rewrite Hz; lia)) as E. cbn [Nat.add] in E. rewrite E.
  destruct (_ && _)%bool; [reflexivity|ring].
Qed.

Lemma fw_only : forall D p0 P n i j k x, (k <= n)%nat -> fw D p0 (only P n i j) k x = fw D p0 P k x.
Proof.
  induction k as [|k IH]; intros x Hk; [reflexivity|]. cbn [fw]. apply rsum_ext. intros y _.
  rewrite IH by lia. unfold only. destruct (Nat.eqb_spec k n); [lia|reflexivity].
Qed.
Lemma bw_only : forall D P n i j m k x, (n < k)%nat -> bw D (only P n i j) m k x = bw D P m k x.
Proof.
  induction m as [|m IH]; intros k x Hk; [reflexivity|]. cbn [bw]. apply rsum_ext. intros y _.
  rewrite IH by lia. unfold only. destruct (Nat.eqb_spec k n); [lia|reflexivity].
Qed.

Lemma pair_weight : forall D N p0 P n i j, (n < N)%nat -> (i < D)%nat -> (j < D)%nat ->
  weight_of D N p0 P (fun z => at_time n i z && at_time (S n) j z)%bool =
  fw D p0 P n i * P n i j * bw D P (N - S n) (S n) j.
Proof.
  intros D N p0 P n i j Hn Hi Hj. rewrite pair_weight_only by exact Hn.
  rewrite <- (fw_bw D N p0 (only P n i j) n) by lia.
  rewrite (rsum_ext D _ (fun x => if (x =? i)%nat then fw D p0 P n x * (P n x j * bw D P (N - S n) (S n) j) else 0)).
  - rewrite (rsum_single D i (fun x => fw D p0 P n x * (P n x j * bw D P (N - S n) (S n) j)) Hi). ring.
  - intros x _. rewrite fw_only by lia. replace (N - n)%nat with (S (N - S n)) by lia. cbn [bw].
    destruct (Nat.eqb_spec x i) as [->|Hx].
    + f_equal. rewrite (rsum_ext D _ (fun y => if (y =? j)%nat then P n i y * bw D P (N - S n) (S n) y else 0)).
      * now rewrite (rsum_single D j (fun y => P n i y * bw D P (N - S n) (S n) y) Hj).
      * intros y _. rewrite bw_only by lia. unfold only. rewrite !Nat.eqb_refl.
        cbn [andb]. destruct (y =? j)%nat; ring.
    + rewrite (rsum_ext D _ (fun _ => 0)); [rewrite rsum_0; ring|].
      intros y _. unfold only. rewrite Nat.eqb_refl, (proj2 (Nat.eqb_neq x i) Hx). cbn [andb]. ring.
Qed.

(** Marginal of the first state. *)
Lemma first_weight : forall D N p0 P i, (0 < N)%nat -> (i < D)%nat ->
  weight_of D N p0 P (at_time 0 i) =
  rsum D (fun j => fw D p0 P 0 i * P 0%nat i j * bw D P (N - 1) 1 j).
Proof.
  intros D N p0 P i HN Hi. unfold weight_of. rewrite lsum_filter. cbn [paths].
  rewrite flat_map_concat_map, concat_map, map_map.
  rewrite <- flat_map_concat_map, lsum_flat_map, lsum_map_seq.
  rewrite (rsum_ext D _ (fun a => if (a =? i)%nat then p0 a * bw D P N 0 a else 0)).
  - rewrite (rsum_single D i (fun a => p0 a * bw D P N 0 a) Hi). destruct N as [|N]; [lia|].
    cbn [bw fw]. rewrite <- rsum_scal. apply rsum_ext. intros j _. replace (S N - 1)%nat with N by lia. ring.
  - intros a _. rewrite map_map. unfold at_time. cbn [nth path_weight]. destruct (a =? i)%nat.
    + rewrite lsum_map_scal_l. f_equal. apply bw_paths.
    + transitivity (lsum (map (fun _ : list nat => 0 * 0) (paths D N))).
      * f_equal. apply map_ext. intros; ring.
      * rewrite lsum_map_scal_l. ring.
Qed.

(** ** Rows of log-weights *)
Definition lw_row (D : nat) (l : list ext) (w : nat -> R) : Prop :=
  forall i, (i < D)%nat -> log_weight (ent l i) /\ weight (ent l i) = w i.
Definition lw_mat (D : nat) (v : nat -> nat -> ext) (w : nat -> nat -> R) : Prop :=
  forall i j, (i < D)%nat -> (j < D)%nat -> log_weight (v i j) /\ weight (v i j) = w i j.

Lemma logsumexp_w : forall X, X <> [] -> (forall a, In a X -> log_weight a) ->
  exists r, logsumexp X = Ok r /\ log_weight r /\ weight r = lsum (map weight X).
Proof.
  intros X HX H. destruct (existsb (fun a => match a with NInf => false | _ => true end) X) eqn:E.
  - apply existsb_exists in E as (a & Ha & Ea). exists (Fin (ln (lsum (map weight X)))).
    assert (X1 : exists a, In a X /\ a <> NInf) by (exists a; split; [exact Ha|now destruct a]).
    split; [now apply logsumexp_fin|]. split; [exact I|]. cbn. apply exp_ln. now apply weight_total_pos.
  - assert (A : forall a, In a X -> a = NInf).
    { intros a Ha. destruct a; try reflexivity; exfalso;
      (rewrite <- Bool.not_true_iff_false in E; apply E; apply existsb_exists; eexists; split; [exact Ha|reflexivity]). }
    exists NInf. split; [now apply logsumexp_ninf|]. split; [exact I|]. cbn. clear -A.
    induction X as [|a X IH]; [reflexivity|]. cbn [map]. rewrite lsum_cons, <- IH by (intros; apply A; now right).
    rewrite (A a) by now left. cbn. ring.
Qed.

Lemma lsum_flat_mat : forall D (w : nat -> nat -> R),
  lsum (flat_map (fun i => map (w i) (seq 0 D)) (seq 0 D)) = rsum D (fun i => rsum D (w i)).
Proof.
  intros. rewrite lsum_flat_map, <- lsum_map_seq. f_equal. apply map_ext. intros i. apply lsum_map_seq.
Qed.

Lemma map_flat_mat : forall A B (f : A -> B) D v,
  map f (flat_map (fun i => map (v i) (seq 0 D)) (seq 0 D)) =
  flat_map (fun i : nat => map (fun j => f (v i j)) (seq 0 D)) (seq 0 D).
Proof.
  intros. rewrite flat_map_concat_map, concat_map, map_map, flat_map_concat_map. f_equal.
  apply map_ext. intros i. now rewrite map_map.
Qed.

Lemma flat_map_ext_in : forall A B (f g : A -> list B) l, (forall a, In a l -> f a = g a) -> flat_map f l = flat_map g l.
Proof.
  induction l as [|a l IH]; intros H; [reflexivity|]. cbn. rewrite (H a) by now left. f_equal. apply IH. intros; apply H; now right.
Qed.

Lemma in_mat : forall A D (v : nat -> nat -> A) a,
  In a (flat_map (fun i => map (v i) (seq 0 D)) (seq 0 D)) ->
  exists i j, (i < D)%nat /\ (j < D)%nat /\ a = v i j.
Proof.
  intros A D v a H. apply in_flat_map in H as (i & Hi & H). apply in_map_iff in H as (j & <- & Hj).
  apply in_seq in Hi, Hj. exists i, j. repeat split; lia.
Qed.

Lemma lse_both_w : forall D v w, lw_mat D v w -> 0 < rsum D (fun i => rsum D (w i)) ->
  lse_both D v = Ok (Fin (ln (rsum D (fun i => rsum D (w i))))).
Proof.
  intros D v w H P. unfold lse_both. set (X := flat_map _ _).
  assert (L : forall a, In a X -> log_weight a).
  { intros a Ha. apply in_mat in Ha as (i & j & Hi & Hj & ->). now apply H. }
  assert (E : lsum (map weight X) = rsum D (fun i => rsum D (w i))).
  { unfold X. rewrite map_flat_mat, (flat_map_ext_in _ _ _ (fun i => map (w i) (seq 0 D))).
    - apply lsum_flat_mat.
    - intros i Hi. apply in_seq in Hi. apply map_ext_in. intros j Hj. apply in_seq in Hj. apply H; lia. }
  assert (NE : X <> []).
  { intros Z. rewrite Z in E. cbn in E. lra. }
  rewrite <- E in *. apply logsumexp_fin; [exact L|].
  destruct (existsb (fun a => match a with NInf => false | _ => true end) X) eqn:Ex.
  - apply existsb_exists in Ex as (a & Ha & Ea). exists a. split; [exact Ha|now destruct a].
  - exfalso. assert (Z : lsum (map weight X) = 0); [|lra]. clear -Ex.
    induction X as [|a X IH]; [reflexivity|]. cbn in Ex. apply orb_false_elim in Ex as [E1 E2].
    cbn [map]. rewrite lsum_cons, (IH E2). destruct a; try discriminate. cbn. ring.
Qed.

Lemma mapM_ok : forall A B (f : A -> res B) (Q : A -> B -> Prop) l,
  (forall a, In a l -> exists b, f a = Ok b /\ Q a b) ->
  exists r, mapM f l = Ok r /\ length r = length l /\
    forall k a da db, (k < length l)%nat -> nth k l da = a -> Q a (nth k r db).
Proof.
  induction l as [|a l IH]; intros H.
  - exists []. split; [reflexivity|]. split; [reflexivity|]. intros; cbn in *; lia.
  - destruct (H a ltac:(now left)) as (b & E & HQ). destruct IH as (r & Er & Lr & Hr); [intros; apply H; now right|].
    exists (b :: r). cbn [mapM]. rewrite E. cbn [bind]. rewrite Er. split; [reflexivity|]. split; [cbn; lia|].
    intros [|k] a' da db Hk <-; cbn; [exact HQ|]. apply (Hr k _ da db); [cbn in Hk; lia|reflexivity].
Qed.

Lemma mapM_seq : forall B (f : nat -> res B) (Q : nat -> B -> Prop) D,
  (forall i, (i < D)%nat -> exists b, f i = Ok b /\ Q i b) ->
  exists r, mapM f (seq 0 D) = Ok r /\ length r = D /\
    forall k db, (k < D)%nat -> Q k (nth k r db).
Proof.
  intros B f Q D H. destruct (mapM_ok nat B f Q (seq 0 D)) as (r & E & L & Hr).
  - intros a Ha. apply in_seq in Ha. apply H. lia.
  - rewrite seq_length in *. exists r. split; [exact E|]. split; [exact L|]. intros k db Hk.
    apply (Hr k k 0%nat db); [exact Hk|]. now rewrite seq_nth.
Qed.

Lemma lse_first_w : forall D v w, (0 < D)%nat -> lw_mat D v w ->
  exists l, lse_first D v = Ok l /\ lw_row D l (fun j => rsum D (fun i => w i j)).
Proof.
  intros D v w HD H.
  destruct (mapM_seq ext (fun j => logsumexp (map (fun i => v i j) (seq 0 D)))
    (fun j r => log_weight r /\ weight r = rsum D (fun i => w i j)) D) as (l & E & _ & Hl).
  - intros j Hj. destruct (logsumexp_w (map (fun i => v i j) (seq 0 D))) as (r & Er & Lr & Wr).
    + destruct D; [lia|discriminate].
    + intros a Ha. apply in_map_iff in Ha as (i & <- & Hi). apply in_seq in Hi. apply H; lia.
    + exists r. split; [exact Er|]. split; [exact Lr|]. rewrite Wr, map_map, lsum_map_seq.
      apply rsum_ext. intros i Hi. now apply H.
  - exists l. split; [exact E|]. intros i Hi. apply Hl, Hi.
Qed.

Lemma lse_last_w : forall D v w, (0 < D)%nat -> lw_mat D v w ->
  exists l, lse_last D v = Ok l /\ lw_row D l (fun i => rsum D (w i)).
Proof.
  intros D v w HD H.
  apply (lse_first_w D (fun j i => v i j) (fun j i => w i j) HD). intros i j Hi Hj. now apply H.
Qed.

Lemma weight_add : forall a b, log_weight a -> log_weight b ->
  log_weight (eadd a b) /\ weight (eadd a b) = weight a * weight b.
Proof.
  intros [x| | |] [y| | |] Ha Hb; cbn in *; try contradiction; (split; [exact I|]); try ring. apply exp_plus.
Qed.

Lemma weight_sub : forall a s, log_weight a -> 0 < s ->
  log_weight (esub a (Fin (ln s))) /\ weight (esub a (Fin (ln s))) = weight a / s.
Proof.
  intros a s Ha Hs. destruct (weight_add a (Fin (- ln s)) Ha I) as [L W]. split; [exact L|].
  change (esub a (Fin (ln s))) with (eadd a (Fin (- ln s))). rewrite W. cbn. rewrite exp_Ropp, exp_ln by exact Hs. reflexivity.
Qed.

Lemma lw_mat_sub : forall D v w s, lw_mat D v w -> 0 < s ->
  lw_mat D (fun i j => esub (v i j) (Fin (ln s))) (fun i j => w i j / s).
Proof.
  intros D v w s H Hs i j Hi Hj. destruct (H i j Hi Hj) as [L <-]. now apply weight_sub.
Qed.

Section Chain.
Variables (D N : nat) (logp0 : nat -> ext) (logP : nat -> nat -> nat -> ext).
Hypothesis (H0 : forall i, (i < D)%nat -> log_weight (logp0 i)).
Hypothesis (HP : forall n i j, (n < N)%nat -> (i < D)%nat -> (j < D)%nat -> log_weight (logP n i j)).
Let p0 := fun i => weight (logp0 i).
Let P := fun n i j => weight (logP n i j).
Hypothesis (HZ : 0 < normaliser D N p0 P).

Lemma chain_D : (0 < D)%nat.
Proof. destruct D; [|lia]. exfalso. rewrite total_bw in HZ. cbn in HZ. lra. Qed.

Lemma fw_nonneg : forall n j, 0 <= fw D p0 P n j.
Proof.
  induction n as [|n IH]; intros j; cbn; [apply weight_nonneg|]. apply rsum_nonneg. intros i _.
  apply Rmult_le_pos; [apply IH|apply weight_nonneg].
Qed.
Lemma bw_nonneg : forall m n j, 0 <= bw D P m n j.
Proof.
  induction m as [|m IH]; intros n j; cbn; [lra|]. apply rsum_nonneg. intros i _.
  apply Rmult_le_pos; [apply weight_nonneg|apply IH].
Qed.

Lemma rsum_nonneg_zero : forall n f, (forall i, (i < n)%nat -> 0 <= f i) -> rsum n f <= 0 ->
  forall i, (i < n)%nat -> f i = 0.
Proof.
  induction n as [|n IH]; intros f Hf Hs i Hi; [lia|]. cbn in Hs.
  assert (0 <= rsum n f) by (apply rsum_nonneg; intros; apply Hf; lia).
  assert (0 <= f n) by (apply Hf; lia).
  destruct (Nat.eq_dec i n) as [->|]; [lra|]. apply (IH f); [intros; apply Hf; lia|lra|lia].
Qed.

Lemma fw_total_pos : forall n, (n <= N)%nat -> 0 < rsum D (fw D p0 P n).
Proof.
  intros n Hn. destruct (Rlt_dec 0 (rsum D (fw D p0 P n))) as [L|L]; [exact L|exfalso].
  assert (Z := rsum_nonneg_zero D (fw D p0 P n) (fun i _ => fw_nonneg n i) ltac:(lra)).
  rewrite <- (fw_bw D N p0 P n Hn) in HZ. rewrite (rsum_ext D _ (fun _ => 0)) in HZ.
  - rewrite rsum_0 in HZ. lra.
  - intros i Hi. rewrite (Z i Hi). ring.
Qed.
Lemma bw_total_pos : forall n, (n <= N)%nat -> 0 < rsum D (bw D P (N - n) n).
Proof.
  intros n Hn. destruct (Rlt_dec 0 (rsum D (bw D P (N - n) n))) as [L|L]; [exact L|exfalso].
  assert (Z := rsum_nonneg_zero D (bw D P (N - n) n) (fun i _ => bw_nonneg _ n i) ltac:(lra)).
  rewrite <- (fw_bw D N p0 P n Hn) in HZ. rewrite (rsum_ext D _ (fun _ => 0)) in HZ.
  - rewrite rsum_0 in HZ. lra.
  - intros i Hi. rewrite (Z i Hi). ring.
Qed.

Lemma forward_ok : forall steps n la k, (n + steps < N)%nat -> 0 < k ->
  lw_row D la (fun j => fw D p0 P n j / k) ->
  exists rows k', forward D logP steps n la (Fin (- ln k)) = Ok (rows, Fin (- ln k')) /\ 0 < k' /\
    lw_row D (nth steps rows []) (fun j => fw D p0 P (n + steps) j / k') /\
    forall m, (m <= steps)%nat -> exists km, 0 < km /\
      lw_row D (nth m rows []) (fun j => fw D p0 P (n + m) j / km).
Proof.
  induction steps as [|s IH]; intros n la k Hn Hk Hla.
  - exists [la], k. split; [reflexivity|]. split; [exact Hk|]. rewrite Nat.add_0_r. split; [exact Hla|].
    intros m Hm. assert (m = 0)%nat as -> by lia. exists k. rewrite Nat.add_0_r. now split.
  - cbn [forward].
    set (v := fun i j => eadd (ent la i) (logP n i j)).
    assert (Hv : lw_mat D v (fun i j => fw D p0 P n i / k * P n i j)).
    { intros i j Hi Hj. destruct (Hla i Hi) as [L <-].
      apply weight_add; [exact L|]. apply HP; lia. }
    set (T := rsum D (fw D p0 P (S n))).
    assert (PT : 0 < T) by (apply fw_total_pos; lia).
    assert (ET : rsum D (fun i => rsum D (fun j => fw D p0 P n i / k * P n i j)) = T / k).
    { rewrite rsum_swap. unfold T. unfold Rdiv at 2. rewrite <- rsum_scal_r. apply rsum_ext. intros j _. cbn [fw].
      rewrite <- rsum_scal_r. apply rsum_ext. intros i _. unfold Rdiv. ring. }
    assert (PK : 0 < T / k) by now apply Rdiv_lt_0_compat.
    rewrite (lse_both_w D v _ Hv) by (rewrite ET; exact PK). rewrite ET. cbn [bind].
    destruct (lse_first_w D _ _ chain_D (lw_mat_sub D v _ (T / k) Hv PK)) as (la' & E' & H').
    match goal with |- context [lse_first D ?f] => change f with (fun i j => esub (v i j) (Fin (ln (T / k)))) end.
    rewrite E'. cbn [bind].
    replace (esub (Fin (- ln k)) (Fin (ln (T / k)))) with (Fin (- ln T)).
    2:{ cbn. f_equal. unfold Rdiv. rewrite ln_mult, ln_Rinv; auto using Rinv_0_lt_compat. ring. }
    destruct (IH (S n) la' T ltac:(lia) PT) as (rows & k' & E & Pk' & Hlast & Hall).
    { intros j Hj. destruct (H' j Hj) as [L ->]. split; [exact L|]. cbn [fw].
      symmetry. unfold Rdiv at 1. rewrite <- rsum_scal_r. apply rsum_ext. intros i _. field. split; lra. }
    rewrite E. cbn [bind]. exists (la :: rows), k'. split; [reflexivity|]. split; [exact Pk'|].
    rewrite Nat.add_succ_r. split; [exact Hlast|]. intros [|m] Hm.
    + exists k. rewrite Nat.add_0_r. now split.
    + destruct (Hall m ltac:(lia)) as (km & Pm & Hkm). exists km. rewrite Nat.add_succ_r. now split.
Qed.

Lemma backward_ok : forall steps n, (n + steps + 1 = N)%nat ->
  exists rows, backward D logP steps n = Ok rows /\
    forall m, (m <= steps)%nat -> exists km, 0 < km /\
      lw_row D (nth m rows []) (fun j => bw D P (steps - m) (S (n + m)) j / km).
Proof.
  induction steps as [|s IH]; intros n Hn.
  - exists [repeat (Fin 0) D]. split; [reflexivity|]. intros m Hm. assert (m = 0)%nat as -> by lia.
    exists 1. split; [lra|]. intros i Hi. cbn [nth]. unfold ent.
    assert (E : nth i (repeat (Fin 0) D) NaN = Fin 0).
    { clear -Hi. revert i Hi. induction D as [|d IH]; intros i Hi; [lia|]. destruct i; cbn; [reflexivity|]. apply IH. lia. }
    rewrite E. split; [exact I|]. cbn. rewrite exp_0. field.
  - destruct (IH (S n) ltac:(lia)) as (rows & E & Hall). cbn [backward]. rewrite E. cbn [bind].
    destruct (Hall 0%nat ltac:(lia)) as (k & Pk & Hk). rewrite Nat.add_0_r, Nat.sub_0_r in Hk.
    set (lb := hd [] rows). assert (Elb : nth 0 rows [] = lb) by now destruct rows. rewrite Elb in Hk.
    set (v := fun i j => eadd (ent lb j) (logP (S n) i j)).
    assert (Hv : lw_mat D v (fun i j => bw D P s (S (S n)) j / k * P (S n) i j)).
    { intros i j Hi Hj. destruct (Hk j Hj) as [L <-]. apply weight_add; [exact L|]. apply HP; lia. }
    set (T := rsum D (bw D P (S s) (S n))).
    assert (PT : 0 < T).
    { unfold T. replace (S s) with (N - S n)%nat by lia. apply bw_total_pos. lia. }
    assert (ET : rsum D (fun i => rsum D (fun j => bw D P s (S (S n)) j / k * P (S n) i j)) = T / k).
    { unfold T. unfold Rdiv at 2. rewrite <- rsum_scal_r. apply rsum_ext. intros i _. cbn [bw].
      rewrite <- rsum_scal_r. apply rsum_ext. intros j _. unfold Rdiv. ring. }
    assert (PK : 0 < T / k) by now apply Rdiv_lt_0_compat.
    rewrite (lse_both_w D v _ Hv) by (rewrite ET; exact PK). rewrite ET. cbn [bind].
    destruct (lse_last_w D _ _ chain_D (lw_mat_sub D v _ (T / k) Hv PK)) as (lb' & E' & H').
    match goal with |- context [lse_last D ?f] => change f with (fun i j => esub (v i j) (Fin (ln (T / k)))) end.
    rewrite E'. cbn [bind]. exists (lb' :: rows). split; [reflexivity|]. intros [|m] Hm.
    + exists T. split; [exact PT|]. rewrite Nat.add_0_r. cbn [nth]. intros i Hi. destruct (H' i Hi) as [L ->].
      split; [exact L|]. rewrite Nat.sub_0_r. cbn [bw]. symmetry. unfold Rdiv at 1. rewrite <- rsum_scal_r.
      apply rsum_ext. intros j _. field. split; lra.
    + destruct (Hall m ltac:(lia)) as (km & Pm & Hkm). exists km. split; [exact Pm|]. cbn [nth].
      replace (S s - S m)%nat with (s - m)%nat by lia. rewrite Nat.add_succ_r. exact Hkm.
Qed.
End Chain.

Lemma pair_table_ok : forall D la lb Pn a b w, lw_row D la a -> lw_row D lb b -> lw_mat D Pn w ->
  let S := rsum D (fun i => rsum D (fun j => a i * b j * w i j)) in 0 < S ->
  pair_table D la lb Pn =
  Ok (map (fun i => map (fun j => Fin (a i * b j * w i j / S)) (seq 0 D)) (seq 0 D)).
Proof.
  intros D la lb Pn a b w Ha Hb Hw S PS. unfold pair_table.
  set (v := fun i j => eadd (eadd (ent la i) (ent lb j)) (Pn i j)).
  assert (Hv : lw_mat D v (fun i j => a i * b j * w i j)).
  { intros i j Hi Hj. destruct (Ha i Hi) as [L1 <-]. destruct (Hb j Hj) as [L2 <-]. destruct (Hw i j Hi Hj) as [L3 <-].
    destruct (weight_add _ _ L1 L2) as [L4 <-]. now apply weight_add. }
  rewrite (lse_both_w D v _ Hv) by exact PS. fold S. cbn [bind]. f_equal.
  assert (Hz : forall i j, (i < D)%nat -> (j < D)%nat -> eexp (esub (v i j) (Fin (ln S))) = Fin (a i * b j * w i j / S)).
  { intros i j Hi Hj. destruct (Hv i j Hi Hj) as [L <-]. now apply exp_ninf_sub. }
  assert (E1 : sum_both D (fun i j => eexp (esub (v i j) (Fin (ln S)))) = Fin 1).
  { unfold sum_both.
    rewrite (flat_map_ext_in _ _ _ (fun i => map (fun j => Fin (a i * b j * w i j / S)) (seq 0 D))).
    - rewrite <- (map_flat_mat R ext Fin D (fun i j => a i * b j * w i j / S)). unfold esum. rewrite esum_fin, lsum_flat_mat.
      f_equal. rewrite Rplus_0_l. unfold Rdiv.
      rewrite (rsum_ext D _ (fun i => rsum D (fun j => a i * b j * w i j) * / S)) by (intros; apply rsum_scal_r).
      rewrite rsum_scal_r. fold S. field. lra.
    - intros i Hi. apply in_seq in Hi. apply map_ext_in. intros j Hj. apply in_seq in Hj. apply Hz; lia. }
  cbv zeta. match goal with |- context [sum_both D ?f] => change (sum_both D f) with
    (sum_both D (fun i j => eexp (esub (v i j) (Fin (ln S))))) end.
  rewrite E1. apply map_ext_in. intros i Hi. apply map_ext_in. intros j Hj. apply in_seq in Hi, Hj.
  fold (v i j). rewrite Hz by lia. unfold ediv. destruct (Req_EM_T 1 0); [lra|]. f_equal. field. lra.
Qed.

Lemma mapM_ext_ok : forall A B (f : A -> res B) g l, (forall a, In a l -> f a = Ok (g a)) ->
  mapM f l = Ok (map g l).
Proof.
  induction l as [|a l IH]; intros H; [reflexivity|]. cbn [mapM map]. rewrite (H a) by now left. cbn [bind].
  rewrite IH by (intros; apply H; now right). reflexivity.
Qed.
