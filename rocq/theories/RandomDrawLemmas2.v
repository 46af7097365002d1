(** Lemmas for C59: draws from rows of probabilities, chains of such draws, boxes
    of uniform variates. *)
From Coq Require Import List Arith Lia Bool Reals Lra FunctionalExtensionality.
From Verif Require Import Base SpecShapes Shapes NumPy TensorLemmas Numeric SpecNumeric NumericLemmas PNumeric
  Families SpecFamilies FamiliesLemmas SpecMarkov RandomDraw SpecRandomDraw.
Import ListNotations.
Open Scope R_scope.

Lemma lsum_seq : forall (p : nat -> R) n, lsum (map p (seq 0 n)) = rsum n p.
Proof.
  intros p n. induction n as [|n IH]; [reflexivity|]. rewrite seq_S, map_app, lsum_app, IH. simpl. ring.
Qed.
Lemma firstn_seq0 : forall n j, (j <= n)%nat -> firstn j (seq 0 n) = seq 0 j.
Proof.
  intros n j H. replace n with (j + (n - j))%nat by lia. rewrite seq_app, firstn_app, seq_length.
  rewrite firstn_all2 by (rewrite seq_length; lia). replace (j - j)%nat with 0%nat by lia. simpl. now rewrite app_nil_r.
Qed.

Lemma row_vec : forall K p, row (Arr [K] (fun e => p (e O))) (fun _ => O) = map p (seq 0 K).
Proof.
  intros K p. unfold row. cbn [ash]. unfold ax at 1. cbn [rev app nth length]. apply map_ext_in.
  intros k Hk. apply in_seq in Hk. unfold bget, clip, ax. cbn.
  destruct (Nat.eqb_spec K 1); [f_equal; lia|reflexivity].
Qed.

Definition below (K : nat) (p : vec) (j : nat) : R := rsum j p / rsum K p.

Lemma categorical_draw_ok : forall K p u, (0 < K)%nat -> (forall i, (i < K)%nat -> 0 < p i) -> 0 < u <= 1 ->
  exists j, (j < K)%nat /\ categorical_draw K p u = Ok j /\
  forall k, (k < K)%nat -> (categorical_draw K p u = Ok k <-> below K p k < u <= below K p k + p k / rsum K p).
Proof.
  intros K p u HK Hp Hu. set (a := Arr [K] (fun e => p (e O))).
  assert (NE : ash a <> []) by discriminate.
  destruct (proj1 (C49_categorical_raises_iff a (Some []) (fun _ => u) NE)) as [_ Q].
  destruct Q as [z Hz].
  { split.
    - intros e He. unfold bget, clip, a. cbn. unfold valid in He. specialize (He O). unfold a in He. cbn in He.
      unfold ax in He. cbn in He. left. apply Hp. unfold ax. cbn. destruct (Nat.eqb_spec K 1); lia.
    - cbn. split; [cbn; lia|]. intros j. left. unfold ax. destruct j; reflexivity. }
  assert (Hsh : ash z = []).
  { unfold categorical in Hz. cbn [ash a] in Hz. destruct (existsb _ _); [discriminate|]. destruct (negb _); [discriminate|].
    injection Hz as <-. reflexivity. }
  assert (RW : row a (fun _ => O) = map p (seq 0 K)) by apply row_vec.
  assert (LS : lsum (row a (fun _ => O)) = rsum K p) by (rewrite RW; apply lsum_seq).
  assert (PS : 0 < rsum K p) by (apply rsum_pos; assumption).
  destruct (C49_categorical_sample a (Some []) (fun _ => u) z (fun _ => O) Hz) as (A & B & C).
  - rewrite Hsh. intros k. unfold ax. destruct k; cbn; lia.
  - rewrite LS. exact PS.
  - exact Hu.
  - rewrite RW, map_length, seq_length in A.
    assert (EQ : categorical_draw K p u = Ok (aget z (fun _ => O))).
    { unfold categorical_draw. fold a. rewrite Hz. reflexivity. }
    exists (aget z (fun _ => O)). split; [exact A|]. split; [exact EQ|].
    intros k Hk. rewrite EQ. specialize (C k). rewrite LS, RW, map_length, seq_length in C. specialize (C Hk).
    rewrite firstn_map, firstn_seq0, lsum_seq in C by lia.
    rewrite (nth_indep _ 0 (p O)) in C by (rewrite map_length, seq_length; exact Hk).
    rewrite map_nth, seq_nth, Nat.add_0_l in C by exact Hk. unfold below.
    split; [intros H; injection H as H; now apply C|intros H; f_equal; now apply C].
Qed.

Lemma below_range : forall K p k, (k < K)%nat -> (forall i, (i < K)%nat -> 0 < p i) ->
  0 <= below K p k <= below K p k + p k / rsum K p /\ below K p k + p k / rsum K p <= 1.
Proof.
  intros K p k Hk Hp. assert (PS : 0 < rsum K p) by (apply rsum_pos; [lia|exact Hp]).
  assert (NN : forall n, (n <= K)%nat -> 0 <= rsum n p).
  { induction n as [|n IH]; intros H; [simpl; lra|]. simpl. specialize (IH ltac:(lia)). specialize (Hp n ltac:(lia)). lra. }
  assert (M : forall m n, (n + m <= K)%nat -> rsum n p <= rsum (n + m) p).
  { induction m as [|m IH]; intros n H; [rewrite Nat.add_0_r; lra|].
    replace (n + S m)%nat with (S (n + m)) by lia. simpl. specialize (IH n ltac:(lia)). specialize (Hp (n + m)%nat ltac:(lia)). lra. }
  unfold below. pose proof (Hp k Hk). pose proof (NN k ltac:(lia)).
  assert (I : 0 < / rsum K p) by now apply Rinv_0_lt_compat.
  assert (0 <= rsum k p / rsum K p) by (unfold Rdiv; apply Rmult_le_pos; lra).
  assert (0 <= p k / rsum K p) by (unfold Rdiv; apply Rmult_le_pos; lra).
  split; [lra|]. specialize (M (K - S k)%nat (S k) ltac:(lia)). replace (S k + (K - S k))%nat with K in M by lia. simpl in M.
  replace (rsum k p / rsum K p + p k / rsum K p) with ((rsum k p + p k) / rsum K p) by (field; lra).
  apply Rmult_le_reg_r with (rsum K p); [exact PS|]. unfold Rdiv. rewrite Rmult_assoc, Rinv_l by lra. lra.
Qed.

(** The probability of a result is determined by the program. *)
Lemma open_in_closed : forall N (la ha lb hb : nat -> R),
  (forall n, (n < N)%nat -> 0 <= la n /\ la n < ha n /\ ha n <= 1) ->
  (forall us, (forall n, (n < N)%nat -> la n < us n < ha n) -> forall n, (n < N)%nat -> lb n <= us n <= hb n) ->
  forall n, (n < N)%nat -> lb n <= la n /\ ha n <= hb n.
Proof.
  intros N la ha lb hb HA S n Hn.
  assert (M : forall x, la n < x < ha n -> lb n <= x <= hb n).
  { intros x Hx. set (us := fun k => if (k =? n)%nat then x else (la k + ha k) / 2).
    assert (G := S us). assert (X : us n = x) by (unfold us; now rewrite Nat.eqb_refl). rewrite <- X. apply G; [|exact Hn].
    intros k Hk. unfold us. destruct (Nat.eqb_spec k n) as [->|]; [exact Hx|]. destruct (HA k Hk) as (_ & ? & _). lra. }
  destruct (HA n Hn) as (_ & L & _). split.
  - destruct (Rle_lt_dec (lb n) (la n)) as [|C]; [assumption|]. exfalso.
    destruct (Rle_lt_dec (lb n) (ha n)).
    + specialize (M ((la n + lb n) / 2)). lra.
    + specialize (M ((la n + ha n) / 2)). lra.
  - destruct (Rle_lt_dec (ha n) (hb n)) as [|C]; [assumption|]. exfalso.
    destruct (Rle_lt_dec (la n) (hb n)).
    + specialize (M ((ha n + hb n) / 2)). lra.
    + specialize (M ((la n + ha n) / 2)). lra.
Qed.

Lemma rprod_ext : forall n f g, (forall i, (i < n)%nat -> f i = g i) -> rprod n f = rprod n g.
Proof. induction n as [|n IH]; intros f g H; [reflexivity|]. simpl. rewrite (IH f g), H by auto. reflexivity. Qed.
Lemma rprod_pos_all : forall n f, (forall i, (i < n)%nat -> 0 <= f i) -> 0 < rprod n f -> forall i, (i < n)%nat -> 0 < f i.
Proof.
  induction n as [|n IH]; intros f N P i Hi; [lia|]. simpl in P.
  assert (0 <= rprod n f). { clear -N. induction n as [|n IH]; [simpl; lra|]. simpl. apply Rmult_le_pos; [apply IH; auto|apply N; lia]. }
  assert (0 <= f n) by (apply N; lia).
  assert (0 < f n) by (destruct (Req_dec (f n) 0) as [Z|]; [rewrite Z in P; lra|lra]).
  assert (0 < rprod n f) by (destruct (Req_dec (rprod n f) 0) as [Z|]; [rewrite Z in P; lra|lra]).
  destruct (Nat.eq_dec i n) as [->|]; [assumption|]. apply (IH f); auto; lia.
Qed.

Lemma draws_unique : forall A N (f : (nat -> R) -> res A) y p q, 0 < p ->
  draws_with_probability N f y p -> draws_with_probability N f y q -> p = q.
Proof.
  intros A N f y p q Hp (la & ha & RA & SA & <-) (lb & hb & RB & SB & <-).
  assert (PA : forall i, (i < N)%nat -> 0 < ha i - la i).
  { apply rprod_pos_all; [|exact Hp]. intros i Hi. destruct (RA i Hi). lra. }
  assert (OA : forall n, (n < N)%nat -> lb n <= la n /\ ha n <= hb n).
  { apply open_in_closed.
    - intros n Hn. specialize (PA n Hn). destruct (RA n Hn). lra.
    - intros us H. assert (U : forall n, (n < N)%nat -> 0 < us n < 1).
      { intros n Hn. specialize (H n Hn). destruct (RA n Hn). lra. }
      apply (SB us U). apply (SA us U). exact H. }
  assert (OB : forall n, (n < N)%nat -> la n <= lb n /\ hb n <= ha n).
  { apply open_in_closed.
    - intros n Hn. specialize (PA n Hn). destruct (OA n Hn), (RB n Hn). lra.
    - intros us H. assert (U : forall n, (n < N)%nat -> 0 < us n < 1).
      { intros n Hn. specialize (H n Hn). destruct (RB n Hn). lra. }
      apply (SA us U). apply (SB us U). exact H. }
  apply rprod_ext. intros i Hi. destruct (OA i Hi), (OB i Hi). lra.
Qed.

(** ** The chain *)
Lemma softmax_ok : forall K v, (0 < K)%nat -> (forall i, softmax K v i = exp (v i) / sumexp K v) /\
  (forall i, 0 < softmax K v i) /\ rsum K (softmax K v) = 1.
Proof.
  intros K v HK. pose proof (sumexp_pos K v HK) as HS.
  assert (E : forall i, softmax K v i = exp (v i) / sumexp K v).
  { intros i. unfold softmax. rewrite logsumexpv_ok by exact HK. unfold Rminus. rewrite exp_plus, exp_Ropp, exp_ln by exact HS. reflexivity. }
  split; [exact E|]. split; [intros i; apply exp_pos|].
  rewrite (rsum_ext K _ (fun i => exp (v i) * / sumexp K v)) by (intros; apply E).
  rewrite rsum_scal_r. change (rsum K (fun x => exp (v x))) with (sumexp K v). field. lra.
Qed.

Section Chain.
Variables (K T : nat) (P : nat -> nat -> vec).
Hypothesis HK : (0 < K)%nat.
Hypothesis HP : forall n i j, 0 < P n i j.
Let Q n i : vec := P (Nat.min n (T - 1)) i.

Lemma chain_states_ok : forall steps us n z, (z < K)%nat -> (forall k, (n < k <= n + steps)%nat -> 0 < us k <= 1) ->
  exists r, chain_states K T P us n steps z = Ok (z :: r) /\ length r = steps /\ (forall k, In k r -> (k < K)%nat).
Proof.
  induction steps as [|s IH]; intros us n z Hz Hu; cbn [chain_states].
  - exists []. repeat split; auto. intros k [].
  - destruct (categorical_draw_ok K (Q n z) (us (S n)) HK (fun i _ => HP _ _ _)) as (j & Hj & Ej & _); [apply Hu; lia|].
    unfold Q in Ej. rewrite Ej. cbn [bind].
    destruct (IH us (S n) j Hj) as (r & Er & Lr & Ir); [intros; apply Hu; lia|].
    rewrite Er. cbn [bind]. exists (j :: r). split; [reflexivity|]. split; [simpl; lia|]. intros k [<-|H]; auto.
Qed.

(** Which variates give the path z :: r from time n on. *)
Lemma chain_states_path : forall r us n z, (z < K)%nat -> (forall k, In k r -> (k < K)%nat) ->
  (forall k, (n < k <= n + length r)%nat -> 0 < us k <= 1) ->
  (chain_states K T P us n (length r) z = Ok (z :: r) <->
   forall k, (k < length r)%nat ->
     let p := Q (n + k) (nth k (z :: r) O) in
     let y := nth k r O in
     below K p y < us (S (n + k)) <= below K p y + p y / rsum K p).
Proof.
  induction r as [|y r IH]; intros us n z Hz Hr Hu.
  - cbn. split; [intros _ k Hk; lia|reflexivity].
  - cbn [length] in Hu |- *. cbn [chain_states].
    destruct (categorical_draw_ok K (Q n z) (us (S n)) HK (fun i _ => HP _ _ _)) as (j & Hj & Ej & I); [apply Hu; lia|].
    assert (Hy : (y < K)%nat) by (apply Hr; now left).
    specialize (I y Hy). unfold Q in Ej. rewrite Ej. cbn [bind].
    destruct (chain_states_ok (length r) us (S n) j Hj) as (r' & Er & _ & _); [intros; apply Hu; lia|].
    specialize (IH us (S n) y Hy (fun k H => Hr k (or_intror H)) (fun k H => Hu k ltac:(lia))).
    split.
    + rewrite Er. cbn [bind]. intros H. injection H as -> ->.
      assert (G := proj1 IH Er). intros k Hk. destruct k as [|k].
      * rewrite Nat.add_0_r. cbn [nth]. apply I. exact Ej.
      * specialize (G k ltac:(lia)). replace (n + S k)%nat with (S n + k)%nat by lia. exact G.
    + intros H. assert (j = y) as ->.
      { assert (X := proj2 I ltac:(specialize (H O ltac:(lia)); rewrite Nat.add_0_r in H; exact H)).
        unfold Q in X. rewrite Ej in X. congruence. }
      assert (X := proj2 IH). rewrite X; [reflexivity|]. intros k Hk. specialize (H (S k) ltac:(lia)).
      replace (n + S k)%nat with (S n + k)%nat in H by lia. exact H.
Qed.
End Chain.

Lemma rprod_S_l : forall n f, rprod (S n) f = f O * rprod n (fun i => f (S i)).
Proof. induction n as [|n IH]; intros f; [simpl; ring|]. change (rprod (S (S n)) f) with (rprod (S n) f * f (S n)). rewrite IH. simpl. ring. Qed.

Lemma steps_weight_prod : forall P r n z, steps_weight P n (z :: r) =
  rprod (length r) (fun k => P (n + k)%nat (nth k (z :: r) O) (nth k r O)).
Proof.
  intros P. induction r as [|y r IH]; intros n z; [reflexivity|].
  change (steps_weight P n (z :: y :: r)) with (P n z y * steps_weight P (S n) (y :: r)).
  rewrite IH. cbn [length]. rewrite rprod_S_l. rewrite Nat.add_0_r. cbn [nth]. f_equal.
  apply rprod_ext. intros k Hk. f_equal. lia.
Qed.

Lemma lsum_flat_map : forall A (f : A -> R) (g : nat -> list A) l,
  lsum (map f (flat_map g l)) = lsum (map (fun i => lsum (map f (g i))) l).
Proof. intros A f g l. induction l as [|i l IH]; [reflexivity|]. simpl. rewrite map_app, lsum_app, IH. reflexivity. Qed.

Lemma lsum_map_mul : forall A a (f : A -> R) l, lsum (map (fun z => a * f z) l) = a * lsum (map f l).
Proof. intros A a f l. induction l as [|z l IH]; unfold lsum in *; simpl in *; [ring|]. rewrite IH. ring. Qed.

(** Rows with equal sums: the sum over all continuations of a path. *)
Lemma steps_total : forall D P c, (forall n i, (i < D)%nat -> rsum D (P n i) = c n) ->
  forall m n i, (i < D)%nat -> lsum (map (fun z => steps_weight P n (i :: z)) (paths D m)) =
    rprod m (fun k => c (n + k)%nat).
Proof.
  intros D P c H. induction m as [|m IH]; intros n i Hi; [simpl; ring|].
  cbn [paths]. rewrite lsum_flat_map, lsum_seq.
  rewrite (rsum_ext D _ (fun j => P n i j * rprod m (fun k => c (S n + k)%nat))).
  - rewrite rsum_scal_r. change (rsum D (fun j => P n i j)) with (rsum D (P n i)). rewrite H by exact Hi.
    rewrite rprod_S_l, Nat.add_0_r. f_equal. apply rprod_ext. intros k Hk. f_equal. lia.
  - intros j Hj. rewrite map_map. rewrite <- (IH (S n) j Hj).
    rewrite (map_ext _ (fun z => P n i j * steps_weight P (S n) (j :: z))) by reflexivity.
    apply lsum_map_mul.
Qed.

Lemma normaliser_rows : forall D N p0 P c, (forall n i, (i < D)%nat -> rsum D (P n i) = c n) ->
  normaliser D N p0 P = rsum D p0 * rprod N c.
Proof.
  intros D N p0 P c H. unfold normaliser, weight_of.
  assert (F : forall l : list (list nat), filter (fun _ => true) l = l) by (induction l as [|z l IH]; simpl; congruence).
  rewrite F. cbn [paths]. rewrite lsum_flat_map, lsum_seq.
  rewrite (rsum_ext D _ (fun i => p0 i * rprod N c)).
  - apply rsum_scal_r.
  - intros i Hi. pose proof (steps_total D P c H N O i Hi) as ST. cbn [Nat.add] in ST. change (fun k => c k) with c in ST.
    rewrite map_map, <- ST.
    rewrite (map_ext _ (fun z => p0 i * steps_weight P 0 (i :: z))) by reflexivity. apply lsum_map_mul.
Qed.
