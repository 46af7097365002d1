(** Lemmas about reshape, einsum and sum_multiply. *)
From Coq Require Import List Arith ZArith Lia Bool Reals Lra Permutation FunctionalExtensionality Sorted.
From Verif Require Import Base Shapes SpecShapes ShapesLemmas NumPy MiscArray TensorLemmas.
Import ListNotations.
Open Scope nat_scope.

(** ** Strides, ravel, unravel *)
Lemma ravel_lt : forall s n e, (forall k, k < n -> e k < ax s k) -> ravel s n e < stride s n.
Proof.
  induction n as [|n IH]; intros e H; simpl; [lia|].
  specialize (IH e (fun k Hk => H k (Nat.lt_lt_succ_r _ _ Hk))).
  specialize (H n ltac:(lia)). nia.
Qed.

Lemma ravel_split : forall s e k n, k <= n ->
  exists q, ravel s n e = ravel s k e + q * stride s k.
Proof.
  intros s e k n H. induction n as [|n IH].
  - replace k with 0 by lia. exists 0. simpl. lia.
  - destruct (Nat.eq_dec k (S n)) as [->|Hne].
    + exists 0. lia.
    + destruct IH as [q Hq]; [lia|].
      assert (Hs : exists p, stride s n = p * stride s k).
      { clear Hq. assert (Hk : k <= n) by lia. clear H Hne.
        induction n as [|n IH2].
        - replace k with 0 by lia. exists 1. lia.
        - destruct (Nat.eq_dec k (S n)) as [->|Hne]; [exists 1; lia|].
          destruct IH2 as [p Hp]; [lia|]. exists (p * ax s n). simpl. rewrite Hp. ring. }
      destruct Hs as [p Hp]. exists (q + e n * p). simpl. rewrite Hq, Hp. ring.
Qed.

Lemma stride_pos : forall s n, (forall k, k < n -> 0 < ax s k) -> 0 < stride s n.
Proof.
  induction n as [|n IH]; intros H; simpl; [lia|].
  specialize (IH (fun k Hk => H k (Nat.lt_lt_succ_r _ _ Hk))). specialize (H n ltac:(lia)). nia.
Qed.

Lemma unravel_ravel : forall s n e k,
  (forall k, k < n -> e k < ax s k) -> k < n -> unravel s (ravel s n e) k = e k.
Proof.
  intros s n e k H Hk. unfold unravel.
  destruct (ravel_split s e (S k) n Hk) as [q Hq]. rewrite Hq. simpl.
  assert (Hr : ravel s k e < stride s k) by (apply ravel_lt; intros; apply H; lia).
  pose proof (H k Hk) as Hek.
  replace (ravel s k e + e k * stride s k + q * (stride s k * ax s k))
    with (ravel s k e + (e k + q * ax s k) * stride s k) by ring.
  rewrite Nat.div_add by lia. rewrite Nat.div_small by assumption. simpl.
  rewrite Nat.mod_add by lia. apply Nat.mod_small. assumption.
Qed.

(** Unit axes do not matter for strides and flat indices.  [p] tells which of
    the first axes are kept; the others have length one. *)
Definition cnt (p : nat -> bool) (n : nat) : nat := length (filter p (seq 0 n)).

Lemma cnt_S : forall p n, cnt p (S n) = cnt p n + if p n then 1 else 0.
Proof.
  intros p n. unfold cnt. rewrite seq_S, filter_app, app_length. simpl.
  destruct (p n); reflexivity.
Qed.

Lemma nth_filter_cnt : forall p n k, k < n -> p k = true ->
  nth (cnt p k) (filter p (seq 0 n)) 0 = k.
Proof.
  intros p n k Hk Hp. unfold cnt.
  replace n with (k + S (n - k - 1)) by lia.
  rewrite seq_app, filter_app. rewrite app_nth2 by lia.
  rewrite Nat.sub_diag. simpl. rewrite Hp. reflexivity.
Qed.

Lemma cnt_lt : forall p n k, k < n -> p k = true -> cnt p k < cnt p n.
Proof.
  intros p n k Hk Hp. unfold cnt. replace n with (k + S (n - k - 1)) by lia.
  rewrite seq_app, filter_app, app_length. simpl. rewrite Hp. simpl. lia.
Qed.

Lemma stride_units : forall p s t n,
  (forall k, k < n -> p k = false -> ax s k = 1) ->
  (forall k, k < n -> p k = true -> ax t (cnt p k) = ax s k) ->
  stride s n = stride t (cnt p n).
Proof.
  intros p s t n. induction n as [|n IH]; intros H1 H2; [reflexivity|].
  rewrite cnt_S. simpl.
  rewrite IH; [|intros; apply H1; auto; lia|intros; apply H2; auto; lia].
  destruct (p n) eqn:E.
  - rewrite Nat.add_1_r. simpl. rewrite (H2 n) by (auto; lia). reflexivity.
  - rewrite (H1 n) by (auto; lia). rewrite Nat.add_0_r. ring.
Qed.

Lemma ravel_units : forall p s t n e e',
  (forall k, k < n -> p k = false -> ax s k = 1 /\ e k = 0) ->
  (forall k, k < n -> p k = true -> ax t (cnt p k) = ax s k /\ e' (cnt p k) = e k) ->
  ravel s n e = ravel t (cnt p n) e'.
Proof.
  intros p s t n e e'. induction n as [|n IH]; intros H1 H2; [reflexivity|].
  rewrite cnt_S. simpl.
  rewrite IH; [|intros; apply H1; auto; lia|intros; apply H2; auto; lia].
  destruct (p n) eqn:E.
  - rewrite Nat.add_1_r. simpl. destruct (H2 n) as [_ ->]; auto.
    f_equal. f_equal. apply stride_units; intros k Hk Hp;
    [apply (H1 k ltac:(lia) Hp)|apply (H2 k ltac:(lia) Hp)].
  - destruct (H1 n) as [_ ->]; auto. rewrite Nat.mul_0_l, !Nat.add_0_r. reflexivity.
Qed.

(** Reshaping that only inserts unit axes.  Axis [k] of [s] for which [p k]
    comes from axis [cnt p k] of the array. *)
Lemma reshape_units : forall A (a : arr A) s p,
  ndim a = cnt p (length s) ->
  (forall k, k < length s -> p k = false -> ax s k = 1) ->
  (forall k, k < length s -> p k = true -> ax (ash a) (cnt p k) = ax s k) ->
  exists y, np_reshape a s = Ok y /\ ash y = s /\
    forall e e', valid s e ->
      (forall k, k < length s -> p k = true -> e' (cnt p k) = e k) ->
      bget y e = bget a e'.
Proof.
  intros A a s p Hn H1 H2. unfold np_reshape, size.
  rewrite (stride_units p s (ash a) (length s)) by assumption.
  unfold ndim in Hn. rewrite Hn, Nat.eqb_refl.
  eexists. split; [reflexivity|]. split; [reflexivity|].
  intros e e' Hv He. unfold bget at 1. cbn [ash aget].
  rewrite (clip_valid_id s e Hv). apply bget_ext. intros j Hj _.
  rewrite (ravel_units p s (ash a) (length s) e e').
  - rewrite <- Hn. apply unravel_ravel; [|assumption].
    intros k Hk. rewrite Hn in Hk.
    assert (Hex : exists i, i < length s /\ p i = true /\ cnt p i = k).
    { clear -Hk. induction (length s) as [|n IH]; [unfold cnt in Hk; simpl in Hk; lia|].
      rewrite cnt_S in Hk. destruct (p n) eqn:E.
      - destruct (Nat.eq_dec k (cnt p n)) as [->|Hne]; [exists n; auto|].
        destruct IH as [i [Hi Hi']]; [lia|]. exists i. split; [lia|assumption].
      - destruct IH as [i [Hi Hi']]; [lia|]. exists i. split; [lia|assumption]. }
    destruct Hex as [i [Hi [Hpi <-]]]. rewrite He, H2 by assumption. apply Hv.
  - intros k Hk Hp. split; [auto|]. specialize (Hv k). rewrite H1 in Hv by assumption. lia.
  - intros k Hk Hp. split; auto.
Qed.

Lemma cnt_all : forall n m, (m <= n)%nat -> cnt (fun k => k <? n) m = m.
Proof.
  intros n m. induction m as [|m IH]; intros H; [reflexivity|].
  rewrite cnt_S, IH by lia. destruct (Nat.ltb_spec m n); lia.
Qed.

Lemma cnt_lead : forall n m, (n <= m)%nat -> cnt (fun k => k <? n) m = n.
Proof.
  intros n m H. induction m as [|m IH].
  - replace n with 0 by lia. reflexivity.
  - destruct (Nat.eq_dec n (S m)) as [->|Hne]; [apply cnt_all; lia|].
    rewrite cnt_S, IH by lia. destruct (Nat.ltb_spec m n); lia.
Qed.

(** Adding or removing leading unit axes. *)
Lemma reshape_leading : forall A (a : arr A) s,
  (forall k, ax s k = ax (ash a) k) ->
  exists y, np_reshape a s = Ok y /\ ash y = s /\
    forall e, (forall k, ax s k <> 1 -> e k < ax s k) -> bget y e = bget a e.
Proof.
  intros A a s H.
  assert (Hst : forall n, stride s n = stride (ash a) n).
  { induction n as [|n IH]; [reflexivity|]. simpl. now rewrite IH, H. }
  assert (Hra : forall n e, ravel s n e = ravel (ash a) n e).
  { induction n as [|n IH]; intros e; [reflexivity|]. simpl. now rewrite IH, Hst. }
  assert (Hlong : forall t n e, (forall k, k < length t -> e k < ax t k) ->
            (forall k, length t <= k -> e k = 0) -> length t <= n ->
            ravel t n e = ravel t (length t) e).
  { intros t n e _ H0 Hn. induction n as [|n IH].
    - replace (length t) with 0 by lia. reflexivity.
    - destruct (Nat.eq_dec (length t) (S n)) as [->|Hne]; [reflexivity|].
      simpl. rewrite IH by lia. rewrite (H0 n) by lia. lia. }
  assert (Hslong : forall t n, length t <= n -> stride t n = stride t (length t)).
  { intros t n Hn. induction n as [|n IH].
    - replace (length t) with 0 by lia. reflexivity.
    - destruct (Nat.eq_dec (length t) (S n)) as [->|Hne]; [reflexivity|].
      simpl. rewrite IH by lia. rewrite (ax_overflow t n) by lia. lia. }
  set (m := Nat.max (length s) (length (ash a))).
  unfold np_reshape, size.
  rewrite <- (Hslong s m), <- (Hslong (ash a) m), Hst, Nat.eqb_refl by lia.
  eexists. split; [reflexivity|]. split; [reflexivity|].
  intros e Hv. unfold bget at 1. cbn [ash aget].
  assert (Hc : forall k, clip s e k < ax s k).
  { intros k. unfold clip. destruct (Nat.eqb_spec (ax s k) 1) as [E|E]; [lia|]. now apply Hv. }
  apply bget_ext. intros j Hj Hj1.
  rewrite <- (Hlong s m).
  - rewrite Hra. rewrite unravel_ravel.
    + unfold clip. rewrite H. destruct (Nat.eqb_spec (ax (ash a) j) 1); [contradiction|reflexivity].
    + intros k Hk. rewrite <- H. apply Hc.
    + lia.
  - intros k _. apply Hc.
  - intros k Hk. unfold clip. rewrite (ax_overflow s k) by assumption. reflexivity.
  - lia.
Qed.

(** ** einsum *)
Lemma bdim_label_eq : forall ds ds',
  (forall x, x <> 1 -> (In x ds <-> In x ds')) -> bdim ds = bdim ds'.
Proof.
  intros ds ds' H.
  assert (Hok : forall l l' d, (forall x, x <> 1 -> (In x l <-> In x l')) -> bdim l = Ok d -> bdim l' = Ok d).
  { clear. intros l l' d H E. apply bdim_ok in E as [H1 H2]. apply bdim_ok. split.
    - intros x Hx. destruct (Nat.eq_dec x 1) as [->|Hne]; [auto|]. apply H1. now apply H.
    - destruct (Nat.eq_dec d 1) as [->|Hne]; [auto|]. right. apply H; tauto. }
  destruct (bdim ds) as [d|e] eqn:E.
  - symmetry. eapply Hok; eauto.
  - destruct (bdim ds') as [d|e'] eqn:E'.
    + assert (bdim ds = Ok d) by (eapply Hok; [|exact E']; intros; symmetry; auto). congruence.
    + apply bdim_err in E as [-> _]. apply bdim_err in E' as [-> _]. reflexivity.
Qed.

Section SumMultiply.
Variable args : list (arr R).
Let n := max_rank (map ash args).
Let pairs := map (fun a => (a, seq (n - ndim a) (ndim a))) args.

Lemma args_rank : forall a, In a args -> ndim a <= n.
Proof. intros a Ha. unfold n, ndim. apply max_rank_ge. now apply in_map. Qed.

Lemma pair_labels_in : forall i, In i (op_labels pairs) <-> i < n.
Proof.
  intros i. unfold op_labels. rewrite nodup_In, in_concat. unfold pairs. rewrite map_map. cbn [snd].
  split.
  - intros [l [Hl Hi]]. apply in_map_iff in Hl as [a [<- Ha]]. apply in_seq in Hi.
    pose proof (args_rank a Ha). lia.
  - intros Hi. destruct (max_rank_attained (map ash args)) as [E|[s [Hs E]]]; [fold n in E; lia|].
    apply in_map_iff in Hs as [a [<- Ha]]. fold n in E.
    exists (seq (n - ndim a) (ndim a)). split; [apply in_map_iff; eauto|].
    apply in_seq. unfold ndim. lia.
Qed.

Lemma op_labels_perm : Permutation (op_labels pairs) (map (fun k => n - 1 - k) (seq 0 n)).
Proof.
  apply NoDup_Permutation.
  - apply NoDup_nodup.
  - apply NoDup_nth with (d := 0). intros i j. rewrite map_length, seq_length. intros Hi Hj.
    rewrite (nth_indep _ 0 (n - 1 - 0)) by (rewrite map_length, seq_length; lia).
    rewrite (nth_indep (map _ _) 0 (n - 1 - 0)) by (rewrite map_length, seq_length; lia).
    rewrite !(map_nth (fun k => n - 1 - k)), !seq_nth by lia. lia.
  - intros i. rewrite pair_labels_in, in_map_iff. split.
    + intros Hi. exists (n - 1 - i). split; [lia|]. apply in_seq. lia.
    + intros [k [<- Hk]]. apply in_seq in Hk. lia.
Qed.

Lemma in_combine_seq : forall m (s : shape) i d,
  In (i, d) (combine (seq m (length s)) s) <-> m <= i /\ nth_error s (i - m) = Some d.
Proof.
  intros m s. revert m. induction s as [|x s IH]; intros m i d; simpl.
  - split; [intros []|]. intros [_ H]. destruct (i - m); discriminate.
  - rewrite IH. split.
    + intros [E|[H1 H2]].
      * injection E as -> ->. split; [lia|]. rewrite Nat.sub_diag. reflexivity.
      * split; [lia|]. replace (i - m) with (S (i - S m)) by lia. assumption.
    + intros [H1 H2]. destruct (Nat.eq_dec i m) as [->|Hne].
      * left. rewrite Nat.sub_diag in H2. simpl in H2. congruence.
      * right. split; [lia|]. replace (i - m) with (S (i - S m)) in H2 by lia. assumption.
Qed.

Lemma nth_error_ax : forall (s : shape) j, j < length s -> nth_error s j = Some (ax s (length s - 1 - j)).
Proof.
  intros s j Hj. unfold ax. rewrite rev_nth by lia.
  replace (length s - S (length s - 1 - j)) with j by lia. now apply nth_error_nth'.
Qed.

Lemma label_dims_in : forall i x, i < n -> x <> 1 ->
  (In x (label_dims pairs i) <-> In x (map (fun s => ax s (n - 1 - i)) (map ash args))).
Proof.
  intros i x Hi Hx. unfold label_dims. rewrite in_concat. unfold pairs. rewrite map_map. cbn [fst snd].
  rewrite map_map. split.
  - intros [l [Hl Hin]]. apply in_map_iff in Hl as [a [<- Ha]].
    apply in_map_iff in Hin as [[j d] [E Hin]]. simpl in E. subst d.
    apply filter_In in Hin as [Hin E]. simpl in E. apply Nat.eqb_eq in E. subst j.
    unfold ndim in Hin. apply in_combine_seq in Hin as [H1 H2].
    pose proof (args_rank a Ha) as Hr. unfold ndim in Hr.
    assert (Hlt : i - (n - length (ash a)) < length (ash a)) by (apply nth_error_Some; congruence).
    rewrite nth_error_ax in H2 by assumption. injection H2 as H2.
    apply in_map_iff. exists a. split; [|assumption]. rewrite <- H2. f_equal. lia.
  - intros Hin. apply in_map_iff in Hin as [a [E Ha]].
    eexists. split; [apply in_map_iff; exists a; split; [reflexivity|assumption]|].
    apply in_map_iff. exists (i, x). split; [reflexivity|]. apply filter_In.
    split; [|simpl; apply Nat.eqb_refl].
    pose proof (args_rank a Ha) as Hr. unfold ndim in *.
    assert (Hlt : n - 1 - i < length (ash a)).
    { destruct (Nat.lt_ge_cases (n - 1 - i) (length (ash a))); [assumption|].
      exfalso. apply Hx. rewrite <- E. now apply ax_overflow. }
    apply in_combine_seq. split; [lia|].
    rewrite nth_error_ax by lia. f_equal. rewrite <- E. f_equal. lia.
Qed.

Lemma label_size : forall i, i < n ->
  bdim (label_dims pairs i) = foldM (bc_step (n - 1 - i)) 1 (map ash args).
Proof.
  intros i Hi. rewrite (bdim_label_eq _ _ (fun x Hx => label_dims_in i x Hi Hx)).
  destruct (foldM (bc_step (n - 1 - i)) 1 (map ash args)) as [d|e] eqn:E.
  - apply bdim_ok. apply foldM_bc_ok in E as (H1 & H2 & H3). split.
    + intros x Hx. apply in_map_iff in Hx as [s [<- Hs]]. auto.
    + destruct H3 as [H3|[H3|[a [Ha H3]]]]; auto. right. rewrite <- H3. apply in_map_iff. eauto.
  - apply foldM_bc_err in E as (-> & b & Hb & Hb1 & H).
    destruct H as [[H _]|[a [Ha [Ha1 Hab]]]]; [congruence|].
    match goal with |- ?t = _ => destruct t as [d|e] eqn:Eb end.
    + exfalso. apply bdim_ok in Eb as [H1 _].
      assert (Hx : In (ax a (n - 1 - i)) (map (fun s => ax s (n - 1 - i)) (map ash args))) by (apply in_map_iff; eauto).
      assert (Hy : In (ax b (n - 1 - i)) (map (fun s => ax s (n - 1 - i)) (map ash args))) by (apply in_map_iff; eauto).
      pose proof (H1 _ Hx). pose proof (H1 _ Hy). lia.
    + apply bdim_err in Eb as [-> _]. reflexivity.
Qed.

(** The elementwise product of the broadcast operands. *)
Definition prodf (l : list (arr R)) (e : env) : R := lprod (map (fun a => bget a e) l).

Lemma prodf_dep : dep n (prodf args).
Proof.
  intros e e' H. unfold prodf. f_equal. apply map_ext_in. intros a Ha.
  apply bget_dep. intros k Hk. apply H. pose proof (args_rank a Ha). lia.
Qed.

Lemma einsum_term_eq : forall L, einsum_term pairs L = prodf args (fun k => L (n - 1 - k)).
Proof.
  intros L. unfold einsum_term, prodf, pairs. rewrite map_map. cbn [fst snd]. f_equal.
  apply map_ext_in. intros a Ha. apply bget_dep. intros k Hk. unfold op_env.
  pose proof (args_rank a Ha). rewrite rev_nth by (rewrite seq_length; lia).
  rewrite seq_length, seq_nth by lia. f_equal. lia.
Qed.

End SumMultiply.

(** Renaming axes by an injection. *)
Lemma itersum_rename : forall m (g : nat -> nat) (d : nat -> nat) (P : env -> R) ks L,
  dep m P -> (forall j k, j < m -> k < m -> g j = g k -> j = k) -> (forall k, In k ks -> k < m) ->
  itersum (map (fun k => (g k, d k)) ks) (fun L => P (fun k => L (g k))) L =
  itersum (map (fun k => (k, d k)) ks) P (fun k => L (g k)).
Proof.
  intros m g d P ks. induction ks as [|k ks IH]; intros L HP Hg Hk; [reflexivity|].
  cbn [map]. rewrite !itersum_cons. unfold sumax. apply rsum_ext. intros x _.
  rewrite IH by (auto; intros; apply Hk; simpl; auto).
  apply (itersum_dep _ m); [assumption|]. intros j Hj. unfold upd.
  destruct (Nat.eqb_spec (g j) (g k)) as [E|E], (Nat.eqb_spec j k) as [E'|E']; subst; try reflexivity.
  - exfalso. apply E'. apply Hg; auto. apply Hk; simpl; auto.
  - congruence.
Qed.
