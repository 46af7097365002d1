(** einsum with plate axes and keyed variable axes (the way SumMultiply calls it). *)
From Coq Require Import List Arith ZArith Lia Bool Reals Lra Permutation FunctionalExtensionality.
From Verif Require Import Base Shapes SpecShapes ShapesLemmas NumPy MiscArray SpecArray TensorLemmas
  EinsumLemmas EinsumGen PlateSumLemmas Dot.
Import ListNotations.
Open Scope nat_scope.

(** The entry of an array whose variable axes have the keys [keys], for plate [p] and the
    assignment [L] of indices to keys. *)
Definition entry (keys : list nat) (a : arr R) (p L : env) : R :=
  bget a (join (length keys) p (at_index (map L keys))).
Definition prod_entries (ops : list (arr R * list nat)) (p L : env) : R :=
  lprod (map (fun q => entry (snd q) (fst q) p L) ops).
(** Labels given to the operands. *)
Definition lab_op (base : nat) (q : arr R * list nat) : arr R * list nat :=
  (fst q, down_keys base (ndim (fst q) - length (snd q)) ++ snd q).
Definition lab_ops (base : nat) (ops : list (arr R * list nat)) := map (lab_op base) ops.
Definition plates_of (q : arr R * list nat) : nat := ndim (fst q) - length (snd q).

Lemma down_keys_length : forall b n, length (down_keys b n) = n.
Proof. intros. unfold down_keys. now rewrite rev_length, seq_length. Qed.
Lemma in_down_keys : forall b n l, In l (down_keys b n) <-> b <= l < b + n.
Proof. intros. unfold down_keys. rewrite <- in_rev. apply in_seq. Qed.
Lemma NoDup_down_keys : forall b n, NoDup (down_keys b n).
Proof. intros. unfold down_keys. apply NoDup_rev, seq_NoDup. Qed.

Lemma rev_lab : forall base n keys, rev (down_keys base n ++ keys) = rev keys ++ seq base n.
Proof. intros. unfold down_keys. now rewrite rev_app_distr, rev_involutive. Qed.

Lemma nth_lab : forall base n keys k, k < n + length keys ->
  nth k (rev (down_keys base n ++ keys)) 0 =
  if k <? length keys then nth k (rev keys) 0 else base + (k - length keys).
Proof.
  intros base n keys k Hk. rewrite rev_lab. destruct (Nat.ltb_spec k (length keys)).
  - apply app_nth1. now rewrite rev_length.
  - rewrite app_nth2; rewrite rev_length; [|lia]. rewrite seq_nth; lia.
Qed.

Lemma at_index_map : forall (L : env) keys k, k < length keys ->
  at_index (map L keys) k = L (nth k (rev keys) 0).
Proof.
  intros L keys k Hk. unfold at_index. rewrite <- map_rev.
  rewrite (nth_indep _ 0 (L 0)) by (rewrite map_length, rev_length; lia). now rewrite map_nth.
Qed.

Lemma entry_lab : forall base (a : arr R) keys Lab, length keys <= ndim a ->
  bget a (op_env (down_keys base (ndim a - length keys) ++ keys) Lab) =
  entry keys a (fun j => Lab (base + j)) Lab.
Proof.
  intros base a keys Lab H. unfold entry. apply bget_ext. intros k Hk _. unfold op_env, join.
  fold (ndim a) in Hk. rewrite nth_lab by lia. destruct (Nat.ltb_spec k (length keys)).
  - now rewrite at_index_map.
  - reflexivity.
Qed.

Lemma einsum_term_lab : forall base ops Lab,
  (forall q, In q ops -> length (snd q) <= ndim (fst q)) ->
  einsum_term (lab_ops base ops) Lab = prod_entries ops (fun j => Lab (base + j)) Lab.
Proof.
  intros base ops Lab H. unfold einsum_term, lab_ops, prod_entries. rewrite map_map. f_equal.
  apply map_ext_in. intros q Hq. cbn [lab_op fst snd]. apply entry_lab. now apply H.
Qed.

Lemma entry_ext : forall keys a p p' L L',
  (forall k, k < ndim a - length keys -> p k = p' k) -> (forall k, In k keys -> L k = L' k) ->
  entry keys a p L = entry keys a p' L'.
Proof.
  intros keys a p p' L L' Hp HL. unfold entry. apply bget_ext. intros k Hk _. unfold join.
  fold (ndim a) in Hk. destruct (Nat.ltb_spec k (length keys)).
  - rewrite !at_index_map by assumption. apply HL. apply in_rev. apply nth_In. now rewrite rev_length.
  - apply Hp. lia.
Qed.

Lemma in_label_dims_ax : forall ops l d, (forall q, In q ops -> length (snd q) = ndim (fst q)) ->
  (In d (label_dims ops l) <->
   exists q k, In q ops /\ k < ndim (fst q) /\ nth k (rev (snd q)) 0 = l /\ d = ax (ash (fst q)) k).
Proof.
  intros ops l d HL. rewrite in_label_dims. split.
  - intros (q & i & Hq & H1 & H2). exists q, (ndim (fst q) - 1 - i).
    assert (Hi : i < ndim (fst q)).
    { unfold ndim. apply nth_error_Some. rewrite H2. discriminate. }
    destruct (nth_error_rev_ax (snd q) (ash (fst q)) (ndim (fst q) - 1 - i)) as [E1 E2].
    + now apply HL.
    + unfold ndim in *. lia.
    + unfold ndim in *.
      replace (length (ash (fst q)) - 1 - (length (ash (fst q)) - 1 - i)) with i in E1, E2 by lia.
      split; [assumption|]. split; [lia|]. split; congruence.
  - intros (q & k & Hq & Hk & E & ->).
    destruct (nth_error_rev_ax (snd q) (ash (fst q)) k (HL q Hq) Hk) as [E1 E2].
    exists q, (length (ash (fst q)) - 1 - k). split; [assumption|]. split; [now rewrite E1, E|assumption].
Qed.

Lemma lab_ops_length : forall base ops q, (forall q, In q ops -> length (snd q) <= ndim (fst q)) ->
  In q (lab_ops base ops) -> length (snd q) = ndim (fst q).
Proof.
  intros base ops q H Hq. unfold lab_ops in Hq. apply in_map_iff in Hq as [q' [<- Hq']].
  cbn [lab_op fst snd]. rewrite app_length, down_keys_length. specialize (H q' Hq'). lia.
Qed.

(** Renaming the keys of a sum. *)
Definition reads (K : list nat) (P : env -> R) : Prop :=
  forall L L', (forall k, In k K -> L k = L' k) -> P L = P L'.
Lemma itersum_rename_on : forall (f : nat -> nat) K d P ks L,
  reads K P -> (forall a b, In a K -> In b K -> f a = f b -> a = b) -> incl ks K ->
  itersum (map (fun k => (f k, d k)) ks) (fun L => P (fun k => L (f k))) L =
  itersum (map (fun k => (k, d k)) ks) P (fun k => L (f k)).
Proof.
  intros f K d P ks. induction ks as [|k ks IH]; intros L HP Hf Hk; [reflexivity|].
  cbn [map]. rewrite !itersum_cons. unfold sumax. apply rsum_ext. intros x _.
  rewrite IH; [|assumption|assumption|intros a Ha; apply Hk; now right].
  assert (HR : reads K (itersum (map (fun k => (k, d k)) ks) P)).
  { clear -HP. induction ks as [|j ks IH]; [exact HP|]. intros L L' H. cbn [map]. rewrite !itersum_cons.
    unfold sumax. apply rsum_ext. intros x _. apply IH. intros a Ha. unfold upd. destruct (a =? j); auto. }
  apply HR. intros a Ha. unfold upd.
  destruct (Nat.eqb_spec (f a) (f k)) as [E|E].
  - apply Hf in E; [|assumption|apply Hk; now left]. subst. now rewrite Nat.eqb_refl.
  - destruct (Nat.eqb_spec a k); [congruence|reflexivity].
Qed.
Lemma reads_itersum : forall K l P, reads K P -> reads K (itersum l P).
Proof.
  intros K l P HP. induction l as [|[j n] l IH]; [exact HP|]. intros L L' H. rewrite !itersum_cons.
  unfold sumax. apply rsum_ext. intros x _. apply IH. intros a Ha. unfold upd. destruct (a =? j); auto.
Qed.
(** Keys that are summed may differ. *)
Lemma reads_itersum_free : forall K l P L L', reads K P ->
  (forall k, In k K -> ~ In k (map fst l) -> L k = L' k) -> itersum l P L = itersum l P L'.
Proof.
  intros K l P. induction l as [|[j n] l IH]; intros L L' HP H.
  - apply HP. intros k Hk. apply H; [assumption|intros []].
  - rewrite !itersum_cons. unfold sumax. apply rsum_ext. intros x _. apply IH; [assumption|].
    intros k Hk Hn. unfold upd. destruct (Nat.eqb_spec k j); [reflexivity|].
    apply H; [assumption|]. intros [E|E]; [cbn in E; congruence|contradiction].
Qed.

Lemma in_lab_labels : forall base ops l, In l (op_labels (lab_ops base ops)) <->
  (exists q, In q ops /\ In l (snd q)) \/ (exists j q, l = base + j /\ In q ops /\ j < plates_of q).
Proof.
  intros base ops l. rewrite in_op_labels. unfold lab_ops. split.
  - intros [q [Hq Hl]]. apply in_map_iff in Hq as [q' [<- Hq']]. cbn [lab_op snd] in Hl.
    apply in_app_iff in Hl as [Hl|Hl]; [|left; eauto].
    apply in_down_keys in Hl. right. exists (l - base), q'. unfold plates_of. split; [lia|]. split; [assumption|lia].
  - intros [[q [Hq Hl]]|[j [q [-> [Hq Hj]]]]].
    + exists (lab_op base q). split; [now apply in_map|]. cbn. apply in_app_iff. now right.
    + exists (lab_op base q). split; [now apply in_map|]. cbn. apply in_app_iff. left.
      apply in_down_keys. unfold plates_of in Hj. lia.
Qed.

Section Gen.
Variables (P : shape) (N : nat) (sz : nat -> nat).

(** An operand that fits plates [P] and key lengths [sz]. *)
Definition op_fits (q : arr R * list nat) : Prop :=
  length (snd q) <= ndim (fst q) /\ (forall k, In k (snd q) -> k < N) /\
  (forall i, i < length (snd q) ->
     ax (ash (fst q)) i = 1 \/ ax (ash (fst q)) i = sz (nth i (rev (snd q)) 0)) /\
  (forall j, ax (ash (fst q)) (length (snd q) + j) = 1 \/ ax (ash (fst q)) (length (snd q) + j) = ax P j).
(** Some operand has the full length along key [k]. *)
Definition realized (ops : list (arr R * list nat)) (k : nat) : Prop :=
  sz k = 1 \/ exists q i, In q ops /\ i < length (snd q) /\ nth i (rev (snd q)) 0 = k /\ ax (ash (fst q)) i = sz k.

Variables (base : nat) (ops : list (arr R * list nat)).
Hypothesis base_ok : N <= base.
Hypothesis ops_fit : forall q, In q ops -> op_fits q.

Lemma ops_len : forall q, In q ops -> length (snd q) <= ndim (fst q).
Proof. intros q Hq. apply (ops_fit q Hq). Qed.

Lemma key_dims : forall k d, k < N ->
  (In d (label_dims (lab_ops base ops) k) <->
   exists q i, In q ops /\ i < length (snd q) /\ nth i (rev (snd q)) 0 = k /\ d = ax (ash (fst q)) i).
Proof.
  intros k d Hk. rewrite in_label_dims_ax by (intros q Hq; eapply lab_ops_length; [exact ops_len|exact Hq]).
  split.
  - intros (q & i & Hq & Hi & E & ->). unfold lab_ops in Hq. apply in_map_iff in Hq as [q' [<- Hq']].
    cbn [lab_op fst snd] in *. pose proof (ops_len q' Hq'). rewrite nth_lab in E by lia.
    destruct (Nat.ltb_spec i (length (snd q'))); [|lia]. exists q', i. auto.
  - intros (q & i & Hq & Hi & E & ->). exists (lab_op base q), i. pose proof (ops_len q Hq).
    split; [now apply in_map|]. cbn [lab_op fst snd]. split; [lia|]. split; [|reflexivity].
    rewrite nth_lab by lia. destruct (Nat.ltb_spec i (length (snd q))); [assumption|lia].
Qed.

Lemma plate_dims : forall j d,
  (In d (label_dims (lab_ops base ops) (base + j)) <->
   exists q, In q ops /\ j < plates_of q /\ d = ax (ash (fst q)) (length (snd q) + j)).
Proof.
  intros j d. rewrite in_label_dims_ax by (intros q Hq; eapply lab_ops_length; [exact ops_len|exact Hq]).
  unfold plates_of. split.
  - intros (q & i & Hq & Hi & E & ->). unfold lab_ops in Hq. apply in_map_iff in Hq as [q' [<- Hq']].
    cbn [lab_op fst snd] in *. pose proof (ops_len q' Hq'). rewrite nth_lab in E by lia.
    destruct (Nat.ltb_spec i (length (snd q'))) as [Hlt|Hge].
    + exfalso. assert (nth i (rev (snd q')) 0 < N).
      { apply (ops_fit q' Hq'). apply in_rev. apply nth_In. now rewrite rev_length. }
      lia.
    + exists q'. split; [assumption|]. split; [lia|]. f_equal. lia.
  - intros (q & Hq & Hj & ->). exists (lab_op base q), (length (snd q) + j). pose proof (ops_len q Hq).
    split; [now apply in_map|]. cbn [lab_op fst snd]. split; [lia|]. split; [|reflexivity].
    rewrite nth_lab by lia. destruct (Nat.ltb_spec (length (snd q) + j) (length (snd q))); lia.
Qed.

(** Size of a label: any value that is 1 or the full one. *)
Lemma label_ok : forall l, In l (op_labels (lab_ops base ops)) ->
  bdim (label_dims (lab_ops base ops) l) = Ok (label_size_of (lab_ops base ops) l).
Proof.
  intros l Hl. unfold label_size_of.
  destruct (bdim (label_dims (lab_ops base ops) l)) eqn:E; [reflexivity|exfalso].
  apply bdim_err in E.
  apply in_lab_labels in Hl as [[q [Hq Hl]]|[j [q [-> [Hq Hj]]]]].
  - destruct (ops_fit q Hq) as (_ & Hb & _). specialize (Hb l Hl).
    destruct E as (_ & a & b & Ha & Hb' & A1 & B1 & AB).
    apply key_dims in Ha as (qa & i & Hqa & Hi & Ei & ->); [|assumption].
    apply key_dims in Hb' as (qb & i' & Hqb & Hi' & Ei' & ->); [|assumption].
    destruct (ops_fit qa Hqa) as (_ & _ & Fa & _). destruct (ops_fit qb Hqb) as (_ & _ & Fb & _).
    specialize (Fa i Hi). specialize (Fb i' Hi'). rewrite Ei in Fa. rewrite Ei' in Fb. lia.
  - destruct E as (_ & a & b & Ha & Hb' & A1 & B1 & AB).
    apply plate_dims in Ha as (qa & Hqa & Hi & ->).
    apply plate_dims in Hb' as (qb & Hqb & Hi' & ->).
    destruct (ops_fit qa Hqa) as (_ & _ & _ & Fa). destruct (ops_fit qb Hqb) as (_ & _ & _ & Fb).
    specialize (Fa j). specialize (Fb j). lia.
Qed.
End Gen.
