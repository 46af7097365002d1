(** The value of the einsum calls of SumMultiply, and the sum of a message. *)
From Coq Require Import List Arith ZArith Lia Bool Reals Lra Permutation FunctionalExtensionality.
From Verif Require Import Base Shapes SpecShapes ShapesLemmas NumPy MiscArray SpecArray TensorLemmas
  EinsumLemmas EinsumGen PlateSumLemmas PlateSum2Lemmas Dot DotEinsum.
Import ListNotations.
Open Scope nat_scope.

Lemma entry_ext' : forall keys a p p' L L',
  (forall j, ax (ash a) (length keys + j) <> 1 -> p j = p' j) ->
  (forall i, i < length keys -> ax (ash a) i <> 1 -> L (nth i (rev keys) 0) = L' (nth i (rev keys) 0)) ->
  entry keys a p L = entry keys a p' L'.
Proof.
  intros keys a p p' L L' Hp HL. unfold entry. apply bget_ext. intros k Hk E. unfold join.
  destruct (Nat.ltb_spec k (length keys)).
  - rewrite !at_index_map by assumption. now apply HL.
  - apply Hp. now replace (length keys + (k - length keys)) with k by lia.
Qed.

Lemma prod_entries_ext : forall ops p p' L L',
  (forall q, In q ops -> entry (snd q) (fst q) p L = entry (snd q) (fst q) p' L') ->
  prod_entries ops p L = prod_entries ops p' L'.
Proof. intros ops p p' L L' H. unfold prod_entries. f_equal. now apply map_ext_in. Qed.

Lemma prod_entries_reads : forall ops p K, (forall q k, In q ops -> In k (snd q) -> In k K) ->
  reads K (prod_entries ops p).
Proof.
  intros ops p K H L L' HL. apply prod_entries_ext. intros q Hq. apply entry_ext; [reflexivity|].
  intros k Hk. apply HL. eapply H; eauto.
Qed.

Lemma nth_rev_In : forall (l : list nat) i, i < length l -> In (nth i (rev l) 0) l.
Proof. intros. apply in_rev. apply nth_In. now rewrite rev_length. Qed.

Lemma In_nth_rev : forall (l : list nat) x, In x l -> exists i, i < length l /\ nth i (rev l) 0 = x.
Proof.
  intros l x H. apply in_rev in H. apply (In_nth _ _ 0) in H as [i [Hi E]]. rewrite rev_length in Hi. eauto.
Qed.

Lemma list_max_ge : forall l n, In n l -> n <= list_max l.
Proof.
  intros l n H. assert (E : list_max l <= list_max l) by lia. rewrite list_max_le in E.
  rewrite Forall_forall in E. now apply E.
Qed.
Lemma list_max_in : forall l, l <> [] -> In (list_max l) l.
Proof.
  induction l as [|a l IH]; [congruence|]. intros _. destruct l as [|b l].
  - left. simpl. lia.
  - change (list_max (a :: b :: l)) with (Nat.max a (list_max (b :: l))).
    destruct (Nat.max_dec a (list_max (b :: l))) as [E|E]; rewrite E; [now left|right; apply IH; discriminate].
Qed.

Lemma assign_app_l : forall names rest e k, In k names -> assign (names ++ rest) e k = assign names e k.
Proof.
  intros names rest e k H. unfold assign. assert (E : index_of k (names ++ rest) = index_of k names).
  { induction names as [|x r IH]; [destruct H|]. simpl. destruct (Nat.eqb_spec x k); [reflexivity|].
    rewrite IH; [reflexivity|]. destruct H; [congruence|assumption]. }
  now rewrite E.
Qed.

Section Value.
Variables (P : shape) (N : nat) (sz : nat -> nat) (base : nat) (ops : list (arr R * list nat)).
Hypothesis base_ok : N <= base.
Hypothesis ops_fit : forall q, In q ops -> op_fits P N sz q.

Lemma key_size : forall k, k < N -> realized sz ops k -> label_size_of (lab_ops base ops) k = sz k.
Proof.
  intros k Hk HR. unfold label_size_of.
  assert (E : bdim (label_dims (lab_ops base ops) k) = Ok (sz k)); [|now rewrite E].
  apply bdim_ok. split.
  - intros x Hx. apply (key_dims P N sz base ops) in Hx as (q & i & Hq & Hi & E & ->); try assumption.
    destruct (ops_fit q Hq) as (_ & _ & F & _). rewrite <- E. now apply F.
  - destruct HR as [HR|(q & i & Hq & Hi & E & Hd)]; [now left|]. right.
    apply (key_dims P N sz base ops); try assumption. exists q, i. auto.
Qed.

Lemma label_le : forall l, In l (op_labels (lab_ops base ops)) ->
  (l < N -> label_size_of (lab_ops base ops) l = 1 \/ label_size_of (lab_ops base ops) l = sz l) /\
  (forall j, l = base + j -> label_size_of (lab_ops base ops) l = 1 \/ label_size_of (lab_ops base ops) l = ax P j).
Proof.
  intros l Hl. pose proof (label_ok P N sz base ops base_ok ops_fit l Hl) as E.
  apply bdim_ok in E as [_ [E|E]]; [rewrite E; auto|]. split.
  - intros Hk. apply (key_dims P N sz base ops) in E as (q & i & Hq & Hi & E & E'); try assumption.
    rewrite E'. destruct (ops_fit q Hq) as (_ & _ & F & _). rewrite <- E. now apply F.
  - intros j ->. apply (plate_dims P N sz base ops) in E as (q & Hq & Hj & E'); try assumption.
    rewrite E'. destruct (ops_fit q Hq) as (_ & _ & _ & F). apply F.
Qed.

(** Along a unit label no operand varies. *)
Lemma unit_label_plate : forall j, (In (base + j) (op_labels (lab_ops base ops)) -> label_size_of (lab_ops base ops) (base + j) = 1) ->
  forall q, In q ops -> ax (ash (fst q)) (length (snd q) + j) = 1.
Proof.
  intros j H q Hq. destruct (Nat.lt_ge_cases j (plates_of q)) as [Hj|Hj].
  - assert (Hl : In (base + j) (op_labels (lab_ops base ops))).
    { apply in_lab_labels. right. exists j, q. auto. }
    specialize (H Hl). pose proof (label_ok P N sz base ops base_ok ops_fit _ Hl) as E. rewrite H in E.
    apply bdim_ok in E as [E _]. destruct (E (ax (ash (fst q)) (length (snd q) + j))); [|assumption|assumption].
    apply (plate_dims P N sz base ops); try assumption. exists q. auto.
  - apply ax_overflow. unfold plates_of, ndim in Hj. destruct (ops_fit q Hq) as [Hl _]. unfold ndim in Hl. lia.
Qed.
Lemma unit_label_key : forall k, k < N -> (In k (op_labels (lab_ops base ops)) -> label_size_of (lab_ops base ops) k = 1) ->
  forall q i, In q ops -> i < length (snd q) -> nth i (rev (snd q)) 0 = k -> ax (ash (fst q)) i = 1.
Proof.
  intros k Hk H q i Hq Hi Ei.
  assert (Hl : In k (op_labels (lab_ops base ops))).
  { apply in_lab_labels. left. exists q. split; [assumption|]. rewrite <- Ei. now apply nth_rev_In. }
  specialize (H Hl). pose proof (label_ok P N sz base ops base_ok ops_fit _ Hl) as E. rewrite H in E.
  apply bdim_ok in E as [E _]. destruct (E (ax (ash (fst q)) i)); [|assumption|assumption].
  apply (key_dims P N sz base ops); try assumption. exists q, i. auto.
Qed.

(** The moments. *)
Lemma einsum_value : forall out,
  (forall k, k < N -> realized sz ops k) -> (forall k, k < N -> exists q, In q ops /\ In k (snd q)) ->
  NoDup out -> (forall k, In k out -> k < N) -> ops <> [] ->
  exists y, einsum (lab_ops base ops) (down_keys base (list_max (map plates_of ops)) ++ out) = Ok y /\
    ndim y = list_max (map plates_of ops) + length out /\
    (forall i, i < length out -> ax (ash y) i = sz (nth i (rev out) 0)) /\
    (forall j, ax (ash y) (length out + j) = 1 \/ ax (ash y) (length out + j) = ax P j) /\
    forall p L, (forall j, ax P j <> 1 -> p j < ax P j) -> (forall k, In k out -> L k < sz k) ->
      entry out y p L =
      itersum (map (fun k => (k, sz k)) (filter (fun k => negb (memb k out)) (seq 0 N))) (prod_entries ops p) L.
Proof.
  intros out HR HC HN Hout Hne.
  set (M := list_max (map plates_of ops)). set (outs := down_keys base M ++ out).
  set (LO := lab_ops base ops).
  assert (HND : NoDup outs).
  { apply NoDup_app_intro; [apply NoDup_down_keys|assumption|]. intros x H1 H2. apply in_down_keys in H1.
    specialize (Hout x H2). lia. }
  assert (HM : forall j, j < M -> exists q, In q ops /\ j < plates_of q).
  { intros j Hj. unfold M in Hj. assert (X : In (list_max (map plates_of ops)) (map plates_of ops)).
    { apply list_max_in. destruct ops; [congruence|discriminate]. }
    apply in_map_iff in X as [q [E Hq]]. exists q. split; [assumption|lia]. }
  assert (Hincl : incl outs (op_labels LO)).
  { intros l Hl. apply in_lab_labels. apply in_app_iff in Hl as [Hl|Hl].
    - apply in_down_keys in Hl. right. destruct (HM (l - base)) as [q [Hq Hj]]; [lia|].
      exists (l - base), q. split; [lia|auto].
    - left. apply HC. now apply Hout. }
  destruct (einsum_total LO outs) as [y Hy].
  { intros q Hq. eapply lab_ops_length; [|exact Hq]. intros q' Hq'. apply (ops_fit q' Hq'). }
  { assumption. } { assumption. }
  { intros l Hl. eexists. now apply (label_ok P N sz base ops). }
  exists y. split; [exact Hy|]. apply einsum_ok in Hy as (_ & _ & _ & _ & Hsh & Hv).
  assert (Hnd : ndim y = M + length out).
  { unfold ndim. rewrite Hsh, map_length. unfold outs. rewrite app_length, down_keys_length. reflexivity. }
  assert (Hax : forall k, k < ndim y -> ax (ash y) k = label_size_of LO (nth k (rev outs) 0)).
  { intros k Hk. rewrite Hsh. unfold ax. rewrite <- map_rev.
    rewrite (nth_indep _ 1 (label_size_of LO 0)).
    - now rewrite map_nth.
    - rewrite map_length, rev_length. unfold ndim in Hk. rewrite Hsh, map_length in Hk. exact Hk. }
  assert (Hax1 : forall i, i < length out -> ax (ash y) i = sz (nth i (rev out) 0)).
  { intros i Hi. rewrite Hax by lia. unfold outs. rewrite nth_lab by lia.
    destruct (Nat.ltb_spec i (length out)); [|lia]. apply key_size; [|apply HR]; apply Hout; now apply nth_rev_In. }
  assert (Hax2 : forall j, ax (ash y) (length out + j) = if j <? M then label_size_of LO (base + j) else 1).
  { intros j. destruct (Nat.ltb_spec j M).
    - rewrite Hax by lia. unfold outs. rewrite nth_lab by lia.
      destruct (Nat.ltb_spec (length out + j) (length out)); [lia|]. f_equal. lia.
    - apply ax_overflow. unfold ndim in Hnd. lia. }
  split; [exact Hnd|]. split; [exact Hax1|]. split.
  { intros j. rewrite Hax2. destruct (Nat.ltb_spec j M); [|now left].
    apply label_le; [|reflexivity]. apply Hincl. apply in_app_iff. left. apply in_down_keys. lia. }
  intros p L Hp HL. unfold entry at 1, bget. rewrite Hv.
  set (e := clip (ash y) _). set (B := assign (rev outs) e).
  assert (HB1 : forall k, In k out -> B k = L k).
  { intros k Hk. destruct (In_nth_rev out k Hk) as [i [Hi E]]. unfold B.
    assert (E1 : nth i (rev outs) 0 = k).
    { unfold outs. rewrite nth_lab by lia. destruct (Nat.ltb_spec i (length out)); [assumption|lia]. }
    rewrite <- E1. rewrite assign_nth; [|now apply NoDup_rev|rewrite rev_length; unfold outs; rewrite app_length; lia].
    rewrite E1. unfold e, clip. rewrite Hax1 by assumption. rewrite E.
    destruct (Nat.eqb_spec (sz k) 1) as [E2|E2]; [specialize (HL k Hk); lia|].
    unfold join. destruct (Nat.ltb_spec i (length out)); [|lia]. rewrite at_index_map by assumption. now rewrite E. }
  assert (HB2 : forall j, (j < M -> label_size_of LO (base + j) <> 1) -> j < M -> B (base + j) = p j).
  { intros j H1 Hj. unfold B.
    assert (E1 : nth (length out + j) (rev outs) 0 = base + j).
    { unfold outs. rewrite nth_lab by lia. destruct (Nat.ltb_spec (length out + j) (length out)); lia. }
    rewrite <- E1. rewrite assign_nth; [|now apply NoDup_rev|rewrite rev_length; unfold outs; rewrite app_length, down_keys_length; lia].
    unfold e, clip. rewrite Hax2. destruct (Nat.ltb_spec j M); [|lia].
    destruct (Nat.eqb_spec (label_size_of LO (base + j)) 1) as [E2|E2]; [exfalso; now apply H1|].
    unfold join. destruct (Nat.ltb_spec (length out + j) (length out)); [lia|]. f_equal. lia. }
  set (free := map (fun k => (k, sz k)) (filter (fun k => negb (memb k out)) (seq 0 N))).
  assert (Hperm : Permutation (map (fun l => (l, label_size_of LO l)) (filter (fun l => negb (memb l outs)) (op_labels LO))) free).
  { transitivity (map (fun l => (l, label_size_of LO l)) (filter (fun k => negb (memb k out)) (seq 0 N))).
    - apply Permutation_map. apply NoDup_Permutation.
      + apply NoDup_filter, NoDup_nodup.
      + apply NoDup_filter, seq_NoDup.
      + intros l. rewrite !filter_In, !negb_true_iff, !memb_false. unfold outs. rewrite in_app_iff, in_down_keys, in_seq.
        split.
        * intros [H1 H2]. apply in_lab_labels in H1 as [[q [Hq Hl]]|[j [q [-> [Hq Hj]]]]].
          -- destruct (ops_fit q Hq) as (_ & Hb & _). specialize (Hb l Hl). split; [lia|]. tauto.
          -- exfalso. apply H2. left. assert (plates_of q <= M) by (apply list_max_ge; now apply in_map). lia.
        * intros [H1 H2]. split.
          -- apply in_lab_labels. left. apply HC. lia.
          -- intros [H|H]; [lia|contradiction].
    - unfold free. erewrite map_ext_in; [reflexivity|]. intros k Hk. apply filter_In in Hk as [Hk _]. apply in_seq in Hk.
      cbn beta. f_equal. apply key_size; [lia|apply HR; lia]. }
  rewrite (itersum_perm _ _ _ Hperm).
  2:{ rewrite map_map. cbn [fst]. rewrite map_id. apply NoDup_filter, NoDup_nodup. }
  transitivity (itersum free (prod_entries ops p) B).
  - apply itersum_ext. intros e' He' _. unfold LO. rewrite einsum_term_lab by (intros q Hq; apply (ops_fit q Hq)).
    apply prod_entries_ext. intros q Hq. apply entry_ext'; [|reflexivity]. intros j Hj. cbn beta.
    assert (Hjq : j < plates_of q).
    { destruct (Nat.lt_ge_cases j (plates_of q)); [assumption|exfalso; apply Hj]. apply ax_overflow.
      unfold plates_of, ndim in *. destruct (ops_fit q Hq) as [Hl _]. unfold ndim in Hl. lia. }
    assert (HjM : j < M).
    { assert (plates_of q <= M) by (apply list_max_ge; now apply in_map). lia. }
    rewrite He'.
    + apply HB2; [|assumption]. intros _ E. apply Hj. apply (unit_label_plate j); [intros _; exact E|assumption].
    + unfold free. rewrite map_map. cbn [fst]. rewrite map_id. intros H. apply filter_In in H as [H _]. apply in_seq in H. lia.
  - apply (reads_itersum_free (seq 0 N)).
    + apply prod_entries_reads. intros q k Hq Hk. apply in_seq. destruct (ops_fit q Hq) as (_ & Hb & _). specialize (Hb k Hk). lia.
    + intros k Hk Hn. apply HB1. apply in_seq in Hk. unfold free in Hn. rewrite map_map in Hn. cbn [fst] in Hn. rewrite map_id in Hn.
      destruct (memb k out) eqn:E; [now apply memb_In|]. exfalso. apply Hn. apply filter_In. rewrite in_seq, E. auto with arith.
Qed.
End Value.

(** Moving the inner sums to the message. *)
Open Scope R_scope.
Lemma inner_factor : forall (S sr : nat -> nat) (I : list nat) T e, NoDup I ->
  (forall l, In l I -> sr l = S l \/ (sr l = 1%nat /\ indep l T)) ->
  itersum (map (fun l => (l, S l)) I) T e =
  lprod (map (fun l => if (sr l =? S l)%nat then 1 else INR (S l)) I) * itersum (map (fun l => (l, sr l)) I) T e.
Proof.
  intros S sr I T. induction I as [|l I IH]; intros e ND H; [cbn; ring|].
  inversion ND as [|? ? Hl ND']; subst. cbn [map]. rewrite !itersum_cons.
  assert (IH' : forall e, itersum (map (fun l => (l, S l)) I) T e =
    lprod (map (fun l => if (sr l =? S l)%nat then 1 else INR (S l)) I) * itersum (map (fun l => (l, sr l)) I) T e).
  { intros e'. apply IH; [assumption|]. intros l' Hl'. apply H. now right. }
  unfold sumax at 1. rewrite (rsum_ext _ _ (fun x => lprod (map (fun l => if (sr l =? S l)%nat then 1 else INR (S l)) I) *
    itersum (map (fun l => (l, sr l)) I) T (upd e l x))) by (intros; apply IH').
  change (lprod (?a :: ?b)) with (a * lprod b). set (C := lprod _).
  replace (rsum (S l) (fun x => C * itersum (map (fun l0 => (l0, sr l0)) I) T (upd e l x)))
    with (C * sumax l (S l) (itersum (map (fun l0 => (l0, sr l0)) I) T) e).
  2:{ unfold sumax. induction (S l) as [|n IHn]; [cbn; ring|]. cbn [rsum]. rewrite <- IHn. ring. }
  destruct (Nat.eqb_spec (sr l) (S l)) as [E|E].
  - rewrite E. ring.
  - destruct (H l (or_introl eq_refl)) as [E'|[E1 Hi]]; [contradiction|].
    assert (Hind : indep l (itersum (map (fun l0 => (l0, sr l0)) I) T)) by now apply itersum_indep.
    rewrite E1. rewrite sumax_const by assumption. rewrite sumax_1 by assumption. ring.
Qed.

Lemma message_sum : forall (A : list nat) (outer : nat -> bool) (S sr : nat -> nat) (T U : env -> R) e,
  NoDup A -> (forall l, In l A -> outer l = false -> indep l U) ->
  (forall l, In l A -> outer l = false -> sr l = S l \/ (sr l = 1%nat /\ indep l T)) ->
  itersum (map (fun l => (l, S l)) A) (fun e => T e * U e) e =
  lprod (map (fun l => if (sr l =? S l)%nat then 1 else INR (S l)) (filter (fun l => negb (outer l)) A)) *
  itersum (map (fun l => (l, S l)) (filter outer A))
    (fun e => itersum (map (fun l => (l, sr l)) (filter (fun l => negb (outer l)) A)) T e * U e) e.
Proof.
  intros A outer S sr T U e ND HU HT.
  assert (Hf : forall p : nat -> bool, filter (fun x => p (fst x)) (map (fun l => (l, S l)) A) = map (fun l => (l, S l)) (filter p A)).
  { intros p. clear. induction A as [|l A IH]; [reflexivity|]. cbn [map filter fst]. destruct (p l); cbn [map]; now rewrite IH. }
  rewrite (itersum_split (fun x => outer (fst x))) by (rewrite map_map; cbn [fst]; now rewrite map_id).
  rewrite (Hf outer), (Hf (fun l => negb (outer l))).
  rewrite <- itersum_scal. apply itersum_ext_all. intros e'.
  rewrite itersum_mul_l.
  - rewrite (inner_factor S sr); [ring|now apply NoDup_filter|].
    intros l Hl. apply filter_In in Hl as [Hl E]. apply negb_true_iff in E. now apply HT.
  - intros k Hk. rewrite map_map in Hk. cbn [fst] in Hk. rewrite map_id in Hk. apply filter_In in Hk as [Hk E].
    apply negb_true_iff in E. now apply HU.
Qed.
