(** A general reading of einsum: sizes of labels, shape, value. *)
From Coq Require Import List Arith ZArith Lia Bool Reals Lra Permutation FunctionalExtensionality.
From Verif Require Import Base Shapes SpecShapes ShapesLemmas NumPy MiscArray TensorLemmas EinsumLemmas.
Import ListNotations.
Open Scope nat_scope.

Lemma mapM_pair : forall A B (f : A -> res B) l sizes,
  mapM (fun l => d <- f l ;; Ok (l, d)) l = Ok sizes ->
  map fst sizes = l /\ forall q, In q sizes -> f (fst q) = Ok (snd q).
Proof.
  intros A B f. induction l as [|a l IH]; intros sizes H; simpl in H.
  - injection H as <-. split; [reflexivity|intros q []].
  - apply bind_ok in H as [q [Hq H]]. apply bind_ok in Hq as [d [Hd Hq]]. injection Hq as <-.
    apply bind_ok in H as [r [Hr H]]. injection H as <-.
    destruct (IH r Hr) as [H1 H2]. split; [simpl; f_equal; exact H1|].
    intros q [<-|Hq]; [exact Hd|auto].
Qed.

Lemma mapM_pair_ok : forall A B (f : A -> res B) l,
  (forall a, In a l -> exists b, f a = Ok b) ->
  exists sizes, mapM (fun l => d <- f l ;; Ok (l, d)) l = Ok sizes.
Proof.
  intros A B f. induction l as [|a l IH]; intros H; simpl; [eauto|].
  destruct (H a (or_introl eq_refl)) as [b ->].
  destruct IH as [s ->]; [intros; apply H; now right|]. simpl. eauto.
Qed.

Definition label_size_of (ops : list (arr R * list nat)) (l : nat) : nat :=
  match bdim (label_dims ops l) with Ok d => d | Err _ => 0 end.

Lemma nodup_length_NoDup : forall l : list nat,
  length (nodup Nat.eq_dec l) = length l -> NoDup l.
Proof.
  induction l as [|a l IH]; intro H; [constructor|]. simpl in H.
  destruct (in_dec Nat.eq_dec a l) as [I|I].
  - exfalso. assert (length (nodup Nat.eq_dec l) <= length l).
    { clear. induction l as [|b l IH]; simpl; [lia|]. destruct (in_dec _ b l); simpl; lia. }
    lia.
  - simpl in H. constructor; [exact I|]. apply IH. lia.
Qed.

Lemma NoDup_nodup_length : forall l : list nat, NoDup l -> length (nodup Nat.eq_dec l) = length l.
Proof. intros l H. now rewrite nodup_fixed_point. Qed.

Lemma find_fst : forall (sizes : list (nat * nat)) l,
  In l (map fst sizes) -> exists q, find (fun q => (fst q =? l)) sizes = Some q /\ In q sizes /\ fst q = l.
Proof.
  intros sizes l H. destruct (find _ sizes) as [q|] eqn:E.
  - exists q. apply find_some in E as [E1 E2]. apply Nat.eqb_eq in E2. auto.
  - apply in_map_iff in H as [q [<- Hq]].
    pose proof (find_none _ _ E q Hq) as N. simpl in N. rewrite Nat.eqb_refl in N. discriminate.
Qed.

Theorem einsum_ok : forall ops out y, einsum ops out = Ok y ->
  (forall p, In p ops -> length (snd p) = ndim (fst p)) /\
  incl out (op_labels ops) /\ NoDup out /\
  (forall l, In l (op_labels ops) -> bdim (label_dims ops l) = Ok (label_size_of ops l)) /\
  ash y = map (label_size_of ops) out /\
  (forall e, aget y e =
     itersum (map (fun l => (l, label_size_of ops l))
                  (filter (fun l => negb (memb l out)) (op_labels ops)))
             (einsum_term ops) (assign (rev out) e)).
Proof.
  intros ops out y H. unfold einsum in H.
  destruct (forallb _ ops) eqn:E1; [|discriminate].
  destruct (forallb _ out) eqn:E2; [|discriminate].
  destruct (length _ =? length out) eqn:E3; [|discriminate]. cbn [andb] in H.
  apply bind_ok in H as [sizes [Hs H]]. injection H as <-.
  apply mapM_pair in Hs as [Hf Hv].
  rewrite forallb_forall in E1, E2.
  assert (Hsz : forall q, In q sizes -> snd q = label_size_of ops (fst q)).
  { intros q Hq. unfold label_size_of. now rewrite (Hv q Hq). }
  assert (Hall : sizes = map (fun l => (l, label_size_of ops l)) (op_labels ops)).
  { rewrite <- Hf, map_map. rewrite <- (map_id sizes) at 1. apply map_ext_in.
    intros [a b] Hq. simpl. f_equal. apply (Hsz (a, b) Hq). }
  split; [intros p Hp; apply Nat.eqb_eq; now apply E1|].
  split; [intros l Hl; apply memb_In; now apply E2|].
  split; [apply nodup_length_NoDup; now apply Nat.eqb_eq|].
  split.
  { intros l Hl. rewrite <- Hf in Hl. apply in_map_iff in Hl as [q [<- Hq]].
    rewrite (Hv q Hq). now rewrite <- Hsz. }
  cbn [ash aget]. split.
  - apply map_ext_in. intros l Hl.
    assert (Hl' : In l (map fst sizes)) by (rewrite Hf; apply memb_In; now apply E2).
    destruct (find_fst sizes l Hl') as [q [-> [Hq <-]]]. now apply Hsz.
  - intro e. f_equal. rewrite Hall.
    generalize (op_labels ops). intro ls. induction ls as [|l ls IH]; [reflexivity|].
    simpl. destruct (negb (memb l out)); simpl; now rewrite IH.
Qed.

Theorem einsum_total : forall ops out,
  (forall p, In p ops -> length (snd p) = ndim (fst p)) ->
  incl out (op_labels ops) -> NoDup out ->
  (forall l, In l (op_labels ops) -> exists d, bdim (label_dims ops l) = Ok d) ->
  exists y, einsum ops out = Ok y.
Proof.
  intros ops out H1 H2 H3 H4. unfold einsum.
  assert (forallb (fun p => length (snd p) =? ndim (fst p)) ops = true) as ->.
  { apply forallb_forall. intros p Hp. apply Nat.eqb_eq. auto. }
  assert (forallb (fun l => memb l (op_labels ops)) out = true) as ->.
  { apply forallb_forall. intros l Hl. apply memb_In. auto. }
  rewrite (NoDup_nodup_length _ H3), Nat.eqb_refl. cbn [andb].
  destruct (mapM_pair_ok _ _ (fun l => bdim (label_dims ops l)) (op_labels ops) H4) as [s ->].
  cbn [bind]. eauto.
Qed.

Lemma in_op_labels : forall ops l, In l (op_labels ops) <-> exists p, In p ops /\ In l (snd p).
Proof.
  intros ops l. unfold op_labels. rewrite nodup_In, in_concat. split.
  - intros [x [Hx Hl]]. apply in_map_iff in Hx as [p [<- Hp]]. eauto.
  - intros [p [Hp Hl]]. exists (snd p). split; [apply in_map; exact Hp|exact Hl].
Qed.

Lemma in_label_dims : forall ops l d,
  In d (label_dims ops l) <->
  exists p i, In p ops /\ nth_error (snd p) i = Some l /\ nth_error (ash (fst p)) i = Some d.
Proof.
  intros ops l d. unfold label_dims. rewrite in_concat.
  assert (C : forall (ls : list nat) (s : list nat) a b,
    In (a, b) (combine ls s) <-> exists i, nth_error ls i = Some a /\ nth_error s i = Some b).
  { induction ls as [|x ls IH]; intros s a b; simpl.
    - split; [intros []|intros [i [H _]]; destruct i; discriminate].
    - destruct s as [|z s]; simpl.
      + split; [intros []|intros [i [_ H]]; destruct i; discriminate].
      + rewrite IH. split.
        * intros [E|[i [A B]]]; [injection E as -> ->; exists 0; auto|exists (S i); auto].
        * intros [[|i] [A B]]; [left; simpl in *; congruence|right; exists i; auto]. }
  split.
  - intros [x [Hx Hd]]. apply in_map_iff in Hx as [p [<- Hp]].
    apply in_map_iff in Hd as [[a b] [E Hq]]. simpl in E. subst b.
    apply filter_In in Hq as [Hq E]. simpl in E. apply Nat.eqb_eq in E. subst a.
    apply C in Hq as [i [A B]]. exists p, i. auto.
  - intros [p [i [Hp [A B]]]].
    eexists. split; [apply in_map_iff; exists p; split; [reflexivity|exact Hp]|].
    apply in_map_iff. exists (l, d). split; [reflexivity|]. apply filter_In. split.
    + apply C. exists i. auto.
    + simpl. apply Nat.eqb_refl.
Qed.

(** Labels in terms of axes counted from the end. *)
Lemma nth_error_rev_ax : forall (ls : list nat) (s : shape) k, length ls = length s ->
  k < length s ->
  nth_error ls (length s - 1 - k) = Some (nth k (rev ls) 0) /\
  nth_error s (length s - 1 - k) = Some (ax s k).
Proof.
  intros ls s k HL Hk. split.
  - rewrite rev_nth by lia. rewrite HL.
    replace (length s - S k) with (length s - 1 - k) by lia. apply nth_error_nth'. lia.
  - rewrite (nth_error_ax [] s (length s - 1 - k)) by lia. f_equal. f_equal. lia.
Qed.

Lemma index_of_nth : forall names j, NoDup names -> j < length names ->
  index_of (nth j names 0) names = Some j.
Proof.
  induction names as [|x r IH]; intros j ND Hj; [simpl in Hj; lia|].
  inversion ND as [|? ? Hx ND']; subst. destruct j as [|j]; simpl.
  - now rewrite Nat.eqb_refl.
  - simpl in Hj. destruct (Nat.eqb_spec x (nth j r 0)) as [E|E].
    + exfalso. apply Hx. rewrite E. apply nth_In. lia.
    + rewrite IH by (auto; lia). reflexivity.
Qed.

Lemma assign_nth : forall names e j, NoDup names -> j < length names ->
  assign names e (nth j names 0) = e j.
Proof. intros. unfold assign. now rewrite index_of_nth. Qed.

Lemma itersum_nil : forall F e, itersum [] F e = F e.
Proof. reflexivity. Qed.
