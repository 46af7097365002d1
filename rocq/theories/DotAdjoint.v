(** The node's moment against the message of the children, as one sum over labels. *)
From Coq Require Import List Arith ZArith Lia Bool Reals Lra Permutation FunctionalExtensionality.
From Verif Require Import Base Shapes SpecShapes ShapesLemmas NumPy MiscArray SpecArray TensorLemmas
  EinsumLemmas EinsumGen PlateSumLemmas PlateSum2Lemmas MessageLemmas NetworkLemmas ExpFamBound PGate Dot DotEinsum DotSum DotMessage.
Import ListNotations.
Open Scope nat_scope.

(** Sum over the axes of an output as a sum over its keys. *)
Lemma total_keys : forall (sz : nat -> nat) out (G : env -> R), NoDup out ->
  reads (seq 0 (length out)) G ->
  total (map sz out) G = itersum (map (fun k => (k, sz k)) (rev out)) (fun L => G (at_index (map L out))) env0.
Proof.
  intros sz out G HN HG. rewrite total_iter, map_length.
  set (f := fun i => nth i (rev out) 0).
  assert (E : map (fun k => (k, ax (map sz out) k)) (seq 0 (length out)) = map (fun i => (i, sz (f i))) (seq 0 (length out))).
  { apply map_ext_in. intros i Hi. apply in_seq in Hi. f_equal. unfold ax. rewrite <- map_rev.
    rewrite (nth_indep _ 1 (sz 0)) by (rewrite map_length, rev_length; lia). apply map_nth. }
  rewrite E. pose proof (itersum_rename_on f (seq 0 (length out)) (fun i => sz (f i)) G (seq 0 (length out)) env0 HG) as H.
  change (fun k => env0 (f k)) with env0 in H. rewrite <- H.
  - assert (E2 : map (fun k => (f k, sz (f k))) (seq 0 (length out)) = map (fun k => (k, sz k)) (rev out)).
    { rewrite <- (map_map f (fun k => (k, sz k))). f_equal. unfold f.
      rewrite <- (rev_length out). generalize (rev out). clear. intros l.
      apply (nth_ext _ _ 0 0); [now rewrite map_length, seq_length|].
      intros n Hn. rewrite map_length, seq_length in Hn.
      rewrite (nth_indep _ 0 (nth 0 l 0)) by (rewrite map_length, seq_length; lia).
      rewrite (map_nth (fun k => nth k l 0)). now rewrite seq_nth by lia. }
    rewrite E2. apply itersum_ext_all. intros L. apply HG. intros k Hk. apply in_seq in Hk.
    symmetry. apply at_index_map. lia.
  - intros a b Ha Hb Ef. apply in_seq in Ha, Hb. unfold f in Ef.
    apply (proj1 (NoDup_nth (rev out) 0) (NoDup_rev HN)); rewrite ?rev_length; try lia; assumption.
  - intros x Hx. exact Hx.
Qed.

Section Adj.
Variables (P : shape) (N : nat) (sz : nat -> nat) (base : nat).
Hypothesis base_ok : N <= base.

(** Plates and keys as labels. *)
Lemma total_labels : forall (H : env -> env -> R),
  (forall p, reads (seq 0 N) (H p)) -> (forall L, reads (seq 0 (length P)) (fun p => H p L)) ->
  total P (fun p => itersum (map (fun k => (k, sz k)) (seq 0 N)) (H p) env0) =
  itersum (map (fun l => (l, fsize P N sz base l)) (labels P N base)) (fun Lab => H (fun j => Lab (base + j)) Lab) env0.
Proof.
  intros H HL HP. rewrite total_iter.
  set (Q := fun p => itersum (map (fun k => (k, sz k)) (seq 0 N)) (H p) env0).
  pose proof (itersum_rename_on (Nat.add base) (seq 0 (length P)) (fun j => ax P j) Q (seq 0 (length P)) env0) as HR.
  change (fun k => env0 (base + k)) with env0 in HR. rewrite <- HR; clear HR.
  - unfold labels. rewrite map_app.
    rewrite (itersum_perm (map _ (seq 0 N) ++ map _ _) (map (fun l => (l, fsize P N sz base l)) (map (Nat.add base) (seq 0 (length P))) ++
      map (fun l => (l, fsize P N sz base l)) (seq 0 N))).
    2:{ apply Permutation_app_comm. }
    2:{ rewrite <- map_app, map_map. cbn [fst]. rewrite map_id. exact (labels_nodup P N base [] [] base_ok eq_refl). }
    rewrite itersum_app.
    assert (E1 : map (fun l => (l, fsize P N sz base l)) (map (Nat.add base) (seq 0 (length P))) = map (fun j => (base + j, ax P j)) (seq 0 (length P))).
    { rewrite map_map. apply map_ext_in. intros j Hj. f_equal. unfold fsize. destruct (Nat.ltb_spec (base + j) N); [lia|]. f_equal. lia. }
    assert (E2 : map (fun l => (l, fsize P N sz base l)) (seq 0 N) = map (fun k => (k, sz k)) (seq 0 N)).
    { apply map_ext_in. intros k Hk. apply in_seq in Hk. f_equal. unfold fsize. destruct (Nat.ltb_spec k N); [reflexivity|lia]. }
    rewrite E1, E2. apply itersum_ext_all. intros Lab. unfold Q.
    transitivity (itersum (map (fun k => (k, sz k)) (seq 0 N)) (H (fun j => Lab (base + j))) Lab).
    + apply (reads_itersum_free (seq 0 N)); [apply HL|]. intros k Hk Hn. exfalso. apply Hn.
      rewrite map_map. cbn [fst]. now rewrite map_id.
    + apply itersum_ext. intros e' He' _. apply HP. intros j Hj. symmetry. apply He'.
      rewrite map_map. cbn [fst]. rewrite map_id. intros Hc. apply in_seq in Hc. lia.
  - intros p p' Hp. unfold Q. apply itersum_ext_all. intros L. now apply HP.
  - intros a b _ _. lia.
  - intros x Hx; exact Hx.
Qed.

Variables (out : list nat) (m : arr R) (all : list (arr R * list nat)) (y : arr R).
Hypothesis out_nodup : NoDup out.
Hypothesis out_lt : forall k, In k out -> k < N.
Hypothesis all_fit : forall q, In q all -> op_fits P N sz q.
Hypothesis all_plates : forall q, In q all -> plates_of q <= length P.
Hypothesis m_plates : ndim m - length out <= length P.
Hypothesis y_val : forall p L, (forall j, ax P j <> 1 -> p j < ax P j) -> (forall k, In k out -> L k < sz k) ->
      entry out y p L =
      itersum (map (fun k => (k, sz k)) (filter (fun k => negb (memb k out)) (seq 0 N))) (prod_entries all p) L.

Lemma node_total :
  total (P ++ map sz out) (fun e => bget m e * bget y e)%R =
  itersum (map (fun l => (l, fsize P N sz base l)) (labels P N base))
    (fun Lab => entry out m (fun j => Lab (base + j)%nat) Lab * prod_entries all (fun j => Lab (base + j)%nat) Lab)%R env0.
Proof.
  rewrite <- (total_labels (fun p L => entry out m p L * prod_entries all p L)%R).
  - rewrite total_app, map_length. apply total_ext. intros p Hp.
    assert (Hp' : forall j, ax P j <> 1 -> p j < ax P j) by (intros j _; apply Hp).
    rewrite total_keys; [|assumption|].
    2:{ intros L L' HL. assert (E : forall a : arr R, bget a (join (length out) p L) = bget a (join (length out) p L')).
        { intros a. apply bget_ext. intros k _ _. unfold join. destruct (Nat.ltb_spec k (length out)); [|reflexivity].
          apply HL. apply in_seq. lia. }
        now rewrite !E. }
    transitivity (itersum (map (fun k => (k, sz k)) (rev out)) (fun L => entry out m p L *
      itersum (map (fun k => (k, sz k)) (filter (fun k => negb (memb k out)) (seq 0 N))) (prod_entries all p) L)%R env0).
    + apply itersum_ext. intros L _ HL.
      change (entry out m p L * entry out y p L = entry out m p L *
        itersum (map (fun k => (k, sz k)) (filter (fun k => negb (memb k out)) (seq 0 N))) (prod_entries all p) L)%R.
      f_equal. apply y_val; [assumption|]. intros k Hk.
      destruct (HL k (sz k)) as [X|[n [Hn X]]]; [apply in_map_iff; exists k; split; [reflexivity|now apply -> in_rev]|assumption|].
      apply in_map_iff in Hn as [k' [E _]]. injection E as -> <-. assumption.
    + rewrite (itersum_ext_all _ _ (itersum (map (fun k => (k, sz k)) (filter (fun k => negb (memb k out)) (seq 0 N))) (fun L => entry out m p L * prod_entries all p L)%R)).
      2:{ intros L. rewrite itersum_mul_r; [reflexivity|]. intros k Hk. rewrite map_map in Hk. cbn [fst] in Hk. rewrite map_id in Hk.
          apply filter_In in Hk as [_ Hk]. apply negb_true_iff, memb_false in Hk. intros L' x. apply entry_ext; [reflexivity|].
          intros j Hj. apply upd_other. congruence. }
      rewrite <- itersum_app, <- map_app. apply itersum_perm.
      2:{ rewrite map_map. cbn [fst]. rewrite map_id. apply NoDup_app_intro; [now apply NoDup_rev|apply NoDup_filter, seq_NoDup|].
          intros x H1 H2. apply in_rev in H1. apply filter_In in H2 as [_ H2]. apply negb_true_iff, memb_false in H2. contradiction. }
      apply Permutation_map. apply NoDup_Permutation; [|apply seq_NoDup|].
      * apply NoDup_app_intro; [now apply NoDup_rev|apply NoDup_filter, seq_NoDup|].
        intros x H1 H2. apply in_rev in H1. apply filter_In in H2 as [_ H2]. apply negb_true_iff, memb_false in H2. contradiction.
      * intros x. rewrite in_app_iff, <- in_rev, filter_In, in_seq. split.
        -- intros [H|[H _]]; [specialize (out_lt x H); lia|lia].
        -- intros H. destruct (memb x out) eqn:E; [left; now apply memb_In|right; auto].
  - intros p L L' HL. f_equal.
    + apply entry_ext; [reflexivity|]. intros k Hk. apply HL. apply in_seq. specialize (out_lt k Hk). lia.
    + apply prod_entries_ext. intros q Hq. apply entry_ext; [reflexivity|]. intros k Hk. apply HL. apply in_seq.
      destruct (all_fit q Hq) as (_ & Hb & _). specialize (Hb k Hk). lia.
  - intros L p p' Hp. f_equal.
    + apply entry_ext; [|reflexivity]. intros k Hk. apply Hp. apply in_seq. lia.
    + apply prod_entries_ext. intros q Hq. apply entry_ext; [|reflexivity]. intros k Hk. apply Hp. apply in_seq.
      specialize (all_plates q Hq). unfold plates_of in all_plates. lia.
Qed.
End Adj.
