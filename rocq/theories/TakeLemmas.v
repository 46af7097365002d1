(** Lemmas for C14: np.take and misc.put_simple. *)
From Coq Require Import List Arith ZArith Lia Bool Reals Lra FunctionalExtensionality.
From Verif Require Import Base Shapes SpecShapes ShapesLemmas NumPy MiscArray TensorLemmas
  SpecArray SpecIndex PlateSumLemmas ShapeOpsLemmas MessageLemmas EinsumLemmas Reindex TakeConcat.
Import ListNotations.
Open Scope nat_scope.

Lemma ax_lastn : forall K s k, ax (lastn K s) k = if k <? K then ax s k else 1.
Proof.
  intros K s k. unfold lastn. destruct (Nat.ltb_spec k K) as [H|H].
  - replace (ax s k) with (ax (firstn (length s - K) s ++ skipn (length s - K) s) k) by now rewrite firstn_skipn.
    rewrite ax_app, skipn_length. destruct (Nat.ltb_spec k (length s - (length s - K))); [reflexivity|].
    rewrite !ax_overflow; [reflexivity|rewrite firstn_length; lia|rewrite skipn_length; lia].
  - apply ax_overflow. rewrite skipn_length. lia.
Qed.
Lemma ax_butlast : forall K s k, ax (butlast K s) k = ax s (K + k).
Proof.
  intros K s k. unfold butlast. destruct (Nat.le_gt_cases K (length s)) as [H|H].
  - replace (ax s (K + k)) with (ax (firstn (length s - K) s ++ skipn (length s - K) s) (K + k)) by now rewrite firstn_skipn.
    rewrite ax_app, skipn_length. replace (length s - (length s - K)) with K by lia.
    destruct (Nat.ltb_spec (K + k) K); [lia|]. f_equal. lia.
  - replace (length s - K) with 0 by lia. cbn [firstn]. rewrite !ax_overflow; [reflexivity|lia|cbn; lia].
Qed.
Lemma lastn_length : forall A K (s : list A), K <= length s -> length (lastn K s) = K.
Proof. intros. unfold lastn. rewrite skipn_length. lia. Qed.
Lemma butlast_length : forall A K (s : list A), length (butlast K s) = length s - K.
Proof. intros. unfold butlast. rewrite firstn_length. lia. Qed.

Lemma butlast_app : forall A (p q : list A), butlast (length q) (p ++ q) = p.
Proof. intros. unfold butlast. rewrite app_length, Nat.add_sub, firstn_app, Nat.sub_diag, firstn_all. apply app_nil_r. Qed.
Lemma lastn_app : forall A (p q : list A), lastn (length q) (p ++ q) = q.
Proof. intros. unfold lastn. rewrite app_length, Nat.add_sub, skipn_app, Nat.sub_diag, skipn_all. reflexivity. Qed.

(** The shape where axis K is replaced by the axes I. *)
Lemma ax_replace : forall K s I k, K <= length s ->
  ax (butlast (S K) s ++ I ++ lastn K s) k =
  if k <? K then ax s k else if k <? K + length I then ax I (k - K) else ax s (S k - length I).
Proof.
  intros K s I k H. rewrite !ax_app, ax_lastn, ax_butlast, app_length, lastn_length by lia.
  destruct (Nat.ltb_spec k K); destruct (Nat.ltb_spec k (length I + K)); destruct (Nat.ltb_spec k (K + length I)); try lia; try reflexivity.
  f_equal. lia.
Qed.

Lemma all_ok_spec : forall n ix, all_ok n ix = true <->
  (forall e, Forall2 lt e (ash ix) -> index_ok n (bget ix (at_index e)) = true).
Proof.
  intros n ix. unfold all_ok. rewrite forallb_forall, all_indices_lists. split.
  - intros H e He. apply H. apply in_map. now apply in_lists.
  - intros H e He. apply in_map_iff in He as (t & <- & Ht). apply H. now apply in_lists.
Qed.
Lemma wrap_lt : forall n i, index_ok n i = true -> wrap n i < n.
Proof.
  intros n i H. unfold index_ok in H. apply andb_true_iff in H as [H1 H2]. apply Z.leb_le in H1. apply Z.ltb_lt in H2.
  unfold wrap. destruct (Z.ltb_spec i 0); lia.
Qed.

Lemma take_ok : forall a ix K, K < ndim a -> all_ok (ax (ash a) K) ix = true ->
  exists x, np_take a ix K = Ok x /\ ash x = butlast (S K) (ash a) ++ ash ix ++ lastn K (ash a) /\
    forall e, (forall k, k < ndim ix -> ax (ash ix) k = 1 -> e (K + k) = 0) ->
      bget x e = bget a (take_src K (ndim ix) (ax (ash a) K) ix e).
Proof.
  intros a ix K HK HO. unfold np_take. apply Nat.ltb_lt in HK as HK'. rewrite HK', HO. eexists.
  split; [reflexivity|]. split; [reflexivity|]. intros e Z. unfold bget at 1. cbn [ash aget]. apply bget_ext. intros k Hk N.
  unfold ndim in *. unfold take_src, clip. rewrite ax_replace by lia.
  destruct (Nat.ltb_spec k K) as [L|L].
  - apply Nat.eqb_neq in N. now rewrite N.
  - destruct (Nat.eqb_spec k K) as [->|NE].
    + f_equal. apply bget_ext. intros j Hj Nj. rewrite ax_replace by lia.
      destruct (Nat.ltb_spec (K + j) K); [lia|]. destruct (Nat.ltb_spec (K + j) (K + length (ash ix))); [|lia].
      replace (K + j - K) with j by lia. apply Nat.eqb_neq in Nj. now rewrite Nj.
    + rewrite ax_replace by lia. destruct (Nat.ltb_spec (k + length (ash ix) - 1) K); [lia|].
      destruct (Nat.ltb_spec (k + length (ash ix) - 1) (K + length (ash ix))); [lia|].
      replace (S (k + length (ash ix) - 1) - length (ash ix)) with k by lia.
      apply Nat.eqb_neq in N. now rewrite N.
Qed.

Lemma atleast_ok : forall A (x : arr A) d, exists y, atleast_nd x d = Ok y /\
  length (ash y) = Nat.max d (ndim x) /\ (forall k, ax (ash y) k = ax (ash x) k) /\
  forall e, (forall k, ax (ash x) k <> 1 -> e k < ax (ash x) k) -> bget y e = bget x e.
Proof.
  intros A x d. unfold atleast_nd. destruct (Nat.ltb_spec (ndim x) d) as [H|H].
  - assert (AX : forall k, ax (repeat 1 (d - ndim x) ++ ash x) k = ax (ash x) k).
    { intros k. apply ax_repeat_units. }
    destruct (reshape_leading A x (repeat 1 (d - ndim x) ++ ash x) AX) as (y & E & S & B).
    exists y. split; [exact E|]. rewrite S. split; [rewrite app_length, repeat_length; unfold ndim in *; lia|].
    split; [exact AX|]. intros e He. apply B. intros k. rewrite AX. apply He.
  - exists x. split; [reflexivity|]. split; [unfold ndim in *; lia|]. split; reflexivity.
Qed.

Lemma put_simple_ok : forall A W ix N m, all_ok N ix = true ->
  broadcasts_to (ash m) (A ++ ash ix ++ W) ->
  exists y, put_simple m ix (length W) N = Ok y /\ broadcasts_to (ash y) (A ++ [N] ++ W) /\
    forall t, valid (A ++ [N] ++ W) t ->
      bget y t = lsum (map (fun e => if wrap N (bget ix e) =? t (length W)
                                     then bget m (put_src (length W) (ndim ix) t e) else 0%R) (all_indices (ash ix))).
Proof.
  intros A W ix N m HO [HL HB]. unfold put_simple. set (K := length W) in *.
  destruct (atleast_ok R m K) as (m' & E & L & AX & BG). rewrite E. cbn [bind].
  set (s := ash m') in *.
  assert (Esx : (if K + ndim ix =? 0 then s ++ [N] else if K =? 0 then butlast (ndim ix) s ++ [N]
                 else butlast (K + ndim ix) s ++ [N] ++ lastn K s) = butlast (K + ndim ix) s ++ [N] ++ lastn K s).
  { destruct (Nat.eqb_spec (K + ndim ix) 0) as [Z|Z].
    - replace K with 0 by lia. replace (ndim ix) with 0 by lia. unfold butlast, lastn. cbn [Nat.add].
      rewrite Nat.sub_0_r, firstn_all, skipn_all. reflexivity.
    - destruct (Nat.eqb_spec K 0) as [->|]; [|reflexivity]. unfold lastn. rewrite Nat.sub_0_r, skipn_all. reflexivity. }
  rewrite Esx. clear Esx. set (sx := butlast (K + ndim ix) s ++ [N] ++ lastn K s).
  assert (KL : K <= length s) by lia.
  assert (Lsx : length sx = length s - (K + ndim ix) + 1 + K).
  { unfold sx. rewrite !app_length, butlast_length, lastn_length by exact KL. cbn. lia. }
  assert (AXS : forall k, ax sx k = if k <? K then ax s k else if k =? K then N else ax s (k + ndim ix - 1)).
  { intros k. unfold sx. rewrite !ax_app, app_length, lastn_length by exact KL. cbn [length].
    destruct (Nat.ltb_spec k K); destruct (Nat.ltb_spec k (1 + K)); try lia.
    - rewrite ax_lastn. apply Nat.ltb_lt in H. now rewrite H.
    - destruct (Nat.eqb_spec k K) as [->|]; [|lia]. now rewrite Nat.sub_diag.
    - destruct (Nat.eqb_spec k K); [lia|]. rewrite ax_butlast. f_equal. lia. }
  assert (AXT : forall k, ax (A ++ [N] ++ W) k = if k <? K then ax W k else if k =? K then N else ax A (k - S K)).
  { intros k. rewrite !ax_app, app_length. cbn [length]. fold K.
    destruct (Nat.ltb_spec k K); destruct (Nat.ltb_spec k (1 + K)); try lia; try reflexivity.
    - destruct (Nat.eqb_spec k K) as [->|]; [|lia]. now rewrite Nat.sub_diag.
    - destruct (Nat.eqb_spec k K); [lia|]. f_equal. }
  assert (AXQ : forall k, ax (A ++ ash ix ++ W) k = if k <? K then ax W k else if k <? K + ndim ix then ax (ash ix) (k - K) else ax A (k - (K + ndim ix))).
  { intros k. rewrite !ax_app, app_length. fold K. unfold ndim.
    destruct (Nat.ltb_spec k K); destruct (Nat.ltb_spec k (length (ash ix) + K)); destruct (Nat.ltb_spec k (K + length (ash ix))); try lia; try reflexivity.
    f_equal. lia. }
  unfold put, ndim at 1. cbn [ash np_zeros]. rewrite Lsx.
  destruct (Nat.ltb_spec K (length s - (K + ndim ix) + 1 + K)); [|lia].
  unfold np_add_at. cbn [ash np_zeros]. rewrite AXS, Nat.ltb_irrefl, Nat.eqb_refl, HO.
  replace (is_shape_subset (ash m') (butlast (S K) sx ++ ash ix ++ lastn K sx)) with true.
  2:{ symmetry. apply is_shape_subset_spec. split.
      - rewrite !app_length, butlast_length, lastn_length by lia. fold s. unfold ndim in *. lia.
      - intros k. rewrite ax_replace by lia. fold s. fold (ndim ix).
        destruct (Nat.ltb_spec k K) as [C1|C1].
        + rewrite AXS. apply Nat.ltb_lt in C1. rewrite C1. now right.
        + destruct (Nat.ltb_spec k (K + ndim ix)) as [C2|C2].
          * rewrite AX. destruct (HB k) as [?|Q]; [now left|]. right. rewrite Q, AXQ.
            destruct (Nat.ltb_spec k K); [lia|]. apply Nat.ltb_lt in C2. now rewrite C2.
          * rewrite AXS. destruct (Nat.ltb_spec (S k - ndim ix) K); [lia|]. destruct (Nat.eqb_spec (S k - ndim ix) K); [lia|].
            right. f_equal. lia. }
  eexists. split; [reflexivity|]. cbn [ash]. split.
  - split.
    + rewrite Lsx, !app_length. cbn [length]. fold K. rewrite !app_length in HL. fold K in HL. unfold ndim in *. lia.
    + intros k. rewrite AXS, AXT. destruct (Nat.ltb_spec k K) as [C1|C1].
      * rewrite AX. destruct (HB k) as [?|Q]; [now left|]. right. rewrite Q, AXQ. apply Nat.ltb_lt in C1. now rewrite C1.
      * destruct (Nat.eqb_spec k K) as [->|NE]; [now right|]. rewrite AX.
        destruct (HB (k + ndim ix - 1)) as [?|Q]; [now left|]. right. rewrite Q, AXQ.
        destruct (Nat.ltb_spec (k + ndim ix - 1) K); [lia|]. destruct (Nat.ltb_spec (k + ndim ix - 1) (K + ndim ix)); [lia|].
        f_equal. lia.
  - intros t V. unfold bget at 1. cbn [ash aget]. unfold bget at 1. cbn [aget np_zeros]. rewrite Rplus_0_l.
    apply lsum_map_ext. intros e He.
    assert (Ve : valid (ash ix) e).
    { rewrite all_indices_lists in He. apply in_map_iff in He as (l & <- & Hl). apply in_lists in Hl.
      intros k. clear -Hl. induction Hl as [|x n l s H H' IH] in k |- *; [destruct k; cbn; lia|].
      rewrite at_index_cons, ax_cons. unfold upd. rewrite (F2_length _ _ _ _ _ H'). destruct (k =? length s); [exact H|apply IH]. }
    assert (CK : clip sx t K = t K).
    { unfold clip. rewrite AXS, Nat.ltb_irrefl, Nat.eqb_refl. destruct (Nat.eqb_spec N 1) as [->|]; [|reflexivity].
      specialize (V K). rewrite AXT, Nat.ltb_irrefl, Nat.eqb_refl in V. lia. }
    rewrite CK. destruct (wrap N (bget ix e) =? t K); [|reflexivity].
    rewrite BG.
    2:{ intros k Nk. destruct (HB k) as [?|Q]; [contradiction|]. rewrite Q, AXQ. unfold put_src, clip. rewrite !AXS.
        destruct (Nat.ltb_spec k K) as [C1|C1].
        - fold s in AX. rewrite AX. apply Nat.eqb_neq in Nk. rewrite Nk. specialize (V k). rewrite AXT in V. apply Nat.ltb_lt in C1. rewrite C1 in V. exact V.
        - destruct (Nat.ltb_spec k (K + ndim ix)) as [C2|C2]; [apply Ve|].
          destruct (Nat.ltb_spec (S k - ndim ix) K); [lia|]. destruct (Nat.eqb_spec (S k - ndim ix) K); [lia|].
          replace (S k - ndim ix + ndim ix - 1) with k by lia. fold s in AX. rewrite AX. apply Nat.eqb_neq in Nk. rewrite Nk.
          specialize (V (S k - ndim ix)). rewrite AXT in V.
          destruct (Nat.ltb_spec (S k - ndim ix) K); [lia|]. destruct (Nat.eqb_spec (S k - ndim ix) K); [lia|].
          replace (k - (K + ndim ix)) with (S k - ndim ix - S K) by lia. exact V. }
    apply bget_ext. intros k Hk Nk. unfold put_src, clip. rewrite !AXS.
    destruct (Nat.ltb_spec k K) as [C1|C1].
    + fold s in AX. rewrite AX. apply Nat.eqb_neq in Nk. now rewrite Nk.
    + destruct (Nat.ltb_spec k (K + ndim ix)) as [C2|C2]; [reflexivity|].
      destruct (Nat.ltb_spec (S k - ndim ix) K); [lia|]. destruct (Nat.eqb_spec (S k - ndim ix) K); [lia|].
      replace (S k - ndim ix + ndim ix - 1) with k by lia. fold s in AX. rewrite AX. apply Nat.eqb_neq in Nk. now rewrite Nk.
Qed.

Lemma valid_at_index : forall l s, Forall2 lt l s -> valid s (at_index l).
Proof.
  intros l s Hl. induction Hl as [|x n l s H H' IH]; intros k; [destruct k; cbn; lia|].
  rewrite at_index_cons, ax_cons. unfold upd. rewrite (F2_length _ _ _ _ _ H'). destruct (k =? length s); [exact H|apply IH].
Qed.
