(** Node._compute_message: the einsum over plates. *)
From Coq Require Import List Arith ZArith Lia Bool Reals Lra Permutation FunctionalExtensionality.
From Verif Require Import Base Shapes SpecShapes ShapesLemmas NumPy MiscArray SpecArray TensorLemmas
  EinsumLemmas SumMultiplyLemmas PlateSumLemmas PlateSum2Lemmas PlateSum3Lemmas ShapeOpsLemmas MessageLemmas EinsumGen DotEinsum.
Import ListNotations.
Open Scope nat_scope.

Lemma filter_rev' : forall A (f : A -> bool) l, filter f (rev l) = rev (filter f l).
Proof.
  intros A f. induction l as [|x l IH]; [reflexivity|]. cbn [rev filter]. rewrite filter_app, IH. cbn [filter].
  destruct (f x); cbn [rev]; [reflexivity|apply app_nil_r].
Qed.
Lemma map_nth_seq : forall (l : list nat), map (fun k => nth k l 0) (seq 0 (length l)) = l.
Proof.
  intros l. apply nth_ext with (d := 0) (d' := 0); rewrite map_length, seq_length; [reflexivity|]. intros i Hi.
  rewrite (nth_indep _ 0 (nth 0 l 0)) by (rewrite map_length, seq_length; lia).
  rewrite (map_nth (fun k => nth k l 0)). now rewrite seq_nth.
Qed.

(** ** Operands with the same labels *)
Section Same.
Variables (arrays : list (arr R)) (S : shape) (keys outk : list nat) (keep : nat -> bool).
Let n := length S.
Let g (k : nat) := nth k (rev keys) 0.
Hypothesis ne : arrays <> [].
Hypothesis rank : forall a, In a arrays -> ndim a = n.
Hypothesis axes : forall k, (forall a, In a arrays -> ax (ash a) k = 1 \/ ax (ash a) k = ax S k) /\
  (ax S k = 1 \/ exists a, In a arrays /\ ax (ash a) k = ax S k).
Hypothesis keys_len : length keys = n.
Hypothesis keys_nd : NoDup keys.
Hypothesis out_is : rev outk = map g (filter keep (seq 0 n)).
Let ops := map (fun a => (a, keys)) arrays.

Lemma g_in : forall k, k < n -> In (g k) keys.
Proof. intros k Hk. apply in_rev. apply nth_In. rewrite rev_length. lia. Qed.
Lemma g_inj : forall j k, j < n -> k < n -> g j = g k -> j = k.
Proof. intros j k Hj Hk E. apply (proj1 (NoDup_nth (rev keys) 0) (NoDup_rev keys_nd)) in E; rewrite ?rev_length; lia. Qed.
Lemma op_labels_same : forall l, In l (op_labels ops) <-> exists k, k < n /\ g k = l.
Proof.
  intros l. rewrite in_op_labels. split.
  - intros [p [Hp Hl]]. apply in_map_iff in Hp as [a [<- _]]. cbn [snd] in Hl. apply in_rev in Hl.
    destruct (In_nth _ _ 0 Hl) as [k [Hk E]]. rewrite rev_length in Hk. exists k. split; [lia|exact E].
  - intros [k [Hk <-]]. destruct arrays as [|a r] eqn:Ea; [contradiction|]. exists (a, keys). split; [unfold ops; now left|]. now apply g_in.
Qed.
Lemma dims_same : forall k, k < n -> bdim (label_dims ops (g k)) = Ok (ax S k).
Proof.
  intros k Hk. apply bdim_ok.
  assert (A : forall a i d, In a arrays -> nth_error keys i = Some (g k) -> nth_error (ash a) i = Some d -> d = ax (ash a) k).
  { intros a i d Ha H1 H2. pose proof (rank a Ha) as Hr. unfold ndim in Hr.
    destruct (nth_error_rev_ax keys (ash a) k ltac:(lia) ltac:(lia)) as [E1 E2]. fold (g k) in E1.
    assert (i = length (ash a) - 1 - k).
    { apply (proj1 (NoDup_nth_error keys) keys_nd).
      - apply nth_error_Some. congruence.
      - congruence. }
    subst i. congruence. }
  split.
  - intros d Hd. apply in_label_dims in Hd as (p & i & Hp & H1 & H2). apply in_map_iff in Hp as [a [<- Ha]]. cbn [fst snd] in *.
    rewrite (A a i d Ha H1 H2). now apply axes.
  - destruct (axes k) as [_ [E|[a [Ha E]]]]; [now left|right]. apply in_label_dims. exists (a, keys), (length (ash a) - 1 - k).
    cbn [fst snd]. pose proof (rank a Ha) as Hr. unfold ndim in Hr.
    destruct (nth_error_rev_ax keys (ash a) k ltac:(lia) ltac:(lia)) as [E1 E2]. fold (g k) in E1. rewrite <- E.
    repeat split; [|assumption|assumption]. unfold ops. now apply in_map with (f := fun a => (a, keys)).
Qed.
Lemma in_outk : forall l, In l outk <-> exists k, k < n /\ keep k = true /\ g k = l.
Proof.
  intros l. rewrite in_rev, out_is, in_map_iff. split.
  - intros [k [E Hk]]. apply filter_In in Hk as [H1 H2]. apply in_seq in H1. exists k. repeat split; [lia|assumption|assumption].
  - intros [k [H1 [H2 E]]]. exists k. split; [assumption|]. apply filter_In. rewrite in_seq. split; [lia|assumption].
Qed.

Lemma einsum_same : exists y, einsum ops outk = Ok y /\ ndim y = cnt keep n /\
  (forall k, k < n -> keep k = true -> ax (ash y) (cnt keep k) = ax S k) /\
  forall e' e, (forall k, k < n -> keep k = true -> e' (cnt keep k) = e k) ->
    aget y e' = itersum (map (fun k => (k, ax S k)) (filter (fun k => negb (keep k)) (seq 0 n))) (prodf arrays) e.
Proof.
  assert (NDo : NoDup (rev outk)).
  { rewrite out_is. assert (G : forall l, NoDup l -> (forall x, In x l -> x < n) -> NoDup (map g l)).
    { induction l as [|x l IH]; intros Hn Hx; [constructor|]. inversion Hn; subst. cbn [map]. constructor.
      - intros Hc. apply in_map_iff in Hc as [y [Ey Hy]]. apply g_inj in Ey; [subst; contradiction|apply Hx; now right|apply Hx; now left].
      - apply IH; [assumption|]. intros; apply Hx; now right. }
    apply G; [apply NoDup_filter, seq_NoDup|]. intros x Hx. apply filter_In in Hx as [Hx _]. apply in_seq in Hx. lia. }
  destruct (einsum_total ops outk) as [y Hy].
  { intros p Hp. apply in_map_iff in Hp as [a [<- Ha]]. cbn [fst snd]. rewrite rank by assumption. assumption. }
  { intros l Hl. apply in_outk in Hl as (k & Hk & _ & <-). apply op_labels_same. eauto. }
  { rewrite <- (rev_involutive outk). now apply NoDup_rev. }
  { intros l Hl. apply op_labels_same in Hl as (k & Hk & <-). eexists. now apply dims_same. }
  exists y. split; [exact Hy|]. apply EinsumGen.einsum_ok in Hy as (_ & _ & _ & _ & Hsh & Hv).
  assert (Hls : forall k, k < n -> label_size_of ops (g k) = ax S k) by (intros k Hk; unfold label_size_of; now rewrite dims_same).
  assert (Hnth : forall k, k < n -> keep k = true -> nth (cnt keep k) (rev outk) 0 = g k).
  { intros k Hk Hk'. rewrite out_is. rewrite (nth_indep _ 0 (g 0)).
    - rewrite map_nth. f_equal. apply nth_filter_cnt; assumption.
    - rewrite map_length. apply (cnt_lt keep n k); assumption. }
  assert (Hlen : length outk = cnt keep n) by (rewrite <- rev_length, out_is, map_length; reflexivity).
  split; [unfold ndim; rewrite Hsh, map_length; assumption|]. split.
  - intros k Hk Hk'. rewrite Hsh. unfold ax. rewrite <- map_rev.
    pose proof (cnt_lt keep n k Hk Hk') as Hc.
    rewrite (nth_indep _ 1 (label_size_of ops 0)) by (rewrite map_length, rev_length; lia).
    rewrite map_nth, Hnth by assumption. rewrite Hls by assumption. reflexivity.
  - intros e' e He. rewrite Hv. set (B := assign (rev outk) e').
    transitivity (itersum (map (fun k => (g k, ax S k)) (filter (fun k => negb (keep k)) (seq 0 n))) (fun L => prodf arrays (fun k => L (g k))) B).
    + transitivity (itersum (map (fun k => (g k, ax S k)) (filter (fun k => negb (keep k)) (seq 0 n))) (einsum_term ops) B).
      2:{ apply itersum_ext_all. intros L. unfold einsum_term, prodf, ops. rewrite map_map. reflexivity. }
      symmetry. apply itersum_perm.
      * rewrite (map_ext_in (fun k => (g k, ax S k)) (fun k => (fun l => (l, label_size_of ops l)) (g k))).
        2:{ intros k Hk. apply filter_In in Hk as [Hk _]. apply in_seq in Hk. cbn. now rewrite Hls by lia. }
        rewrite <- (map_map g (fun l => (l, label_size_of ops l))). apply Permutation_map. apply NoDup_Permutation.
        -- assert (G : forall l, NoDup l -> (forall x, In x l -> x < n) -> NoDup (map g l)).
           { induction l as [|x l IH]; intros Hn Hx; [constructor|]. inversion Hn; subst. cbn [map]. constructor.
             - intros Hc. apply in_map_iff in Hc as [z [Ey Hz]]. apply g_inj in Ey; [subst; contradiction|apply Hx; now right|apply Hx; now left].
             - apply IH; [assumption|]. intros; apply Hx; now right. }
           apply G; [apply NoDup_filter, seq_NoDup|]. intros x Hx. apply filter_In in Hx as [Hx _]. apply in_seq in Hx. lia.
        -- apply NoDup_filter. unfold op_labels. apply NoDup_nodup.
        -- intros l. rewrite filter_In, in_map_iff, op_labels_same. split.
           ++ intros [k [<- Hk]]. apply filter_In in Hk as [H1 H2]. apply in_seq in H1. split; [exists k; split; [lia|reflexivity]|].
              apply negb_true_iff. destruct (memb (g k) outk) eqn:E; [|reflexivity]. apply memb_In in E. apply in_outk in E as (j & Hj & Hj' & Ej).
              apply g_inj in Ej; [|assumption|lia]. subst j. rewrite Hj' in H2. discriminate.
           ++ intros [[k [Hk <-]] Hn]. exists k. split; [reflexivity|]. apply filter_In. rewrite in_seq. split; [lia|].
              destruct (keep k) eqn:E; [|reflexivity]. exfalso. apply negb_true_iff in Hn.
              assert (In (g k) outk) by (apply in_outk; eauto). apply memb_In in H. congruence.
      * rewrite map_map. cbn [fst].
        assert (G : forall l, NoDup l -> (forall x, In x l -> x < n) -> NoDup (map g l)).
        { induction l as [|x l IH]; intros Hn Hx; [constructor|]. inversion Hn; subst. cbn [map]. constructor.
          - intros Hc. apply in_map_iff in Hc as [z [Ey Hz]]. apply g_inj in Ey; [subst; contradiction|apply Hx; now right|apply Hx; now left].
          - apply IH; [assumption|]. intros; apply Hx; now right. }
        apply G; [apply NoDup_filter, seq_NoDup|]. intros x Hx. apply filter_In in Hx as [Hx _]. apply in_seq in Hx. lia.
    + assert (Dp : dep n (prodf arrays)).
      { intros x x' Hx. unfold prodf. f_equal. apply map_ext_in. intros a Ha. apply bget_ext. intros k Hk _. apply Hx.
        pose proof (rank a Ha) as Hr. unfold ndim in Hr. lia. }
      rewrite (itersum_rename n g (fun k => ax S k) (prodf arrays) _ B Dp g_inj).
      2:{ intros k Hk. apply filter_In in Hk as [Hk _]. apply in_seq in Hk. lia. }
      apply (reads_itersum_free (seq 0 n)).
      * intros x x' Hx. apply Dp. intros k Hk. apply Hx. apply in_seq. lia.
      * intros k Hk Hnk. apply in_seq in Hk. rewrite map_map in Hnk. cbn [fst] in Hnk. rewrite map_id in Hnk.
        assert (Hk' : keep k = true).
        { destruct (keep k) eqn:E; [reflexivity|]. exfalso. apply Hnk. apply filter_In. rewrite in_seq, E. split; [lia|reflexivity]. }
        unfold B. rewrite <- (Hnth k ltac:(lia) Hk'). rewrite assign_nth; [apply He; [lia|assumption]|assumption|].
        rewrite rev_length, Hlen. apply cnt_lt; [lia|assumption].
Qed.
End Same.

Lemma back_keep : forall s k, (match back s k with None => false | Some d => negb (d =? 1) end) = negb (ax s k =? 1).
Proof.
  intros s k. destruct (Nat.lt_ge_cases k (length s)) as [H|H].
  - now rewrite back_lt.
  - rewrite back_none, ax_overflow by assumption. reflexivity.
Qed.

Lemma cnt_extend : forall p a b, a <= b -> (forall k, a <= k -> k < b -> p k = false) -> cnt p b = cnt p a.
Proof.
  intros p a b H. induction b as [|b IH]; intros Hp; [now replace a with 0 by lia|].
  destruct (Nat.eq_dec a (S b)) as [->|Hne]; [reflexivity|]. rewrite cnt_S, IH by (try lia; intros; apply Hp; lia).
  rewrite Hp by lia. lia.
Qed.

Lemma equal_length_arrays : forall (arrays : list (arr R)) m, (forall a, In a arrays -> ndim a <= m) ->
  exists arrays', mapM (fun p => np_reshape (fst p) (snd p)) (combine arrays (map (fun s => repeat 1 (m - length s) ++ s) (map ash arrays))) = Ok arrays' /\
    Forall2 (fun a a' => ndim a' = m /\ (forall k, ax (ash a') k = ax (ash a) k) /\
      forall e, (forall k, ax (ash a) k <> 1 -> e k < ax (ash a) k) -> bget a' e = bget a e) arrays arrays'.
Proof.
  intros arrays m. induction arrays as [|a r IH]; intros H.
  - exists []. split; [reflexivity|constructor].
  - destruct IH as (r' & E & F); [intros; apply H; now right|].
    assert (Hax : forall k, ax (repeat 1 (m - length (ash a)) ++ ash a) k = ax (ash a) k).
    { intros k. rewrite ax_app. destruct (Nat.ltb_spec k (length (ash a))); [reflexivity|].
      rewrite (ax_overflow (ash a)) by assumption.
      unfold ax. rewrite rev_repeat || idtac. destruct (Nat.lt_ge_cases (k - length (ash a)) (m - length (ash a))).
      - assert (In (nth (k - length (ash a)) (rev (repeat 1 (m - length (ash a)))) 1) (rev (repeat 1 (m - length (ash a))))).
        { apply nth_In. rewrite rev_length, repeat_length. assumption. }
        apply in_rev, repeat_spec in H2. assumption.
      - apply nth_overflow. rewrite rev_length, repeat_length. assumption. }
    destruct (reshape_leading R a (repeat 1 (m - length (ash a)) ++ ash a) Hax) as (y & Ey & Sy & Vy).
    exists (y :: r'). cbn [map combine mapM fst snd]. rewrite Ey. cbn [bind]. rewrite E. cbn [bind]. split; [reflexivity|].
    constructor; [|assumption]. split; [|split].
    + unfold ndim. rewrite Sy, app_length, repeat_length. specialize (H a (or_introl eq_refl)). unfold ndim in H. lia.
    + intros k. rewrite Sy. apply Hax.
    + intros e He. apply Vy. intros k Hk. rewrite Hax in Hk |- *. now apply He.
Qed.

Lemma itersum_drop_units : forall l F e, NoDup (map fst l) -> (forall k, In (k, 1) l -> indep k F) ->
  itersum l F e = itersum (filter (fun p => negb (snd p =? 1)) l) F e.
Proof.
  intros l F e ND H. rewrite (itersum_split (fun p => snd p =? 1)) by assumption.
  rewrite itersum_const.
  - replace (fold_right Rmult 1%R _) with 1%R; [apply Rmult_1_l|].
    clear. induction l as [|[k d] l IH]; [reflexivity|]. cbn [filter snd]. destruct (Nat.eqb_spec d 1) as [->|]; [|assumption].
    cbn [map fold_right snd]. rewrite <- IH. simpl. ring.
  - intros k Hk. apply itersum_indep. apply in_map_iff in Hk as [[k' d] [E Hk]]. cbn in E; subst k'.
    apply filter_In in Hk as [Hk E]. cbn in E. apply Nat.eqb_eq in E. subst d. now apply H.
Qed.

(** The message: for every plate of the parent and every index of the variable, the sum over
    the node's plates that map to it of the product of the arrays. *)
Lemma compute_message_ok : forall arrays from to nd S, arrays <> [] -> broadcasts_to to from -> (forall k, ax from k <> 0) ->
  numpy_broadcast (map ash arrays) S -> nd <= length S ->
  (forall k, ax S (k + nd) = 1 \/ ax S (k + nd) = ax from k) -> length S - nd <= length from ->
  exists y, compute_message arrays from to nd = Ok y /\
    broadcasts_to (ash y) (to ++ skipn (length S - nd) S) /\ nd <= ndim y /\ (forall k, k < nd -> ax (ash y) k = ax S k) /\
    forall t v, valid to t -> (forall k, k < nd -> v k < ax S k) ->
      bget y (join nd t v) = fibre_sum from to t (fun i => prodf arrays (join nd i v)).
Proof.
  intros arrays from to nd S Hne Hto Hnz HS Hnd HSf HSl.
  pose proof HS as (HS1 & HS2 & HS3).
  set (n := length S). set (np := n - nd). set (AP := firstn np S).
  assert (Hnp : n = nd + np) by (unfold np, n; lia).
  assert (APl : length AP = np) by (unfold AP; rewrite firstn_length; fold n; lia).
  assert (APax : forall k, ax AP k = ax S (k + nd)).
  { intros k. unfold AP. destruct (Nat.lt_ge_cases k np) as [H|H].
    - unfold ax. rewrite <- (firstn_skipn np S) at 2. rewrite rev_app_distr, app_nth2; rewrite rev_length, skipn_length; fold n; [|lia].
      f_equal. lia.
    - rewrite (ax_overflow (firstn np S)), (ax_overflow S); [reflexivity|fold n; lia|rewrite firstn_length; fold n; lia]. }
  assert (APb : broadcasts_to AP from).
  { split; [rewrite APl; unfold np, n; lia|]. intros k. rewrite APax. apply HSf. }
  unfold compute_message. pose proof Hto as Hto'. apply is_shape_subset_spec in Hto'. rewrite Hto'. cbn [negb].
  pose proof HS as HS'. apply broadcasted_shape_ok in HS'. rewrite HS'. cbn [bind]. fold n.
  assert (Eap : (if nd =? 0 then S else firstn (n - nd) S) = AP).
  { destruct (Nat.eqb_spec nd 0) as [->|]; [|reflexivity]. unfold AP, np. rewrite Nat.sub_0_r. unfold n. now rewrite firstn_all. }
  rewrite Eap.
  set (dims := skipn (n - nd) S).
  assert (Edm : (if nd =? 0 then [] else dims) = dims).
  { destruct (Nat.eqb_spec nd 0) as [->|]; [|reflexivity]. unfold dims. rewrite Nat.sub_0_r. unfold n. now rewrite skipn_all. }
  rewrite Edm.
  assert (dl : length dims = nd) by (unfold dims; rewrite skipn_length; fold n; lia).
  assert (dax : forall k, k < nd -> ax dims k = ax S k).
  { intros k Hk. unfold dims. rewrite ax_skipn. fold n. destruct (Nat.ltb_spec k (n - (n - nd))); [reflexivity|lia]. }
  assert (Hr : broadcasting_multiplier from [AP; to] = Ok (bm_value from [AP; to])).
  { apply broadcasting_multiplier_ok. split; [|reflexivity]. intros a [<-|[<-|[]]]; assumption. }
  rewrite Hr. cbn [bind]. set (r := bm_value from [AP; to]).
  assert (Hml : make_equal_length (map ash arrays) = Ok (map (fun s => repeat 1 (max_rank (map ash arrays) - length s) ++ s) (map ash arrays))).
  { destruct arrays; [contradiction|reflexivity]. }
  rewrite Hml. cbn [bind].
  assert (Hmr : max_rank (map ash arrays) = n).
  { apply Nat.le_antisymm.
    - destruct (max_rank_attained (map ash arrays)) as [E|[a [Ha E]]]; [lia|]. rewrite <- E. now apply HS1.
    - destruct HS2 as [E|[a [Ha E]]]; [unfold n; rewrite E; cbn; lia|]. unfold n. rewrite <- E. now apply max_rank_ge. }
  rewrite Hmr.
  destruct (equal_length_arrays arrays n) as (arrays' & Ea & Fa).
  { intros a Ha. apply HS1. now apply in_map. }
  rewrite Ea. cbn [bind]. rewrite APl.
  set (keys := rev (seq 0 np) ++ seq np nd).
  set (outk := filter (fun key => match back to key with None => false | Some d => negb (d =? 1) end) (rev (seq 0 np)) ++ seq np nd).
  set (keep := fun k => (k <? nd) || negb (ax to (k - nd) =? 1)).
  assert (F2in : forall a', In a' arrays' -> exists a, In a arrays /\ ndim a' = n /\ (forall k, ax (ash a') k = ax (ash a) k)).
  { clear -Fa. induction Fa as [|a a' l l' (H1 & H2 & _) F IH]; intros x Hx; [destruct Hx|].
    destruct Hx as [<-|Hx]; [exists a; repeat split; [now left|assumption|assumption]|]. destruct (IH x Hx) as (b & Hb & H). exists b. split; [now right|assumption]. }
  assert (F2in' : forall a, In a arrays -> exists a', In a' arrays' /\ (forall k, ax (ash a') k = ax (ash a) k)).
  { clear -Fa. induction Fa as [|a a' l l' (H1 & H2 & _) F IH]; intros x Hx; [destruct Hx|].
    destruct Hx as [<-|Hx]; [exists a'; split; [now left|assumption]|]. destruct (IH x Hx) as (b & Hb & H). exists b. split; [now right|assumption]. }
  assert (Hrk : rev keys = rev (seq np nd) ++ seq 0 np) by (unfold keys; now rewrite rev_app_distr, rev_involutive).
  destruct (einsum_same arrays' S keys outk keep) as (y & Ey & Ny & Ay & Vy).
  { intros E. apply Hne. rewrite E in Fa. clear -Fa. now inversion Fa. }
  { intros a' Ha'. destruct (F2in a' Ha') as (a & _ & H & _). exact H. }
  { intros k. split.
    - intros a' Ha'. destruct (F2in a' Ha') as (a & Ha & _ & H). rewrite H. apply HS3. now apply in_map.
    - destruct (HS3 k) as [_ [E|[s [Hs E]]]]; [now left|right]. apply in_map_iff in Hs as [a [<- Ha]].
      destruct (F2in' a Ha) as (a' & Ha' & H). exists a'. split; [assumption|]. now rewrite H. }
  { unfold keys. rewrite app_length, rev_length, !seq_length. fold n. lia. }
  { unfold keys. apply NoDup_app_intro; [apply NoDup_rev, seq_NoDup|apply seq_NoDup|].
    intros x H1 H2. apply in_rev, in_seq in H1. apply in_seq in H2. lia. }
  { unfold outk. rewrite rev_app_distr. rewrite filter_rev', rev_involutive. fold n. rewrite Hnp at 1. rewrite seq_app, filter_app, map_app. cbn [Nat.add]. f_equal.
    - rewrite (filter_ext_in keep (fun _ => true)).
      2:{ intros k Hk. apply in_seq in Hk. unfold keep. destruct (Nat.ltb_spec k nd); [reflexivity|lia]. }
      replace (filter (fun _ => true) (seq 0 nd)) with (seq 0 nd) by (clear; induction (seq 0 nd) as [|a l IH]; [reflexivity|cbn; now rewrite <- IH]).
      rewrite <- (map_nth_seq (rev (seq np nd))) at 1. rewrite rev_length, seq_length. apply map_ext_in. intros k Hk. apply in_seq in Hk.
      rewrite Hrk. rewrite app_nth1; [reflexivity|]. rewrite rev_length, seq_length. lia.
    - rewrite (filter_ext _ (fun k => negb (ax to k =? 1))) by (intros k; apply back_keep).
      assert (G : forall l, (forall k, In k l -> k < np) -> filter (fun k => negb (ax to k =? 1)) l =
                   map (fun k => nth k (rev keys) 0) (filter keep (map (Nat.add nd) l))).
      { induction l as [|k l IH]; intros Hl; [reflexivity|]. cbn [map filter]. rewrite IH by (intros; apply Hl; now right).
        assert (Ekk : keep (nd + k) = negb (ax to k =? 1)).
        { unfold keep. destruct (Nat.ltb_spec (nd + k) nd); [lia|]. cbn [orb]. now replace (nd + k - nd) with k by lia. }
        rewrite Ekk. destruct (negb (ax to k =? 1)); [|reflexivity]. cbn [map]. f_equal. rewrite Hrk. specialize (Hl k (or_introl eq_refl)).
        rewrite app_nth2; rewrite rev_length, seq_length; [|lia]. rewrite seq_nth; lia. }
      rewrite (G (seq 0 np)) by (intros k Hk; apply in_seq in Hk; lia). f_equal. f_equal.
      assert (GG : forall m b a, map (Nat.add b) (seq a m) = seq (b + a) m).
      { induction m as [|m IH]; intros b a; [reflexivity|]. cbn [seq map]. f_equal. rewrite IH. f_equal. lia. }
      rewrite GG. f_equal. lia. }
  rewrite Ey. cbn [bind]. fold n in Ny, Ay, Vy.
  set (T := mkshape (Nat.min (length to) np) (fun k => Nat.min (ax to k) (ax AP k)) ++ dims).
  assert (Tl : length T = Nat.min (length to) np + nd) by (unfold T; rewrite app_length, length_mkshape, dl; reflexivity).
  assert (Tax : forall k, k < length T -> ax T k = if keep k then ax S k else 1).
  { intros k Hk. unfold T. rewrite ax_app, dl. unfold keep. destruct (Nat.ltb_spec k nd) as [H|H]; cbn [orb]; [now apply dax|].
    rewrite ax_mkshape. destruct (Nat.ltb_spec (k - nd) (Nat.min (length to) np)) as [H1|H1]; [|lia].
    rewrite APax. replace (k - nd + nd) with k by lia. specialize (HSf (k - nd)). replace (k - nd + nd) with k in HSf by lia.
    destruct Hto as [_ Ht]. specialize (Ht (k - nd)). specialize (Hnz (k - nd)).
    destruct (Nat.eqb_spec (ax to (k - nd)) 1) as [E|E]; cbn [negb].
    - rewrite E. lia.
    - destruct Ht as [|E']; [contradiction|]. rewrite E'. lia. }
  assert (Khigh : forall k, length T <= k -> k < n -> keep k = false).
  { intros k H1 H2. unfold keep. destruct (Nat.ltb_spec k nd); [lia|]. cbn [orb]. rewrite ax_overflow by lia. reflexivity. }
  destruct (reshape_units R (np_scale r y) T keep) as (z & Ez & Sz & Vz).
  { change (ndim (np_scale r y)) with (ndim y). rewrite Ny. apply cnt_extend; [lia|assumption]. }
  { intros k Hk Hk'. rewrite Tax by assumption. now rewrite Hk'. }
  { intros k Hk Hk'. change (ash (np_scale r y)) with (ash y). rewrite Ay by (try assumption; lia). rewrite Tax by assumption. now rewrite Hk'. }
  exists z. split; [exact Ez|]. split; [|split; [|split]].
  - rewrite Sz. change (skipn np S) with dims. split; [rewrite Tl, app_length, dl; lia|]. intros k.
    destruct (Nat.lt_ge_cases k (length T)) as [H|H]; [|left; now apply ax_overflow].
    rewrite Tax by assumption. rewrite ax_app, dl. unfold keep. destruct (Nat.ltb_spec k nd) as [H'|H']; cbn [orb]; [right; symmetry; now apply dax|].
    specialize (HSf (k - nd)). replace (k - nd + nd) with k in HSf by lia.
    destruct (Nat.eqb_spec (ax to (k - nd)) 1) as [E|E]; cbn [negb]; [now left|].
    destruct Hto as [_ Ht]. destruct (Ht (k - nd)) as [|E']; [contradiction|]. rewrite E'. assumption.
  - unfold ndim. rewrite Sz, Tl. lia.
  - intros k Hk. rewrite Sz, Tax by lia. unfold keep. destruct (Nat.ltb_spec k nd); [reflexivity|lia].
  - intros t v Ht Hv.
    set (e := clip (ash z) (join nd t v)).
    assert (Hte : forall k, nd <= k -> ax T k <> 1 -> ax S k <> 1 /\ t (k - nd) < ax S k).
    { intros k Hk H1. assert (HkT : k < length T) by (destruct (Nat.lt_ge_cases k (length T)); [assumption|exfalso; apply H1; now apply ax_overflow]).
      rewrite Tax in H1 by assumption. destruct (keep k) eqn:Ek; [|congruence]. split; [assumption|].
      unfold keep in Ek. destruct (Nat.ltb_spec k nd); [lia|]. cbn [orb] in Ek. apply negb_true_iff, Nat.eqb_neq in Ek.
      destruct Hto as [_ Hto2]. destruct (Hto2 (k - nd)) as [|E']; [contradiction|].
      specialize (HSf (k - nd)). replace (k - nd + nd) with k in HSf by lia. destruct HSf as [|E2]; [contradiction|].
      rewrite E2, <- E'. apply Ht. }
    assert (He : valid T e).
    { intros k. unfold e, clip. rewrite Sz. destruct (Nat.eqb_spec (ax T k) 1) as [E|E]; [lia|].
      unfold join. destruct (Nat.ltb_spec k nd) as [H|H].
      - rewrite Tax by (rewrite Tl; lia). unfold keep. destruct (Nat.ltb_spec k nd); [|lia]. cbn [orb]. now apply Hv.
      - assert (HkT : k < length T) by (destruct (Nat.lt_ge_cases k (length T)); [assumption|exfalso; apply E; now apply ax_overflow]).
        destruct (Hte k H E) as [H1 H2]. rewrite Tax in E |- * by assumption. destruct (keep k); [assumption|congruence]. }
    rewrite <- bget_clip. fold e.
    set (e' := fun i => if i <? cnt keep (length T) then e (nth i (filter keep (seq 0 (length T))) 0) else 0).
    assert (He' : forall k, k < length T -> keep k = true -> e' (cnt keep k) = e k).
    { intros k Hk Hk'. unfold e'. pose proof (cnt_lt keep (length T) k Hk Hk'). destruct (Nat.ltb_spec (cnt keep k) (cnt keep (length T))); [|lia].
      now rewrite nth_filter_cnt. }
    rewrite (Vz e e' He He'). rewrite bget_scale.
    rewrite (fibre_collapsed to from Hto AP) by
      (try assumption; intros k Hk x w; rewrite join_upd; apply prodf_indep_all; intros a Ha;
       rewrite APax in Hk; destruct (HS3 (k + nd)) as [K1 _]; specialize (K1 (ash a) (in_map _ _ _ Ha)); lia).
    fold r. f_equal. unfold bget.
    assert (Ecl : clip (ash y) e' = e').
    { apply functional_extensionality. intros i. unfold clip. destruct (Nat.eqb_spec (ax (ash y) i) 1) as [E|E]; [|reflexivity].
      unfold e'. destruct (Nat.ltb_spec i (cnt keep (length T))) as [H|H]; [|reflexivity].
      set (k := nth i (filter keep (seq 0 (length T))) 0).
      assert (Hin : In k (filter keep (seq 0 (length T)))) by (apply nth_In; exact H).
      apply filter_In in Hin as [H1 H2]. apply in_seq in H1.
      assert (Ei : cnt keep k = i).
      { pose proof (nth_filter_cnt keep (length T) k ltac:(lia) H2) as Hn.
        assert (NDf : NoDup (filter keep (seq 0 (length T)))) by (apply NoDup_filter, seq_NoDup).
        apply (proj1 (NoDup_nth _ 0) NDf); [apply cnt_lt; [lia|assumption]|exact H|]. rewrite Hn. reflexivity. }
      rewrite <- Ei in E. rewrite Ay in E by (try assumption; lia).
      specialize (He k). rewrite Tax in He by lia. rewrite H2, E in He. lia. }
    rewrite Ecl.
    rewrite (Vy e' e).
    2:{ intros k Hk Hk'. apply He'; [|assumption]. destruct (Nat.lt_ge_cases k (length T)); [assumption|]. rewrite Khigh in Hk' by assumption. discriminate. }
    rewrite itersum_join.
    set (ls := map (fun k => (k, ax S k)) (filter (fun k => negb (keep k)) (seq 0 n))).
    assert (Epr : itersum ls (prodf arrays') e = itersum ls (prodf arrays) e).
    { apply itersum_ext. intros x H1 H2. unfold prodf. f_equal.
      assert (Bx : forall k, ax S k <> 1 -> x k < ax S k).
      { intros k Hk. assert (Hkn : k < n) by (destruct (Nat.lt_ge_cases k n); [assumption|exfalso; apply Hk; now apply ax_overflow]).
        destruct (keep k) eqn:Ek.
        - rewrite H1.
          + assert (HkT : k < length T) by (destruct (Nat.lt_ge_cases k (length T)); [assumption|rewrite Khigh in Ek by assumption; discriminate]).
            specialize (He k). rewrite Tax, Ek in He by assumption. exact He.
          + unfold ls. rewrite map_map. cbn [fst]. rewrite map_id. intros Hc. apply filter_In in Hc as [_ Hc]. rewrite Ek in Hc. discriminate.
        - assert (Hin : In (k, ax S k) ls) by (unfold ls; apply in_map_iff; exists k; split; [reflexivity|apply filter_In; rewrite in_seq, Ek; split; [lia|reflexivity]]).
          destruct (H2 k _ Hin) as [H|[m [Hm H]]]; [assumption|]. unfold ls in Hm. apply in_map_iff in Hm as [j [E _]]. injection E as -> <-. assumption. }
      assert (GG : forall l l', Forall2 (fun a a' => ndim a' = n /\ (forall k, ax (ash a') k = ax (ash a) k) /\
          (forall e, (forall k, ax (ash a) k <> 1 -> e k < ax (ash a) k) -> bget a' e = bget a e)) l l' -> (forall a : arr R, In a l -> In a arrays) ->
          map (fun a => bget a x) l' = map (fun a => bget a x) l).
      { intros l l' F. induction F as [|a a' l l' (_ & _ & G) F IH]; intros Hin; [reflexivity|]. cbn [map]. rewrite IH by (intros; apply Hin; now right). f_equal.
        apply G. intros k Hk. destruct (HS3 k) as [K1 _]. destruct (K1 (ash a) (in_map _ _ _ (Hin a (or_introl eq_refl)))) as [E|E]; [contradiction|].
        rewrite E in Hk |- *. now apply Bx. }
      apply (GG _ _ Fa). auto. }
    rewrite Epr.
    assert (NDl : NoDup (map fst ls)) by (unfold ls; rewrite map_map; cbn [fst]; rewrite map_id; apply NoDup_filter, seq_NoDup).
    assert (HIN : forall k, ax S k = 1 -> indep k (prodf arrays)).
    { intros k Hk. apply prodf_indep_all. intros a Ha. destruct (HS3 k) as [K1 _]. specialize (K1 (ash a) (in_map _ _ _ Ha)). lia. }
    rewrite itersum_drop_units; [|assumption|].
    2:{ intros k Hk. unfold ls in Hk. apply in_map_iff in Hk as [j [E _]]. injection E as -> E. now apply HIN. }
    transitivity (itersum (sh nd (collapsed to AP)) (prodf arrays) e).
    + apply itersum_perm.
      * apply NoDup_Permutation.
        -- apply NoDup_filter. now apply NoDup_map_inv with (f := fst).
        -- unfold sh, collapsed. rewrite map_map. apply FinFun.Injective_map_NoDup; [intros a b E; cbn in E; injection E; lia|]. apply NoDup_filter, seq_NoDup.
        -- intros [k d]. rewrite filter_In. unfold ls, sh, collapsed. rewrite map_map, !in_map_iff. cbn [fst snd]. split.
           ++ intros [[j [E Hj]] Hd]. injection E as -> <-. apply filter_In in Hj as [Hj1 Hj2]. apply in_seq in Hj1.
              apply negb_true_iff in Hj2. unfold keep in Hj2. destruct (Nat.ltb_spec k nd); [discriminate|]. cbn [orb] in Hj2.
              apply negb_false_iff in Hj2. exists (k - nd). rewrite APax. replace (k - nd + nd) with k by lia. split; [reflexivity|].
              apply filter_In. rewrite in_seq, APax. replace (k - nd + nd) with k by lia. rewrite Hd, Hj2. split; [lia|reflexivity].
           ++ intros [j [E Hj]]. injection E as <- <-. apply filter_In in Hj as [Hj1 Hj2]. apply in_seq in Hj1.
              apply andb_true_iff in Hj2 as [Hj2 Hj3]. rewrite APax in Hj2 |- *. split; [|assumption]. exists (j + nd). split; [reflexivity|].
              apply filter_In. rewrite in_seq. split; [lia|]. apply negb_true_iff. unfold keep. destruct (Nat.ltb_spec (j + nd) nd); [lia|].
              cbn [orb]. replace (j + nd - nd) with j by lia. now rewrite Hj3.
      * apply NoDup_map_filter. assumption.
    + apply (reads_itersum_free (filter (fun k => negb (ax S k =? 1)) (seq 0 n))).
      * intros x x' Hx. unfold prodf. f_equal. apply map_ext_in. intros a Ha. apply bget_ext. intros k Hk1 Hk2. apply Hx.
        destruct (HS3 k) as [K1 _]. specialize (K1 (ash a) (in_map _ _ _ Ha)).
        apply filter_In. rewrite in_seq. pose proof (HS1 (ash a) (in_map _ _ _ Ha)) as HL. fold n in HL. split; [lia|].
        apply negb_true_iff, Nat.eqb_neq. lia.
      * intros k Hk Hnk. apply filter_In in Hk as [Hk1 Hk2]. apply in_seq in Hk1. apply negb_true_iff, Nat.eqb_neq in Hk2.
        assert (Hkeep : keep k = true).
        { destruct (keep k) eqn:Ek; [reflexivity|]. exfalso. apply Hnk. unfold keep in Ek. destruct (Nat.ltb_spec k nd); [discriminate|]. cbn [orb] in Ek.
          apply negb_false_iff in Ek. unfold sh, collapsed. rewrite !map_map. cbn [fst snd]. apply in_map_iff. exists (k - nd). split; [lia|].
          apply filter_In. rewrite in_seq, APax. replace (k - nd + nd) with k by lia. apply Nat.eqb_neq in Hk2. rewrite Hk2, Ek. split; [lia|reflexivity]. }
        assert (HkT : k < length T) by (destruct (Nat.lt_ge_cases k (length T)); [assumption|rewrite Khigh in Hkeep by (try assumption; lia); discriminate]).
        unfold e, clip. rewrite Sz, Tax by assumption. rewrite Hkeep. destruct (Nat.eqb_spec (ax S k) 1); [contradiction|reflexivity].
Qed.
