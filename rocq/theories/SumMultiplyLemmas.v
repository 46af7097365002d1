(** sum_multiply equals multiply-then-sum. *)
From Coq Require Import List Arith ZArith Lia Bool Reals Lra Permutation FunctionalExtensionality Sorted.
From Verif Require Import Base Shapes SpecShapes ShapesLemmas NumPy MiscArray TensorLemmas EinsumLemmas.
Import ListNotations.
Open Scope nat_scope.

Lemma index_of_some : forall k l j, index_of k l = Some j -> nth_error l j = Some k.
Proof.
  intros k l. induction l as [|x r IH]; simpl; intros j H; [discriminate|].
  destruct (Nat.eqb_spec x k) as [->|Hne].
  - injection H as <-. reflexivity.
  - destruct (index_of k r) as [i|]; [|discriminate]. injection H as <-. simpl. now apply IH.
Qed.

Lemma index_of_none : forall k l, index_of k l = None -> ~ In k l.
Proof.
  intros k l. induction l as [|x r IH]; simpl; intros H; [tauto|].
  destruct (Nat.eqb_spec x k) as [->|Hne]; [discriminate|].
  destruct (index_of k r) as [i|]; [discriminate|]. intros [E|Hin]; [congruence|].
  now apply IH.
Qed.

Lemma index_of_nth : forall l j d, NoDup l -> j < length l -> index_of (nth j l d) l = Some j.
Proof.
  intros l. induction l as [|x r IH]; simpl; intros j d HN Hj; [lia|].
  inversion HN as [|? ? H1 H2]; subst. destruct j as [|j].
  - now rewrite Nat.eqb_refl.
  - destruct (Nat.eqb_spec x (nth j r d)) as [E|E].
    + exfalso. apply H1. rewrite E. apply nth_In. lia.
    + rewrite IH by (auto; lia). reflexivity.
Qed.

Lemma index_of_map : forall (g : nat -> nat) l k,
  (forall x, In x l -> g x = g k -> x = k) -> index_of (g k) (map g l) = index_of k l.
Proof.
  intros g l k. induction l as [|x r IH]; simpl; intros H; [reflexivity|].
  rewrite IH by auto.
  destruct (Nat.eqb_spec (g x) (g k)) as [E|E], (Nat.eqb_spec x k) as [E'|E']; try reflexivity.
  - exfalso. apply E'. apply H; auto.
  - subst. congruence.
Qed.

Lemma sorted_filter_seq : forall l n, StronglySorted lt l -> (forall i, In i l -> i < n) ->
  filter (fun i => memb i l) (seq 0 n) = l.
Proof.
  intros l n. revert l. induction n as [|n IH]; intros l HS Hl.
  - destruct l as [|x l]; [reflexivity|]. specialize (Hl x (or_introl eq_refl)). lia.
  - rewrite seq_S, filter_app. simpl. destruct (memb n l) eqn:E.
    + apply memb_In in E. apply in_split in E as [l1 [l2 ->]].
      assert (l2 = []).
      { destruct l2 as [|y l2]; [reflexivity|]. exfalso.
        assert (n < y).
        { clear -HS. induction l1 as [|z l1 IH]; simpl in HS; inversion HS as [|? ? H1 H2]; subst.
          - now inversion H2.
          - auto. }
        specialize (Hl y). rewrite in_app_iff in Hl. simpl in Hl. lia. }
      subst l2. f_equal.
      transitivity (filter (fun i => memb i l1) (seq 0 n)).
      * apply filter_ext_in. intros i Hi. apply in_seq in Hi.
        destruct (memb i l1) eqn:E1.
        -- apply memb_In. apply memb_In in E1. apply in_or_app; auto.
        -- apply memb_false. apply memb_false in E1. rewrite in_app_iff. simpl.
           intros [H|[H|[]]]; [contradiction|lia].
      * apply IH.
        -- clear -HS. induction l1 as [|z l1 IH]; [constructor|]. simpl in HS.
           inversion HS as [|? ? H1 H2]; subst. constructor; [auto|].
           apply Forall_app in H2. tauto.
        -- intros i Hi. assert (Hlt : i < n); [|assumption].
           clear -HS Hi. induction l1 as [|z l1 IH]; [destruct Hi|]. simpl in HS.
           inversion HS as [|? ? H1 H2]; subst. destruct Hi as [->|Hi]; [|auto].
           apply Forall_app in H2 as [_ H2]. now inversion H2.
    + rewrite app_nil_r. apply memb_false in E. apply IH; [assumption|].
      intros i Hi. specialize (Hl i Hi). assert (i <> n) by (intros ->; contradiction). lia.
Qed.

Lemma seq_flip : forall n, map (fun i => n - 1 - i) (seq 0 n) = rev (seq 0 n).
Proof.
  intros n. apply nth_ext with (d := 0) (d' := 0).
  - now rewrite map_length, rev_length.
  - intros i Hi. rewrite map_length, seq_length in Hi.
    rewrite (nth_indep _ 0 (n - 1 - 0)) by (rewrite map_length, seq_length; lia).
    rewrite (map_nth (fun i => n - 1 - i)), seq_nth by lia.
    rewrite rev_nth by (rewrite seq_length; lia). rewrite seq_length, seq_nth by lia. lia.
Qed.

Lemma filter_rev : forall A (p : A -> bool) l, filter p (rev l) = rev (filter p l).
Proof.
  intros A p l. induction l as [|a l IH]; [reflexivity|]. simpl.
  rewrite filter_app, IH. simpl. destruct (p a); simpl; [reflexivity|apply app_nil_r].
Qed.

Lemma filter_map_comm : forall A B (f : A -> B) (p : B -> bool) l,
  filter p (map f l) = map f (filter (fun x => p (f x)) l).
Proof.
  intros A B f p l. induction l as [|a l IH]; [reflexivity|]. simpl.
  rewrite IH. now destruct (p (f a)).
Qed.

(** Kept Python positions as axes from the end. *)
Lemma kept_flip : forall n kp, StronglySorted lt kp -> (forall i, In i kp -> i < n) ->
  map (fun i => n - 1 - i) (rev kp) = filter (fun k => memb (n - 1 - k) kp) (seq 0 n).
Proof.
  intros n kp HS Hkp.
  rewrite <- (sorted_filter_seq kp n HS Hkp) at 1.
  rewrite <- filter_rev. rewrite <- seq_flip. rewrite filter_map_comm.
  rewrite map_map. rewrite <- (map_id (filter (fun k => memb (n - 1 - k) kp) (seq 0 n))) at 2.
  apply map_ext_in. intros i Hi. apply filter_In in Hi as [Hi _]. apply in_seq in Hi. lia.
Qed.

(** An iterated sum sees only the axes that are not summed. *)
Lemma itersum_ext_env : forall l F n e e',
  dep n F -> (forall k, k < n -> In k (map fst l) \/ e k = e' k) ->
  itersum l F e = itersum l F e'.
Proof.
  intros l F n e e' HF He.
  assert (HD : dep n (itersum l F)) by now apply itersum_dep.
  assert (HI : forall k, In k (map fst l) -> indep k (itersum l F)) by (intros; now apply itersum_indep_in).
  set (G := itersum l F) in *. clearbody G.
  assert (Hst : forall m, m <= n -> G e = G (fun k => if k <? m then e' k else e k)).
  { induction m as [|m IH]; intros Hm; [reflexivity|].
    rewrite IH by lia.
    replace (fun k => if k <? S m then e' k else e k)
      with (upd (fun k => if k <? m then e' k else e k) m (e' m)).
    2:{ apply functional_extensionality. intros k. unfold upd.
        destruct (Nat.eqb_spec k m) as [->|Hne].
        - destruct (Nat.ltb_spec m (S m)); [reflexivity|lia].
        - destruct (Nat.ltb_spec k m), (Nat.ltb_spec k (S m)); try reflexivity; lia. }
    destruct (He m ltac:(lia)) as [H|H]; [symmetry; now apply HI|].
    rewrite <- H. f_equal. apply functional_extensionality. intros k. unfold upd.
    destruct (Nat.eqb_spec k m) as [->|Hne]; [|reflexivity].
    destruct (Nat.ltb_spec m m); [lia|reflexivity]. }
  rewrite (Hst n (le_n n)). apply HD. intros k Hk.
  destruct (Nat.ltb_spec k n); [reflexivity|lia].
Qed.

Section SM.
Variable args : list (arr R).
Let n := max_rank (map ash args).
Let pairs := map (fun a => (a, seq (n - ndim a) (ndim a))) args.

Variable kp : list nat.
Hypothesis Hsort : StronglySorted lt kp.
Hypothesis Hlt : forall i, In i kp -> i < n.

Let summed := filter (fun k => negb (memb (n - 1 - k) kp)) (seq 0 n).

Lemma kp_nodup : NoDup kp.
Proof.
  rewrite <- (sorted_filter_seq kp n Hsort Hlt). apply NoDup_filter, seq_NoDup.
Qed.

Lemma kept_summed : kept_axes n summed = map (fun i => n - 1 - i) (rev kp).
Proof.
  rewrite (kept_flip n kp Hsort Hlt). unfold kept_axes. apply filter_ext_in.
  intros k Hk. apply in_seq in Hk.
  destruct (memb (n - 1 - k) kp) eqn:E.
  - assert (H : memb k summed = false); [|now rewrite H].
    apply memb_false. unfold summed. rewrite filter_In, E. simpl. intros [_ H]. discriminate.
  - assert (H : memb k summed = true); [|now rewrite H].
    apply memb_In. unfold summed. rewrite filter_In, E. simpl. split; [apply in_seq; lia|reflexivity].
Qed.

Lemma memb_summed : forall k, k < n -> memb k summed = negb (memb (n - 1 - k) kp).
Proof.
  intros k Hk. destruct (memb (n - 1 - k) kp) eqn:E; simpl.
  - apply memb_false. unfold summed. rewrite filter_In, E. simpl. intros [_ H]. discriminate.
  - apply memb_In. unfold summed. rewrite filter_In, E. simpl. split; [apply in_seq; lia|reflexivity].
Qed.

Variable S : shape.
Hypothesis HS : broadcasted_shape (map ash args) = Ok S.

Lemma S_len : length S = n.
Proof. unfold broadcasted_shape in HS. apply mapM_back_range in HS as [H _]. exact H. Qed.

Lemma S_ax : forall k, k < n -> foldM (bc_step k) 1 (map ash args) = Ok (ax S k).
Proof. intros k Hk. unfold broadcasted_shape in HS. apply mapM_back_range in HS as [_ H]. now apply H. Qed.

Let P : arr R := Arr S (prodf args).

Lemma prodf_indep : forall k, ax S k = 1 -> indep k (prodf args).
Proof.
  intros k Hk e x. unfold prodf. f_equal. apply map_ext_in. intros a Ha.
  apply bget_indep. apply broadcasted_shape_ok in HS as (_ & _ & K).
  destruct (K k) as [K1 _]. specialize (K1 (ash a) (in_map _ _ _ Ha)). lia.
Qed.

Lemma bget_P : forall e, bget P e = prodf args e.
Proof.
  intros e. unfold bget, P. cbn [aget ash]. unfold prodf. f_equal. apply map_ext_in.
  intros a Ha. apply bget_ext. intros k _ Hk. unfold clip.
  apply broadcasted_shape_ok in HS as (_ & _ & K).
  destruct (K k) as [K1 _]. specialize (K1 (ash a) (in_map _ _ _ Ha)).
  destruct (Nat.eqb_spec (ax S k) 1); [lia|reflexivity].
Qed.

Lemma einsum_sizes :
  mapM (fun l => d <- bdim (label_dims pairs l) ;; Ok (l, d)) (op_labels pairs)
  = Ok (map (fun l => (l, ax S (n - 1 - l))) (op_labels pairs)).
Proof.
  apply mapM_ok_Forall2.
  assert (H : forall l, In l (op_labels pairs) -> l < n) by (intros l; apply pair_labels_in).
  induction (op_labels pairs) as [|l r IH]; simpl; [constructor|]. constructor.
  - unfold pairs, n. rewrite label_size by (apply H; simpl; auto). fold n.
    rewrite S_ax; [reflexivity|]. specialize (H l (or_introl eq_refl)). lia.
  - apply IH. intros; apply H; simpl; auto.
Qed.

Lemma einsum_ok : exists y, einsum pairs kp = Ok y /\
  ash y = mkshape (length kp) (fun j => ax S (nth j (kept_axes n summed) 0)) /\
  forall e, valid (ash y) e ->
    bget y e = itersum (sum_axes_list S summed) (prodf args) (assign (kept_axes n summed) e).
Proof.
  unfold einsum.
  assert (H1 : forallb (fun p => length (snd p) =? ndim (fst p)) pairs = true).
  { apply forallb_forall. intros p Hp. unfold pairs in Hp. apply in_map_iff in Hp as [a [<- Ha]].
    simpl. rewrite seq_length. apply Nat.eqb_refl. }
  assert (H2 : forallb (fun l => memb l (op_labels pairs)) kp = true).
  { apply forallb_forall. intros l Hl. apply memb_In. apply pair_labels_in. now apply Hlt. }
  assert (H3 : (length (nodup Nat.eq_dec kp) =? length kp) = true).
  { rewrite nodup_fixed_point by apply kp_nodup. apply Nat.eqb_refl. }
  rewrite H1, H2, H3. cbn [andb]. rewrite einsum_sizes. cbn [bind].
  eexists. split; [reflexivity|]. cbn [ash aget].
  set (size_of := fun l => _).
  assert (Hsz : forall l, l < n -> size_of l = ax S (n - 1 - l)).
  { intros l Hl. unfold size_of.
    assert (Hin : In l (op_labels pairs)) by now apply pair_labels_in.
    destruct (find _ _) as [q|] eqn:E.
    - apply find_some in E as [E1 E2]. apply in_map_iff in E1 as [l' [<- _]].
      simpl in *. apply Nat.eqb_eq in E2. now subst.
    - exfalso. pose proof (find_none _ _ E (l, ax S (n - 1 - l))) as HN.
      cbn [fst] in HN. rewrite Nat.eqb_refl in HN. discriminate HN.
      apply in_map_iff. eauto. }
  split.
  - unfold mkshape. rewrite kept_summed.
    apply shape_ext; [now rewrite !map_length, back_range_length|].
    rewrite map_length. intros j Hj.
    change (map (fun j0 => ax S (nth j0 (map (fun i => n - 1 - i) (rev kp)) 0)) (back_range (length kp)))
      with (mkshape (length kp) (fun j0 => ax S (nth j0 (map (fun i => n - 1 - i) (rev kp)) 0))).
    rewrite ax_mkshape. destruct (Nat.ltb_spec j (length kp)); [|lia].
    unfold ax at 1. rewrite <- map_rev.
    rewrite (nth_indep _ 1 (size_of 0)) by (rewrite map_length, rev_length; lia).
    rewrite map_nth.
    rewrite Hsz.
    + f_equal. rewrite (nth_indep (map _ _) 0 (n - 1 - 0)) by (rewrite map_length, rev_length; lia).
      now rewrite (map_nth (fun i => n - 1 - i)).
    + apply Hlt. apply in_rev. apply nth_In. rewrite rev_length. lia.
  - intros e Hv. unfold bget. cbn [ash aget]. rewrite clip_valid_id by assumption.
    set (F := einsum_term pairs).
    rewrite (itersum_ext_all _ F (fun L => prodf args (fun k => L (n - 1 - k)))
               (fun L => einsum_term_eq args L)).
    rewrite filter_map_comm.
    assert (Hp : Permutation
      (map (fun l => (l, ax S (n - 1 - l))) (filter (fun x => negb (memb (fst (x, ax S (n - 1 - x))) kp)) (op_labels pairs)))
      (map (fun k => (n - 1 - k, ax S k)) summed)).
    { cbn [fst].
      transitivity (map (fun l => (l, ax S (n - 1 - l)))
                        (filter (fun x => negb (memb x kp)) (map (fun k => n - 1 - k) (seq 0 n)))).
      - apply Permutation_map.
        assert (Hf : forall (p : nat -> bool) l l', Permutation l l' -> Permutation (filter p l) (filter p l')).
        { clear. intros p l l' H. induction H; simpl.
          - constructor.
          - destruct (p x); [now constructor|assumption].
          - destruct (p x), (p y); try apply Permutation_refl; constructor.
          - etransitivity; eauto. }
        apply Hf. apply op_labels_perm.
      - rewrite filter_map_comm, map_map. fold summed.
        rewrite (map_ext_in _ (fun k => (n - 1 - k, ax S k))); [apply Permutation_refl|].
        intros k Hk. unfold summed in Hk. apply filter_In in Hk as [Hk _]. apply in_seq in Hk.
        f_equal. f_equal. lia. }
    rewrite (itersum_perm _ _ _ Hp).
    2:{ rewrite map_map. cbn [fst]. rewrite map_id. apply NoDup_filter. apply NoDup_nodup. }
    rewrite (itersum_rename n (fun k => n - 1 - k) (fun k => ax S k) (prodf args) summed).
    2:{ apply prodf_dep. }
    2:{ intros; lia. }
    2:{ intros k Hk. unfold summed in Hk. apply filter_In in Hk as [Hk _]. apply in_seq in Hk. lia. }
    replace (sum_axes_list S summed) with (map (fun k => (k, ax S k)) summed).
    2:{ unfold sum_axes_list. f_equal. rewrite S_len. unfold summed at 1.
        apply filter_ext_in. intros k Hk. apply in_seq in Hk. symmetry. apply memb_summed. lia. }
    apply (itersum_dep _ n _ (prodf_dep args)). intros k Hk.
    unfold assign. rewrite kept_summed.
    replace (index_of k (map (fun i => n - 1 - i) (rev kp))) with (index_of (n - 1 - k) (rev kp)); [reflexivity|].
    symmetry. replace k with (n - 1 - (n - 1 - k)) at 1 by lia.
    apply (index_of_map (fun i => n - 1 - i)).
    intros x Hx E. apply in_rev in Hx. apply Hlt in Hx. lia.
Qed.

Lemma kept_axes_length : length (kept_axes n summed) = length kp.
Proof. rewrite kept_summed. now rewrite map_length, rev_length. Qed.

(** Without keepdims. *)
Lemma einsum_np_sum : exists y, einsum pairs kp = Ok y /\ arr_eq y (np_sum P summed).
Proof.
  destruct einsum_ok as [y [Hy [Hs Hv]]]. exists y. split; [assumption|].
  assert (Hsh : ash y = ash (np_sum P summed)).
  { rewrite Hs. unfold np_sum, drop_axes. unfold ndim. cbn [np_sum_keep ash].
    unfold ndim. rewrite length_mkshape. cbn [ash P]. rewrite S_len, kept_axes_length.
    apply map_ext_in. intros j Hj. apply in_back_range in Hj.
    rewrite ax_mkshape.
    assert (Hin : In (nth j (kept_axes n summed) 0) (kept_axes n summed))
      by (apply nth_In; rewrite kept_axes_length; lia).
    unfold kept_axes in Hin. apply filter_In in Hin as [Hin Hm]. apply in_seq in Hin.
    fold (kept_axes n summed) in Hin, Hm.
    destruct (Nat.ltb_spec (nth j (kept_axes n summed) 0) n); [|lia].
    destruct (memb (nth j (kept_axes n summed) 0) summed); [discriminate|reflexivity]. }
  split; [exact Hsh|]. intros e He. rewrite Hv by assumption.
  assert (He' : valid (ash (np_sum P summed)) e) by (now rewrite <- Hsh).
  unfold np_sum in He' |- *. unfold bget. rewrite clip_valid_id by assumption.
  unfold drop_axes. cbn [aget]. rewrite bget_sum_keep. cbn [ash P].
  unfold ndim. cbn [np_sum_keep ash]. rewrite length_mkshape. unfold ndim. cbn [ash P]. rewrite S_len.
  apply itersum_ext_all. intros e'. symmetry. apply bget_P.
Qed.

(** restore_shape *)
Lemma restore_shape_ok : forall ks (shp : shape) f,
  shp = map f (filter (fun i => memb i kp) ks) ->
  restore_shape ks kp shp = Ok (map (fun i => if memb i kp then f i else 1) ks).
Proof.
  induction ks as [|k ks IH]; intros shp f H; [reflexivity|]. simpl in *.
  destruct (memb k kp) eqn:E.
  - subst shp. simpl. rewrite (IH _ f eq_refl). reflexivity.
  - rewrite (IH _ f H). reflexivity.
Qed.

Lemma cnt_index : forall (p : nat -> bool) m k, k < m -> p k = true ->
  index_of k (filter p (seq 0 m)) = Some (cnt p k).
Proof.
  intros p m k Hk Hp.
  assert (HN : NoDup (filter p (seq 0 m))) by (apply NoDup_filter, seq_NoDup).
  rewrite <- (nth_filter_cnt p m k Hk Hp) at 1. apply index_of_nth; [assumption|].
  fold (cnt p m). now apply cnt_lt.
Qed.

(** With keepdims. *)
Lemma einsum_np_sum_keep : exists y, einsum pairs kp = Ok y /\
  exists z, (s <- restore_shape (seq 0 n) kp (ash y) ;; np_reshape y s) = Ok z /\
            arr_eq z (np_sum_keep P summed).
Proof.
  destruct einsum_ok as [y [Hy [Hs Hv]]]. exists y. split; [assumption|].
  set (p := fun k => negb (memb k summed)).
  set (s := mkshape n (fun k => if memb k summed then 1 else ax S k)).
  assert (Hrs : restore_shape (seq 0 n) kp (ash y) = Ok s).
  { rewrite (restore_shape_ok _ _ (fun i => ax S (n - 1 - i))).
    - f_equal. unfold s. apply shape_ext; rewrite !map_length, ?length_mkshape, ?seq_length; [reflexivity|].
      intros k Hk. rewrite ax_mkshape.
      destruct (Nat.ltb_spec k n); [|lia].
      unfold ax at 1. rewrite <- map_rev. rewrite <- seq_flip. rewrite map_map.
      rewrite (nth_indep _ 1 ((fun i => if memb (n - 1 - i) kp then ax S (n - 1 - (n - 1 - i)) else 1) 0))
        by (rewrite map_length, seq_length; lia).
      rewrite (map_nth (fun i => if memb (n - 1 - i) kp then ax S (n - 1 - (n - 1 - i)) else 1)), seq_nth by lia.
      simpl. rewrite memb_summed by lia. destruct (memb (n - 1 - k) kp); simpl; [|reflexivity].
      f_equal. lia.
    - rewrite (sorted_filter_seq kp n Hsort Hlt). rewrite Hs, kept_summed.
      apply shape_ext; [now rewrite length_mkshape, map_length|].
      rewrite length_mkshape. intros j Hj. rewrite ax_mkshape.
      destruct (Nat.ltb_spec j (length kp)); [|lia].
      unfold ax at 2. rewrite <- map_rev.
      rewrite (nth_indep _ 1 (ax S (n - 1 - 0))) by (rewrite map_length, rev_length; lia).
      rewrite (map_nth (fun i => ax S (n - 1 - i))). f_equal.
      rewrite (nth_indep _ 0 (n - 1 - 0)) by (rewrite map_length, rev_length; lia).
      now rewrite (map_nth (fun i => n - 1 - i)). }
  rewrite Hrs. cbn [bind].
  assert (Hls : length s = n) by (unfold s; apply length_mkshape).
  assert (Hcnt : cnt p n = length kp) by (unfold cnt; exact kept_axes_length).
  destruct (reshape_units R y s p) as [z [Hz [Hsz Hvz]]].
  - unfold ndim. rewrite Hs, length_mkshape, Hls. now rewrite Hcnt.
  - intros k Hk Hp. unfold s. rewrite ax_mkshape. rewrite Hls in Hk.
    destruct (Nat.ltb_spec k n); [|lia]. unfold p in Hp.
    destruct (memb k summed); [reflexivity|discriminate].
  - intros k Hk Hp. rewrite Hls in Hk. rewrite Hs, ax_mkshape.
    assert (Hc : cnt p k < length kp) by (rewrite <- Hcnt; now apply cnt_lt).
    destruct (Nat.ltb_spec (cnt p k) (length kp)); [|lia].
    unfold kept_axes. fold p. rewrite nth_filter_cnt by assumption.
    unfold s. rewrite ax_mkshape. destruct (Nat.ltb_spec k n); [|lia].
    unfold p in Hp. destruct (memb k summed); [discriminate|reflexivity].
  - exists z. split; [assumption|].
    assert (Hsh : s = ash (np_sum_keep P summed)).
    { unfold s, P. cbn [np_sum_keep ash]. unfold ndim. cbn [ash]. rewrite S_len. reflexivity. }
    split; [rewrite Hsz; exact Hsh|]. rewrite Hsz. intros e He.
    rewrite bget_sum_keep. cbn [ash P].
    set (e' := fun j => if j <? length kp then e (nth j (kept_axes n summed) 0) else 0).
    rewrite (Hvz e e' He).
    + assert (Hve : valid (ash y) e').
      { intros j. rewrite Hs, ax_mkshape. unfold e'. destruct (Nat.ltb_spec j (length kp)) as [Hj|Hj]; [|lia].
        specialize (He (nth j (kept_axes n summed) 0)).
        unfold s in He. rewrite ax_mkshape in He.
        assert (Hin : In (nth j (kept_axes n summed) 0) (kept_axes n summed))
          by (apply nth_In; rewrite kept_axes_length; lia).
        unfold kept_axes in Hin. apply filter_In in Hin as [Hin Hm]. apply in_seq in Hin.
        fold (kept_axes n summed) in Hin, Hm.
        destruct (Nat.ltb_spec (nth j (kept_axes n summed) 0) n); [|lia].
        destruct (memb (nth j (kept_axes n summed) 0) summed); [discriminate|assumption]. }
      rewrite Hv by assumption.
      transitivity (itersum (sum_axes_list S summed) (prodf args) e).
      * (* agree on kept axes, independent of the summed ones *)
        apply (itersum_ext_env (sum_axes_list S summed) (prodf args) n); [apply prodf_dep|].
        intros k Hk. destruct (memb k summed) eqn:Em.
        -- left. rewrite map_fst_sum_axes, S_len. apply filter_In. split; [apply in_seq; lia|assumption].
        -- right. unfold assign. unfold kept_axes. fold p. rewrite cnt_index.
           ++ unfold e'. assert (Hpk : p k = true) by (unfold p; now rewrite Em).
              assert (Hc : cnt p k < length kp) by (rewrite <- Hcnt; now apply cnt_lt).
              destruct (Nat.ltb_spec (cnt p k) (length kp)); [|lia].
              unfold kept_axes. fold p. rewrite nth_filter_cnt by assumption. reflexivity.
           ++ assumption.
           ++ unfold p. now rewrite Em.
      * apply itersum_ext_all. intros e''. symmetry. apply bget_P.
    + intros k Hk Hp. rewrite Hls in Hk. unfold e'.
      assert (Hc : cnt p k < length kp) by (rewrite <- Hcnt; now apply cnt_lt).
      destruct (Nat.ltb_spec (cnt p k) (length kp)); [|lia].
      unfold kept_axes. fold p. rewrite nth_filter_cnt by assumption. reflexivity.
Qed.
End SM.

From Verif Require Import SpecArray.

Lemma np_sum_keep_axes_ext : forall p l l',
  (forall k, k < ndim p -> memb k l = memb k l') -> np_sum_keep p l = np_sum_keep p l'.
Proof.
  intros p l l' H. unfold np_sum_keep, sum_axes_list, mkshape, ndim in *. f_equal.
  - apply map_ext_in. intros k Hk. apply in_back_range in Hk. now rewrite H.
  - f_equal. f_equal. apply filter_ext_in. intros k Hk. apply in_seq in Hk. apply H. lia.
Qed.

Lemma np_sum_axes_ext : forall p l l',
  (forall k, k < ndim p -> memb k l = memb k l') -> np_sum p l = np_sum p l'.
Proof.
  intros p l l' H. unfold np_sum. rewrite (np_sum_keep_axes_ext p l l' H).
  unfold drop_axes. replace (kept_axes (ndim (np_sum_keep p l')) l) with (kept_axes (ndim (np_sum_keep p l')) l'); [reflexivity|].
  unfold kept_axes. apply filter_ext_in. intros k Hk. apply in_seq in Hk.
  unfold ndim in Hk. cbn [np_sum_keep ash] in Hk. rewrite length_mkshape in Hk.
  rewrite H; [reflexivity|lia].
Qed.

Lemma numpy_sum_axes_ext : forall p l l' kd,
  (forall k, k < ndim p -> memb k l = memb k l') -> numpy_sum p l kd = numpy_sum p l' kd.
Proof.
  intros p l l' [|] H; [now apply np_sum_keep_axes_ext|now apply np_sum_axes_ext].
Qed.

Lemma insertZ_perm : forall x l, Permutation (insertZ x l) (x :: l).
Proof.
  intros x l. induction l as [|y r IH]; simpl; [apply Permutation_refl|].
  destruct (x <=? y)%Z; [apply Permutation_refl|].
  rewrite IH. apply perm_swap.
Qed.

Lemma sortedZ_perm : forall l, Permutation (sortedZ l) l.
Proof.
  induction l as [|x l IH]; simpl; [apply Permutation_refl|].
  rewrite insertZ_perm. now constructor.
Qed.

Lemma insertZ_sorted : forall x l, StronglySorted Z.le l -> StronglySorted Z.le (insertZ x l).
Proof.
  intros x l H. induction H as [|y l H IH Hf]; simpl; [repeat constructor|].
  destruct (Z.leb_spec x y) as [Hle|Hgt].
  - constructor; [now constructor|]. constructor; [assumption|].
    eapply Forall_impl; [|exact Hf]. intros; lia.
  - constructor; [assumption|]. apply Forall_forall. intros z Hz.
    apply (Permutation_in _ (insertZ_perm x l)) in Hz. destruct Hz as [<-|Hz]; [lia|].
    rewrite Forall_forall in Hf. auto.
Qed.

Lemma sortedZ_sorted : forall l, StronglySorted Z.le (sortedZ l).
Proof. induction l as [|x l IH]; simpl; [constructor|]. now apply insertZ_sorted. Qed.

Lemma seq_sorted : forall m n, StronglySorted lt (seq m n).
Proof.
  intros m n. revert m. induction n as [|n IH]; intros m; simpl; [constructor|].
  constructor; [apply IH|]. apply Forall_forall. intros x Hx. apply in_seq in Hx. lia.
Qed.

Lemma filter_sorted : forall (p : nat -> bool) l, StronglySorted lt l -> StronglySorted lt (filter p l).
Proof.
  intros p l H. induction H as [|y l H IH Hf]; simpl; [constructor|].
  destruct (p y); [|assumption]. constructor; [assumption|].
  apply Forall_forall. intros z Hz. apply filter_In in Hz as [Hz _].
  rewrite Forall_forall in Hf. auto.
Qed.

Lemma sorted_Zto_nat : forall l, StronglySorted Z.le l -> NoDup l -> (forall x, In x l -> 0 <= x)%Z ->
  StronglySorted lt (map Z.to_nat l).
Proof.
  intros l H. induction H as [|y l H IH Hf]; simpl; intros HN Hpos; [constructor|].
  inversion HN as [|? ? H1 H2]; subst. constructor.
  - apply IH; auto.
  - apply Forall_forall. intros z Hz. apply in_map_iff in Hz as [x [<- Hx]].
    rewrite Forall_forall in Hf. specialize (Hf x Hx).
    assert (x <> y) by (intros ->; contradiction).
    pose proof (Hpos y ltac:(auto)). lia.
Qed.

Lemma existsb_out_bounds : forall n axes,
  existsb (fun i => (i <? 0)%Z || (i >=? Z.of_nat n)%Z) axes = false ->
  forall i, In i axes -> (0 <= i < Z.of_nat n)%Z.
Proof.
  intros n axes H i Hi.
  destruct ((i <? 0)%Z || (i >=? Z.of_nat n)%Z) eqn:E.
  - assert (existsb (fun i => (i <? 0)%Z || (i >=? Z.of_nat n)%Z) axes = true); [|congruence].
    apply existsb_exists. eauto.
  - apply orb_false_iff in E as [E1 E2]. lia.
Qed.

(** Core: once the kept positions are known, distinct and in range. *)
Lemma sum_multiply_core : forall args S axis sumaxis keepdims axes,
  args <> [] -> broadcasted_shape (map ash args) = Ok S ->
  kept_positions (length S) axis sumaxis = Ok axes ->
  (forall i, In i axes -> (0 <= i < Z.of_nat (length S))%Z) ->
  StronglySorted lt (map Z.to_nat axes) ->
  exists y, sum_multiply args axis sumaxis keepdims = Ok y /\
    arr_eq y (numpy_sum (Arr S (prodf args))
                (filter (fun k => negb (memb (length S - 1 - k) (map Z.to_nat axes))) (seq 0 (length S)))
                keepdims).
Proof.
  intros args S axis sumaxis keepdims axes Hne HS Hk Hb Hsort.
  pose proof (S_len args S HS) as HL.
  unfold sum_multiply. destruct args as [|a0 r] eqn:Eargs; [congruence|].
  rewrite <- Eargs in *. clear Hne.
  rewrite <- HL. rewrite Hk. cbn [bind].
  assert (Hex : existsb (fun i => (i <? 0)%Z || (i >=? Z.of_nat (length S))%Z) axes = false).
  { destruct (existsb _ axes) eqn:E; [|reflexivity].
    apply existsb_exists in E as [i [Hi E]]. specialize (Hb i Hi).
    apply orb_true_iff in E as [E|E]; lia. }
  rewrite Hex.
  assert (Hlt : forall i, In i (map Z.to_nat axes) -> i < max_rank (map ash args)).
  { intros i Hi. apply in_map_iff in Hi as [z [<- Hz]]. specialize (Hb z Hz). rewrite <- HL. lia. }
  rewrite HL.
  destruct keepdims.
  - destruct (einsum_np_sum_keep args _ Hsort Hlt S HS) as [y [Hy [z [Hz Heq]]]].
    rewrite Hy. cbn [bind]. exists z. split; [exact Hz|exact Heq].
  - destruct (einsum_np_sum args _ Hsort Hlt S HS) as [y [Hy Heq]].
    rewrite Hy. cbn [bind]. exists y. split; [reflexivity|exact Heq].
Qed.

Lemma map_ofnat_tonat : forall l, map Z.to_nat (map Z.of_nat l) = l.
Proof. intros l. rewrite map_map. rewrite <- (map_id l) at 2. apply map_ext. intros; apply Nat2Z.id. Qed.

Definition distinct_axes (n : nat) (axis : axspec) (sumaxis : bool) : Prop :=
  match axis, sumaxis with
  | AxList l, false =>
      (forall i, In i l -> - Z.of_nat n <= i < Z.of_nat n)%Z /\
      NoDup (map (fun i => if (i >=? 0)%Z then i else (i + Z.of_nat n)%Z) l)
  | AxScalar _, false => False
  | _, _ => True
  end.

Lemma sum_multiply_spec : forall args S axis sumaxis keepdims,
  args <> [] -> broadcasted_shape (map ash args) = Ok S ->
  distinct_axes (length S) axis sumaxis ->
  exists y, sum_multiply args axis sumaxis keepdims = Ok y /\
    arr_eq y (numpy_sum (Arr S (prodf args))
                (filter (asked_to_sum (length S) axis sumaxis) (seq 0 (length S)))
                keepdims).
Proof.
  intros args S axis sumaxis keepdims Hne HS Hd.
  set (n := length S) in *.
  assert (Hmain : forall axes,
    kept_positions n axis sumaxis = Ok axes ->
    (forall i, In i axes -> (0 <= i < Z.of_nat n)%Z) ->
    StronglySorted lt (map Z.to_nat axes) ->
    (forall k, k < n -> memb (n - 1 - k) (map Z.to_nat axes) = negb (asked_to_sum n axis sumaxis k)) ->
    exists y, sum_multiply args axis sumaxis keepdims = Ok y /\
      arr_eq y (numpy_sum (Arr S (prodf args)) (filter (asked_to_sum n axis sumaxis) (seq 0 n)) keepdims)).
  { intros axes H1 H2 H3 H4.
    destruct (sum_multiply_core args S axis sumaxis keepdims axes Hne HS H1 H2 H3) as [y [Hy He]].
    exists y. split; [assumption|]. fold n in He.
    replace (filter (asked_to_sum n axis sumaxis) (seq 0 n))
      with (filter (fun k => negb (memb (n - 1 - k) (map Z.to_nat axes))) (seq 0 n)); [exact He|].
    apply filter_ext_in. intros k Hk. apply in_seq in Hk. rewrite H4 by lia. apply negb_involutive. }
  set (p := fun (l : list Z) (i : Z) => negb (memZ i l) && negb (memZ (- Z.of_nat n + i) l)).
  assert (Hcompl : forall l, kept_positions n axis sumaxis = Ok (filter (p l) (map Z.of_nat (seq 0 n))) ->
     (forall k, asked_to_sum n axis sumaxis k = named n l k) ->
     exists y, sum_multiply args axis sumaxis keepdims = Ok y /\
      arr_eq y (numpy_sum (Arr S (prodf args)) (filter (asked_to_sum n axis sumaxis) (seq 0 n)) keepdims)).
  { intros l Hk Ha. apply (Hmain _ Hk).
    - intros i Hi. apply filter_In in Hi as [Hi _]. apply in_map_iff in Hi as [x [<- Hx]].
      apply in_seq in Hx. lia.
    - rewrite filter_map_comm, map_ofnat_tonat. apply filter_sorted, seq_sorted.
    - intros k Hk'. rewrite Ha. rewrite filter_map_comm, map_ofnat_tonat.
      assert (Hp : p l (Z.of_nat (n - 1 - k)) = negb (named n l k)).
      { unfold p, named, memZ. rewrite negb_orb. f_equal; f_equal.
        - apply f_equal2; [|reflexivity]. f_equal. lia.
        - apply f_equal2; [|reflexivity]. f_equal. lia. }
      rewrite <- Hp. destruct (p l (Z.of_nat (n - 1 - k))) eqn:E.
      + apply memb_In. apply filter_In. split; [apply in_seq; lia|assumption].
      + apply memb_false. intros Hin. apply filter_In in Hin as [_ Hin]. congruence. }
  destruct axis as [|i|l]; destruct sumaxis; cbn [distinct_axes] in Hd.
  - apply (Hmain []); [reflexivity|intros i []|constructor|reflexivity].
  - apply (Hmain (map Z.of_nat (seq 0 n))); [reflexivity| | |].
    + intros i Hi. apply in_map_iff in Hi as [x [<- Hx]]. apply in_seq in Hx. lia.
    + rewrite map_ofnat_tonat. apply seq_sorted.
    + intros k Hk. rewrite map_ofnat_tonat. simpl. apply memb_In. apply in_seq. lia.
  - apply (Hcompl [i]); reflexivity.
  - destruct Hd.
  - apply (Hcompl l); reflexivity.
  - destruct Hd as [Hr HN].
    set (g := fun i => if (i >=? 0)%Z then i else (i + Z.of_nat n)%Z) in *.
    assert (Hin : forall i, In i (sortedZ (map g l)) <-> exists j, In j l /\ g j = i).
    { intros i. split.
      - intros H. apply (Permutation_in _ (sortedZ_perm _)) in H.
        apply in_map_iff in H as [j [E Hj]]. eauto.
      - intros [j [Hj E]]. apply (Permutation_in _ (Permutation_sym (sortedZ_perm _))).
        apply in_map_iff. eauto. }
    assert (Hrg : forall j, In j l -> (0 <= g j < Z.of_nat n)%Z).
    { intros j Hj. specialize (Hr j Hj). unfold g. destruct (j >=? 0)%Z eqn:E; lia. }
    apply (Hmain (sortedZ (map g l))); [reflexivity| | |].
    + intros i Hi. apply Hin in Hi as [j [Hj <-]]. now apply Hrg.
    + apply sorted_Zto_nat.
      * apply sortedZ_sorted.
      * apply (Permutation_NoDup (Permutation_sym (sortedZ_perm _))). exact HN.
      * intros x Hx. apply Hin in Hx as [j [Hj <-]]. apply Hrg in Hj. lia.
    + intros k Hk. cbn [asked_to_sum]. rewrite negb_involutive.
      unfold named. destruct (existsb _ l || existsb _ l) eqn:E.
      * apply memb_In. apply in_map_iff. exists (Z.of_nat (n - 1 - k)). split; [apply Nat2Z.id|].
        apply Hin. apply orb_true_iff in E as [E|E]; apply existsb_exists in E as [j [Hj E]];
          apply Z.eqb_eq in E; exists j; (split; [assumption|]); subst j; unfold g;
          match goal with |- context [if ?c then _ else _] => destruct c eqn:E2 end; lia.
      * apply memb_false. intros H. apply in_map_iff in H as [z [E1 Hz]].
        apply Hin in Hz as [j [Hj <-]]. pose proof (Hrg j Hj) as Hb.
        apply orb_false_iff in E as [E2 E3].
        unfold g in *. destruct (j >=? 0)%Z eqn:Ej.
        -- assert (existsb (Z.eqb (Z.of_nat n - 1 - Z.of_nat k)) l = true); [|congruence].
           apply existsb_exists. exists j. split; [assumption|]. apply Z.eqb_eq. lia.
        -- assert (existsb (Z.eqb (-1 - Z.of_nat k)) l = true); [|congruence].
           apply existsb_exists. exists j. split; [assumption|]. apply Z.eqb_eq. lia.
Qed.
