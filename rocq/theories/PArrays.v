(** Properties C05-C10: multipliers, sums over plates, messages, axis moves. *)
From Coq Require Import List Arith ZArith Lia Bool Reals Lra Permutation FunctionalExtensionality Sorted.
From Verif Require Import Base Shapes SpecShapes ShapesLemmas NumPy MiscArray TensorLemmas
  EinsumLemmas SpecArray SumMultiplyLemmas PlateSumLemmas PlateSum2Lemmas PlateSum3Lemmas
  MessageLemmas ShapeOpsLemmas.
Import ListNotations.
Open Scope nat_scope.

(** * C05 *)

(** Each element [t] of the joint broadcast [J] of the shapes stands for exactly
    [r] elements of [plates]. *)
Theorem C05_multiplier_counts_elements : forall plates shapes r J t,
  broadcasting_multiplier plates shapes = Ok r -> numpy_broadcast shapes J -> valid J t ->
  length (filter (fun i => maps_to (length plates) J i t) (all_indices plates)) = r.
Proof.
  intros plates shapes r J t Hr HJ Ht. apply INR_eq. symmetry.
  rewrite <- (multiplier_counts plates J r shapes t Hr (proj2 (broadcasted_shape_ok _ _) HJ) Ht).
  unfold fibre_sum. induction (filter _ _) as [|i l IH]; [reflexivity|].
  cbn [map length]. rewrite S_INR. unfold lsum in *. cbn [fold_right]. rewrite IH. ring.
Qed.
Print Assumptions C05_multiplier_counts_elements.

(** Summing an array of the joint shape over [plates] is [r] times summing it. *)
Theorem C05_multiplier_scales_sum : forall plates shapes r (x : arr R),
  broadcasting_multiplier plates shapes = Ok r -> numpy_broadcast shapes (ash x) ->
  total plates (bget x) = (INR r * total (ash x) (bget x))%R.
Proof.
  intros plates shapes r x Hr HJ. apply broadcasting_multiplier_ok in Hr as [Hr ->].
  rewrite (bm_value_joint _ _ _ HJ). apply total_expand.
  - apply (broadcast_least _ _ _ HJ Hr).
  - intros k Hk. now apply bget_indep.
Qed.
Print Assumptions C05_multiplier_scales_sum.

Theorem C05_multiplier_raises_iff : forall plates shapes,
  ((exists r, broadcasting_multiplier plates shapes = Ok r) <->
     forall s, In s shapes -> broadcasts_to s plates) /\
  (forall e, broadcasting_multiplier plates shapes = Err e -> e = ValueError).
Proof.
  intros plates shapes. split.
  - split.
    + intros [r H]. now apply broadcasting_multiplier_ok in H.
    + intros H. eexists. apply broadcasting_multiplier_ok. split; [exact H|reflexivity].
  - apply broadcasting_multiplier_err.
Qed.
Print Assumptions C05_multiplier_raises_iff.

Example C05_example :
  broadcasting_multiplier [5;3;4] [[3;1]; [1]] = Ok 20 /\
  numpy_broadcast [[3;1]; [1]] [3;1] /\ valid [3;1] (upd env0 1 2) /\
  broadcasting_multiplier [5;3;4] [[2;1]] = Err ValueError.
Proof.
  split; [reflexivity|]. split; [apply broadcasted_shape_ok; reflexivity|]. split; [|reflexivity].
  intros k. destruct k as [|[|[|k]]]; cbv; lia.
Qed.

(** * C06 *)

(** The elementwise product of arrays that broadcast together to shape [S]. *)
Definition product_array (args : list (arr R)) (S : list nat) : arr R :=
  Arr S (fun e => lprod (map (fun a => bget a e) args)).

(** [product_array] is what NumPy's multiplication of all the arrays gives. *)
Theorem C06_product_array_is_numpy_product : forall args p,
  np_reduce_multiply args = Ok p ->
  numpy_broadcast (map ash args) (ash p) /\ arr_eq p (product_array args (ash p)).
Proof.
  intros args p H. apply np_reduce_multiply_ok in H as [H1 H2]. split; [assumption|].
  split; [reflexivity|]. intros e He. rewrite H2.
  symmetry. apply (bget_P args (ash p)). now apply broadcasted_shape_ok.
Qed.
Print Assumptions C06_product_array_is_numpy_product.

Theorem C06_sum_multiply_is_multiply_then_sum : forall args S axis sumaxis keepdims,
  args <> [] -> numpy_broadcast (map ash args) S ->
  distinct_axes (length S) axis sumaxis ->
  exists y, sum_multiply args axis sumaxis keepdims = Ok y /\
    arr_eq y (numpy_sum (product_array args S)
                (filter (asked_to_sum (length S) axis sumaxis) (seq 0 (length S)))
                keepdims).
Proof.
  intros args S axis sumaxis keepdims H1 H2 H3.
  apply sum_multiply_spec; [assumption|now apply broadcasted_shape_ok|assumption].
Qed.
Print Assumptions C06_sum_multiply_is_multiply_then_sum.

Lemma sum_multiply_empty : forall axis sumaxis keepdims,
  sum_multiply [] axis sumaxis keepdims = Err ValueError.
Proof. reflexivity. Qed.

(** No arguments, arrays that clash, or a kept axis out of bounds: an exception,
    and a ValueError when the axes are given as a list. *)
Theorem C06_sum_multiply_raises : forall args axis sumaxis keepdims,
  (args = [] \/ clash (map ash args) \/
   exists l i, axis = AxList l /\ sumaxis = false /\ In i l /\
     ~ (- Z.of_nat (list_max (map (fun a => ndim a) args)) <= i
        < Z.of_nat (list_max (map (fun a => ndim a) args)))%Z) ->
  (sumaxis = true \/ forall i, axis <> AxScalar i) ->
  sum_multiply args axis sumaxis keepdims = Err ValueError.
Proof.
  intros args axis sumaxis keepdims H Hax.
  destruct args as [|a0 args0]; [reflexivity|].
  set (args := a0 :: args0) in *.
  assert (Hmr : list_max (map (fun a : arr R => ndim a) args) = max_rank (map ash args)).
  { destruct (broadcasted_shape []) eqn:E; try (clear E);
    assert (Hg : forall (l : list (arr R)) m, fold_left (fun d s => Nat.max d (length s)) (map ash l) m
              = Nat.max m (list_max (map (fun a => ndim a) l))).
    all: try (induction l as [|x l IH]; intros m; cbn [map fold_left list_max fold_right];
      [lia|rewrite IH; unfold list_max, ndim; cbn; lia]).
    all: unfold max_rank; rewrite Hg; reflexivity. }
  unfold sum_multiply. fold args. change (match args with [] => _ | _ :: _ => ?t end) with t.
  set (n := max_rank (map ash args)) in *.
  destruct (kept_positions n axis sumaxis) as [axes|e] eqn:Ek.
  2:{ exfalso. unfold kept_positions in Ek. destruct sumaxis, axis; try discriminate.
      destruct Hax as [Hax|Hax]; [discriminate|]. now apply (Hax i). }
  cbn [bind].
  destruct (existsb (fun i => (i <? 0)%Z || (i >=? Z.of_nat n)%Z) axes) eqn:Ex; [reflexivity|].
  destruct H as [H|[H|H]].
  - discriminate.
  - (* clash *)
    unfold einsum.
    destruct (_ && _); [|reflexivity].
    match goal with |- context [mapM ?f ?l] => destruct (mapM f l) as [sizes|e] eqn:Em end.
    + exfalso.
      assert (Hok : exists S, broadcasted_shape (map ash args) = Ok S).
      { unfold broadcasted_shape. apply mapM_ok_iff. intros k Hk. apply in_back_range in Hk. fold n in Hk.
        assert (Hin : In (n - 1 - k) (op_labels (map (fun a => (a, seq (n - ndim a) (ndim a))) args))).
        { apply (Permutation_in _ (Permutation_sym (op_labels_perm args))). apply in_map_iff.
          exists k. split; [reflexivity|]. apply in_seq. fold n. lia. }
        destruct (proj1 (mapM_ok_iff _ _ _ _) (ex_intro _ _ Em) _ Hin) as [b Hb].
        apply bind_ok in Hb as [d [Hd _]].
        assert (Hd' : bdim (label_dims (map (fun a => (a, seq (n - ndim a) (ndim a))) args) (n - 1 - k))
                      = foldM (bc_step (n - 1 - (n - 1 - k))) 1 (map ash args)).
        { apply label_size. fold n. lia. }
        rewrite Hd in Hd'. replace (n - 1 - (n - 1 - k)) with k in Hd' by lia. exists d. now symmetry. }
      destruct Hok as [S HS]. apply broadcasted_shape_error_iff in H. congruence.
    + apply mapM_err in Em as [l [_ Em]]. apply bind_err in Em as [Em|[d [_ Em]]]; [|discriminate].
      apply bdim_err in Em as [-> _]. reflexivity.
  - exfalso. destruct H as (l & i & -> & -> & Hi & Hout). cbn [kept_positions] in Ek. injection Ek as <-.
    rewrite Hmr in Hout. fold n in Hout.
    assert (Hf : forall i, In i (sortedZ (map (fun i => if (i >=? 0)%Z then i else (i + Z.of_nat n)%Z) l)) ->
              ((i <? 0)%Z || (i >=? Z.of_nat n)%Z) = false).
    { intros j Hj. destruct ((j <? 0)%Z || (j >=? Z.of_nat n)%Z) eqn:E; [|reflexivity].
      assert (Hc : existsb (fun i => (i <? 0)%Z || (i >=? Z.of_nat n)%Z)
        (sortedZ (map (fun i => if (i >=? 0)%Z then i else (i + Z.of_nat n)%Z) l)) = true)
        by (apply existsb_exists; eauto).
      congruence. }
    specialize (Hf (if (i >=? 0)%Z then i else (i + Z.of_nat n)%Z)).
    apply orb_false_iff in Hf as [H1 H2].
    + apply Z.ltb_ge in H1. rewrite Z.geb_leb, Z.leb_gt in H2. destruct (Z.geb_spec i 0); lia.
    + apply (Permutation_in _ (Permutation_sym (sortedZ_perm _))). now apply in_map with (f := fun i => if (i >=? 0)%Z then i else (i + Z.of_nat n)%Z).
Qed.
Print Assumptions C06_sum_multiply_raises.

(** A single kept axis cannot be given as an integer: the documented call
    sum_multiply(A, axis=0, sumaxis=False) raises TypeError. *)
Theorem C06_scalar_kept_axis_refuted :
  sum_multiply [Arr [2;3] (fun _ => 1%R)] (AxScalar 0) false false = Err TypeError.
Proof. reflexivity. Qed.
Print Assumptions C06_scalar_kept_axis_refuted.

Example C06_example :
  numpy_broadcast (map ash [Arr [2;1] (fun e => INR (e 1)); Arr [3] (fun e => INR (e 0))]) [2;3] /\
  distinct_axes 2 (AxList [-1;0]%Z) false /\
  filter (asked_to_sum 2 (AxList [-1]%Z) false) (seq 0 2) = [1] /\
  clash (map ash [Arr [2] (fun _ => 1%R); Arr [3] (fun _ => 1%R)]).
Proof.
  split; [apply broadcasted_shape_ok; reflexivity|]. split; [|split; [reflexivity|]].
  - split.
    + intros i [<-|[<-|[]]]; lia.
    + cbn. constructor; [intros [H|[]]; discriminate|]. constructor; [intros []|constructor].
  - exists 0, [2], [3]. cbn. repeat split; auto; discriminate.
Qed.

(** * C07 *)

(** [nd] trailing axes are variable axes, the others are plates. *)
Definition leading_axes (nd : nat) (s : list nat) : list nat := firstn (length s - nd) s.

(** For every element [t] of [to_plates] and every variable index [v], the
    result is the sum of the product over all elements of [from_plates] that
    broadcast to [t].  Without [from_plates], they are the broadcast of
    [to_plates] and the plates of the arrays. *)
Theorem C07_sum_multiply_to_plates_is_expanded_sum :
  forall arrays to_plates from from_plates nd S,
  arrays <> [] ->
  numpy_broadcast (map ash arrays) S ->
  (from = Some from_plates \/
   from = None /\
   numpy_broadcast (to_plates :: map (fun a => leading_axes nd (ash a)) arrays) from_plates) ->
  (forall a, In a arrays -> broadcasts_to (leading_axes nd (ash a)) from_plates) ->
  broadcasts_to to_plates from_plates ->
  exists y, sum_multiply_to_plates arrays to_plates from nd = Ok y /\
    length (ash y) <= length to_plates + nd /\
    (forall k, ax (ash y) (k + nd) = if ax to_plates k =? 1 then 1 else ax S (k + nd)) /\
    (forall k, k < nd -> ax (ash y) k = ax S k) /\
    forall t v, valid to_plates t -> (forall k, k < nd -> v k < ax S k) ->
      bget y (join nd t v) =
      fibre_sum from_plates to_plates t
        (fun i => lprod (map (fun a => bget a (join nd i v)) arrays)).
Proof.
  intros arrays tp from fp nd S Hne HS Hfrom Ha Htp.
  apply broadcasted_shape_ok in HS.
  destruct (smtp_some arrays tp fp nd S Hne HS Ha Htp) as (y & Hy & H).
  exists y. split; [|exact H].
  destruct Hfrom as [->|[-> Hfp]]; [assumption|].
  rewrite (smtp_none arrays tp fp nd); [assumption|]. now apply broadcasted_shape_ok.
Qed.
Print Assumptions C07_sum_multiply_to_plates_is_expanded_sum.

Theorem C07_sum_multiply_to_plates_raises : forall arrays to_plates from_plates nd,
  (~ broadcasts_to to_plates from_plates \/
   exists a, In a arrays /\ ~ broadcasts_to (leading_axes nd (ash a)) from_plates) ->
  sum_multiply_to_plates arrays to_plates (Some from_plates) nd = Err ValueError.
Proof. exact smtp_raises. Qed.
Print Assumptions C07_sum_multiply_to_plates_raises.

Definition ones (s : list nat) : arr R := Arr s (fun _ => 1%R).

Example C07_example :
  let arrays := [ones [3;1;2]; ones [4;1]] in
  numpy_broadcast (map ash arrays) [3;4;2] /\
  (forall a, In a arrays -> broadcasts_to (leading_axes 1 (ash a)) [5;3;4]) /\
  broadcasts_to [3;1] [5;3;4].
Proof.
  cbn. split; [apply broadcasted_shape_ok; reflexivity|]. split.
  - intros a [<-|[<-|[]]]; apply is_shape_subset_spec; reflexivity.
  - apply is_shape_subset_spec; reflexivity.
Qed.

(** * C08 *)

(** The message to the parent: for every element [t] of the parent's plates and
    dimensions, the plate multiplier times the sum, over all elements of the
    node's plates that map to [t], of the message where the mask is True. *)
Theorem C08_message_to_parent_is_masked_sum :
  forall m mask plates_self mult_self mult_parent parent_plates parent_dims D,
  broadcasts_to parent_plates plates_self ->
  broadcasts_to mult_parent mult_self ->
  numpy_broadcast [skipn (ndim m - length parent_dims) (ash m); parent_dims] D ->
  broadcasts_to (ash m) (plates_self ++ D) ->
  broadcasts_to (ash mask) plates_self ->
  exists y r,
    message_to_parent m mask plates_self mult_self mult_parent parent_plates parent_dims = Ok y /\
    broadcasting_multiplier mult_self [mult_parent] = Ok r /\
    broadcasts_to (ash y) (parent_plates ++ D) /\
    forall t, valid (parent_plates ++ parent_dims) t ->
      bget y t =
      (INR r * fibre_sum (plates_self ++ D) (parent_plates ++ parent_dims) t
                 (fun i => if bget mask (fun k => (i (k + length parent_dims)%nat))
                           then bget m i else 0))%R.
Proof.
  intros m mask ps ms mp pp pd D H1 H2 H3. apply message_to_parent_ok; try assumption.
  now apply broadcasted_shape_ok.
Qed.
Print Assumptions C08_message_to_parent_is_masked_sum.

(** The mask of the parent: True at [t] iff the node's weight is non-zero at
    some element of the node's plates that maps to [t]. *)
Theorem C08_mask_to_parent_is_any : forall w plates parent_plates,
  broadcasts_to (ash w) plates -> broadcasts_to parent_plates plates ->
  (forall k, ax plates k <> 0) ->
  exists y, mask_to_parent w plates parent_plates = Ok y /\
    broadcasts_to (ash y) parent_plates /\
    forall t, valid parent_plates t ->
      (bget y t = true <->
       exists i, valid plates i /\ maps_to (length plates) parent_plates i t = true /\
                 bget w i = true).
Proof. exact mask_to_parent_ok. Qed.
Print Assumptions C08_mask_to_parent_is_any.

Example C08_example :
  let m := ones [4;2] in let mask := Arr [3;1] (fun e => e 1 =? 0) in
  broadcasts_to [4] [3;4] /\ broadcasts_to [] [7] /\
  numpy_broadcast [skipn (ndim m - 1) (ash m); [2]] [2] /\
  broadcasts_to (ash m) ([3;4] ++ [2]) /\ broadcasts_to (ash mask) [3;4] /\
  (forall k, ax [3;4] k <> 0).
Proof.
  cbn. repeat split; try (apply is_shape_subset_spec; reflexivity);
    try (apply broadcasted_shape_ok; reflexivity).
  all: try (cbn; lia).
  all: try (intros k; destruct k as [|[|[|k]]]; cbn; try tauto; try lia).
  all: try (intros a [<-|[<-|[]]]; cbn; auto).
  all: try (right; eexists; cbn; split; [left; reflexivity|reflexivity]).
  all: auto.
Qed.

(** * C09 *)

Theorem C09_sum_to_shape_is_fibre_sum_partial : forall (x : arr R) s,
  broadcasts_to s (ash x) -> (forall k, ax s k = 1 -> ax (ash x) k <> 0) ->
  exists y, sum_to_shape x s = Ok y /\ ash y = s /\
    forall t, valid s t -> bget y t = fibre_sum (ash x) s t (bget x).
Proof. exact sum_to_shape_ok. Qed.
Print Assumptions C09_sum_to_shape_is_fibre_sum_partial.

Theorem C09_sum_to_shape_raises : forall (x : arr R) s,
  length s <= ndim x -> ~ broadcasts_to s (ash x) -> sum_to_shape x s = Err ValueError.
Proof. exact sum_to_shape_err. Qed.
Print Assumptions C09_sum_to_shape_raises.

(** The result does not have the requested shape when [s] has more axes than
    the array, nor when an axis of length zero has to become one. *)
Theorem C09_sum_to_shape_shape_refuted :
  (exists y, sum_to_shape (ones [2]) [1;2] = Ok y /\ ash y = [2]) /\
  (exists y, sum_to_shape (ones [0]) [1] = Ok y /\ ash y = [0]).
Proof. split; eexists; split; reflexivity. Qed.
Print Assumptions C09_sum_to_shape_shape_refuted.

Theorem C09_repeat_to_shape_is_broadcast_copy : forall A (a : arr A) s,
  broadcasts_to (ash a) s ->
  exists y, repeat_to_shape a s = Ok y /\ ash y = s /\
    forall e, valid s e -> bget y e = bget a e.
Proof. exact repeat_to_shape_ok. Qed.
Print Assumptions C09_repeat_to_shape_is_broadcast_copy.

Theorem C09_repeat_to_shape_raises : forall A (a : arr A) s,
  ~ broadcasts_to (ash a) s -> repeat_to_shape a s = Err PyException.
Proof. exact repeat_to_shape_err. Qed.
Print Assumptions C09_repeat_to_shape_raises.

(** <repeat(A), X> = <A, sum_to_shape(X)> *)
Theorem C09_repeat_and_sum_are_adjoint : forall (a x ra sx : arr R),
  broadcasts_to (ash a) (ash x) -> (forall k, ax (ash a) k = 1 -> ax (ash x) k <> 0) ->
  repeat_to_shape a (ash x) = Ok ra -> sum_to_shape x (ash a) = Ok sx ->
  total (ash x) (fun i => bget ra i * bget x i)%R =
  total (ash a) (fun t => bget a t * bget sx t)%R.
Proof.
  intros a x ra sx Hb Hz Hra Hsx.
  destruct (repeat_to_shape_ok _ a (ash x) Hb) as (ra' & Hra' & _ & Hg1).
  rewrite Hra in Hra'. injection Hra' as <-.
  destruct (sum_to_shape_ok x (ash a) Hb Hz) as (sx' & Hsx' & _ & Hg2).
  rewrite Hsx in Hsx'. injection Hsx' as <-.
  transitivity (total (ash x) (fun i => bget a i * bget x i)%R).
  { unfold total. f_equal. apply map_ext_in. intros i Hi. apply all_indices_valid in Hi. now rewrite Hg1. }
  rewrite (total_fibres (ash x) (ash a)) by assumption.
  unfold total. f_equal. apply map_ext_in. intros t Ht. apply all_indices_valid in Ht.
  rewrite fibre_mul by (try assumption; intros; now apply bget_indep). now rewrite Hg2.
Qed.
Print Assumptions C09_repeat_and_sum_are_adjoint.

Example C09_example :
  broadcasts_to [1;3] [2;4;3] /\ (forall k, ax [1;3] k = 1 -> ax [2;4;3] k <> 0) /\
  (exists ra, repeat_to_shape (ones [1;3]) [2;4;3] = Ok ra) /\
  ~ broadcasts_to [2] [3].
Proof.
  split; [apply is_shape_subset_spec; reflexivity|]. split; [|split].
  - intros k. destruct k as [|[|[|[|k]]]]; cbn; lia.
  - eexists; reflexivity.
  - intros H. apply is_shape_subset_spec in H. discriminate.
Qed.

(** * C10 *)

Theorem C10_moveaxis_moves_one_axis : forall A (a : arr A) from to,
  let n := ndim a in
  (- Z.of_nat n <= from < Z.of_nat n)%Z -> (- Z.of_nat n <= to < Z.of_nat n)%Z ->
  exists y, moveaxis a from to = Ok y /\
    ash y = move_element (position n from) (position n to) 0 (ash a) /\
    forall idx, length idx = n ->
      bget y (at_index (move_element (position n from) (position n to) 0 idx)) =
      bget a (at_index idx).
Proof. intros A a f t n. apply moveaxis_ok. Qed.
Print Assumptions C10_moveaxis_moves_one_axis.

Theorem C10_moveaxis_raises : forall A (a : arr A) from to,
  let n := ndim a in
  ~ (- Z.of_nat n <= from < Z.of_nat n)%Z \/ ~ (- Z.of_nat n <= to < Z.of_nat n)%Z ->
  moveaxis a from to = Err ValueError.
Proof. intros A a f t n. apply moveaxis_err. Qed.
Print Assumptions C10_moveaxis_raises.

Example C10_example :
  (- Z.of_nat (ndim (ones [2;3;4;5]%nat)) <= -1 < Z.of_nat (ndim (ones [2;3;4;5]%nat)))%Z /\
  move_element 3 1 0 [2;3;4;5] = [2;5;3;4] /\ position 4 (-1)%Z = 3.
Proof. cbn. repeat split; try lia; reflexivity. Qed.
