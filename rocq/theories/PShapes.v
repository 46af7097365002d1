(** Properties C01-C04: shapes and plates. *)
From Coq Require Import List Arith Lia Bool Permutation.
From Verif Require Import Base Shapes SpecShapes ShapesLemmas.
Import ListNotations.

(** * C01 *)

(** broadcasted_shape returns S exactly when S is the NumPy broadcast. *)
Theorem C01_broadcasted_shape_is_numpy : forall shapes S,
  broadcasted_shape shapes = Ok S <-> numpy_broadcast shapes S.
Proof. exact broadcasted_shape_ok. Qed.
Print Assumptions C01_broadcasted_shape_is_numpy.

(** It raises exactly when two shapes clash, and then it is a ValueError. *)
Theorem C01_broadcasted_shape_raises_iff_clash : forall shapes,
  (clash shapes <-> broadcasted_shape shapes = Err ValueError) /\
  (forall e, broadcasted_shape shapes = Err e -> e = ValueError).
Proof.
  intros shapes. split.
  - symmetry. apply broadcasted_shape_error_iff.
  - intros e H. now apply broadcasted_shape_err in H.
Qed.
Print Assumptions C01_broadcasted_shape_raises_iff_clash.

Example C01_example :
  broadcasted_shape [[3;1]; [4]; [7;1;1]; []] = Ok [7;3;4] /\
  broadcasted_shape [[3;0]; [1]] = Ok [3;0] /\
  broadcasted_shape [[3;2]; [4]] = Err ValueError /\
  clash [[3;2]; [4]].
Proof.
  repeat split; try reflexivity.
  exists 0, [3;2], [4]. simpl. repeat split; auto; discriminate.
Qed.

(** * C02 *)

(** The result (value or exception) is the same for every order. *)
Theorem C02_plates_order_independent : forall shapes shapes',
  Permutation shapes shapes' ->
  total_plates None shapes = total_plates None shapes'.
Proof.
  intros l l' H. rewrite !total_plates_none. apply broadcasted_shape_in_ext.
  intros a; split; apply Permutation_in; [|symmetry]; assumption.
Qed.
Print Assumptions C02_plates_order_independent.

(** Repeating a parent changes nothing. *)
Theorem C02_plates_idempotent : forall shapes a,
  In a shapes -> total_plates None (a :: shapes) = total_plates None shapes.
Proof.
  intros l a H. rewrite !total_plates_none. apply broadcasted_shape_in_ext.
  intros b; simpl; split; [intros [<-|Hb]; auto|auto].
Qed.
Print Assumptions C02_plates_idempotent.

(** Combining the first group first gives the same result; if the group itself
    does not combine, neither does the whole. *)
Theorem C02_plates_grouping_independent : forall group rest,
  match broadcasted_shape group with
  | Ok S1 => broadcasted_shape (S1 :: rest) = broadcasted_shape (group ++ rest)
  | Err e => broadcasted_shape (group ++ rest) = Err e
  end.
Proof.
  intros l1 l2. destruct (broadcasted_shape l1) as [S1|e] eqn:E.
  - apply broadcasted_shape_ok in E.
    destruct (broadcasted_shape (S1 :: l2)) as [S|e] eqn:E2.
    + symmetry. apply broadcasted_shape_ok.
      apply (numpy_broadcast_group _ _ _ _ E). now apply broadcasted_shape_ok.
    + destruct (broadcasted_shape (l1 ++ l2)) as [S|e'] eqn:E3.
      * exfalso. apply broadcasted_shape_ok in E3.
        apply (numpy_broadcast_group _ _ _ _ E) in E3.
        apply broadcasted_shape_ok in E3. rewrite E2 in E3. discriminate.
      * apply broadcasted_shape_err in E2 as [-> _].
        apply broadcasted_shape_err in E3 as [-> _]. reflexivity.
  - apply broadcasted_shape_err in E as [-> (k & a & b & Ha & Hb & H)].
    apply broadcasted_shape_error_iff. exists k, a, b.
    repeat split; try apply in_or_app; tauto.
Qed.
Print Assumptions C02_plates_grouping_independent.

Example C02_example :
  Permutation [[3;1]; [4]] [[4]; [3;1]] /\
  total_plates None [[3;1]; [4]] = Ok [3;4].
Proof. split; [apply perm_swap|reflexivity]. Qed.

(** * C03 *)

Theorem C03_explicit_plates_accepted_iff : forall plates parents,
  (total_plates (Some plates) parents = Ok plates <->
     forall p, In p parents -> broadcasts_to p plates) /\
  (total_plates (Some plates) parents = Err ValueError <->
     exists p, In p parents /\ ~ broadcasts_to p plates).
Proof.
  intros pl ps.
  destruct (total_plates_some pl ps _ eq_refl) as [[E H]|[E [p [Hp H]]]];
    rewrite E; split; split; try discriminate; auto.
  - intros [p [Hp Hn]]. destruct (Hn (H p Hp)).
  - intros H'. destruct (H (H' p Hp)).
  - intros _. eauto.
Qed.
Print Assumptions C03_explicit_plates_accepted_iff.

(** Without the argument: the least plates every parent broadcasts to, or a
    ValueError if there are no such plates. *)
Theorem C03_default_plates_least : forall parents,
  (forall S, total_plates None parents = Ok S ->
     (forall p, In p parents -> broadcasts_to p S) /\
     (forall T, (forall p, In p parents -> broadcasts_to p T) -> broadcasts_to S T)) /\
  (forall e, total_plates None parents = Err e ->
     e = ValueError /\ ~ exists T, forall p, In p parents -> broadcasts_to p T).
Proof.
  intros ps. rewrite total_plates_none. split.
  - intros S H. apply broadcasted_shape_ok in H. split.
    + intros p Hp. now apply broadcast_upper with ps.
    + intros T HT. now apply broadcast_least with ps.
  - intros e H. split; [now apply broadcasted_shape_err in H|].
    intros [T HT]. destruct (broadcast_exists_of_upper ps T HT) as [S HS]. congruence.
Qed.
Print Assumptions C03_default_plates_least.

Example C03_example :
  total_plates (Some [5;3;4]) [[3;1]; [4]; []] = Ok [5;3;4] /\
  total_plates (Some [3;1]) [[3;4]] = Err ValueError /\
  total_plates (Some [4]) [[1;4]] = Err ValueError.
Proof. repeat split. Qed.

(** * C04 *)

Theorem C04_subset_is_broadcast_order : forall a S,
  (is_shape_subset a S = true <-> broadcasts_to a S) /\
  (is_shape_subset a S = true <-> broadcasted_shape [a; S] = Ok S).
Proof.
  intros a S; split; [apply is_shape_subset_spec|apply subset_iff_absorb].
Qed.
Print Assumptions C04_subset_is_broadcast_order.

Theorem C04_subset_partial_order :
  (forall s, is_shape_subset s s = true) /\
  (forall a b c, is_shape_subset a b = true -> is_shape_subset b c = true ->
                 is_shape_subset a c = true) /\
  (forall a b, is_shape_subset a b = true -> is_shape_subset b a = true -> a = b).
Proof.
  repeat split; intros *; rewrite ?is_shape_subset_spec.
  - apply broadcasts_to_refl.
  - apply broadcasts_to_trans.
  - apply broadcasts_to_antisym.
Qed.
Print Assumptions C04_subset_partial_order.

Example C04_example :
  is_shape_subset [1;4] [2;3;4] = true /\ is_shape_subset [2;4] [2;3;4] = false /\
  is_shape_subset [1;1] [1] = false.
Proof. repeat split. Qed.
