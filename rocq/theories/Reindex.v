(** Lemmas: sums over the elements of an array as sums over lists of indices, and
    re-indexing such sums. *)
From Coq Require Import List Arith ZArith Lia Bool Reals Lra FunctionalExtensionality Permutation.
From Verif Require Import Base Shapes SpecShapes ShapesLemmas NumPy MiscArray TensorLemmas
  SpecArray SpecIndex PlateSumLemmas ShapeOpsLemmas.
Import ListNotations.
Open Scope nat_scope.

Lemma in_lists : forall s t, In t (lists s) <-> Forall2 lt t s.
Proof.
  induction s as [|n s IH]; intros t; cbn [lists].
  - split; [intros [<-|[]]; constructor|intros H; inversion H; now left].
  - rewrite in_flat_map. split.
    + intros (t' & H & J). apply in_map_iff in J as (x & <- & J). apply in_seq in J. constructor; [lia|now apply IH].
    + intros H. inversion H as [|x ? t' ? L H']; subst. exists t'. split; [now apply IH|].
      apply in_map_iff. exists x. split; [reflexivity|]. apply in_seq. lia.
Qed.

Lemma F2_length : forall A B (R : A -> B -> Prop) l l', Forall2 R l l' -> length l = length l'.
Proof. intros A B R l l' H. induction H; cbn; congruence. Qed.

Lemma lists_length : forall s t, In t (lists s) -> length t = length s.
Proof. intros s t H. apply in_lists in H. now apply F2_length in H. Qed.

Lemma NoDup_lists : forall s, NoDup (lists s).
Proof.
  induction s as [|n s IH]; cbn [lists]; [constructor; [intros []|constructor]|].
  induction IH as [|t l NI ND IH']; cbn [flat_map]; [constructor|].
  assert (N1 : NoDup (map (fun x => x :: t) (seq 0 n))).
  { apply FinFun.Injective_map_NoDup; [intros x y E; congruence|apply seq_NoDup]. }
  revert N1 IH'. generalize (seq 0 n) at 1 3. intros l0 N1 IH'.
  induction l0 as [|a l0 IHl]; cbn [map app]; [exact IH'|]. inversion N1; subst. constructor; [|now apply IHl].
  intros J. apply in_app_or in J as [J|J]; [contradiction|]. apply in_flat_map in J as (t' & J1 & J2).
  apply in_map_iff in J2 as (x & E & _). injection E as -> ->. contradiction.
Qed.

Lemma at_index_cons : forall x t, at_index (x :: t) = upd (at_index t) (length t) x.
Proof.
  intros x t. apply functional_extensionality. intros k. unfold at_index, upd. cbn [rev].
  destruct (Nat.eqb_spec k (length t)) as [->|N].
  - rewrite app_nth2; rewrite rev_length; [|lia]. now rewrite Nat.sub_diag.
  - destruct (Nat.lt_ge_cases k (length t)).
    + rewrite app_nth1; [reflexivity|rewrite rev_length; lia].
    + rewrite !nth_overflow; [reflexivity| |]; rewrite ?app_length, rev_length; cbn; lia.
Qed.

Lemma all_idx_ext : forall s s' n, (forall k, k < n -> ax s k = ax s' k) -> all_idx s n = all_idx s' n.
Proof.
  intros s s'. induction n as [|n IH]; intros H; [reflexivity|]. cbn [all_idx].
  rewrite IH by (intros; apply H; lia). now rewrite (H n) by lia.
Qed.

Lemma all_indices_lists : forall s, all_indices s = map at_index (lists s).
Proof.
  unfold all_indices. induction s as [|n s IH].
  - cbn. f_equal. apply functional_extensionality. intros k. unfold at_index, env0. now destruct k.
  - cbn [length all_idx lists].
    assert (A : ax (n :: s) (length s) = n) by (rewrite ax_cons, Nat.eqb_refl; reflexivity).
    rewrite A, (all_idx_ext (n :: s) s (length s)).
    2:{ intros k Hk. rewrite ax_cons. destruct (Nat.eqb_spec k (length s)); [lia|reflexivity]. }
    rewrite IH. clear IH A. pose proof (lists_length s) as HL. induction (lists s) as [|t l IHl]; [reflexivity|].
    cbn [map flat_map]. rewrite map_app, IHl by (intros; apply HL; now right). f_equal.
    rewrite map_map. apply map_ext. intros x. now rewrite at_index_cons, (HL t (or_introl eq_refl)).
Qed.

Lemma total_lists : forall s F, total s F = lsum (map (fun t => F (at_index t)) (lists s)).
Proof. intros s F. unfold total. now rewrite all_indices_lists, map_map. Qed.

Lemma at_index_app : forall p v, at_index (p ++ v) = join (length v) (at_index p) (at_index v).
Proof.
  intros p v. apply functional_extensionality. intros k. unfold at_index, join. rewrite rev_app_distr.
  destruct (Nat.ltb_spec k (length v)).
  - rewrite app_nth1; [reflexivity|rewrite rev_length; lia].
  - rewrite app_nth2; rewrite rev_length; [reflexivity|lia].
Qed.

Lemma lsum_map_add : forall A (f g : A -> R) l, lsum (map (fun x => f x + g x)%R l) = (lsum (map f l) + lsum (map g l))%R.
Proof. intros A f g. induction l as [|a l IH]; cbn; [lra|]. unfold lsum in *. rewrite IH. lra. Qed.
Lemma lsum_map_scal : forall A c (f : A -> R) l, lsum (map (fun x => c * f x)%R l) = (c * lsum (map f l))%R.
Proof. intros A c f. induction l as [|a l IH]; cbn; [lra|]. unfold lsum in *. rewrite IH. lra. Qed.
Lemma lsum_map_zero : forall A (f : A -> R) l, (forall x, In x l -> f x = 0%R) -> lsum (map f l) = 0%R.
Proof. intros A f. induction l as [|a l IH]; intros H; cbn; [reflexivity|]. unfold lsum in IH. rewrite H, IH; [lra|intros; apply H; now right|now left]. Qed.
Lemma lsum_map_ext : forall A (f g : A -> R) l, (forall x, In x l -> f x = g x) -> lsum (map f l) = lsum (map g l).
Proof. intros A f g l H. f_equal. now apply map_ext_in. Qed.
Lemma lsum_swap : forall A B (f : A -> B -> R) l l',
  lsum (map (fun a => lsum (map (f a) l')) l) = lsum (map (fun b => lsum (map (fun a => f a b) l)) l').
Proof.
  intros A B f l l'. induction l as [|a l IH].
  - cbn. symmetry. now apply lsum_map_zero.
  - cbn [map]. change (lsum (?x :: ?y)) with (x + lsum y)%R. rewrite IH, <- lsum_map_add. reflexivity.
Qed.

(** Plates and variable axes separately. *)
Lemma lists_app : forall P d F,
  lsum (map F (lists (P ++ d))) = lsum (map (fun v => lsum (map (fun p => F (p ++ v)) (lists P))) (lists d)).
Proof.
  induction P as [|n P IH]; intros d F; cbn [app lists].
  - apply (lsum_map_ext _ F). intros v _. cbn. lra.
  - rewrite flat_map_concat_map, concat_map, map_map.
    assert (E : forall l, lsum (concat (map (fun t => map F (map (fun x => x :: t) (seq 0 n))) l)) =
                lsum (map (fun t => lsum (map (fun x => F (x :: t)) (seq 0 n))) l)).
    { induction l as [|t l IHl]; [reflexivity|]. cbn [map concat]. rewrite lsum_app, IHl, map_map. reflexivity. }
    rewrite E, IH. apply lsum_map_ext. intros v _.
    rewrite flat_map_concat_map, concat_map, map_map. clear.
    induction (lists P) as [|t l IHl]; [reflexivity|]. cbn [map concat]. rewrite lsum_app, <- IHl, map_map. reflexivity.
Qed.

Lemma total_split : forall P d F,
  total (P ++ d) F = lsum (map (fun v => lsum (map (fun p => F (join (length d) (at_index p) (at_index v))) (lists P))) (lists d)).
Proof.
  intros P d F. rewrite total_lists, lists_app. apply lsum_map_ext. intros v Hv. apply lsum_map_ext. intros p _.
  now rewrite at_index_app, (lists_length _ _ Hv).
Qed.

(** Sum over fibres of a map. *)
Lemma lsum_fibres : forall (f : list nat -> list nat) (h k : list nat -> R) L1 L2, NoDup L2 ->
  (forall q, In q L1 -> In (f q) L2) ->
  lsum (map (fun q => h q * k (f q))%R L1) =
  lsum (map (fun p => lsum (map h (filter (fun q => if list_eq_dec Nat.eq_dec (f q) p then true else false) L1)) * k p)%R L2).
Proof.
  intros f h k L1 L2 ND. induction L1 as [|q L1 IH]; intros H.
  - cbn. symmetry. apply lsum_map_zero. intros. lra.
  - cbn [map filter]. change (lsum (?x :: ?y)) with (x + lsum y)%R. rewrite IH by (intros; apply H; now right).
    assert (E : forall p, lsum (map h (if if list_eq_dec Nat.eq_dec (f q) p then true else false
        then q :: filter (fun q0 => if list_eq_dec Nat.eq_dec (f q0) p then true else false) L1
        else filter (fun q0 => if list_eq_dec Nat.eq_dec (f q0) p then true else false) L1)) =
      ((if list_eq_dec Nat.eq_dec (f q) p then h q else 0) +
       lsum (map h (filter (fun q0 => if list_eq_dec Nat.eq_dec (f q0) p then true else false) L1)))%R).
    { intros p. destruct (list_eq_dec Nat.eq_dec (f q) p); [reflexivity|lra]. }
    etransitivity; [|apply lsum_map_ext; intros p _; symmetry; rewrite E, Rmult_plus_distr_r; reflexivity].
    rewrite lsum_map_add. f_equal.
    specialize (H q (or_introl eq_refl)). revert H ND. clear. generalize (f q) as p0. intros p0 H ND.
    induction ND as [|p l NI ND IH]; [destruct H|]. cbn [map]. change (lsum (?x :: ?y)) with (x + lsum y)%R.
    destruct (list_eq_dec Nat.eq_dec p0 p) as [->|N].
    + rewrite lsum_map_zero; [lra|]. intros p' J. destruct (list_eq_dec Nat.eq_dec p p') as [->|]; [contradiction|lra].
    + rewrite <- IH; [lra|]. destruct H as [E|H]; [congruence|exact H].
Qed.

(** The general form of the adjoint identities: y holds, at p, the sum of m over the
    elements that f sends to p. *)
Definition fibre (f : list nat -> list nat) (Q p : list nat) : list (list nat) :=
  filter (fun q => if list_eq_dec Nat.eq_dec (f q) p then true else false) (lists Q).

Lemma adjoint : forall (f : list nat -> list nat) (m x y u : arr R) Q P d,
  (forall q, Forall2 lt q Q -> Forall2 lt (f q) P) ->
  (forall q v, Forall2 lt q Q -> Forall2 lt v d ->
     bget x (at_index (q ++ v)) = bget u (at_index (f q ++ v))) ->
  (forall p v, Forall2 lt p P -> Forall2 lt v d ->
     bget y (at_index (p ++ v)) = lsum (map (fun q => bget m (at_index (q ++ v))) (fibre f Q p))) ->
  total (Q ++ d) (fun e => bget m e * bget x e)%R = total (P ++ d) (fun e => bget y e * bget u e)%R.
Proof.
  intros f m x y u Q P d Hf Hx Hy. rewrite !total_lists, !lists_app. apply lsum_map_ext. intros v Hv.
  apply in_lists in Hv.
  etransitivity; [apply lsum_map_ext; intros q Hq; apply in_lists in Hq; rewrite (Hx q v Hq Hv); reflexivity|].
  rewrite (lsum_fibres f (fun q => bget m (at_index (q ++ v))) (fun p => bget u (at_index (p ++ v))) (lists Q) (lists P) (NoDup_lists P)).
  - apply lsum_map_ext. intros p Hp. apply in_lists in Hp. now rewrite (Hy p v Hp Hv).
  - intros q Hq. apply in_lists, Hf. now apply in_lists.
Qed.

Lemma fibre_single : forall f Q p q, Forall2 lt q Q -> f q = p ->
  (forall q', Forall2 lt q' Q -> f q' = p -> q' = q) -> fibre f Q p = [q].
Proof.
  intros f Q p q Hq Hf Hu. unfold fibre. pose proof (NoDup_lists Q) as ND.
  assert (J : In q (lists Q)) by now apply in_lists.
  assert (U : forall q', In q' (lists Q) -> f q' = p -> q' = q) by (intros q' H; apply Hu; now apply in_lists).
  clear -J U ND Hf. induction ND as [|a l NI ND IH]; [destruct J|]. cbn [filter].
  destruct (list_eq_dec Nat.eq_dec (f a) p) as [E|E].
  - assert (a = q) as -> by (apply U; [now left|exact E]). f_equal.
    apply filter_false. intros b Hb. destruct (list_eq_dec Nat.eq_dec (f b) p) as [E'|]; [|reflexivity].
    exfalso. apply NI. replace q with b; [exact Hb|]. apply U; [now right|exact E'].
  - apply IH; [destruct J as [->|J]; [contradiction|exact J]|]. intros q' Hq'. apply U. now right.
Qed.
Lemma fibre_none : forall f Q p, (forall q, Forall2 lt q Q -> f q <> p) -> fibre f Q p = [].
Proof.
  intros f Q p H. apply filter_false. intros q Hq. destruct (list_eq_dec Nat.eq_dec (f q) p) as [E|]; [|reflexivity].
  exfalso. apply (H q); [now apply in_lists|exact E].
Qed.

(** The last [length s] entries of a list of indices, zero along unit axes. *)
Definition lclip (s : list nat) (q : list nat) : list nat :=
  map (fun k => if ax s k =? 1 then 0 else at_index q k) (back_range (length s)).

Lemma lclip_length : forall s q, length (lclip s q) = length s.
Proof. intros. unfold lclip. now rewrite map_length, back_range_length. Qed.
Lemma lclip_cons : forall n s q, lclip (n :: s) q = (if n =? 1 then 0 else at_index q (length s)) :: lclip s q.
Proof.
  intros n s q. unfold lclip. cbn [length]. rewrite back_range_S. cbn [map].
  rewrite ax_cons, Nat.eqb_refl. f_equal. apply map_ext_in. intros k Hk. apply in_back_range in Hk.
  rewrite ax_cons. destruct (Nat.eqb_spec k (length s)); [lia|reflexivity].
Qed.
Lemma at_index_head : forall x q, at_index (x :: q) (length q) = x.
Proof. intros. rewrite at_index_cons. unfold upd. now rewrite Nat.eqb_refl. Qed.
Lemma at_index_tail : forall x q k, k < length q -> at_index (x :: q) k = at_index q k.
Proof. intros. rewrite at_index_cons. unfold upd. destruct (Nat.eqb_spec k (length q)); [lia|reflexivity]. Qed.
Lemma at_index_skip : forall p q k, k < length q -> at_index (p ++ q) k = at_index q k.
Proof. intros p q k H. rewrite at_index_app. unfold join. apply Nat.ltb_lt in H. now rewrite H. Qed.
Lemma lclip_skip : forall s p q, length s <= length q -> lclip s (p ++ q) = lclip s q.
Proof.
  intros s p q H. unfold lclip. apply map_ext_in. intros k Hk. apply in_back_range in Hk. rewrite at_index_skip by lia. reflexivity.
Qed.
Lemma lclip_tail : forall s x q, length s <= length q -> lclip s (x :: q) = lclip s q.
Proof. intros s x q H. apply (lclip_skip s [x] q H). Qed.
Lemma lclip_head : forall n s x q, length s = length q -> lclip (n :: s) (x :: q) = (if n =? 1 then 0 else x) :: lclip s q.
Proof. intros n s x q H. rewrite lclip_cons, lclip_tail by lia. rewrite H, at_index_head. reflexivity. Qed.

Lemma lclip_app : forall s d q v, length d = length v -> lclip (s ++ d) (q ++ v) = lclip s q ++ lclip d v.
Proof.
  induction s as [|n s IH]; intros d q v H; cbn [app].
  - rewrite lclip_skip by lia. reflexivity.
  - rewrite !lclip_cons, IH by exact H. cbn [app]. f_equal. destruct (n =? 1); [reflexivity|].
    rewrite at_index_app. unfold join. rewrite app_length, H. destruct (Nat.ltb_spec (length s + length v) (length v)); [lia|].
    f_equal. lia.
Qed.

Lemma map_back_range : forall (f : nat -> nat) n k, k < n -> at_index (map f (back_range n)) k = f k.
Proof.
  intros f n k H. unfold at_index. rewrite <- map_rev. unfold back_range. rewrite rev_involutive.
  rewrite (nth_indep _ 0 (f 0)) by (rewrite map_length, seq_length; lia). rewrite map_nth, seq_nth by lia. reflexivity.
Qed.
Lemma at_index_lclip : forall s q k, k < length s -> at_index (lclip s q) k = if ax s k =? 1 then 0 else at_index q k.
Proof. intros s q k H. unfold lclip. now rewrite map_back_range. Qed.
Lemma bget_lclip : forall A (a : arr A) q, bget a (at_index (lclip (ash a) q)) = bget a (at_index q).
Proof.
  intros A a q. apply bget_ext. intros k Hk N. rewrite at_index_lclip by exact Hk. apply Nat.eqb_neq in N. now rewrite N.
Qed.
