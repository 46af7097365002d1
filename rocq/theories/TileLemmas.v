(** Lemmas for C16. *)
From Coq Require Import List Arith ZArith Lia Bool Reals Lra FunctionalExtensionality.
From Verif Require Import Base Shapes SpecShapes ShapesLemmas NumPy MiscArray TensorLemmas
  SpecArray SpecIndex PlateSumLemmas ShapeOpsLemmas MessageLemmas EinsumLemmas Reindex
  TakeConcat TakeLemmas PTake PConcat TileNode.
Import ListNotations.
Open Scope nat_scope.

(** ** Element-wise operations on shapes of equal length *)
Lemma ax_zip : forall (f : nat * nat -> nat) a b k, length a = length b -> k < length a ->
  ax (map f (combine a b)) k = f (ax a k, ax b k).
Proof.
  intros f. induction a as [|x a IH]; intros [|y b] k L H; try discriminate; [cbn in H; lia|].
  cbn [combine map]. rewrite !ax_cons, map_length, combine_length. injection L as L. rewrite L, Nat.min_id.
  destruct (Nat.eqb_spec k (length b)); [reflexivity|]. apply IH; [exact L|]. cbn in H. lia.
Qed.
Lemma ax_zip3 : forall (f : nat * nat * nat -> nat) a b c k, length a = length b -> length a = length c -> k < length a ->
  ax (map f (combine (combine a b) c)) k = f (ax a k, ax b k, ax c k).
Proof.
  intros f. induction a as [|x a IH]; intros [|y b] [|z c] k L L' H; try discriminate; [cbn in H; lia|].
  cbn [combine map]. rewrite !ax_cons, map_length, !combine_length. injection L as L. injection L' as L'.
  rewrite <- L, <- L', !Nat.min_id.
  destruct (Nat.eqb_spec k (length a)); [reflexivity|]. apply IH; [exact L|exact L'|]. cbn in H. lia.
Qed.

Lemma interleave_length : forall a b, length a = length b -> length (interleave a b) = 2 * length a.
Proof. induction a as [|x a IH]; intros [|y b] L; try discriminate; [reflexivity|]. unfold interleave in *. cbn [combine flat_map app length]. rewrite IH by (now injection L). lia. Qed.
Lemma ax_interleave : forall a b, length a = length b -> forall k,
  ax (interleave a b) (2 * k) = ax b k /\ ax (interleave a b) (2 * k + 1) = ax a k.
Proof.
  induction a as [|x a IH]; intros [|y b] L k; try discriminate.
  - unfold interleave. cbn [combine flat_map]. now rewrite !ax_nil.
  - injection L as L. change (interleave (x :: a) (y :: b)) with (x :: y :: interleave a b). rewrite !ax_cons. cbn [length].
    rewrite interleave_length by exact L. destruct (IH b L k) as [I1 I2].
    rewrite <- L.
    repeat match goal with |- context [?u =? ?v] => destruct (Nat.eqb_spec u v); try lia end; auto.
Qed.

(** Product of the first n values. *)
Fixpoint nprod (n : nat) (f : nat -> nat) : nat := match n with 0 => 1 | S k => nprod k f * f k end.
Lemma nprod_ext : forall n f g, (forall k, k < n -> f k = g k) -> nprod n f = nprod n g.
Proof. induction n as [|n IH]; intros f g H; cbn; [reflexivity|]. rewrite (IH f g), (H n) by auto. reflexivity. Qed.
Lemma prod_ax : forall l, fold_right Nat.mul 1 l = nprod (length l) (ax l).
Proof.
  induction l as [|x l IH]; [reflexivity|]. cbn [length nprod fold_right]. rewrite ax_cons, Nat.eqb_refl.
  rewrite (nprod_ext _ _ (ax l)); [rewrite <- IH; lia|]. intros k H. rewrite ax_cons. destruct (Nat.eqb_spec k (length l)); [lia|reflexivity].
Qed.

(** ** Sums over all elements *)
Lemma sum_idx_S : forall s n (F : env -> R),
  lsum (map F (all_idx s (S n))) = lsum (map (fun e => lsum (map (fun x => F (upd e n x)) (seq 0 (ax s n)))) (all_idx s n)).
Proof.
  intros s n F. cbn [all_idx]. induction (all_idx s n) as [|e l IH]; [reflexivity|].
  cbn [flat_map]. rewrite map_app. cbn [map].
  assert (LA : forall x y, lsum (x ++ y) = (lsum x + lsum y)%R) by (unfold lsum; induction x as [|z x IHx]; intros y; cbn; [lra|rewrite IHx; lra]).
  rewrite LA, IH, map_map. reflexivity.
Qed.

Lemma seq_mul : forall P T (f : nat -> R),
  lsum (map f (seq 0 (P * T))) = lsum (map (fun a => lsum (map (fun b => f (b * P + a)) (seq 0 T))) (seq 0 P)).
Proof.
  intros P T f. rewrite lsum_swap. induction T as [|T IH].
  - rewrite Nat.mul_0_r. reflexivity.
  - replace (P * S T) with (P * T + P) by lia. rewrite seq_app, map_app, seq_S, map_app.
    assert (LA : forall x y, lsum (x ++ y) = (lsum x + lsum y)%R) by (unfold lsum; induction x as [|z x IHx]; intros y; cbn; [lra|rewrite IHx; lra]).
    rewrite !LA, IH. f_equal. cbn [map]. change (lsum [?z]) with (z + 0)%R. rewrite Rplus_0_r.
    replace (seq (0 + P * T) P) with (map (fun x => P * T + x) (seq 0 P)).
    2:{ rewrite seq_shift'. f_equal. lia. }
    rewrite map_map. apply lsum_map_ext. intros x _. f_equal. cbn. lia.
Qed.

Lemma total_tile_n : forall n P T Q (F : env -> R), (forall k, k < n -> ax Q k = ax P k * ax T k) ->
  lsum (map F (all_idx Q n)) =
  lsum (map (fun p => lsum (map (fun t => F (fun k => t k * ax P k + p k)) (all_idx T n))) (all_idx P n)).
Proof.
  induction n as [|n IH]; intros P T Q F H.
  - cbn. unfold env0. replace (fun k : nat => 0 * ax P k + 0) with (fun _ : nat => 0); [lra|].
    apply functional_extensionality. intros k. lia.
  - rewrite sum_idx_S, (IH P T Q) by auto. rewrite sum_idx_S. apply lsum_map_ext. intros p _.
    transitivity (lsum (map (fun t => lsum (map (fun a => lsum (map (fun b => F (fun k => upd t n b k * ax P k + upd p n a k)) (seq 0 (ax T n))))
       (seq 0 (ax P n)))) (all_idx T n))).
    + apply lsum_map_ext. intros t _. rewrite (H n) by lia.
      rewrite (seq_mul (ax P n) (ax T n)). apply lsum_map_ext. intros a _. apply lsum_map_ext. intros b _. f_equal.
      apply functional_extensionality. intros k. unfold upd. destruct (Nat.eqb_spec k n) as [->|]; reflexivity.
    + rewrite lsum_swap. apply lsum_map_ext. intros a _. symmetry. apply sum_idx_S.
Qed.

Lemma total_scale_n : forall n T T' (u : nat -> bool) (G : env -> R),
  (forall k, k < n -> ax T' k = if u k then 1 else ax T k) ->
  (forall k, k < n -> u k = true -> forall e x, G (upd e k x) = G e) ->
  lsum (map G (all_idx T n)) = (INR (nprod n (fun k => if u k then ax T k else 1%nat)) * lsum (map G (all_idx T' n)))%R.
Proof.
  induction n as [|n IH]; intros T T' u G HT HG; [cbn; lra|].
  rewrite !sum_idx_S. cbn [nprod]. rewrite (HT n) by lia. destruct (u n) eqn:U.
  - rewrite mult_INR. rewrite (lsum_map_ext _ (fun e => lsum (map (fun x => G (upd e n x)) (seq 0 (ax T n)))) (fun e => INR (ax T n) * G e)%R).
    2:{ intros e _. rewrite (lsum_map_ext _ _ (fun _ => G e)) by (intros; apply HG; [lia|exact U]). generalize (ax T n) as c, (G e) as g. clear.
        intros c g. generalize 0 as s. induction c as [|c IH]; intros s; [cbn; lra|]. rewrite S_INR. cbn [seq map]. change (lsum (?x :: ?y)) with (x + lsum y)%R. rewrite IH. lra. }
    rewrite lsum_map_scal, (IH T T' u G) by auto. cbn [seq map].
    rewrite (lsum_map_ext _ (fun e => lsum [G (upd e n 0)]) G); [lra|]. intros e _. cbn. rewrite HG; [lra|lia|exact U].
  - rewrite Nat.mul_1_r. apply IH; [auto|]. intros k Hk Uk e x. apply lsum_map_ext. intros z _.
    rewrite <- (HG k ltac:(lia) Uk (upd e n z) x). f_equal. apply functional_extensionality. intros j. unfold upd.
    destruct (Nat.eqb_spec j n), (Nat.eqb_spec j k); congruence.
Qed.

Lemma lists_pad : forall n s, lists (repeat 1 n ++ s) = map (fun t => repeat 0 n ++ t) (lists s).
Proof.
  induction n as [|n IH]; intros s; cbn [repeat app].
  - now rewrite map_id.
  - cbn [lists]. rewrite IH. cbn [seq map]. induction (lists s) as [|t l IHl]; [reflexivity|]. cbn. now rewrite IHl.
Qed.
Lemma at_index_pad : forall n t, at_index (repeat 0 n ++ t) = at_index t.
Proof.
  induction n as [|n IH]; intros t; [reflexivity|]. cbn [repeat app]. rewrite at_index_cons, IH. apply functional_extensionality. intros k.
  unfold upd. destruct (Nat.eqb_spec k (length (repeat 0 n ++ t))) as [->|]; [|reflexivity].
  unfold at_index. rewrite nth_overflow; [reflexivity|]. rewrite rev_length, app_length, repeat_length. lia.
Qed.
Lemma total_pad : forall n s F, total (repeat 1 n ++ s) F = total s F.
Proof.
  intros n s F. rewrite !total_lists, lists_pad, map_map. apply lsum_map_ext. intros t _. now rewrite at_index_pad.
Qed.

(** ** Reshape to interleaved axes *)
Lemma stride_inter : forall I s n, (forall k, k < n -> ax I (2 * k + 1) * ax I (2 * k) = ax s k) -> stride I (2 * n) = stride s n.
Proof.
  intros I s. induction n as [|n IH]; intros H; [reflexivity|].
  replace (2 * S n) with (S (S (2 * n))) by lia. cbn [stride]. rewrite IH by auto. rewrite <- (H n) by lia.
  replace (S (2 * n)) with (2 * n + 1) by lia. lia.
Qed.
Lemma ravel_inter : forall I s n E, (forall k, k < n -> ax I (2 * k + 1) * ax I (2 * k) = ax s k) ->
  ravel I (2 * n) E = ravel s n (fun k => E (2 * k + 1) * ax I (2 * k) + E (2 * k)).
Proof.
  intros I s. induction n as [|n IH]; intros E H; [reflexivity|].
  replace (2 * S n) with (S (S (2 * n))) by lia. cbn [ravel]. rewrite IH by auto.
  cbn [stride]. rewrite (stride_inter I s n) by auto. replace (S (2 * n)) with (2 * n + 1) by lia. lia.
Qed.
Lemma stride_long : forall t n, length t <= n -> stride t n = stride t (length t).
Proof.
  intros t n Hn. induction n as [|n IH].
  - replace (length t) with 0 by lia. reflexivity.
  - destruct (Nat.eq_dec (length t) (S n)) as [->|Hne]; [reflexivity|].
    simpl. rewrite IH by lia. rewrite (ax_overflow t n) by lia. lia.
Qed.

Lemma reshape_inter : forall (m : arr R) I L, length I = 2 * L -> ndim m <= L ->
  (forall k, k < L -> ax I (2 * k + 1) * ax I (2 * k) = ax (ash m) k) ->
  exists y, np_reshape m I = Ok y /\ ash y = I /\
    forall E, (forall k, E k < ax I k) -> bget y E = bget m (fun k => E (2 * k + 1) * ax I (2 * k) + E (2 * k)).
Proof.
  intros m I L HI HL H. unfold np_reshape, size.
  rewrite HI, (stride_inter I (ash m) L H), (stride_long (ash m) L HL), Nat.eqb_refl.
  eexists. split; [reflexivity|]. split; [reflexivity|]. intros E V. unfold bget at 1. cbn [ash aget].
  rewrite (clip_valid_id I E V). rewrite (ravel_inter I (ash m) L E H). apply bget_ext. intros k Hk _. rewrite unravel_ravel; [reflexivity| |unfold ndim in HL; lia].
  intros j Hj. rewrite <- (H j Hj). pose proof (V (2 * j)). pose proof (V (2 * j + 1)). nia.
Qed.

(** ** Summing the odd axes *)
Lemma itersum_odd : forall (d : nat -> nat) (H : env -> env -> R) ks e,
  itersum (map (fun k => (2 * k + 1, d k)) ks) (fun E => H (fun k => E (2 * k + 1)) (fun k => E (2 * k))) e =
  itersum (map (fun k => (k, d k)) ks) (fun t => H t (fun k => e (2 * k))) (fun k => e (2 * k + 1)).
Proof.
  intros d H. induction ks as [|k ks IH]; intros e; [reflexivity|].
  cbn [map]. rewrite !itersum_cons. unfold sumax. apply rsum_ext. intros x _. rewrite IH.
  replace (fun j => upd e (2 * k + 1) x (2 * j + 1)) with (upd (fun j => e (2 * j + 1)) k x).
  2:{ apply functional_extensionality. intros j. unfold upd. destruct (Nat.eqb_spec j k) as [->|]; [now rewrite Nat.eqb_refl|].
      destruct (Nat.eqb_spec (2 * j + 1) (2 * k + 1)); [lia|reflexivity]. }
  replace (fun j => upd e (2 * k + 1) x (2 * j)) with (fun j => e (2 * j)); [reflexivity|].
  apply functional_extensionality. intros j. unfold upd. destruct (Nat.eqb_spec (2 * j) (2 * k + 1)); [lia|reflexivity].
Qed.

Lemma memb_odd : forall L k, k < 2 * L -> memb k (tile_axes (2 * L)) = Nat.odd k.
Proof.
  intros L k H. unfold tile_axes, memb. replace (2 * L / 2) with L by (rewrite Nat.mul_comm, Nat.div_mul; lia).
  destruct (Nat.odd k) eqn:O.
  - apply existsb_exists. exists k. split; [|apply Nat.eqb_refl]. apply in_map_iff.
    apply Nat.odd_spec in O as [j Hj]. exists (L - 1 - j). split; [lia|]. apply in_seq. lia.
  - apply not_true_is_false. intros E. apply existsb_exists in E as (x & Hx & E). apply Nat.eqb_eq in E. subst x.
    apply in_map_iff in Hx as (j & Hj & Hs). apply in_seq in Hs.
    assert (Nat.odd k = true); [|congruence]. apply Nat.odd_spec. exists (L - 1 - j). lia.
Qed.
Lemma odd_double : forall L, Nat.odd (2 * L) = false.
Proof. intros L. apply not_true_is_false. intros H. apply Nat.odd_spec in H as [j Hj]. lia. Qed.
Lemma odd_double1 : forall L, Nat.odd (2 * L + 1) = true.
Proof. intros L. apply Nat.odd_spec. exists L. lia. Qed.
Lemma filter_odd : forall L, filter Nat.odd (seq 0 (2 * L)) = map (fun k => 2 * k + 1) (seq 0 L).
Proof.
  induction L as [|L IH]; [reflexivity|]. replace (2 * S L) with (2 * L + 2) by lia.
  rewrite seq_app, filter_app, IH, (seq_S L 0), map_app. f_equal.
  change (seq (0 + 2 * L) 2) with [2 * L; S (2 * L)]. cbn [filter]. rewrite odd_double.
  replace (S (2 * L)) with (2 * L + 1) by lia. rewrite odd_double1. reflexivity.
Qed.
Lemma filter_even : forall L, filter (fun k => negb (Nat.odd k)) (seq 0 (2 * L)) = map (fun k => 2 * k) (seq 0 L).
Proof.
  induction L as [|L IH]; [reflexivity|]. replace (2 * S L) with (2 * L + 2) by lia.
  rewrite seq_app, filter_app, IH, (seq_S L 0), map_app. f_equal.
  change (seq (0 + 2 * L) 2) with [2 * L; S (2 * L)]. cbn [filter]. rewrite odd_double.
  replace (S (2 * L)) with (2 * L + 1) by lia. rewrite odd_double1. reflexivity.
Qed.
Lemma index_evens : forall L s k, index_of (2 * k) (map (fun j => 2 * j) (seq s L)) = if (s <=? k) && (k <? s + L) then Some (k - s) else None.
Proof.
  induction L as [|L IH]; intros s k; cbn [seq map index_of].
  - destruct (Nat.leb_spec s k), (Nat.ltb_spec k (s + 0)); try lia; reflexivity.
  - destruct (Nat.eqb_spec (2 * s) (2 * k)) as [E|E].
    + assert (s = k) as -> by lia. rewrite Nat.leb_refl. destruct (Nat.ltb_spec k (k + S L)); [|lia]. cbn. f_equal. lia.
    + rewrite IH. destruct (Nat.leb_spec (S s) k), (Nat.leb_spec s k), (Nat.ltb_spec k (S s + L)), (Nat.ltb_spec k (s + S L)); try lia; cbn; try reflexivity.
      f_equal. lia.
Qed.
Lemma index_evens_odd : forall L s k, index_of (2 * k + 1) (map (fun j => 2 * j) (seq s L)) = None.
Proof.
  induction L as [|L IH]; intros s k; cbn [seq map index_of]; [reflexivity|].
  destruct (Nat.eqb_spec (2 * s) (2 * k + 1)); [lia|]. now rewrite IH.
Qed.

(** The code of tile: reshape and sum over the tiles. *)
Lemma tile_sum_ok : forall (m : arr R) ti sh sm PP TT L,
  0 < L -> length ti = L -> length sh = L -> length sm = L -> ndim m <= L ->
  (forall k, ax sm k = ax (ash m) k) ->
  (forall k, ax (ash m) k = 1 \/ ax (ash m) k = ax PP k * ax TT k) ->
  (forall k, ax ti k = ax TT k) -> (forall k, ax sh k = ax PP k) ->
  exists r ti' sh' y, tile_units ti sh sm = (r, ti', sh') /\
    r = nprod L (fun k => if ax (ash m) k =? 1 then ax TT k else 1) /\
    tile_sum ti' sh' m = Ok y /\ length (ash y) = L /\
    (forall k, ax (ash y) k = if ax (ash m) k =? 1 then 1 else ax PP k) /\
    length ti' = L /\ (forall k, ax ti' k = if ax (ash m) k =? 1 then 1 else ax TT k) /\
    forall p, valid PP p -> bget y p = total ti' (fun t => bget m (fun k => t k * ax PP k + p k)).
Proof.
  intros m ti sh sm PP TT L L0 L1 L2 L3 LM ASM MB AT AS. unfold tile_units.
  set (ti' := map (fun p : nat * nat * nat => let '(t, s, m0) := p in if m0 =? 1 then 1 else t) (combine (combine ti sh) sm)).
  set (sh' := map (fun p : nat * nat * nat => let '(t, s, m0) := p in if m0 =? 1 then 1 else s) (combine (combine ti sh) sm)).
  assert (LT : length ti' = L) by (unfold ti'; rewrite map_length, !combine_length; lia).
  assert (LS : length sh' = L) by (unfold sh'; rewrite map_length, !combine_length; lia).
  assert (AT' : forall k, ax ti' k = if ax (ash m) k =? 1 then 1 else ax TT k).
  { intros k. destruct (Nat.lt_ge_cases k L) as [C|C].
    - unfold ti'. rewrite ax_zip3 by lia. now rewrite ASM, AT.
    - rewrite (ax_overflow ti') by lia. rewrite (ax_overflow (ash m)) by (unfold ndim in LM; lia). reflexivity. }
  assert (AS' : forall k, ax sh' k = if ax (ash m) k =? 1 then 1 else ax PP k).
  { intros k. destruct (Nat.lt_ge_cases k L) as [C|C].
    - unfold sh'. rewrite ax_zip3 by lia. now rewrite ASM, AS.
    - rewrite (ax_overflow sh') by lia. rewrite (ax_overflow (ash m)) by (unfold ndim in LM; lia). reflexivity. }
  assert (LI : length (interleave ti' sh') = 2 * L) by (rewrite interleave_length by lia; lia).
  destruct (reshape_inter m (interleave ti' sh') L LI LM) as (y & E & SY & GY).
  { intros k Hk. destruct (ax_interleave ti' sh' ltac:(lia) k) as [-> ->]. rewrite AT', AS'.
    destruct (Nat.eqb_spec (ax (ash m) k) 1) as [Q|Q]; [now rewrite Q|]. destruct (MB k) as [?|Q']; [contradiction|]. rewrite Q'. lia. }
  exists (fold_right Nat.mul 1 (map (fun p : nat * nat * nat => let '(t, s, m0) := p in if m0 =? 1 then t else 1) (combine (combine ti sh) sm))), ti', sh', (np_sum y (tile_axes (2 * L))).
  split; [reflexivity|]. split.
  { rewrite prod_ax. rewrite map_length, !combine_length, L1, L2, L3, !Nat.min_id. apply nprod_ext. intros k Hk.
    rewrite ax_zip3 by lia. now rewrite ASM, AT. }
  split.
  { unfold tile_sum. destruct (combine ti' sh') eqn:Z; [apply (f_equal (@length _)) in Z; rewrite combine_length in Z; cbn in Z; lia|].
    rewrite E. cbn [bind]. now rewrite LI. }
  assert (KA : kept_axes (ndim (np_sum_keep y (tile_axes (2 * L)))) (tile_axes (2 * L)) = map (fun k => 2 * k) (seq 0 L)).
  { unfold kept_axes, ndim. cbn [ash np_sum_keep]. unfold mkshape. rewrite map_length, back_range_length. unfold ndim. rewrite SY, LI.
    rewrite <- filter_even. apply filter_ext_in. intros k Hk. apply in_seq in Hk. now rewrite memb_odd. }
  assert (SA : sum_axes_list (ash y) (tile_axes (2 * L)) = map (fun k => (2 * k + 1, ax ti' k)) (seq 0 L)).
  { unfold sum_axes_list. rewrite SY, LI.
    rewrite (filter_ext_in _ Nat.odd) by (intros k Hk; apply in_seq in Hk; now apply memb_odd).
    rewrite filter_odd, map_map. apply map_ext. intros k. now rewrite (proj2 (ax_interleave ti' sh' ltac:(lia) k)). }
  assert (SHY : forall k, ax (ash (np_sum y (tile_axes (2 * L)))) k = ax sh' k).
  { intros k. unfold np_sum, drop_axes. rewrite KA. cbn [ash]. rewrite ax_mkshape, map_length, seq_length.
    destruct (Nat.ltb_spec k L) as [C|C]; [|now rewrite ax_overflow by lia].
    rewrite (nth_indep _ 0 (2 * 0)) by (rewrite map_length, seq_length; lia).
    rewrite (map_nth (fun k => 2 * k)), seq_nth by lia. change (Arr ?s ?g) with (np_sum_keep y (tile_axes (2 * L))).
    rewrite ash_sum_keep_ax, memb_odd, odd_double, SY by lia. cbn [Nat.add]. now rewrite (proj1 (ax_interleave ti' sh' ltac:(lia) k)). }
  split.
  { unfold np_sum, drop_axes. rewrite KA. cbn [ash]. unfold mkshape. now rewrite map_length, back_range_length, map_length, seq_length. }
  split; [intros k; rewrite SHY; apply AS'|]. split; [exact LT|]. split; [exact AT'|].
  intros p V. unfold bget at 1.
  set (p' := clip (ash (np_sum y (tile_axes (2 * L)))) p).
  assert (P' : forall k, p' k = if ax sh' k =? 1 then 0 else p k) by (intros k; unfold p', clip; now rewrite SHY).
  unfold np_sum, drop_axes. cbn [aget]. rewrite KA, bget_sum_keep, SA.
  set (e0 := assign (map (fun k => 2 * k) (seq 0 L)) p').
  assert (E0 : forall k, e0 (2 * k) = if k <? L then p' k else 0).
  { intros k. unfold e0, assign. rewrite index_evens. cbn [Nat.leb andb Nat.add]. destruct (Nat.ltb_spec k L); [|reflexivity].
    f_equal. lia. }
  assert (E1 : forall k, e0 (2 * k + 1) = 0) by (intros k; unfold e0, assign; now rewrite index_evens_odd).
  transitivity (itersum (map (fun k => (2 * k + 1, ax ti' k)) (seq 0 L))
     (fun E => (fun t q => bget m (fun k => t k * ax sh' k + q k)) (fun k => E (2 * k + 1)) (fun k => E (2 * k))) e0).
  - apply itersum_ext. intros E' H1 H2. rewrite GY.
    + apply bget_ext. intros k Hk _. now rewrite (proj1 (ax_interleave ti' sh' ltac:(lia) k)).
    + intros k. destruct (Nat.Even_or_Odd k) as [[j ->]|[j ->]].
      * rewrite (proj1 (ax_interleave ti' sh' ltac:(lia) j)). rewrite H1.
        -- rewrite E0. destruct (Nat.ltb_spec j L) as [C|C]; [|rewrite ax_overflow; lia]. rewrite P'.
           destruct (Nat.eqb_spec (ax sh' j) 1) as [Q|Q]; [lia|]. specialize (V j). rewrite AS' in Q |- *.
           destruct (ax (ash m) j =? 1); [lia|exact V].
        -- rewrite map_map. cbn [fst]. intros Hin. apply in_map_iff in Hin as (i & Hi & _). lia.
      * rewrite (proj2 (ax_interleave ti' sh' ltac:(lia) j)). destruct (Nat.lt_ge_cases j L) as [C|C].
        -- destruct (H2 (2 * j + 1) (ax ti' j)) as [Q|(n & Hn & Q)].
           ++ apply in_map_iff. exists j. split; [reflexivity|apply in_seq; lia].
           ++ exact Q.
           ++ apply in_map_iff in Hn as (i & Hi & _). injection Hi as Hi1 Hi2. assert (i = j) as -> by lia. lia.
        -- rewrite H1, E1; [rewrite ax_overflow; lia|]. rewrite map_map. cbn [fst]. intros Hin. apply in_map_iff in Hin as (i & Hi & Hs).
           apply in_seq in Hs. lia.
  - rewrite (itersum_odd (ax ti') (fun t q => bget m (fun k => t k * ax sh' k + q k))). rewrite total_iter, LT.
    replace (fun k => e0 (2 * k + 1)) with env0 by (apply functional_extensionality; intros k; unfold env0; now rewrite E1).
    apply itersum_ext_all. intros t. apply bget_ext. intros k Hk Nk. rewrite E0, P', AS'.
    unfold ndim in LM. destruct (Nat.ltb_spec k L); [|lia].
    apply Nat.eqb_neq in Nk. rewrite Nk. destruct (Nat.eqb_spec (ax PP k) 1) as [Q|]; [|reflexivity].
    pose proof (V k). rewrite Q in *. lia.
Qed.
