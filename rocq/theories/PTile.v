(** Theorems for C16: tile, its message and its mask. *)
From Coq Require Import List Arith ZArith Lia Bool Reals Lra FunctionalExtensionality.
From Verif Require Import Base Shapes SpecShapes ShapesLemmas NumPy MiscArray TensorLemmas
  SpecArray SpecIndex PlateSumLemmas ShapeOpsLemmas MessageLemmas EinsumLemmas ExpFamBound Reindex
  TakeConcat TakeLemmas PTake PConcat TileNode TileLemmas.
Import ListNotations.
Open Scope nat_scope.

(** The element of an array of shape P that element [q] of numpy.tile(x, ...) is. *)
Definition tile_source (P q : list nat) : list nat :=
  map (fun k => at_index q k mod ax P k) (back_range (length P)).
(** The elements of the tiled array (shape Q) that are copies of element [p]. *)
Definition copies (P Q p : list nat) : list (list nat) :=
  filter (fun q => if list_eq_dec Nat.eq_dec (tile_source P q) p then true else false) (lists Q).
(** Shape Q is shape P tiled with T. *)
Definition tiled (P T Q : list nat) : Prop :=
  length Q = Nat.max (length P) (length T) /\ forall k, ax Q k = ax P k * ax T k.

Lemma plates_from_ok : forall P T, exists Q, tile_plates_from T P = Ok Q /\ tiled P T Q.
Proof.
  intros P T. unfold tile_plates_from, multiply_shapes, make_equal_length. cbn [bind map fold_left].
  replace (max_rank [P; T]) with (Nat.max (length P) (length T)) by (unfold max_rank; cbn; lia).
  set (L := Nat.max (length P) (length T)). eexists. split; [reflexivity|]. unfold zip_mul. split.
  - rewrite map_length, combine_length, !app_length, !repeat_length. unfold L. lia.
  - intros k. destruct (Nat.lt_ge_cases k L) as [C|C].
    + rewrite ax_zip; [|rewrite !app_length, !repeat_length; unfold L; lia|rewrite app_length, repeat_length; unfold L in *; lia].
      cbn [fst snd]. now rewrite !ax_repeat_units.
    + rewrite ax_overflow by (rewrite map_length, combine_length, !app_length, !repeat_length; unfold L in *; lia).
      unfold L in C. rewrite !ax_overflow by lia. reflexivity.
Qed.

Lemma ax_pos : forall T, (forall t, In t T -> 0 < t) -> forall k, 0 < ax T k.
Proof.
  intros T H k. destruct (Nat.lt_ge_cases k (length T)) as [C|C]; [|rewrite ax_overflow; lia].
  apply H. rewrite ax_nth by exact C. apply nth_In. lia.
Qed.

Lemma plates_to_ok : forall P T Q, (forall t, In t T -> 0 < t) -> tiled P T Q ->
  tile_plates_to T Q = Ok (repeat 1 (length Q - length P) ++ P).
Proof.
  intros P T Q HT [L A]. unfold tile_plates_to. destruct (Nat.ltb_spec (length Q) (length T)); [lia|]. f_equal.
  apply ShapesLemmas.shape_ext.
  - rewrite app_length, repeat_length. unfold mkshape. rewrite map_length, back_range_length. lia.
  - unfold mkshape at 1. rewrite map_length, back_range_length. intros k Hk. rewrite ax_mkshape. apply Nat.ltb_lt in Hk. rewrite Hk.
    rewrite ax_repeat_units, A. apply Nat.div_mul. pose proof (ax_pos T HT k). lia.
Qed.

Lemma total_long : forall s n F, length s <= n -> lsum (map F (all_idx s n)) = total s F.
Proof.
  intros s n F H. rewrite <- (total_pad (n - length s) s F). unfold total, all_indices.
  replace (length (repeat 1 (n - length s) ++ s)) with n by (rewrite app_length, repeat_length; lia).
  do 2 f_equal. apply all_idx_ext. intros k _. now rewrite ax_repeat_units.
Qed.

Lemma total_tile : forall P T Q F, tiled P T Q ->
  total Q F = total P (fun p => total T (fun t => F (fun k => t k * ax P k + p k))).
Proof.
  intros P T Q F [L A]. unfold total at 1, all_indices. rewrite (total_tile_n (length Q) P T Q F) by (intros; apply A).
  rewrite total_long by lia. unfold total at 1 2. apply lsum_map_ext. intros p _. apply total_long. lia.
Qed.

Lemma pick_list : forall (l : list (list nat)) p (g : list nat -> R), NoDup l -> In p l ->
  lsum (map (fun x => if list_eq_dec Nat.eq_dec x p then g x else 0%R) l) = g p.
Proof.
  induction l as [|x l IH]; intros p g ND H; [destruct H|]. inversion ND as [|? ? NI ND']; subst. cbn [map]. change (lsum (?x :: ?y)) with (x + lsum y)%R.
  destruct (list_eq_dec Nat.eq_dec x p) as [->|NE].
  - rewrite lsum_map_zero; [lra|]. intros y Hy. destruct (list_eq_dec Nat.eq_dec y p) as [->|]; [contradiction|reflexivity].
  - destruct H as [->|H]; [contradiction|]. rewrite IH by assumption. lra.
Qed.

Lemma list_ext_at : forall (a b : list nat), length a = length b -> (forall k, k < length a -> at_index a k = at_index b k) -> a = b.
Proof.
  intros a b L H. apply (nth_ext _ _ 0 0 L). intros i Hi. specialize (H (length a - 1 - i) ltac:(lia)).
  rewrite !at_index_nth in H by lia. rewrite <- L in H. replace (length a - 1 - (length a - 1 - i)) with i in H by lia. exact H.
Qed.

Lemma copies_sum : forall P T Q p (H : env -> R), tiled P T Q -> within p P ->
  lsum (map (fun q => H (at_index q)) (copies P Q p)) = total T (fun t => H (fun k => t k * ax P k + at_index p k)).
Proof.
  intros P T Q p H TL Hp. unfold copies. rewrite lsum_filter.
  set (srce := fun e : env => map (fun k => e k mod ax P k) (back_range (length P))).
  transitivity (total Q (fun e => if list_eq_dec Nat.eq_dec (srce e) p then H e else 0%R)).
  { rewrite total_lists. apply lsum_map_ext. intros q _. unfold tile_source. fold (srce (at_index q)).
    destruct (list_eq_dec Nat.eq_dec (srce (at_index q)) p); reflexivity. }
  rewrite (total_tile P T Q) by exact TL. rewrite total_lists.
  transitivity (lsum (map (fun x => if list_eq_dec Nat.eq_dec x p then total T (fun t => H (fun k => t k * ax P k + at_index x k)) else 0%R) (lists P))).
  { apply lsum_map_ext. intros x Hx. apply in_lists in Hx.
    assert (E : forall t, srce (fun k => t k * ax P k + at_index x k) = x).
    { intros t. unfold srce. pose proof (F2_length _ _ _ _ _ Hx) as Lx. apply list_ext_at; [rewrite map_length, back_range_length; lia|].
      rewrite map_length, back_range_length. intros k Hk. rewrite map_back_range by exact Hk.
      pose proof (valid_at_index _ _ Hx k) as V. rewrite Nat.add_comm, Nat.mod_add by lia. now apply Nat.mod_small. }
    destruct (list_eq_dec Nat.eq_dec x p) as [->|NE].
    - unfold total. apply lsum_map_ext. intros t _. rewrite E. destruct (list_eq_dec Nat.eq_dec p p); [reflexivity|contradiction].
    - unfold total. apply lsum_map_zero. intros t _. rewrite E. destruct (list_eq_dec Nat.eq_dec x p); [contradiction|reflexivity]. }
  rewrite (pick_list (lists P) p (fun x => total T (fun t => H (fun k => t k * ax P k + at_index x k)))); [reflexivity|apply NoDup_lists|now apply in_lists].
Qed.

Lemma nprod_pos : forall n f, (forall k, k < n -> 0 < f k) -> 0 < nprod n f.
Proof. induction n as [|n IH]; intros f H; cbn; [lia|]. specialize (IH f ltac:(auto)). specialize (H n ltac:(lia)). nia. Qed.

(** The scaled sum over the tiles is the sum over the copies. *)
Lemma tile_core : forall P T Q d (m : arr R) ti sh sm L, T <> [] -> (forall t, In t T -> 0 < t) -> tiled P T Q ->
  broadcasts_to (ash m) (Q ++ d) -> L = length Q + length d ->
  length ti = L -> length sh = L -> length sm = L ->
  (forall k, ax ti k = ax (T ++ repeat 1 (length d)) k) -> (forall k, ax sh k = ax (P ++ d) k) -> (forall k, ax sm k = ax (ash m) k) ->
  exists r ti' sh' y, tile_units ti sh sm = (r, ti', sh') /\ 0 < r /\ tile_sum ti' sh' m = Ok y /\ ndim y = L /\
    (forall k, ax (ash y) k = 1 \/ ax (ash y) k = ax (P ++ d) k) /\
    forall p v, within p P -> within v d ->
      (INR r * bget y (at_index (p ++ v)) = lsum (map (fun q => bget m (at_index (q ++ v))) (copies P Q p)))%R.
Proof.
  intros P T Q d m ti sh sm L NT HT TL [ML MB] EL L1 L2 L3 A1 A2 A3. pose proof TL as [TL1 TL2].
  set (TT := T ++ repeat 1 (length d)) in *. set (PP := P ++ d) in *. set (nd := length d) in *.
  assert (AT : forall k, ax TT k = if k <? nd then 1 else ax T (k - nd)).
  { intros k. unfold TT. rewrite ax_app, repeat_length. fold nd. destruct (k <? nd); [|reflexivity].
    replace (repeat 1 nd) with (repeat 1 nd ++ []) by apply app_nil_r. rewrite ax_repeat_units. apply ax_nil. }
  assert (AP : forall k, ax PP k = if k <? nd then ax d k else ax P (k - nd)) by (intros k; unfold PP; rewrite ax_app; reflexivity).
  assert (AQ : forall k, ax (Q ++ d) k = ax PP k * ax TT k).
  { intros k. rewrite AT, AP, ax_app. fold nd. destruct (k <? nd); [lia|apply TL2]. }
  rewrite app_length in ML. fold nd in ML.
  assert (LQ : 0 < length Q) by (destruct T; [contradiction|cbn in TL1; lia]).
  destruct (tile_sum_ok m ti sh sm PP TT L) as (r & ti' & sh' & y & E1 & E2 & E3 & E4 & E5 & E6 & E7 & E8); try assumption; try lia.
  { unfold ndim. lia. }
  { intros k. rewrite <- AQ. apply MB. }
  exists r, ti', sh', y. split; [exact E1|]. split.
  { rewrite E2. apply nprod_pos. intros k _. destruct (ax (ash m) k =? 1); [|lia]. rewrite AT. destruct (k <? nd); [lia|]. now apply ax_pos. }
  split; [exact E3|]. split; [exact E4|]. split.
  { intros k. rewrite E5. destruct (ax (ash m) k =? 1); auto. }
  intros p v Hp Hv. pose proof (F2_length _ _ _ _ _ Hp) as Lp. pose proof (F2_length _ _ _ _ _ Hv) as Lv.
  rewrite E8 by (apply valid_at_index; now apply F2_app).
  set (G := fun t : env => bget m (fun k => t k * ax PP k + at_index (p ++ v) k)).
  unfold total, all_indices. rewrite E6, E2.
  rewrite <- (total_scale_n L TT ti' (fun k => ax (ash m) k =? 1) G).
  2:{ intros k _. apply E7. }
  2:{ intros k _ U e x. unfold G. apply bget_ext. intros j _ Nj. unfold upd. destruct (Nat.eqb_spec j k) as [->|]; [|reflexivity].
      apply Nat.eqb_eq in U. contradiction. }
  rewrite total_long by (unfold TT; rewrite app_length, repeat_length; fold nd; lia).
  unfold TT. rewrite total_split, repeat_length. fold nd.
  replace (lists (repeat 1 nd)) with [repeat 0 nd].
  2:{ replace (repeat 1 nd) with (repeat 1 nd ++ []) by apply app_nil_r. rewrite lists_pad. cbn. now rewrite app_nil_r. }
  cbn [map]. change (lsum [?z]) with (z + 0)%R. rewrite Rplus_0_r.
  assert (Z : forall k, at_index (repeat 0 nd) k = 0).
  { intros k. replace (repeat 0 nd) with (repeat 0 nd ++ []) by apply app_nil_r. rewrite at_index_pad. unfold at_index. now destruct k. }
  transitivity (total T (fun t => bget m (join nd (fun k => t k * ax P k + at_index p k) (at_index v)))).
  { rewrite total_lists. apply lsum_map_ext. intros t _. unfold G. apply bget_ext. intros k _ _. rewrite AP, at_index_app, Lv. unfold join.
    fold nd. destruct (Nat.ltb_spec k nd); [rewrite Z; lia|reflexivity]. }
  rewrite <- (copies_sum P T Q p (fun e => bget m (join nd e (at_index v)))) by assumption.
  apply lsum_map_ext. intros q _. rewrite at_index_app, Lv. reflexivity.
Qed.

Lemma tile_message_ok : forall P T Q d (m : arr R), T <> [] -> (forall t, In t T -> 0 < t) -> tiled P T Q ->
  broadcasts_to (ash m) (Q ++ d) ->
  exists y, tile_message T Q d (length P) m = Ok y /\ broadcasts_to (ash y) (P ++ d) /\
    forall p v, within p P -> within v d ->
      bget y (at_index (p ++ v)) = lsum (map (fun q => bget m (at_index (q ++ v))) (copies P Q p)).
Proof.
  intros P T Q d m NT HT TL MB. pose proof TL as [TL1 TL2]. unfold tile_message. rewrite (plates_to_ok P T Q HT TL). cbn [bind].
  unfold make_equal_length. cbn [bind map].
  assert (ML : ndim m <= length Q + length d) by (destruct MB as [ML _]; rewrite app_length in ML; exact ML). unfold ndim in ML.
  replace (max_rank [T ++ repeat 1 (length d); (repeat 1 (length Q - length P) ++ P) ++ d; ash m]) with (length Q + length d).
  2:{ unfold max_rank. cbn [map fold_left fold_right list_max]. rewrite !app_length, !repeat_length. lia. }
  edestruct (tile_core P T Q d m) as (r & ti' & sh' & y & E1 & RP & E2 & E3 & E4 & E5);
    [exact NT|exact HT|exact TL|exact MB|reflexivity| | | | | | |].
  7:{ rewrite E1. cbn [bind]. rewrite E2. cbn [bind].
      destruct (squeeze_to_dim_ok R (np_scale r y) (length P + length d)) as (z & Ez & Lz & Az & Gz).
      { intros k Hk. cbn [ash np_scale np_map]. destruct (E4 k) as [Q1|Q1]; [exact Q1|]. rewrite Q1. apply ax_overflow. rewrite app_length. exact Hk. }
      exists z. split; [exact Ez|]. split.
      - split; [rewrite Lz, app_length; lia|]. intros k. rewrite Az. apply E4.
      - intros p v Hp Hv. rewrite Gz. unfold np_scale. rewrite bget_map. now apply E5. }
  - rewrite !app_length, !repeat_length. lia.
  - rewrite !app_length, !repeat_length. lia.
  - rewrite !app_length, !repeat_length. lia.
  - intros k. now rewrite ax_repeat_units.
  - intros k. rewrite ax_repeat_units. rewrite <- app_assoc. now rewrite ax_repeat_units.
  - intros k. now rewrite ax_repeat_units.
Qed.

Lemma tile_moments_ok : forall P T Q d (u : arr R), T <> [] -> tiled P T Q -> broadcasts_to (ash u) (P ++ d) ->
  exists x, tile_moments T (length d) u = Ok x /\ broadcasts_to (ash x) (Q ++ d) /\
    forall q v, within q Q -> within v d -> bget x (at_index (q ++ v)) = bget u (at_index (tile_source P q ++ v)).
Proof.
  intros P T Q d u NT [TL1 TL2] [UL UB]. unfold tile_moments. rewrite app_length in UL.
  destruct (Nat.ltb_spec 0 (ndim u)) as [C|C].
  - unfold make_equal_length. cbn [bind map]. set (ti := T ++ repeat 1 (length d)).
    set (n := Nat.min (length ti) (ndim u)).
    assert (Ln : length (lastn n ti) = n) by (apply lastn_length; unfold n; lia).
    replace (max_rank [lastn n ti; ash u]) with (ndim u).
    2:{ unfold max_rank, ndim in *. cbn [map fold_left fold_right list_max]. lia. }
    set (reps := map _ (combine _ _)). eexists. split; [reflexivity|].
    assert (AR : forall k, k < ndim u -> ax reps k = if 1 <? ax (ash u) k then ax ti k else 1).
    { intros k Hk. unfold reps. rewrite ax_zip.
      - cbn [fst snd]. rewrite !ax_repeat_units, ax_lastn. destruct (1 <? ax (ash u) k); [|reflexivity].
        destruct (Nat.ltb_spec k n); [reflexivity|]. unfold n in *. now rewrite ax_overflow by lia.
      - rewrite !app_length, !repeat_length. fold (ndim u). lia.
      - rewrite app_length, repeat_length. lia. }
    assert (LR : length reps = ndim u) by (unfold reps; rewrite map_length, combine_length, !app_length, !repeat_length; fold (ndim u); lia).
    assert (AX : forall k, ax (ash (np_tile u reps)) k = if k <? ndim u then ax (ash u) k * ax reps k else 1).
    { intros k. unfold np_tile. cbn [ash]. rewrite ax_mkshape, LR, Nat.max_id. reflexivity. }
    assert (AT : forall k, ax ti k = if k <? length d then 1 else ax T (k - length d)).
    { intros k. unfold ti. rewrite ax_app, repeat_length. destruct (k <? length d); [|reflexivity].
      replace (repeat 1 (length d)) with (repeat 1 (length d) ++ []) by apply app_nil_r. rewrite ax_repeat_units. apply ax_nil. }
    split.
    + split; [unfold np_tile, mkshape; cbn [ash]; rewrite map_length, back_range_length, LR, app_length; unfold ndim in *; lia|].
      intros k. rewrite AX. destruct (Nat.ltb_spec k (ndim u)); [|now left]. rewrite AR by assumption.
      specialize (UB k). rewrite ax_app in UB |- *. rewrite AT.
      destruct (Nat.ltb_spec 1 (ax (ash u) k)) as [B|B].
      * right. destruct UB as [UB|UB]; [lia|]. rewrite UB. destruct (k <? length d); [lia|]. symmetry. apply TL2.
      * rewrite Nat.mul_1_r. destruct UB as [UB|UB]; [now left|]. destruct (Nat.eq_dec (ax (ash u) k) 1) as [|N1]; [now left|].
        right. assert (ax (ash u) k = 0) as Z by lia. rewrite Z in *. destruct (k <? length d); [exact UB|]. rewrite TL2, <- UB. reflexivity.
    + intros q v Hq Hv. pose proof (F2_length _ _ _ _ _ Hq) as Lq. pose proof (F2_length _ _ _ _ _ Hv) as Lv.
      unfold bget at 1. cbn [aget np_tile]. apply bget_ext. intros k Hk Nk. unfold clip. rewrite AX, AR by exact Hk.
      fold (ndim u) in Hk. apply Nat.ltb_lt in Hk as Hk'. rewrite Hk'.
      destruct (Nat.eqb_spec (ax (ash u) k * (if 1 <? ax (ash u) k then ax ti k else 1)) 1) as [Q1|Q1].
      { apply Nat.eq_mul_1 in Q1 as [Q1 _]. contradiction. }
      destruct (UB k) as [Q2|Q2]; [contradiction|]. rewrite Q2, ax_app, !at_index_app, Lv. unfold join.
      destruct (Nat.ltb_spec k (length d)).
      * apply Nat.mod_small. apply (valid_at_index _ _ Hv).
      * unfold tile_source. rewrite map_back_range by (unfold ndim in *; lia). reflexivity.
  - exists u. split; [reflexivity|]. unfold ndim in C. split.
    + split; [lia|]. intros k. left. apply ax_overflow. lia.
    + intros q v _ _. apply bget_ext. intros k Hk. lia.
Qed.

Lemma within_of : forall (f : nat -> nat) P, (forall k, f k < ax P k) -> Forall2 lt (map f (back_range (length P))) P.
Proof.
  intros f P. revert f. induction P as [|n P IH]; intros f G; [constructor|].
    cbn [length]. rewrite back_range_S. cbn [map]. constructor.
    + specialize (G (length P)). now rewrite ax_cons, Nat.eqb_refl in G.
    + rewrite (map_ext_in _ (fun k => if k <? length P then f k else 0)).
      * apply IH. intros k. specialize (G k). rewrite ax_cons in G. destruct (Nat.ltb_spec k (length P)); [|rewrite ax_overflow; lia].
        destruct (Nat.eqb_spec k (length P)); [lia|exact G].
      * intros k Hk. apply in_back_range in Hk. apply Nat.ltb_lt in Hk. now rewrite Hk.
Qed.

(** The moments are repeated, the message is the sum over the copies, the adjoint. *)
Theorem C16_tile : forall P T d (u m : arr R) Q, T <> [] -> (forall t, In t T -> 0 < t) ->
  tile_plates_from T P = Ok Q ->
  broadcasts_to (ash u) (P ++ d) -> broadcasts_to (ash m) (Q ++ d) ->
  tiled P T Q /\ tile_plates_to T Q = Ok (repeat 1 (length Q - length P) ++ P) /\
  exists x y, tile_moments T (length d) u = Ok x /\ tile_message T Q d (length P) m = Ok y /\
    broadcasts_to (ash x) (Q ++ d) /\ broadcasts_to (ash y) (P ++ d) /\
    (forall q v, within q Q -> within v d -> bget x (at_index (q ++ v)) = bget u (at_index (tile_source P q ++ v))) /\
    (forall p v, within p P -> within v d ->
       bget y (at_index (p ++ v)) = lsum (map (fun q => bget m (at_index (q ++ v))) (copies P Q p))) /\
    total (Q ++ d) (fun e => bget m e * bget x e)%R = total (P ++ d) (fun e => bget y e * bget u e)%R.
Proof.
  intros P T d u m Q NT HT EQ UB MB.
  assert (TL : tiled P T Q) by (destruct (plates_from_ok P T) as (Q' & E & TL); congruence).
  split; [exact TL|]. split; [now apply plates_to_ok|].
  destruct (tile_moments_ok P T Q d u NT TL UB) as (x & EX & XB & GX).
  destruct (tile_message_ok P T Q d m NT HT TL MB) as (y & EY & YB & GY).
  exists x, y. split; [exact EX|]. split; [exact EY|]. split; [exact XB|]. split; [exact YB|]. split; [exact GX|]. split; [exact GY|].
  apply (adjoint (tile_source P) m x y u Q P d).
  - intros q Hq. pose proof TL as [TL1 TL2]. unfold tile_source.
    assert (V : valid Q (at_index q)) by now apply valid_at_index.
    assert (G : forall k, at_index q k mod ax P k < ax P k).
    { intros k. specialize (V k). rewrite TL2 in V. apply Nat.mod_upper_bound. nia. }
    now apply (within_of (fun k => at_index q k mod ax P k)).
  - exact GX.
  - exact GY.
Qed.

(** An element of the parent is used iff one of its copies is. *)
Theorem C16_mask : forall P T (w : arr bool) Q, T <> [] -> (forall t, In t T -> 0 < t) ->
  tile_plates_from T P = Ok Q -> broadcasts_to (ash w) Q ->
  exists y, tile_weights T Q (length P) w = Ok y /\ broadcasts_to (ash y) P /\
    forall p, within p P -> (bget y (at_index p) <> 0%R <-> exists q, In q (copies P Q p) /\ bget w (at_index q) = true).
Proof.
  intros P T w Q NT HT EQ WB.
  assert (TL : tiled P T Q) by (destruct (plates_from_ok P T) as (Q' & E & TL); congruence). pose proof TL as [TL1 TL2].
  unfold tile_weights. rewrite (plates_to_ok P T Q HT TL). cbn [bind]. unfold make_equal_length. cbn [bind map].
  set (m := np_map (fun b : bool => if b then 1%R else 0%R) w).
  assert (SM : ash m = ash w) by reflexivity.
  assert (ML : length (ash w) <= length Q) by apply WB.
  replace (max_rank [repeat 1 (length Q - length P) ++ P; T; ash m]) with (length Q).
  2:{ unfold max_rank. cbn [map fold_left fold_right list_max]. rewrite !app_length, !repeat_length, SM. lia. }
  edestruct (tile_core P T Q [] m) as (r & ti' & sh' & y & E1 & RP & E2 & E3 & E4 & E5);
    [exact NT|exact HT|exact TL|rewrite app_nil_r, SM; exact WB|reflexivity| | | | | | |].
  7:{ rewrite E1. cbn [bind]. rewrite E2. cbn [bind]. rewrite app_nil_r in E4.
      destruct (squeeze_to_dim_ok _ y (length P)) as (z & Ez & Lz & Az & Gz).
      { intros k Hk. destruct (E4 k) as [Q1|Q1]; [exact Q1|]. rewrite Q1. now apply ax_overflow. }
      exists z. split; [exact Ez|]. split.
      - split; [rewrite Lz; lia|]. intros k. rewrite Az. apply E4.
      - intros p Hp. rewrite Gz. specialize (E5 p [] Hp (Forall2_nil _)). rewrite app_nil_r in E5.
        assert (R0 : (0 < INR r)%R) by now apply lt_0_INR.
        assert (G : forall l : list (list nat),
           (0 <= lsum (map (fun q => bget m (at_index (q ++ []))) l))%R /\
           ((0 < lsum (map (fun q => bget m (at_index (q ++ []))) l))%R <-> exists q, In q l /\ bget w (at_index q) = true)).
        { induction l as [|e l [I1 I2]].
          - cbn. split; [lra|]. split; [lra|intros (e & [] & _)].
          - cbn [map]. change (lsum (?x :: ?y)) with (x + lsum y)%R. unfold m at 1 3. rewrite !bget_map, app_nil_r. destruct (bget w (at_index e)) eqn:Ew.
            + split; [lra|]. split; [intros _; exists e; split; [now left|exact Ew]|intros _; lra].
            + split; [lra|]. rewrite Rplus_0_l, I2. split; intros (e' & I & V); exists e'; [split; [now right|exact V]|].
              destruct I as [<-|I]; [congruence|auto]. }
        destruct (G (copies P Q p)) as [G1 G2]. rewrite <- G2, <- E5. rewrite <- E5 in G1. split.
        + intros N. destruct (Rtotal_order (bget y (at_index p)) 0) as [B|[B|B]]; [nra|contradiction|nra].
        + intros B N. rewrite N in B. lra. }
  - cbn [length]. rewrite !app_length, !repeat_length. lia.
  - cbn [length]. rewrite !app_length, !repeat_length. lia.
  - cbn [length]. rewrite !app_length, !repeat_length. rewrite SM. lia.
  - intros k. rewrite app_nil_r. now rewrite ax_repeat_units.
  - intros k. rewrite app_nil_r. now rewrite !ax_repeat_units.
  - intros k. now rewrite ax_repeat_units.
Qed.

(** tile(X, (4, 2, 1)) for plates (3, 5) and dims (2,), a message that broadcasts. *)
Example C16_case :
  let u := Arr [3; 1; 2] (fun e => INR (e 0 + e 2)) in
  let m := Arr [6; 1; 2] (fun e => INR (e 0 + e 2)) in
  tile_plates_from [4; 2; 1] [3; 5] = Ok [4; 6; 5] /\ broadcasts_to (ash u) ([3; 5] ++ [2]) /\
  broadcasts_to (ash m) ([4; 6; 5] ++ [2]) /\ copies [3] [6] [1] = [[1]; [4]] /\ tile_source [3; 5] [2; 4; 3] = [1; 3].
Proof.
  cbv zeta. split; [reflexivity|]. split; [apply is_shape_subset_spec; reflexivity|].
  split; [apply is_shape_subset_spec; reflexivity|]. split; reflexivity.
Qed.

Print Assumptions C16_tile.
Print Assumptions C16_mask.
