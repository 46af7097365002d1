(** Theorems for C14: Take and its message. *)
From Coq Require Import List Arith ZArith Lia Bool Reals Lra FunctionalExtensionality.
From Verif Require Import Base Shapes SpecShapes ShapesLemmas NumPy MiscArray TensorLemmas
  SpecArray SpecIndex PlateSumLemmas ShapeOpsLemmas MessageLemmas EinsumLemmas Reindex TakeConcat TakeLemmas.
Import ListNotations.
Open Scope nat_scope.

Lemma wrap_index : forall n i, in_range n i -> wrap n i = python_index n i.
Proof.
  intros n i [H1 H2]. unfold wrap, python_index. destruct (Z.ltb_spec i 0).
  - replace (i mod Z.of_nat n)%Z with ((i + 1 * Z.of_nat n) mod Z.of_nat n)%Z by (rewrite Z.mod_add by lia; reflexivity).
    rewrite Z.mul_1_l, Z.mod_small by lia. reflexivity.
  - rewrite Z.mod_small by lia. reflexivity.
Qed.
Lemma index_ok_range : forall n i, index_ok n i = true <-> in_range n i.
Proof. intros n i. unfold index_ok, in_range. rewrite andb_true_iff, Z.leb_le, Z.ltb_lt. reflexivity. Qed.

Lemma F2_app : forall a A w W, Forall2 lt a A -> Forall2 lt w W -> Forall2 lt (a ++ w) (A ++ W).
Proof. intros. now apply Forall2_app. Qed.

Lemma sum_pick : forall n t (g : nat -> R), t < n ->
  lsum (map (fun x => if t =? x then g x else 0%R) (seq 0 n)) = g t.
Proof.
  intros n t g H. assert (G : forall k s, lsum (map (fun x => if t =? x then g x else 0%R) (seq s k)) =
    if (s <=? t) && (t <? s + k) then g t else 0%R).
  { induction k as [|k IH]; intros s.
    - cbn [seq map]. destruct (Nat.leb_spec s t); destruct (Nat.ltb_spec t (s + 0)); try lia; reflexivity.
    - cbn [seq map]. change (lsum (?x :: ?y)) with (x + lsum y)%R. rewrite IH.
      destruct (Nat.eqb_spec t s) as [->|NE].
      + destruct (Nat.leb_spec (S s) s); [lia|]. destruct (Nat.leb_spec s s); [|lia]. destruct (Nat.ltb_spec s (s + S k)); [|lia]. cbn [andb]. lra.
      + destruct (Nat.leb_spec (S s) t); destruct (Nat.leb_spec s t); try lia; destruct (Nat.ltb_spec t (S s + k)); destruct (Nat.ltb_spec t (s + S k)); try lia; cbn [andb]; lra. }
  rewrite G. destruct (Nat.ltb_spec t (0 + n)); [reflexivity|lia].
Qed.

Lemma lsum_filter : forall A (p : A -> bool) (f : A -> R) l,
  lsum (map f (filter p l)) = lsum (map (fun x => if p x then f x else 0%R) l).
Proof. intros A p f. unfold lsum. induction l as [|x l IH]; [reflexivity|]. cbn. destruct (p x); cbn; rewrite IH; lra. Qed.

Lemma at_index_3 : forall a e w k, at_index (a ++ e ++ w) k =
  if k <? length w then at_index w k
  else if k <? length w + length e then at_index e (k - length w)
  else at_index a (k - (length w + length e)).
Proof.
  intros a e w k. rewrite !at_index_app. unfold join. rewrite app_length.
  destruct (Nat.ltb_spec k (length w)); destruct (Nat.ltb_spec k (length e + length w)); destruct (Nat.ltb_spec k (length w + length e)); try lia; try reflexivity.
  f_equal. lia.
Qed.

(** The index lists for which element [t] of the axis is taken. *)
Definition taken (N : nat) (ix : arr Z) (t : nat) : list (list nat) :=
  filter (fun e => python_index N (bget ix (at_index e)) =? t) (lists (ash ix)).

Lemma take_plates_ok : forall A N B ix, (forall e, within e (ash ix) -> in_range N (bget ix (at_index e))) ->
  take_init (A ++ [N] ++ B) (- Z.of_nat (length B) - 1)%Z ix = Ok (length B, N) /\
  take_plates_from (length B) ix (A ++ [N] ++ B) = A ++ ash ix ++ B /\
  take_plates_to (length B) N (ndim ix) (A ++ ash ix ++ B) = A ++ [N] ++ B.
Proof.
  intros A N B ix H. split; [|split].
  - unfold take_init. rewrite !app_length. cbn [length].
    destruct (Z.leb_spec (- Z.of_nat (length A + (1 + length B))) (- Z.of_nat (length B) - 1)); [|lia].
    destruct (Z.ltb_spec (- Z.of_nat (length B) - 1) (Z.of_nat (length A + (1 + length B)))); [|lia].
    cbn [andb]. destruct (Z.leb_spec 0 (- Z.of_nat (length B) - 1)); [lia|].
    replace (Z.to_nat (- (- Z.of_nat (length B) - 1) - 1)) with (length B) by lia.
    replace (ax (A ++ [N] ++ B) (length B)) with N.
    2:{ rewrite !ax_app, app_length. cbn [length]. destruct (Nat.ltb_spec (length B) (1 + length B)); [|lia].
        rewrite Nat.ltb_irrefl, Nat.sub_diag. reflexivity. }
    replace (all_ok N ix) with true; [reflexivity|]. symmetry. apply all_ok_spec. intros e He. apply index_ok_range. now apply H.
  - unfold take_plates_from.
    assert (E1 : butlast (S (length B)) (A ++ [N] ++ B) = A) by (change (S (length B)) with (length ([N] ++ B)); apply butlast_app).
    assert (E2 : lastn (length B) (A ++ [N] ++ B) = B) by (rewrite app_assoc; apply lastn_app).
    rewrite E1, E2. destruct (Nat.eqb_spec (length B) 0) as [Z|Z]; [|now rewrite app_assoc].
    apply length_zero_iff_nil in Z as ->. now rewrite app_nil_r.
  - unfold take_plates_to. unfold ndim.
    assert (E1 : butlast (length B + length (ash ix)) (A ++ ash ix ++ B) = A).
    { replace (length B + length (ash ix)) with (length (ash ix ++ B)) by (rewrite app_length; lia). apply butlast_app. }
    assert (E2 : lastn (length B) (A ++ ash ix ++ B) = B) by (rewrite app_assoc; apply lastn_app).
    rewrite E1, E2. destruct (Nat.eqb_spec (length B + length (ash ix)) 0) as [Z|Z].
    + assert (length B = 0) as Z1 by lia. assert (length (ash ix) = 0) as Z2 by lia. apply length_zero_iff_nil in Z1 as ->.
      apply length_zero_iff_nil in Z2 as ->. now rewrite !app_nil_r.
    + destruct (Nat.eqb_spec (length B) 0) as [Z1|]; [|reflexivity]. apply length_zero_iff_nil in Z1 as ->. cbn [length Nat.add] in E1.
      now rewrite E1.
Qed.

(** The moments of Take(X, ix): element [a, e, w] is element [a, ix[e], w] of X's. *)
Lemma take_moments_ok : forall A N B d ix (u : arr R),
  (forall e, within e (ash ix) -> in_range N (bget ix (at_index e))) ->
  broadcasts_to (ash u) (A ++ [N] ++ B ++ d) ->
  exists x, take_moments (length B) N ix (length d) u = Ok x /\ broadcasts_to (ash x) (A ++ ash ix ++ B ++ d) /\
    forall a e w, within a A -> within e (ash ix) -> within w (B ++ d) ->
      bget x (at_index (a ++ e ++ w)) = bget u (at_index (a ++ [python_index N (bget ix (at_index e))] ++ w)).
Proof.
  intros A N B d ix u H [UL UB]. unfold take_moments. rewrite <- app_length.
  set (W := B ++ d) in *. set (K := length W) in *.
  assert (AXT : forall k, ax (A ++ [N] ++ W) k = if k <? K then ax W k else if k =? K then N else ax A (k - S K)).
  { intros k. rewrite !ax_app, app_length. cbn [length]. fold K.
    destruct (Nat.ltb_spec k K); destruct (Nat.ltb_spec k (1 + K)); try lia; try reflexivity.
    - destruct (Nat.eqb_spec k K) as [->|]; [|lia]. now rewrite Nat.sub_diag.
    - destruct (Nat.eqb_spec k K); [lia|]. f_equal. }
  assert (AXO : forall k, ax (N :: repeat 1 K) k = if k =? K then N else 1).
  { intros k. rewrite ax_cons, repeat_length. destruct (k =? K); [reflexivity|].
    replace (repeat 1 K) with (repeat 1 K ++ []) by apply app_nil_r. rewrite ax_repeat_units. apply ax_nil. }
  assert (BO : broadcasts_to (N :: repeat 1 K) (A ++ [N] ++ W)).
  { split; [rewrite !app_length; cbn; rewrite repeat_length; fold K; lia|]. intros k. rewrite AXO, AXT.
    destruct (Nat.eqb_spec k K) as [->|]; [|now left]. rewrite Nat.ltb_irrefl. now right. }
  destruct (broadcast_exists_of_upper [ash u; N :: repeat 1 K] (A ++ [N] ++ W)) as [S HS].
  { intros p [<-|[<-|[]]]; [now split|exact BO]. }
  destruct (np_map2_total _ _ _ Rmult u (np_ones (N :: repeat 1 K)) S HS) as (x1 & E1 & S1).
  unfold np_multiply. rewrite E1. cbn [bind]. apply np_map2_ok in E1 as [NB G]. rewrite S1 in NB. cbn [ash np_ones] in NB.
  destruct NB as (N1 & N2 & N3).
  assert (SK : ax S K = N).
  { destruct (N3 K) as [F1 F2]. assert (EN : ax (N :: repeat 1 K) K = N) by (rewrite AXO, Nat.eqb_refl; reflexivity).
    destruct (F1 (N :: repeat 1 K)) as [F|F]; [right; now left| |congruence].
    rewrite EN in F. subst N. destruct F2 as [F2|(z & [<-|[<-|[]]] & F2)]; [exact F2| |congruence].
    destruct (UB K) as [Q|Q]; [congruence|]. rewrite AXT, Nat.ltb_irrefl, Nat.eqb_refl in Q. congruence. }
  assert (SL : K < ndim x1).
  { unfold ndim. rewrite S1. specialize (N1 (N :: repeat 1 K) ltac:(right; now left)). cbn in N1. rewrite repeat_length in N1. lia. }
  assert (SB : broadcasts_to S (A ++ [N] ++ W)).
  { split.
    - destruct N2 as [->|(z & [<-|[<-|[]]] & <-)]; [cbn; lia|exact UL|apply BO].
    - intros k. destruct (N3 k) as [_ [F|(z & [<-|[<-|[]]] & F)]]; [now left| |]; rewrite <- F; [apply UB|apply BO]. }
  assert (OK : all_ok (ax (ash x1) K) ix = true).
  { rewrite S1, SK. apply all_ok_spec. intros e He. apply index_ok_range. now apply H. }
  destruct (take_ok x1 ix K SL OK) as (x & E & SX & BX). exists x. split; [exact E|]. split.
  - rewrite SX, S1. unfold ndim in SL. rewrite S1 in SL. split.
    + rewrite !app_length, butlast_length, lastn_length by lia. fold K. destruct SB as [SB _]. rewrite !app_length in SB. cbn in SB. fold K in SB. lia.
    + intros k. rewrite ax_replace by lia. rewrite !ax_app, app_length. fold K. destruct SB as [_ SB].
      destruct (Nat.ltb_spec k K) as [C|C].
      * destruct (Nat.ltb_spec k (length (ash ix) + K)); [|lia]. specialize (SB k). rewrite AXT in SB.
        apply Nat.ltb_lt in C. now rewrite C in SB.
      * destruct (Nat.ltb_spec k (K + length (ash ix))); destruct (Nat.ltb_spec k (length (ash ix) + K)); try lia.
        specialize (SB (Datatypes.S k - length (ash ix))). rewrite AXT in SB.
        destruct (Nat.ltb_spec (Datatypes.S k - length (ash ix)) K); [lia|]. destruct (Nat.eqb_spec (Datatypes.S k - length (ash ix)) K) as [Q|Q]; [lia|].
        replace (k - (length (ash ix) + K)) with (Datatypes.S k - length (ash ix) - Datatypes.S K) by lia. exact SB.
  - intros a e w Ha He Hw. pose proof (F2_length _ _ _ _ _ Ha) as La. pose proof (F2_length _ _ _ _ _ He) as Le.
    pose proof (F2_length _ _ _ _ _ Hw) as Lw. fold K in Lw.
    rewrite BX.
    2:{ intros k Hk Q. rewrite at_index_3, Lw, Le. unfold ndim in Hk. destruct (Nat.ltb_spec (K + k) K); [lia|].
        destruct (Nat.ltb_spec (K + k) (K + length (ash ix))); [|lia]. replace (K + k - K) with k by lia.
        pose proof (valid_at_index _ _ He k) as V. lia. }
    rewrite G. unfold bget at 2. cbn [aget np_ones]. rewrite Rmult_1_r, S1, SK. apply bget_ext. intros k Hk Nk. unfold take_src, ndim.
    rewrite !at_index_3, Lw, Le. cbn [length].
    destruct (Nat.ltb_spec k K) as [C|C]; [reflexivity|].
    destruct (Nat.eqb_spec k K) as [->|NE].
    + destruct (Nat.ltb_spec K (K + 1)); [|lia]. rewrite Nat.sub_diag. change (at_index [?z] 0) with z.
      rewrite <- wrap_index by now apply H. f_equal. apply bget_ext. intros j Hj _.
      rewrite at_index_3, Lw, Le. destruct (Nat.ltb_spec (K + j) K); [lia|]. destruct (Nat.ltb_spec (K + j) (K + length (ash ix))); [|lia].
      f_equal. lia.
    + destruct (Nat.ltb_spec k (K + 1)); [lia|]. destruct (Nat.ltb_spec (k + length (ash ix) - 1) K); [lia|].
      destruct (Nat.ltb_spec (k + length (ash ix) - 1) (K + length (ash ix))); [lia|]. f_equal. lia.
Qed.

Lemma put_ok : forall A N W ix (m : arr R),
  (forall e, within e (ash ix) -> in_range N (bget ix (at_index e))) ->
  broadcasts_to (ash m) (A ++ ash ix ++ W) ->
  exists y, put_simple m ix (length W) N = Ok y /\ broadcasts_to (ash y) (A ++ [N] ++ W) /\
    forall a t w, within a A -> t < N -> within w W ->
      bget y (at_index (a ++ [t] ++ w)) = lsum (map (fun e => bget m (at_index (a ++ e ++ w))) (taken N ix t)).
Proof.
  intros A N W ix m H MB.
  assert (OK : all_ok N ix = true) by (apply all_ok_spec; intros e He; apply index_ok_range; now apply H).
  destruct (put_simple_ok A W ix N m OK MB) as (y & E & YB & G). exists y. split; [exact E|]. split; [exact YB|].
  intros a t w Ha Ht Hw. pose proof (F2_length _ _ _ _ _ Ha) as La. pose proof (F2_length _ _ _ _ _ Hw) as Lw.
  rewrite G.
  2:{ apply valid_at_index. apply F2_app; [exact Ha|]. apply F2_app; [|exact Hw]. constructor; [exact Ht|constructor]. }
  unfold taken. rewrite lsum_filter, all_indices_lists, map_map. apply lsum_map_ext. intros e He. apply in_lists in He.
  pose proof (F2_length _ _ _ _ _ He) as Le. rewrite wrap_index by now apply H.
  replace (at_index (a ++ [t] ++ w) (length W)) with t.
  2:{ rewrite at_index_3, Lw, Nat.ltb_irrefl. cbn [length]. destruct (Nat.ltb_spec (length W) (length W + 1)); [|lia]. now rewrite Nat.sub_diag. }
  destruct (python_index N (bget ix (at_index e)) =? t); [|reflexivity].
  apply bget_ext. intros k Hk _. unfold put_src, ndim. rewrite !at_index_3, Lw, Le. cbn [length].
  destruct (Nat.ltb_spec k (length W)); [reflexivity|].
  destruct (Nat.ltb_spec k (length W + length (ash ix))); [reflexivity|].
  destruct (Nat.ltb_spec (S k - length (ash ix)) (length W)); [lia|].
  destruct (Nat.ltb_spec (S k - length (ash ix)) (length W + 1)); [lia|]. f_equal. lia.
Qed.

Theorem C14_take : forall A N B d ix (u m : arr R),
  (forall e, within e (ash ix) -> in_range N (bget ix (at_index e))) ->
  let P := A ++ [N] ++ B in let Q := A ++ ash ix ++ B in
  broadcasts_to (ash u) (A ++ [N] ++ B ++ d) -> broadcasts_to (ash m) (A ++ ash ix ++ B ++ d) ->
  take_init P (- Z.of_nat (length B) - 1)%Z ix = Ok (length B, N) /\
  take_plates_from (length B) ix P = Q /\ take_plates_to (length B) N (ndim ix) Q = P /\
  exists x y, take_moments (length B) N ix (length d) u = Ok x /\ take_message (length B) N ix (length d) m = Ok y /\
    broadcasts_to (ash x) (A ++ ash ix ++ B ++ d) /\ broadcasts_to (ash y) (A ++ [N] ++ B ++ d) /\
    (forall a e w, within a A -> within e (ash ix) -> within w (B ++ d) ->
       bget x (at_index (a ++ e ++ w)) = bget u (at_index (a ++ [python_index N (bget ix (at_index e))] ++ w))) /\
    (forall a t w, within a A -> t < N -> within w (B ++ d) ->
       bget y (at_index (a ++ [t] ++ w)) = lsum (map (fun e => bget m (at_index (a ++ e ++ w))) (taken N ix t))) /\
    total (A ++ ash ix ++ B ++ d) (fun e => bget m e * bget x e)%R =
    total (A ++ [N] ++ B ++ d) (fun e => bget y e * bget u e)%R.
Proof.
  intros A N B d ix u m H P Q UB MB.
  destruct (take_plates_ok A N B ix H) as (P1 & P2 & P3). split; [exact P1|]. split; [exact P2|]. split; [exact P3|].
  destruct (take_moments_ok A N B d ix u H UB) as (x & EX & XB & GX).
  destruct (put_ok A N (B ++ d) ix m H MB) as (y & EY & YB & GY).
  exists x, y. split; [exact EX|]. split; [unfold take_message; now rewrite <- app_length|].
  split; [exact XB|]. split; [exact YB|]. split; [exact GX|]. split; [exact GY|].
  set (W := B ++ d) in *. rewrite !total_lists, !lists_app.
  apply lsum_map_ext. intros w Hw. apply in_lists in Hw.
  transitivity (lsum (map (fun e => lsum (map (fun a => bget m (at_index (a ++ e ++ w)) *
     bget u (at_index (a ++ [python_index N (bget ix (at_index e))] ++ w)))%R (lists A))) (lists (ash ix)))).
  { apply lsum_map_ext. intros e He. apply in_lists in He. apply lsum_map_ext. intros a Ha. apply in_lists in Ha. now rewrite GX. }
  transitivity (lsum (map (fun t => lsum (map (fun a => lsum (map (fun e =>
     if python_index N (bget ix (at_index e)) =? t then bget m (at_index (a ++ e ++ w)) * bget u (at_index (a ++ [t] ++ w)) else 0)%R (lists (ash ix))))
     (lists A))) (seq 0 N))).
  2:{ cbn [lists flat_map]. rewrite app_nil_r, map_map. apply lsum_map_ext. intros t Ht. apply in_seq in Ht. apply lsum_map_ext. intros a Ha. apply in_lists in Ha.
      change ([t] ++ w) with (([t] ++ []) ++ w). cbn [app]. pose proof (GY a t w Ha ltac:(lia) Hw) as Y. cbn [app] in Y. rewrite Y. unfold taken. rewrite lsum_filter, Rmult_comm, <- lsum_map_scal.
      apply lsum_map_ext. intros e _. destruct (_ =? t); cbn [app]; lra. }
  transitivity (lsum (map (fun e => lsum (map (fun t => lsum (map (fun a =>
     if python_index N (bget ix (at_index e)) =? t then bget m (at_index (a ++ e ++ w)) * bget u (at_index (a ++ [t] ++ w)) else 0)%R (lists A))) (seq 0 N))) (lists (ash ix)))).
  2:{ rewrite lsum_swap. apply lsum_map_ext. intros t _. apply lsum_swap. }
  apply lsum_map_ext. intros e He. apply in_lists in He. specialize (H e He).
  transitivity (lsum (map (fun t => if python_index N (bget ix (at_index e)) =? t then
     lsum (map (fun a => bget m (at_index (a ++ e ++ w)) * bget u (at_index (a ++ [t] ++ w))) (lists A)) else 0)%R (seq 0 N))).
  - rewrite sum_pick; [reflexivity|]. rewrite <- wrap_index by exact H. apply wrap_lt. now apply index_ok_range.
  - apply lsum_map_ext. intros t _. destruct (_ =? t); [reflexivity|]. symmetry. now apply lsum_map_zero.
Qed.

(** Any index out of range is refused. *)
Theorem C14_out_of_range : forall A N B ix e,
  within e (ash ix) -> ~ in_range N (bget ix (at_index e)) ->
  take_init (A ++ [N] ++ B) (- Z.of_nat (length B) - 1)%Z ix = Err ValueError.
Proof.
  intros A N B ix e He NR. unfold take_init. rewrite !app_length. cbn [length].
  destruct (Z.leb_spec (- Z.of_nat (length A + (1 + length B))) (- Z.of_nat (length B) - 1)); [|lia].
  destruct (Z.ltb_spec (- Z.of_nat (length B) - 1) (Z.of_nat (length A + (1 + length B)))); [|lia].
  cbn [andb]. destruct (Z.leb_spec 0 (- Z.of_nat (length B) - 1)); [lia|].
  replace (Z.to_nat (- (- Z.of_nat (length B) - 1) - 1)) with (length B) by lia.
  replace (ax (A ++ [N] ++ B) (length B)) with N.
  2:{ rewrite !ax_app, app_length. cbn [length]. destruct (Nat.ltb_spec (length B) (1 + length B)); [|lia].
      rewrite Nat.ltb_irrefl, Nat.sub_diag. reflexivity. }
  destruct (all_ok N ix) eqn:E; [|reflexivity]. exfalso. apply NR. apply index_ok_range. now apply (proj1 (all_ok_spec N ix) E).
Qed.

(** An element of the parent is used (non-zero weight) iff some used element takes it. *)
Theorem C14_mask : forall A N B ix (w : arr bool),
  (forall e, within e (ash ix) -> in_range N (bget ix (at_index e))) ->
  broadcasts_to (ash w) (A ++ ash ix ++ B) ->
  exists y, take_weights (length B) N ix w = Ok y /\ broadcasts_to (ash y) (A ++ [N] ++ B) /\
    forall a t b, within a A -> t < N -> within b B ->
      (bget y (at_index (a ++ [t] ++ b)) <> 0%R <->
       exists e, within e (ash ix) /\ python_index N (bget ix (at_index e)) = t /\ bget w (at_index (a ++ e ++ b)) = true).
Proof.
  intros A N B ix w H WB. unfold take_weights.
  set (m := np_map (fun b : bool => if b then 1%R else 0%R) w).
  destruct (put_ok A N B ix m H WB) as (y & EY & YB & GY). exists y. split; [exact EY|]. split; [exact YB|].
  intros a t b Ha Ht Hb. rewrite GY by assumption.
  assert (G : forall l, (forall e, In e l -> True) ->
     (0 <= lsum (map (fun e => bget m (at_index (a ++ e ++ b))) l))%R /\
     ((0 < lsum (map (fun e => bget m (at_index (a ++ e ++ b))) l))%R <-> exists e, In e l /\ bget w (at_index (a ++ e ++ b)) = true)).
  { induction l as [|e l IH]; intros _.
    - cbn. split; [lra|]. split; [lra|intros (e & [] & _)].
    - cbn [map]. change (lsum (?x :: ?y)) with (x + lsum y)%R. destruct IH as [I1 I2]; [auto|].
      assert (Em : bget m (at_index (a ++ e ++ b)) = if bget w (at_index (a ++ e ++ b)) then 1%R else 0%R).
      { unfold m, bget at 1. cbn [ash aget np_map]. rewrite (bget_ext _ w _ (at_index (a ++ e ++ b))); [reflexivity|].
        intros k _ Nk. unfold clip. apply Nat.eqb_neq in Nk. now rewrite Nk. }
      rewrite Em. destruct (bget w (at_index (a ++ e ++ b))) eqn:Ew.
      + split; [lra|]. split; [intros _; exists e; split; [now left|exact Ew]|intros _; lra].
      + split; [lra|]. rewrite Rplus_0_l, I2. split; intros (e' & I & V); exists e'; [split; [now right|exact V]|].
        destruct I as [<-|I]; [congruence|auto]. }
  destruct (G (taken N ix t)) as [G1 G2]; [auto|]. split.
  - intros NZ. assert (GZ : (0 < lsum (map (fun e => bget m (at_index (a ++ e ++ b))) (taken N ix t)))%R) by lra.
    apply G2 in GZ as (e & I & V). unfold taken in I. apply filter_In in I as [I1 I2]. apply in_lists in I1. apply Nat.eqb_eq in I2. exists e. auto.
  - intros (e & I1 & I2 & V). assert (GZ : (0 < lsum (map (fun e => bget m (at_index (a ++ e ++ b))) (taken N ix t)))%R).
    { apply G2. exists e. split; [|exact V]. apply filter_In. split; [now apply in_lists|now apply Nat.eqb_eq]. }
    lra.
Qed.

(** Plates (2, 3), X.take([[1, -1], [0, 1]], axis=-2) with dims (2,), moments broadcast over the taken axis. *)
Example C14_case :
  let ix := Arr [2; 2] (fun e => nth (2 * e 1 + e 0) [1; -1; 0; 1]%Z 0%Z) in
  let u := Arr [1; 3; 2] (fun e => INR (e 0 + e 1)) in
  let m := Arr [2; 1; 3; 2] (fun e => INR (e 0 + e 3)) in
  (forall e, within e (ash ix) -> in_range 2 (bget ix (at_index e))) /\
  broadcasts_to (ash u) ([] ++ [2] ++ [3] ++ [2]) /\ broadcasts_to (ash m) ([] ++ ash ix ++ [3] ++ [2]) /\
  take_plates_from 1 ix [2; 3] = [2; 2; 3] /\ taken 2 ix 1 = [[0; 0]; [0; 1]; [1; 1]].
Proof.
  cbv zeta. split; [|split; [|split; [|split]]].
  - intros e He. apply in_lists in He. cbn in He.
    repeat (destruct He as [<-|He]; [unfold in_range; cbn; lia|]). destruct He.
  - apply is_shape_subset_spec. reflexivity.
  - apply is_shape_subset_spec. reflexivity.
  - reflexivity.
  - reflexivity.
Qed.

Print Assumptions C14_take.
Print Assumptions C14_out_of_range.
Print Assumptions C14_mask.
