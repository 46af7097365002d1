(** ConcatGaussian: the block structure of the second moments. *)
From Coq Require Import List Arith ZArith Lia Bool Reals Lra FunctionalExtensionality.
From Verif Require Import Base Shapes SpecShapes ShapesLemmas NumPy MiscArray SpecArray TensorLemmas
  EinsumLemmas PlateSumLemmas ShapeOpsLemmas MessageLemmas UpdateLemmas NetworkLemmas DiagLemmas GateLemmas PGate ExpFamBound TakeConcat PConcat Dot SpecDot DotNode DotPart
  Reindex DotExpect DotScale AddNode SpecAdd LinalgLemmas2 AddLemmas.
Import ListNotations.
Open Scope nat_scope.

(** ** Broadcasting plates *)
Lemma ones_times : forall P d c full (a : arr R), length d = c -> variable_of P d a -> c <= length full ->
  (forall k, k < c -> ax full k = 1) -> broadcasts_to full (P ++ repeat 1 c) ->
  exists y Q, np_multiply (Arr full (fun _ => 1%R)) a = Ok y /\ ash y = Q ++ d /\ broadcasts_to Q P /\
    broadcasts_to (ash a) (Q ++ d) /\ broadcasts_to full (Q ++ repeat 1 c) /\ (forall e, bget y e = bget a e) /\
    (ndim a <= length full -> (forall k, c <= k -> ax (ash a) k = 1 \/ ax (ash a) k = ax full k) -> Q = firstn (length full - c) full).
Proof.
  intros P d c full a Ld (A1 & A2 & A3) Lf F1 F2. unfold ndim in *.
  destruct (map2_upper _ _ _ Rmult (Arr full (fun _ => 1%R)) a (P ++ d)) as (y & Ey & (N1 & N2 & N3) & By & Vy); [|exact A3|].
  { cbn [ash]. destruct F2 as [L2 F2]. split; [rewrite app_length, repeat_length in L2; rewrite app_length; lia|]. intros k. specialize (F2 k). rewrite ax_app, repeat_length in F2.
    rewrite ax_app, Ld. destruct (Nat.ltb_spec k c); [left; now apply F1|exact F2]. }
  cbn [ash] in *. exists y, (firstn (length (ash y) - c) (ash y)).
  pose proof (N1 full ltac:(now left)) as L1. pose proof (N1 (ash a) ltac:(right; now left)) as L2.
  assert (S : ash y = firstn (length (ash y) - c) (ash y) ++ d).
  { apply DiagLemmas.shape_ext; [rewrite app_length, firstn_length; lia|]. intros k. rewrite ax_app, Ld.
    destruct (Nat.ltb_spec k c) as [C|C].
    - destruct (N3 k) as [K1 K2]. pose proof (K1 (ash a) ltac:(right; now left)) as K. rewrite (A2 k) in K by lia.
      destruct K as [K|K]; [|congruence]. destruct K2 as [K2|(s & [<-|[<-|[]]] & K2)]; [congruence| |].
      + rewrite (F1 k C) in K2. congruence.
      + rewrite <- K2. apply A2. lia.
    - rewrite ax_firstn by lia. f_equal. lia. }
  set (Q := firstn (length (ash y) - c) (ash y)) in *.
  assert (LQ : length Q = length (ash y) - c) by (unfold Q; rewrite firstn_length; lia).
  split; [exact Ey|]. split; [exact S|]. split; [|split; [|split; [|split]]].
  - rewrite S in By. destruct By as [B1 B2]. rewrite !app_length in B1. split; [lia|]. intros k. specialize (B2 (k + c)). rewrite !ax_app, Ld in B2.
    destruct (Nat.ltb_spec (k + c) c); [lia|]. now replace (k + c - c) with k in B2 by lia.
  - rewrite <- S. split; [lia|]. intros k. apply N3. right. now left.
  - split; [rewrite app_length, repeat_length; lia|]. intros k. rewrite ax_app, repeat_length. destruct (Nat.ltb_spec k c) as [C|C]; [left; now apply F1|].
    destruct (N3 k) as [K1 _]. specialize (K1 full ltac:(now left)). rewrite S, ax_app, Ld in K1. destruct (Nat.ltb_spec k c); [lia|]. exact K1.
  - intros e. rewrite Vy. unfold bget at 1. cbn [aget]. ring.
  - intros La Ha. assert (E : length (ash y) = length full).
    { destruct N2 as [N2|(s & [<-|[<-|[]]] & N2)]; [rewrite N2 in *; cbn in *; lia|lia|lia]. }
    apply DiagLemmas.shape_ext; [rewrite firstn_length; lia|]. intros k. unfold Q. rewrite !ax_firstn by lia.
    replace (length (ash y) - (length (ash y) - c) + k) with (c + k) by lia. replace (length full - (length full - c) + k) with (c + k) by lia.
    destruct (N3 (c + k)) as [K1 K2]. pose proof (K1 full ltac:(now left)) as Kf. specialize (Ha (c + k) ltac:(lia)).
    destruct K2 as [K2|(s & [<-|[<-|[]]] & K2)]; intuition congruence.
Qed.

Lemma memb_seq0 : forall c k, memb k (seq 0 c) = (k <? c).
Proof.
  intros c k. destruct (Nat.ltb_spec k c) as [C|C].
  - apply existsb_exists. exists k. split; [apply in_seq; lia|apply Nat.eqb_refl].
  - apply not_true_is_false. intros E. apply existsb_exists in E as (j & Hj & E). apply in_seq in Hj. apply Nat.eqb_eq in E. lia.
Qed.
Lemma broadcast_ok : forall P c K (dd : nat -> shape) (a : nat -> arr R), 0 < K ->
  (forall i, i < K -> length (dd i) = c /\ variable_of P (dd i) (a i)) ->
  exists Q b, broadcast_ignore (map a (seq 0 K)) (seq 0 c) = Ok (map b (seq 0 K)) /\ broadcasts_to Q P /\
    forall i, i < K -> ash (b i) = Q ++ dd i /\ broadcasts_to (ash (a i)) (Q ++ dd i) /\ forall e, bget (b i) e = bget (a i) e.
Proof.
  intros P c K dd a HK H. unfold broadcast_ignore.
  set (shapes := map _ (map a (seq 0 K))).
  assert (BT : forall s, In s shapes -> broadcasts_to s (P ++ repeat 1 c)).
  { intros s Hs. unfold shapes in Hs. rewrite map_map in Hs. apply in_map_iff in Hs as (i & <- & Hi). apply in_seq in Hi. destruct (H i) as [L (A1 & A2 & A3 & A4)]; [lia|].
    unfold ndim in *. split; [rewrite length_mkshape, !app_length, repeat_length in *; lia|]. intros k. rewrite ax_mkshape, memb_seq0, ax_app, repeat_length.
    specialize (A4 k). rewrite ax_app, L in A4. destruct (k <? length (ash (a i))); [|now left]. destruct (k <? c); [now left|exact A4]. }
  destruct (broadcast_exists_of_upper _ _ BT) as [full HF]. rewrite HF. cbn [bind]. apply broadcasted_shape_ok in HF.
  pose proof (nb_upper _ _ _ HF BT) as Hup. destruct HF as (N1 & N2 & N3).
  assert (Sh : forall i, i < K -> In (mkshape (ndim (a i)) (fun k => if memb k (seq 0 c) then 1 else ax (ash (a i)) k)) shapes).
  { intros i Hi. unfold shapes. rewrite map_map. apply in_map_iff. exists i. split; [reflexivity|]. apply in_seq. lia. }
  assert (Lf : c <= length full).
  { specialize (N1 _ (Sh 0 HK)). rewrite length_mkshape in N1. destruct (H 0 HK) as [L (A1 & _)]. lia. }
  assert (F1 : forall k, k < c -> ax full k = 1).
  { intros k Hk. destruct (N3 k) as [_ [E|(s & Hs & E)]]; [exact E|]. rewrite <- E. unfold shapes in Hs. rewrite map_map in Hs. apply in_map_iff in Hs as (i & <- & Hi).
    rewrite ax_mkshape, memb_seq0. apply Nat.ltb_lt in Hk. rewrite Hk. now destruct (k <? ndim (a i)). }
  set (g := fun x : arr R => match np_multiply (Arr full (fun _ => 1%R)) x with Ok y => y | Err _ => x end).
  exists (firstn (length full - c) full), (fun i => g (a i)).
  assert (One : forall i, i < K -> np_multiply (Arr full (fun _ => 1%R)) (a i) = Ok (g (a i)) /\ ash (g (a i)) = firstn (length full - c) full ++ dd i /\
     broadcasts_to (ash (a i)) (firstn (length full - c) full ++ dd i) /\ forall e, bget (g (a i)) e = bget (a i) e).
  { intros i Hi. destruct (H i Hi) as [L V]. destruct (ones_times P (dd i) c full (a i) L V Lf F1 Hup) as (y & Q & Ey & Sy & _ & Ba & _ & Vy & EQ).
    unfold g. rewrite Ey. split; [reflexivity|]. rewrite <- EQ; [now split|..].
    - specialize (N1 _ (Sh i Hi)). now rewrite length_mkshape in N1.
    - intros k Hk. destruct (N3 k) as [K1 _]. specialize (K1 _ (Sh i Hi)). rewrite ax_mkshape, memb_seq0 in K1.
      destruct (Nat.ltb_spec k c); [lia|]. destruct (Nat.ltb_spec k (ndim (a i))) as [C|C]; [exact K1|]. left. now apply ax_overflow. }
  split; [|split].
  - rewrite (MarkovLemmas.mapM_ext_ok _ _ _ g), map_map; [reflexivity|]. intros x Hx. apply in_map_iff in Hx as (i & <- & Hi). apply in_seq in Hi. apply One. lia.
  - destruct Hup as [U1 U2]. rewrite app_length, repeat_length in U1. split; [rewrite firstn_length; lia|]. intros k. rewrite ax_firstn by lia.
    specialize (U2 (length full - (length full - c) + k)). rewrite ax_app, repeat_length in U2. destruct (Nat.ltb_spec (length full - (length full - c) + k) c); [lia|].
    now replace (length full - (length full - c) + k - c) with k in U2 by lia.
  - intros i Hi. apply One. exact Hi.
Qed.

(** ** Blocks *)
Lemma set_last0 : forall A m x, set_axis 0 m (A ++ [x]) = A ++ [m].
Proof. intros A m x. exact (set_axis_app A m x []). Qed.
Lemma set_last1 : forall A m x y, set_axis 1 m (A ++ [x; y]) = A ++ [m; y].
Proof. intros A m x y. exact (set_axis_app A m x [y]). Qed.
Section Blocks.
Variables (n : nat -> nat) (K : nat).
Definition start (i : nat) : nat := list_sum (map n (seq 0 i)).
Lemma start_S : forall i, start (S i) = start i + n i.
Proof. intros i. unfold start. rewrite seq_S, map_app, list_sum_app. cbn. lia. Qed.
Lemma start_mono : forall i j, i <= j -> start i <= start j.
Proof. intros i j H. induction H; [lia|]. rewrite start_S. lia. Qed.
Lemma start_in : forall i j a, j < n i -> start a <= start i + j -> start i + j < start a + n a -> i = a.
Proof.
  intros i j a Hj H1 H2. destruct (Nat.lt_trichotomy i a) as [C|[C|C]]; [|exact C|].
  - pose proof (start_mono (S i) a ltac:(lia)). rewrite start_S in *. lia.
  - pose proof (start_mono (S a) i ltac:(lia)). rewrite start_S in *. lia.
Qed.
Lemma start_lt : forall i j, i < K -> j < n i -> start i + j < start K.
Proof. intros i j Hi Hj. pose proof (start_mono (S i) K ltac:(lia)). rewrite start_S in *. lia. Qed.
Lemma start_le : forall i, i < K -> start i + n i <= start K.
Proof. intros i Hi. rewrite <- start_S. apply start_mono. lia. Qed.
Lemma locate : forall o, o < start K -> exists i j, i < K /\ j < n i /\ o = start i + j.
Proof.
  intros o. generalize K as k. induction k as [|k IH]; intros H; [cbn in H; lia|]. rewrite start_S in H.
  destruct (Nat.lt_ge_cases o (start k)) as [C|C].
  - destruct (IH C) as (i & j & A & B & D). exists i, j. split; [lia|]. now split.
  - exists k, (o - start k). lia.
Qed.

Variable Q : shape.
Definition grid (Y : arr R) (f : env -> nat -> nat -> nat -> nat -> R) : Prop :=
  ash Y = Q ++ [start K; start K] /\
  forall p i j i' j', valid Q p -> i < K -> j < n i -> i' < K -> j' < n i' ->
    bget Y (join 2 p (at_index [start i + j; start i' + j'])) = f p i j i' j'.
Lemma grid_ext : forall Y f g, (forall p i j i' j', valid Q p -> i < K -> j < n i -> i' < K -> j' < n i' -> f p i j i' j' = g p i j i' j') -> grid Y f -> grid Y g.
Proof. intros Y f g E [S H]. split; [exact S|]. intros. rewrite H by assumption. now apply E. Qed.

Lemma cut_shape : forall (Y : arr R) a b, a < K -> b < K -> ash Y = Q ++ [start K; start K] ->
  ash (cut (cut Y 1 (start a) (start a + n a)) 0 (start b) (start b + n b)) = Q ++ [n a; n b].
Proof.
  intros Y a b Ha Hb S. pose proof (start_le a Ha). pose proof (start_le b Hb).
  assert (X1 : ax (ash Y) 1 = start K) by (rewrite S, ax_app; reflexivity).
  assert (E1 : ash (cut Y 1 (start a) (start a + n a)) = Q ++ [n a; start K]).
  { cbn [cut ash]. rewrite X1, S, set_last1. f_equal. f_equal. lia. }
  unfold cut at 1. cbn [ash]. rewrite E1. replace (ax (Q ++ [n a; start K]) 0) with (start K) by (rewrite ax_app; reflexivity).
  replace (Q ++ [n a; start K]) with ((Q ++ [n a]) ++ [start K]) by (rewrite <- app_assoc; reflexivity).
  rewrite set_last0, <- app_assoc. cbn [app]. f_equal. f_equal. f_equal. lia.
Qed.
Lemma set_block_grid : forall Y f a b A, grid Y f -> a < K -> b < K -> broadcasts_to (ash A) (Q ++ [n a; n b]) ->
  exists Y', set_block Y (start a) (start a + n a) (start b) (start b + n b) A = Ok Y' /\
    grid Y' (fun p i j i' j' => if (i =? a) && (i' =? b) then bget A (join 2 p (at_index [j; j'])) else f p i j i' j').
Proof.
  intros Y f a b A [S G] Ha Hb BA. unfold set_block. unfold ndim. rewrite S, app_length. cbn [length].
  destruct (Nat.ltb_spec (length Q + 2) 2); [lia|]. rewrite (cut_shape Y a b Ha Hb S). apply is_shape_subset_spec in BA. rewrite BA.
  eexists. split; [reflexivity|]. split; [reflexivity|]. intros p i j i' j' Hp Hi Hj Hi' Hj'.
  set (e := join 2 p (at_index [start i + j; start i' + j'])).
  assert (V : valid (Q ++ [start K; start K]) e).
  { intros k. rewrite ax_app. cbn [length]. unfold e, join. destruct (Nat.ltb_spec k 2) as [C|C]; [|apply Hp].
    destruct k as [|[|k]]; [| |lia]; cbn; now apply start_lt. }
  unfold bget at 1. cbn [ash aget]. rewrite (clip_valid_id _ _ V). change (e 1) with (start i + j). change (e 0) with (start i' + j').
  assert (T : ((start a <=? start i + j) && (start i + j <? start a + n a) && (start b <=? start i' + j') && (start i' + j' <? start b + n b)) = (i =? a) && (i' =? b)).
  { destruct (Nat.eqb_spec i a) as [->|Na].
    - destruct (Nat.leb_spec (start a) (start a + j)); [|lia]. destruct (Nat.ltb_spec (start a + j) (start a + n a)); [|lia]. cbn [andb].
      destruct (Nat.eqb_spec i' b) as [->|Nb].
      + destruct (Nat.leb_spec (start b) (start b + j')); [|lia]. destruct (Nat.ltb_spec (start b + j') (start b + n b)); [|lia]. reflexivity.
      + apply not_true_is_false. rewrite andb_true_iff, Nat.leb_le, Nat.ltb_lt. intros [C1 C2]. apply Nb. now apply (start_in i' j' b).
    - cbn [andb]. apply not_true_is_false. rewrite !andb_true_iff, !Nat.leb_le, !Nat.ltb_lt. intros [[[C1 C2] _] _]. apply Na. now apply (start_in i j a). }
  rewrite T. destruct (Nat.eqb_spec i a) as [->|Na]; cbn [andb].
  - destruct (Nat.eqb_spec i' b) as [->|Nb]; [|unfold e; now apply G].
    f_equal. apply functional_extensionality. intros k. unfold upd, join, e.
    destruct k as [|[|k]]; cbn; lia.
  - unfold e. now apply G.
Qed.

Lemma block_fold : forall (b : nat -> arr R), (forall i, i < K -> ash (b i) = Q ++ [n i; n i]) ->
  forall m k Y f, k + m = K -> grid Y f ->
  exists Y', foldM (fun st x =>
          let '(Y, i_start, j_start) := st in
          let i_end := i_start + ax (ash x) 1 in
          let j_end := j_start + ax (ash x) 0 in
          Y <- set_block Y i_start i_end j_start j_end x ;;
          Ok (Y, i_end, j_end)) (Y, start k, start k) (map b (seq k m)) = Ok (Y', start K, start K) /\
    grid Y' (fun p i j i' j' => if (k <=? i) && (i =? i') then bget (b i) (join 2 p (at_index [j; j'])) else f p i j i' j').
Proof.
  intros b Hb m. induction m as [|m IH]; intros k Y f E G.
  - replace k with K by lia. exists Y. split; [reflexivity|]. eapply grid_ext; [|exact G]. intros. cbn beta. destruct (Nat.leb_spec K i); [lia|reflexivity].
  - cbn [seq map foldM]. assert (Hk : k < K) by lia.
    replace (ax (ash (b k)) 1) with (n k) by (rewrite (Hb k Hk), ax_app; reflexivity). replace (ax (ash (b k)) 0) with (n k) by (rewrite (Hb k Hk), ax_app; reflexivity).
    destruct (set_block_grid Y f k k (b k) G Hk Hk) as (Y1 & -> & G1); [rewrite (Hb k Hk); split; [lia|]; now right|]. cbn [bind].
    rewrite <- start_S. destruct (IH (S k) Y1 _ ltac:(lia) G1) as (Y' & E' & G'). exists Y'. split; [exact E'|]. eapply grid_ext; [|exact G'].
    intros p i j i' j' Hp Hi Hj Hi' Hj'. cbn beta. destruct (Nat.eqb_spec i k) as [->|N].
    + destruct (Nat.leb_spec (S k) k); [lia|]. destruct (Nat.leb_spec k k); [|lia]. cbn [andb]. rewrite (Nat.eqb_sym i' k). now destruct (k =? i').
    + destruct (Nat.leb_spec (S k) i), (Nat.leb_spec k i); try lia; cbn [andb]; reflexivity.
Qed.
End Blocks.
