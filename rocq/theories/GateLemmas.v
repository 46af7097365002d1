(** Lemmas for Gate: moveaxis and sum_product on index assignments. *)
From Coq Require Import List Arith ZArith Lia Bool Reals Lra FunctionalExtensionality.
From Verif Require Import Base Shapes SpecShapes ShapesLemmas NumPy MiscArray TensorLemmas
  SpecArray SpecIndex SumMultiplyLemmas PlateSumLemmas ShapeOpsLemmas MessageLemmas EinsumLemmas ExpFamBound DiagLemmas
  PArrays Reindex TakeConcat TakeLemmas PTake PConcat AddAxis PAddAxis Gate.
Import ListNotations.
Open Scope nat_scope.

(** Where axis [j] goes when axis F is moved to T (from the end). *)
Definition dst (F T j : nat) : nat :=
  if j =? F then T else let i := if j <? F then j else j - 1 in if i <? T then i else S i.

Lemma position_neg : forall n k, k < n -> position n (neg_axis k) = n - 1 - k.
Proof. intros n k H. unfold position, neg_axis. destruct (Z.ltb_spec (- Z.of_nat k - 1) 0); lia. Qed.

Lemma mv_dst : forall n F T j, F < n -> T < n -> j < n -> mv (n - 1 - F) (n - 1 - T) (n - 1 - dst F T j) = n - 1 - j.
Proof.
  intros n F T j HF HT Hj. unfold mv, dst.
  destruct (Nat.eqb_spec j F) as [->|N].
  - now rewrite Nat.eqb_refl.
  - destruct (Nat.ltb_spec j F) as [A|A].
    + destruct (Nat.ltb_spec j T) as [B|B].
      * destruct (Nat.eqb_spec (n - 1 - j) (n - 1 - T)); [lia|].
        destruct (Nat.leb_spec (n - 1 - F) (n - 1 - j)), (Nat.ltb_spec (n - 1 - j) (n - 1 - T)), (Nat.ltb_spec (n - 1 - T) (n - 1 - j)), (Nat.leb_spec (n - 1 - j) (n - 1 - F)); cbn [andb]; lia.
      * destruct (Nat.eqb_spec (n - 1 - S j) (n - 1 - T)); [lia|].
        destruct (Nat.leb_spec (n - 1 - F) (n - 1 - S j)), (Nat.ltb_spec (n - 1 - S j) (n - 1 - T)), (Nat.ltb_spec (n - 1 - T) (n - 1 - S j)), (Nat.leb_spec (n - 1 - S j) (n - 1 - F)); cbn [andb]; lia.
    + destruct (Nat.ltb_spec (j - 1) T) as [B|B].
      * destruct (Nat.eqb_spec (n - 1 - (j - 1)) (n - 1 - T)); [lia|].
        destruct (Nat.leb_spec (n - 1 - F) (n - 1 - (j - 1))), (Nat.ltb_spec (n - 1 - (j - 1)) (n - 1 - T)), (Nat.ltb_spec (n - 1 - T) (n - 1 - (j - 1))), (Nat.leb_spec (n - 1 - (j - 1)) (n - 1 - F)); cbn [andb]; lia.
      * destruct (Nat.eqb_spec (n - 1 - S (j - 1)) (n - 1 - T)); [lia|].
        destruct (Nat.leb_spec (n - 1 - F) (n - 1 - S (j - 1))), (Nat.ltb_spec (n - 1 - S (j - 1)) (n - 1 - T)), (Nat.ltb_spec (n - 1 - T) (n - 1 - S (j - 1))), (Nat.leb_spec (n - 1 - S (j - 1)) (n - 1 - F)); cbn [andb]; lia.
Qed.

Lemma dst_lt : forall n F T j, F < n -> T < n -> j < n -> dst F T j < n.
Proof. intros n F T j HF HT Hj. unfold dst. destruct (Nat.eqb_spec j F); [lia|]. destruct (Nat.ltb_spec j F); match goal with |- context [?a <? ?b] => destruct (Nat.ltb_spec a b) end; lia. Qed.
Lemma dst_big : forall n F T j, F < n -> T < n -> n <= j -> dst F T j = j.
Proof. intros n F T j HF HT Hj. unfold dst. destruct (Nat.eqb_spec j F); [lia|]. destruct (Nat.ltb_spec j F); [lia|]. destruct (Nat.ltb_spec (j - 1) T); lia. Qed.
Lemma dst_inv : forall F T i, dst F T (dst T F i) = i.
Proof.
  intros F T i. unfold dst. cbv zeta.
  repeat match goal with
  | |- context [?a =? ?b] => lazymatch a with context [if _ then _ else _] => fail | _ => destruct (Nat.eqb_spec a b) end
  | |- context [?a <? ?b] => lazymatch a with context [if _ then _ else _] => fail | _ => destruct (Nat.ltb_spec a b) end
  end; lia.
Qed.

Lemma moveaxis_env : forall A (a : arr A) F T, F < ndim a -> T < ndim a ->
  exists y, moveaxis a (neg_axis F) (neg_axis T) = Ok y /\ ndim y = ndim a /\
    (forall j, ax (ash y) j = ax (ash a) (dst T F j)) /\
    forall e, bget y e = bget a (fun j => e (dst F T j)).
Proof.
  intros A a F T HF HT. set (n := ndim a) in *.
  destruct (moveaxis_ok A a (neg_axis F) (neg_axis T)) as (y & Ey & Sy & Gy).
  { unfold neg_axis. fold n. lia. } { unfold neg_axis. fold n. lia. }
  fold n in Sy, Gy. rewrite !position_neg in Sy, Gy by assumption. exists y. split; [exact Ey|].
  assert (LY : ndim y = n) by (unfold ndim; rewrite Sy, length_move; [reflexivity| |]; unfold n, ndim in *; lia).
  split; [exact LY|]. split.
  - intros j. destruct (Nat.lt_ge_cases j n) as [C|C].
    + rewrite ax_nth by (unfold ndim in LY; lia). unfold ndim in LY. rewrite LY, Sy.
      rewrite nth_move by (unfold n, ndim in *; lia).
      rewrite ax_nth by (change (length (ash a)) with n; now apply dst_lt). change (length (ash a)) with n. f_equal.
      rewrite <- (mv_dst n F T (dst T F j)) by (try assumption; now apply dst_lt). now rewrite dst_inv.
    + rewrite (dst_big n) by assumption. rewrite (ax_overflow (ash y)) by (fold (ndim y); lia). rewrite (ax_overflow (ash a)) by (fold (ndim a); lia). reflexivity.
  - intros e. set (idx := map (fun j => e (dst F T j)) (back_range n)).
    assert (LI : length idx = n) by (unfold idx; rewrite map_length; apply back_range_length).
    transitivity (bget a (at_index idx)).
    + rewrite <- Gy by exact LI. apply bget_ext. intros k Hk _. fold (ndim y) in Hk. rewrite LY in Hk.
      rewrite at_index_nth by (rewrite length_move; lia). rewrite length_move, LI by lia. rewrite nth_move by lia.
      rewrite <- (dst_inv F T k). rewrite mv_dst by (try assumption; now apply dst_lt).
      assert (D : dst T F k < n) by now apply dst_lt.
      replace (n - 1 - dst T F k) with (length idx - 1 - dst T F k) by lia. rewrite <- at_index_nth by lia.
      unfold idx. now rewrite map_back_range by exact D.
    + apply bget_ext. intros k Hk _. unfold idx. rewrite map_back_range by exact Hk. reflexivity.
Qed.

Lemma nb_upper : forall shapes S T, numpy_broadcast shapes S -> (forall a, In a shapes -> broadcasts_to a T) -> broadcasts_to S T.
Proof.
  intros shapes S T (H1 & H2 & H3) HT. split.
  - destruct H2 as [->|(a & Ha & La)]; [cbn; lia|]. rewrite <- La. apply (HT a Ha).
  - intros k. destruct (H3 k) as [_ [E|(a & Ha & Ea)]]; [now left|]. rewrite <- Ea. apply (HT a Ha).
Qed.

Lemma total_ext' : forall s F G, (forall e, valid s e -> F e = G e) -> total s F = total s G.
Proof. exact total_ext. Qed.

(** sum_product of two arrays over their last axes [d]. *)
Lemma sum_product_trailing : forall (a b : arr R) T d axis,
  broadcasts_to (ash a) (T ++ d) -> broadcasts_to (ash b) (T ++ d) ->
  length d <= Nat.max (ndim a) (ndim b) ->
  (forall k, k < length d -> ax (ash a) k = ax d k \/ ax (ash b) k = ax d k) ->
  (forall n, length d <= n -> filter (asked_to_sum n axis true) (seq 0 n) = seq 0 (length d)) ->
  (match axis with AxNone => False | _ => True end) ->
  exists y, sum_product [a; b] None axis false = Ok y /\ broadcasts_to (ash y) T /\
    Nat.max (ndim a) (ndim b) - length d = ndim y /\
    forall e, valid T e -> bget y e = total d (fun v => bget a (join (length d) e v) * bget b (join (length d) e v))%R.
Proof.
  intros a b T d axis AB BB LA FA AX NA.
  assert (BT : forall s, In s (map ash [a; b]) -> broadcasts_to s (T ++ d)) by (intros s [<-|[<-|[]]]; assumption).
  destruct (broadcast_exists_of_upper _ _ BT) as [S HS]. apply broadcasted_shape_ok in HS as NB.
  pose proof (nb_upper _ _ _ NB BT) as SB. pose proof NB as (N1 & N2 & N3).
  assert (LS : ndim a <= length S) by (apply N1; now left).
  assert (LS2 : length S = Nat.max (ndim a) (ndim b)).
  { pose proof (N1 (ash b) ltac:(right; now left)). unfold ndim in *. destruct N2 as [E|(x & [<-|[<-|[]]] & E)]; [subst S; cbn in *; lia| |]; lia. }
  assert (AS : forall k, k < length d -> ax S k = ax d k).
  { intros k Hk. destruct (N3 k) as [M1 M2].
    assert (Q1 : ax d k = 1 \/ ax d k = ax S k).
    { destruct (FA k Hk) as [E|E]; rewrite <- E; apply M1; [now left|right; now left]. }
    destruct Q1 as [Q1|Q1]; [|congruence]. destruct SB as [_ SB]. specialize (SB k). rewrite ax_app in SB. apply Nat.ltb_lt in Hk. rewrite Hk in SB.
    destruct SB; congruence. }
  destruct (C06_sum_multiply_is_multiply_then_sum [a; b] S axis true false) as (y & Ey & Sy & Gy); [discriminate|exact NB|destruct axis; [contradiction|exact I|exact I]|].
  unfold numpy_sum in Sy, Gy. rewrite AX in Sy, Gy by lia.
  destruct (np_sum_trailing (product_array [a; b] S) d) as (T1 & T2 & T3); [unfold ndim at 1, product_array; cbn [ash]; lia|exact AS|].
  cbn zeta in T1, T2, T3. unfold ndim in T1. cbn [ash product_array] in T1, T2.
  exists y. split; [exact Ey|]. unfold ndim in *.
  assert (YB : broadcasts_to (ash y) T).
  { rewrite Sy. destruct SB as [SB1 SB2]. rewrite app_length in SB1. split; [lia|]. intros k. rewrite T2.
    specialize (SB2 (k + length d)). rewrite ax_app in SB2. destruct (Nat.ltb_spec (k + length d) (length d)); [lia|].
    replace (k + length d - length d) with k in SB2 by lia. exact SB2. }
  split; [exact YB|]. split; [rewrite Sy, T1, LS2; reflexivity|].
  intros e He.
  assert (BP : forall e, bget (product_array [a; b] S) e = (bget a e * bget b e)%R).
  { intros e0. change (product_array [a; b] S) with (Arr S (fun e => lprod (map (fun a => bget a e) [a; b]))).
    rewrite (bget_P [a; b] S) by exact HS. unfold prodf. cbn. lra. }
  rewrite bget_clip. rewrite Gy.
  - rewrite Sy. rewrite <- bget_clip. rewrite T3. apply total_ext'. intros v _. apply BP.
  - intros k. unfold clip. destruct (Nat.eqb_spec (ax (ash y) k) 1) as [E|E]; [lia|].
    destruct YB as [_ YB]. destruct (YB k) as [Q|Q]; [contradiction|]. rewrite Q. apply He.
Qed.

Lemma named_last : forall n, 1 <= n -> filter (asked_to_sum n (AxScalar (-1)) true) (seq 0 n) = seq 0 1.
Proof.
  intros n H. rewrite <- (filter_low 1 n) by exact H. apply filter_ext_in. intros k Hk. apply in_seq in Hk.
  unfold asked_to_sum, named. cbn [existsb seq memb]. rewrite !orb_false_r.
  destruct (Z.eqb_spec (Z.of_nat n - 1 - Z.of_nat k) (-1)); [lia|]. cbn [orb].
  destruct (Z.eqb_spec (-1 - Z.of_nat k) (-1)), (Nat.eqb_spec k 0); try lia; reflexivity.
Qed.

Lemma named_trailing : forall nd n, nd <= n ->
  filter (asked_to_sum n (AxList (map (fun i => Z.of_nat i - Z.of_nat nd)%Z (seq 0 nd))) true) (seq 0 n) = seq 0 nd.
Proof.
  intros nd n H. rewrite <- (filter_low nd n) at 2 by exact H. apply filter_ext_in. intros k Hk. apply in_seq in Hk.
  unfold asked_to_sum, named. rewrite !existsb_map || idtac.
  destruct (memb k (seq 0 nd)) eqn:M.
  - apply memb_In, in_seq in M. apply orb_true_iff. right. apply existsb_exists. exists (-1 - Z.of_nat k)%Z. split; [|apply Z.eqb_refl].
    apply in_map_iff. exists (nd - 1 - k). split; [lia|]. apply in_seq. lia.
  - apply memb_false in M. rewrite in_seq in M. apply orb_false_iff. split.
    + apply not_true_iff_false. intros E. apply existsb_exists in E as (i & Hi & E). apply Z.eqb_eq in E. apply in_map_iff in Hi as (j & <- & Hj). apply in_seq in Hj. lia.
    + apply not_true_iff_false. intros E. apply existsb_exists in E as (i & Hi & E). apply Z.eqb_eq in E. apply in_map_iff in Hi as (j & <- & Hj). apply in_seq in Hj. lia.
Qed.
