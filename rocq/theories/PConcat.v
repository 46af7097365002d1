(** Theorems for C15: Concatenate, its message and its mask. *)
From Coq Require Import List Arith ZArith Lia Bool Reals Lra FunctionalExtensionality.
From Verif Require Import Base Shapes SpecShapes ShapesLemmas NumPy MiscArray TensorLemmas
  SpecArray SpecIndex PlateSumLemmas ShapeOpsLemmas MessageLemmas EinsumLemmas Reindex TakeConcat TakeLemmas PTake.
Import ListNotations.
Open Scope nat_scope.

(** Where the block of parent [i] starts. *)
Definition block_start (lengths : list nat) (i : nat) : nat := list_sum (firstn i lengths).

Lemma set_axis_length : forall K n s, length (set_axis K n s) = length s.
Proof. intros. unfold set_axis, mkshape. now rewrite map_length, back_range_length. Qed.
Lemma ax_set_axis : forall K n s k, ax (set_axis K n s) k = if k <? length s then if k =? K then n else ax s k else 1.
Proof. intros. unfold set_axis. now rewrite ax_mkshape. Qed.

Lemma set_axis_app : forall A n m W, set_axis (length W) n (A ++ [m] ++ W) = A ++ [n] ++ W.
Proof.
  intros A n m W. apply ShapesLemmas.shape_ext; [rewrite set_axis_length, !app_length; reflexivity|]. intros k Hk.
  rewrite set_axis_length in Hk. rewrite ax_set_axis. apply Nat.ltb_lt in Hk as Hk'. rewrite Hk', !ax_app, !app_length. cbn [length].
  destruct (Nat.eqb_spec k (length W)) as [->|NE].
  - destruct (Nat.ltb_spec (length W) (1 + length W)); [|lia]. rewrite Nat.ltb_irrefl, Nat.sub_diag. reflexivity.
  - destruct (Nat.ltb_spec k (1 + length W)); [|reflexivity]. destruct (Nat.ltb_spec k (length W)); [reflexivity|lia].
Qed.

Lemma ax_mid : forall A n W k, ax (A ++ [n] ++ W) k = if k <? length W then ax W k else if k =? length W then n else ax A (k - S (length W)).
Proof.
  intros A n W k. rewrite !ax_app, app_length. cbn [length].
  destruct (Nat.ltb_spec k (length W)); destruct (Nat.ltb_spec k (1 + length W)); try lia; try reflexivity.
  - destruct (Nat.eqb_spec k (length W)) as [->|]; [|lia]. now rewrite Nat.sub_diag.
  - destruct (Nat.eqb_spec k (length W)); [lia|]. f_equal.
Qed.

Lemma points_ok : forall lens i n acc, nth_error lens i = Some n ->
  firstn 2 (skipn i (acc :: cumsum acc lens)) = [acc + block_start lens i; acc + block_start lens i + n].
Proof.
  unfold block_start. induction lens as [|x lens IH]; intros i n acc H; [destruct i; discriminate|].
  destruct i as [|i].
  - injection H as ->. cbn. now rewrite Nat.add_0_r.
  - cbn [skipn cumsum]. cbn [nth_error] in H.
    rewrite (IH i n (acc + x) H), firstn_cons. change (list_sum (x :: ?y)) with (x + list_sum y). repeat (f_equal; try lia).
Qed.

Lemma block_end : forall lens i n, nth_error lens i = Some n -> block_start lens i + n <= list_sum lens.
Proof.
  unfold block_start. induction lens as [|x lens IH]; intros i n H; [destruct i; discriminate|].
  destruct i as [|i]; cbn in *; [injection H as ->; lia|]. apply IH in H. unfold list_sum in *. lia.
Qed.

Lemma clip_upd_self : forall A (a : arr A) e e', (forall k, k < ndim a -> ax (ash a) k <> 1 -> e k = e' k) -> bget a e = bget a e'.
Proof. intros. apply bget_ext. exact H. Qed.

Lemma cat_message_ok : forall X A W lens i n nd K (m : arr X), nth_error lens i = Some n -> length W = K + nd ->
  broadcasts_to (ash m) (A ++ [list_sum lens] ++ W) ->
  exists y, cat_message K nd lens i m = Ok y /\ broadcasts_to (ash y) (A ++ [n] ++ W) /\
    forall a j w, within a A -> j < n -> within w W ->
      bget y (at_index (a ++ [j] ++ w)) = bget m (at_index (a ++ [block_start lens i + j] ++ w)).
Proof.
  intros X A W lens i n nd K m Hi HW [ML MB]. unfold cat_message. rewrite <- HW.
  unfold cat_indices. rewrite (points_ok lens i n 0 Hi). cbn [Nat.add].
  pose proof (block_end lens i n Hi) as BE. set (M := list_sum lens) in *. set (o := block_start lens i) in *.
  destruct (Nat.leb_spec (S (length W)) (ndim m)) as [C1|C1]; cbn [andb];
    [destruct (Nat.ltb_spec 1 (ax (ash m) (length W))) as [C2|C2]|].
  - cbn [np_split cuts second]. eexists. split; [reflexivity|].
    assert (EM : ax (ash m) (length W) = M).
    { destruct (MB (length W)) as [Q|Q]; [lia|]. rewrite Q, ax_mid, Nat.ltb_irrefl, Nat.eqb_refl. reflexivity. }
    unfold ndim in C1.
    assert (SH : ash (cut m (length W) o (o + n)) = set_axis (length W) n (ash m)).
    { unfold cut. cbn [ash]. rewrite EM. f_equal. lia. }
    split.
    + rewrite SH. split; [rewrite set_axis_length, !app_length in *; cbn in *; lia|].
      intros k. rewrite ax_set_axis, ax_mid. destruct (Nat.ltb_spec k (length (ash m))); [|now left].
      specialize (MB k). rewrite ax_mid in MB.
      destruct (Nat.eqb_spec k (length W)) as [EK|NE]; [rewrite EK, Nat.ltb_irrefl; now right|exact MB].
    + intros a j w Ha Hj Hw. pose proof (F2_length _ _ _ _ _ Hw) as Lw. unfold bget at 1. rewrite SH. cbn [aget cut].
      apply bget_ext. intros k Hk Nk. rewrite EM, Nat.min_l by lia. unfold upd, clip. rewrite !ax_set_axis.
      apply Nat.ltb_lt in C1 as C1'. rewrite C1', Nat.eqb_refl. rewrite !at_index_3, Lw. cbn [length].
      rewrite Nat.ltb_irrefl. destruct (Nat.ltb_spec (length W) (length W + 1)); [|lia]. rewrite Nat.sub_diag. cbn [at_index rev app nth].
      destruct (Nat.eqb_spec k (length W)) as [->|NE].
      * rewrite Nat.ltb_irrefl. destruct (Nat.ltb_spec (length W) (length W + 1)); [|lia]. rewrite Nat.sub_diag.
        change (at_index [?z] 0) with z. destruct (Nat.eqb_spec n 1); lia.
      * apply Nat.ltb_lt in Hk. rewrite Hk. apply Nat.eqb_neq in Nk. rewrite Nk.
        destruct (Nat.ltb_spec k (length W)); [reflexivity|]. destruct (Nat.ltb_spec k (length W + 1)); [lia|]. reflexivity.
  - exists m. split; [reflexivity|].
    assert (Q1 : ax (ash m) (length W) = 1 \/ M = 0).
    { destruct (MB (length W)) as [Q|Q]; [now left|]. rewrite ax_mid, Nat.ltb_irrefl, Nat.eqb_refl in Q. lia. }
    assert (GM : forall a j j' w, within w W -> ax (ash m) (length W) = 1 -> bget m (at_index (a ++ [j] ++ w)) = bget m (at_index (a ++ [j'] ++ w))).
    { intros a j j' w Hw E. pose proof (F2_length _ _ _ _ _ Hw) as Lw. apply bget_ext. intros k Hk Nk. rewrite !at_index_3, Lw. cbn [length].
      destruct (Nat.ltb_spec k (length W)); [reflexivity|]. destruct (Nat.ltb_spec k (length W + 1)); [|reflexivity].
      assert (k = length W) as -> by lia. contradiction. }
    split.
    + split; [rewrite !app_length in *; cbn in *; lia|]. intros k. rewrite ax_mid. specialize (MB k). rewrite ax_mid in MB.
      destruct (k <? length W); [exact MB|]. destruct (Nat.eqb_spec k (length W)) as [EK|]; [|exact MB]. destruct MB as [MB|MB]; [now left|].
      rewrite EK in *. destruct Q1 as [Q1|Q1]; [now left|]. right. lia.
    + intros a j w Ha Hj Hw. destruct Q1 as [Q1|Q1]; [now apply GM|lia].
  - exists m. split; [reflexivity|]. unfold ndim in C1.
    split.
    + split; [rewrite !app_length in *; cbn in *; lia|]. intros k. rewrite ax_mid. specialize (MB k). rewrite ax_mid in MB.
      destruct (k <? length W); [exact MB|]. destruct (Nat.eqb_spec k (length W)) as [EK|]; [|exact MB]. left. apply ax_overflow. lia.
    + intros a j w Ha Hj Hw. pose proof (F2_length _ _ _ _ _ Hw) as Lw. apply bget_ext. intros k Hk Nk. rewrite !at_index_3, Lw. cbn [length].
      destruct (Nat.ltb_spec k (length W)); [reflexivity|]. lia.
Qed.

Lemma cat_get_ok : forall K (xs : list (arr R)) i x j e a0, nth_error xs i = Some x -> j < ax (ash x) K ->
  cat_get xs K e (list_sum (map (fun b => ax (ash b) K) (firstn i xs)) + j) a0 = bget x (upd e K j).
Proof.
  intros K. induction xs as [|y xs IH]; intros i x j e a0 H Hj; [destruct i; discriminate|].
  destruct i as [|i]; cbn [cat_get firstn map].
  - injection H as ->. cbn [list_sum fold_right Nat.add]. apply Nat.ltb_lt in Hj. now rewrite Hj.
  - cbn [nth_error] in H. change (list_sum (?x :: ?y)) with (x + list_sum y).
    destruct (Nat.ltb_spec (ax (ash y) K + list_sum (map (fun b : arr R => ax (ash b) K) (firstn i xs)) + j) (ax (ash y) K)); [lia|].
    rewrite <- (IH i x j e a0 H Hj). f_equal. lia.
Qed.

Lemma cat_moments_ok : forall A W lens K nd (us : list (arr R)), length W = K + nd -> us <> [] ->
  Forall2 (fun n u => broadcasts_to (ash u) (A ++ [n] ++ W)) lens us ->
  exists x, cat_moments K nd lens us = Ok x /\ broadcasts_to (ash x) (A ++ [list_sum lens] ++ W) /\
    forall i n u a j w, nth_error lens i = Some n -> nth_error us i = Some u -> within a A -> j < n -> within w W ->
      bget x (at_index (a ++ [block_start lens i + j] ++ w)) = bget u (at_index (a ++ [j] ++ w)).
Proof.
  intros A W lens K nd us HW NE F. unfold cat_moments. rewrite <- HW. set (k := length W) in *.
  set (f := fun u : arr R => if S k <=? ndim u then set_axis k 1 (ash u) else ash u).
  assert (AF : forall u j, ax (f u) j = if j =? k then 1 else ax (ash u) j).
  { intros u j. unfold f, ndim. destruct (Nat.leb_spec (S k) (length (ash u))).
    - rewrite ax_set_axis. destruct (Nat.ltb_spec j (length (ash u))); [reflexivity|].
      destruct (j =? k); [reflexivity|]. now rewrite ax_overflow.
    - destruct (Nat.eqb_spec j k) as [->|]; [|reflexivity]. now rewrite ax_overflow by lia. }
  assert (LF : forall u, length (f u) = ndim u) by (intros u; unfold f, ndim; destruct (_ <=? _); [apply set_axis_length|reflexivity]).
  assert (FU : forall n u, broadcasts_to (ash u) (A ++ [n] ++ W) -> broadcasts_to (f u) (A ++ [1] ++ W)).
  { intros n u [L B]. split; [rewrite LF, !app_length in *; cbn in *; exact L|]. intros j. rewrite AF, ax_mid. specialize (B j). rewrite ax_mid in B.
    fold k in B |- *. destruct (Nat.eqb_spec j k) as [EK|NJ]; [now left|exact B]. }
  assert (INU : forall u, In u us -> exists n, In n lens /\ broadcasts_to (ash u) (A ++ [n] ++ W)).
  { clear -F. induction F as [|n u lens us H F IH]; intros v [].
    - subst v. exists n. split; [now left|exact H].
    - destruct (IH v H0) as (n' & I & B). exists n'. split; [now right|exact B]. }
  destruct (broadcast_exists_of_upper (map f us) (A ++ [1] ++ W)) as [bc HS].
  { intros p Hp. apply in_map_iff in Hp as (u & <- & Hu). destruct (INU u Hu) as (n & _ & B). now apply (FU n). }
  fold f. rewrite HS. cbn [bind]. apply broadcasted_shape_ok in HS as (N1 & N2 & N3).
  assert (BCK : ax bc k = 1).
  { destruct (N3 k) as [_ [Q|(p & Hp & Q)]]; [exact Q|]. apply in_map_iff in Hp as (u & <- & _). rewrite AF, Nat.eqb_refl in Q. congruence. }
  assert (BCB : broadcasts_to bc (A ++ [1] ++ W)).
  { split.
    - destruct N2 as [->|(p & Hp & <-)]; [cbn; lia|]. apply in_map_iff in Hp as (u & <- & Hu). destruct (INU u Hu) as (n & _ & B). now apply (FU n).
    - intros j. destruct (N3 j) as [_ [Q|(p & Hp & Q)]]; [now left|]. apply in_map_iff in Hp as (u & <- & Hu). destruct (INU u Hu) as (n & _ & B).
      rewrite <- Q. now apply (FU n). }
  set (T := fun n => mkshape (Nat.max (length bc) (S k)) (fun j => if j =? k then n else ax bc j)).
  assert (LT : forall n, length (T n) = Nat.max (length bc) (S k)) by (intros; unfold T, mkshape; now rewrite map_length, back_range_length).
  assert (AT : forall n j, ax (T n) j = if j =? k then n else ax bc j).
  { intros n j. unfold T. rewrite ax_mkshape. destruct (Nat.ltb_spec j (Nat.max (length bc) (S k))); [reflexivity|].
    destruct (Nat.eqb_spec j k); [lia|]. now rewrite ax_overflow by lia. }
  assert (AXO : forall n j, ax (n :: repeat 1 k) j = if j =? k then n else 1).
  { intros n j. rewrite ax_cons, repeat_length. destruct (j =? k); [reflexivity|].
    replace (repeat 1 k) with (repeat 1 k ++ []) by apply app_nil_r. rewrite ax_repeat_units. apply ax_nil. }
  assert (ET : forall n, broadcasted_shape [bc; n :: repeat 1 k] = Ok (T n)).
  { intros n. apply broadcasted_shape_ok. split; [|split].
    - intros p [<-|[<-|[]]]; rewrite LT; [lia|cbn; rewrite repeat_length; lia].
    - right. destruct (Nat.le_gt_cases (S k) (length bc)).
      + exists bc. split; [now left|rewrite LT; lia].
      + exists (n :: repeat 1 k). split; [right; now left|rewrite LT; cbn; rewrite repeat_length; lia].
    - intros j. split.
      + intros p [<-|[<-|[]]]; rewrite AT; [|rewrite AXO]; destruct (Nat.eqb_spec j k) as [->|]; auto.
      + right. rewrite AT. destruct (Nat.eqb_spec j k) as [->|].
        * exists (n :: repeat 1 k). split; [right; now left|]. rewrite AXO, Nat.eqb_refl. reflexivity.
        * exists bc. split; [now left|reflexivity]. }
  assert (EB : mapM (fun n => broadcasted_shape [bc; n :: repeat 1 k]) lens = Ok (map T lens)).
  { clear -ET. induction lens as [|n lens IH]; cbn [mapM map]; [reflexivity|]. rewrite ET, IH. reflexivity. }
  rewrite EB. cbn [bind]. clear EB.
  assert (EX : exists xs, mapM (fun p : arr R * shape => let '(u, s) := p in np_multiply u (np_ones s)) (combine us (map T lens)) = Ok xs /\
     map ash xs = map T lens /\ Forall2 (fun u x => forall e, bget x e = bget u e) us xs).
  { assert (UI : forall u, In u us -> length (ash u) <= length bc /\ forall j, j <> k -> ax (ash u) j = 1 \/ ax (ash u) j = ax bc j).
    { intros u Hu. split; [rewrite <- (LF u : _ = length (ash u)); apply N1, in_map, Hu|]. intros j Hj. destruct (N3 j) as [Q _].
      specialize (Q (f u) (in_map f us u Hu)). rewrite AF in Q. apply Nat.eqb_neq in Hj. now rewrite Hj in Q. }
    clear -F UI ET LT AT. induction F as [|n u lens us B F IH]; cbn [map combine mapM].
    - exists []. repeat split; constructor.
    - destruct IH as (xs & E & S & G); [intros v Hv; apply UI; now right|].
      destruct (UI u) as [U1 U2]; [now left|].
      assert (HT : broadcasted_shape [ash u; ash (np_ones (T n))] = Ok (T n)).
      { cbn [ash np_ones]. apply broadcasted_shape_ok. split; [|split].
        - intros p [<-|[<-|[]]]; [rewrite LT|]; lia.
        - right. exists (T n). split; [right; now left|reflexivity].
        - intros j. split; [|right; exists (T n); split; [right; now left|reflexivity]].
          intros p [<-|[<-|[]]]; [|now right]. rewrite AT. destruct (Nat.eqb_spec j k) as [->|NJ]; [|now apply U2].
          destruct B as [_ B]. specialize (B k). rewrite ax_mid in B. unfold k in *. rewrite Nat.ltb_irrefl, Nat.eqb_refl in B. exact B. }
      destruct (np_map2_total _ _ _ Rmult u (np_ones (T n)) (T n) HT) as (x & Ex & Sx).
      unfold np_multiply at 1. rewrite Ex. cbn [bind]. rewrite E. cbn [bind]. exists (x :: xs). split; [reflexivity|]. split.
      + cbn [map]. now rewrite Sx, S.
      + constructor; [|exact G]. intros e. apply np_map2_ok in Ex as [_ Gx]. rewrite Gx. unfold bget at 2. cbn [aget np_ones]. lra. }
  destruct EX as (xs & E & SX & GX). rewrite E. cbn [bind]. clear E ET.
  assert (HX : forall i n u, nth_error lens i = Some n -> nth_error us i = Some u ->
     exists x, nth_error xs i = Some x /\ ash x = T n /\ forall e, bget x e = bget u e).
  { clear -SX GX. revert lens SX. induction GX as [|u x us xs G GX IH]; intros lens SX i n v H1 H2; [destruct i; discriminate|].
    destruct lens as [|n' lens]; [discriminate|]. cbn [map] in SX. apply (f_equal (fun l => (hd [] l, tl l))) in SX. cbn [hd tl] in SX.
    apply pair_equal_spec in SX as [S1 S2]. destruct i as [|i]; cbn [nth_error] in *.
    - injection H1 as <-. injection H2 as <-. exists x. auto.
    - now apply (IH lens S2 i n v). }
  assert (LX : map (fun b => ax (ash b) k) xs = lens).
  { rewrite <- (map_map ash (fun s => ax s k)), SX, map_map. rewrite (map_ext _ (fun n => n)); [apply map_id|].
    intros n. rewrite AT, Nat.eqb_refl. reflexivity. }
  destruct xs as [|x0 xs]; [inversion GX; subst; contradiction|].
  destruct lens as [|n0 lens]; [discriminate|]. assert (S0 : ash x0 = T n0) by (apply (f_equal (hd [])) in SX; exact SX).
  unfold np_concatenate. remember (x0 :: xs) as ys eqn:EY.
  assert (C1 : (k <? ndim x0) = true) by (apply Nat.ltb_lt; unfold ndim; rewrite S0, LT; lia). rewrite C1. cbn [andb].
  assert (ST : forall n n', set_axis k n (T n') = T n).
  { intros n n'. apply ShapesLemmas.shape_ext; [now rewrite set_axis_length, !LT|]. intros j Hj. rewrite set_axis_length, LT in Hj.
    rewrite ax_set_axis, LT, !AT. apply Nat.ltb_lt in Hj. rewrite Hj. now destruct (j =? k). }
  assert (C2 : forallb (fun b : arr R => if list_eq_dec Nat.eq_dec (set_axis k 0 (ash b)) (set_axis k 0 (ash x0)) then true else false) ys = true).
  { apply forallb_forall. intros b Hb. assert (Ib : In (ash b) (map T (n0 :: lens))) by (rewrite <- SX; now apply in_map).
    apply in_map_iff in Ib as (n & En & _). rewrite <- En, S0, !ST. destruct (list_eq_dec Nat.eq_dec (T 0) (T 0)); [reflexivity|contradiction]. }
  rewrite C2. clear C1 C2. rewrite LX, S0, ST. eexists. split; [reflexivity|]. cbn [ash].
  remember (n0 :: lens) as ls eqn:EL. split.
  - split.
    + rewrite LT, !app_length. cbn [length]. fold k. destruct BCB as [BCB _]. rewrite !app_length in BCB. cbn [length] in BCB. fold k in BCB. lia.
    + intros j. rewrite AT, ax_mid. fold k. destruct BCB as [_ BCB]. specialize (BCB j). rewrite ax_mid in BCB. fold k in BCB.
      destruct (Nat.eqb_spec j k) as [EK|]; [rewrite EK, Nat.ltb_irrefl; now right|exact BCB].
  - intros i n u a j w H1 H2 Ha Hj Hw. pose proof (F2_length _ _ _ _ _ Hw) as Lw. fold k in Lw.
    destruct (HX i n u H1 H2) as (x & Hx & Sx & Gx). unfold bget at 1. cbn [ash aget].
    pose proof (block_end _ _ _ H1) as BE.
    assert (CK : clip (T (list_sum ls)) (at_index (a ++ [block_start ls i + j] ++ w)) k = block_start ls i + j).
    { unfold clip. rewrite AT, Nat.eqb_refl, at_index_3, Lw, Nat.ltb_irrefl. cbn [length]. destruct (Nat.ltb_spec k (k + 1)); [|lia].
      rewrite Nat.sub_diag. change (at_index [?z] 0) with z. destruct (Nat.eqb_spec (list_sum ls) 1); lia. }
    rewrite CK.
    replace (block_start ls i) with (list_sum (map (fun b => ax (ash b) k) (firstn i ys))) at 2.
    2:{ unfold block_start. rewrite <- firstn_map, LX. reflexivity. }
    rewrite (cat_get_ok k ys i x j _ x0 Hx) by (rewrite Sx, AT, Nat.eqb_refl; exact Hj).
    rewrite (bget_ext _ x _ (at_index (a ++ [j] ++ w))); [apply Gx|]. intros q Hq Nq. unfold upd, clip. rewrite Sx, AT in Nq. rewrite !at_index_3, Lw. cbn [length].
    destruct (Nat.eqb_spec q k) as [->|NQ].
    + rewrite Nat.ltb_irrefl. destruct (Nat.ltb_spec k (k + 1)); [|lia]. rewrite Nat.sub_diag. reflexivity.
    + rewrite AT. apply Nat.eqb_neq in NQ as NQ'. rewrite NQ'. apply Nat.eqb_neq in Nq. rewrite Nq.
      destruct (Nat.ltb_spec q k); [reflexivity|]. destruct (Nat.ltb_spec q (k + 1)); [lia|reflexivity].
Qed.

Lemma seq_shift' : forall n k s, map (fun x => n + x) (seq s k) = seq (n + s) k.
Proof. intros n. induction k as [|k IH]; intros s; cbn; [reflexivity|]. rewrite IH. do 2 f_equal. lia. Qed.

Lemma sum_blocks : forall lens (F : nat -> R),
  lsum (map F (seq 0 (list_sum lens))) =
  lsum (map (fun i => lsum (map (fun j => F (block_start lens i + j)) (seq 0 (nth i lens 0)))) (seq 0 (length lens))).
Proof.
  induction lens as [|n lens IH]; intros F; [reflexivity|].
  change (list_sum (n :: lens)) with (n + list_sum lens). rewrite seq_app, map_app. cbn [length seq map]. change (lsum (?x :: ?y)) with (x + lsum y)%R.
  assert (LA : forall x y, lsum (x ++ y) = (lsum x + lsum y)%R) by (unfold lsum; induction x as [|z x IHx]; intros y; cbn; [lra|rewrite IHx; lra]).
  rewrite LA. f_equal. rewrite <- seq_shift, map_map.
  replace (seq (0 + n) (list_sum lens)) with (map (fun x => n + x) (seq 0 (list_sum lens))) by (rewrite seq_shift'; f_equal; lia). rewrite map_map. rewrite (IH (fun x => F (n + x))). apply lsum_map_ext. intros i _.
  apply lsum_map_ext. intros j _. f_equal. unfold block_start. rewrite firstn_cons. change (list_sum (n :: ?y)) with (n + list_sum y). lia.
Qed.

Lemma nth_of_error : forall A (l : list A) i x d, nth_error l i = Some x -> nth i l d = x.
Proof. intros A. induction l as [|y l IH]; intros [|i] x d H; cbn in *; try discriminate; [now injection H|now apply IH]. Qed.

Lemma messages_exist : forall X A W lens nd K (m : arr X), length W = K + nd ->
  broadcasts_to (ash m) (A ++ [list_sum lens] ++ W) ->
  forall l, (forall i, In i l -> i < length lens) ->
  exists ys, mapM (fun i => cat_message K nd lens i m) l = Ok ys.
Proof.
  intros X A W lens nd K m HW MB l H. apply mapM_ok_iff. intros i Hi.
  destruct (nth_error lens i) as [n|] eqn:E; [|apply nth_error_None in E; specialize (H i Hi); lia].
  destruct (cat_message_ok X A W lens i n nd K m E HW MB) as (y & Ey & _). exists y. exact Ey.
Qed.

(** The concatenation has the parents' moments side by side; each parent gets its block of
    the message, the adjoint. *)
Theorem C15_concatenate : forall A B d lens (us : list (arr R)) (m : arr R), us <> [] ->
  Forall2 (fun n u => broadcasts_to (ash u) (A ++ [n] ++ B ++ d)) lens us ->
  broadcasts_to (ash m) (A ++ [list_sum lens] ++ B ++ d) ->
  (forall n, cat_plates_from (length B) lens (A ++ [n] ++ B) = Ok (A ++ [list_sum lens] ++ B)) /\
  (forall i n, nth_error lens i = Some n ->
     cat_plates_to (length B) lens i (A ++ [list_sum lens] ++ B) = Ok (A ++ [n] ++ B)) /\
  exists x ys, cat_moments (length B) (length d) lens us = Ok x /\
    mapM (fun i => cat_message (length B) (length d) lens i m) (seq 0 (length lens)) = Ok ys /\
    broadcasts_to (ash x) (A ++ [list_sum lens] ++ B ++ d) /\
    (forall i n u, nth_error lens i = Some n -> nth_error us i = Some u ->
       exists y, nth_error ys i = Some y /\ broadcasts_to (ash y) (A ++ [n] ++ B ++ d) /\
         forall a j w, within a A -> j < n -> within w (B ++ d) ->
           bget x (at_index (a ++ [block_start lens i + j] ++ w)) = bget u (at_index (a ++ [j] ++ w)) /\
           bget y (at_index (a ++ [j] ++ w)) = bget m (at_index (a ++ [block_start lens i + j] ++ w))) /\
    total (A ++ [list_sum lens] ++ B ++ d) (fun e => bget m e * bget x e)%R =
    lsum (map (fun i => total (A ++ [nth i lens 0] ++ B ++ d)
                          (fun e => bget (nth i ys (scalar 0%R)) e * bget (nth i us (scalar 0%R)) e)%R)
              (seq 0 (length lens))).
Proof.
  intros A B d lens us m NE F MB. split; [|split].
  - intros n. unfold cat_plates_from. rewrite !app_length. cbn [length]. destruct (Nat.ltb_spec (length B) (length A + (1 + length B))); [|lia].
    now rewrite set_axis_app.
  - intros i n H. unfold cat_plates_to. rewrite H, !app_length. cbn [length]. destruct (Nat.ltb_spec (length B) (length A + (1 + length B))); [|lia].
    now rewrite set_axis_app.
  - pose proof (app_length B d) as HW. set (W := B ++ d) in *.
    destruct (cat_moments_ok A W lens (length B) (length d) us HW NE F) as (x & EX & XB & GX).
    destruct (messages_exist R A W lens (length d) (length B) m HW MB (seq 0 (length lens))) as (ys & EY).
    { intros i Hi. apply in_seq in Hi. lia. }
    exists x, ys. split; [exact EX|]. split; [exact EY|]. split; [exact XB|].
    assert (G : forall i n u, nth_error lens i = Some n -> nth_error us i = Some u ->
       exists y, nth_error ys i = Some y /\ broadcasts_to (ash y) (A ++ [n] ++ W) /\
         forall a j w, within a A -> j < n -> within w W ->
           bget x (at_index (a ++ [block_start lens i + j] ++ w)) = bget u (at_index (a ++ [j] ++ w)) /\
           bget y (at_index (a ++ [j] ++ w)) = bget m (at_index (a ++ [block_start lens i + j] ++ w))).
    { intros i n u H1 H2. destruct (cat_message_ok R A W lens i n (length d) (length B) m H1 HW MB) as (y & Ey & YB & GY).
      exists y. split; [|split; [exact YB|]].
      - assert (HL : i < length lens) by (apply nth_error_Some; congruence).
        apply mapM_ok_Forall2 in EY.
        assert (NS : nth_error (seq 0 (length lens)) i = Some i).
        { rewrite (nth_error_nth' _ 0) by now rewrite seq_length. now rewrite seq_nth. }
        clear -EY NS Ey. revert NS. generalize i at 1 3 as p. induction EY as [|k y' l ys H EY IH]; intros [|p] NS; cbn [nth_error] in *; try discriminate.
        + injection NS as ->. rewrite Ey in H. now injection H as ->.
        + now apply IH.
      - intros a j w Ha Hj Hw. split; [now apply (GX i n u)|now apply GY]. }
    split; [exact G|].
    rewrite total_lists, !lists_app. cbn [lists flat_map]. rewrite app_nil_r.
    transitivity (lsum (map (fun w => lsum (map (fun i => lsum (map (fun j => lsum (map (fun a =>
       bget (nth i ys (scalar 0)) (at_index (a ++ [j] ++ w)) * bget (nth i us (scalar 0)) (at_index (a ++ [j] ++ w)))%R (lists A)))
       (seq 0 (nth i lens 0)))) (seq 0 (length lens)))) (lists W))).
    + apply lsum_map_ext. intros w Hw. apply in_lists in Hw. rewrite map_map.
      rewrite (sum_blocks lens (fun t => lsum (map (fun p => bget m (at_index (p ++ [t] ++ w)) * bget x (at_index (p ++ [t] ++ w))) (lists A))%R)).
      apply lsum_map_ext. intros i Hi. apply in_seq in Hi. apply lsum_map_ext. intros j Hj. apply in_seq in Hj.
      apply lsum_map_ext. intros a Ha. apply in_lists in Ha.
      destruct (nth_error lens i) as [n|] eqn:E1; [|apply nth_error_None in E1; lia].
      destruct (nth_error us i) as [u|] eqn:E2; [|apply nth_error_None in E2; rewrite <- (F2_length _ _ _ _ _ F) in E2; lia].
      rewrite (nth_of_error _ _ _ _ 0 E1) in Hj. rewrite (nth_of_error _ _ _ _ (scalar 0%R) E2).
      destruct (G i n u E1 E2) as (y & Ey & _ & GY). rewrite (nth_of_error _ _ _ _ (scalar 0%R) Ey).
      destruct (GY a j w Ha ltac:(lia) Hw) as [-> ->]. reflexivity.
    + rewrite lsum_swap. apply lsum_map_ext. intros i _. rewrite total_lists, !lists_app. apply lsum_map_ext. intros w _.
      cbn [lists flat_map]. rewrite app_nil_r, map_map. reflexivity.
Qed.

(** The mask sent to the last parent, and a mask that does not vary along the concatenated
    axis, are right ... *)
Theorem C15_mask_partial : forall A B lens i n (w : arr bool), nth_error lens i = Some n ->
  broadcasts_to (ash w) (A ++ [list_sum lens] ++ B) ->
  S i = length lens \/ ax (ash w) (length B) = 1 ->
  exists y, cat_weights (length B) lens i w = Ok y /\ broadcasts_to (ash y) (A ++ [n] ++ B) /\
    forall a j b, within a A -> j < n -> within b B ->
      bget y (at_index (a ++ [j] ++ b)) = bget w (at_index (a ++ [block_start lens i + j] ++ b)).
Proof.
  intros A B lens i n w Hi WB C.
  destruct (cat_message_ok bool A B lens i n 0 (length B) w Hi ltac:(lia) WB) as (y & Ey & R). exists y. split; [|exact R]. rewrite <- Ey.
  unfold cat_weights, cat_message. rewrite Nat.add_0_r.
  destruct ((S (length B) <=? ndim w) && (1 <? ax (ash w) (length B))) eqn:T; [|reflexivity].
  apply andb_true_iff in T as [T1 T2]. apply Nat.ltb_lt in T2. destruct C as [C|C]; [|lia].
  pose proof (points_ok lens i n 0 Hi) as PO. fold (cat_indices lens) in PO. rewrite PO.
  assert (PO1 : firstn 1 (skipn i (cat_indices lens)) = [block_start lens i]).
  { destruct (skipn i (cat_indices lens)) as [|p q]; [discriminate|]. cbn [firstn] in *. apply (f_equal (hd 0)) in PO. cbn in PO. now subst p. }
  rewrite PO1. cbn [np_split cuts second Nat.add]. f_equal.
  assert (EM : ax (ash w) (length B) = list_sum lens).
  { destruct WB as [_ WB]. destruct (WB (length B)) as [Q|Q]; [lia|]. rewrite Q, ax_mid, Nat.ltb_irrefl, Nat.eqb_refl. reflexivity. }
  rewrite EM. f_equal. unfold block_start.
  replace (list_sum lens) with (list_sum (firstn i lens ++ [n])); [rewrite list_sum_app; cbn [list_sum fold_right]; lia|].
  f_equal. clear -Hi C. revert i Hi C. induction lens as [|x lens IH]; intros [|i] Hi C; try discriminate.
  - injection Hi as ->. destruct lens; [reflexivity|discriminate].
  - cbn [firstn app]. f_equal. apply IH; [exact Hi|]. now injection C.
Qed.

(** ... but every other parent gets the masks of the later parents too: for two parents
    with plates (2,) and (1,) and a full mask, the first one is sent a mask of length 3. *)
Theorem C15_mask_refuted : exists lens (w : arr bool) y,
  nth_error lens 0 = Some 2 /\ ash w = [list_sum lens] /\ cat_weights 0 lens 0 w = Ok y /\
  ash y = [3] /\ ~ broadcasts_to (ash y) [2].
Proof.
  exists [2; 1], (Arr [3] (fun e => e 0 =? 0)). eexists. split; [reflexivity|]. split; [reflexivity|]. split; [reflexivity|].
  split; [reflexivity|]. intros [_ H]. specialize (H 0). cbn in H. destruct H; discriminate.
Qed.

(** Parents with plates (4, 2), (4, 3), (4, 1) and dims (2,); moments that broadcast. *)
Example C15_case :
  let us := [Arr [4; 2; 2] (fun e => INR (e 0 + e 2)); Arr [1; 2] (fun e => INR (e 0)); Arr [4; 1; 1] (fun e => INR (e 2))] in
  let m := Arr [6; 2] (fun e => INR (e 1)) in
  us <> [] /\ Forall2 (fun n u => broadcasts_to (ash u) ([4] ++ [n] ++ [] ++ [2])) [2; 3; 1] us /\
  broadcasts_to (ash m) ([4] ++ [list_sum [2; 3; 1]] ++ [] ++ [2]).
Proof.
  cbv zeta. split; [discriminate|]. split; [|apply is_shape_subset_spec; reflexivity].
  constructor; [apply is_shape_subset_spec; reflexivity|]. constructor; [apply is_shape_subset_spec; reflexivity|].
  constructor; [apply is_shape_subset_spec; reflexivity|constructor].
Qed.

Print Assumptions C15_concatenate.
Print Assumptions C15_mask_partial.
Print Assumptions C15_mask_refuted.
