(** C65: flattening and restoring axes, iterating over indices, merging lists, block-banded
    matrices. *)
From Coq Require Import List Arith Lia Bool Reals FunctionalExtensionality.
From Verif Require Import Base Shapes SpecShapes NumPy ArrayTools SpecArrayTools EinsumLemmas DiagLemmas PlateSumLemmas PNumeric.
Import ListNotations.
Open Scope nat_scope.

(** ** Positions *)
Lemma size_count : forall s, size s = count s.
Proof. induction s as [|n s IH]; [reflexivity|]. rewrite size_cons, IH. reflexivity. Qed.

Lemma place_lt : forall s ix, inside s ix -> place s ix < count s.
Proof.
  intros s ix H. induction H as [|i n ix s Hi H IH]; [cbn; lia|]. change (i * count s + place s ix < n * count s). nia.
Qed.

Lemma place_inj : forall s ix jx, inside s ix -> inside s jx -> place s ix = place s jx -> ix = jx.
Proof.
  intros s ix jx H. revert jx. induction H as [|i n ix s Hi H IH]; intros jx J E; inversion J; subst; [reflexivity|].
  cbn [place] in E. pose proof (place_lt _ _ H). pose proof (place_lt s l ltac:(assumption)).
  assert (i = x) by nia. subst x. f_equal. apply IH; [assumption|lia].
Qed.

Lemma place_onto : forall s m, m < count s -> exists ix, inside s ix /\ place s ix = m.
Proof.
  induction s as [|n s IH]; intros m Hm.
  - exists []. split; [constructor|]. cbn in *. lia.
  - change (m < n * count s) in Hm. assert (0 < count s) by (destruct (count s); [rewrite Nat.mul_0_r in Hm|]; lia).
    destruct (IH (m mod count s)) as (ix & I & E); [apply Nat.mod_upper_bound; lia|]. exists (m / count s :: ix). split.
    + constructor; [|exact I]. apply Nat.div_lt_upper_bound; [lia|]. rewrite Nat.mul_comm. exact Hm.
    + cbn [place]. rewrite E. pose proof (Nat.div_mod m (count s) ltac:(lia)). lia.
Qed.

Lemma count_app : forall s t, count (s ++ t) = count s * count t.
Proof.
  induction s as [|n s IH]; intros t; [symmetry; apply Nat.mul_1_l|].
  change (n * count (s ++ t) = n * count s * count t). rewrite IH. apply Nat.mul_assoc.
Qed.

Lemma place_app : forall s t ix jx, length ix = length s ->
  place (s ++ t) (ix ++ jx) = place s ix * count t + place t jx.
Proof.
  induction s as [|n s IH]; intros t [|i ix] jx E; try discriminate; [reflexivity|]. cbn [app place]. rewrite IH by (cbn in E; lia).
  rewrite count_app. lia.
Qed.

Lemma inside_length : forall s ix, inside s ix -> length ix = length s.
Proof. intros s ix H. induction H; cbn; congruence. Qed.

Definition pos (ix : list nat) : env := fun k => nth k (rev ix) 0.

Lemma inside_valid : forall s ix, inside s ix -> valid s (pos ix).
Proof.
  intros s ix H. pose proof (inside_length _ _ H) as L. intros k. unfold pos, ax.
  destruct (Nat.lt_ge_cases k (length s)) as [C|C].
  - rewrite !rev_nth by lia. rewrite L. assert (G : forall j, j < length s -> nth j ix 0 < nth j s 1).
    { clear C L. induction H as [|i n ix s Hi H IH]; intros j Hj; [cbn in Hj; lia|]. destruct j; cbn; [exact Hi|]. apply IH. cbn in Hj. lia. }
    apply G. lia.
  - rewrite !nth_overflow by (rewrite rev_length; lia). lia.
Qed.

Lemma clip_valid : forall s e, valid s e -> clip s e = e.
Proof.
  intros s e H. apply functional_extensionality. intros k. unfold clip. specialize (H k). destruct (Nat.eqb_spec (ax s k) 1); lia.
Qed.

Lemma ravel_cons : forall n s e, ravel (n :: s) (S (length s)) e = ravel s (length s) e + e (length s) * size s.
Proof.
  intros n s e. assert (St : forall m, m <= length s -> stride (n :: s) m = stride s m).
  { induction m as [|m IH]; intros Hm; [reflexivity|]. cbn [stride]. rewrite IH by lia. f_equal.
    change (n :: s) with ([n] ++ s). rewrite ax_app. destruct (Nat.ltb_spec m (length s)); [reflexivity|lia]. }
  assert (G : forall m, m <= length s -> ravel (n :: s) m e = ravel s m e).
  { induction m as [|m IH]; intros Hm; [reflexivity|]. cbn [ravel]. rewrite IH, St by lia. reflexivity. }
  cbn [ravel]. rewrite G, St by lia. reflexivity.
Qed.

Lemma ravel_place : forall s ix, inside s ix -> ravel s (length s) (pos ix) = place s ix.
Proof.
  intros s ix H. induction H as [|i n ix s Hi H IH]; [reflexivity|]. cbn [length]. rewrite ravel_cons. cbn [place]. rewrite <- IH, size_count.
  pose proof (inside_length _ _ H) as L. rewrite Nat.add_comm. f_equal.
  - f_equal. unfold pos. cbn [rev]. rewrite app_nth2 by (rewrite rev_length; lia). rewrite rev_length, L, Nat.sub_diag. reflexivity.
  - apply ravel_ext. intros k Hk. unfold pos. cbn [rev]. now rewrite app_nth1 by (rewrite rev_length; lia).
Qed.

(** ** np.reshape keeps the elements in their places *)
Lemma reshape_at : forall A (a y : arr A) s ix jx, np_reshape a s = Ok y -> inside (ash a) ix -> inside s jx ->
  place (ash a) ix = place s jx -> at_ y jx = at_ a ix.
Proof.
  intros A a y s ix jx E I J P. unfold np_reshape in E. destruct (_ =? _); [|discriminate]. injection E as <-.
  unfold at_. fold (pos jx). fold (pos ix). unfold bget at 1. cbn [ash aget]. rewrite clip_valid by now apply inside_valid.
  rewrite ravel_place by exact J. rewrite <- P, <- ravel_place by exact I.
  now rewrite (proj2 (unravel_surj _ _ (inside_valid _ _ I))).
Qed.

Lemma reshape_some : forall A (a : arr A) s, count (ash a) = count s -> exists y, np_reshape a s = Ok y /\ ash y = s.
Proof.
  intros A a s E. unfold np_reshape. rewrite !size_count, E, Nat.eqb_refl. eexists. split; reflexivity.
Qed.

Lemma inside_app : forall s t ix jx, inside s ix -> inside t jx -> inside (s ++ t) (ix ++ jx).
Proof. intros. now apply Forall2_app. Qed.

Lemma inside_concat : forall gs ixs, Forall2 inside gs ixs -> inside (concat gs) (concat ixs).
Proof. intros gs ixs H. induction H; [constructor|]. now apply inside_app. Qed.

Lemma inside_places : forall gs ixs, Forall2 inside gs ixs -> inside (map count gs) (places gs ixs).
Proof. intros gs ixs H. induction H; [constructor|]. constructor; [now apply place_lt|assumption]. Qed.

Lemma place_places : forall gs ixs, Forall2 inside gs ixs ->
  place (concat gs) (concat ixs) = place (map count gs) (places gs ixs).
Proof.
  intros gs ixs H. induction H as [|g ix gs ixs I H IH]; [reflexivity|]. cbn [concat places map place].
  rewrite place_app by now apply inside_length. rewrite IH. do 2 f_equal.
  clear. induction gs as [|g gs IH]; [reflexivity|]. cbn [concat map count fold_right]. rewrite count_app, IH. reflexivity.
Qed.

Lemma count_map : forall gs, count (map count gs) = count (concat gs).
Proof. induction gs as [|g gs IH]; [reflexivity|]. cbn [concat map count fold_right]. fold (count (map count gs)). now rewrite count_app, IH. Qed.

Lemma groups_concat : forall gs, groups (map (@length nat) gs) (concat gs) = gs.
Proof.
  induction gs as [|g gs IH]; [reflexivity|]. cbn [map groups concat]. rewrite firstn_app, Nat.sub_diag, firstn_all, skipn_app, skipn_all, Nat.sub_diag.
  cbn [firstn skipn app]. now rewrite app_nil_r, IH.
Qed.

Lemma list_sum_concat : forall gs : list shape, list_sum (map (@length nat) gs) = length (concat gs).
Proof. induction gs as [|g gs IH]; [reflexivity|]. cbn [map concat]. rewrite app_length, <- IH. reflexivity. Qed.

Lemma map_size : forall gs, map size gs = map count gs.
Proof. intros. apply map_ext. exact size_count. Qed.

Lemma split_plates : forall A (a : arr A) P q, ash a = P ++ q ->
  firstn (ndim a - length q) (ash a) = P /\ skipn (ndim a - length q) (ash a) = q.
Proof.
  intros A a P q E. unfold ndim. rewrite E, app_length. replace (length P + length q - length q) with (length P) by lia. split.
  - now rewrite firstn_app, Nat.sub_diag, firstn_all, firstn_O, app_nil_r.
  - now rewrite skipn_app, Nat.sub_diag, skipn_all.
Qed.

(** *** The theorems *)
(** Reading row by row visits every position exactly once (a check of the specification). *)
Theorem C65_places : forall s m, m < count s <-> exists ix, inside s ix /\ place s ix = m /\ forall jx, inside s jx -> place s jx = m -> jx = ix.
Proof.
  intros s m. split.
  - intros H. destruct (place_onto s m H) as (ix & I & E). exists ix. split; [exact I|]. split; [exact E|]. intros jx J E'.
    apply (place_inj s); [exact J|exact I|congruence].
  - intros (ix & I & <- & _). now apply place_lt.
Qed.

(** flatten_axes turns each group of axes into one axis, its positions read row by row. *)
Theorem C65_flatten_axes : forall A (a : arr A) P gs, ash a = P ++ concat gs -> Forall (fun g => g <> []) gs ->
  exists y, flatten_axes a (map (@length nat) gs) = Ok y /\ ash y = P ++ map count gs /\
    forall p ixs, inside P p -> Forall2 inside gs ixs -> at_ y (p ++ places gs ixs) = at_ a (p ++ concat ixs).
Proof.
  intros A a P gs E N. unfold flatten_axes. rewrite list_sum_concat.
  replace (ndim a <? length (concat gs)) with false by (symmetry; apply Nat.ltb_ge; unfold ndim; rewrite E, app_length; lia).
  destruct (split_plates _ _ _ _ E) as [E1 E2].
  assert (G : exists y, np_reshape a (P ++ map count gs) = Ok y /\ ash y = P ++ map count gs).
  { apply reshape_some. now rewrite E, !count_app, count_map. }
  destruct gs as [|g gs].
  - cbn [map]. exists a. split; [reflexivity|]. cbn [concat] in *. rewrite app_nil_r in *. split; [exact E|].
    intros p ixs Hp H. inversion H. reflexivity.
  - set (gg := g :: gs) in *. change (map (@length nat) gg) with (length g :: map (@length nat) gs) at 1. cbv iota zeta.
    rewrite E1, E2, groups_concat, map_size.
    replace (existsb _ gg) with false.
    + destruct G as (y & R & S). exists y. split; [exact R|]. split; [exact S|]. intros p ixs Hp H.
      apply (reshape_at _ _ _ _ _ _ R).
      * rewrite E. apply inside_app; [exact Hp|now apply inside_concat].
      * apply inside_app; [exact Hp|now apply inside_places].
      * rewrite E, !place_app by now apply inside_length. rewrite count_map, place_places by exact H. reflexivity.
    + symmetry. apply not_true_is_false. intros X. apply existsb_exists in X as (x & Hx & L). rewrite Forall_forall in N.
      apply (N x Hx). apply Nat.eqb_eq in L. now destruct x.
Qed.

(** Fewer axes than asked for: ValueError. *)
Theorem C65_flatten_few : forall A (a : arr A) ndims, ndim a < list_sum ndims -> flatten_axes a ndims = Err ValueError.
Proof. intros A a nd H. unfold flatten_axes. apply Nat.ltb_lt in H. now rewrite H. Qed.

(** A group of no axes, which stands for a scalar, is not turned into a unit axis: TypeError. *)
Theorem C65_flatten_scalar_refuted : forall A (a : arr A) ndims, list_sum ndims <= ndim a -> In 0 ndims ->
  flatten_axes a ndims = Err TypeError.
Proof.
  intros A a nd H Z. unfold flatten_axes. apply Nat.ltb_ge in H. rewrite H.
  assert (G : forall s, existsb (fun g : shape => length g =? 0) (groups nd s) = true).
  { clear H. induction nd as [|n nd IH]; intros s; [destruct Z|]. cbn [groups existsb]. destruct Z as [->|Z]; [reflexivity|].
    rewrite IH by exact Z. apply orb_true_r. }
  destruct nd; [destruct Z|]. now rewrite G.
Qed.

(** reshape_axes turns each of the last axes into a group of axes, reading it row by row; a group of
    no axes removes a unit axis. *)
Theorem C65_reshape_axes : forall A (a : arr A) P gs, ash a = P ++ map count gs ->
  exists y, reshape_axes a gs = Ok y /\ ash y = P ++ concat gs /\
    forall p ixs, inside P p -> Forall2 inside gs ixs -> at_ y (p ++ concat ixs) = at_ a (p ++ places gs ixs).
Proof.
  intros A a P gs E. unfold reshape_axes.
  replace (ndim a <? length gs) with false by (symmetry; apply Nat.ltb_ge; unfold ndim; rewrite E, app_length, map_length; lia).
  destruct (split_plates _ _ _ _ E) as [E1 E2]. rewrite map_length in E1, E2. rewrite E1, E2, map_size.
  destruct (list_eq_dec Nat.eq_dec (map count gs) (map count gs)) as [_|C]; [|contradiction].
  destruct (reshape_some _ a (P ++ concat gs)) as (y & R & S); [now rewrite E, !count_app, count_map|].
  exists y. split; [exact R|]. split; [exact S|]. intros p ixs Hp H. apply (reshape_at _ _ _ _ _ _ R).
  - rewrite E. apply inside_app; [exact Hp|now apply inside_places].
  - apply inside_app; [exact Hp|now apply inside_concat].
  - rewrite E, !place_app by now apply inside_length. rewrite count_map, place_places by exact H. reflexivity.
Qed.

Theorem C65_reshape_mismatch : forall A (a : arr A) gs, (forall P, ash a <> P ++ map count gs) -> reshape_axes a gs = Err ValueError.
Proof.
  intros A a gs N. unfold reshape_axes. destruct (Nat.ltb_spec (ndim a) (length gs)) as [|L]; [reflexivity|].
  destruct (list_eq_dec _ _ _) as [E|_]; [|reflexivity]. exfalso. apply (N (firstn (ndim a - length gs) (ash a))).
  rewrite <- map_size, <- E. symmetry. apply firstn_skipn.
Qed.

(** The two are inverse to each other. *)
Lemma split_inside : forall gs ix, inside (concat gs) ix -> exists ixs, Forall2 inside gs ixs /\ concat ixs = ix.
Proof.
  induction gs as [|g gs IH]; intros ix H; cbn in H.
  - inversion H. exists []. split; [constructor|reflexivity].
  - apply Forall2_app_inv_r in H as (i1 & i2 & H1 & H2 & ->). destruct (IH _ H2) as (ixs & I & <-). exists (i1 :: ixs).
    split; [now constructor|reflexivity].
Qed.

Lemma split_places : forall gs ix, inside (map count gs) ix -> exists ixs, Forall2 inside gs ixs /\ places gs ixs = ix.
Proof.
  induction gs as [|g gs IH]; intros ix H; cbn in H; inversion H; subst.
  - exists []. split; [constructor|reflexivity].
  - destruct (IH l ltac:(assumption)) as (ixs & I & <-). destruct (place_onto g x ltac:(assumption)) as (i & J & <-).
    exists (i :: ixs). split; [now constructor|reflexivity].
Qed.

Theorem C65_round_trip : forall A (a y : arr A) P gs, ash a = P ++ concat gs -> Forall (fun g => g <> []) gs ->
  flatten_axes a (map (@length nat) gs) = Ok y ->
  exists z, reshape_axes y gs = Ok z /\ ash z = ash a /\ forall ix, inside (ash a) ix -> at_ z ix = at_ a ix.
Proof.
  intros A a y P gs E N F. destruct (C65_flatten_axes _ _ _ _ E N) as (y' & F' & Sy & Gy). rewrite F in F'. injection F' as <-.
  destruct (C65_reshape_axes _ _ _ _ Sy) as (z & R & Sz & Gz). exists z. split; [exact R|]. split; [congruence|].
  intros ix H. rewrite E in H. apply Forall2_app_inv_r in H as (p & q & Hp & Hq & ->). destruct (split_inside _ _ Hq) as (ixs & I & <-).
  now rewrite Gz, Gy.
Qed.

Theorem C65_round_trip_back : forall A (a y : arr A) P gs, ash a = P ++ map count gs -> Forall (fun g => g <> []) gs ->
  reshape_axes a gs = Ok y ->
  exists z, flatten_axes y (map (@length nat) gs) = Ok z /\ ash z = ash a /\ forall ix, inside (ash a) ix -> at_ z ix = at_ a ix.
Proof.
  intros A a y P gs E N F. destruct (C65_reshape_axes _ _ _ _ E) as (y' & F' & Sy & Gy). rewrite F in F'. injection F' as <-.
  destruct (C65_flatten_axes _ _ _ _ Sy N) as (z & R & Sz & Gz). exists z. split; [exact R|]. split; [congruence|].
  intros ix H. rewrite E in H. apply Forall2_app_inv_r in H as (p & q & Hp & Hq & ->). destruct (split_places _ _ Hq) as (ixs & I & <-).
  now rewrite Gz, Gy.
Qed.

(** ** nested_iterator *)
Lemma seq_mul : forall n m, flat_map (fun i => map (fun x => i * m + x) (seq 0 m)) (seq 0 n) = seq 0 (n * m).
Proof.
  induction n as [|n IH]; intros m; [reflexivity|]. rewrite seq_S, flat_map_app, IH. cbn [flat_map]. rewrite app_nil_r. cbn [Nat.add].
  replace (S n * m) with (n * m + m) by lia. rewrite seq_app. f_equal. cbn [Nat.add]. generalize (n * m). intros k. clear.
  assert (G : forall j, map (fun x => k + x) (seq j m) = seq (k + j) m).
  { induction m as [|m IH]; intros j; [reflexivity|]. cbn. f_equal. rewrite IH. f_equal. lia. }
  rewrite G. f_equal. lia.
Qed.

Lemma map_flat_map : forall A B C (f : B -> C) (g : A -> list B) l, map f (flat_map g l) = flat_map (fun x => map f (g x)) l.
Proof. induction l as [|x l IH]; [reflexivity|]. cbn. now rewrite map_app, IH. Qed.

(** It yields every position exactly once, in the order in which the array is read row by row. *)
Theorem C65_nested_iterator : forall s,
  (forall ix, In ix (nested_iterator s) <-> inside s ix) /\
  NoDup (nested_iterator s) /\ length (nested_iterator s) = count s /\
  map (place s) (nested_iterator s) = seq 0 (count s).
Proof.
  intros s. assert (M : map (place s) (nested_iterator s) = seq 0 (count s)).
  { induction s as [|n s IH]; [reflexivity|]. cbn [nested_iterator]. rewrite map_flat_map.
    rewrite (flat_map_ext _ (fun i => map (fun x => i * count s + x) (seq 0 (count s)))).
    - apply seq_mul.
    - intros i. rewrite map_map. cbn [place]. now rewrite <- IH, map_map. }
  assert (I : forall ix, In ix (nested_iterator s) <-> inside s ix).
  { clear M. induction s as [|n s IH]; intros ix; cbn [nested_iterator].
    - split; [intros [<-|[]]; constructor|]. intros H. inversion H. now left.
    - rewrite in_flat_map. split.
      + intros (i & Hi & H). apply in_map_iff in H as (jx & <- & H). apply in_seq in Hi. constructor; [lia|now apply IH].
      + intros H. inversion H as [|i n' jx s' Hi Hj]; subst. exists i. split; [apply in_seq; lia|]. apply in_map. now apply IH. }
  split; [exact I|]. split; [|split; [|exact M]].
  - apply (NoDup_map_inv (place s)). rewrite M. apply seq_NoDup.
  - rewrite <- (map_length (place s)), M. apply seq_length.
Qed.

(** ** zipper_merge *)
Lemma heads_some : forall A (ls : list (list A)), Forall (fun l => l <> []) ls ->
  exists hs ts, heads ls = Some (hs, ts) /\ length ts = length ls /\ length hs = length ls /\
    (forall j d, j < length ls -> nth j hs d = hd d (nth j ls [])) /\ (forall j, nth j ts [] = tl (nth j ls [])).
Proof.
  intros A ls H. induction H as [|l ls N H IH].
  - exists [], []. repeat split; intros [|j]; cbn; try lia; reflexivity.
  - destruct l as [|x l]; [contradiction|]. destruct IH as (hs & ts & E & L1 & L2 & Hh & Ht). exists (x :: hs), (l :: ts). cbn [heads].
    rewrite E. cbn [length]. repeat split; [lia|lia| |].
    + intros [|j] d Hj; [reflexivity|]. cbn [nth]. apply Hh. lia.
    + intros [|j]; [reflexivity|]. cbn [nth]. apply Ht.
Qed.

Lemma heads_none : forall A (ls : list (list A)), In [] ls -> heads ls = None.
Proof. intros A ls. induction ls as [|l ls IH]; intros []; [subst; reflexivity|]. cbn. rewrite IH by assumption. now destruct l. Qed.

Lemma fold_app : forall A (ls : list (list A)) acc, fold_left (@app A) ls acc = acc ++ concat ls.
Proof. induction ls as [|l ls IH]; intros acc; cbn; [now rewrite app_nil_r|]. now rewrite IH, app_assoc. Qed.

Lemma zip_rows : forall A m (l : list A) ls, (forall x, In x (l :: ls) -> m <= length x) -> (exists x, In x (l :: ls) /\ length x = m) ->
  length (zip_with l ls) = m /\ forall i, i < m -> length (nth i (zip_with l ls) []) = S (length ls) /\
    forall j d, j <= length ls -> nth j (nth i (zip_with l ls) []) d = nth i (nth j (l :: ls) []) d.
Proof.
  intros A. induction m as [|m IH]; intros l ls H (x & Hx & E).
  - assert (Z : zip_with l ls = []).
    { destruct x; [|discriminate]. destruct Hx as [->|Hx]; [reflexivity|]. destruct l; [reflexivity|]. cbn [zip_with]. now rewrite heads_none. }
    rewrite Z. split; [reflexivity|]. intros i Hi. lia.
  - destruct l as [|y l]; [specialize (H [] (or_introl eq_refl)); cbn in H; lia|].
    destruct (heads_some _ ls) as (hs & ts & E' & L1 & L2 & Hh & Ht).
    { apply Forall_forall. intros z Hz ->. specialize (H [] (or_intror Hz)). cbn in H. lia. }
    assert (Hin : forall z, In z ts -> exists z', In z' ls /\ z = tl z').
    { intros z Hz. apply (In_nth _ _ []) in Hz as (j & Hj & <-). exists (nth j ls []). split; [apply nth_In; lia|apply Ht]. }
    cbn [zip_with]. rewrite E'. destruct (IH l ts) as [G1 G2].
    + intros z [<-|Hz]; [specialize (H (y :: l) (or_introl eq_refl)); cbn in H; lia|]. destruct (Hin z Hz) as (z' & Hz' & ->).
      specialize (H z' (or_intror Hz')). destruct z'; cbn in *; lia.
    + destruct Hx as [<-|Hx]; [exists l; split; [now left|cbn in E; lia]|]. apply (In_nth _ _ []) in Hx as (j & Hj & <-).
      exists (nth j ts []). split; [right; apply nth_In; lia|]. rewrite Ht. destruct (nth j ls []); cbn in *; lia.
    + split; [cbn; lia|]. intros [|i] Hi; cbn [nth].
      * split; [cbn; lia|]. intros [|j] d Hj; [reflexivity|]. cbn [nth]. rewrite Hh by lia. now destruct (nth j ls []).
      * destruct (G2 i ltac:(lia)) as [G3 G4]. split; [lia|]. intros j d Hj. rewrite G4 by lia. destruct j as [|j]; cbn [nth]; [reflexivity|].
        rewrite Ht. destruct (nth j ls []); [now destruct i|reflexivity].
Qed.

Lemma nth_concat : forall A (rows : list (list A)) n i j d, (forall r, In r rows -> length r = n) -> i < length rows -> j < n ->
  nth (i * n + j) (concat rows) d = nth j (nth i rows []) d.
Proof.
  induction rows as [|r rows IH]; intros n i j d H Hi Hj; [cbn in Hi; lia|]. pose proof (H r (or_introl eq_refl)) as L. cbn [concat].
  destruct i as [|i]; cbn [nth].
  - rewrite app_nth1 by lia. reflexivity.
  - rewrite app_nth2 by lia. replace (S i * n + j - length r) with (i * n + j) by lia. apply IH; [|cbn in Hi; lia|exact Hj].
    intros x Hx. apply H. now right.
Qed.

Lemma length_concat : forall A (rows : list (list A)) n, (forall r, In r rows -> length r = n) -> length (concat rows) = length rows * n.
Proof.
  induction rows as [|r rows IH]; intros n H; [reflexivity|]. cbn [concat length]. rewrite app_length, (H r (or_introl eq_refl)), (IH n); [lia|].
  intros x Hx. apply H. now right.
Qed.

(** The merged list takes one element of each list in turn, until the shortest list ends. *)
Theorem C65_zipper_merge : forall A (ls : list (list A)) m, (forall l, In l ls -> m <= length l) -> (exists l, In l ls /\ length l = m) ->
  length (zipper_merge ls) = m * length ls /\
  forall i j d, i < m -> j < length ls -> nth (i * length ls + j) (zipper_merge ls) d = nth i (nth j ls []) d.
Proof.
  intros A [|l ls] m H X; [destruct X as (l & [] & _)|]. unfold zipper_merge, zip. rewrite fold_app. cbn [app].
  destruct (zip_rows _ _ _ _ H X) as [G1 G2].
  assert (U : forall r, In r (zip_with l ls) -> length r = S (length ls)).
  { intros r Hr. apply (In_nth _ _ []) in Hr as (i & Hi & <-). apply G2. lia. }
  split; [rewrite (length_concat _ _ _ U), G1; reflexivity|]. intros i j d Hi Hj. cbn [length] in *.
  rewrite (nth_concat _ _ _ _ _ _ U) by lia. apply G2; lia.
Qed.

(** ** block_banded *)
Lemma pos2_list : forall (X : arr R) r c, at_ X [r; c] = bget X (pos2 r c).
Proof. intros. unfold at_. f_equal. apply functional_extensionality. intros [|[|[|k]]]; reflexivity. Qed.

Lemma atleast_shape : forall a, ash (atleast_2d a) = as_matrix (ash a).
Proof. intros a. unfold atleast_2d, as_matrix. destruct (ash a) as [|n [|m s]] eqn:E; [reflexivity|reflexivity|exact E]. Qed.

Lemma atleast_at : forall a ix, at_ (atleast_2d a) ix = at_ a ix.
Proof.
  intros a ix. unfold at_, atleast_2d. generalize (fun k => nth k (rev ix) 0). intros e.
  destruct (ash a) as [|n [|m s]] eqn:E; [| |reflexivity]; unfold bget; cbn [ash aget]; rewrite E; f_equal; apply functional_extensionality;
    intros [|[|[|k]]]; unfold clip, ax; cbn; try reflexivity; try (destruct k; reflexivity).
  destruct (n =? 1); reflexivity.
Qed.

Lemma ax2 : forall n m, ax [n; m] 0 = m /\ ax [n; m] 1 = n.
Proof. intros. split; reflexivity. Qed.

Lemma set_slice_fit : forall A r0 p c0 q X, ash X = [p; q] -> r0 + p <= m_rows A -> c0 + q <= m_cols A ->
  set_slice A r0 (r0 + p) c0 (c0 + q) X = Ok (Mat (m_rows A) (m_cols A) (fun r c =>
    if (r0 <=? r) && (r <? r0 + p) && (c0 <=? c) && (c <? c0 + q) then bget X (pos2 (r - r0) (c - c0)) else m_get A r c)).
Proof.
  intros A r0 p c0 q X E H1 H2. unfold set_slice, cut. rewrite !Nat.min_r by assumption. rewrite E. destruct (ax2 p q) as [-> ->].
  replace (r0 + p - r0) with p by lia. replace (c0 + q - c0) with q by lia. unfold stretches. rewrite !Nat.eqb_refl. reflexivity.
Qed.

Lemma slice_in : forall r0 p c0 q r c, r0 <= r < r0 + p -> c0 <= c < c0 + q ->
  (r0 <=? r) && (r <? r0 + p) && (c0 <=? c) && (c <? c0 + q) = true.
Proof. intros. rewrite !andb_true_iff, !Nat.leb_le, !Nat.ltb_lt. lia. Qed.
Lemma slice_out : forall r0 p c0 q r c, ~ (r0 <= r < r0 + p /\ c0 <= c < c0 + q) ->
  (r0 <=? r) && (r <? r0 + p) && (c0 <=? c) && (c <? c0 + q) = false.
Proof. intros. apply not_true_is_false. intros T. rewrite !andb_true_iff, !Nat.leb_le, !Nat.ltb_lt in T. lia. Qed.

Inductive chain : list nat -> list (arr R) -> list (arr R) -> Prop :=
| chain_one : forall n d, ash d = [n; n] -> chain [n] [d] []
| chain_more : forall n m ns d D b B, ash d = [n; n] -> ash b = [n; m] -> chain (m :: ns) D B -> chain (n :: m :: ns) (d :: D) (b :: B).

Lemma block_cons : forall d D b B i j a c, block (d :: D) (b :: B) (S i) (S j) a c = block D B i j a c.
Proof. intros. reflexivity. Qed.

Lemma transposed_at : forall X p q r c, ash X = [p; q] -> r < q -> c < p -> bget (transposed X) (pos2 r c) = bget X (pos2 c r).
Proof.
  intros X p q r c E Hr Hc. unfold bget at 1, transposed. cbn [ash aget]. rewrite E. destruct (ax2 p q) as [-> ->].
  assert (Z : clip [q; p] (pos2 r c) = pos2 r c).
  { apply clip_valid. intros [|[|[|k]]]; cbn; try lia. }
  now rewrite Z.
Qed.

Lemma fill_ok : forall ns D B, chain ns D B -> forall A k, m_rows A = k + list_sum ns -> m_cols A = k + list_sum ns ->
  (forall r c, k <= r -> k <= c -> m_get A r c = 0%R) ->
  exists A', fill A k D B = Ok A' /\ m_rows A' = m_rows A /\ m_cols A' = m_cols A /\
    (forall r c, r < k \/ c < k -> m_get A' r c = m_get A r c) /\
    (forall i j a b, i < length ns -> j < length ns -> a < nth i ns 0 -> b < nth j ns 0 ->
       m_get A' (k + offset ns i + a) (k + offset ns j + b) = block D B i j a b).
Proof.
  intros ns D B H. induction H as [n d Ed|n m ns d D b B Ed Eb H IH]; intros A k HR HC Z.
  - cbn [list_sum fold_right] in HR, HC. unfold list_sum in HR, HC. cbn in HR, HC. rewrite Nat.add_0_r in HR, HC.
    cbn [fill rev app]. rewrite HR, HC.
    rewrite (set_slice_fit A k n k n d Ed) by lia. eexists. split; [reflexivity|]. cbn [m_rows m_cols m_get]. split; [congruence|]. split; [congruence|].
    split.
    + intros r c Hrc. now rewrite slice_out by lia.
    + intros i j a b Hi Hj Ha Hb. cbn in Hi, Hj. assert (i = 0) by lia. assert (j = 0) by lia. subst. cbn [offset nth] in *.
      rewrite slice_in by lia. unfold block. cbn [Nat.eqb nth]. rewrite pos2_list. do 2 f_equal; lia.
  - change (list_sum (n :: m :: ns)) with (n + list_sum (m :: ns)) in HR, HC.
    assert (HM : list_sum (m :: ns) = m + list_sum ns) by reflexivity.
    assert (Et : ash (transposed b) = [m; n]) by (unfold transposed; cbn [ash]; rewrite Eb; destruct (ax2 n m) as [-> ->]; reflexivity).
    cbn [fill]. rewrite Eb. destruct (ax2 n m) as [-> ->].
    rewrite (set_slice_fit A k n k n d Ed) by lia. cbn [bind].
    rewrite (set_slice_fit _ k n (k + n) m b Eb) by (cbn [m_rows m_cols]; lia). cbn [bind m_rows m_cols m_get].
    rewrite (set_slice_fit _ (k + n) m k n (transposed b) Et) by (cbn [m_rows m_cols]; lia). cbn [bind m_rows m_cols m_get].
    set (A3 := Mat _ _ _).
    destruct (IH A3 (k + n)) as (A' & EA & R1 & R2 & Ho & Hb).
    + cbn [A3 m_rows]. lia.
    + cbn [A3 m_cols]. lia.
    + intros r c Hr Hc. cbn [A3 m_get]. rewrite !slice_out by lia. apply Z; lia.
    + exists A'. split; [exact EA|]. split; [exact R1|]. split; [exact R2|]. split.
      * intros r c Hrc. rewrite Ho by lia. cbn [A3 m_get]. rewrite !slice_out by lia. reflexivity.
      * intros i j a c Hi Hj Ha Hc. destruct i as [|i], j as [|j]; cbn [offset nth] in *.
        -- rewrite Ho by lia. cbn [A3 m_get]. rewrite (slice_out (k + n)) by lia. rewrite (slice_out k n (k + n)) by lia. rewrite slice_in by lia.
           unfold block. cbn [Nat.eqb nth]. rewrite pos2_list. do 2 f_equal; lia.
        -- rewrite Ho by lia. cbn [A3 m_get]. rewrite (slice_out (k + n)) by lia. destruct j as [|j]; cbn [offset] in *.
           ++ cbn [nth] in Hc. rewrite slice_in by lia. unfold block. cbn [Nat.eqb nth]. rewrite pos2_list. do 2 f_equal; lia.
           ++ rewrite !slice_out by lia. rewrite Z by lia. reflexivity.
        -- rewrite Ho by lia. cbn [A3 m_get]. destruct i as [|i]; cbn [offset] in *.
           ++ cbn [nth] in Ha. rewrite slice_in by lia. unfold block. cbn [Nat.eqb nth]. rewrite pos2_list.
              rewrite (transposed_at b n m) by (exact Eb || lia). do 2 f_equal; lia.
           ++ rewrite !slice_out by lia. rewrite Z by lia. reflexivity.
        -- rewrite block_cons, <- (Hb i j a c) by (cbn in *; lia). f_equal; lia.
Qed.

Lemma square_cases : forall d : arr R, (exists n, ash d = [n; n]) \/
  (negb (ndim d =? 2) = true \/ negb (ax (ash d) 1 =? ax (ash d) 0) = true).
Proof.
  intros d. unfold ndim. destruct (ash d) as [|x [|y [|z s]]] eqn:E; try (right; left; reflexivity).
  destruct (Nat.eq_dec x y) as [->|N]; [left; now exists y|]. right. right. destruct (ax2 x y) as [-> ->]. apply negb_true_iff. now apply Nat.eqb_neq.
Qed.

Lemma diagonal_cases : forall D M, (Forall (fun d => exists n, ash d = [n; n]) D /\
    diagonal_size D M = Ok (M + list_sum (map (fun d => ax (ash d) 1) D))) \/ diagonal_size D M = Err ValueError.
Proof.
  induction D as [|d D IH]; intros M.
  - left. split; [constructor|]. cbn. f_equal. lia.
  - cbn [diagonal_size]. destruct (square_cases d) as [[n E]|[E|E]].
    + rewrite E. unfold ndim. rewrite E. cbn [length Nat.eqb negb]. destruct (ax2 n n) as [-> ->]. rewrite Nat.eqb_refl. cbn [negb].
      destruct (IH (M + n)) as [[F G]|G]; [left|right; exact G]. split; [constructor; [now exists n|exact F]|]. rewrite G. f_equal.
      cbn [map]. rewrite E. destruct (ax2 n n) as [_ ->]. cbn [list_sum fold_right]. unfold list_sum. cbn [fold_right]. lia.
    + right. now rewrite E.
    + right. rewrite E. now destruct (negb (ndim d =? 2)).
Qed.

Lemma check_cons : forall d d' D b B, check_bands (d :: d' :: D) (b :: B) =
  if negb (ndim b =? 2) then Err ValueError
  else if negb (ax (ash b) 1 =? ax (ash d) 0) || negb (ax (ash b) 0 =? ax (ash d') 1) then Err ValueError
  else check_bands (d' :: D) B.
Proof. reflexivity. Qed.

Lemma bands_cases : forall B D, S (length B) = length D -> Forall (fun d => exists n, ash d = [n; n]) D ->
  (chain (map (fun d => ax (ash d) 1) D) D B /\ check_bands D B = Ok tt) \/
  (check_bands D B = Err ValueError /\ forall ns, ~ chain ns D B).
Proof.
  induction B as [|b B IH]; intros D L F.
  - destruct D as [|d [|d' D]]; cbn in L; try lia. inversion F as [|? ? [n E] ?]; subst. left. split; [|reflexivity].
    cbn [map]. rewrite E. now apply chain_one.
  - destruct D as [|d [|d' D]]; cbn in L; try lia. inversion F as [|? ? [n E] F']; subst. inversion F' as [|? ? [m E'] F'']; subst.
    rewrite check_cons. destruct (IH (d' :: D)) as [[C K]|[K N]]; [cbn; lia|exact F'| |].
    + unfold ndim. rewrite E, E'. destruct (ash b) as [|x [|y [|z s]]] eqn:Eb; try (right; split; [reflexivity|intros ns X; inversion X; congruence]).
      destruct (ax2 x y) as [-> ->]. destruct (ax2 n n) as [-> ?]. destruct (ax2 m m) as [? ->].
      cbn [length Nat.eqb negb]. destruct (Nat.eqb_spec x n) as [->|Nx]; cbn [negb orb].
      * destruct (Nat.eqb_spec y m) as [->|Ny]; cbn [negb].
        -- left. split; [|exact K]. cbn [map] in C |- *. rewrite E, E' in *. now apply chain_more.
        -- right. split; [reflexivity|]. intros ns X. inversion X as [|? ? ? ? ? ? ? X1 X2 X3]; subst. inversion X3; subst; congruence.
      * right. split; [reflexivity|]. intros ns X. inversion X; congruence.
    + right. split; [|intros ns X; inversion X; subst; eapply N; eassumption].
      destruct (negb (ndim b =? 2)); [reflexivity|]. destruct (_ || _); [reflexivity|exact K].
Qed.

Lemma chain_shapes : forall ns D B, chain ns (map atleast_2d D) (map atleast_2d B) -> block_shapes ns D B.
Proof.
  intros ns D B H. remember (map atleast_2d D) as D2 eqn:ED. remember (map atleast_2d B) as B2 eqn:EB. revert D B ED EB.
  induction H as [n d Ed|n m ns d D2 b B2 Ed Eb H IH]; intros D B ED EB.
  - destruct D as [|x [|? ?]]; try discriminate. destruct B; try discriminate. injection ED as ->. repeat split; cbn [length]; intros i Hi; [|cbn in Hi; lia].
    assert (i = 0) by (cbn in Hi; lia). subst i. cbn [nth]. rewrite <- atleast_shape. exact Ed.
  - destruct D as [|x D]; try discriminate. destruct B as [|y B]; try discriminate. injection ED as -> ->. injection EB as -> ->.
    destruct (IH D B eq_refl eq_refl) as (L1 & L2 & S1 & S2). split; [cbn in *; lia|]. split; [cbn in *; lia|]. split.
    + intros [|i] Hi; cbn [nth]; [rewrite <- atleast_shape; exact Ed|]. apply S1. cbn in Hi. lia.
    + intros [|i] Hi; cbn [nth]; [rewrite <- atleast_shape; exact Eb|]. apply S2. cbn in Hi. lia.
Qed.

Lemma shapes_chain : forall B ns D, block_shapes ns D B -> chain ns (map atleast_2d D) (map atleast_2d B).
Proof.
  induction B as [|b B IH]; intros ns D (L1 & L2 & S1 & S2).
  - destruct ns as [|n [|? ?]]; cbn in L2; try lia. destruct D as [|d [|? ?]]; cbn in L1; try lia. apply chain_one. rewrite atleast_shape. apply (S1 0). cbn. lia.
  - destruct ns as [|n [|m ns]]; cbn in L2; try lia. destruct D as [|d D]; cbn in L1; try lia. cbn [map]. apply chain_more.
    + rewrite atleast_shape. apply (S1 0). cbn. lia.
    + rewrite atleast_shape. apply (S2 0). cbn. lia.
    + apply IH. split; [cbn; lia|]. split; [cbn; lia|]. split; intros i Hi.
      * apply (S1 (S i)). cbn. lia.
      * apply (S2 (S i)). cbn. lia.
Qed.

Lemma block_atleast : forall D B i j a c, block (map atleast_2d D) (map atleast_2d B) i j a c = block D B i j a c.
Proof.
  intros. unfold block.
  assert (G : forall L n ix, at_ (nth n (map atleast_2d L) (scalar 0%R)) ix = at_ (nth n L (scalar 0%R)) ix).
  { intros L n ix. destruct (Nat.lt_ge_cases n (length L)) as [C|C].
    - rewrite (nth_indep _ (scalar 0%R) (atleast_2d (scalar 0%R))) by (rewrite map_length; exact C). rewrite map_nth. apply atleast_at.
    - now rewrite !nth_overflow by (rewrite ?map_length; exact C). }
  now rewrite !G.
Qed.

(** The matrix has the blocks of D on the diagonal, those of B to the right of them, their
    transposes below, and zeros elsewhere. *)
Theorem C65_block_banded : forall ns D B, block_shapes ns D B ->
  exists A, block_banded D B = Ok A /\ m_rows A = list_sum ns /\ m_cols A = list_sum ns /\
    forall i j a b, i < length ns -> j < length ns -> a < nth i ns 0 -> b < nth j ns 0 ->
      m_get A (offset ns i + a) (offset ns j + b) = block D B i j a b.
Proof.
  intros ns D B H. pose proof (shapes_chain _ _ _ H) as C. destruct H as (L1 & L2 & _). unfold block_banded. rewrite !map_length.
  replace (S (length B) =? length D) with true by (symmetry; apply Nat.eqb_eq; lia). cbn [negb].
  assert (F : Forall (fun d => exists n, ash d = [n; n]) (map atleast_2d D)).
  { clear L1 L2. revert C. generalize (map atleast_2d D). generalize (map atleast_2d B). intros B2 D2 C. induction C; constructor; eauto. }
  assert (NS : map (fun d => ax (ash d) 1) (map atleast_2d D) = ns).
  { clear L1 L2 F. revert C. generalize (map atleast_2d D). generalize (map atleast_2d B). intros B2 D2 C.
    induction C as [n d E|n m ns d D2 b B2 E _ _ IH]; cbn [map]; rewrite E; destruct (ax2 n n) as [_ ->]; [reflexivity|]. now rewrite IH. }
  assert (DS : diagonal_size (map atleast_2d D) 0 = Ok (list_sum ns)).
  { destruct (diagonal_cases (map atleast_2d D) 0) as [[_ E]|E]; [rewrite E, NS; reflexivity|]. exfalso. clear -F E. revert E. generalize 0.
    induction F as [|d D2 [n E] F IH]; intros M Q; cbn [diagonal_size] in Q; [discriminate|]. unfold ndim in Q. rewrite E in Q.
    cbn [length Nat.eqb negb] in Q. destruct (ax2 n n) as [A0 A1]. rewrite A0, A1, Nat.eqb_refl in Q. cbn [negb] in Q. now apply IH in Q. }
  rewrite DS. cbn [bind]. destruct (bands_cases (map atleast_2d B) (map atleast_2d D)) as [[_ K]|[_ N]];
    [rewrite !map_length; lia|exact F| |now apply N in C].
  rewrite K. cbn [bind]. destruct (fill_ok _ _ _ C (Mat (list_sum ns) (list_sum ns) (fun _ _ => 0%R)) 0) as (A & E & R1 & R2 & _ & G).
  - reflexivity.
  - reflexivity.
  - intros. reflexivity.
  - exists A. split; [exact E|]. split; [exact R1|]. split; [exact R2|]. intros i j a b Hi Hj Ha Hb. rewrite <- block_atleast. now apply (G i j a b).
Qed.

(** Every row and column belongs to a block, so the theorem gives every element. *)
Theorem C65_block_rows : forall ns r, r < list_sum ns -> exists i a, i < length ns /\ a < nth i ns 0 /\ r = offset ns i + a.
Proof.
  induction ns as [|n ns IH]; intros r Hr; [cbn in Hr; lia|]. change (r < n + list_sum ns) in Hr. destruct (Nat.lt_ge_cases r n) as [C|C].
  - exists 0, r. cbn. repeat split; lia.
  - destruct (IH (r - n) ltac:(lia)) as (i & a & Hi & Ha & E). exists (S i), a. cbn. repeat split; lia.
Qed.

(** Blocks that do not fit together: ValueError. *)
Theorem C65_block_mismatch : forall D B, (forall ns, ~ block_shapes ns D B) -> block_banded D B = Err ValueError.
Proof.
  intros D B N. unfold block_banded. rewrite !map_length. destruct (Nat.eqb_spec (S (length B)) (length D)) as [L|L]; cbn [negb]; [|reflexivity].
  destruct (diagonal_cases (map atleast_2d D) 0) as [[F E]|E]; rewrite E; cbn [bind]; [|reflexivity].
  destruct (bands_cases (map atleast_2d B) (map atleast_2d D)) as [[C K]|[K _]]; [rewrite !map_length; exact L|exact F| |now rewrite K].
  exfalso. apply (N _ (chain_shapes _ _ _ C)).
Qed.

(** ** Examples *)
Definition numbered (s : shape) : arr nat := Arr s (fun e => ravel s (length s) e).
(** Two plates of (2, 3) matrices become two plates of vectors of length 6. *)
Example ex_flatten : exists y, flatten_axes (numbered [2; 2; 3]) [2] = Ok y /\ ash y = [2; 6] /\
  at_ y [1; 5] = at_ (numbered [2; 2; 3]) [1; 1; 2].
Proof. eexists. split; [reflexivity|]. split; reflexivity. Qed.
Example ex_flatten_hyp : ash (numbered [2; 2; 3]) = [2] ++ concat [[2; 3]] /\ Forall (fun g : shape => g <> []) [[2; 3]].
Proof. split; [reflexivity|]. repeat constructor. discriminate. Qed.
Example ex_reshape : exists y, reshape_axes (numbered [4; 6; 1]) [[2; 3]; []] = Ok y /\ ash y = [4; 2; 3].
Proof. eexists. split; reflexivity. Qed.
Example ex_iterate : nested_iterator [2; 3] = [[0; 0]; [0; 1]; [0; 2]; [1; 0]; [1; 1]; [1; 2]].
Proof. reflexivity. Qed.
Example ex_merge : zipper_merge [[1; 2; 3]; [10; 20; 30]; [42; 66]] = [1; 10; 42; 2; 20; 66].
Proof. reflexivity. Qed.
(** Blocks of 1, 2 and 1 rows, the first one a number, the first band a vector. *)
Example ex_blocks : block_shapes [1; 2; 1]
  [scalar 5%R; Arr [2; 2] (fun e => INR (e 0 + e 1)); scalar 7%R]
  [Arr [2] (fun e => INR (e 0)); Arr [2; 1] (fun e => INR (e 1))].
Proof.
  repeat split; intros i Hi; cbn in Hi; destruct i as [|[|[|i]]]; try lia; reflexivity.
Qed.

Print Assumptions C65_places.
Print Assumptions C65_flatten_axes.
Print Assumptions C65_flatten_few.
Print Assumptions C65_flatten_scalar_refuted.
Print Assumptions C65_reshape_axes.
Print Assumptions C65_reshape_mismatch.
Print Assumptions C65_round_trip.
Print Assumptions C65_round_trip_back.
Print Assumptions C65_nested_iterator.
Print Assumptions C65_zipper_merge.
Print Assumptions C65_block_banded.
Print Assumptions C65_block_rows.
Print Assumptions C65_block_mismatch.
