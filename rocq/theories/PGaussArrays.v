(** C68: arrays of Gaussian variables with several axes. *)
From Coq Require Import List Arith ZArith Lia Bool Reals Lra FunctionalExtensionality Permutation.
From Verif Require Import Base Shapes SpecShapes ShapesLemmas NumPy MiscArray TensorLemmas SpecArray SpecIndex
  EinsumLemmas DiagLemmas PlateSumLemmas PNumeric Reindex ArrayTools SpecArrayTools PArrayTools PChoose MessageLemmas ExpFamBound GaussArrays.
Import ListNotations.
Open Scope nat_scope.

Lemma last_app : forall s t : shape, but_last (length t) (s ++ t) = s /\ last_axes (length t) (s ++ t) = t.
Proof.
  intros s t. unfold but_last, last_axes. rewrite app_length. replace (length s + length t - length t) with (length s) by lia.
  rewrite firstn_app, skipn_app, Nat.sub_diag, firstn_all, skipn_all. cbn. now rewrite app_nil_r.
Qed.
Lemma pos_mid : forall q i t k, pos (q ++ i :: t) k = if k <? length t then pos t k else if k =? length t then i else pos q (k - S (length t)).
Proof.
  intros q i t k. unfold pos. rewrite rev_app_distr. cbn [rev]. rewrite <- app_assoc. cbn [app].
  destruct (Nat.ltb_spec k (length t)) as [H|H]; [rewrite app_nth1 by (rewrite rev_length; lia); reflexivity|].
  rewrite app_nth2 by (rewrite rev_length; lia). rewrite rev_length. destruct (Nat.eqb_spec k (length t)) as [->|N]; [now rewrite Nat.sub_diag|].
  destruct (k - length t) as [|m] eqn:E; [lia|]. cbn [nth]. f_equal. lia.
Qed.
Lemma ax_mid : forall q i t k, ax (q ++ i :: t) k = if k <? length t then ax t k else if k =? length t then i else ax q (k - S (length t)).
Proof.
  intros q i t k. unfold ax. rewrite rev_app_distr. cbn [rev]. rewrite <- app_assoc. cbn [app].
  destruct (Nat.ltb_spec k (length t)) as [H|H]; [rewrite app_nth1 by (rewrite rev_length; lia); reflexivity|].
  rewrite app_nth2 by (rewrite rev_length; lia). rewrite rev_length. destruct (Nat.eqb_spec k (length t)) as [->|N]; [now rewrite Nat.sub_diag|].
  destruct (k - length t) as [|m] eqn:E; [lia|]. cbn [nth]. f_equal. lia.
Qed.
Lemma at_arr : forall A s (f : env -> A) ix, inside s ix -> at_ (Arr s f) ix = f (pos ix).
Proof. intros A s f ix H. unfold at_. fold (pos ix). unfold bget. cbn [ash aget]. now rewrite clip_valid by now apply inside_valid. Qed.

Lemma bdim_same : forall n, bdim [n; n] = Ok n.
Proof.
  intros n. unfold bdim. cbn [filter]. destruct (Nat.eqb_spec n 1) as [->|N]; [reflexivity|]. cbn. now rewrite Nat.eqb_refl.
Qed.

Lemma ein_ok : forall Rm C PR PC P a b post, ash Rm = PR ++ [a; b] -> ash C = PC ++ b :: post -> numpy_broadcast [PR; PC] P ->
  exists y, ein_rotate (S (length post)) Rm C = Ok y /\ ash y = P ++ a :: post /\
    forall p i t, inside P p -> i < a -> inside post t ->
      at_ y (p ++ i :: t) = rsum b (fun j => at_ Rm (p ++ [i; j]) * at_ C (p ++ j :: t))%R.
Proof.
  intros Rm C PR PC P a b post HR HC HB. unfold ein_rotate, ndim.
  rewrite HR, HC, !app_length. cbn [length].
  destruct (Nat.ltb_spec (length PR + 2) 2); [lia|]. destruct (Nat.ltb_spec (length PC + S (length post)) (S (length post))); [lia|].
  cbn [orb]. change 2 with (length [a; b]). rewrite (proj1 (last_app PR [a; b])).
  change (S (length post)) with (length (b :: post)) at 1. rewrite (proj1 (last_app PC (b :: post))).
  rewrite np_bshape_eq. rewrite (proj2 (broadcasted_shape_ok _ _) HB). cbn [bind].
  replace (S (length post) - 1) with (length post) by lia.
  rewrite !ax_mid. cbn [length]. rewrite Nat.ltb_irrefl, Nat.eqb_refl.
  replace (ax (PR ++ [a; b]) 0) with b by (unfold ax; rewrite rev_app_distr; reflexivity). rewrite bdim_same. cbn [bind].
  replace (ax (PR ++ [a; b]) 1) with a by (unfold ax; rewrite rev_app_distr; reflexivity).
  replace (PC ++ b :: post) with ((PC ++ [b]) ++ post) by now rewrite <- app_assoc.
  rewrite (proj2 (last_app (PC ++ [b]) post)).
  eexists. split; [reflexivity|]. split; [reflexivity|]. intros p i t Hp Hi Ht.
  assert (L : length t = length post) by now apply inside_length.
  rewrite at_arr by (apply inside_app; [exact Hp|now constructor]).
  apply rsum_ext. intros j Hj. f_equal.
  - unfold at_. fold (pos (p ++ [i; j])). f_equal. apply functional_extensionality. intros k.
    change (p ++ [i; j]) with (p ++ [i] ++ [j]). rewrite app_assoc, (pos_mid (p ++ [i]) j []). cbn [length].
    destruct k as [|[|k]]; cbn [Nat.ltb Nat.leb Nat.eqb]; [reflexivity| |].
    + rewrite (pos_mid p i t), (pos_mid p i []). cbn [length]. rewrite L, Nat.ltb_irrefl, Nat.eqb_refl. reflexivity.
    + rewrite !pos_mid. cbn [length]. rewrite L. destruct (Nat.ltb_spec (k + S (length post)) (length post)); [lia|].
      destruct (Nat.eqb_spec (k + S (length post)) (length post)); [lia|].
      replace (S (S k) - 1) with (S k) by lia. cbn [Nat.ltb Nat.leb Nat.eqb]. f_equal. lia.
  - unfold at_. fold (pos (p ++ j :: t)). f_equal. apply functional_extensionality. intros k. rewrite !pos_mid, L.
    destruct (Nat.eqb_spec k (length post)) as [->|N]; [now rewrite Nat.ltb_irrefl|reflexivity].
Qed.

Lemma ax_map_back : forall f n k, k < n -> ax (map f (back_range n)) k = f k.
Proof. intros f n k H. unfold ax. rewrite (nth_indep _ 1 0); [exact (map_back_range f n k H)|]. now rewrite rev_length, map_length, back_range_length. Qed.
Lemma ax_back_range : forall s, map (ax s) (back_range (length s)) = s.
Proof.
  intros s. apply ShapesLemmas.shape_ext; rewrite map_length, back_range_length; [reflexivity|]. intros k Hk. now apply ax_map_back.
Qed.
Lemma nil_broadcast : forall s, numpy_broadcast [[]; s] s.
Proof.
  intros s. rewrite <- broadcasted_shape_ok, <- np_bshape_eq. unfold np_bshape.
  cbn [map list_max fold_right length Nat.max]. rewrite Nat.max_0_r.
  assert (E : forall l, mapM (fun k => bdim [ax [] k; ax s k]) l = Ok (map (ax s) l)).
  { induction l as [|k l IH]; [reflexivity|]. cbn [mapM map]. rewrite IH.
    assert (bdim [ax [] k; ax s k] = Ok (ax s k)) as ->; [|reflexivity].
    replace (ax [] k) with 1 by (unfold ax; destruct k; reflexivity). unfold bdim. cbn. destruct (Nat.eqb_spec (ax s k) 1) as [-> | N]; reflexivity. }
  rewrite E. f_equal. apply ax_back_range.
Qed.

Lemma at_matrix : forall (Rm : arr R) a b p i j, ash Rm = [a; b] -> at_ Rm (p ++ [i; j]) = at_ Rm [i; j].
Proof.
  intros Rm a b p i j H. unfold at_. apply bget_ext. intros k Hk N. rewrite H in Hk. cbn in Hk.
  rewrite rev_app_distr. cbn. destruct k as [|[|k]]; [reflexivity|reflexivity|lia].
Qed.

Lemma ein_plain : forall Rm C PC a b post, ash Rm = [a; b] -> ash C = PC ++ b :: post ->
  exists y, ein_rotate (S (length post)) Rm C = Ok y /\ ash y = PC ++ a :: post /\
    forall p i t, inside PC p -> i < a -> inside post t ->
      at_ y (p ++ i :: t) = rsum b (fun j => at_ Rm [i; j] * at_ C (p ++ j :: t))%R.
Proof.
  intros Rm C PC a b post HR HC. destruct (ein_ok Rm C [] PC PC a b post HR HC (nil_broadcast PC)) as (y & E & S & V).
  exists y. split; [exact E|]. split; [exact S|]. intros p i t Hp Hi Ht. rewrite V by assumption. apply rsum_ext. intros j Hj.
  now rewrite (at_matrix Rm a b).
Qed.

Lemma axis_ok : forall axis (pre post : shape), axis = Z.of_nat (length pre) \/ axis = (- Z.of_nat (S (length post)))%Z ->
  rotated_axis axis (length pre + S (length post)) = Ok (S (length post)).
Proof.
  intros axis pre post H. unfold rotated_axis.
  destruct (Z.ltb_spec axis (- Z.of_nat (length pre + S (length post)))); [lia|].
  destruct (Z.leb_spec (Z.of_nat (length pre + S (length post))) axis); [lia|]. cbn [orb]. f_equal.
  destruct (Z.leb_spec 0 axis); lia.
Qed.

Ltac assoc := repeat (progress (repeat rewrite <- app_assoc; cbn [app])); reflexivity.

(** ** Rotating the mean and the second moment along one axis of the variable *)
Theorem C68_rotate_mean : forall (mu Rm : arr R) P pre post a b axis,
  ash Rm = [a; b] -> ash mu = P ++ pre ++ b :: post ->
  axis = Z.of_nat (length pre) \/ axis = (- Z.of_nat (S (length post)))%Z ->
  exists y, rotate_mu mu Rm axis (length pre + S (length post)) = Ok y /\ ash y = P ++ pre ++ a :: post /\
    forall p s i t, inside P p -> inside pre s -> i < a -> inside post t ->
      at_ y (p ++ s ++ i :: t) = rsum b (fun j => at_ Rm [i; j] * at_ mu (p ++ s ++ j :: t))%R.
Proof.
  intros mu Rm P pre post a b axis HR HM HA. unfold rotate_mu. rewrite (axis_ok _ pre post HA). cbn [bind].
  rewrite app_assoc in HM. destruct (ein_plain Rm mu (P ++ pre) a b post HR HM) as (y & E & S & V).
  exists y. split; [exact E|]. split; [now rewrite app_assoc|]. intros p s i t Hp Hs Hi Ht. rewrite app_assoc, V by (auto using inside_app).
  apply rsum_ext. intros j Hj. now rewrite app_assoc.
Qed.

Theorem C68_rotate_covariance : forall (Cov Rm : arr R) P pre post a b axis,
  ash Rm = [a; b] -> ash Cov = P ++ (pre ++ b :: post) ++ (pre ++ b :: post) ->
  axis = Z.of_nat (length pre) \/ axis = (- Z.of_nat (S (length post)))%Z ->
  exists y, rotate_cov Cov Rm axis (length pre + S (length post)) = Ok y /\
    ash y = P ++ (pre ++ a :: post) ++ (pre ++ a :: post) /\
    forall p s i t s' i' t', inside P p -> inside pre s -> i < a -> inside post t -> inside pre s' -> i' < a -> inside post t' ->
      at_ y (p ++ (s ++ i :: t) ++ (s' ++ i' :: t')) =
      rsum b (fun j => rsum b (fun k => at_ Rm [i; j] * at_ Cov (p ++ (s ++ j :: t) ++ (s' ++ k :: t')) * at_ Rm [i'; k]))%R.
Proof.
  intros Cov Rm P pre post a b axis HR HM HA. unfold rotate_cov, left_rotate, right_rotate. rewrite (axis_ok _ pre post HA). cbn [bind].
  destruct (ein_plain Rm Cov (P ++ pre) a b (post ++ pre ++ b :: post) HR) as (y & E & S & V).
  { rewrite HM. assoc. }
  replace (length pre + Datatypes.S (length post) + Datatypes.S (length post)) with (Datatypes.S (length (post ++ pre ++ b :: post))) by (rewrite !app_length; cbn [length]; lia).
  rewrite E. cbn [bind].
  destruct (ein_plain Rm y (P ++ (pre ++ a :: post) ++ pre) a b post HR) as (z & E' & S' & V').
  { rewrite S. assoc. }
  exists z. split; [exact E'|]. split; [rewrite S'; assoc|].
  intros p s i t s' i' t' Hp Hs Hi Ht Hs' Hi' Ht'.
  replace (p ++ (s ++ i :: t) ++ s' ++ i' :: t') with ((p ++ (s ++ i :: t) ++ s') ++ i' :: t') by (assoc).
  rewrite V' by (repeat apply inside_app; try assumption; now constructor).
  rewrite (rsum_ext _ _ (fun k => rsum b (fun j => at_ Rm [i; j] * at_ Cov (p ++ (s ++ j :: t) ++ (s' ++ k :: t')) * at_ Rm [i'; k])%R)); [apply rsum_swap|].
  intros k Hk. replace ((p ++ (s ++ i :: t) ++ s') ++ k :: t') with ((p ++ s) ++ i :: (t ++ s' ++ k :: t')) by (assoc).
  rewrite V; [|now apply inside_app|exact Hi|repeat apply inside_app; try assumption; now constructor].
  rewrite <- rsum_scal. apply rsum_ext. intros j Hj. replace ((p ++ s) ++ j :: t ++ s' ++ k :: t') with (p ++ (s ++ j :: t) ++ s' ++ k :: t') by (assoc). ring.
Qed.

Theorem C68_axis_range : forall (mu Cov Rm : arr R) axis nd, (axis < - Z.of_nat nd \/ Z.of_nat nd <= axis)%Z ->
  rotate_mu mu Rm axis nd = Err ValueError /\ rotate_cov Cov Rm axis nd = Err ValueError.
Proof.
  intros mu Cov Rm axis nd H. unfold rotate_mu, rotate_cov, left_rotate, rotated_axis.
  destruct (Z.ltb_spec axis (- Z.of_nat nd)); [split; reflexivity|]. destruct (Z.leb_spec (Z.of_nat nd) axis); [split; reflexivity|lia].
Qed.

(** ** Transposing *)
Lemma ax_app_low : forall s t k, ax (s ++ t) k = if k <? length t then ax t k else ax s (k - length t).
Proof.
  intros s t k. unfold ax. rewrite rev_app_distr. destruct (Nat.ltb_spec k (length t)).
  - now rewrite app_nth1 by (rewrite rev_length; lia).
  - now rewrite app_nth2, rev_length by (rewrite rev_length; lia).
Qed.
Lemma pos_app_low : forall s t k, pos (s ++ t) k = if k <? length t then pos t k else pos s (k - length t).
Proof.
  intros s t k. unfold pos. rewrite rev_app_distr. destruct (Nat.ltb_spec k (length t)).
  - now rewrite app_nth1 by (rewrite rev_length; lia).
  - now rewrite app_nth2, rev_length by (rewrite rev_length; lia).
Qed.

Theorem C68_transpose : forall (Cov : arr R) P r c, ash Cov = P ++ r ++ c -> length r = length c ->
  exists y, transpose_cov Cov (length c) = Ok y /\ ash y = P ++ c ++ r /\
    forall p i j, inside P p -> inside r i -> inside c j -> at_ y (p ++ j ++ i) = at_ Cov (p ++ i ++ j).
Proof.
  intros Cov P r c HC HL. unfold transpose_cov, ndim. rewrite HC.
  destruct (Nat.ltb_spec (length (P ++ r ++ c)) (2 * length c)) as [H|H]; [rewrite !app_length in H; lia|].
  assert (S : map (fun k => ax (P ++ r ++ c) (swapped (length c) k)) (back_range (length (P ++ r ++ c))) = P ++ c ++ r).
  { apply ShapesLemmas.shape_ext; rewrite map_length, back_range_length; [rewrite !app_length; lia|]. intros k Hk. rewrite ax_map_back by exact Hk.
    unfold swapped. rewrite !ax_app_low, !app_length, HL.
    repeat match goal with |- context [?a <? ?b] => destruct (Nat.ltb_spec a b) end; try lia; f_equal; lia. }
  eexists. split; [reflexivity|]. split; [exact S|]. intros p i j Hp Hi Hj. rewrite S. rewrite at_arr by (repeat apply inside_app; assumption).
  unfold at_. fold (pos (p ++ i ++ j)). f_equal. apply functional_extensionality. intros k.
  apply inside_length in Hi as Li. apply inside_length in Hj as Lj. unfold swapped. rewrite !pos_app_low, !app_length, Li, Lj, HL.
  repeat match goal with |- context [?a <? ?b] => destruct (Nat.ltb_spec a b) end; try lia; f_equal; lia.
Qed.

(** ** Vectors and matrices *)
Lemma place_snoc : forall P p n m, length p = length P -> place (P ++ [n]) (p ++ [m]) = place P p * n + m.
Proof. intros P p n m H. rewrite place_app by exact H. cbn. lia. Qed.
Lemma place_snoc2 : forall P p n m k, length p = length P -> place (P ++ [n; n]) (p ++ [m; k]) = place P p * (n * n) + (m * n + k).
Proof. intros P p n m k H. rewrite place_app by exact H. cbn. lia. Qed.

Theorem C68_array_to_vector : forall (x : arr R) P d, ash x = P ++ d -> d <> [] ->
  exists y, array_to_vector x (length d) = Ok y /\ ash y = P ++ [count d] /\
    forall p i, inside P p -> inside d i -> at_ y (p ++ [place d i]) = at_ x (p ++ i).
Proof.
  intros x P d H N. unfold array_to_vector, ndim. rewrite H. destruct (Nat.eqb_spec (length d) 0) as [Z|Z]; [destruct d; [congruence|discriminate]|].
  rewrite app_length. destruct (Nat.eqb_spec (length P + length d) 0); [lia|].
  rewrite (proj1 (last_app P d)), (proj2 (last_app P d)), size_count.
  destruct (reshape_some _ x (P ++ [count d])) as (y & E & S).
  { rewrite H, !count_app. cbn. lia. }
  exists y. split; [exact E|]. split; [exact S|]. intros p i Hp Hi.
  apply (reshape_at _ x y (P ++ [count d])); [exact E|rewrite H; now apply inside_app| |].
  - apply inside_app; [exact Hp|]. constructor; [now apply place_lt|constructor].
  - apply inside_length in Hp. rewrite H, place_snoc, place_app by exact Hp. reflexivity.
Qed.

Theorem C68_array_to_matrix : forall (A : arr R) P d, ash A = P ++ d ++ d -> d <> [] ->
  exists y, array_to_matrix A (length d) = Ok y /\ ash y = P ++ [count d; count d] /\
    forall p i j, inside P p -> inside d i -> inside d j -> at_ y (p ++ [place d i; place d j]) = at_ A (p ++ i ++ j).
Proof.
  intros A P d H N. unfold array_to_matrix, ndim. rewrite H. destruct (Nat.eqb_spec (length d) 0) as [Z|Z]; [destruct d; [congruence|discriminate]|].
  rewrite !app_length. destruct (Nat.eqb_spec (length P + (length d + length d)) 0); [lia|].
  replace (2 * length d) with (length (d ++ d)) by (rewrite app_length; lia).
  rewrite (proj1 (last_app P (d ++ d))). rewrite app_assoc, (proj2 (last_app (P ++ d) d)), size_count.
  destruct (reshape_some _ A (P ++ [count d; count d])) as (y & E & S).
  { rewrite H, !count_app. cbn. lia. }
  exists y. split; [exact E|]. split; [exact S|]. intros p i j Hp Hi Hj.
  apply (reshape_at _ A y (P ++ [count d; count d])); [exact E|rewrite H; auto using inside_app| |].
  - apply inside_app; [exact Hp|]. constructor; [now apply place_lt|]. constructor; [now apply place_lt|constructor].
  - apply inside_length in Hp. apply inside_length in Hi. rewrite H, place_snoc2, !place_app, count_app by assumption. lia.
Qed.

Theorem C68_vector_to_array : forall (x : arr R) P d, ash x = P ++ [count d] ->
  exists y, vector_to_array x d = Ok y /\ ash y = P ++ d /\
    forall p i, inside P p -> inside d i -> at_ y (p ++ i) = at_ x (p ++ [place d i]).
Proof.
  intros x P d H. unfold vector_to_array. rewrite H. change 1 with (length [count d]). rewrite (proj1 (last_app P [count d])).
  destruct (reshape_some _ x (P ++ d)) as (y & E & S).
  { rewrite H, !count_app. cbn. lia. }
  exists y. split; [exact E|]. split; [exact S|]. intros p i Hp Hi.
  apply (reshape_at _ x y (P ++ d)); [exact E| |now apply inside_app|].
  - rewrite H. apply inside_app; [exact Hp|]. constructor; [now apply place_lt|constructor].
  - apply inside_length in Hp. rewrite H, place_snoc, place_app by exact Hp. reflexivity.
Qed.

Lemma lsum_permutation : forall l l', Permutation l l' -> lsum l = lsum l'.
Proof. induction 1 as [|x l l' _ IH|x y l|a b c _ A _ B]; [reflexivity|unfold lsum in *; cbn; now rewrite IH|unfold lsum; cbn; ring|congruence]. Qed.
Lemma rsum_as_lsum : forall n f, rsum n f = lsum (map f (seq 0 n)).
Proof.
  induction n as [|n IH]; intros f; [reflexivity|]. cbn [rsum]. rewrite IH, seq_S, map_app. cbn [map Nat.add].
  rewrite (lsum_permutation (map f (seq 0 n) ++ [f n]) (f n :: map f (seq 0 n))) by (symmetry; apply Permutation_cons_append).
  unfold lsum. cbn [fold_right]. ring.
Qed.
Lemma sum_places : forall d f, rsum (count d) f = lsum (map (fun j => f (place d j)) (lists d)).
Proof.
  intros d f. rewrite rsum_as_lsum. destruct (C65_nested_iterator d) as (I & ND & _ & <-). rewrite map_map.
  apply lsum_permutation, Permutation_map, NoDup_Permutation; [exact ND|apply NoDup_lists|]. intros t. rewrite I, in_lists. reflexivity.
Qed.

Lemma at_plates : forall (a : arr R) P Q v p, ash a = Q ++ v -> broadcasts_to Q P -> inside P p -> forall i, length i = length v ->
  at_ a (p ++ i) = at_ a (lclip Q p ++ i) /\ inside Q (lclip Q p).
Proof.
  intros a P Q v p H B I i L. split; [|now apply (lclip_within Q P)]. symmetry. apply (bget_low _ a Q v); [|exact L].
  rewrite H. apply broadcasts_to_refl.
Qed.

Theorem C68_matrix_dot_vector : forall (A x : arr R) P1 P2 P d, ash A = P1 ++ d ++ d -> ash x = P2 ++ d -> d <> [] ->
  numpy_broadcast [P1; P2] P ->
  exists y, matrix_dot_vector A x (Z.of_nat (length d)) = Ok y /\ ash y = P ++ d /\
    forall p i, inside P p -> inside d i ->
      at_ y (p ++ i) = lsum (map (fun j => at_ A (p ++ i ++ j) * at_ x (p ++ j)) (lists d))%R.
Proof.
  intros A x P1 P2 P d HA HX N B. unfold matrix_dot_vector. destruct (Z.ltb_spec (Z.of_nat (length d)) 0); [lia|]. rewrite Nat2Z.id.
  destruct (Nat.eqb_spec (length d) 0) as [Z|Z]; [destruct d; [congruence|discriminate]|]. rewrite HX, (proj2 (last_app P2 d)).
  destruct (C68_array_to_matrix A P1 d HA N) as (A' & -> & SA & VA). destruct (C68_array_to_vector x P2 d HX N) as (x' & -> & SX & VX). cbn [bind].
  destruct (ein_ok A' x' P1 P2 P (count d) (count d) [] SA SX B) as (y & E & S & V). cbn [length] in E. rewrite E. cbn [bind].
  destruct (C68_vector_to_array y P d S) as (z & Ez & Sz & Vz). exists z. split; [exact Ez|]. split; [exact Sz|]. intros p i Hp Hi.
  rewrite Vz by assumption. rewrite V; [|exact Hp|now apply place_lt|constructor]. rewrite sum_places. f_equal. apply map_ext_in. intros j Hj.
  apply in_lists in Hj. assert (Lj : length j = length d) by now apply inside_length. assert (Li : length i = length d) by now apply inside_length.
  assert (B1 : broadcasts_to P1 P) by (apply (broadcast_upper _ _ _ B); now left).
  assert (B2 : broadcasts_to P2 P) by (apply (broadcast_upper _ _ _ B); right; now left).
  f_equal.
  - destruct (at_plates A' P P1 [count d; count d] p SA B1 Hp [place d i; place d j] eq_refl) as [-> I1].
    destruct (at_plates A P P1 (d ++ d) p HA B1 Hp (i ++ j)) as [-> _]; [rewrite !app_length; lia|]. now apply VA.
  - destruct (at_plates x' P P2 [count d] p SX B2 Hp [place d j] eq_refl) as [-> I1].
    destruct (at_plates x P P2 d p HX B2 Hp j Lj) as [-> _]. now apply VX.
Qed.

Theorem C68_matrix_dot_scalar : forall (A x : arr R) P, numpy_broadcast [ash A; ash x] P ->
  exists y, matrix_dot_vector A x 0 = Ok y /\ ash y = P /\ forall p, inside P p -> at_ y p = (at_ A p * at_ x p)%R.
Proof.
  intros A x P B. unfold matrix_dot_vector. cbn. unfold np_multiply, np_map2. rewrite np_bshape_eq, (proj2 (broadcasted_shape_ok _ _) B).
  cbn [bind]. eexists. split; [reflexivity|]. split; [reflexivity|]. intros p Hp. now rewrite at_arr.
Qed.
Theorem C68_matrix_dot_negative : forall (A x : arr R) nd, (nd < 0)%Z -> matrix_dot_vector A x nd = Err ValueError.
Proof. intros A x nd H. unfold matrix_dot_vector. apply Z.ltb_lt in H. now rewrite H. Qed.

(** ** Rotating plates *)
Lemma lsum_scaled : forall A c (f : A -> R) l, (c * lsum (map f l) = lsum (map (fun x => c * f x) l))%R.
Proof. intros A c f. induction l as [|x l IH]; unfold lsum in *; cbn; [ring|]. rewrite <- IH. ring. Qed.
Lemma upper_broadcast : forall a b, broadcasts_to a b -> numpy_broadcast [a; b] b.
Proof.
  intros a b [L H]. split; [|split].
  - intros s [<- | [<- | []]]; lia.
  - right. exists b. split; [right; now left|reflexivity].
  - intros k. split; [intros s [<- | [<- | []]]; [apply H|now right]|]. right. exists b. split; [right; now left|reflexivity].
Qed.

Lemma column_sum_at : forall (Q : arr R) a b j, ash Q = [a; b] -> j < b -> at_ (column_sums Q) [j] = rsum a (fun i => at_ Q [i; j]).
Proof.
  intros Q a b j H Hj. unfold column_sums. rewrite H. rewrite at_arr by (constructor; [exact Hj|constructor]).
  apply rsum_ext. intros i Hi. unfold at_. f_equal. apply functional_extensionality. intros [|[|[|k]]]; reflexivity.
Qed.

Theorem C68_rotate_plates : forall (u0 phi1 Q : arr R) P S d n axis,
  ash Q = [n; n] -> ash u0 = P ++ n :: S ++ d -> ash phi1 = P ++ n :: S ++ d ++ d ->
  axis = Z.of_nat (length P) \/ axis = (- Z.of_nat (Datatypes.S (length S)))%Z ->
  exists phi0' phi1', rotate_plates u0 phi1 Q (length P + Datatypes.S (length S)) (length d) axis = Ok (phi0', phi1') /\
    ash phi0' = P ++ n :: S ++ d /\ ash phi1' = P ++ n :: S ++ d ++ d /\
    forall p m s, inside P p -> m < n -> inside S s ->
      (forall i j, inside d i -> inside d j ->
         at_ phi1' (p ++ m :: s ++ i ++ j) = at_ phi1 (p ++ m :: s ++ i ++ j) / (rsum n (fun k => at_ Q [k; m])) ^ 2)%R /\
      (forall i, inside d i ->
         at_ phi0' (p ++ m :: s ++ i) = lsum (map (fun j => -2 * at_ phi1' (p ++ m :: s ++ i ++ j)
            * rsum n (fun k => at_ Q [m; k] * at_ u0 (p ++ k :: s ++ j))) (lists d)))%R.
Proof.
  intros u0 phi1 Q P S d n axis HQ HU HF HA. unfold rotate_plates.
  set (ax' := (if (0 <=? axis)%Z then (axis - Z.of_nat (length P + Datatypes.S (length S)))%Z else axis)).
  assert (EA : ax' = (- Z.of_nat (Datatypes.S (length S)))%Z) by (unfold ax'; destruct (Z.leb_spec 0 axis); lia). rewrite EA.
  destruct (Z.ltb_spec (- Z.of_nat (Datatypes.S (length S))) (- Z.of_nat (length P + Datatypes.S (length S)))); [lia|].
  destruct (Z.leb_spec 0 (- Z.of_nat (Datatypes.S (length S)))); [lia|]. cbn [orb].
  rewrite Z.opp_involutive, Nat2Z.id. clear ax' EA.
  destruct (C68_rotate_mean u0 Q P [] (S ++ d) n n 0%Z HQ HU (or_introl eq_refl)) as (u & EU & SU & VU).
  cbn [length Nat.add app] in EU, SU, VU. rewrite app_length in EU.
  replace (length d + Datatypes.S (length S)) with (Datatypes.S (length S + length d)) by lia. rewrite EU. cbn [bind].
  set (t := 2 * length d + Datatypes.S (length S) - 1).
  destruct (add_trailing_ok _ (column_sums Q) t) as (T1 & T2 & T3).
  set (sq := np_map (fun v => / (v * v))%R (add_trailing_axes (column_sums Q) t)).
  assert (Lt : length (S ++ d ++ d) = t) by (rewrite !app_length; unfold t; lia).
  assert (B : broadcasts_to (ash sq) (ash phi1)).
  { split; [change (ndim (add_trailing_axes (column_sums Q) t) <= length (ash phi1)); rewrite T1, HF, app_length; cbn [length]; rewrite Lt; cbn; lia|].
    intros k. change (ash sq) with (ash (add_trailing_axes (column_sums Q) t)). rewrite T2, HF, ax_mid, Lt.
    destruct (Nat.ltb_spec k t); [now left|]. unfold column_sums. cbn [ash]. rewrite HQ.
    destruct (Nat.eqb_spec k t) as [-> | N]; [right; rewrite Nat.sub_diag; reflexivity|left]. unfold ax at 1. apply nth_overflow. cbn. lia. }
  unfold np_multiply at 1. apply upper_broadcast in B. destruct (np_map2_total _ _ _ Rmult sq phi1 (ash phi1)) as (f & EF & SF); [now apply broadcasted_shape_ok|].
  rewrite EF. cbn [bind]. destruct (np_map2_ok _ _ _ _ _ _ _ EF) as [_ VF]. rewrite HF in SF.
  assert (VF' : forall p m s v, m < n -> length s + length v = t -> (at_ f (p ++ m :: s ++ v) = at_ phi1 (p ++ m :: s ++ v) / (rsum n (fun k => at_ Q [k; m])) ^ 2)%R).
  { intros p m s v Hm Lv. unfold at_ at 1. rewrite VF. unfold sq. rewrite bget_map, T3.
    replace (bget (column_sums Q) (fun j => nth (j + t) (rev (p ++ m :: s ++ v)) 0)) with (at_ (column_sums Q) [m]).
    - rewrite (column_sum_at Q n n m HQ Hm). unfold at_. unfold Rdiv. cbn [pow]. rewrite Rmult_1_r. ring.
    - unfold at_. apply bget_ext. intros k Hk _. unfold column_sums in Hk. cbn in Hk. assert (k = 0) as -> by lia. cbn [Nat.add].
      change (nth t (rev (p ++ m :: s ++ v)) 0) with (pos (p ++ m :: s ++ v) t). rewrite pos_mid, app_length, Lv, Nat.ltb_irrefl, Nat.eqb_refl. reflexivity. }
  assert (MD : exists y, matrix_dot_vector f u (Z.of_nat (length d)) = Ok y /\ ash y = P ++ n :: S ++ d /\
     forall p m s i, inside P p -> m < n -> inside S s -> inside d i ->
       at_ y (p ++ m :: s ++ i) = lsum (map (fun j => at_ f (p ++ m :: s ++ i ++ j) * at_ u (p ++ m :: s ++ j)) (lists d))%R).
  { destruct d as [|d0 d'].
    - rewrite ?app_nil_r in *. cbn [app] in *. destruct (C68_matrix_dot_scalar f u (P ++ n :: S)) as (y & E & Sy & V).
      { rewrite SF, SU, ?app_nil_r. apply upper_broadcast, broadcasts_to_refl. }
      exists y. split; [exact E|]. split; [exact Sy|]. intros p m s i Hp Hm Hs Hi. inversion Hi; subst. cbn [lists map].
      rewrite ?app_nil_r. rewrite V by (apply inside_app; [exact Hp|now constructor]). unfold lsum. cbn. ring.
    - set (d := d0 :: d') in *. destruct (C68_matrix_dot_vector f u (P ++ n :: S) (P ++ n :: S) (P ++ n :: S) d) as (y & E & Sy & V).
      + rewrite SF. assoc.
      + rewrite SU. assoc.
      + discriminate.
      + apply upper_broadcast, broadcasts_to_refl.
      + exists y. split; [exact E|]. split; [rewrite Sy; assoc|]. intros p m s i Hp Hm Hs Hi.
        replace (p ++ m :: s ++ i) with ((p ++ m :: s) ++ i) by (assoc). rewrite V; [|apply inside_app; [exact Hp|now constructor]|exact Hi].
        f_equal. apply map_ext. intros j. replace ((p ++ m :: s) ++ i ++ j) with (p ++ m :: s ++ i ++ j) by (assoc).
        replace ((p ++ m :: s) ++ j) with (p ++ m :: s ++ j) by (assoc). reflexivity. }
  destruct MD as (y & EY & SY & VY). rewrite EY. cbn [bind]. eexists _, f. split; [reflexivity|]. split; [exact SY|]. split; [exact SF|].
  intros p m s Hp Hm Hs. apply inside_length in Hs as Ls. split.
  - intros i j Hi Hj. apply inside_length in Hi, Hj. apply VF'; [exact Hm|]. rewrite app_length. unfold t. lia.
  - intros i Hi. unfold at_ at 1. rewrite bget_map. fold (at_ y (p ++ m :: s ++ i)). rewrite VY by assumption.
    rewrite lsum_scaled. f_equal. apply map_ext_in. intros j Hj. apply in_lists in Hj.
    rewrite Rmult_assoc. f_equal. f_equal. apply (VU p [] m (s ++ j)); [exact Hp|constructor|exact Hm|now apply inside_app].
Qed.

(** The mean of the distribution with the new parameters is exactly the rotated mean: a mean is a
    solution of (-2 phi1) m = phi0, and where there is only one solution it is the rotated mean. *)
Theorem C68_rotated_plates_mean : forall (u0 phi1 Q : arr R) P S d n axis phi0' phi1' (mean : list nat -> list nat -> R),
  ash Q = [n; n] -> ash u0 = P ++ n :: S ++ d -> ash phi1 = P ++ n :: S ++ d ++ d ->
  axis = Z.of_nat (length P) \/ axis = (- Z.of_nat (Datatypes.S (length S)))%Z ->
  rotate_plates u0 phi1 Q (length P + Datatypes.S (length S)) (length d) axis = Ok (phi0', phi1') ->
  forall p m s, inside P p -> m < n -> inside S s ->
  (** the precision of this plate is not singular *)
  (forall f g : list nat -> R,
     (forall i, inside d i -> lsum (map (fun j => -2 * at_ phi1' (p ++ m :: s ++ i ++ j) * f j) (lists d)) =
                              lsum (map (fun j => -2 * at_ phi1' (p ++ m :: s ++ i ++ j) * g j) (lists d)))%R ->
     forall i, inside d i -> f i = g i) ->
  (** [mean] is the mean with the new parameters *)
  (forall i, inside d i -> lsum (map (fun j => -2 * at_ phi1' (p ++ m :: s ++ i ++ j) * mean (p ++ m :: s) j) (lists d)) =
                           at_ phi0' (p ++ m :: s ++ i))%R ->
  forall i, inside d i -> mean (p ++ m :: s) i = rsum n (fun k => at_ Q [m; k] * at_ u0 (p ++ k :: s ++ i))%R.
Proof.
  intros u0 phi1 Q P S d n axis phi0' phi1' mean HQ HU HF HA E p m s Hp Hm Hs NS HM.
  destruct (C68_rotate_plates u0 phi1 Q P S d n axis HQ HU HF HA) as (a & b & E' & _ & _ & V).
  rewrite E' in E. injection E as -> ->. destruct (V p m s Hp Hm Hs) as [_ V0].
  apply NS. intros i Hi. rewrite HM by exact Hi. now apply V0.
Qed.
Theorem C68_plate_axis_range : forall (u0 phi1 Q : arr R) plates nd axis, (axis < - Z.of_nat plates \/ Z.of_nat plates <= axis)%Z ->
  rotate_plates u0 phi1 Q plates nd axis = Err ValueError.
Proof.
  intros u0 phi1 Q plates nd axis H. unfold rotate_plates. destruct (Z.leb_spec 0 axis) as [A|A].
  - destruct (Z.ltb_spec (axis - Z.of_nat plates) (- Z.of_nat plates)); [reflexivity|]. destruct (Z.leb_spec 0 (axis - Z.of_nat plates)); [reflexivity|lia].
  - destruct (Z.ltb_spec axis (- Z.of_nat plates)); [reflexivity|lia].
Qed.

(** A 2x3 variable on two plates. *)
Definition ramp (s : shape) : arr R := Arr s (fun e => INR (e 0 + 2 * e 1 + 5 * e 2)).
Definition shear : arr R := Arr [2; 2] (fun e => if e 0 =? 0 then 1%R else if e 1 =? 1 then 3%R else 2%R).

Example C68_case : (exists y, rotate_mu (ramp [2; 2; 3]) shear 0 2 = Ok y /\ at_ y [1; 0; 2] = 25%R) /\
  (exists y, rotate_cov (ramp [2; 2]) shear (-1) 1 = Ok y /\ at_ y [1; 0] = 26%R) /\
  (exists y, transpose_cov (ramp [4; 2; 3; 2; 3]) 2 = Ok y /\ ash y = [4; 2; 3; 2; 3]) /\
  (exists y, matrix_dot_vector (ramp [2; 3; 2; 3]) (ramp [5; 2; 3]) 2 = Ok y /\ ash y = [5; 2; 3]) /\
  (exists a b, rotate_plates (ramp [2; 3]) (ramp [2; 3; 3]) shear 1 1 0 = Ok (a, b) /\ at_ b [1; 2; 0] = (9 / 25)%R).
Proof.
  assert (V : forall s ix, inside s ix -> at_ (ramp s) ix = INR (pos ix 0 + 2 * pos ix 1 + 5 * pos ix 2)) by (intros; unfold ramp; now rewrite at_arr).
  assert (W : forall i j, i < 2 -> j < 2 -> at_ shear [i; j] = if j =? 0 then 1%R else if i =? 1 then 3%R else 2%R).
  { intros i j Hi Hj. unfold shear. rewrite at_arr by (constructor; [exact Hi|constructor; [exact Hj|constructor]]). reflexivity. }
  split; [|split; [|split; [|split]]].
  - destruct (C68_rotate_mean (ramp [2; 2; 3]) shear [2] [] [3] 2 2 0 eq_refl eq_refl (or_introl eq_refl)) as (y & E & _ & H).
    exists y. split; [exact E|]. specialize (H [1] [] 0 [2]). cbn [app] in H. rewrite H by (repeat constructor). cbn [rsum].
    rewrite !W, !V by (repeat constructor). cbn. lra.
  - destruct (C68_rotate_covariance (ramp [2; 2]) shear [] [] [] 2 2 (-1) eq_refl eq_refl (or_intror eq_refl)) as (y & E & _ & H).
    exists y. split; [exact E|]. specialize (H [] [] 1 [] [] 0 []). cbn [app] in H. rewrite H by (repeat constructor). cbn [rsum].
    rewrite !W, !V by (repeat constructor). cbn. lra.
  - destruct (C68_transpose (ramp [4; 2; 3; 2; 3]) [4] [2; 3] [2; 3] eq_refl eq_refl) as (y & E & S & _). now exists y.
  - destruct (C68_matrix_dot_vector (ramp [2; 3; 2; 3]) (ramp [5; 2; 3]) [] [5] [5] [2; 3] eq_refl eq_refl) as (y & E & S & _); [discriminate|apply nil_broadcast|].
    change (Z.of_nat (length [2; 3])) with 2%Z in E. exists y. split; [exact E|exact S].
  - destruct (C68_rotate_plates (ramp [2; 3]) (ramp [2; 3; 3]) shear [] [] [3] 2 0 eq_refl eq_refl eq_refl (or_introl eq_refl)) as (a & b & E & _ & _ & H).
    exists a, b. split; [exact E|]. destruct (H [] 1 []) as [H1 _]; [constructor|lia|constructor|].
    specialize (H1 [2] [0]). cbn [app] in H1. rewrite H1 by (repeat constructor). cbn [rsum]. rewrite !W, V by (repeat constructor). cbn. field_simplify. lra.
Qed.

Print Assumptions C68_rotate_mean.
Print Assumptions C68_rotate_covariance.
Print Assumptions C68_axis_range.
Print Assumptions C68_transpose.
Print Assumptions C68_array_to_vector.
Print Assumptions C68_array_to_matrix.
Print Assumptions C68_vector_to_array.
Print Assumptions C68_matrix_dot_vector.
Print Assumptions C68_matrix_dot_scalar.
Print Assumptions C68_matrix_dot_negative.
Print Assumptions C68_rotate_plates.
Print Assumptions C68_rotated_plates_mean.
Print Assumptions C68_plate_axis_range.
