(** sum_multiply_to_plates equals the fully expanded sum. *)
From Coq Require Import List Arith ZArith Lia Bool Reals Lra Permutation FunctionalExtensionality Sorted.
From Verif Require Import Base Shapes SpecShapes ShapesLemmas NumPy MiscArray TensorLemmas
  EinsumLemmas SpecArray SumMultiplyLemmas.
Import ListNotations.
Open Scope nat_scope.

(** ** The specification as an iterated sum *)
Definition trunc (n : nat) (t : env) : env := fun k => if k <? n then t k else 0.

Lemma trunc_0 : forall t, trunc 0 t = env0.
Proof. intros; apply functional_extensionality; intros k; reflexivity. Qed.

Lemma trunc_S : forall n t, trunc (S n) t = upd (trunc n t) n (t n).
Proof.
  intros n t; apply functional_extensionality; intros k; unfold trunc, upd.
  destruct (Nat.eqb_spec k n) as [->|Hne].
  - destruct (Nat.ltb_spec n (S n)); [reflexivity|lia].
  - destruct (Nat.ltb_spec k n), (Nat.ltb_spec k (S n)); try reflexivity; lia.
Qed.

Lemma itersum_upd : forall l F n v e, ~ In n (map fst l) ->
  itersum l (fun e => F (upd e n v)) e = itersum l F (upd e n v).
Proof.
  induction l as [|[k m] l IH]; intros F n v e H; [reflexivity|].
  rewrite !itersum_cons. unfold sumax. apply rsum_ext. intros x _.
  simpl in H. rewrite IH by tauto. rewrite upd_comm by tauto. reflexivity.
Qed.

Lemma lsum_flat_map : forall A (f : A -> list R) l, lsum (flat_map f l) = lsum (map (fun a => lsum (f a)) l).
Proof.
  intros A f l. induction l as [|a l IH]; [reflexivity|]. simpl. rewrite lsum_app, IH. reflexivity.
Qed.

Lemma map_filter_flat : forall A B (F : A -> B) (p : A -> bool) l,
  map F (filter p l) = flat_map (fun a => if p a then [F a] else []) l.
Proof.
  intros A B F p l. induction l as [|a l IH]; [reflexivity|]. simpl. destruct (p a); simpl; now rewrite IH.
Qed.

Lemma lsum_nils : forall A (g : A -> R) l, (forall x, g x = 0%R) -> lsum (map g l) = 0%R.
Proof.
  intros A g l H. induction l as [|a l IH]; [reflexivity|]. cbn [map]. unfold lsum in *. cbn [fold_right].
  rewrite H, IH. ring.
Qed.

Definition unit_axes (from to : shape) (n : nat) : list (nat * nat) :=
  map (fun k => (k, ax from k)) (filter (fun k => ax to k =? 1) (seq 0 n)).

Lemma fibre_partial : forall from to t, broadcasts_to to from -> valid to t ->
  forall n F,
  lsum (map F (filter (fun i => maps_to n to i t) (all_idx from n))) =
  itersum (unit_axes from to n) F (trunc n t).
Proof.
  intros from to t Hb Hv. induction n as [|n IH]; intros F.
  - simpl. rewrite trunc_0. unfold unit_axes. simpl. unfold lsum. simpl. ring.
  - rewrite map_filter_flat. cbn [all_idx].
    set (G := fun e => lsum (map (fun x => if clip to (upd e n x) n =? t n then F (upd e n x) else 0%R)
                               (seq 0 (ax from n)))).
    transitivity (lsum (map G (filter (fun i => maps_to n to i t) (all_idx from n)))).
    + clear IH. rewrite map_filter_flat. rewrite !lsum_flat_map.
      induction (all_idx from n) as [|e l IHl]; [reflexivity|].
      cbn [flat_map]. rewrite map_app, lsum_app, IHl. cbn [map].
      change (lsum (?a :: ?b)) with (a + lsum b)%R. f_equal.
      rewrite map_map.
      assert (Hm : forall x, maps_to (S n) to (upd e n x) t =
                    maps_to n to e t && (clip to (upd e n x) n =? t n)).
      { intros x. unfold maps_to. rewrite seq_S, forallb_app. simpl. rewrite andb_true_r. f_equal.
        assert (Hx : forall k, In k (seq 0 n) -> (clip to (upd e n x) k =? t k) = (clip to e k =? t k)).
        { intros k Hk. apply in_seq in Hk. unfold clip. rewrite upd_other by lia. reflexivity. }
        clear -Hx. induction (seq 0 n) as [|a l IH]; [reflexivity|]. simpl.
        rewrite Hx by (simpl; auto). rewrite IH; [reflexivity|]. intros; apply Hx; simpl; auto. }
      destruct (maps_to n to e t) eqn:E.
      * unfold G. unfold lsum at 3. cbn [fold_right]. rewrite Rplus_0_r. f_equal.
        apply map_ext. intros x. rewrite Hm. cbn [andb].
        destruct (clip to (upd e n x) n =? t n); unfold lsum; simpl; ring.
      * change (lsum []) with 0%R. apply lsum_nils. intros x. rewrite Hm. reflexivity.
    + rewrite IH. clear IH.
      destruct Hb as [_ K]. specialize (K n). specialize (Hv n).
      unfold unit_axes. rewrite seq_S, filter_app. cbn [filter plus].
      destruct (Nat.eqb_spec (ax to n) 1) as [E|E].
      * rewrite map_app, itersum_app. cbn [map].
        replace (trunc (S n) t) with (trunc n t).
        2:{ rewrite trunc_S. replace (t n) with 0 by lia.
            apply functional_extensionality; intros k. unfold trunc, upd.
            destruct (Nat.eqb_spec k n) as [->|Hne]; [|reflexivity].
            destruct (Nat.ltb_spec n n); [lia|reflexivity]. }
        apply itersum_ext_all. intros e. unfold G. cbn [itersum fold_right fst snd].
        unfold sumax. rewrite <- lsum_map_seq. f_equal. apply map_ext. intros x.
        unfold clip. rewrite E. replace (t n) with 0 by lia. reflexivity.
      * rewrite app_nil_r. rewrite trunc_S.
        rewrite <- itersum_upd.
        2:{ rewrite map_map. cbn [fst]. rewrite map_id. rewrite filter_In, in_seq. lia. }
        apply itersum_ext_all. intros e. unfold G. rewrite lsum_map_seq.
        rewrite (rsum_ext _ _ (fun x => if x =? t n then F (upd e n x) else 0%R)).
        -- apply (rsum_single _ _ (fun x => F (upd e n x))). lia.
        -- intros x Hx. unfold clip. destruct (Nat.eqb_spec (ax to n) 1); [lia|].
           now rewrite upd_same.
Qed.

Lemma trunc_valid : forall s n t, valid s t -> length s <= n -> trunc n t = t.
Proof.
  intros s n t H Hn. apply functional_extensionality. intros k. unfold trunc.
  destruct (Nat.ltb_spec k n); [reflexivity|]. specialize (H k). rewrite ax_overflow in H; lia.
Qed.

Lemma fibre_iter : forall from to t F, broadcasts_to to from -> valid to t ->
  fibre_sum from to t F = itersum (unit_axes from to (length from)) F t.
Proof.
  intros from to t F Hb Hv. unfold fibre_sum, all_indices.
  rewrite fibre_partial by assumption. f_equal.
  apply trunc_valid with to; [assumption|]. apply Hb.
Qed.

Lemma all_idx_valid : forall s n e, In e (all_idx s n) ->
  forall k, (k < n -> e k < ax s k) /\ (n <= k -> e k = 0).
Proof.
  intros s. induction n as [|n IH]; intros e H k; simpl in H.
  - destruct H as [<-|[]]. unfold env0. split; lia.
  - apply in_flat_map in H as [e' [He' H]]. apply in_map_iff in H as [x [<- Hx]]. apply in_seq in Hx.
    specialize (IH e' He' k). unfold upd. destruct (Nat.eqb_spec k n) as [->|Hne]; split; intros; try lia.
Qed.

Lemma all_indices_valid : forall s e, In e (all_indices s) -> valid s e.
Proof.
  intros s e H k. destruct (all_idx_valid _ _ _ H k) as [H1 H2].
  destruct (Nat.lt_ge_cases k (length s)) as [Hk|Hk]; [auto|].
  rewrite H2 by assumption. rewrite ax_overflow by assumption. lia.
Qed.

Lemma all_idx_complete : forall s n e, (forall k, k < n -> e k < ax s k) -> (forall k, n <= k -> e k = 0) ->
  In e (all_idx s n).
Proof.
  intros s. induction n as [|n IH]; intros e H1 H2; simpl.
  - left. apply functional_extensionality. intros k. symmetry. apply H2. lia.
  - apply in_flat_map. exists (upd e n 0). split.
    + apply IH; intros k Hk; unfold upd; destruct (Nat.eqb_spec k n); try lia.
      * apply H1; lia.
      * apply H2; lia.
    + apply in_map_iff. exists (e n). split.
      * rewrite upd_twice. apply upd_id.
      * apply in_seq. specialize (H1 n). lia.
Qed.

Lemma all_indices_complete : forall s e, valid s e -> In e (all_indices s).
Proof.
  intros s e H. apply all_idx_complete.
  - intros; apply H.
  - intros k Hk. specialize (H k). rewrite ax_overflow in H; lia.
Qed.

Lemma broadcasts_to_nil : forall s, broadcasts_to [] s.
Proof. intros s. split; [simpl; lia|]. intros k. left. apply ax_nil. Qed.

Lemma total_fibre : forall s F, total s F = fibre_sum s [] env0 F.
Proof.
  intros s F. unfold total, fibre_sum. f_equal. f_equal.
  assert (H : forall i, maps_to (length s) [] i env0 = true).
  { intros i. unfold maps_to. apply forallb_forall. intros k _. unfold clip. rewrite ax_nil. reflexivity. }
  induction (all_indices s) as [|e l IH]; [reflexivity|]. simpl. rewrite H. now f_equal.
Qed.

Lemma total_iter : forall s F,
  total s F = itersum (map (fun k => (k, ax s k)) (seq 0 (length s))) F env0.
Proof.
  intros s F. rewrite total_fibre, fibre_iter.
  - unfold unit_axes. f_equal. f_equal.
    induction (seq 0 (length s)) as [|k l IH]; [reflexivity|]. simpl. rewrite ax_nil. simpl. now f_equal.
  - apply broadcasts_to_nil.
  - intros k. rewrite ax_nil. unfold env0. lia.
Qed.

(** ** Reading through arr_eq *)
Lemma arr_eq_bget : forall A (y z : arr A) e, arr_eq y z ->
  (forall k, ax (ash y) k <> 1 -> e k < ax (ash y) k) -> bget y e = bget z e.
Proof.
  intros A y z e [Hs Hv] He.
  rewrite <- (bget_clip _ y e), <- (bget_clip _ z e). rewrite <- Hs.
  apply Hv. intros k. unfold clip. destruct (Nat.eqb_spec (ax (ash y) k) 1); [lia|]. now apply He.
Qed.

(** ** get_plates, axes_to_collapse, squeeze_to_dim *)
Lemma ax_app : forall s t k, ax (s ++ t) k = if k <? length t then ax t k else ax s (k - length t).
Proof.
  intros s t k. unfold ax. rewrite rev_app_distr.
  destruct (Nat.ltb_spec k (length t)) as [H|H].
  - apply app_nth1. now rewrite rev_length.
  - rewrite app_nth2; rewrite rev_length; [reflexivity|assumption].
Qed.

Lemma ax_get_plates : forall nd s k, ax (get_plates nd s) k = ax s (k + nd).
Proof.
  intros nd s k. unfold get_plates.
  destruct (Nat.le_gt_cases (length s) nd) as [H|H].
  - replace (length s - nd) with 0 by lia. simpl. rewrite ax_nil. symmetry. apply ax_overflow. lia.
  - replace (ax s (k + nd)) with (ax (firstn (length s - nd) s ++ skipn (length s - nd) s) (k + nd))
      by (now rewrite firstn_skipn).
    rewrite ax_app.
    rewrite skipn_length. destruct (Nat.ltb_spec (k + nd) (length s - (length s - nd))); [lia|].
    f_equal. lia.
Qed.

Lemma length_get_plates : forall nd s, length (get_plates nd s) = length s - nd.
Proof. intros nd s. unfold get_plates. apply firstn_length_le. lia. Qed.

Definition collapse_list (x t : shape) : list nat :=
  filter (fun k => negb (ax x k =? 1) && (ax t k =? 1)) (back_range (length x)).

Lemma axes_to_collapse_ok : forall x t l,
  axes_to_collapse x t = Ok l <->
  l = collapse_list x t /\ (forall k, ax x k = 1 \/ ax t k = 1 \/ ax t k = ax x k).
Proof.
  intros x t l. unfold axes_to_collapse, collapse_list.
  set (step := fun (s : list nat) k => match back x k with
     | Some x0 => if x0 =? 1 then Ok s else match back t k with
          | Some t0 => if t0 =? 1 then Ok (s ++ [k]) else if negb (t0 =? x0) then Err PyException else Ok s
          | None => Ok (s ++ [k]) end
     | None => Ok s end).
  assert (Hstep : forall s k, k < length x -> step s k =
      if ax x k =? 1 then Ok s else if ax t k =? 1 then Ok (s ++ [k])
      else if ax t k =? ax x k then Ok s else Err PyException).
  { intros s k Hk. unfold step. rewrite back_lt by assumption.
    destruct (ax x k =? 1); [reflexivity|].
    pose proof (back_ax t k) as Ht. destruct (back t k) as [t0|]; rewrite <- Ht; [|reflexivity].
    destruct (t0 =? 1); [reflexivity|]. now destruct (t0 =? ax x k). }
  assert (G : forall ks acc, (forall k, In k ks -> k < length x) ->
     (foldM step acc ks = Ok l <->
      l = acc ++ filter (fun k => negb (ax x k =? 1) && (ax t k =? 1)) ks /\
      forall k, In k ks -> ax x k = 1 \/ ax t k = 1 \/ ax t k = ax x k)).
  { induction ks as [|k ks IH]; intros acc Hks; cbn [foldM filter].
    - rewrite app_nil_r. split; [intros H; injection H as ->; split; [reflexivity|intros k []]|].
      intros [-> _]. reflexivity.
    - rewrite Hstep by (apply Hks; simpl; auto).
      assert (Hks' : forall k, In k ks -> k < length x) by (intros; apply Hks; simpl; auto).
      destruct (Nat.eqb_spec (ax x k) 1) as [E|E]; cbn [bind negb andb].
      + rewrite IH by assumption. split; intros [H1 H2]; (split; [assumption|]).
        * intros j [<-|Hj]; auto.
        * intros j Hj. apply H2; simpl; auto.
      + destruct (Nat.eqb_spec (ax t k) 1) as [E1|E1]; cbn [bind andb].
        * rewrite IH by assumption. rewrite <- app_assoc. cbn [app].
          split; intros [H1 H2]; (split; [assumption|]).
          -- intros j [<-|Hj]; auto.
          -- intros j Hj. apply H2; simpl; auto.
        * destruct (Nat.eqb_spec (ax t k) (ax x k)) as [E2|E2]; cbn [bind].
          -- rewrite IH by assumption. split; intros [H1 H2]; (split; [assumption|]).
             ++ intros j [<-|Hj]; auto.
             ++ intros j Hj. apply H2; simpl; auto.
          -- split; [discriminate|]. intros [_ H2]. exfalso.
             specialize (H2 k (or_introl eq_refl)). tauto. }
  rewrite G by (intros k Hk; now apply in_back_range). cbn [app].
  split; intros [H1 H2]; (split; [assumption|]).
  - intros k. destruct (Nat.lt_ge_cases k (length x)) as [Hk|Hk].
    + apply H2. now apply in_back_range.
    + left. now apply ax_overflow.
  - intros k _. apply H2.
Qed.

Lemma collapse_list_in : forall x t k,
  In k (collapse_list x t) <-> ax x k <> 1 /\ ax t k = 1.
Proof.
  intros x t k. unfold collapse_list. rewrite filter_In, in_back_range, andb_true_iff, negb_true_iff.
  rewrite Nat.eqb_neq, Nat.eqb_eq. split; [tauto|]. intros [H1 H2]. split; [|auto].
  destruct (Nat.lt_ge_cases k (length x)); [assumption|]. exfalso. apply H1. now apply ax_overflow.
Qed.

Lemma filter_true : forall A (p : A -> bool) l, (forall x, In x l -> p x = true) -> filter p l = l.
Proof.
  intros A p l H. induction l as [|a l IH]; [reflexivity|]. simpl. rewrite H by (simpl; auto).
  f_equal. apply IH. intros; apply H; simpl; auto.
Qed.

Lemma filter_false : forall A (p : A -> bool) l, (forall x, In x l -> p x = false) -> filter p l = [].
Proof.
  intros A p l H. induction l as [|a l IH]; [reflexivity|]. simpl. rewrite H by (simpl; auto).
  apply IH. intros; apply H; simpl; auto.
Qed.

Lemma drop_axes_lead : forall A (x : arr A) dim,
  (forall k, dim <= k -> ax (ash x) k = 1) ->
  let z := drop_axes x (seq dim (ndim x - dim)) in
  length (ash z) = Nat.min dim (ndim x) /\
  (forall k, ax (ash z) k = ax (ash x) k) /\ (forall e, bget z e = bget x e).
Proof.
  intros A x dim H z.
  assert (Hk : kept_axes (ndim x) (seq dim (ndim x - dim)) = seq 0 (Nat.min dim (ndim x))).
  { unfold kept_axes.
    destruct (Nat.le_gt_cases (ndim x) dim) as [Hle|Hgt].
    - replace (ndim x - dim) with 0 by lia. rewrite Nat.min_r by assumption. simpl.
      induction (seq 0 (ndim x)) as [|a l IH]; [reflexivity|]. simpl. now f_equal.
    - rewrite Nat.min_l by lia.
      replace (seq 0 (ndim x)) with (seq 0 (dim + (ndim x - dim))) by (f_equal; lia).
      rewrite seq_app, filter_app. simpl.
      assert (E1 : filter (fun k => negb (memb k (seq dim (ndim x - dim)))) (seq 0 dim) = seq 0 dim).
      { apply filter_true. intros k Hk. apply in_seq in Hk. apply negb_true_iff. apply memb_false.
        rewrite in_seq. lia. }
      assert (E2 : filter (fun k => negb (memb k (seq dim (ndim x - dim)))) (seq dim (ndim x - dim)) = []).
      { apply filter_false. intros k Hk. apply negb_false_iff. now apply memb_In. }
      rewrite E1, E2. apply app_nil_r. }
  assert (Hax : forall k, ax (ash z) k = ax (ash x) k).
  { intros k. unfold z, drop_axes. cbn [ash]. rewrite Hk, ax_mkshape, seq_length.
    destruct (Nat.ltb_spec k (Nat.min dim (ndim x))) as [Hl|Hl].
    - now rewrite seq_nth by assumption.
    - symmetry. destruct (Nat.le_gt_cases dim k); [now apply H|]. apply ax_overflow. unfold ndim in *. lia. }
  split; [|split; [exact Hax|]].
  - unfold z, drop_axes. cbn [ash]. rewrite length_mkshape, Hk. apply seq_length.
  - intros e. unfold bget at 1. unfold z at 1, drop_axes. cbn [aget]. rewrite Hk.
    apply bget_ext. intros k Hk1 Hk2.
    assert (Hkm : k < Nat.min dim (ndim x)).
    { destruct (Nat.le_gt_cases dim k) as [Hc|Hc]; [exfalso; apply Hk2; now apply H|].
      unfold ndim. lia. }
    unfold assign.
    replace (index_of k (seq 0 (Nat.min dim (ndim x)))) with (Some k).
    2:{ symmetry. pose proof (index_of_nth (seq 0 (Nat.min dim (ndim x))) k 0) as Hn.
        rewrite seq_nth in Hn by assumption. apply Hn; [apply seq_NoDup|now rewrite seq_length]. }
    unfold clip. rewrite Hax. destruct (Nat.eqb_spec (ax (ash x) k) 1); [contradiction|reflexivity].
Qed.

Lemma squeeze_to_dim_ok : forall A (x : arr A) dim,
  (forall k, dim <= k -> ax (ash x) k = 1) ->
  exists z, squeeze_to_dim x dim = Ok z /\ length (ash z) = Nat.min dim (ndim x) /\
    (forall k, ax (ash z) k = ax (ash x) k) /\ (forall e, bget z e = bget x e).
Proof.
  intros A x dim H. unfold squeeze_to_dim, np_squeeze.
  assert (Hf : forallb (fun k => (k <? ndim x) && (ax (ash x) k =? 1)) (seq dim (ndim x - dim)) = true).
  { apply forallb_forall. intros k Hk. apply in_seq in Hk. apply andb_true_iff. split.
    - apply Nat.ltb_lt. lia.
    - apply Nat.eqb_eq, H. lia. }
  rewrite Hf. eexists. split; [reflexivity|]. now apply drop_axes_lead.
Qed.

(** ** broadcasting_multiplier *)
Definition bm_value (plates : shape) (args : list shape) : nat :=
  fold_right Nat.mul 1
    (map (ax plates) (filter (fun k => forallb (fun a => ax a k =? 1) args) (seq 0 (length plates)))).

Lemma all_unit_at_ax : forall args k, all_unit_at args k = forallb (fun a => ax a k =? 1) args.
Proof.
  intros args k. unfold all_unit_at. induction args as [|a r IH]; [reflexivity|]. simpl. rewrite IH. f_equal.
  pose proof (back_ax a k) as H. destruct (back a k); rewrite <- H; reflexivity.
Qed.

Lemma fold_mul_acc : forall (p : nat -> bool) (f : nat -> nat) l acc,
  fold_left (fun r k => if p k then r * f k else r) l acc =
  acc * fold_right Nat.mul 1 (map f (filter p l)).
Proof.
  intros p f l. induction l as [|k l IH]; intros acc; simpl; [lia|].
  rewrite IH. destruct (p k); simpl; lia.
Qed.

Lemma fold_mul_perm : forall l l', Permutation l l' -> fold_right Nat.mul 1 l = fold_right Nat.mul 1 l'.
Proof. intros l l' H. induction H; simpl; lia. Qed.

Lemma broadcasting_multiplier_ok : forall plates args r,
  broadcasting_multiplier plates args = Ok r <->
  (forall a, In a args -> broadcasts_to a plates) /\ r = bm_value plates args.
Proof.
  intros plates args r. unfold broadcasting_multiplier.
  set (val := fold_left _ _ 1).
  assert (Hval : val = bm_value plates args).
  { unfold val, bm_value.
    transitivity (fold_left (fun r k => if forallb (fun a => ax a k =? 1) args then r * ax plates k else r)
                            (back_range (length plates)) 1).
    - assert (G : forall l acc, (forall k, In k l -> k < length plates) ->
        fold_left (fun r k => if all_unit_at args k then match back plates k with Some d => r * d | None => r end else r) l acc
        = fold_left (fun r k => if forallb (fun a => ax a k =? 1) args then r * ax plates k else r) l acc).
      { induction l as [|k l IH]; intros acc Hl; [reflexivity|]. cbn [fold_left].
        rewrite all_unit_at_ax, back_lt by (apply Hl; simpl; auto).
        apply IH. intros; apply Hl; simpl; auto. }
      apply G. intros k Hk. now apply in_back_range.
    - rewrite fold_mul_acc. rewrite Nat.mul_1_l. apply fold_mul_perm. apply Permutation_map.
      unfold back_range. rewrite filter_rev. symmetry. apply Permutation_rev. }
  split.
  - intros H. apply bind_ok in H as [[] [H1 H]]. apply bind_ok in H as [[] [H2 H]].
    injection H as <-. split; [|assumption].
    rewrite iterM_ok in H2. intros a Ha. specialize (H2 a Ha). cbv beta in H2.
    destruct (is_shape_subset a plates) eqn:E; [|discriminate]. now apply is_shape_subset_spec.
  - intros [H ->]. rewrite <- Hval.
    assert (H1 : iterM (fun a => _ <- broadcasted_shape [plates; a] ;; Ok tt) args = Ok tt).
    { apply iterM_ok. intros a Ha.
      rewrite (broadcasted_shape_in_ext [plates; a] [a; plates]) by (intros x; simpl; tauto).
      apply H, is_shape_subset_spec, subset_iff_absorb in Ha. rewrite Ha. reflexivity. }
    assert (H2 : iterM (fun a => if is_shape_subset a plates then Ok tt else Err ValueError) args = Ok tt).
    { apply iterM_ok. intros a Ha. apply H, is_shape_subset_spec in Ha. now rewrite Ha. }
    rewrite H1, H2. reflexivity.
Qed.

Lemma broadcasting_multiplier_err : forall plates args e,
  broadcasting_multiplier plates args = Err e -> e = ValueError.
Proof.
  intros plates args e H. unfold broadcasting_multiplier in H.
  apply bind_err in H as [H|[[] [_ H]]].
  - apply iterM_err in H as [a [_ H]]. apply bind_err in H as [H|[s [_ H]]]; [|discriminate].
    now apply broadcasted_shape_err in H.
  - apply bind_err in H as [H|[[] [_ H]]]; [|discriminate].
    apply iterM_err in H as [a [_ H]]. destruct (is_shape_subset a plates); [discriminate|congruence].
Qed.

Lemma INR_fold_mul : forall l, INR (fold_right Nat.mul 1 l) = fold_right Rmult 1%R (map INR l).
Proof. induction l as [|a l IH]; [reflexivity|]. cbn [fold_right map]. now rewrite mult_INR, IH. Qed.
