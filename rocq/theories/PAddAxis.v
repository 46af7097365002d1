(** Theorems for C17: add_plate_axis. *)
From Coq Require Import List Arith ZArith Lia Bool Reals Lra FunctionalExtensionality.
From Verif Require Import Base Shapes SpecShapes ShapesLemmas NumPy MiscArray TensorLemmas
  SpecArray SpecIndex PlateSumLemmas ShapeOpsLemmas MessageLemmas EinsumLemmas ExpFamBound Reindex
  TakeConcat TakeLemmas PTake PConcat AddAxis.
Import ListNotations.
Open Scope nat_scope.

(** Indices seen through an inserted / removed axis at [K] from the end. *)
Definition skip_axis (K : nat) (e : env) : env := fun j => if j <? K then e j else e (S j).
Definition new_axis (K : nat) (e : env) : env := fun j => if j <? K then e j else if j =? K then 0 else e (j - 1).

Lemma cnt_but : forall K n, cnt (fun k => negb (k =? K)) n = if n <=? K then n else n - 1.
Proof.
  intros K. induction n as [|n IH]; [reflexivity|]. rewrite cnt_S, IH.
  destruct (Nat.eqb_spec n K); cbn [negb]; destruct (Nat.leb_spec n K), (Nat.leb_spec (S n) K); lia.
Qed.

Lemma ax_insert : forall s K k, K <= length s ->
  ax (py_insert (length s - K) 1 s) k = if k <? K then ax s k else if k =? K then 1 else ax s (k - 1).
Proof.
  intros s K k H. unfold py_insert.
  assert (L : length (skipn (length s - K) s) = K) by (rewrite skipn_length; lia).
  assert (A : forall j, ax s j = if j <? K then ax (skipn (length s - K) s) j else ax (firstn (length s - K) s) (j - K)).
  { intros j. rewrite <- (firstn_skipn (length s - K) s) at 1. rewrite ax_app, L. reflexivity. }
  change (1 :: skipn (length s - K) s) with ([1] ++ skipn (length s - K) s). rewrite !ax_app, app_length, L. cbn [length].
  destruct (Nat.ltb_spec k (1 + K)) as [C|C].
  - destruct (Nat.ltb_spec k K) as [D|D].
    + rewrite A. apply Nat.ltb_lt in D. now rewrite D.
    + replace (k =? K) with true by (symmetry; apply Nat.eqb_eq; lia). replace (k - K) with 0 by lia. reflexivity.
  - destruct (Nat.ltb_spec k K); [lia|]. destruct (Nat.eqb_spec k K); [lia|]. rewrite A.
    destruct (Nat.ltb_spec (k - 1) K); [lia|]. f_equal. lia.
Qed.

Lemma ax_pop : forall s K, K < length s -> exists t, py_pop K s = Ok t /\ length t = length s - 1 /\
  forall k, ax t k = if k <? K then ax s k else ax s (S k).
Proof.
  intros s K H. unfold py_pop. apply Nat.ltb_lt in H as H'. rewrite H'. eexists. split; [reflexivity|].
  assert (L : length (skipn (length s - K) s) = K) by (rewrite skipn_length; lia). split.
  - rewrite app_length, L, firstn_length. lia.
  - intros k. rewrite ax_app, L. destruct (Nat.ltb_spec k K) as [C|C].
    + replace (ax s k) with (ax (firstn (length s - K) s ++ skipn (length s - K) s) k) by now rewrite firstn_skipn.
      rewrite ax_app, L. apply Nat.ltb_lt in C. now rewrite C.
    + replace (ax s (S k)) with (ax (firstn (length s - 1 - K) s ++ skipn (length s - 1 - K) s) (S k)) by now rewrite firstn_skipn.
      rewrite ax_app, skipn_length. destruct (Nat.ltb_spec (S k) (length s - (length s - 1 - K))); [lia|]. f_equal. lia.
Qed.

Lemma bget_clip : forall A (y : arr A) e, bget y e = bget y (clip (ash y) e).
Proof. intros. apply bget_ext. intros k _ N. unfold clip. apply Nat.eqb_neq in N. now rewrite N. Qed.

Lemma reshape_insert : forall A (x : arr A) K, K <= ndim x ->
  exists y, np_reshape x (py_insert (ndim x - K) 1 (ash x)) = Ok y /\ ndim y = S (ndim x) /\
    (forall k, ax (ash y) k = if k <? K then ax (ash x) k else if k =? K then 1 else ax (ash x) (k - 1)) /\
    forall e, (forall k, ax (ash y) k <> 1 -> e k < ax (ash y) k) -> bget y e = bget x (skip_axis K e).
Proof.
  intros A x K H. set (s := py_insert (ndim x - K) 1 (ash x)).
  assert (AX : forall k, ax s k = if k <? K then ax (ash x) k else if k =? K then 1 else ax (ash x) (k - 1)) by (intros; now apply ax_insert).
  assert (LS : length s = S (ndim x)).
  { unfold s, py_insert. rewrite app_length. cbn [length]. rewrite firstn_length, skipn_length. unfold ndim in *. lia. }
  destruct (reshape_units A x s (fun k => negb (k =? K))) as (y & Ey & Sy & Gy).
  - rewrite cnt_but, LS. destruct (Nat.leb_spec (S (ndim x)) K); lia.
  - intros k _ Hk. apply negb_false_iff, Nat.eqb_eq in Hk. rewrite AX, Hk, Nat.ltb_irrefl, Nat.eqb_refl. reflexivity.
  - intros k Hk N. rewrite AX, cnt_but. apply negb_true_iff, Nat.eqb_neq in N.
    destruct (Nat.leb_spec k K), (Nat.ltb_spec k K), (Nat.eqb_spec k K); try lia; reflexivity.
  - exists y. split; [exact Ey|]. split; [unfold ndim; now rewrite Sy|]. rewrite Sy. split; [exact AX|].
    intros e He. rewrite bget_clip, Sy. transitivity (bget x (skip_axis K (clip s e))).
    + apply Gy.
      * intros k. unfold clip. destruct (Nat.eqb_spec (ax s k) 1); [lia|now apply He].
      * intros k Hk N. apply negb_true_iff, Nat.eqb_neq in N. rewrite cnt_but. unfold skip_axis.
        destruct (Nat.leb_spec k K), (Nat.ltb_spec k K), (Nat.ltb_spec (k - 1) K); try lia; try reflexivity. f_equal. lia.
    + apply bget_ext. intros k Hk N. unfold skip_axis, clip. destruct (Nat.ltb_spec k K) as [C|C]; rewrite AX.
      * apply Nat.ltb_lt in C. rewrite C. apply Nat.eqb_neq in N. now rewrite N.
      * destruct (Nat.ltb_spec (S k) K); [lia|]. destruct (Nat.eqb_spec (S k) K); [lia|].
        replace (S k - 1) with k by lia. apply Nat.eqb_neq in N. now rewrite N.
Qed.

Lemma reshape_remove : forall A (x : arr A) K, K < ndim x -> ax (ash x) K = 1 ->
  exists s y, py_pop K (ash x) = Ok s /\ np_reshape x s = Ok y /\ ndim y = ndim x - 1 /\
    (forall k, ax (ash y) k = if k <? K then ax (ash x) k else ax (ash x) (S k)) /\
    forall e, (forall k, ax (ash y) k <> 1 -> e k < ax (ash y) k) -> bget y e = bget x (new_axis K e).
Proof.
  intros A x K H U. destruct (ax_pop (ash x) K H) as (s & Es & Ls & As). set (n := ndim x) in *.
  assert (H1 : forall k, k < n -> negb (k =? K) = false -> ax (ash x) k = 1).
  { intros k _ Hk. apply negb_false_iff, Nat.eqb_eq in Hk. now rewrite Hk. }
  assert (H2 : forall k, k < n -> negb (k =? K) = true -> ax s (cnt (fun k => negb (k =? K)) k) = ax (ash x) k).
  { intros k Hk N. apply negb_true_iff, Nat.eqb_neq in N. rewrite cnt_but, As.
    destruct (Nat.leb_spec k K), (Nat.ltb_spec k K), (Nat.ltb_spec (k - 1) K); try lia; try reflexivity. f_equal. lia. }
  assert (CN : cnt (fun k => negb (k =? K)) n = length s).
  { rewrite cnt_but, Ls. change (length (ash x)) with n. destruct (Nat.leb_spec n K); lia. }
  exists s, (Arr s (fun e => bget x (unravel (ash x) (ravel s (length s) e)))). split; [exact Es|]. split.
  { unfold np_reshape, size. change (length (ash x)) with n. rewrite (stride_units (fun k => negb (k =? K)) (ash x) s n) by assumption.
    rewrite CN, Nat.eqb_refl. reflexivity. }
  split; [unfold ndim; cbn [ash]; exact Ls|]. cbn [ash]. split; [exact As|].
  intros e He. unfold bget at 1. cbn [ash aget].
  assert (V : forall k, clip s e k < ax s k).
  { intros k. unfold clip. destruct (Nat.eqb_spec (ax s k) 1); [lia|now apply He]. }
  transitivity (bget x (new_axis K (clip s e))).
  - apply bget_ext. intros j Hj _. rewrite <- CN.
    rewrite <- (ravel_units (fun k => negb (k =? K)) (ash x) s n (new_axis K (clip s e)) (clip s e)).
    + rewrite unravel_ravel; [reflexivity| |exact Hj]. intros k Hk. unfold new_axis. destruct (Nat.ltb_spec k K) as [C|C].
      * specialize (V k). rewrite As in V. apply Nat.ltb_lt in C. now rewrite C in V.
      * destruct (Nat.eqb_spec k K); [subst; lia|]. specialize (V (k - 1)). rewrite As in V.
        destruct (Nat.ltb_spec (k - 1) K); [lia|]. replace (S (k - 1)) with k in V by lia. exact V.
    + intros k Hk Hp. split; [now apply H1|]. apply negb_false_iff, Nat.eqb_eq in Hp. rewrite Hp. unfold new_axis.
      now rewrite Nat.ltb_irrefl, Nat.eqb_refl.
    + intros k Hk N. split; [now apply H2|]. apply negb_true_iff, Nat.eqb_neq in N. rewrite cnt_but. unfold new_axis.
      destruct (Nat.leb_spec k K), (Nat.ltb_spec k K), (Nat.eqb_spec k K); try lia; reflexivity.
  - apply bget_ext. intros k Hk N. unfold new_axis, clip. destruct (Nat.ltb_spec k K) as [C|C].
    + rewrite As. apply Nat.ltb_lt in C. rewrite C. apply Nat.eqb_neq in N. now rewrite N.
    + destruct (Nat.eqb_spec k K); [reflexivity|]. rewrite As. destruct (Nat.ltb_spec (k - 1) K); [lia|].
      replace (S (k - 1)) with k by lia. apply Nat.eqb_neq in N. now rewrite N.
Qed.

Lemma skip_at : forall l r v x k, skip_axis (length r + length v) (at_index (l ++ x :: r ++ v)) k = at_index (l ++ r ++ v) k.
Proof.
  intros l r v x k. unfold skip_axis. change (x :: r ++ v) with ([x] ++ (r ++ v)). rewrite <- app_length.
  set (w := r ++ v). rewrite !(at_index_app l), (at_index_app [x] w). unfold join. rewrite app_length. cbn [length].
  destruct (Nat.ltb_spec k (length w)) as [C|C].
  - destruct (Nat.ltb_spec k (1 + length w)); [reflexivity|lia].
  - destruct (Nat.ltb_spec (S k) (1 + length w)); [lia|]. f_equal.
Qed.

Lemma ax_inserted : forall L R d k, ax (L ++ 1 :: R ++ d) k =
  if k <? length R + length d then ax (L ++ R ++ d) k else if k =? length R + length d then 1 else ax (L ++ R ++ d) (k - 1).
Proof.
  intros L R d k. change (1 :: R ++ d) with ([1] ++ (R ++ d)). rewrite !(ax_app L), !app_length. rewrite (ax_app [1]), app_length. cbn [length].
  set (n := length R + length d). destruct (Nat.ltb_spec k n) as [C|C].
  - destruct (Nat.ltb_spec k (1 + n)); [|lia]. reflexivity.
  - destruct (Nat.eqb_spec k n) as [D|D].
    + destruct (Nat.ltb_spec k (1 + n)); [|lia]. replace (k - n) with 0 by lia. reflexivity.
    + destruct (Nat.ltb_spec k (1 + n)); [lia|]. destruct (Nat.ltb_spec (k - 1) n); [lia|]. f_equal. lia.
Qed.

Lemma at_valid : forall s (y : list nat) e, broadcasts_to y s -> valid s e -> forall k, ax y k <> 1 -> e k < ax y k.
Proof. intros s y e [_ B] V k N. destruct (B k) as [C|C]; [contradiction|]. rewrite C. apply V. Qed.

Lemma F2_insert : forall l L r R v d, within l L -> within r R -> within v d -> within (l ++ 0 :: r ++ v) (L ++ 1 :: R ++ d).
Proof. intros. apply F2_app; [assumption|]. constructor; [lia|]. now apply F2_app. Qed.

(** What holds of the moments and the message: for parent plates L ++ R and the new axis
    before R, the moments have it there, and the message drops it again. *)
Theorem C17_moments_and_message_partial : forall L R d (u m : arr Rdefinitions.R),
  broadcasts_to (ash u) (L ++ R ++ d) -> broadcasts_to (ash m) (L ++ 1 :: R ++ d) ->
  add_axis_init (length R) (L ++ R) = Ok tt /\
  exists x y, add_axis_moments (length R) (length d) u = Ok x /\ add_axis_message (length R) (length d) m = Ok y /\
    broadcasts_to (ash x) (L ++ 1 :: R ++ d) /\ broadcasts_to (ash y) (L ++ R ++ d) /\
    (forall l r v, within l L -> within r R -> within v d ->
       bget x (at_index (l ++ 0 :: r ++ v)) = bget u (at_index (l ++ r ++ v))) /\
    (forall l r v, within l L -> within r R -> within v d ->
       bget y (at_index (l ++ r ++ v)) = bget m (at_index (l ++ 0 :: r ++ v))).
Proof.
  intros L R d u m UB MB. pose proof UB as [UL UA]. pose proof MB as [ML MA]. split.
  { unfold add_axis_init. rewrite app_length. destruct (Nat.ltb_spec (length L + length R + 1) (length R + 1)); [lia|reflexivity]. }
  set (K := length R + length d). rewrite !app_length in UL. rewrite app_length in ML. cbn [length] in ML. rewrite app_length in ML.
  assert (X : exists x, add_axis_moments (length R) (length d) u = Ok x /\ broadcasts_to (ash x) (L ++ 1 :: R ++ d) /\
    forall l r v, within l L -> within r R -> within v d -> bget x (at_index (l ++ 0 :: r ++ v)) = bget u (at_index (l ++ r ++ v))).
  { unfold add_axis_moments. destruct (Nat.ltb_spec (length R + 1 + length d) (ndim u + 1)) as [C|C].
    - destruct (reshape_insert _ u K) as (x & Ex & Lx & Ax & Gx); [unfold K; lia|].
      replace (ndim u + 1 - (length R + 1) - length d) with (ndim u - K) by (unfold K; lia). exists x. split; [exact Ex|].
      assert (XB : broadcasts_to (ash x) (L ++ 1 :: R ++ d)).
      { split; [unfold ndim in *; rewrite Lx, !app_length; cbn [length]; rewrite app_length; lia|].
        intros k. rewrite Ax, ax_inserted. fold K. destruct (k <? K); [apply UA|]. destruct (k =? K); [now left|apply UA]. }
      split; [exact XB|]. intros l r v Hl Hr Hv. pose proof (F2_length _ _ _ _ _ Hr) as Lr. pose proof (F2_length _ _ _ _ _ Hv) as Lv.
      rewrite Gx by (apply (at_valid (L ++ 1 :: R ++ d)); [exact XB|apply valid_at_index; now apply F2_insert]).
      unfold K. rewrite <- Lr, <- Lv. apply bget_ext. intros k _ _. apply skip_at.
    - exists u. split; [reflexivity|]. unfold ndim in C. split.
      + split; [rewrite app_length; cbn [length]; rewrite app_length; lia|]. intros k. rewrite ax_inserted.
        destruct (Nat.ltb_spec k (length R + length d)); [apply UA|]. left. apply ax_overflow. lia.
      + intros l r v Hl Hr Hv. pose proof (F2_length _ _ _ _ _ Hr) as Lr. pose proof (F2_length _ _ _ _ _ Hv) as Lv.
        apply bget_ext. intros k Hk _. rewrite <- (skip_at l r v 0). unfold skip_axis. rewrite Lr, Lv.
        destruct (Nat.ltb_spec k (length R + length d)); [reflexivity|lia]. }
  assert (Y : exists y, add_axis_message (length R) (length d) m = Ok y /\ broadcasts_to (ash y) (L ++ R ++ d) /\
    forall l r v, within l L -> within r R -> within v d -> bget y (at_index (l ++ r ++ v)) = bget m (at_index (l ++ 0 :: r ++ v))).
  { unfold add_axis_message. destruct (Nat.leb_spec (length R + 1 + length d) (ndim m)) as [C|C].
    - assert (U : ax (ash m) K = 1).
      { destruct (MA K) as [E|E]; [exact E|]. rewrite E, ax_inserted. unfold K. now rewrite Nat.ltb_irrefl, Nat.eqb_refl. }
      destruct (reshape_remove _ m K) as (s & y & Es & Ey & Ly & Ay & Gy); [unfold K; lia|exact U|].
      fold K. rewrite Es. cbn [bind]. exists y. split; [exact Ey|].
      assert (YB : broadcasts_to (ash y) (L ++ R ++ d)).
      { split; [unfold ndim in *; rewrite Ly, !app_length; lia|]. intros k. rewrite Ay. destruct (Nat.ltb_spec k K) as [D|D].
        - specialize (MA k). rewrite ax_inserted in MA. fold K in MA. apply Nat.ltb_lt in D. now rewrite D in MA.
        - specialize (MA (S k)). rewrite ax_inserted in MA. fold K in MA. destruct (Nat.ltb_spec (S k) K); [lia|].
          destruct (Nat.eqb_spec (S k) K); [lia|]. replace (S k - 1) with k in MA by lia. exact MA. }
      split; [exact YB|]. intros l r v Hl Hr Hv. pose proof (F2_length _ _ _ _ _ Hr) as Lr. pose proof (F2_length _ _ _ _ _ Hv) as Lv.
      rewrite Gy by (apply (at_valid (L ++ R ++ d)); [exact YB|apply valid_at_index; apply F2_app; [assumption|now apply F2_app]]).
      apply bget_ext. intros k _ N. unfold new_axis, K. rewrite <- Lr, <- Lv. destruct (Nat.ltb_spec k (length r + length v)) as [D|D].
      + rewrite <- (skip_at l r v 0). unfold skip_axis. apply Nat.ltb_lt in D. now rewrite D.
      + destruct (Nat.eqb_spec k (length r + length v)) as [E|E].
        * exfalso. apply N. rewrite E, Lr, Lv. exact U.
        * rewrite <- (skip_at l r v 0). unfold skip_axis. destruct (Nat.ltb_spec (k - 1) (length r + length v)); [lia|].
          f_equal. lia.
    - exists m. split; [reflexivity|]. unfold ndim in C. split.
      + split; [rewrite !app_length; lia|]. intros k. specialize (MA k). rewrite ax_inserted in MA.
        destruct (Nat.ltb_spec k (length R + length d)); [exact MA|]. left. apply ax_overflow. lia.
      + intros l r v Hl Hr Hv. pose proof (F2_length _ _ _ _ _ Hr) as Lr. pose proof (F2_length _ _ _ _ _ Hv) as Lv.
        apply bget_ext. intros k Hk _. rewrite <- (skip_at l r v 0). unfold skip_axis. rewrite Lr, Lv.
        destruct (Nat.ltb_spec k (length R + length d)); [reflexivity|lia]. }
  destruct X as (x & EX & XB & GX), Y as (y & EY & YB & GY). exists x, y. auto 10.
Qed.

(** The plates of the node: always the parent's plates with the unit axis last, so right
    for to_plate = -1, *)
Theorem C17_plates_partial : forall P, add_axis_plates_from 0 P = P ++ [1] /\ add_axis_plates_to 0 (P ++ [1]) = Ok P.
Proof.
  intros P. split.
  - unfold add_axis_plates_from, py_insert. rewrite firstn_all2, skipn_all2 by lia. reflexivity.
  - unfold add_axis_plates_to, py_pop. rewrite app_length. cbn [length]. destruct (Nat.ltb_spec 0 (length P + 1)); [|lia].
    replace (length P + 1 - 1 - 0) with (length P + 0) by lia. rewrite firstn_app_2. cbn [firstn].
    rewrite skipn_all2 by (rewrite app_length; cbn; lia). now rewrite !app_nil_r.
Qed.

(** and wrong for every other position unless the axes behind it all have length one:
    the declared plates are not those of the moments. *)
Theorem C17_plates_refuted : forall L R, (exists n, In n R /\ n <> 1) ->
  add_axis_init (length R) (L ++ R) = Ok tt /\
  add_axis_plates_from (length R) (L ++ R) = L ++ R ++ [1] /\ L ++ R ++ [1] <> L ++ 1 :: R.
Proof.
  intros L R (n & HI & N). split; [|split].
  - unfold add_axis_init. rewrite app_length. destruct (Nat.ltb_spec (length L + length R + 1) (length R + 1)); [lia|reflexivity].
  - unfold add_axis_plates_from, py_insert. rewrite firstn_all2, skipn_all2 by lia. now rewrite <- app_assoc.
  - intros E. apply app_inv_head in E. revert HI E. clear L. induction R as [|a R IH]; intros HI E; [destruct HI|].
    injection E as E1 E2. subst a. destruct HI as [<-|HI]; [congruence|now apply IH].
Qed.

(** A concrete failure: X with plates (3,), X.add_plate_axis(-2).  The node says plates
    (3, 1), the moments have shape (1, 3) after broadcasting. *)
Theorem C17_wrong_moments_refuted : exists (u x : arr Rdefinitions.R) P Q,
  ash u = P /\ add_axis_init 1 P = Ok tt /\ add_axis_plates_from 1 P = Q /\
  add_axis_moments 1 0 u = Ok x /\ ~ broadcasts_to (ash x) Q.
Proof.
  exists (Arr [3] (fun _ => 0%R)), (Arr [3] (fun _ => 0%R)), [3], [3; 1]. repeat split.
  intros [_ B]. specialize (B 0). cbn in B. lia.
Qed.

(** Passing a mask that has the new axis to the parent raises NameError. *)
Theorem C17_mask_refuted : forall a (w : arr bool), a < ndim w -> add_axis_weights a w = Err NameError.
Proof. intros a w H. unfold add_axis_weights. destruct (Nat.leb_spec (a + 1) (ndim w)); [reflexivity|lia]. Qed.

Example C17_case :
  let u := Arr [4; 3; 2] (fun e => INR (e 0 + e 2)) in
  let m := Arr [1; 3; 1] (fun e => INR (e 0 + e 2)) in
  broadcasts_to (ash u) ([4] ++ [3] ++ [2]) /\ broadcasts_to (ash m) ([4] ++ 1 :: [3] ++ [2]) /\
  add_axis_plates_from 1 ([4] ++ [3]) = [4; 3; 1].
Proof. cbv zeta. split; [apply is_shape_subset_spec; reflexivity|]. split; [apply is_shape_subset_spec; reflexivity|reflexivity]. Qed.

Print Assumptions C17_moments_and_message_partial.
Print Assumptions C17_plates_partial.
Print Assumptions C17_plates_refuted.
Print Assumptions C17_wrong_moments_refuted.
Print Assumptions C17_mask_refuted.
