From Coq Require Import List Arith ZArith Lia Bool Reals Lra FunctionalExtensionality.
From Verif Require Import Base Shapes SpecShapes ShapesLemmas NumPy MiscArray TensorLemmas
  EinsumLemmas SpecArray SumMultiplyLemmas PlateSumLemmas MessageLemmas ShapeOpsLemmas Diag.
Import ListNotations.
Open Scope nat_scope.

(** ** Shapes *)
Lemma shape_eqb_eq : forall s t, shape_eqb s t = true <-> s = t.
Proof.
  induction s as [|a s IH]; intros [|b t]; simpl; split; intro H; try discriminate; auto.
  - apply andb_true_iff in H as [H1 H2]. apply Nat.eqb_eq in H1. apply IH in H2. congruence.
  - injection H as -> ->. rewrite Nat.eqb_refl. apply IH. reflexivity.
Qed.

Lemma ax_last_dims : forall s n k, k < n -> n <= length s -> ax (last_dims s n) k = ax s k.
Proof.
  intros s n k Hk Hn. unfold last_dims. rewrite ax_skipn.
  destruct (Nat.ltb_spec k (length s - (length s - n))); [reflexivity|lia].
Qed.

Lemma length_last_dims : forall s n, n <= length s -> length (last_dims s n) = n.
Proof. intros. unfold last_dims. rewrite skipn_length. lia. Qed.

Lemma length_mid_dims : forall s m n, n <= m -> m <= length s -> length (mid_dims s m n) = m - n.
Proof. intros. unfold mid_dims. rewrite firstn_length, skipn_length. lia. Qed.

Lemma ax_mid_dims : forall s m n k, k < m - n -> n <= m -> m <= length s ->
  ax (mid_dims s m n) k = ax s (k + n).
Proof.
  intros s m n k Hk Hnm Hm. unfold mid_dims.
  set (u := skipn (length s - m) s).
  assert (Lu : length u = m) by (unfold u; rewrite skipn_length; lia).
  replace (length s - n - (length s - m)) with (length u - n) by lia.
  change (firstn (length u - n) u) with (get_plates n u).
  rewrite ax_get_plates. unfold u. rewrite ax_skipn.
  destruct (Nat.ltb_spec (k + n) (length s - (length s - m))); [reflexivity|lia].
Qed.

Lemma shape_ext : forall s t, length s = length t -> (forall k, ax s k = ax t k) -> s = t.
Proof.
  intros s t HL H. apply (nth_ext _ _ 0 0); [exact HL|]. intros i Hi.
  specialize (H (length s - 1 - i)). rewrite !ax_nth in H by lia.
  rewrite HL in H at 2. rewrite <- HL in H.
  replace (length s - 1 - (length s - 1 - i)) with i in H by lia. exact H.
Qed.

(** ** expand_dims *)
Lemma ash_expand_at : forall A (a : arr A) k j, k <= ndim a ->
  ax (ash (expand_at a k)) j =
  if j <? k then ax (ash a) j else if j =? k then 1 else ax (ash a) (j - 1).
Proof.
  intros A a k j Hk. unfold expand_at. cbn [ash]. rewrite ax_mkshape.
  destruct (Nat.ltb_spec j (S (ndim a))); [reflexivity|].
  destruct (Nat.ltb_spec j k); [lia|]. destruct (Nat.eqb_spec j k); [lia|].
  symmetry. apply ax_overflow. unfold ndim in *. lia.
Qed.

Lemma ndim_expand_at : forall A (a : arr A) k, ndim (expand_at a k) = S (ndim a).
Proof. intros. unfold ndim at 1. apply length_mkshape. Qed.

Lemma bget_expand_at : forall A (a : arr A) k e, k <= ndim a ->
  bget (expand_at a k) e = bget a (fun j => if j <? k then e j else e (S j)).
Proof.
  intros A a k e Hk. unfold bget at 1. cbn [expand_at aget]. apply bget_ext.
  intros j Hj Hn. unfold clip. fold (expand_at a k).
  change (mkshape (S (ndim a)) _) with (ash (expand_at a k)).
  destruct (Nat.ltb_spec j k) as [L|L]; rewrite ash_expand_at by exact Hk.
  - destruct (Nat.ltb_spec j k); [|lia]. destruct (Nat.eqb_spec (ax (ash a) j) 1); [lia|reflexivity].
  - destruct (Nat.ltb_spec (S j) k); [lia|]. destruct (Nat.eqb_spec (S j) k); [lia|].
    replace (S j - 1) with j by lia.
    destruct (Nat.eqb_spec (ax (ash a) j) 1); [lia|reflexivity].
Qed.

Lemma add_axes_spec : forall A (x : arr A) num f, f <= ndim x ->
  let y := add_axes x num (ndim x - f) in
  ndim y = ndim x + num /\
  (forall j, ax (ash y) j = if j <? f then ax (ash x) j
                            else if j <? f + num then 1 else ax (ash x) (j - num)) /\
  (forall e, bget y e = bget x (fun j => if j <? f then e j else e (j + num))).
Proof.
  intros A x num f Hf. induction num as [|num IH].
  - cbn zeta. change (add_axes x 0 (ndim x - f)) with x. split; [lia|]. split.
    + intro j. destruct (Nat.ltb_spec j f); [reflexivity|].
      destruct (Nat.ltb_spec j (f + 0)); [lia|]. f_equal. lia.
    + intro e. apply bget_ext. intros k _ _. destruct (k <? f); [reflexivity|]. f_equal. lia.
  - cbn zeta in IH. destruct IH as [N [S0 V]].
    cbn zeta. unfold add_axes. cbn [Nat.iter nat_rect].
    change (nat_rect _ _ _ num) with (add_axes x num (ndim x - f)).
    set (y := add_axes x num (ndim x - f)) in *.
    change (ndim (expand_at y (ndim y - (ndim x - f))) = ndim x + S num /\
      (forall j, ax (ash (expand_at y (ndim y - (ndim x - f)))) j = if j <? f then ax (ash x) j
                            else if j <? f + S num then 1 else ax (ash x) (j - S num)) /\
      (forall e, bget (expand_at y (ndim y - (ndim x - f))) e =
        bget x (fun j => if j <? f then e j else e (j + S num)))).
    assert (K : ndim y - (ndim x - f) = f + num) by lia. rewrite K.
    assert (K2 : f + num <= ndim y) by lia.
    split; [rewrite ndim_expand_at; lia|]. split.
    + intro j. rewrite ash_expand_at by exact K2. rewrite !S0.
      destruct (Nat.ltb_spec j f); destruct (Nat.ltb_spec j (f + num));
        destruct (Nat.eqb_spec j (f + num)); destruct (Nat.ltb_spec j (f + S num));
        destruct (Nat.ltb_spec (j - 1) f); destruct (Nat.ltb_spec (j - 1) (f + num)); 
        try lia; try reflexivity; f_equal; lia.
    + intro e. rewrite bget_expand_at by exact K2. rewrite V. apply bget_ext. intros k _ _.
      destruct (Nat.ltb_spec k f); destruct (Nat.ltb_spec (k + num) (f + num));
        destruct (Nat.ltb_spec k (f + num)); try lia; try reflexivity; f_equal; lia.
Qed.

(** ** identity *)
Lemma fold_mul : forall s a, fold_left Nat.mul s a = a * fold_left Nat.mul s 1.
Proof.
  induction s as [|x r IH]; intro a; cbn [fold_left]; [lia|].
  rewrite (IH (a * x)), (IH (1 * x)). lia.
Qed.

Lemma stride_app : forall s t n, stride (s ++ t) (length t + n) = stride t (length t) * stride s n.
Proof.
  intros s t n. induction n as [|n IH].
  - rewrite Nat.add_0_r. cbn [stride]. rewrite Nat.mul_1_r.
    assert (H : forall m, m <= length t -> stride (s ++ t) m = stride t m).
    { induction m as [|m IHm]; intro Hm; [reflexivity|]. cbn [stride]. rewrite IHm by lia.
      f_equal. rewrite ax_app. destruct (Nat.ltb_spec m (length t)); [reflexivity|lia]. }
    apply H. lia.
  - rewrite Nat.add_succ_r. cbn [stride]. rewrite IH, ax_app.
    destruct (Nat.ltb_spec (length t + n) (length t)); [lia|].
    replace (length t + n - length t) with n by lia. lia.
Qed.

Lemma size_app : forall s t, size (s ++ t) = size s * size t.
Proof.
  intros. unfold size. rewrite app_length, (Nat.add_comm (length s)), stride_app. lia.
Qed.

Lemma size_cons : forall a s, size (a :: s) = a * size s.
Proof.
  intros. change (a :: s) with ([a] ++ s). rewrite size_app. unfold size at 1.
  cbn [length stride]. unfold ax. cbn. lia.
Qed.

Lemma size_prod : forall s, size s = fold_left Nat.mul s 1.
Proof.
  induction s as [|a s IH]; [reflexivity|]. rewrite size_cons, IH. cbn [fold_left].
  rewrite (fold_mul s (1 * a)). lia.
Qed.

Lemma ravel_app : forall s e n,
  ravel (s ++ s) (length s + n) e =
  ravel s (length s) e + size s * ravel s n (fun k => e (length s + k)).
Proof.
  intros s e n. induction n as [|n IH].
  - rewrite Nat.add_0_r. cbn [ravel]. rewrite Nat.mul_0_r, Nat.add_0_r.
    assert (H : forall m, m <= length s -> ravel (s ++ s) m e = ravel s m e).
    { induction m as [|m IHm]; intro Hm; [reflexivity|]. cbn [ravel]. rewrite IHm by lia.
      f_equal. f_equal. replace m with (m + 0) by lia.
      assert (G : forall p, p <= length s -> stride (s ++ s) p = stride s p).
      { induction p as [|p IHp]; intro Hp; [reflexivity|]. cbn [stride]. rewrite IHp by lia.
        f_equal. rewrite ax_app. destruct (Nat.ltb_spec p (length s)); [reflexivity|lia]. }
      apply G. lia. }
    apply H. lia.
  - rewrite Nat.add_succ_r. cbn [ravel]. rewrite IH, stride_app. unfold size. lia.
Qed.

Lemma ravel_inj : forall s n e e',
  (forall k, k < n -> e k < ax s k) -> (forall k, k < n -> e' k < ax s k) ->
  ravel s n e = ravel s n e' -> forall k, k < n -> e k = e' k.
Proof.
  intros s n e e' H H' E k Hk.
  rewrite <- (unravel_ravel s n e k H Hk), <- (unravel_ravel s n e' k H' Hk). now rewrite E.
Qed.

Lemma ravel_ext : forall s n e e', (forall k, k < n -> e k = e' k) -> ravel s n e = ravel s n e'.
Proof.
  induction n as [|n IH]; intros e e' H; [reflexivity|]. cbn [ravel].
  rewrite (IH e e') by (intros; apply H; lia). rewrite (H n) by lia. reflexivity.
Qed.

(** [diagonal n e]: the last n axes have the same indices as the n axes before. *)
Definition on_diagonal (n : nat) (e : env) : bool :=
  forallb (fun k => e k =? e (n + k)) (seq 0 n).

Lemma on_diagonal_iff : forall n e, on_diagonal n e = true <-> forall k, k < n -> e k = e (n + k).
Proof.
  intros n e. unfold on_diagonal. rewrite forallb_forall. split.
  - intros H k Hk. apply Nat.eqb_eq. apply H. apply in_seq. lia.
  - intros H k Hk. apply Nat.eqb_eq. apply H. apply in_seq in Hk. lia.
Qed.

Lemma identity_spec : forall s, exists I, identity s = Ok I /\ ash I = s ++ s /\
  forall e, (forall k, k < 2 * length s -> e k < ax (s ++ s) k) ->
    bget I e = if on_diagonal (length s) e then 1%R else 0%R.
Proof.
  intros s. unfold identity, np_reshape. rewrite <- size_prod.
  assert (E : size (ash (np_identity (size s))) =? size (s ++ s) = true).
  { apply Nat.eqb_eq. cbn [np_identity ash]. rewrite size_app, !size_cons. unfold size at 3. cbn. lia. }
  rewrite E. eexists. split; [reflexivity|]. split; [reflexivity|].
  intros e He. unfold bget at 1. cbn [ash aget].
  set (e' := clip (s ++ s) e).
  assert (He' : forall k, k < 2 * length s -> e' k = e k).
  { intros k Hk. unfold e', clip. specialize (He k Hk).
    destruct (Nat.eqb_spec (ax (s ++ s) k) 1); lia. }
  set (n := length s) in *. rewrite app_length. fold n.
  unfold n at 1. rewrite ravel_app. fold n.
  assert (A1 : forall k, k < n -> ax (s ++ s) k = ax s k).
  { intros k Hk. rewrite ax_app. fold n. destruct (Nat.ltb_spec k n); [reflexivity|lia]. }
  assert (A2 : forall k, k < n -> ax (s ++ s) (n + k) = ax s k).
  { intros k Hk. rewrite ax_app. fold n. destruct (Nat.ltb_spec (n + k) n); [lia|]. f_equal. lia. }
  assert (B1 : forall k, k < n -> e' k < ax s k).
  { intros k Hk. rewrite He' by lia. rewrite <- A1 by lia. apply He. lia. }
  assert (B2 : forall k, k < n -> e' (n + k) < ax s k).
  { intros k Hk. rewrite He' by lia. rewrite <- A2 by lia. apply He. lia. }
  set (r1 := ravel s n e'). set (r2 := ravel s n (fun k => e' (n + k))).
  assert (R1 : r1 < size s) by (apply ravel_lt; exact B1).
  assert (R2 : r2 < size s) by (apply ravel_lt; exact B2).
  unfold bget, np_identity. cbn [ash aget].
  assert (C0 : clip [size s; size s] (unravel [size s; size s] (r1 + size s * r2)) 0 = r1).
  { unfold clip, unravel. cbn [stride]. unfold ax. cbn [rev app nth]. rewrite Nat.div_1_r.
    destruct (Nat.eqb_spec (size s) 1) as [Q|Q]; [lia|].
    rewrite Nat.mul_comm, Nat.mod_add by lia. apply Nat.mod_small. exact R1. }
  assert (C1 : clip [size s; size s] (unravel [size s; size s] (r1 + size s * r2)) 1 = r2).
  { unfold clip, unravel. cbn [stride]. unfold ax. cbn [rev app nth]. rewrite Nat.mul_1_l.
    destruct (Nat.eqb_spec (size s) 1) as [Q|Q]; [lia|].
    rewrite (Nat.mul_comm (size s) r2), Nat.div_add by lia.
    rewrite (Nat.div_small r1) by exact R1. apply Nat.mod_small. exact R2. }
  rewrite C0, C1.
  destruct (on_diagonal n e) eqn:D.
  - rewrite on_diagonal_iff in D. assert (r1 = r2) as ->.
    { apply ravel_ext. intros k Hk. rewrite !He' by lia. now apply D. }
    now rewrite Nat.eqb_refl.
  - destruct (Nat.eqb_spec r1 r2) as [Q|Q]; [|reflexivity].
    exfalso. assert (on_diagonal n e = true); [|congruence].
    apply on_diagonal_iff. intros k Hk.
    rewrite <- (He' k), <- (He' (n + k)) by lia. apply (ravel_inj s n e' (fun k => e' (n + k)) B1 B2 Q k Hk).
Qed.
