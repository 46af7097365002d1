(** Lemmas about finite sums, index assignments and array reads. *)
From Coq Require Import List Arith ZArith Lia Bool Reals Lra Permutation FunctionalExtensionality.
From Verif Require Import Base Shapes SpecShapes ShapesLemmas NumPy.
Import ListNotations.
Open Scope R_scope.

(** ** rsum *)
Lemma rsum_ext : forall n f g, (forall x, (x < n)%nat -> f x = g x) -> rsum n f = rsum n g.
Proof.
  induction n as [|n IH]; intros f g H; simpl; [reflexivity|].
  rewrite (IH f g) by (intros; apply H; lia). rewrite H by lia. reflexivity.
Qed.

Lemma rsum_plus : forall n f g, rsum n (fun x => f x + g x) = rsum n f + rsum n g.
Proof. induction n as [|n IH]; intros f g; simpl; [ring|]. rewrite IH. ring. Qed.

Lemma rsum_minus : forall n f g, rsum n (fun x => f x - g x) = rsum n f - rsum n g.
Proof. induction n as [|n IH]; intros f g; simpl; [ring|]. rewrite IH. ring. Qed.

Lemma rsum_scal : forall n c f, rsum n (fun x => c * f x) = c * rsum n f.
Proof. induction n as [|n IH]; intros c f; simpl; [ring|]. rewrite IH. ring. Qed.

Lemma rsum_scal_r : forall n c f, rsum n (fun x => f x * c) = rsum n f * c.
Proof. induction n as [|n IH]; intros c f; simpl; [ring|]. rewrite IH. ring. Qed.

Lemma rsum_opp : forall n f, rsum n (fun x => - f x) = - rsum n f.
Proof. induction n as [|n IH]; intros f; simpl; [ring|]. rewrite IH. ring. Qed.

Lemma rsum_0 : forall n, rsum n (fun _ => 0) = 0.
Proof. induction n as [|n IH]; simpl; [ring|]. rewrite IH. ring. Qed.

Lemma rsum_const : forall n c, rsum n (fun _ => c) = INR n * c.
Proof. induction n as [|n IH]; intros c; [simpl; ring|]. rewrite S_INR. simpl rsum. rewrite IH. ring. Qed.

Lemma rsum_swap : forall n m f,
  rsum n (fun x => rsum m (fun y => f x y)) = rsum m (fun y => rsum n (fun x => f x y)).
Proof.
  induction n as [|n IH]; intros m f; simpl.
  - now rewrite rsum_0.
  - rewrite IH, <- rsum_plus. reflexivity.
Qed.

Lemma rsum_single : forall n j v, (j < n)%nat ->
  rsum n (fun x => if (x =? j)%nat then v x else 0) = v j.
Proof.
  induction n as [|n IH]; intros j v Hj; [lia|]. simpl.
  destruct (Nat.eq_dec j n) as [->|Hne].
  - rewrite Nat.eqb_refl. rewrite (rsum_ext _ _ (fun _ => 0)).
    + rewrite rsum_0. ring.
    + intros x Hx. destruct (Nat.eqb_spec x n); [lia|reflexivity].
  - rewrite IH by lia. destruct (Nat.eqb_spec n j); [lia|]. ring.
Qed.

Lemma rsum_single_none : forall n j v, (n <= j)%nat ->
  rsum n (fun x => if (x =? j)%nat then v x else 0) = 0.
Proof.
  intros n j v H. rewrite (rsum_ext _ _ (fun _ => 0)); [apply rsum_0|].
  intros x Hx. destruct (Nat.eqb_spec x j); [lia|reflexivity].
Qed.

Lemma rsum_1 : forall f, rsum 1 f = f 0%nat.
Proof. intros f. simpl. ring. Qed.

Lemma rsum_S_l : forall n f, rsum (S n) f = f 0%nat + rsum n (fun x => f (S x)).
Proof.
  induction n as [|n IH]; intros f; [simpl; ring|].
  change (rsum (S (S n)) f) with (rsum (S n) f + f (S n)).
  rewrite IH. simpl. ring.
Qed.

Lemma rsum_app : forall n m f, rsum (n + m) f = rsum n f + rsum m (fun x => f (n + x)%nat).
Proof.
  intros n m f. induction m as [|m IH].
  - rewrite Nat.add_0_r. simpl. ring.
  - rewrite Nat.add_succ_r. simpl. rewrite IH. ring.
Qed.

Lemma rsum_le : forall n f g, (forall x, (x < n)%nat -> f x <= g x) -> rsum n f <= rsum n g.
Proof.
  induction n as [|n IH]; intros f g H; simpl; [lra|].
  apply Rplus_le_compat; [apply IH; intros; apply H; lia|apply H; lia].
Qed.

Lemma rsum_nonneg : forall n f, (forall x, (x < n)%nat -> 0 <= f x) -> 0 <= rsum n f.
Proof. intros n f H. rewrite <- (rsum_0 n). now apply rsum_le. Qed.

Lemma rsum_pos : forall n f, (0 < n)%nat -> (forall x, (x < n)%nat -> 0 < f x) -> 0 < rsum n f.
Proof.
  intros n f Hn H. destruct n as [|n]; [lia|]. simpl.
  assert (0 <= rsum n f) by (apply rsum_nonneg; intros; apply Rlt_le, H; lia).
  assert (0 < f n) by (apply H; lia). lra.
Qed.

Lemma rsum_mult : forall n m f g,
  rsum n f * rsum m g = rsum n (fun x => rsum m (fun y => f x * g y)).
Proof.
  intros n m f g. rewrite <- rsum_scal_r. apply rsum_ext. intros x _.
  now rewrite rsum_scal.
Qed.

Lemma lsum_app : forall l l', lsum (l ++ l') = lsum l + lsum l'.
Proof. induction l as [|a l IH]; intros l'; simpl; [ring|]. unfold lsum in *. rewrite IH. ring. Qed.

Lemma lsum_map_seq : forall (f : nat -> R) n, lsum (map f (seq 0 n)) = rsum n f.
Proof.
  intros f. induction n as [|n IH]; [reflexivity|].
  rewrite seq_S, map_app, lsum_app, IH. simpl. unfold lsum; simpl. ring.
Qed.

(** ** Index assignments *)
Lemma upd_same : forall e k x, upd e k x k = x.
Proof. intros. unfold upd. now rewrite Nat.eqb_refl. Qed.

Lemma upd_other : forall e k x j, j <> k -> upd e k x j = e j.
Proof. intros e k x j H. unfold upd. destruct (Nat.eqb_spec j k); [contradiction|reflexivity]. Qed.

Lemma upd_twice : forall e k x y, upd (upd e k x) k y = upd e k y.
Proof. intros. apply functional_extensionality. intros j. unfold upd. now destruct (j =? k)%nat. Qed.

Lemma upd_comm : forall e j k x y, j <> k -> upd (upd e j x) k y = upd (upd e k y) j x.
Proof.
  intros e j k x y H. apply functional_extensionality. intros i. unfold upd.
  destruct (Nat.eqb_spec i k), (Nat.eqb_spec i j); subst; try reflexivity. contradiction.
Qed.

Lemma upd_id : forall e k, upd e k (e k) = e.
Proof.
  intros. apply functional_extensionality. intros j. unfold upd.
  destruct (Nat.eqb_spec j k); subst; reflexivity.
Qed.

(** ** Dependence on axes *)

(** [F] does not look at axis [k]. *)
Definition indep {A} (k : nat) (F : env -> A) : Prop := forall e x, F (upd e k x) = F e.

(** [F] looks only at the axes below [n]. *)
Definition dep {A} (n : nat) (F : env -> A) : Prop :=
  forall e e', (forall k, (k < n)%nat -> e k = e' k) -> F e = F e'.

Lemma dep_indep : forall A n (F : env -> A) k, dep n F -> (n <= k)%nat -> indep k F.
Proof.
  intros A n F k H Hk e x. apply H. intros j Hj. apply upd_other. lia.
Qed.

Lemma dep_le : forall A n m (F : env -> A), dep n F -> (n <= m)%nat -> dep m F.
Proof. intros A n m F H Hnm e e' He. apply H. intros k Hk. apply He. lia. Qed.

Lemma clip_clip : forall s e, clip s (clip s e) = clip s e.
Proof.
  intros s e. apply functional_extensionality. intros k. unfold clip.
  destruct (ax s k =? 1)%nat; reflexivity.
Qed.

Lemma clip_ext : forall s e e',
  (forall k, (k < length s)%nat -> ax s k <> 1%nat -> e k = e' k) -> clip s e = clip s e'.
Proof.
  intros s e e' H. apply functional_extensionality. intros k. unfold clip.
  destruct (Nat.eqb_spec (ax s k) 1) as [E|E]; [reflexivity|].
  apply H; [|assumption]. destruct (Nat.lt_ge_cases k (length s)); [assumption|].
  exfalso. apply E. now apply ax_overflow.
Qed.

Lemma bget_ext : forall A (a : arr A) e e',
  (forall k, (k < length (ash a))%nat -> ax (ash a) k <> 1%nat -> e k = e' k) ->
  bget a e = bget a e'.
Proof. intros A a e e' H. unfold bget. now rewrite (clip_ext _ e e' H). Qed.

Lemma bget_dep : forall A (a : arr A), dep (ndim a) (bget a).
Proof. intros A a e e' H. apply bget_ext. intros k Hk _. now apply H. Qed.

Lemma bget_indep : forall A (a : arr A) k, ax (ash a) k = 1%nat -> indep k (bget a).
Proof.
  intros A a k H e x. apply bget_ext. intros j _ Hj. apply upd_other. congruence.
Qed.

Lemma bget_clip : forall A (a : arr A) e, bget a (clip (ash a) e) = bget a e.
Proof. intros. unfold bget. now rewrite clip_clip. Qed.

Lemma valid_clip : forall s S e, broadcasts_to s S -> valid S e -> valid s (clip s e).
Proof.
  intros s S e [_ K] H k. unfold clip. specialize (K k). specialize (H k).
  destruct (Nat.eqb_spec (ax s k) 1); lia.
Qed.

Lemma clip_valid_id : forall s e, valid s e -> clip s e = e.
Proof.
  intros s e H. apply functional_extensionality. intros k. unfold clip.
  specialize (H k). destruct (Nat.eqb_spec (ax s k) 1); lia.
Qed.

Lemma ax_mkshape : forall n f k, ax (mkshape n f) k = if (k <? n)%nat then f k else 1%nat.
Proof.
  intros n f k. unfold ax, mkshape, back_range. rewrite map_rev, rev_involutive.
  destruct (Nat.ltb_spec k n) as [H|H].
  - rewrite (nth_indep _ 1%nat (f 0%nat)) by (rewrite map_length, seq_length; lia).
    rewrite map_nth, seq_nth by lia. reflexivity.
  - apply nth_overflow. rewrite map_length, seq_length. lia.
Qed.

Lemma length_mkshape : forall n f, length (mkshape n f) = n.
Proof. intros. unfold mkshape. now rewrite map_length, back_range_length. Qed.

Lemma memb_In : forall k l, memb k l = true <-> In k l.
Proof.
  intros k l. unfold memb. rewrite existsb_exists. split.
  - intros [x [Hx E]]. apply Nat.eqb_eq in E. now subst.
  - intros H. exists k. split; [assumption|apply Nat.eqb_refl].
Qed.

Lemma memb_false : forall k l, memb k l = false <-> ~ In k l.
Proof. intros k l. rewrite <- memb_In. destruct (memb k l); split; congruence. Qed.

(** ** sumax *)
Lemma sumax_ext : forall k n F G e,
  (forall x, (x < n)%nat -> F (upd e k x) = G (upd e k x)) -> sumax k n F e = sumax k n G e.
Proof. intros. unfold sumax. now apply rsum_ext. Qed.

Lemma sumax_upd : forall k n F e x, sumax k n F (upd e k x) = sumax k n F e.
Proof. intros. unfold sumax. apply rsum_ext. intros y _. now rewrite upd_twice. Qed.

Lemma sumax_indep_same : forall k n F, indep k (sumax k n F).
Proof. intros k n F e x. apply sumax_upd. Qed.

Lemma sumax_indep : forall j k n F, indep j F -> indep j (sumax k n F).
Proof.
  intros j k n F H e x. destruct (Nat.eq_dec j k) as [->|Hne]; [apply sumax_upd|].
  unfold sumax. apply rsum_ext. intros y _. rewrite upd_comm by assumption. apply H.
Qed.

Lemma sumax_dep : forall m k n F, dep m F -> dep m (sumax k n F).
Proof.
  intros m k n F H e e' He. unfold sumax. apply rsum_ext. intros x _. apply H.
  intros j Hj. unfold upd. destruct (j =? k)%nat; auto.
Qed.

Lemma sumax_comm : forall j k n m F e, j <> k ->
  sumax j n (sumax k m F) e = sumax k m (sumax j n F) e.
Proof.
  intros j k n m F e H. unfold sumax. rewrite rsum_swap.
  apply rsum_ext. intros y _. apply rsum_ext. intros x _. now rewrite upd_comm.
Qed.

Lemma sumax_const : forall k n F e, indep k F -> sumax k n F e = INR n * F e.
Proof.
  intros k n F e H. unfold sumax. rewrite (rsum_ext _ _ (fun _ => F e)).
  - apply rsum_const.
  - intros x _. apply H.
Qed.

Lemma sumax_1 : forall k F e, indep k F -> sumax k 1 F e = F e.
Proof. intros k F e H. rewrite sumax_const by assumption. simpl. ring. Qed.

Lemma sumax_mul_l : forall k n F G e, indep k G ->
  sumax k n (fun e => F e * G e) e = sumax k n F e * G e.
Proof.
  intros k n F G e H. unfold sumax. rewrite <- rsum_scal_r.
  apply rsum_ext. intros x _. now rewrite H.
Qed.

Lemma sumax_mul_r : forall k n F G e, indep k G ->
  sumax k n (fun e => G e * F e) e = G e * sumax k n F e.
Proof.
  intros k n F G e H. unfold sumax. rewrite <- rsum_scal.
  apply rsum_ext. intros x _. now rewrite H.
Qed.

(** ** itersum *)
Lemma itersum_cons : forall k n l F e, itersum ((k, n) :: l) F e = sumax k n (itersum l F) e.
Proof. reflexivity. Qed.

Lemma itersum_app : forall l l' F, itersum (l ++ l') F = itersum l (itersum l' F).
Proof. intros. unfold itersum. now rewrite fold_right_app. Qed.

Lemma itersum_ext_all : forall l F G, (forall e, F e = G e) -> forall e, itersum l F e = itersum l G e.
Proof.
  induction l as [|[k n] l IH]; intros F G H e; [apply H|].
  rewrite !itersum_cons. apply sumax_ext. intros. now apply IH.
Qed.

(** Extensionality on the points the sum visits. *)
Lemma itersum_ext : forall l F G e,
  (forall e', (forall k, ~ In k (map fst l) -> e' k = e k) ->
              (forall k n, In (k, n) l -> (e' k < n)%nat \/ exists m, In (k, m) l /\ (e' k < m)%nat) ->
              F e' = G e') ->
  itersum l F e = itersum l G e.
Proof.
  induction l as [|[k n] l IH]; intros F G e H.
  - apply H; simpl; auto. intros k n [].
  - rewrite !itersum_cons. unfold sumax. apply rsum_ext. intros x Hx.
    apply IH. intros e' H1 H2. apply H.
    + intros j Hj. simpl in Hj. rewrite H1 by tauto. apply upd_other. intros ->. tauto.
    + intros j m [E|Hin].
      * injection E as <- <-.
        destruct (in_dec Nat.eq_dec k (map fst l)) as [Hk|Hk].
        -- apply in_map_iff in Hk as [[k' m'] [E Hk]]. simpl in E. subst k'.
           destruct (H2 k m' Hk) as [H3|[m'' [Hm H3]]].
           ++ right. exists m'. simpl; auto.
           ++ right. exists m''. simpl; auto.
        -- left. rewrite H1 by assumption. now rewrite upd_same.
      * destruct (H2 j m Hin) as [H3|[m'' [Hm H3]]]; [auto|].
        right. exists m''. simpl; auto.
Qed.

Lemma itersum_dep : forall l m F, dep m F -> dep m (itersum l F).
Proof.
  induction l as [|[k n] l IH]; intros m F H; [exact H|].
  intros e e' He. rewrite !itersum_cons. apply sumax_dep with (m := m); auto.
Qed.

Lemma itersum_indep : forall l j F, indep j F -> indep j (itersum l F).
Proof.
  induction l as [|[k n] l IH]; intros j F H; [exact H|].
  intros e x. rewrite !itersum_cons. apply sumax_indep. auto.
Qed.

Lemma itersum_indep_in : forall l j F, In j (map fst l) -> indep j (itersum l F).
Proof.
  induction l as [|[k n] l IH]; intros j F H; [destruct H|].
  intros e x. rewrite !itersum_cons. destruct (Nat.eq_dec j k) as [->|Hne].
  - apply sumax_upd.
  - apply sumax_indep. apply IH. destruct H as [H|H]; [simpl in H; congruence|assumption].
Qed.

Lemma itersum_perm : forall l l' F,
  Permutation l l' -> NoDup (map fst l) -> forall e, itersum l F e = itersum l' F e.
Proof.
  intros l l' F H. induction H as [|[k n] l l' H IH|[k n] [j m] l|l1 l2 l3 H1 IH1 H2 IH2];
    intros ND e.
  - reflexivity.
  - rewrite !itersum_cons. apply sumax_ext. intros x _. apply IH. now inversion ND.
  - rewrite !itersum_cons. change (sumax j m (sumax k n (itersum l F)) e = sumax k n (sumax j m (itersum l F)) e).
    apply sumax_comm. inversion ND as [|? ? H1 H2]. subst. simpl in H1. intros E. apply H1. auto.
  - rewrite IH1 by assumption. apply IH2.
    apply Permutation_NoDup with (map fst l1); [now apply Permutation_map|assumption].
Qed.

Lemma itersum_scal : forall l c F e, itersum l (fun e => c * F e) e = c * itersum l F e.
Proof.
  induction l as [|[k n] l IH]; intros c F e; [reflexivity|].
  rewrite !itersum_cons. unfold sumax. rewrite <- rsum_scal. apply rsum_ext. intros. apply IH.
Qed.

Lemma itersum_mul_l : forall l F G e,
  (forall k, In k (map fst l) -> indep k G) ->
  itersum l (fun e => F e * G e) e = itersum l F e * G e.
Proof.
  induction l as [|[k n] l IH]; intros F G e H; [reflexivity|].
  rewrite !itersum_cons.
  rewrite <- sumax_mul_l by (apply H; simpl; auto).
  apply sumax_ext. intros x _. apply IH. intros; apply H; simpl; auto.
Qed.

Lemma itersum_mul_r : forall l F G e,
  (forall k, In k (map fst l) -> indep k G) ->
  itersum l (fun e => G e * F e) e = G e * itersum l F e.
Proof.
  intros l F G e H. rewrite Rmult_comm, <- itersum_mul_l by assumption.
  apply itersum_ext_all. intros; ring.
Qed.

Lemma itersum_const : forall l F e,
  (forall k, In k (map fst l) -> indep k F) ->
  itersum l F e = fold_right Rmult 1 (map (fun p => INR (snd p)) l) * F e.
Proof.
  induction l as [|[k n] l IH]; intros F e H.
  - simpl. ring.
  - rewrite itersum_cons. rewrite sumax_const.
    + rewrite IH by (intros; apply H; simpl; auto). simpl. ring.
    + apply itersum_indep. apply H. simpl; auto.
Qed.

(** Filter a list of axes in two parts. *)
Lemma partition_perm : forall A (p : A -> bool) l,
  Permutation l (filter p l ++ filter (fun x => negb (p x)) l).
Proof.
  induction l as [|a l IH]; simpl; [constructor|].
  destruct (p a); simpl.
  - now constructor.
  - apply Permutation_cons_app. assumption.
Qed.

Lemma NoDup_map_filter : forall A B (f : A -> B) p l, NoDup (map f l) -> NoDup (map f (filter p l)).
Proof.
  induction l as [|a l IH]; simpl; intros H; [constructor|].
  inversion H as [|? ? H1 H2]; subst. destruct (p a); [|auto].
  simpl. constructor; [|auto]. intros Hin. apply H1.
  apply in_map_iff in Hin as [b [E Hb]]. apply filter_In in Hb as [Hb _].
  apply in_map_iff. eauto.
Qed.

Lemma itersum_split : forall p l F e, NoDup (map fst l) ->
  itersum l F e = itersum (filter p l) (itersum (filter (fun x => negb (p x)) l) F) e.
Proof.
  intros p l F e H. rewrite <- itersum_app. apply itersum_perm; [|assumption].
  apply partition_perm.
Qed.

(** ** Sums with keepdims *)
Lemma map_fst_sum_axes : forall s axes,
  map fst (sum_axes_list s axes) = filter (fun k => memb k axes) (seq 0 (length s)).
Proof. intros. unfold sum_axes_list. rewrite map_map. simpl. now rewrite map_id. Qed.

Lemma NoDup_sum_axes : forall s axes, NoDup (map fst (sum_axes_list s axes)).
Proof. intros. rewrite map_fst_sum_axes. apply NoDup_filter, seq_NoDup. Qed.

Lemma ash_sum_keep_ax : forall a axes k,
  ax (ash (np_sum_keep a axes)) k = if memb k axes then 1%nat else ax (ash a) k.
Proof.
  intros a axes k. simpl. rewrite ax_mkshape. unfold ndim.
  destruct (Nat.ltb_spec k (length (ash a))) as [H|H]; [reflexivity|].
  rewrite (ax_overflow (ash a)) by assumption. now destruct (memb k axes).
Qed.

Lemma bget_sum_keep : forall a axes e,
  bget (np_sum_keep a axes) e = itersum (sum_axes_list (ash a) axes) (bget a) e.
Proof.
  intros a axes e. unfold bget at 1. set (s := ash (np_sum_keep a axes)).
  cbn [np_sum_keep aget].
  assert (H : forall e', (forall k, memb k axes = false -> ax (ash a) k <> 1%nat -> e k = e' k) ->
     itersum (sum_axes_list (ash a) axes) (bget a) e = itersum (sum_axes_list (ash a) axes) (bget a) e').
  { pose proof (map_fst_sum_axes (ash a) axes) as HM.
    assert (HI : forall k, memb k axes = true -> indep k (itersum (sum_axes_list (ash a) axes) (bget a))).
    { intros k Hk. destruct (Nat.lt_ge_cases k (length (ash a))) as [Hl|Hl].
      - apply itersum_indep_in. rewrite HM. apply filter_In. split; [apply in_seq; lia|assumption].
      - apply itersum_indep, bget_indep. now apply ax_overflow. }
    assert (HI' : forall k, ax (ash a) k = 1%nat -> indep k (itersum (sum_axes_list (ash a) axes) (bget a))).
    { intros k Hk. now apply itersum_indep, bget_indep. }
    intros e' He.
    (* change e into e' on the axes below ndim one at a time *)
    assert (HD : dep (ndim a) (itersum (sum_axes_list (ash a) axes) (bget a)))
      by apply itersum_dep, bget_dep.
    set (G := itersum (sum_axes_list (ash a) axes) (bget a)) in *.
    assert (Hst : forall n, G e = G (fun k => if (k <? n)%nat then e' k else e k)).
    { induction n as [|n IH]; [reflexivity|].
      rewrite IH.
      replace (fun k => if (k <? S n)%nat then e' k else e k)
        with (upd (fun k => if (k <? n)%nat then e' k else e k) n (e' n)).
      2:{ apply functional_extensionality. intros k. unfold upd.
          destruct (Nat.eqb_spec k n) as [->|Hne].
          - destruct (Nat.ltb_spec n (S n)); [reflexivity|lia].
          - destruct (Nat.ltb_spec k n), (Nat.ltb_spec k (S n)); try reflexivity; lia. }
      destruct (memb n axes) eqn:Em; [symmetry; now apply HI|].
      destruct (Nat.eq_dec (ax (ash a) n) 1) as [E1|E1]; [symmetry; now apply HI'|].
      rewrite <- (He n Em E1). f_equal. apply functional_extensionality. intros k. unfold upd.
      destruct (Nat.eqb_spec k n) as [->|Hne]; [|reflexivity].
      destruct (Nat.ltb_spec n n); [lia|reflexivity]. }
    rewrite (Hst (ndim a)). apply HD. intros k Hk.
    destruct (Nat.ltb_spec k (ndim a)); [reflexivity|lia]. }
  symmetry. apply H. intros k Hk H1. unfold clip. subst s. rewrite ash_sum_keep_ax, Hk.
  destruct (Nat.eqb_spec (ax (ash a) k) 1); [contradiction|reflexivity].
Qed.

(** ** Broadcast shapes of the NumPy primitives *)
Lemma bdim_ok : forall ds d,
  bdim ds = Ok d <-> (forall x, In x ds -> x = 1%nat \/ x = d) /\ (d = 1%nat \/ In d ds).
Proof.
  intros ds d. unfold bdim.
  assert (HF : forall x, In x (filter (fun d => negb (d =? 1)%nat) ds) <-> In x ds /\ x <> 1%nat).
  { intros x. rewrite filter_In. destruct (Nat.eqb_spec x 1); simpl; intuition congruence. }
  destruct (filter _ ds) as [|y r] eqn:E.
  - split.
    + intros H. injection H as <-. split; [|auto]. intros x Hx.
      destruct (Nat.eq_dec x 1) as [->|Hne]; [auto|]. exfalso. apply (HF x). auto.
    + intros [H1 H2]. f_equal. destruct H2 as [H2|H2]; [auto|].
      destruct (Nat.eq_dec d 1) as [->|Hne]; [auto|]. exfalso. apply (HF d). auto.
  - destruct (proj1 (HF y) (or_introl eq_refl)) as [Hy Hy1].
    destruct (forallb _ r) eqn:Ef.
    + rewrite forallb_forall in Ef. split.
      * intros H. injection H as <-. split; [|auto]. intros x Hx.
        destruct (Nat.eq_dec x 1) as [->|Hne]; [auto|]. right.
        destruct (proj2 (HF x) (conj Hx Hne)) as [<-|Hin]; [reflexivity|].
        apply Nat.eqb_eq. now apply Ef.
      * intros [H1 H2]. f_equal. destruct (H1 y Hy); [contradiction|assumption].
    + split; [discriminate|]. intros [H1 H2]. exfalso.
      assert (forallb (fun x => (x =? y)%nat) r = true); [|congruence].
      apply forallb_forall. intros x Hx.
      destruct (proj1 (HF x) (or_intror Hx)) as [Hx1 Hx2].
      apply Nat.eqb_eq. destruct (H1 x Hx1); [contradiction|].
      destruct (H1 y Hy); [contradiction|]. congruence.
Qed.

Lemma bdim_err : forall ds e, bdim ds = Err e ->
  e = ValueError /\ exists x y, In x ds /\ In y ds /\ x <> 1%nat /\ y <> 1%nat /\ x <> y.
Proof.
  intros ds e H. unfold bdim in H.
  assert (HF : forall x, In x (filter (fun d => negb (d =? 1)%nat) ds) -> In x ds /\ x <> 1%nat).
  { intros x. rewrite filter_In. destruct (Nat.eqb_spec x 1); simpl; intuition congruence. }
  destruct (filter _ ds) as [|y r] eqn:E; [discriminate|].
  destruct (forallb _ r) eqn:Ef; [discriminate|]. injection H as <-. split; [reflexivity|].
  assert (Hx : exists x, In x r /\ (x =? y)%nat = false).
  { clear -Ef. induction r as [|a r IH]; simpl in Ef; [discriminate|].
    destruct (a =? y)%nat eqn:Ea; simpl in Ef.
    - destruct (IH Ef) as [x [Hx Ex]]. exists x; simpl; auto.
    - exists a; simpl; auto. }
  destruct Hx as [x [Hx Ex]]. apply Nat.eqb_neq in Ex.
  destruct (HF y (or_introl eq_refl)). destruct (HF x (or_intror Hx)).
  exists x, y. auto.
Qed.

Lemma list_max_rank : forall shapes : list shape, list_max (map (@length nat) shapes) = max_rank shapes.
Proof.
  induction shapes as [|a r IH]; [reflexivity|].
  rewrite max_rank_cons. simpl. now rewrite <- IH.
Qed.

(** bayespy's broadcasted_shape and NumPy's own rule agree. *)
Lemma np_bshape_eq : forall shapes, np_bshape shapes = broadcasted_shape shapes.
Proof.
  intros shapes. unfold np_bshape, broadcasted_shape. rewrite list_max_rank.
  assert (H : forall k, bdim (map (fun s => ax s k) shapes) = foldM (bc_step k) 1%nat shapes).
  { intros k. destruct (foldM (bc_step k) 1%nat shapes) as [d|e] eqn:E.
    - apply bdim_ok. apply foldM_bc_ok in E as (H1 & H2 & H3). split.
      + intros x Hx. apply in_map_iff in Hx as [s [<- Hs]]. auto.
      + destruct H3 as [H3|[H3|[a [Ha H3]]]]; auto. right.
        rewrite <- H3. apply in_map_iff. eauto.
    - apply foldM_bc_err in E as (-> & b & Hb & Hb1 & H).
      destruct H as [[H _]|[a [Ha [Ha1 Hab]]]]; [congruence|].
      destruct (bdim (map (fun s => ax s k) shapes)) as [d|e] eqn:Eb.
      + exfalso. apply bdim_ok in Eb as [H1 _].
        assert (Hx : In (ax a k) (map (fun s => ax s k) shapes)) by (apply in_map_iff; eauto).
        assert (Hy : In (ax b k) (map (fun s => ax s k) shapes)) by (apply in_map_iff; eauto).
        pose proof (H1 _ Hx). pose proof (H1 _ Hy). lia.
      + apply bdim_err in Eb as [-> _]. reflexivity. }
  induction (back_range (max_rank shapes)) as [|k l IH]; [reflexivity|].
  cbn [mapM]. now rewrite H, IH.
Qed.

Lemma np_map2_ok : forall A B C (f : A -> B -> C) a b y,
  np_map2 f a b = Ok y ->
  numpy_broadcast [ash a; ash b] (ash y) /\
  forall e, bget y e = f (bget a e) (bget b e).
Proof.
  intros A B C f a b y H. unfold np_map2 in H. rewrite np_bshape_eq in H.
  apply bind_ok in H as [s [Hs H]]. injection H as <-.
  apply broadcasted_shape_ok in Hs. split; [exact Hs|].
  intros e. unfold bget at 1. cbn [ash aget]. f_equal; apply bget_ext; intros k _ Hk;
    unfold clip; destruct (Nat.eqb_spec (ax s k) 1) as [E|E]; try reflexivity;
    destruct Hs as (_ & _ & K); destruct (K k) as [K1 _];
    [specialize (K1 (ash a) ltac:(simpl; auto))|specialize (K1 (ash b) ltac:(simpl; auto))]; lia.
Qed.

Lemma np_reduce_multiply_ok : forall l y,
  np_reduce_multiply l = Ok y ->
  numpy_broadcast (map ash l) (ash y) /\
  forall e, bget y e = lprod (map (fun a => bget a e) l).
Proof.
  intros [|a r] y H; [discriminate|]. cbn [np_reduce_multiply] in H.
  assert (G : forall r a y, foldM np_multiply a r = Ok y ->
     numpy_broadcast (map ash (a :: r)) (ash y) /\
     forall e, bget y e = bget a e * lprod (map (fun b => bget b e) r)).
  { clear. induction r as [|b r IH]; intros a y H; cbn [foldM] in H.
    - injection H as <-. split.
      + apply broadcasted_shape_ok. cbn [map].
        rewrite (broadcasted_shape_in_ext _ [ash a; ash a]).
        * apply subset_iff_absorb. apply is_shape_subset_spec, broadcasts_to_refl.
        * intros x; simpl; tauto.
      + intros e. simpl. ring.
    - apply bind_ok in H as [c [Hc H]]. apply np_map2_ok in Hc as [Hs Hv].
      apply IH in H as [Hs' Hv']. split.
      + cbn [map] in *. apply (numpy_broadcast_group [ash a; ash b] (map ash r) (ash c)) in Hs'; assumption.
      + intros e. rewrite Hv', Hv. simpl. unfold np_multiply in *. ring. }
  apply G in H as [H1 H2]. split; [exact H1|]. intros e. rewrite H2. reflexivity.
Qed.

Lemma np_map2_total : forall A B C (f : A -> B -> C) a b S,
  broadcasted_shape [ash a; ash b] = Ok S ->
  exists y, np_map2 f a b = Ok y /\ ash y = S.
Proof.
  intros A B C f a b S H. unfold np_map2. rewrite np_bshape_eq, H. cbn [bind]. eauto.
Qed.

Lemma np_reduce_multiply_total : forall l S,
  l <> [] -> broadcasted_shape (map ash l) = Ok S ->
  exists y, np_reduce_multiply l = Ok y /\ ash y = S.
Proof.
  intros [|a r] S Hl H; [congruence|]. clear Hl. cbn [np_reduce_multiply].
  revert a H. induction r as [|b r IH]; intros a H; cbn [foldM map] in *.
  - exists a. split; [reflexivity|].
    rewrite (broadcasted_shape_in_ext _ [ash a; ash a]) in H by (intros x; simpl; tauto).
    assert (E : broadcasted_shape [ash a; ash a] = Ok (ash a))
      by (apply subset_iff_absorb, is_shape_subset_spec, broadcasts_to_refl).
    congruence.
  - destruct (broadcasted_shape [ash a; ash b]) as [s|e] eqn:E.
    + unfold np_multiply at 1. destruct (np_map2_total _ _ _ Rmult a b s E) as [c [Hc Hs]].
      rewrite Hc. cbn [bind]. apply IH. cbn [map]. rewrite Hs.
      apply broadcasted_shape_ok in E, H. apply broadcasted_shape_ok.
      apply (numpy_broadcast_group [ash a; ash b] (map ash r) s S); assumption.
    + exfalso. apply broadcasted_shape_err in E as [_ E]. apply broadcasted_shape_ok in H.
      apply (broadcast_no_clash _ _ H). destruct E as (k & x & z & Hx & Hz & E).
      exists k, x, z. simpl in *. tauto.
Qed.
