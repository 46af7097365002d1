(** Lemmas about the shape functions. *)
From Coq Require Import List Arith ZArith Lia Bool Permutation.
From Verif Require Import Base Shapes SpecShapes.
Import ListNotations.

Lemma back_ax : forall s k, match back s k with Some d => d | None => 1 end = ax s k.
Proof.
  intros s k. unfold back, ax.
  destruct (nth_error (rev s) k) eqn:E.
  - symmetry. now apply nth_error_nth.
  - symmetry. apply nth_overflow. now apply nth_error_None.
Qed.

Lemma back_some_lt : forall s k d, back s k = Some d -> k < length s /\ ax s k = d.
Proof.
  intros s k d H. pose proof (back_ax s k) as Hax. rewrite H in Hax.
  split; [|congruence].
  unfold back in H. rewrite <- rev_length. apply nth_error_Some. congruence.
Qed.

Lemma back_lt : forall s k, k < length s -> back s k = Some (ax s k).
Proof.
  intros s k H. unfold back, ax. apply nth_error_nth'. now rewrite rev_length.
Qed.

Lemma back_none : forall s k, length s <= k -> back s k = None.
Proof. intros s k H. unfold back. apply nth_error_None. now rewrite rev_length. Qed.

Lemma ax_overflow : forall s k, length s <= k -> ax s k = 1.
Proof. intros s k H. unfold ax. apply nth_overflow. now rewrite rev_length. Qed.

Lemma ax_nil : forall k, ax [] k = 1.
Proof. intros k. apply ax_overflow. simpl. lia. Qed.

Lemma shape_ext : forall s t, length s = length t -> (forall k, k < length s -> ax s k = ax t k) -> s = t.
Proof.
  intros s t Hl H.
  rewrite <- (rev_involutive s), <- (rev_involutive t). f_equal.
  apply nth_ext with (d := 1) (d' := 1).
  - now rewrite !rev_length.
  - intros n Hn. rewrite rev_length in Hn. now apply H.
Qed.

Lemma bc_step_ax : forall k s a,
  bc_step k s a = if s =? 1 then Ok (ax a k)
                  else if negb (ax a k =? 1) && negb (ax a k =? s)
                       then Err ValueError else Ok s.
Proof.
  intros k s a. unfold bc_step. pose proof (back_ax a k) as H.
  destruct (back a k) as [d|].
  - now rewrite <- H.
  - rewrite <- H. destruct (s =? 1) eqn:E; simpl.
    + apply Nat.eqb_eq in E. now rewrite E.
    + reflexivity.
Qed.

Lemma foldM_bc_ok : forall k shapes s d,
  foldM (bc_step k) s shapes = Ok d <->
  (s = 1 \/ s = d) /\ (forall a, In a shapes -> ax a k = 1 \/ ax a k = d) /\
  (d = 1 \/ s = d \/ exists a, In a shapes /\ ax a k = d).
Proof.
  intros k shapes. induction shapes as [|a r IH]; intros s d; cbn [foldM].
  - split.
    + intros H. injection H as <-. split; [auto|]. split; [intros a []|auto].
    + intros (H1 & _ & [H3|[H3|[a [[] _]]]]); f_equal; lia.
  - rewrite bc_step_ax. destruct (Nat.eqb_spec s 1) as [->|Hs].
    + cbn [bind]. rewrite IH. split.
      * intros (H1 & H2 & H3). split; [lia|]. split.
        -- intros b [<-|Hb]; auto.
        -- destruct H3 as [H3|[H3|[b [Hb Hbk]]]]; auto.
           ++ right; right. exists a. simpl; auto.
           ++ right; right. exists b. simpl; auto.
      * intros (H1 & H2 & H3). split; [apply H2; simpl; auto|]. split.
        -- intros b Hb. apply H2; simpl; auto.
        -- destruct H3 as [H3|[H3|[b [[<-|Hb] Hbk]]]]; auto.
           right; right. eauto.
    + destruct (Nat.eqb_spec (ax a k) 1) as [E1|E1]; cbn [negb andb bind].
      * rewrite IH. split.
        -- intros (H1 & H2 & H3). split; [auto|]. split.
           ++ intros b [<-|Hb]; auto.
           ++ destruct H3 as [H3|[H3|[b [Hb Hbk]]]]; auto.
              right; right. exists b; simpl; auto.
        -- intros (H1 & H2 & H3). split; [auto|]. split.
           ++ intros b Hb. apply H2; simpl; auto.
           ++ lia.
      * destruct (Nat.eqb_spec (ax a k) s) as [E2|E2]; cbn [negb andb bind].
        -- rewrite IH. split.
           ++ intros (H1 & H2 & H3). split; [auto|]. split.
              ** intros b [<-|Hb]; [lia|auto].
              ** lia.
           ++ intros (H1 & H2 & H3). split; [auto|]. split.
              ** intros b Hb. apply H2; simpl; auto.
              ** lia.
        -- split; [discriminate|].
           intros (H1 & H2 & H3). specialize (H2 a (or_introl eq_refl)). lia.
Qed.

Lemma foldM_bc_err : forall k shapes s e,
  foldM (bc_step k) s shapes = Err e ->
  e = ValueError /\
  exists b, In b shapes /\ ax b k <> 1 /\
    ((s <> 1 /\ ax b k <> s) \/
     exists a, In a shapes /\ ax a k <> 1 /\ ax a k <> ax b k).
Proof.
  intros k shapes. induction shapes as [|a r IH]; intros s e; cbn [foldM].
  - discriminate.
  - rewrite bc_step_ax. destruct (Nat.eqb_spec s 1) as [->|Hs]; cbn [bind].
    + intros H. apply IH in H as (-> & b & Hb & Hb1 & H). split; [reflexivity|].
      exists b. split; [simpl; auto|]. split; [assumption|]. right.
      destruct H as [[H1 H2]|[c [Hc H]]].
      * exists a. simpl; auto.
      * exists c. simpl; auto.
    + destruct (Nat.eqb_spec (ax a k) 1) as [E1|E1]; cbn [negb andb bind].
      * intros H. apply IH in H as (-> & b & Hb & Hb1 & H). split; [reflexivity|].
        exists b. split; [simpl; auto|]. split; [assumption|].
        destruct H as [H|[c [Hc H]]]; auto.
        right. exists c; simpl; auto.
      * destruct (Nat.eqb_spec (ax a k) s) as [E2|E2]; cbn [negb andb bind].
        -- intros H. apply IH in H as (-> & b & Hb & Hb1 & H). split; [reflexivity|].
           exists b. split; [simpl; auto|]. split; [assumption|].
           destruct H as [H|[c [Hc H]]]; auto.
           right. exists c; simpl; auto.
        -- intros H. injection H as <-. split; [reflexivity|].
           exists a. split; [simpl; auto|]. split; [assumption|]. auto.
Qed.

Lemma max_rank_acc : forall shapes n,
  fold_left (fun dim a => Nat.max dim (length a)) shapes n =
  Nat.max n (max_rank shapes).
Proof.
  unfold max_rank.
  induction shapes as [|a r IH]; intros n; simpl.
  - lia.
  - rewrite IH, (IH (length a)). lia.
Qed.

Lemma max_rank_cons : forall a r, max_rank (a :: r) = Nat.max (length a) (max_rank r).
Proof. intros a r. unfold max_rank at 1. simpl. now rewrite max_rank_acc. Qed.

Lemma max_rank_ge : forall shapes a, In a shapes -> length a <= max_rank shapes.
Proof.
  induction shapes as [|b r IH]; intros a H; [destruct H|].
  rewrite max_rank_cons. destruct H as [H|H].
  - subst. lia.
  - specialize (IH _ H). lia.
Qed.

Lemma max_rank_attained : forall shapes,
  max_rank shapes = 0 \/ exists a, In a shapes /\ length a = max_rank shapes.
Proof.
  induction shapes as [|b r IH].
  - left; reflexivity.
  - rewrite max_rank_cons.
    destruct (Nat.max_spec (length b) (max_rank r)) as [[H E]|[H E]]; rewrite E.
    + right. destruct IH as [IH|[a [Ha IH]]]; [lia|]. exists a; simpl; auto.
    + right. exists b; simpl; auto.
Qed.

Lemma back_range_length : forall n, length (back_range n) = n.
Proof. intros n. unfold back_range. now rewrite rev_length, seq_length. Qed.

Lemma in_back_range : forall n k, In k (back_range n) <-> k < n.
Proof. intros n k. unfold back_range. rewrite <- in_rev, in_seq. lia. Qed.

Lemma back_range_S : forall n, back_range (S n) = n :: back_range n.
Proof.
  intros n. unfold back_range. rewrite seq_S, rev_app_distr. reflexivity.
Qed.

Lemma ax_cons : forall d s k,
  ax (d :: s) k = if k =? length s then d else ax s k.
Proof.
  intros d s k. unfold ax. simpl rev. destruct (Nat.eqb_spec k (length s)) as [->|H].
  - rewrite app_nth2; rewrite rev_length; [|lia]. now rewrite Nat.sub_diag.
  - destruct (Nat.lt_ge_cases k (length s)) as [Hlt|Hge].
    + rewrite app_nth1; [reflexivity|]. now rewrite rev_length.
    + rewrite !nth_overflow; auto; rewrite ?app_length, rev_length; simpl; lia.
Qed.

(** The axis-wise reading of a list built over [range(-n,0)]. *)
Lemma mapM_back_range : forall (f : nat -> res nat) n S,
  mapM f (back_range n) = Ok S <->
  length S = n /\ forall k, k < n -> f k = Ok (ax S k).
Proof.
  intros f. induction n as [|n IH]; intros S.
  - unfold back_range; simpl. split.
    + intros H. injection H as <-. split; [reflexivity|]. intros; lia.
    + intros [H _]. destruct S; [reflexivity|discriminate].
  - rewrite back_range_S. cbn [mapM]. split.
    + intros H. apply bind_ok in H as [b [Hb H]]. apply bind_ok in H as [bs [Hbs H]].
      injection H as <-. apply IH in Hbs as [Hl Hbs]. split; [simpl; lia|].
      intros k Hk. rewrite ax_cons, Hl. destruct (Nat.eqb_spec k n) as [->|Hne]; auto.
      apply Hbs; lia.
    + intros [Hl H]. destruct S as [|b S]; [discriminate|]. simpl in Hl.
      assert (HlS : length S = n) by lia.
      assert (HS : mapM f (back_range n) = Ok S).
      { apply IH. split; [assumption|]. intros k Hk. rewrite (H k) by lia.
        rewrite ax_cons. destruct (Nat.eqb_spec k (length S)); [lia|reflexivity]. }
      rewrite (H n) by lia. rewrite ax_cons, HlS, Nat.eqb_refl. cbn [bind].
      rewrite HS. reflexivity.
Qed.

Lemma broadcasted_shape_ok : forall shapes S,
  broadcasted_shape shapes = Ok S <-> numpy_broadcast shapes S.
Proof.
  intros shapes S. unfold broadcasted_shape, numpy_broadcast.
  rewrite mapM_back_range. split.
  - intros [Hl H].
    assert (Hle : forall a, In a shapes -> length a <= length S).
    { intros a Ha. rewrite Hl. now apply max_rank_ge. }
    split; [assumption|]. split.
    + destruct (max_rank_attained shapes) as [E|[a [Ha E]]].
      * left. destruct S; [reflexivity|simpl in Hl; lia].
      * right. exists a; split; [assumption|lia].
    + intros k. destruct (Nat.lt_ge_cases k (max_rank shapes)) as [Hk|Hk].
      * specialize (H k Hk). apply foldM_bc_ok in H as (H1 & H2 & H3).
        split; [assumption|].
        destruct H3 as [H3|[H3|H3]]; auto.
      * split.
        -- intros a Ha. left. apply ax_overflow. specialize (Hle a Ha). lia.
        -- left. apply ax_overflow. lia.
  - intros (Hle & Hat & H).
    assert (Hl : length S = max_rank shapes).
    { apply Nat.le_antisymm.
      - destruct Hat as [->|[a [Ha E]]]; [simpl; lia|].
        rewrite <- E. now apply max_rank_ge.
      - destruct (max_rank_attained shapes) as [E|[a [Ha E]]]; [lia|].
        rewrite <- E. auto. }
    split; [assumption|]. intros k Hk. apply foldM_bc_ok.
    destruct (H k) as [H1 H2]. split; [auto|]. split; [assumption|].
    destruct H2 as [H2|H2]; auto.
Qed.

Lemma broadcasted_shape_err : forall shapes e,
  broadcasted_shape shapes = Err e -> e = ValueError /\ clash shapes.
Proof.
  intros shapes e H. unfold broadcasted_shape in H.
  apply mapM_err in H as [k [_ H]].
  apply foldM_bc_err in H as (-> & b & Hb & Hb1 & H).
  split; [reflexivity|].
  destruct H as [[H _]|[a [Ha [Ha1 H]]]]; [congruence|].
  exists k, a, b. auto.
Qed.

Lemma broadcast_no_clash : forall shapes S, numpy_broadcast shapes S -> ~ clash shapes.
Proof.
  intros shapes S (_ & _ & H) (k & a & b & Ha & Hb & Ha1 & Hb1 & Hab).
  destruct (H k) as [H1 _].
  pose proof (H1 a Ha). pose proof (H1 b Hb). lia.
Qed.

Lemma broadcasted_shape_error_iff : forall shapes,
  broadcasted_shape shapes = Err ValueError <-> clash shapes.
Proof.
  intros shapes; split.
  - intros H. now apply broadcasted_shape_err in H.
  - intros H. destruct (broadcasted_shape shapes) as [S|e] eqn:E.
    + exfalso. apply broadcasted_shape_ok in E. exact (broadcast_no_clash _ _ E H).
    + apply broadcasted_shape_err in E as [-> _]. reflexivity.
Qed.

Lemma numpy_broadcast_unique : forall shapes S T,
  numpy_broadcast shapes S -> numpy_broadcast shapes T -> S = T.
Proof.
  intros shapes S T HS HT. apply broadcasted_shape_ok in HS, HT. congruence.
Qed.

(** ** Order and grouping *)

Lemma numpy_broadcast_in_ext : forall l1 l2 S,
  (forall a, In a l1 <-> In a l2) -> numpy_broadcast l1 S -> numpy_broadcast l2 S.
Proof.
  intros l1 l2 S Hin (H1 & H2 & H3). split; [|split].
  - intros a Ha. apply H1, Hin, Ha.
  - destruct H2 as [H2|[a [Ha E]]]; [auto|]. right. exists a. split; [apply Hin|]; auto.
  - intros k. destruct (H3 k) as [H4 H5]. split.
    + intros a Ha. apply H4, Hin, Ha.
    + destruct H5 as [H5|[a [Ha E]]]; [auto|]. right. exists a. split; [apply Hin|]; auto.
Qed.

Lemma clash_in_ext : forall l1 l2,
  (forall a, In a l1 <-> In a l2) -> clash l1 -> clash l2.
Proof.
  intros l1 l2 Hin (k & a & b & Ha & Hb & H). exists k, a, b.
  split; [now apply Hin|]. split; [now apply Hin|]. exact H.
Qed.

Lemma broadcasted_shape_in_ext : forall l1 l2,
  (forall a, In a l1 <-> In a l2) -> broadcasted_shape l1 = broadcasted_shape l2.
Proof.
  intros l1 l2 Hin. destruct (broadcasted_shape l1) as [S|e] eqn:E.
  - apply broadcasted_shape_ok in E. symmetry. apply broadcasted_shape_ok.
    now apply numpy_broadcast_in_ext with l1.
  - apply broadcasted_shape_err in E as [-> E]. symmetry.
    apply broadcasted_shape_error_iff. now apply clash_in_ext with l1.
Qed.

Lemma numpy_broadcast_group : forall l1 l2 S1 S,
  numpy_broadcast l1 S1 ->
  (numpy_broadcast (S1 :: l2) S <-> numpy_broadcast (l1 ++ l2) S).
Proof.
  intros l1 l2 S1 S (L1 & A1 & K1). split; intros (L & A & K).
  - split; [|split].
    + intros a Ha. apply in_app_or in Ha as [Ha|Ha].
      * specialize (L1 a Ha). specialize (L S1 (or_introl eq_refl)). lia.
      * apply L; simpl; auto.
    + destruct A as [A|[a [[<-|Ha] E]]]; [auto| |].
      * destruct A1 as [A1|[b [Hb E1]]].
        -- left. destruct S; [reflexivity|]. subst S1. discriminate.
        -- right. exists b. split; [apply in_or_app; auto|lia].
      * right. exists a. split; [apply in_or_app; auto|lia].
    + intros k. destruct (K1 k) as [K11 K12]. destruct (K k) as [K2 K3]. split.
      * intros a Ha. apply in_app_or in Ha as [Ha|Ha].
        -- specialize (K11 a Ha). specialize (K2 S1 (or_introl eq_refl)). lia.
        -- apply K2; simpl; auto.
      * destruct K3 as [K3|[a [[<-|Ha] E]]]; [auto| |].
        -- destruct K12 as [K12|[b [Hb E1]]]; [left; lia|].
           right. exists b. split; [apply in_or_app; auto|lia].
        -- right. exists a. split; [apply in_or_app; auto|lia].
  - assert (HkS1 : forall k, ax S1 k = 1 \/ ax S1 k = ax S k).
    { intros k. destruct (K1 k) as [K11 K12]. destruct (K k) as [K2 K3].
      destruct K12 as [K12|[b [Hb E1]]]; [auto|].
      specialize (K2 b (in_or_app _ _ _ (or_introl Hb))). lia. }
    split; [|split].
    + intros a [<-|Ha].
      * destruct A1 as [->|[b [Hb E1]]]; [simpl; lia|].
        rewrite <- E1. apply L, in_or_app; auto.
      * apply L, in_or_app; auto.
    + destruct A as [A|[a [Ha E]]]; [auto|]. right.
      apply in_app_or in Ha as [Ha|Ha].
      * exists S1. split; [simpl; auto|]. specialize (L1 a Ha).
        destruct A1 as [->|[b [Hb E1]]]; [simpl in *; lia|].
        specialize (L b (in_or_app _ _ _ (or_introl Hb))). lia.
      * exists a; simpl; auto.
    + intros k. destruct (K1 k) as [K11 K12]. destruct (K k) as [K2 K3]. split.
      * intros a [<-|Ha]; [auto|]. apply K2, in_or_app; auto.
      * destruct K3 as [K3|[a [Ha E]]]; [auto|].
        apply in_app_or in Ha as [Ha|Ha].
        -- specialize (K11 a Ha). destruct (Nat.eq_dec (ax S k) 1); [auto|].
           right. exists S1. simpl. split; [auto|]. lia.
        -- right. exists a; simpl; auto.
Qed.

(** ** Sub-shapes *)

Lemma is_shape_subset_spec : forall a S,
  is_shape_subset a S = true <-> broadcasts_to a S.
Proof.
  intros a S. unfold is_shape_subset, broadcasts_to.
  destruct (Nat.ltb_spec (length S) (length a)) as [H|H].
  - split; [discriminate|]. intros [H1 _]. lia.
  - rewrite forallb_forall. split.
    + intros Hf. split; [assumption|]. intros k.
      destruct (Nat.lt_ge_cases k (length a)) as [Hk|Hk].
      * specialize (Hf k). rewrite in_seq in Hf. specialize (Hf ltac:(lia)).
        rewrite !back_lt in Hf by lia.
        apply orb_true_iff in Hf as [Hf|Hf]; apply Nat.eqb_eq in Hf; auto.
      * left. now apply ax_overflow.
    + intros [_ Hk] k Hin. apply in_seq in Hin.
      rewrite !back_lt by lia. apply orb_true_iff. rewrite !Nat.eqb_eq. apply Hk.
Qed.

Lemma subset_iff_absorb : forall a S,
  is_shape_subset a S = true <-> broadcasted_shape [a; S] = Ok S.
Proof.
  intros a S. rewrite is_shape_subset_spec, broadcasted_shape_ok.
  unfold broadcasts_to, numpy_broadcast. split.
  - intros [Hl Hk]. split; [|split].
    + intros b [<-|[<-|[]]]; auto.
    + right. exists S. simpl; auto.
    + intros k. split.
      * intros b [<-|[<-|[]]]; auto.
      * right. exists S; simpl; auto.
  - intros (Hl & _ & Hk). split.
    + apply Hl; simpl; auto.
    + intros k. apply (proj1 (Hk k)). simpl; auto.
Qed.

Lemma broadcasts_to_refl : forall s, broadcasts_to s s.
Proof. intros s; split; auto. Qed.

Lemma broadcasts_to_trans : forall a b c,
  broadcasts_to a b -> broadcasts_to b c -> broadcasts_to a c.
Proof.
  intros a b c [L1 K1] [L2 K2]. split; [lia|].
  intros k. specialize (K1 k). specialize (K2 k). lia.
Qed.

Lemma broadcasts_to_antisym : forall a b,
  broadcasts_to a b -> broadcasts_to b a -> a = b.
Proof.
  intros a b [L1 K1] [L2 K2]. apply shape_ext; [lia|].
  intros k Hk. specialize (K1 k). specialize (K2 k). lia.
Qed.

(** The broadcasted shape is the least upper bound. *)
Lemma broadcast_upper : forall shapes S a,
  numpy_broadcast shapes S -> In a shapes -> broadcasts_to a S.
Proof.
  intros shapes S a (L & _ & K) Ha. split; [auto|]. intros k. apply (K k), Ha.
Qed.

Lemma broadcast_least : forall shapes S T,
  numpy_broadcast shapes S -> (forall a, In a shapes -> broadcasts_to a T) ->
  broadcasts_to S T.
Proof.
  intros shapes S T (L & A & K) H. split.
  - destruct A as [->|[a [Ha E]]]; [simpl; lia|]. rewrite <- E. apply (H a Ha).
  - intros k. destruct (K k) as [_ [K2|[a [Ha E]]]]; [auto|].
    rewrite <- E. apply (H a Ha).
Qed.

Lemma broadcast_exists_of_upper : forall shapes T,
  (forall a, In a shapes -> broadcasts_to a T) ->
  exists S, broadcasted_shape shapes = Ok S.
Proof.
  intros shapes T H. destruct (broadcasted_shape shapes) as [S|e] eqn:E; [eauto|].
  exfalso. apply broadcasted_shape_err in E as [_ (k & a & b & Ha & Hb & A & B & C)].
  destruct (H a Ha) as [_ Ka]. destruct (H b Hb) as [_ Kb].
  specialize (Ka k). specialize (Kb k). lia.
Qed.

(** ** Total plates *)

Lemma total_plates_some : forall pl ps r,
  total_plates (Some pl) ps = r ->
  (r = Ok pl /\ forall p, In p ps -> broadcasts_to p pl) \/
  (r = Err ValueError /\ exists p, In p ps /\ ~ broadcasts_to p pl).
Proof.
  intros pl ps r <-. unfold total_plates.
  destruct (iterM _ ps) as [[]|e] eqn:E; cbn [bind].
  - left. split; [reflexivity|]. intros p Hp.
    rewrite iterM_ok in E. specialize (E p Hp). cbv beta in E.
    destruct (is_shape_subset p pl) eqn:Es; [|discriminate].
    now apply is_shape_subset_spec.
  - right. apply iterM_err in E as [p [Hp E]].
    destruct (is_shape_subset p pl) eqn:Es; [discriminate|].
    injection E as <-. split; [reflexivity|]. exists p. split; [assumption|].
    intros H. apply is_shape_subset_spec in H. congruence.
Qed.

Lemma total_plates_none : forall ps,
  total_plates None ps = broadcasted_shape ps.
Proof. intros ps. unfold total_plates. destruct (broadcasted_shape ps) as [|[]]; reflexivity. Qed.
