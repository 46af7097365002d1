(** The loop of sum_multiply_to_plates and its final result. *)
From Coq Require Import List Arith ZArith Lia Bool Reals Lra Permutation FunctionalExtensionality Sorted.
From Verif Require Import Base Shapes SpecShapes ShapesLemmas NumPy MiscArray TensorLemmas
  EinsumLemmas SpecArray SumMultiplyLemmas PlateSumLemmas.
Import ListNotations.
Open Scope nat_scope.

Definition sh (nd : nat) (l : list (nat * nat)) := map (fun p => (fst p + nd, snd p)) l.

Lemma sh_app : forall nd l l', sh nd (l ++ l') = sh nd l ++ sh nd l'.
Proof. intros; apply map_app. Qed.

Lemma in_fst_sh : forall nd l k, In (k + nd) (map fst (sh nd l)) <-> In k (map fst l).
Proof.
  intros nd l k. unfold sh. rewrite map_map. cbn [fst]. rewrite !in_map_iff.
  split; intros [p [H1 H2]]; exists p; split; trivial; lia.
Qed.

Lemma in_fst_sh' : forall nd l k, In k (map fst (sh nd l)) -> exists j, k = j + nd /\ In j (map fst l).
Proof.
  intros nd l k. unfold sh. rewrite map_map. cbn [fst]. rewrite in_map_iff. intros [p [<- H]].
  exists (fst p). split; [reflexivity|]. now apply in_map.
Qed.

Lemma NoDup_sh : forall nd l, NoDup (map fst l) -> NoDup (map fst (sh nd l)).
Proof.
  intros nd l H. unfold sh. rewrite map_map. cbn [fst]. rewrite <- (map_map fst (fun k => k + nd)).
  apply FinFun.Injective_map_NoDup; [intros a b; lia|assumption].
Qed.

Lemma join_upd : forall nd t v k x, join nd (upd t k x) v = upd (join nd t v) (k + nd) x.
Proof.
  intros. apply functional_extensionality. intros j. unfold join, upd.
  destruct (Nat.ltb_spec j nd); destruct (Nat.eqb_spec j (k + nd)); destruct (Nat.eqb_spec (j - nd) k);
    try lia; reflexivity.
Qed.

Lemma itersum_join : forall nd l H v t,
  itersum l (fun i => H (join nd i v)) t = itersum (sh nd l) H (join nd t v).
Proof.
  intros nd l H v. induction l as [|[k d] l IH]; intros t; [reflexivity|].
  cbn [sh map fst snd]. rewrite !itersum_cons. unfold sumax. apply rsum_ext. intros x _.
  rewrite IH, join_upd. reflexivity.
Qed.

Lemma prodf_indep_all : forall args k, (forall a, In a args -> ax (ash a) k = 1) -> indep k (prodf args).
Proof.
  intros args k H e x. unfold prodf. f_equal. apply map_ext_in. intros a Ha. apply bget_indep. auto.
Qed.

Lemma prodf_cons : forall a r e, prodf (a :: r) e = (bget a e * prodf r e)%R.
Proof. reflexivity. Qed.

Lemma nb_ax_1 : forall shapes S k, numpy_broadcast shapes S ->
  (ax S k = 1 <-> forall a, In a shapes -> ax a k = 1).
Proof.
  intros shapes S k [_ [_ H]]. destruct (H k) as [H1 H2]. split.
  - intros E a Ha. destruct (H1 a Ha); congruence.
  - intros E. destruct H2 as [H2|[a [Ha H2]]]; [assumption|]. rewrite <- H2. auto.
Qed.

Lemma nb_ax_eq : forall shapes S k a, numpy_broadcast shapes S -> In a shapes -> ax a k <> 1 ->
  ax S k = ax a k.
Proof. intros shapes S k a [_ [_ H]] Ha Hne. destruct (H k) as [H1 _]. destruct (H1 a Ha); congruence. Qed.

Lemma NoDup_app_intro : forall A (l l' : list A), NoDup l -> NoDup l' ->
  (forall x, In x l -> ~ In x l') -> NoDup (l ++ l').
Proof.
  intros A l l' H1 H2 H. induction l as [|a l IH]; [assumption|]. simpl.
  inversion H1 as [|? ? Ha Hl]; subst. constructor.
  - rewrite in_app_iff. intros [H3|H3]; [contradiction|]. apply (H a); simpl; auto.
  - apply IH; [assumption|]. intros x Hx. apply H; simpl; auto.
Qed.

Lemma NoDup_collapse : forall x t, NoDup (collapse_list x t).
Proof.
  intros. unfold collapse_list. apply NoDup_filter. unfold back_range. apply NoDup_rev, seq_NoDup.
Qed.

Lemma itersum_sum_axes : forall s nd axs F e, NoDup axs ->
  (forall k, In k axs -> k + nd < length s) ->
  itersum (sum_axes_list s (shift_axes nd axs)) F e =
  itersum (sh nd (map (fun k => (k, ax s (k + nd))) axs)) F e.
Proof.
  intros s nd axs F e Hnd Hlt. apply itersum_perm; [|apply NoDup_sum_axes].
  unfold sum_axes_list, sh. rewrite map_map. cbn [fst snd].
  rewrite <- (map_map (fun k => k + nd) (fun k => (k, ax s k))). apply Permutation_map.
  apply NoDup_Permutation.
  - apply NoDup_filter, seq_NoDup.
  - apply FinFun.Injective_map_NoDup; [intros a b; lia|assumption].
  - intros x. rewrite filter_In, in_seq, memb_In. unfold shift_axes. split; [tauto|].
    intros H. split; [|assumption]. apply in_map_iff in H as [k [<- Hk]]. specialize (Hlt k Hk). lia.
Qed.

Lemma map_map_fst_pair : forall (f : nat -> nat) l, map fst (map (fun k => (k, f k)) l) = l.
Proof. intros. rewrite map_map. apply map_id. Qed.

(** The loop, for all arrays. *)
Section Presum.
Variables (nd : nat) (tp : shape).
Notation P a := (get_plates nd (ash a)).

Definition only_axis (before : list shape) (arrays : list (arr R)) (k d : nat) : Prop :=
  ax tp k = 1 /\ (forall b, In b before -> ax b k = 1) /\
  exists l1 a l2, arrays = l1 ++ a :: l2 /\ ax (P a) k = d /\ d <> 1 /\
                  forall b, In b (l1 ++ l2) -> ax (P b) k = 1.

Lemma presum_sound : forall arrays before arrays',
  presum nd tp before arrays = Ok arrays' ->
  exists X, NoDup (map fst X) /\
    (forall k d, In (k, d) X <-> only_axis before arrays k d) /\
    Forall2 (fun a a' => length (ash a') = length (ash a) /\
               (forall k, k < nd -> ax (ash a') k = ax (ash a) k) /\
               forall k, ax (ash a') (k + nd) =
                 if memb k (map fst X) then 1 else ax (ash a) (k + nd)) arrays arrays' /\
    (forall G : env -> R,
       (forall k, (forall b, In b before -> ax b k = 1) -> indep (k + nd) G) ->
       forall e, (G e * prodf arrays' e)%R =
                 itersum (sh nd X) (fun e => (G e * prodf arrays e)%R) e).
Proof.
  induction arrays as [|a r IH]; intros before arrays' H; cbn [presum] in H.
  - injection H as <-. exists []. split; [constructor|]. split; [|split].
    + intros k d. simpl. split; [tauto|]. intros (_ & _ & l1 & a & l2 & E & _).
      destruct l1; discriminate.
    + constructor.
    + reflexivity.
  - apply bind_ok in H as [without [Hw H]]. apply bind_ok in H as [axs [Hax H]].
    apply bind_ok in H as [rest [Hr H]]. injection H as <-.
    apply broadcasted_shape_ok in Hw. apply axes_to_collapse_ok in Hax as [-> Hcompat].
    destruct (IH _ _ Hr) as (X & HX1 & HX2 & HX3 & HX4). clear IH.
    set (axs := collapse_list (P a) without) in *.
    set (a' := match axs with [] => a | _ => np_sum_keep a (shift_axes nd axs) end).
    assert (Hin : forall k, In k axs <-> ax (P a) k <> 1 /\ ax tp k = 1 /\
               (forall b, In b before -> ax b k = 1) /\ (forall b, In b r -> ax (P b) k = 1)).
    { intros k. unfold axs. rewrite collapse_list_in. rewrite (nb_ax_1 _ _ k Hw).
      split.
      - intros [H1 H2]. split; [assumption|]. split; [apply H2; simpl; auto|]. split.
        + intros b Hb. apply H2. right. apply in_or_app. auto.
        + intros b Hb. apply H2. right. apply in_or_app. right. now apply in_map with (f := fun b => P b).
      - intros (H1 & H2 & H3 & H4). split; [assumption|]. intros b [<-|Hb]; [assumption|].
        apply in_app_or in Hb as [Hb|Hb]; [auto|]. apply in_map_iff in Hb as [c [<- Hc]]. auto. }
    assert (Hnda : NoDup axs) by apply NoDup_collapse.
    assert (Ha'ax : forall k, ax (ash a') k = if memb k (shift_axes nd axs) then 1 else ax (ash a) k).
    { intros k. unfold a'. destruct axs as [|x l]; [reflexivity|]. apply ash_sum_keep_ax. }
    assert (Ha'len : length (ash a') = length (ash a)).
    { unfold a'. destruct axs as [|x l]; [reflexivity|]. cbn [np_sum_keep ash]. now rewrite length_mkshape. }
    assert (Hlt : forall k, In k axs -> k + nd < length (ash a)).
    { intros k Hk. apply Hin in Hk as [Hk _].
      destruct (Nat.lt_ge_cases (k + nd) (length (ash a))) as [|Hc]; [assumption|].
      exfalso. apply Hk. rewrite ax_get_plates. now apply ax_overflow. }
    assert (Ha'get : forall e, bget a' e =
              itersum (sh nd (map (fun k => (k, ax (ash a) (k + nd))) axs)) (bget a) e).
    { intros e. unfold a'. destruct axs as [|x l] eqn:E; [reflexivity|]. rewrite <- E in *.
      rewrite bget_sum_keep. apply itersum_sum_axes; assumption. }
    assert (Hmem : forall k, memb (k + nd) (shift_axes nd axs) = memb k axs).
    { intros k. unfold shift_axes. apply eq_true_iff_eq. rewrite !memb_In, in_map_iff.
      split; [intros [j [Hj1 Hj2]]; replace k with j by lia; assumption|]. intros Hk. exists k; auto. }
    set (XA := map (fun k => (k, ax (ash a) (k + nd))) axs) in *.
    assert (HXA : map fst XA = axs) by apply map_map_fst_pair.
    assert (Hdisj : forall k, In k axs -> ~ In k (map fst X)).
    { intros k Hk HkX. apply in_map_iff in HkX as [[k' d] [E HkX]]. cbn in E; subst k'.
      apply HX2 in HkX as (_ & HkX & _). apply Hin in Hk as [Hk _]. apply Hk.
      apply HkX. apply in_or_app. simpl; auto. }
    exists (XA ++ X). split; [|split; [|split]].
    + rewrite map_app, HXA. apply NoDup_app_intro; assumption.
    + intros k d. rewrite in_app_iff, HX2. unfold only_axis. split.
      * intros [H|(H1 & H2 & l1 & b & l2 & E & H3 & H4 & H5)].
        -- unfold XA in H. apply in_map_iff in H as [j [E Hj]]. injection E as -> <-.
           apply Hin in Hj as (H1 & H2 & H3 & H4). split; [assumption|]. split; [assumption|].
           exists [], a, r. rewrite ax_get_plates in *. repeat split; auto.
        -- split; [assumption|]. split; [intros c Hc; apply H2, in_or_app; auto|].
           exists (a :: l1), b, l2. rewrite E. repeat split; auto.
           intros c [<-|Hc]; [|auto]. apply H2, in_or_app. simpl; auto.
      * intros (H1 & H2 & l1 & b & l2 & E & H3 & H4 & H5). destruct l1 as [|c l1].
        -- injection E as -> ->. left. unfold XA. apply in_map_iff. exists k.
           rewrite ax_get_plates in H3. rewrite H3. split; [reflexivity|].
           apply Hin. rewrite ax_get_plates, H3. repeat split; auto.
        -- injection E as -> ->. right. split; [assumption|]. split.
           ++ intros x Hx. apply in_app_or in Hx as [Hx|[<-|[]]]; [auto|]. apply H5. simpl; auto.
           ++ exists l1, b, l2. repeat split; auto. intros x Hx. apply H5. simpl; auto.
    + rewrite map_app, HXA. constructor.
      * split; [exact Ha'len|]. split.
        -- intros k Hk. rewrite Ha'ax. replace (memb k (shift_axes nd axs)) with false; [reflexivity|].
           symmetry. apply memb_false. unfold shift_axes. rewrite in_map_iff. intros [j [Hj _]]. lia.
        -- intros k. rewrite Ha'ax, Hmem. unfold memb. rewrite existsb_app.
           destruct (existsb (Nat.eqb k) axs) eqn:E1; [reflexivity|]. cbn [orb].
           destruct (existsb (Nat.eqb k) (map fst X)) eqn:E2; [|reflexivity].
           fold (memb k (map fst X)) in E2. apply memb_In, in_map_iff in E2 as [[k' d] [E HkX]].
           cbn in E; subst k'. apply HX2 in HkX as (_ & HkX & _).
           rewrite <- ax_get_plates. apply HkX. apply in_or_app; simpl; auto.
      * assert (Hrk : forall b k, In b r -> In k axs -> ax (ash b) (k + nd) = 1).
        { intros b k Hb Hk. apply Hin in Hk as (_ & _ & _ & Hk). rewrite <- ax_get_plates. auto. }
        clear -HX3 Hrk. induction HX3 as [|b b' l l' [H1 [H2 H3]] HF IH]; constructor.
        -- split; [assumption|]. split; [assumption|]. intros k. rewrite H3. unfold memb.
           rewrite existsb_app. destruct (existsb (Nat.eqb k) axs) eqn:E; cbn [orb].
           ++ fold (memb k axs) in E. apply memb_In in E. rewrite (Hrk b k); simpl; auto.
              now destruct (existsb (Nat.eqb k) (map fst X)).
           ++ reflexivity.
        -- apply IH. intros c k Hc. apply Hrk. simpl; auto.
    + intros G HG e. rewrite prodf_cons.
      assert (Hrest : forall k, In k axs -> indep (k + nd) (prodf rest)).
      { intros k Hk. apply prodf_indep_all. apply Hin in Hk as (_ & _ & _ & Hk).
        clear -HX3 Hk. induction HX3 as [|b b' l l' [H1 [H2 H3]] HF IH]; intros c Hc; [destruct Hc|].
        destruct Hc as [<-|Hc]; [|apply IH; [intros; apply Hk; simpl; auto|assumption]].
        rewrite H3. destruct (memb k (map fst X)); [reflexivity|].
        rewrite <- ax_get_plates. apply Hk. simpl; auto. }
      rewrite sh_app, itersum_app.
      transitivity (itersum (sh nd XA) (fun e => (G e * bget a e * prodf rest e)%R) e).
      * rewrite itersum_mul_l.
        2:{ intros k Hk. apply in_fst_sh' in Hk as [j [-> Hj]]. rewrite HXA in Hj. now apply Hrest. }
        rewrite itersum_mul_r.
        2:{ intros k Hk. apply in_fst_sh' in Hk as [j [-> Hj]]. rewrite HXA in Hj. apply HG.
            apply Hin in Hj. tauto. }
        rewrite Ha'get. ring.
      * apply itersum_ext_all. intros e1.
        rewrite (HX4 (fun e => (G e * bget a e)%R)).
        -- apply itersum_ext_all. intros e2. rewrite prodf_cons. ring.
        -- intros k Hk e2 x. rewrite HG by (intros b Hb; apply Hk, in_or_app; auto).
           rewrite (bget_indep _ a (k + nd)); [reflexivity|].
           rewrite <- ax_get_plates. apply Hk, in_or_app. simpl; auto.
Qed.

Lemma presum_total : forall arrays before S,
  (forall b, In b before -> broadcasts_to b S) ->
  (forall a, In a arrays -> broadcasts_to (P a) S) -> broadcasts_to tp S ->
  exists arrays', presum nd tp before arrays = Ok arrays'.
Proof.
  induction arrays as [|a r IH]; intros before S Hb Ha Ht; cbn [presum]; [eauto|].
  destruct (broadcast_exists_of_upper (tp :: before ++ map (fun b => P b) r) S) as [w Hw].
  { intros x [<-|Hx]; [assumption|]. apply in_app_or in Hx as [Hx|Hx]; [auto|].
    apply in_map_iff in Hx as [c [<- Hc]]. apply Ha. simpl; auto. }
  rewrite Hw. cbn [bind].
  assert (Hc : axes_to_collapse (P a) w = Ok (collapse_list (P a) w)).
  { apply axes_to_collapse_ok. split; [reflexivity|]. intros k.
    apply broadcasted_shape_ok in Hw.
    assert (HwS : broadcasts_to w S).
    { apply (broadcast_least _ _ _ Hw). intros x [<-|Hx]; [assumption|].
      apply in_app_or in Hx as [Hx|Hx]; [auto|].
      apply in_map_iff in Hx as [c [<- Hc]]. apply Ha. simpl; auto. }
    destruct HwS as [_ HwS]. specialize (HwS k).
    destruct (Ha a (or_introl eq_refl)) as [_ HaS]. specialize (HaS k).
    destruct HwS, HaS; try tauto. right; right. congruence. }
  rewrite Hc. cbn [bind].
  destruct (IH (before ++ [P a]) S) as [rest Hr].
  - intros b Hb'. apply in_app_or in Hb' as [Hb'|[<-|[]]]; [auto|]. apply Ha; simpl; auto.
  - intros b Hb'. apply Ha; simpl; auto.
  - assumption.
  - rewrite Hr. cbn [bind]. eauto.
Qed.
End Presum.
