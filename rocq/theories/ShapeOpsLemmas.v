(** sum_to_shape, repeat_to_shape, moveaxis. *)
From Coq Require Import List Arith ZArith Lia Bool Reals Lra Permutation FunctionalExtensionality Sorted.
From Verif Require Import Base Shapes SpecShapes ShapesLemmas NumPy MiscArray TensorLemmas
  EinsumLemmas SpecArray SumMultiplyLemmas PlateSumLemmas PlateSum2Lemmas PlateSum3Lemmas MessageLemmas.
Import ListNotations.
Open Scope nat_scope.

(** Summing the leading axes away. *)
Lemma np_sum_lead : forall (x : arr R) n, n <= ndim x ->
  let y := np_sum x (seq n (ndim x - n)) in
  ndim y = n /\ (forall k, k < n -> ax (ash y) k = ax (ash x) k) /\
  (forall e, bget y e = itersum (map (fun k => (k, ax (ash x) k)) (seq n (ndim x - n))) (bget x) e).
Proof.
  intros x n Hn y.
  set (ks := np_sum_keep x (seq n (ndim x - n))).
  assert (Hks : forall k, ax (ash ks) k = if memb k (seq n (ndim x - n)) then 1 else ax (ash x) k)
    by (intros; apply ash_sum_keep_ax).
  assert (Hnk : ndim ks = ndim x) by (unfold ks, ndim, np_sum_keep; cbn [ash]; apply length_mkshape).
  assert (Hu : forall k, n <= k -> ax (ash ks) k = 1).
  { intros k Hk. rewrite Hks. destruct (memb k (seq n (ndim x - n))) eqn:E; [reflexivity|].
    apply memb_false in E. rewrite in_seq in E. apply ax_overflow. unfold ndim in *. lia. }
  destruct (drop_axes_lead _ ks n Hu) as (H1 & H2 & H3). rewrite Hnk in H1, H2, H3.
  unfold y, np_sum. fold ks. split; [|split].
  - unfold ndim in *. rewrite H1. lia.
  - intros k Hk. rewrite H2, Hks. replace (memb k (seq n (ndim x - n))) with false; [reflexivity|].
    symmetry. apply memb_false. rewrite in_seq. lia.
  - intros e. rewrite H3. unfold ks. rewrite bget_sum_keep. f_equal.
    unfold sum_axes_list. f_equal. replace (length (ash x)) with (n + (ndim x - n)) by (unfold ndim; unfold ndim in Hn; lia).
    rewrite seq_app, filter_app. cbn [plus].
    rewrite filter_false.
    + cbn [app]. apply filter_true. intros k Hk. apply memb_In. assumption.
    + intros k Hk. apply in_seq in Hk. apply memb_false. rewrite in_seq. lia.
Qed.

Lemma sum_to_shape_loop : forall (s : shape) (y : shape) ks acc,
  (forall k, In k ks -> k < length s) ->
  let step := fun axs k => match back s k with
              | None => Err IndexError
              | Some sk => if sk =? 1 then Ok (if 1 <? ax y k then axs ++ [k] else axs)
                  else if negb (ax y k =? sk) then Err ValueError else Ok axs end in
  ((forall k, In k ks -> ax s k = 1 \/ ax y k = ax s k) ->
   foldM step acc ks = Ok (acc ++ filter (fun k => (ax s k =? 1) && (1 <? ax y k)) ks)) /\
  ((exists k, In k ks /\ ax s k <> 1 /\ ax y k <> ax s k) -> foldM step acc ks = Err ValueError).
Proof.
  intros s y ks acc Hks step. revert acc.
  assert (Hstep : forall axs k, k < length s -> step axs k =
     if ax s k =? 1 then Ok (if 1 <? ax y k then axs ++ [k] else axs)
     else if ax y k =? ax s k then Ok axs else Err ValueError).
  { intros axs k Hk. unfold step. rewrite back_lt by assumption. destruct (ax s k =? 1); [reflexivity|].
    now destruct (ax y k =? ax s k). }
  clearbody step. induction ks as [|k ks IH]; intros acc; cbn [foldM filter].
  - split; [intros _; now rewrite app_nil_r|]. intros [k [[] _]].
  - assert (Hks' : forall j, In j ks -> j < length s) by (intros; apply Hks; simpl; auto).
    rewrite Hstep by (apply Hks; simpl; auto). specialize (IH Hks'). split.
    + intros H. destruct (Nat.eqb_spec (ax s k) 1) as [E|E]; cbn [bind andb].
      * rewrite (proj1 (IH _)) by (intros; apply H; simpl; auto).
        destruct (1 <? ax y k); [now rewrite <- app_assoc|reflexivity].
      * destruct (H k (or_introl eq_refl)) as [|E2]; [contradiction|]. rewrite E2, Nat.eqb_refl. cbn [bind].
        apply IH. intros; apply H; simpl; auto.
    + intros (j & [<-|Hj] & H1 & H2).
      * destruct (Nat.eqb_spec (ax s k) 1); [contradiction|]. destruct (Nat.eqb_spec (ax y k) (ax s k)); [contradiction|].
        reflexivity.
      * assert (He : forall acc, foldM step acc ks = Err ValueError) by (intros; apply IH; exists j; auto).
        destruct (Nat.eqb_spec (ax s k) 1); cbn [bind]; [apply He|].
        destruct (ax y k =? ax s k); cbn [bind]; [apply He|reflexivity].
Qed.

Lemma itersum_drop_units : forall (x : shape) l F t, NoDup l ->
  (forall k, In k l -> ax x k = 1 -> indep k F) ->
  itersum (map (fun k => (k, ax x k)) l) F t =
  itersum (map (fun k => (k, ax x k)) (filter (fun k => negb (ax x k =? 1)) l)) F t.
Proof.
  intros x l F t Hnd HF.
  rewrite (itersum_split (fun p => ax x (fst p) =? 1)) by (now rewrite map_map_fst_pair).
  rewrite itersum_const.
  - replace (fold_right Rmult 1%R _) with 1%R.
    + rewrite Rmult_1_l. f_equal. clear. induction l as [|k l IH]; [reflexivity|]. cbn [map filter fst].
      destruct (ax x k =? 1); cbn [negb map]; now rewrite IH.
    + symmetry. clear. induction l as [|k l IH]; [reflexivity|].
      cbn [map filter fst]. destruct (Nat.eqb_spec (ax x k) 1) as [E|E]; [|assumption].
      cbn [map fold_right snd]. rewrite IH, E. simpl. ring.
  - intros k Hk. apply itersum_indep. apply in_map_iff in Hk as [[k' d] [E Hk]]. cbn in E; subst k'.
    apply filter_In in Hk as [Hk1 Hk]. apply HF; [|now apply Nat.eqb_eq].
    apply in_map_iff in Hk1 as [j [E Hj]]. congruence.
Qed.

Lemma back_range_perm : forall n, Permutation (back_range n) (seq 0 n).
Proof. intros. unfold back_range. symmetry. apply Permutation_rev. Qed.

Lemma sum_to_shape_ok : forall (x : arr R) s,
  broadcasts_to s (ash x) -> (forall k, ax s k = 1 -> ax (ash x) k <> 0) ->
  exists y, sum_to_shape x s = Ok y /\ ash y = s /\
    forall t, valid s t -> bget y t = fibre_sum (ash x) s t (bget x).
Proof.
  intros x s [Hl Hax] Hz. unfold sum_to_shape.
  destruct (np_sum_lead x (length s) Hl) as (Hn & Hyax & Hyg).
  set (y := np_sum x (seq (length s) (ndim x - length s))) in *.
  destruct (sum_to_shape_loop s (ash y) (back_range (ndim y)) []) as [Hok _].
  { intros k Hk. apply in_back_range in Hk. lia. }
  assert (Hc : forall k, In k (back_range (ndim y)) -> ax s k = 1 \/ ax (ash y) k = ax s k).
  { intros k Hk. apply in_back_range in Hk. rewrite Hyax by lia. destruct (Hax k); auto. }
  rewrite (Hok Hc). cbn [bind app].
  set (axs := filter (fun k => (ax s k =? 1) && (1 <? ax (ash y) k)) (back_range (ndim y))).
  assert (Haxs : forall k, In k axs <-> k < length s /\ ax s k = 1 /\ 1 < ax (ash x) k).
  { intros k. unfold axs. rewrite filter_In, in_back_range, andb_true_iff, Nat.eqb_eq, Nat.ltb_lt, Hn.
    split; intros (H1 & H2 & H3); rewrite Hyax in *; auto. }
  eexists. split; [reflexivity|]. split.
  - apply shape_ext.
    + change (length (ash (np_sum_keep y axs))) with (ndim (np_sum_keep y axs)).
      unfold ndim, np_sum_keep. cbn [ash]. now rewrite length_mkshape.
    + intros k. rewrite ash_sum_keep_ax. destruct (memb k axs) eqn:E.
      * apply memb_In, Haxs in E. symmetry. tauto.
      * apply memb_false in E. destruct (Nat.lt_ge_cases k (length s)) as [Hk|Hk].
        -- rewrite Hyax by assumption. destruct (Hax k) as [H|H]; [|congruence]. rewrite H.
           specialize (Hz k H). rewrite Haxs in E. lia.
        -- rewrite !ax_overflow; [reflexivity|assumption|unfold ndim in Hn; lia].
  - intros t Ht. rewrite bget_sum_keep, fibre_iter; [|split; assumption|assumption].
    transitivity (itersum (sum_axes_list (ash y) axs ++ map (fun k => (k, ax (ash x) k)) (seq (length s) (ndim x - length s))) (bget x) t).
    + rewrite itersum_app. apply itersum_ext_all. exact Hyg.
    + assert (Hsl : sum_axes_list (ash y) axs = map (fun k => (k, ax (ash x) k)) (filter (fun k => memb k axs) (seq 0 (length s)))).
      { unfold sum_axes_list. change (length (ash y)) with (ndim y). rewrite Hn.
        apply map_ext_in. intros k Hk. apply filter_In in Hk as [Hk _]. apply in_seq in Hk. rewrite Hyax by lia. reflexivity. }
      rewrite Hsl, <- map_app.
      unfold unit_axes.
      assert (HndA : NoDup (filter (fun k => memb k axs) (seq 0 (length s)) ++ seq (length s) (ndim x - length s))).
      { apply NoDup_app_intro; [apply NoDup_filter, seq_NoDup|apply seq_NoDup|].
        intros k Hk1 Hk2. apply filter_In in Hk1 as [Hk1 _]. apply in_seq in Hk1, Hk2. lia. }
      rewrite (itersum_drop_units _ _ _ _ HndA) by (intros k _ Hk; now apply bget_indep).
      rewrite (itersum_drop_units (ash x) (filter (fun k => ax s k =? 1) (seq 0 (length (ash x)))));
        [|apply NoDup_filter, seq_NoDup|intros k _ Hk; now apply bget_indep].
      apply itersum_perm.
      * apply Permutation_map. apply NoDup_Permutation.
        -- now apply NoDup_filter.
        -- apply NoDup_filter, NoDup_filter, seq_NoDup.
        -- intros k. rewrite !filter_In.
           split; intros [Hj Hk]; (split; [|assumption]).
           ++ rewrite Nat.eqb_eq, in_seq. apply in_app_or in Hj as [Hj|Hj].
              ** apply filter_In in Hj as [_ Hj]. apply memb_In, Haxs in Hj. unfold ndim in Hl. lia.
              ** apply in_seq in Hj. unfold ndim in Hj. split; [lia|]. apply ax_overflow. lia.
           ++ rewrite Nat.eqb_eq, in_seq in Hj. destruct Hj as [Hj1 Hj2].
              apply in_or_app. destruct (Nat.lt_ge_cases k (length s)) as [Hkl|Hkl].
              ** left. apply filter_In. split; [apply in_seq; lia|]. apply memb_In, Haxs.
                 rewrite negb_true_iff, Nat.eqb_neq in Hk. specialize (Hz k Hj2). lia.
              ** right. apply in_seq. unfold ndim. lia.
      * rewrite map_map_fst_pair. now apply NoDup_filter.
Qed.

Lemma sum_to_shape_err : forall (x : arr R) s,
  length s <= ndim x -> ~ broadcasts_to s (ash x) -> sum_to_shape x s = Err ValueError.
Proof.
  intros x s Hl Hb. unfold sum_to_shape.
  destruct (np_sum_lead x (length s) Hl) as (Hn & Hyax & Hyg).
  set (y := np_sum x (seq (length s) (ndim x - length s))) in *.
  destruct (sum_to_shape_loop s (ash y) (back_range (ndim y)) []) as [_ Herr].
  { intros k Hk. apply in_back_range in Hk. lia. }
  rewrite Herr; [reflexivity|].
  destruct (forallb (fun k => (ax s k =? 1) || (ax (ash x) k =? ax s k)) (seq 0 (length s))) eqn:E.
  - exfalso. apply Hb. split; [assumption|]. intros k. rewrite forallb_forall in E.
    destruct (Nat.lt_ge_cases k (length s)) as [Hk|Hk]; [|left; now apply ax_overflow].
    specialize (E k). rewrite in_seq, orb_true_iff, !Nat.eqb_eq in E. destruct E as [E|E]; [lia|auto|auto].
  - assert (H : exists k, In k (seq 0 (length s)) /\ ((ax s k =? 1) || (ax (ash x) k =? ax s k)) = false).
    { clear -E. induction (seq 0 (length s)) as [|k l IH]; [discriminate|]. cbn [forallb] in E.
      apply andb_false_iff in E as [E|E]; [exists k; simpl; auto|]. destruct (IH E) as [j [Hj1 Hj2]]. exists j; simpl; auto. }
    destruct H as [k [Hk1 Hk2]]. apply in_seq in Hk1. apply orb_false_iff in Hk2 as [H1 H2].
    apply Nat.eqb_neq in H1, H2. exists k. rewrite in_back_range, Hn, Hyax by lia. repeat split; [lia|assumption|assumption].
Qed.

(** ** repeat_to_shape *)
Lemma ax_repeat_units : forall n s k, ax (repeat 1 n ++ s) k = ax s k.
Proof.
  intros n s k. rewrite ax_app. destruct (Nat.ltb_spec k (length s)) as [H|H]; [reflexivity|].
  rewrite (ax_overflow s) by assumption. unfold ax.
  assert (Hr : forall m j, nth j (rev (repeat 1 m)) 1 = 1).
  { intros m j. destruct (nth_in_or_default j (rev (repeat 1 m)) 1) as [Hi|Hi]; [|assumption].
    apply in_rev in Hi. now apply repeat_spec in Hi. }
  apply Hr.
Qed.

Lemma repeat_loop : forall A (s t : shape) ks (a0 : arr A),
  NoDup ks ->
  (forall k, In k ks -> k < length s) -> ndim a0 = length s ->
  (forall k, In k ks -> ax (ash a0) k = ax t k) ->
  let step := fun a k => if ax s k =? ax t k then Ok a
             else if negb (ax t k =? 1) then Err PyException
                  else Ok (np_repeat_unit a (ax s k) k) in
  ((forall k, In k ks -> ax t k = 1 \/ ax t k = ax s k) ->
   exists y, foldM step a0 ks = Ok y /\ ndim y = length s /\
     (forall k, ax (ash y) k = if memb k ks then ax s k else ax (ash a0) k) /\
     forall e, bget y e = bget a0 (fun k => if memb k ks && (ax t k =? 1) then 0 else e k)) /\
  ((exists k, In k ks /\ ax t k <> 1 /\ ax t k <> ax s k) -> foldM step a0 ks = Err PyException).
Proof.
  intros A s t ks a0 Hnd Hks Hn Ht step. revert a0 Hn Ht.
  induction ks as [|k ks IH]; intros a0 Hn Ht; cbn [foldM].
  - split; [|intros [k [[] _]]]. intros _. exists a0. split; [reflexivity|]. split; [assumption|].
    split; [reflexivity|]. intros e. f_equal.
  - inversion Hnd as [|? ? Hk Hnd']; subst.
    assert (Hks' : forall j, In j ks -> j < length s) by (intros; apply Hks; simpl; auto).
    specialize (IH Hnd' Hks').
    assert (Hrep : ax (ash a0) k = 1 ->
              ndim (np_repeat_unit a0 (ax s k) k) = length s /\
              (forall j, ax (ash (np_repeat_unit a0 (ax s k) k)) j = if j =? k then ax s k else ax (ash a0) j) /\
              forall e, bget (np_repeat_unit a0 (ax s k) k) e = bget a0 e).
    { intros Hu.
      assert (Hra : forall j, ax (ash (np_repeat_unit a0 (ax s k) k)) j = if j =? k then ax s k else ax (ash a0) j).
      { intros j. unfold np_repeat_unit. cbn [ash]. rewrite ax_mkshape, Hn.
        destruct (Nat.ltb_spec j (length s)) as [H|H]; [reflexivity|].
        destruct (Nat.eqb_spec j k) as [->|_].
        - specialize (Hks k (or_introl eq_refl)). lia.
        - symmetry. apply ax_overflow. unfold ndim in Hn. lia. }
      split; [|split; [exact Hra|]].
      - unfold ndim, np_repeat_unit. cbn [ash]. rewrite length_mkshape. exact Hn.
      - intros e. unfold bget at 1. unfold np_repeat_unit at 1. cbn [aget].
        apply bget_ext. intros j Hj1 Hj2. unfold upd. destruct (Nat.eqb_spec j k) as [->|Hjk]; [contradiction|].
        unfold clip. rewrite Hra. destruct (Nat.eqb_spec j k); [contradiction|].
        destruct (Nat.eqb_spec (ax (ash a0) j) 1); [contradiction|reflexivity]. }
    assert (Hgen : forall a1, ndim a1 = length s -> (forall j, ax (ash a1) j = if j =? k then ax s k else ax (ash a0) j) ->
        (forall e, bget a1 e = bget a0 (fun j => if (j =? k) && (ax t j =? 1) then 0 else e j)) ->
        (forall j, In j (k :: ks) -> ax t j = 1 \/ ax t j = ax s j) ->
        exists y, foldM step a1 ks = Ok y /\ ndim y = length s /\
         (forall j, ax (ash y) j = if memb j (k :: ks) then ax s j else ax (ash a0) j) /\
         (forall e, bget y e = bget a0 (fun j => if memb j (k :: ks) && (ax t j =? 1) then 0 else e j))).
    { intros a1 Hn1 Ha1 Hg1 Hall.
      destruct (IH a1 Hn1) as [IHok _].
      { intros j Hj. rewrite Ha1. destruct (Nat.eqb_spec j k) as [->|]; [contradiction|]. apply Ht. simpl; auto. }
      destruct IHok as (y & Hy & Hyn & Hya & Hyg); [intros; apply Hall; simpl; auto|].
      exists y. split; [assumption|]. split; [assumption|]. split.
      - intros j. rewrite Hya. unfold memb. cbn [existsb]. destruct (existsb (Nat.eqb j) ks); [now rewrite orb_true_r|].
        rewrite orb_false_r, Ha1. destruct (Nat.eqb_spec j k) as [->|]; reflexivity.
      - intros e. rewrite Hyg, Hg1. f_equal. apply functional_extensionality. intros j.
        unfold memb. cbn [existsb]. destruct (j =? k), (ax t j =? 1), (existsb (Nat.eqb j) ks); reflexivity. }
    assert (Htk : ax (ash a0) k = ax t k) by (apply Ht; simpl; auto).
    split.
    + intros Hall. unfold step at 1. destruct (Nat.eqb_spec (ax s k) (ax t k)) as [E|E]; cbn [bind].
      * apply Hgen; [assumption| |  |assumption].
        -- intros j. destruct (Nat.eqb_spec j k) as [->|]; [congruence|reflexivity].
        -- intros e. apply bget_ext. intros j Hj1 Hj2.
           destruct (Nat.eqb_spec j k) as [->|]; [|reflexivity]. rewrite Htk in Hj2.
           destruct (Nat.eqb_spec (ax t k) 1); [contradiction|reflexivity].
      * destruct (Hall k (or_introl eq_refl)) as [E1|E1]; [|congruence].
        rewrite E1. cbn [Nat.eqb negb bind].
        destruct Hrep as (R1 & R2 & R3); [congruence|].
        apply Hgen; [assumption|assumption| |assumption].
        intros e. rewrite R3. apply bget_ext. intros j Hj1 Hj2.
        destruct (Nat.eqb_spec j k) as [->|]; [congruence|reflexivity].
    + intros (j & Hj & H1 & H2). unfold step at 1.
      assert (Hcase : forall a1, ndim a1 = length s -> (forall i, In i ks -> ax (ash a1) i = ax t i) ->
                 j <> k -> foldM step a1 ks = Err PyException).
      { intros a1 Hn1 Ha1 Hjk. apply (IH a1 Hn1 Ha1). exists j. destruct Hj as [<-|Hj]; [congruence|auto]. }
      destruct (Nat.eqb_spec (ax s k) (ax t k)) as [E|E]; cbn [bind].
      * apply Hcase; [assumption| |intros ->; congruence]. intros; apply Ht; simpl; auto.
      * destruct (Nat.eqb_spec (ax t k) 1) as [E1|E1]; cbn [negb bind]; [|reflexivity].
        destruct Hrep as (R1 & R2 & R3); [congruence|].
        apply Hcase; [assumption| |intros ->; congruence].
        intros i Hi. rewrite R2. destruct (Nat.eqb_spec i k) as [->|]; [contradiction|]. apply Ht; simpl; auto.
Qed.

Lemma repeat_to_shape_ok : forall A (a : arr A) s,
  broadcasts_to (ash a) s ->
  exists y, repeat_to_shape a s = Ok y /\ ash y = s /\
    forall e, valid s e -> bget y e = bget a e.
Proof.
  intros A a s [Hl Hax]. unfold repeat_to_shape.
  destruct (Nat.ltb_spec (length s) (length (ash a))); [lia|].
  set (t := repeat 1 (length s - length (ash a)) ++ ash a).
  assert (Hta : forall k, ax t k = ax (ash a) k) by (intros; apply ax_repeat_units).
  destruct (reshape_leading A a t Hta) as (a1 & Ha1 & Hs1 & Hg1).
  rewrite Ha1. cbn [bind].
  assert (Hlt : length t = length s).
  { unfold t. rewrite app_length, repeat_length. lia. }
  destruct (repeat_loop A s t (seq 0 (length s)) a1) as [Hok _].
  - apply seq_NoDup.
  - intros k Hk. apply in_seq in Hk. lia.
  - unfold ndim. rewrite Hs1. exact Hlt.
  - intros k _. now rewrite Hs1.
  - destruct Hok as (y & Hy & Hyn & Hya & Hyg); [intros k _; rewrite Hta; apply Hax|].
    exists y. split; [exact Hy|].
    assert (Hys : ash y = s).
    { apply shape_ext; [assumption|]. intros k. rewrite Hya. destruct (memb k (seq 0 (length s))) eqn:E; [reflexivity|].
      apply memb_false in E. rewrite in_seq in E. rewrite Hs1, !ax_overflow; [reflexivity|lia|lia]. }
    split; [exact Hys|]. intros e He. rewrite Hyg, Hg1.
    + apply bget_ext. intros k Hk1 Hk2. rewrite Hta. destruct (Nat.eqb_spec (ax (ash a) k) 1); [contradiction|].
      now rewrite andb_false_r.
    + intros k Hk. rewrite Hta in *. destruct (Nat.eqb_spec (ax (ash a) k) 1); [contradiction|].
      rewrite andb_false_r. destruct (Hax k) as [|E]; [contradiction|]. rewrite E. apply He.
Qed.

Lemma repeat_to_shape_err : forall A (a : arr A) s,
  ~ broadcasts_to (ash a) s -> repeat_to_shape a s = Err PyException.
Proof.
  intros A a s Hb. unfold repeat_to_shape.
  destruct (Nat.ltb_spec (length s) (length (ash a))) as [|Hl]; [reflexivity|].
  set (t := repeat 1 (length s - length (ash a)) ++ ash a).
  assert (Hta : forall k, ax t k = ax (ash a) k) by (intros; apply ax_repeat_units).
  destruct (reshape_leading A a t Hta) as (a1 & Ha1 & Hs1 & Hg1).
  rewrite Ha1. cbn [bind].
  assert (Hlt : length t = length s).
  { unfold t. rewrite app_length, repeat_length. lia. }
  destruct (repeat_loop A s t (seq 0 (length s)) a1) as [_ Herr].
  - apply seq_NoDup.
  - intros k Hk. apply in_seq in Hk. lia.
  - unfold ndim. rewrite Hs1. exact Hlt.
  - intros k _. now rewrite Hs1.
  - apply Herr. clear Herr.
    destruct (forallb (fun k => (ax (ash a) k =? 1) || (ax (ash a) k =? ax s k)) (seq 0 (length s))) eqn:E.
    + exfalso. apply Hb. split; [assumption|]. intros k. rewrite forallb_forall in E.
      destruct (Nat.lt_ge_cases k (length s)) as [Hk|Hk]; [|left; apply ax_overflow; lia].
      specialize (E k). rewrite in_seq, orb_true_iff, !Nat.eqb_eq in E. apply E. lia.
    + assert (H : exists k, In k (seq 0 (length s)) /\ ((ax (ash a) k =? 1) || (ax (ash a) k =? ax s k)) = false).
      { clear -E. induction (seq 0 (length s)) as [|k l IH]; [discriminate|]. cbn [forallb] in E.
        apply andb_false_iff in E as [E|E]; [exists k; simpl; auto|]. destruct (IH E) as [j [Hj1 Hj2]]. exists j; simpl; auto. }
      destruct H as [k [Hk1 Hk2]]. apply orb_false_iff in Hk2 as [H1 H2]. apply Nat.eqb_neq in H1, H2.
      exists k. rewrite Hta. auto.
Qed.

(** ** Adjointness *)
Lemma total_fibres : forall S s F, broadcasts_to s S ->
  total S F = total s (fun t => fibre_sum S s t F).
Proof.
  intros S s F Hb.
  transitivity (total s (itersum (unit_axes S s (length S)) F)).
  2:{ unfold total. f_equal. apply map_ext_in. intros t Ht. symmetry. apply fibre_iter; [assumption|].
      now apply all_indices_valid. }
  rewrite (total_nonunit s).
  2:{ intros k Hk E. apply itersum_indep_in. unfold unit_axes. rewrite map_map_fst_pair. apply filter_In.
      split; [apply in_seq; destruct Hb; lia|]. now apply Nat.eqb_eq. }
  rewrite <- itersum_app, total_iter. apply itersum_perm.
  2:{ rewrite map_map_fst_pair. apply seq_NoDup. }
  destruct Hb as [Hl Hax]. apply NoDup_Permutation.
  - apply FinFun.Injective_map_NoDup; [intros a b; congruence|]. apply seq_NoDup.
  - apply NoDup_app_intro.
    + apply FinFun.Injective_map_NoDup; [intros a b; congruence|]. apply NoDup_filter, seq_NoDup.
    + apply FinFun.Injective_map_NoDup; [intros a b; congruence|]. apply NoDup_filter, seq_NoDup.
    + intros [k d] H1 H2. apply in_map_iff in H1 as [j [E H1]]. injection E as -> _.
      apply in_map_iff in H2 as [j [E H2]]. injection E as -> _. apply filter_In in H1 as [_ H1], H2 as [_ H2].
      rewrite H2 in H1. discriminate.
  - intros [k d]. rewrite in_app_iff. unfold unit_axes. rewrite !in_map_iff. split.
    + intros [j [E Hj]]. injection E as -> <-. apply in_seq in Hj.
      destruct (Nat.eqb_spec (ax s k) 1) as [E|E].
      * right. exists k. split; [reflexivity|]. apply filter_In. rewrite in_seq, Nat.eqb_eq. auto.
      * left. exists k. destruct (Hax k) as [|E2]; [contradiction|]. rewrite E2. split; [reflexivity|].
        apply filter_In. rewrite in_seq, negb_true_iff, Nat.eqb_neq. split; [|assumption].
        destruct (Nat.lt_ge_cases k (length s)); [lia|]. exfalso; apply E; now apply ax_overflow.
    + intros [[j [E Hj]]|[j [E Hj]]]; injection E as -> <-; apply filter_In in Hj as [Hj1 Hj2]; apply in_seq in Hj1.
      * exists k. rewrite negb_true_iff, Nat.eqb_neq in Hj2. destruct (Hax k) as [|E2]; [contradiction|].
        rewrite E2. split; [reflexivity|]. apply in_seq. lia.
      * exists k. split; [reflexivity|]. apply in_seq. lia.
Qed.

Lemma fibre_mul : forall S s t F G, broadcasts_to s S -> valid s t -> (forall k, ax s k = 1 -> indep k G) ->
  fibre_sum S s t (fun i => (G i * F i)%R) = (G t * fibre_sum S s t F)%R.
Proof.
  intros S s t F G Hb Ht HG. rewrite !fibre_iter by assumption. apply itersum_mul_r.
  intros k Hk. unfold unit_axes in Hk. rewrite map_map_fst_pair in Hk. apply filter_In in Hk as [_ Hk].
  apply HG. now apply Nat.eqb_eq.
Qed.

(** ** moveaxis *)
Definition mv (f t p : nat) : nat :=
  if p =? t then f
  else if (f <=? p) && (p <? t) then S p
  else if (t <? p) && (p <=? f) then p - 1
  else p.

Lemma nth_remove_at : forall A (l : list A) f p d, f < length l ->
  nth p (remove_at f l) d = nth (if p <? f then p else S p) l d.
Proof.
  intros A l f p d Hf. unfold remove_at.
  assert (Hlf : length (firstn f l) = f) by (rewrite firstn_length; lia).
  destruct (Nat.ltb_spec p f) as [H|H].
  - rewrite app_nth1 by lia. rewrite <- (firstn_skipn f l) at 2. rewrite app_nth1 by lia. reflexivity.
  - rewrite app_nth2 by lia. rewrite Hlf. rewrite <- (firstn_skipn (S f) l) at 2.
    rewrite app_nth2; rewrite firstn_length, Nat.min_l by lia; [f_equal; lia|lia].
Qed.

Lemma nth_insert_at : forall A (l : list A) t x p d, t <= length l ->
  nth p (insert_at t x l) d = if p <? t then nth p l d else if p =? t then x else nth (p - 1) l d.
Proof.
  intros A l t x p d Ht. unfold insert_at.
  assert (Hlf : length (firstn t l) = t) by (rewrite firstn_length; lia).
  destruct (Nat.ltb_spec p t) as [H|H].
  - rewrite app_nth1 by lia. rewrite <- (firstn_skipn t l) at 2. rewrite app_nth1 by lia. reflexivity.
  - rewrite app_nth2 by lia. rewrite Hlf. destruct (Nat.eqb_spec p t) as [->|Hne].
    + rewrite Nat.sub_diag. reflexivity.
    + destruct (p - t) as [|q] eqn:E; [lia|]. cbn [nth].
      rewrite <- (firstn_skipn t l) at 2. rewrite app_nth2; rewrite Hlf; [f_equal; lia|lia].
Qed.

Lemma nth_move : forall A (l : list A) f t p d, f < length l -> t < length l ->
  nth p (move_element f t d l) d = nth (mv f t p) l d.
Proof.
  intros A l f t p d Hf Ht. unfold move_element.
  assert (Hlr : length (remove_at f l) = length l - 1).
  { unfold remove_at. rewrite app_length, firstn_length, skipn_length. lia. }
  rewrite nth_insert_at by lia. rewrite !nth_remove_at by assumption. unfold mv.
  destruct (Nat.eqb_spec p t), (Nat.ltb_spec p t), (Nat.leb_spec f p), (Nat.ltb_spec t p), (Nat.leb_spec p f),
    (Nat.ltb_spec p f), (Nat.ltb_spec (p - 1) f); cbn [andb]; try reflexivity; try lia; try (f_equal; lia).
Qed.

Lemma length_move : forall A (l : list A) f t d, f < length l -> t < length l ->
  length (move_element f t d l) = length l.
Proof.
  intros A l f t d Hf Ht. unfold move_element, insert_at, remove_at.
  rewrite app_length, firstn_length. cbn [length]. rewrite skipn_length, app_length, firstn_length, skipn_length. lia.
Qed.

Lemma mv_lt : forall n f t p, f < n -> t < n -> p < n -> mv f t p < n.
Proof.
  intros n f t p Hf Ht Hp. unfold mv.
  destruct (Nat.eqb_spec p t), (Nat.leb_spec f p), (Nat.ltb_spec p t), (Nat.ltb_spec t p), (Nat.leb_spec p f); cbn [andb]; lia.
Qed.

Lemma mv_inj : forall f t p q, mv f t p = mv f t q -> p = q.
Proof.
  intros f t p q. unfold mv.
  destruct (Nat.eqb_spec p t), (Nat.leb_spec f p), (Nat.ltb_spec p t), (Nat.ltb_spec t p), (Nat.leb_spec p f); cbn [andb];
  destruct (Nat.eqb_spec q t), (Nat.leb_spec f q), (Nat.ltb_spec q t), (Nat.ltb_spec t q), (Nat.leb_spec q f); cbn [andb]; lia.
Qed.

Lemma position_lt : forall n i, (- Z.of_nat n <= i < Z.of_nat n)%Z -> position n i < n.
Proof. intros n i H. unfold position. destruct (Z.ltb_spec i 0); lia. Qed.

Lemma moveaxis_axes_mv : forall n f t p,
  (- Z.of_nat n <= f < Z.of_nat n)%Z -> (- Z.of_nat n <= t < Z.of_nat n)%Z -> p < n ->
  Z.to_nat (norm_axis (Z.of_nat n) (moveaxis_axes (Z.of_nat n) f t (Z.of_nat p))) =
  mv (position n f) (position n t) p.
Proof.
  intros n f t p Hf Ht Hp.
  assert (Hpos : forall i, (- Z.of_nat n <= i < Z.of_nat n)%Z ->
     adj_pos (Z.of_nat n) i = Z.of_nat (position n i) /\ adj_neg (Z.of_nat n) i = Z.of_nat (position n i) /\
     (if (i <? 0)%Z then (i + Z.of_nat n)%Z else i) = Z.of_nat (position n i)).
  { intros i Hi. unfold adj_pos, adj_neg, position. destruct (Z.ltb_spec i 0); lia. }
  destruct (Hpos f Hf) as (F1 & F2 & F3), (Hpos t Ht) as (T1 & T2 & T3).
  unfold moveaxis_axes. rewrite F1, F2, T1, T2, T3. unfold norm_axis, mv.
  destruct (Nat.eqb_spec p (position n t)) as [E|E].
  - rewrite (proj2 (Z.eqb_eq _ _)) by lia. rewrite F3. lia.
  - destruct (Z.eqb_spec (Z.of_nat p) (Z.of_nat (position n t))); [lia|].
    pose proof (position_lt n t Ht). pose proof (position_lt n f Hf).
    clear F1 F2 F3 T1 T2 T3 Hpos Hf Ht.
    set (F := position n f) in *. set (T := position n t) in *. clearbody F T.
    destruct (Z.leb_spec (Z.of_nat F) (Z.of_nat p)), (Nat.leb_spec F p); try lia;
    destruct (Z.ltb_spec (Z.of_nat p) (Z.of_nat T)), (Nat.ltb_spec p T); try lia;
    destruct (Z.leb_spec (Z.of_nat p) (Z.of_nat F)), (Nat.leb_spec p F); try lia;
    destruct (Z.ltb_spec (Z.of_nat T) (Z.of_nat p)), (Nat.ltb_spec T p); try lia; cbn [andb];
    match goal with |- context [Z.ltb ?a ?b] => destruct (Z.ltb_spec a b) end; lia.
Qed.

Lemma at_index_nth : forall idx k, k < length idx -> at_index idx k = nth (length idx - 1 - k) idx 0.
Proof. intros idx k H. unfold at_index. rewrite rev_nth by assumption. f_equal. lia. Qed.

Lemma ax_nth : forall s k, k < length s -> ax s k = nth (length s - 1 - k) s 0.
Proof.
  intros s k H. unfold ax. rewrite rev_nth by assumption.
  replace (length s - S k) with (length s - 1 - k) by lia. apply nth_indep. lia.
Qed.

Lemma moveaxis_ok : forall A (a : arr A) f t,
  (- Z.of_nat (ndim a) <= f < Z.of_nat (ndim a))%Z -> (- Z.of_nat (ndim a) <= t < Z.of_nat (ndim a))%Z ->
  exists y, moveaxis a f t = Ok y /\
    ash y = move_element (position (ndim a) f) (position (ndim a) t) 0 (ash a) /\
    forall idx, length idx = ndim a ->
      bget y (at_index (move_element (position (ndim a) f) (position (ndim a) t) 0 idx)) = bget a (at_index idx).
Proof.
  intros A a f t Hf Ht. unfold moveaxis.
  assert (Hbad : forall i, (- Z.of_nat (ndim a) <= i < Z.of_nat (ndim a))%Z -> bad_axis (Z.of_nat (ndim a)) i = false).
  { intros i Hi. unfold bad_axis. destruct (Z.ltb_spec i 0), (Z.gtb_spec (Z.abs i) (Z.of_nat (ndim a))), (Z.geb_spec i 0), (Z.geb_spec i (Z.of_nat (ndim a))); cbn; lia. }
  rewrite !Hbad by assumption. cbn [orb].
  set (n := ndim a) in *. set (F := position n f). set (T := position n t).
  assert (HF : F < n) by (apply position_lt; assumption). assert (HT : T < n) by (apply position_lt; assumption).
  set (perm := fun p => Z.to_nat (norm_axis (Z.of_nat n) (moveaxis_axes (Z.of_nat n) f t (Z.of_nat p)))).
  assert (Hperm : forall p, p < n -> perm p = mv F T p) by (intros; now apply moveaxis_axes_mv).
  assert (Hps : map perm (seq 0 n) = map (mv F T) (seq 0 n)).
  { apply map_ext_in. intros p Hp. apply in_seq in Hp. apply Hperm. lia. }
  assert (Hnd : NoDup (map perm (seq 0 n))).
  { rewrite Hps. apply FinFun.Injective_map_NoDup; [intros p q; apply mv_inj|apply seq_NoDup]. }
  unfold np_transpose. fold n.
  replace (forallb _ _ && _) with true.
  2:{ symmetry. apply andb_true_iff. split.
      - apply forallb_forall. intros q Hq. rewrite Hps in Hq. apply in_map_iff in Hq as [p [<- Hp]]. apply in_seq in Hp.
        apply Nat.ltb_lt, mv_lt; lia.
      - apply Nat.eqb_eq. rewrite nodup_fixed_point by assumption. now rewrite map_length, seq_length. }
  eexists. split; [reflexivity|].
  assert (Hlm : forall (l : list nat), length l = n -> length (move_element F T 0 l) = n).
  { intros l Hl. rewrite length_move; lia. }
  assert (Hsh : map (fun p => ax (ash a) (n - 1 - perm p)) (seq 0 n) = move_element F T 0 (ash a)).
  { apply nth_ext with (d := 0) (d' := 0).
    - rewrite map_length, seq_length. symmetry. now apply Hlm.
    - intros p Hp. rewrite map_length, seq_length in Hp.
      rewrite (nth_indep _ 0 (ax (ash a) (n - 1 - perm 0))) by (now rewrite map_length, seq_length).
      rewrite map_nth with (f := fun p => ax (ash a) (n - 1 - perm p)), seq_nth by assumption. cbn [plus].
      rewrite nth_move by assumption. rewrite Hperm by assumption.
      assert (Hm : mv F T p < n) by (apply mv_lt; assumption).
      rewrite ax_nth by (unfold n, ndim in *; lia). f_equal. unfold n, ndim in *. lia. }
  cbn [ash]. split; [exact Hsh|].
  intros idx Hidx. unfold bget at 1. cbn [aget ash]. apply bget_ext. intros k Hk1 Hk2.
  assert (Hkn : k < n) by (exact Hk1).
  destruct (index_of (n - 1 - k) (map perm (seq 0 n))) as [p|] eqn:E.
  - apply index_of_some in E.
    assert (Hp1 : p < n).
    { rewrite <- (seq_length n 0), <- (map_length perm (seq 0 n)). apply nth_error_Some. rewrite E. discriminate. }
    assert (Hp2 : nth p (map perm (seq 0 n)) 0 = n - 1 - k) by (now apply nth_error_nth).
    rewrite (nth_indep _ 0 (perm 0)) in Hp2 by (now rewrite map_length, seq_length).
    rewrite map_nth, seq_nth in Hp2 by assumption. cbn [plus] in Hp2.
    unfold clip. rewrite Hsh.
    assert (Hax : ax (move_element F T 0 (ash a)) (n - 1 - p) = ax (ash a) k).
    { rewrite ax_nth by (rewrite Hlm; [lia|reflexivity]). rewrite Hlm by reflexivity.
      replace (n - 1 - (n - 1 - p)) with p by lia. rewrite nth_move by assumption.
      rewrite <- Hperm by assumption. rewrite Hp2. rewrite ax_nth by assumption. reflexivity. }
    rewrite Hax. destruct (Nat.eqb_spec (ax (ash a) k) 1); [contradiction|].
    rewrite !at_index_nth by (rewrite ?Hlm; lia). rewrite Hlm by assumption.
    replace (n - 1 - (n - 1 - p)) with p by lia. rewrite nth_move by lia.
    rewrite <- Hperm by assumption. rewrite Hp2, Hidx. reflexivity.
  - exfalso. assert (Hin : In (n - 1 - k) (map perm (seq 0 n))).
    { assert (Hincl : incl (seq 0 n) (map perm (seq 0 n))).
      { apply NoDup_length_incl; [exact Hnd|rewrite map_length; lia|].
        intros q Hq. rewrite Hps in Hq. apply in_map_iff in Hq as [p [<- Hp]]. apply in_seq in Hp. apply in_seq.
        split; [lia|]. apply mv_lt; lia. }
      apply Hincl, in_seq. lia. }
    apply index_of_none in E. contradiction.
Qed.

Lemma moveaxis_err : forall A (a : arr A) f t,
  ~ (- Z.of_nat (ndim a) <= f < Z.of_nat (ndim a))%Z \/ ~ (- Z.of_nat (ndim a) <= t < Z.of_nat (ndim a))%Z ->
  moveaxis a f t = Err ValueError.
Proof.
  intros A a f t H. unfold moveaxis.
  assert (Hbad : forall i, ~ (- Z.of_nat (ndim a) <= i < Z.of_nat (ndim a))%Z -> bad_axis (Z.of_nat (ndim a)) i = true).
  { intros i Hi. unfold bad_axis. destruct (Z.ltb_spec i 0), (Z.gtb_spec (Z.abs i) (Z.of_nat (ndim a))), (Z.geb_spec i 0), (Z.geb_spec i (Z.of_nat (ndim a))); cbn; lia. }
  destruct H as [H|H]; rewrite (Hbad _ H); [reflexivity|]. now rewrite orb_true_r.
Qed.
