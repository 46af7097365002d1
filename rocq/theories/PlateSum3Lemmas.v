(** sum_multiply_to_plates: the result. *)
From Coq Require Import List Arith ZArith Lia Bool Reals Lra Permutation FunctionalExtensionality Sorted.
From Verif Require Import Base Shapes SpecShapes ShapesLemmas NumPy MiscArray TensorLemmas
  EinsumLemmas SpecArray SumMultiplyLemmas PlateSumLemmas PlateSum2Lemmas.
Import ListNotations.
Open Scope nat_scope.

Lemma nb_ax_val : forall shapes T k d, numpy_broadcast shapes T ->
  (forall a, In a shapes -> ax a k = 1 \/ ax a k = d) ->
  (d = 1 \/ exists a, In a shapes /\ ax a k = d) -> ax T k = d.
Proof.
  intros shapes T k d HT H1 H2.
  destruct (Nat.eq_dec d 1) as [->|Hd].
  - apply (nb_ax_1 _ _ k HT). intros a Ha. destruct (H1 a Ha); assumption.
  - destruct H2 as [H2|[a [Ha H2]]]; [contradiction|].
    rewrite <- H2. apply (nb_ax_eq _ _ _ _ HT Ha). congruence.
Qed.

Lemma nb_in : forall shapes T k, numpy_broadcast shapes T ->
  (forall a, In a shapes -> ax a k = 1 \/ ax a k = ax T k) /\
  (ax T k = 1 \/ exists a, In a shapes /\ ax a k = ax T k).
Proof. intros shapes T k [_ [_ H]]. apply H. Qed.

Lemma plates_broadcast_ax : forall nd (arrays : list (arr R)) S pp,
  numpy_broadcast (map ash arrays) S ->
  numpy_broadcast (map (fun a => get_plates nd (ash a)) arrays) pp ->
  forall k, ax pp k = ax S (k + nd).
Proof.
  intros nd arrays S pp HS Hpp k. apply (nb_ax_val _ _ _ _ Hpp).
  - intros a Ha. apply in_map_iff in Ha as [x [<- Hx]]. rewrite ax_get_plates.
    apply (nb_in _ _ (k + nd) HS). now apply in_map.
  - destruct (nb_in _ _ (k + nd) HS) as [_ [H|[a [Ha H]]]]; [auto|].
    right. apply in_map_iff in Ha as [x [<- Hx]]. exists (get_plates nd (ash x)).
    split; [now apply in_map with (f := fun a => get_plates nd (ash a))|]. now rewrite ax_get_plates.
Qed.

Lemma asked_negax : forall n l k, k < n ->
  asked_to_sum n (AxList (map negax l)) true k = memb k l.
Proof.
  intros n l k Hk. unfold asked_to_sum, named. apply eq_true_iff_eq.
  rewrite orb_true_iff, memb_In, !existsb_exists. split.
  - intros [[z [Hz E]]|[z [Hz E]]]; apply in_map_iff in Hz as [j [<- Hj]]; apply Z.eqb_eq in E;
      unfold negax in E; [lia|]. replace k with j by lia. assumption.
  - intros Hj. right. exists (negax k). split; [now apply in_map|]. apply Z.eqb_eq. reflexivity.
Qed.

Section Main.
Variables (nd : nat) (tp : shape) (arrays : list (arr R)) (S : shape) (fp : shape).
Notation P a := (get_plates nd (ash a)).
Hypothesis Hne : arrays <> [].
Hypothesis HS : broadcasted_shape (map ash arrays) = Ok S.
Hypothesis Hfp : forall a, In a arrays -> broadcasts_to (P a) fp.
Hypothesis Htp : broadcasts_to tp fp.

Lemma pp_exists : exists pp, broadcasted_shape (map (fun a => P a) arrays) = Ok pp /\
  broadcasts_to pp fp /\ forall k, ax pp k = ax S (k + nd).
Proof.
  destruct (broadcast_exists_of_upper (map (fun a => P a) arrays) fp) as [pp Hpp].
  { intros x Hx. apply in_map_iff in Hx as [a [<- Ha]]. auto. }
  exists pp. split; [assumption|]. pose proof Hpp as Hpp'. apply broadcasted_shape_ok in Hpp. split.
  - apply (broadcast_least _ _ _ Hpp). intros x Hx. apply in_map_iff in Hx as [a [<- Ha]]. auto.
  - apply plates_broadcast_ax with arrays; [now apply broadcasted_shape_ok|assumption].
Qed.

Definition collapsed (pp : shape) : list (nat * nat) :=
  map (fun k => (k, ax pp k)) (filter (fun k => negb (ax pp k =? 1) && (ax tp k =? 1)) (seq 0 (length pp))).

Lemma smtp_core : forall pp,
  broadcasted_shape (map (fun a => P a) arrays) = Ok pp ->
  exists y,
    (arrays' <- presum nd tp [] arrays ;;
     product_plates' <- broadcasted_shape (map (fun a => get_plates nd (ash a)) arrays') ;;
     axs <- axes_to_collapse product_plates' tp ;;
     y <- match axs with
          | [] => np_reduce_multiply arrays'
          | _ => sum_multiply arrays' (AxList (map negax (shift_axes nd axs))) true true
          end ;;
     squeeze_to_dim y (length tp + nd)) = Ok y /\
    length (ash y) <= length tp + nd /\
    (forall k, ax (ash y) (k + nd) = if ax tp k =? 1 then 1 else ax S (k + nd)) /\
    (forall k, k < nd -> ax (ash y) k = ax S k) /\
    forall t v, valid tp t -> (forall k, k < nd -> v k < ax S k) ->
      bget y (join nd t v) = itersum (sh nd (collapsed pp)) (prodf arrays) (join nd t v).
Proof.
  intros pp Hpp.
  assert (Hppax : forall k, ax pp k = ax S (k + nd)).
  { apply plates_broadcast_ax with arrays; now apply broadcasted_shape_ok. }
  destruct (presum_total nd tp arrays [] fp) as [arrays' Hpre]; [intros b []|assumption|assumption|].
  rewrite Hpre. cbn [bind].
  destruct (presum_sound _ _ _ _ _ Hpre) as (X & HX1 & HX2 & HX3 & HX4).
  assert (Hsum : forall e, prodf arrays' e = itersum (sh nd X) (prodf arrays) e).
  { intros e. rewrite <- (Rmult_1_l (prodf arrays' e)).
    rewrite (HX4 (fun _ => 1%R)) by (intros k _ e' x; reflexivity).
    apply itersum_ext_all. intros; ring. }
  assert (Hlen' : length arrays' = length arrays).
  { symmetry. clear -HX3. induction HX3; simpl; congruence. }
  assert (Hne' : arrays' <> []).
  { intros ->. destruct arrays; [congruence|discriminate]. }
  assert (Hin' : forall a', In a' arrays' -> exists a, In a arrays /\ length (ash a') = length (ash a) /\
               (forall k, k < nd -> ax (ash a') k = ax (ash a) k) /\
               (forall k, ax (ash a') (k + nd) = if memb k (map fst X) then 1 else ax (ash a) (k + nd))).
  { clear -HX3. induction HX3 as [|a a' l l' H HF IH]; intros b Hb; [destruct Hb|].
    destruct Hb as [<-|Hb]; [exists a; simpl; tauto|].
    destruct (IH b Hb) as [c [Hc1 Hc2]]. exists c; simpl; tauto. }
  assert (Hin : forall a, In a arrays -> exists a', In a' arrays' /\
               (forall k, k < nd -> ax (ash a') k = ax (ash a) k) /\
               (forall k, ax (ash a') (k + nd) = if memb k (map fst X) then 1 else ax (ash a) (k + nd))).
  { clear -HX3. induction HX3 as [|a a' l l' H HF IH]; intros b Hb; [destruct Hb|].
    destruct Hb as [<-|Hb]; [exists a'; simpl; tauto|].
    destruct (IH b Hb) as [c [Hc1 Hc2]]. exists c; simpl; tauto. }
  pose proof (proj1 (broadcasted_shape_ok _ _) HS) as HSn.
  assert (Hax' : forall a' k, In a' arrays' -> ax (ash a') k = 1 \/ ax (ash a') k = ax S k).
  { intros a' k Ha'. destruct (Hin' a' Ha') as (a & Ha & _ & H1 & H2).
    destruct (Nat.lt_ge_cases k nd) as [Hk|Hk].
    - rewrite H1 by assumption. apply (nb_in _ _ k HSn). now apply in_map.
    - replace k with (k - nd + nd) by lia. rewrite H2. destruct (memb (k - nd) (map fst X)); [auto|].
      apply (nb_in _ _ _ HSn). now apply in_map. }
  destruct (broadcast_exists_of_upper (map ash arrays') S) as [S' HS'].
  { intros x Hx. apply in_map_iff in Hx as [a' [<- Ha']]. split.
    - destruct (Hin' a' Ha') as (a & Ha & Hl & _). rewrite Hl. apply HSn. now apply in_map.
    - intros k. now apply Hax'. }
  pose proof (proj1 (broadcasted_shape_ok _ _) HS') as HSn'.
  assert (HS'low : forall k, k < nd -> ax S' k = ax S k).
  { intros k Hk. apply (nb_ax_val _ _ _ _ HSn').
    - intros x Hx. apply in_map_iff in Hx as [a' [<- Ha']]. now apply Hax'.
    - destruct (nb_in _ _ k HSn) as [_ [H|[x [Hx H]]]]; [auto|]. right.
      apply in_map_iff in Hx as [a [<- Ha]]. destruct (Hin a Ha) as (a' & Ha' & H1 & _).
      exists (ash a'). split; [now apply in_map|]. now rewrite H1. }
  assert (HS'high : forall k, ax S' (k + nd) = if memb k (map fst X) then 1 else ax S (k + nd)).
  { intros k. apply (nb_ax_val _ _ _ _ HSn').
    - intros x Hx. apply in_map_iff in Hx as [a' [<- Ha']].
      destruct (Hin' a' Ha') as (a & Ha & _ & _ & H2). rewrite H2.
      destruct (memb k (map fst X)); [auto|]. apply (nb_in _ _ _ HSn). now apply in_map.
    - destruct (memb k (map fst X)) eqn:E; [auto|].
      destruct (nb_in _ _ (k + nd) HSn) as [_ [H|[x [Hx H]]]]; [auto|]. right.
      apply in_map_iff in Hx as [a [<- Ha]]. destruct (Hin a Ha) as (a' & Ha' & _ & H1).
      exists (ash a'). split; [now apply in_map|]. rewrite H1, E. assumption. }
  destruct (broadcast_exists_of_upper (map (fun a => P a) arrays') fp) as [pp' Hpp'].
  { intros x Hx. apply in_map_iff in Hx as [a' [<- Ha']].
    destruct (Hin' a' Ha') as (a & Ha & Hl & _ & H2). destruct (Hfp a Ha) as [Hf1 Hf2]. split.
    - rewrite !length_get_plates in *. rewrite Hl. assumption.
    - intros k. rewrite ax_get_plates, H2. destruct (memb k (map fst X)); [auto|].
      specialize (Hf2 k). rewrite ax_get_plates in Hf2. assumption. }
  rewrite Hpp'. cbn [bind].
  pose proof (proj1 (broadcasted_shape_ok _ _) Hpp') as Hppn'.
  assert (Hppax' : forall k, ax pp' k = if memb k (map fst X) then 1 else ax pp k).
  { intros k. rewrite (plates_broadcast_ax nd _ _ _ HSn' Hppn'). rewrite HS'high, Hppax. reflexivity. }
  assert (Hppfp : forall k, ax pp k = 1 \/ ax pp k = ax fp k).
  { apply broadcast_least with (map (fun a => P a) arrays); [now apply broadcasted_shape_ok|].
    intros x Hx. apply in_map_iff in Hx as [a [<- Ha]]. auto. }
  assert (Hcol : axes_to_collapse pp' tp = Ok (collapse_list pp' tp)).
  { apply axes_to_collapse_ok. split; [reflexivity|]. intros k. rewrite Hppax'.
    destruct (memb k (map fst X)); [auto|]. destruct Htp as [_ Ht]. specialize (Ht k).
    destruct (Hppfp k); [auto|]. destruct Ht; [auto|]. right; right; congruence. }
  rewrite Hcol. cbn [bind]. clear Hcol.
  set (axs := collapse_list pp' tp).
  assert (Haxs : forall k, In k axs <-> ax pp' k <> 1 /\ ax tp k = 1) by apply collapse_list_in.
  set (X2 := map (fun k => (k, ax pp' k)) axs).
  assert (HX2f : map fst X2 = axs) by apply map_map_fst_pair.
  assert (Hlt : forall k, In k axs -> k + nd < length S').
  { intros k Hk. apply Haxs in Hk as [Hk _].
    destruct (Nat.lt_ge_cases (k + nd) (length S')) as [|Hc]; [assumption|].
    exfalso. apply Hk. rewrite (plates_broadcast_ax nd _ _ _ HSn' Hppn'). now apply ax_overflow. }
  assert (Hmem : forall k, memb (k + nd) (shift_axes nd axs) = memb k axs).
  { intros k. unfold shift_axes. apply eq_true_iff_eq. rewrite !memb_In, in_map_iff.
    split; [intros [j [Hj1 Hj2]]; replace k with j by lia; assumption|]. intros Hk. exists k; auto. }
  assert (Hmemlow : forall k, k < nd -> memb k (shift_axes nd axs) = false).
  { intros k Hk. apply memb_false. unfold shift_axes. rewrite in_map_iff. intros [j [Hj _]]. lia. }
  assert (Hy1 : exists y1,
     match axs with
     | [] => np_reduce_multiply arrays'
     | _ => sum_multiply arrays' (AxList (map negax (shift_axes nd axs))) true true
     end = Ok y1 /\
     (forall k, ax (ash y1) k = if memb k (shift_axes nd axs) then 1 else ax S' k) /\
     forall e, (forall k, ax (ash y1) k <> 1 -> e k < ax (ash y1) k) ->
       bget y1 e = itersum (sh nd X2) (prodf arrays') e).
  { destruct axs as [|x0 l0] eqn:Eaxs.
    - destruct (np_reduce_multiply_total arrays' S' Hne' HS') as [y1 [Hy1 Hsy]].
      exists y1. split; [assumption|]. split.
      + intros k. rewrite Hsy. reflexivity.
      + intros e _. apply np_reduce_multiply_ok in Hy1 as [_ Hy1]. rewrite Hy1. reflexivity.
    - rewrite <- Eaxs in *.
      destruct (sum_multiply_spec arrays' S' (AxList (map negax (shift_axes nd axs))) true true Hne' HS' I)
        as [y1 [Hy1 Heq]].
      exists y1. split; [assumption|].
      assert (Hm : forall k, k < length S' ->
        memb k (filter (asked_to_sum (length S') (AxList (map negax (shift_axes nd axs))) true) (seq 0 (length S')))
        = memb k (shift_axes nd axs)).
      { intros k Hk. rewrite <- (asked_negax (length S') (shift_axes nd axs) k Hk).
        apply eq_true_iff_eq. rewrite memb_In, filter_In, in_seq. split; [tauto|]. intros; split; [lia|assumption]. }
      assert (Hash : forall k, ax (ash y1) k = if memb k (shift_axes nd axs) then 1 else ax S' k).
      { intros k. destruct Heq as [-> _]. unfold numpy_sum. rewrite ash_sum_keep_ax. cbn [ash].
        destruct (Nat.lt_ge_cases k (length S')) as [Hk|Hk].
        - now rewrite Hm.
        - rewrite (ax_overflow S') by assumption. now repeat destruct (memb k _). }
      split; [assumption|]. intros e He.
      rewrite (arr_eq_bget _ _ _ _ Heq He). unfold numpy_sum. rewrite bget_sum_keep. cbn [ash].
      transitivity (itersum (sum_axes_list S' (shift_axes nd axs)) (bget (Arr S' (prodf arrays'))) e).
      + f_equal. unfold sum_axes_list. f_equal. apply filter_ext_in. intros k Hk. apply in_seq in Hk. apply Hm. lia.
      + rewrite itersum_sum_axes; [|apply NoDup_collapse|assumption].
        transitivity (itersum (sh nd X2) (bget (Arr S' (prodf arrays'))) e).
        * f_equal. unfold X2. rewrite <- Eaxs. unfold sh. rewrite !map_map. apply map_ext. intros k. cbn [fst snd].
          now rewrite (plates_broadcast_ax nd _ _ _ HSn' Hppn').
        * apply itersum_ext_all. intros e'. apply bget_P. assumption. }
  destruct Hy1 as (y1 & Hy1 & Hy1s & Hy1g). rewrite Hy1. cbn [bind].
  assert (Hhigh : forall k, ax (ash y1) (k + nd) = if ax tp k =? 1 then 1 else ax S (k + nd)).
  { intros k. rewrite Hy1s, Hmem, HS'high, <- Hppax.
    destruct (Nat.eqb_spec (ax tp k) 1) as [E|E].
    - destruct (memb k axs) eqn:E1; [reflexivity|]. apply memb_false in E1. rewrite Haxs, Hppax' in E1.
      destruct (memb k (map fst X)); [reflexivity|]. destruct (Nat.eq_dec (ax pp k) 1); tauto.
    - replace (memb k axs) with false by (symmetry; apply memb_false; rewrite Haxs; tauto).
      destruct (memb k (map fst X)) eqn:E1; [|reflexivity]. exfalso.
      apply memb_In, in_map_iff in E1 as [[k' d] [Ek Hd]]. cbn in Ek; subst k'.
      apply HX2 in Hd as [Hd _]. contradiction. }
  assert (Hlow : forall k, k < nd -> ax (ash y1) k = ax S k).
  { intros k Hk. rewrite Hy1s, Hmemlow by assumption. now apply HS'low. }
  destruct (squeeze_to_dim_ok _ y1 (length tp + nd)) as (y & Hy & Hyl & Hys & Hyg).
  { intros k Hk. replace k with (k - nd + nd) by lia. rewrite Hhigh.
    rewrite (ax_overflow tp) by lia. reflexivity. }
  exists y. split; [assumption|]. split; [lia|]. split; [|split].
  - intros k. rewrite Hys. apply Hhigh.
  - intros k Hk. rewrite Hys. now apply Hlow.
  - intros t v Ht Hv. rewrite Hyg. rewrite Hy1g.
    + transitivity (itersum (sh nd X2) (itersum (sh nd X) (prodf arrays)) (join nd t v)); [apply itersum_ext_all; exact Hsum|]. rewrite <- itersum_app, <- sh_app.
      apply itersum_perm.
      * unfold sh. apply Permutation_map. apply NoDup_Permutation.
        -- apply NoDup_map_inv with (f := fst). rewrite map_app, HX2f. apply NoDup_app_intro.
           ++ apply NoDup_collapse.
           ++ assumption.
           ++ intros k Hk HkX. apply Haxs in Hk as [Hk _]. rewrite Hppax' in Hk.
              apply memb_In in HkX. rewrite HkX in Hk. congruence.
        -- unfold collapsed. apply FinFun.Injective_map_NoDup; [intros a b; congruence|].
           apply NoDup_filter, seq_NoDup.
        -- intros [k d]. rewrite in_app_iff. unfold collapsed, X2. rewrite !in_map_iff.
           assert (HXX : forall d', In (k, d') X -> ax pp k = d' /\ d' <> 1 /\ ax tp k = 1).
           { intros d' Hd. apply HX2 in Hd as (H1 & _ & l1 & a & l2 & E & H3 & H4 & _).
             split; [|tauto]. rewrite <- H3.
             apply (nb_ax_eq (map (fun a => P a) arrays)); [now apply broadcasted_shape_ok| |congruence].
             rewrite E. apply in_map with (f := fun a => P a). apply in_or_app. simpl; auto. }
           assert (Hkl : ax pp k <> 1 -> k < length pp).
           { intros H. destruct (Nat.lt_ge_cases k (length pp)); [assumption|]. exfalso; apply H. now apply ax_overflow. }
           split.
           ++ intros [[j [E Hj]]|Hd].
              ** injection E as -> <-. apply Haxs in Hj as [Hj1 Hj2]. exists k.
                 rewrite Hppax' in Hj1 |- *. destruct (memb k (map fst X)); [congruence|].
                 split; [reflexivity|]. apply filter_In. split; [apply in_seq; specialize (Hkl Hj1); lia|].
                 rewrite andb_true_iff, negb_true_iff, Nat.eqb_neq, Nat.eqb_eq. auto.
              ** destruct (HXX d Hd) as (<- & H2 & H3). exists k. split; [reflexivity|].
                 apply filter_In. split; [apply in_seq; specialize (Hkl H2); lia|].
                 rewrite andb_true_iff, negb_true_iff, Nat.eqb_neq, Nat.eqb_eq. auto.
           ++ intros [j [E Hj]]. injection E as -> <-. apply filter_In in Hj as [_ Hj].
              rewrite andb_true_iff, negb_true_iff, Nat.eqb_neq, Nat.eqb_eq in Hj. destruct Hj as [Hj1 Hj2].
              destruct (memb k (map fst X)) eqn:E1.
              ** right. apply memb_In, in_map_iff in E1 as [[k' d'] [Ek Hd]]. cbn in Ek; subst k'.
                 destruct (HXX d' Hd) as (-> & _). assumption.
              ** left. exists k. assert (Hk' : ax pp' k = ax pp k) by (rewrite Hppax', E1; reflexivity).
                 rewrite Hk'. split; [reflexivity|]. apply Haxs. rewrite Hk'. auto.
      * apply NoDup_sh. rewrite map_app, HX2f. apply NoDup_app_intro.
        -- apply NoDup_collapse.
        -- assumption.
        -- intros k Hk HkX. apply Haxs in Hk as [Hk _]. rewrite Hppax' in Hk.
           apply memb_In in HkX. rewrite HkX in Hk. congruence.
    + intros k Hk. unfold join. destruct (Nat.ltb_spec k nd) as [Hl|Hl].
      * rewrite Hlow by assumption. now apply Hv.
      * replace k with (k - nd + nd) in Hk |- * by lia. rewrite Hhigh in Hk |- *.
        replace (k - nd + nd - nd) with (k - nd) by lia.
        destruct (Nat.eqb_spec (ax tp (k - nd)) 1) as [E|E]; [congruence|].
        rewrite <- Hppax in Hk |- *. destruct Htp as [_ Ht']. destruct (Ht' (k - nd)) as [|E2]; [contradiction|].
        destruct (Hppfp (k - nd)) as [|E3]; [contradiction|]. rewrite E3, <- E2. apply Ht.
Qed.

Lemma fibre_collapsed : forall pp F t,
  broadcasts_to pp fp -> valid tp t ->
  (forall k, ax pp k = 1 -> indep k F) ->
  fibre_sum fp tp t F = (INR (bm_value fp [pp; tp]) * itersum (collapsed pp) F t)%R.
Proof.
  intros pp F t [Hl Hpp] Ht HF. rewrite fibre_iter by assumption.
  assert (Hnd : NoDup (map fst (unit_axes fp tp (length fp)))).
  { unfold unit_axes. rewrite map_map_fst_pair. apply NoDup_filter, seq_NoDup. }
  rewrite (itersum_split (fun p => ax pp (fst p) =? 1)) by assumption.
  rewrite itersum_const.
  2:{ intros k Hk. apply itersum_indep. apply in_map_iff in Hk as [[k' d] [E Hk]]. cbn in E; subst k'.
      apply filter_In in Hk as [_ Hk]. apply HF. now apply Nat.eqb_eq. }
  f_equal.
  - unfold bm_value. rewrite INR_fold_mul, map_map. f_equal.
    unfold unit_axes. cbn [forallb].
    clear. induction (seq 0 (length fp)) as [|k l IH]; [reflexivity|]. cbn [filter map].
    destruct (ax tp k =? 1); cbn [andb].
    + cbn [map filter fst]. destruct (ax pp k =? 1); cbn [andb map snd]; now rewrite IH.
    + rewrite andb_false_r. apply IH.
  - apply itersum_perm.
    + unfold collapsed. apply NoDup_Permutation.
      * apply NoDup_filter. now apply NoDup_map_inv with (f := fst).
      * apply FinFun.Injective_map_NoDup; [intros a b; congruence|]. apply NoDup_filter, seq_NoDup.
      * intros [k d]. unfold unit_axes. rewrite filter_In, !in_map_iff. cbn [fst].
        rewrite negb_true_iff, Nat.eqb_neq. split.
        -- intros [[j [E Hj]] Hk]. injection E as -> <-. apply filter_In in Hj as [_ Hj].
           exists k. destruct (Hpp k) as [|Ek]; [contradiction|]. rewrite Ek. split; [reflexivity|].
           apply filter_In. rewrite in_seq, Hj. split.
           ++ destruct (Nat.lt_ge_cases k (length pp)); [lia|]. exfalso; apply Hk; now apply ax_overflow.
           ++ apply Nat.eqb_neq in Hk. now rewrite Hk.
        -- intros [j [E Hj]]. injection E as -> <-. apply filter_In in Hj as [Hj1 Hj].
           rewrite andb_true_iff, negb_true_iff, Nat.eqb_neq in Hj. destruct Hj as [Hj2 Hj3].
           split; [|assumption]. exists k. destruct (Hpp k) as [|Ek]; [contradiction|]. rewrite Ek.
           split; [reflexivity|]. apply filter_In. split; [|assumption]. apply in_seq in Hj1. apply in_seq. lia.
    + apply NoDup_map_filter. assumption.
Qed.
End Main.
