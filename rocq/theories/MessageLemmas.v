(** Final forms of the plate-summation results; messages and masks. *)
From Coq Require Import List Arith ZArith Lia Bool Reals Lra Permutation FunctionalExtensionality Sorted.
From Verif Require Import Base Shapes SpecShapes ShapesLemmas NumPy MiscArray TensorLemmas
  EinsumLemmas SpecArray SumMultiplyLemmas PlateSumLemmas PlateSum2Lemmas PlateSum3Lemmas.
Import ListNotations.
Open Scope nat_scope.

Lemma bget_scale : forall r y e, bget (np_scale r y) e = (INR r * bget y e)%R.
Proof.
  intros. unfold np_scale, np_map, bget at 1. cbn [ash aget]. now rewrite bget_clip.
Qed.

Lemma smtp_some : forall arrays tp fp nd S,
  arrays <> [] -> broadcasted_shape (map ash arrays) = Ok S ->
  (forall a, In a arrays -> broadcasts_to (get_plates nd (ash a)) fp) ->
  broadcasts_to tp fp ->
  exists y, sum_multiply_to_plates arrays tp (Some fp) nd = Ok y /\
    length (ash y) <= length tp + nd /\
    (forall k, ax (ash y) (k + nd) = if ax tp k =? 1 then 1 else ax S (k + nd)) /\
    (forall k, k < nd -> ax (ash y) k = ax S k) /\
    forall t v, valid tp t -> (forall k, k < nd -> v k < ax S k) ->
      bget y (join nd t v) = fibre_sum fp tp t (fun i => prodf arrays (join nd i v)).
Proof.
  intros arrays tp fp nd S Hne HS Hfp Htp.
  destruct (pp_exists nd arrays S fp HS Hfp) as (pp & Hpp & Hppfp & Hppax).
  destruct (smtp_core nd tp arrays S fp Hne HS Hfp Htp pp Hpp) as (y & Hy & H1 & H2 & H3 & H4).
  unfold sum_multiply_to_plates. rewrite Hpp. cbn [bind].
  assert (Hr : broadcasting_multiplier fp [pp; tp] = Ok (bm_value fp [pp; tp])).
  { apply broadcasting_multiplier_ok. split; [|reflexivity]. intros a [<-|[<-|[]]]; assumption. }
  rewrite Hr. cbn [bind].
  set (r := bm_value fp [pp; tp]) in *.
  exists (np_scale r y). split; [|split; [|split; [|split]]].
  - apply bind_ok in Hy as [arrays' [E1 Hy]]. rewrite E1. cbn [bind].
    apply bind_ok in Hy as [pp' [E2 Hy]]. rewrite E2. cbn [bind].
    apply bind_ok in Hy as [axs [E3 Hy]]. rewrite E3. cbn [bind].
    apply bind_ok in Hy as [y1 [E4 Hy]]. rewrite E4. cbn [bind]. rewrite Hy. reflexivity.
  - exact H1.
  - exact H2.
  - exact H3.
  - intros t v Ht Hv. rewrite bget_scale, H4 by assumption.
    rewrite (fibre_collapsed tp fp Htp pp) by
      (try assumption; intros k Hk e x; rewrite join_upd;
       apply (prodf_indep arrays S HS); rewrite <- Hppax; exact Hk).
    fold r. f_equal. symmetry. apply itersum_join.
Qed.

Lemma fold_mul_ones : forall l, (forall x, In x l -> x = 1) -> fold_right Nat.mul 1 l = 1.
Proof.
  induction l as [|a l IH]; intros H; [reflexivity|]. cbn [fold_right].
  rewrite (H a) by (simpl; auto). rewrite IH; [reflexivity|]. intros; apply H; simpl; auto.
Qed.

Lemma smtp_none : forall arrays tp fp nd,
  broadcasted_shape (tp :: map (fun a => get_plates nd (ash a)) arrays) = Ok fp ->
  sum_multiply_to_plates arrays tp None nd = sum_multiply_to_plates arrays tp (Some fp) nd.
Proof.
  intros arrays tp fp nd Hfp. unfold sum_multiply_to_plates.
  apply broadcasted_shape_ok in Hfp.
  destruct (broadcasted_shape (map (fun a => get_plates nd (ash a)) arrays)) as [pp|e] eqn:Hpp;
    [|reflexivity].
  cbn [bind].
  apply broadcasted_shape_ok in Hpp.
  assert (Hr : broadcasting_multiplier fp [pp; tp] = Ok 1).
  { apply broadcasting_multiplier_ok. split.
    - intros a [<-|[<-|[]]].
      + apply (broadcast_least _ _ _ Hpp). intros x Hx. apply (broadcast_upper _ _ _ Hfp). simpl; auto.
      + apply (broadcast_upper _ _ _ Hfp). simpl; auto.
    - unfold bm_value. symmetry. apply fold_mul_ones. intros x Hx.
      apply in_map_iff in Hx as [k [<- Hk]]. apply filter_In in Hk as [_ Hk]. cbn [forallb] in Hk.
      rewrite !andb_true_iff, !Nat.eqb_eq in Hk. destruct Hk as (H1 & H2 & _).
      apply (nb_ax_1 _ _ k Hfp). intros a [<-|Ha]; [assumption|].
      apply (nb_ax_1 _ _ k Hpp) with (a := a) in H1; assumption. }
  rewrite Hr. reflexivity.
Qed.

Lemma smtp_raises : forall arrays tp fp nd,
  (~ broadcasts_to tp fp \/ exists a, In a arrays /\ ~ broadcasts_to (get_plates nd (ash a)) fp) ->
  sum_multiply_to_plates arrays tp (Some fp) nd = Err ValueError.
Proof.
  intros arrays tp fp nd H. unfold sum_multiply_to_plates.
  destruct (broadcasted_shape (map (fun a => get_plates nd (ash a)) arrays)) as [pp|e] eqn:Hpp; cbn [bind].
  - destruct (broadcasting_multiplier fp [pp; tp]) as [r|e] eqn:Hr; cbn [bind].
    + exfalso. apply broadcasting_multiplier_ok in Hr as [Hr _].
      destruct H as [H|[a [Ha H]]]; apply H.
      * apply Hr; simpl; auto.
      * apply broadcasts_to_trans with pp; [|apply Hr; simpl; auto].
        apply broadcasted_shape_ok in Hpp. apply (broadcast_upper _ _ _ Hpp).
        now apply in_map with (f := fun a => get_plates nd (ash a)).
    + apply broadcasting_multiplier_err in Hr. subst e. reflexivity.
  - apply broadcasted_shape_err in Hpp as [-> _]. reflexivity.
Qed.

(** ** Counting *)
Lemma multiplier_counts : forall P J r args t,
  broadcasting_multiplier P args = Ok r -> broadcasted_shape args = Ok J -> valid J t ->
  fibre_sum P J t (fun _ => 1%R) = INR r.
Proof.
  intros P J r args t Hr HJ Ht.
  apply broadcasting_multiplier_ok in Hr as [Hr ->]. apply broadcasted_shape_ok in HJ.
  rewrite fibre_iter; [|apply (broadcast_least _ _ _ HJ Hr)|assumption].
  rewrite itersum_const by (intros k _ e x; reflexivity). rewrite Rmult_1_r.
  unfold bm_value. rewrite INR_fold_mul, map_map. f_equal. unfold unit_axes. rewrite map_map. cbn [snd].
  f_equal. apply filter_ext. intros k. apply eq_true_iff_eq. rewrite Nat.eqb_eq, forallb_forall.
  rewrite (nb_ax_1 _ _ k HJ). split; intros H a Ha; apply Nat.eqb_eq || apply Nat.eqb_eq; auto.
Qed.

Lemma total_nonunit : forall s F, (forall k, k < length s -> ax s k = 1 -> indep k F) ->
  total s F = itersum (map (fun k => (k, ax s k)) (filter (fun k => negb (ax s k =? 1)) (seq 0 (length s)))) F env0.
Proof.
  intros s F HF. rewrite total_iter.
  rewrite (itersum_split (fun p => ax s (fst p) =? 1)).
  2:{ rewrite map_map_fst_pair. apply seq_NoDup. }
  rewrite itersum_const.
  2:{ intros k Hk. apply itersum_indep. apply in_map_iff in Hk as [[k' d] [E Hk]]. cbn in E; subst k'.
      apply filter_In in Hk as [Hk1 Hk]. apply HF; [|now apply Nat.eqb_eq].
      apply in_map_iff in Hk1 as [j [E Hj]]. injection E as -> _. apply in_seq in Hj. lia. }
  replace (fold_right Rmult 1%R _) with 1%R.
  - rewrite Rmult_1_l. f_equal. induction (seq 0 (length s)) as [|k l IH]; [reflexivity|].
    cbn [map filter fst]. destruct (ax s k =? 1); cbn [negb map]; now rewrite IH.
  - symmetry. induction (seq 0 (length s)) as [|k l IH]; [reflexivity|].
    cbn [map filter fst]. destruct (Nat.eqb_spec (ax s k) 1) as [E|E]; [|assumption].
    cbn [map fold_right snd]. rewrite IH, E. simpl. ring.
Qed.

Lemma total_expand : forall P J F, broadcasts_to J P -> (forall k, ax J k = 1 -> indep k F) ->
  total P F = (INR (bm_value P [J]) * total J F)%R.
Proof.
  intros P J F [HJ1 HJ2] HF. rewrite total_iter, total_nonunit by (intros; auto).
  rewrite (itersum_split (fun p => ax J (fst p) =? 1)).
  2:{ rewrite map_map_fst_pair. apply seq_NoDup. }
  rewrite itersum_const.
  2:{ intros k Hk. apply itersum_indep. apply in_map_iff in Hk as [[k' d] [E Hk]]. cbn in E; subst k'.
      apply filter_In in Hk as [_ Hk]. apply HF. now apply Nat.eqb_eq. }
  f_equal.
  - unfold bm_value. rewrite INR_fold_mul, map_map. f_equal. cbn [forallb].
    induction (seq 0 (length P)) as [|k l IH]; [reflexivity|]. cbn [map filter fst].
    destruct (ax J k =? 1); cbn [andb map snd]; now rewrite IH.
  - apply itersum_perm.
    + apply NoDup_Permutation.
      * apply NoDup_filter. apply FinFun.Injective_map_NoDup; [intros a b; congruence|]. apply seq_NoDup.
      * apply FinFun.Injective_map_NoDup; [intros a b; congruence|]. apply NoDup_filter, seq_NoDup.
      * intros [k d]. rewrite filter_In, !in_map_iff. cbn [fst]. split.
        -- intros [[j [E Hj]] Hk]. injection E as -> <-. exists k.
           pose proof Hk as Hk'. rewrite negb_true_iff, Nat.eqb_neq in Hk.
           destruct (HJ2 k) as [|E]; [contradiction|]. rewrite E. split; [reflexivity|].
           apply filter_In. split; [|assumption]. apply in_seq.
           destruct (Nat.lt_ge_cases k (length J)); [lia|]. exfalso; apply Hk; now apply ax_overflow.
        -- intros [j [E Hj]]. injection E as -> <-. apply filter_In in Hj as [Hj Hk].
           split; [|assumption]. exists k. rewrite negb_true_iff, Nat.eqb_neq in Hk.
           destruct (HJ2 k) as [|E]; [contradiction|]. rewrite E. split; [reflexivity|].
           apply in_seq in Hj. apply in_seq. lia.
    + apply NoDup_map_filter. rewrite map_map_fst_pair. apply seq_NoDup.
Qed.

Lemma bm_value_joint : forall P args J, numpy_broadcast args J -> bm_value P args = bm_value P [J].
Proof.
  intros P args J HJ. unfold bm_value. f_equal. f_equal. apply filter_ext. intros k.
  apply eq_true_iff_eq. cbn [forallb]. rewrite andb_true_r, Nat.eqb_eq, forallb_forall.
  rewrite (nb_ax_1 _ _ k HJ). split; intros H a Ha; specialize (H a Ha); now apply Nat.eqb_eq.
Qed.

(** ** Leading and trailing axes *)
Lemma ax_drop_units : forall s k, ax (drop_units s) k = ax s k.
Proof.
  induction s as [|d r IH]; intros k; [reflexivity|]. cbn [drop_units].
  destruct (Nat.eqb_spec d 1) as [->|E]; [|reflexivity]. rewrite IH. rewrite ax_cons.
  destruct (Nat.eqb_spec k (length r)) as [->|Hk]; [|reflexivity]. now apply ax_overflow.
Qed.

Lemma squeeze_ok : forall A (x : arr A),
  exists y, squeeze x = Ok y /\ (forall k, ax (ash y) k = ax (ash x) k) /\
    length (ash y) <= length (ash x) /\
    forall e, (forall k, ax (ash x) k <> 1 -> e k < ax (ash x) k) -> bget y e = bget x e.
Proof.
  intros A x. unfold squeeze.
  destruct (reshape_leading A x (drop_units (ash x)) (ax_drop_units (ash x))) as (y & Hy & Hs & Hg).
  exists y. split; [assumption|]. split.
  - intros k. rewrite Hs. apply ax_drop_units.
  - split.
    + rewrite Hs. clear. induction (ash x) as [|d r IH]; [simpl; lia|]. cbn [drop_units].
      destruct (d =? 1); simpl; lia.
    + intros e He. apply Hg. intros k. rewrite ax_drop_units. apply He.
Qed.

Lemma expand_at_0 : forall A (x : arr A),
  ndim (expand_at x 0) = Datatypes.S (ndim x) /\
  (forall k, ax (ash (expand_at x 0)) k = match k with O => 1 | Datatypes.S j => ax (ash x) j end) /\
  (forall e, bget (expand_at x 0) e = bget x (fun j => e (Datatypes.S j))).
Proof.
  intros A x.
  assert (Hax : forall k, ax (ash (expand_at x 0)) k = match k with O => 1 | Datatypes.S j => ax (ash x) j end).
  { intros k. unfold expand_at. cbn [ash]. rewrite ax_mkshape.
    destruct (Nat.ltb_spec k (Datatypes.S (ndim x))) as [Hk|Hk].
    - cbn [Nat.ltb Nat.leb]. destruct k as [|j]; [reflexivity|]. cbn. now rewrite Nat.sub_0_r.
    - destruct k as [|j]; [lia|]. symmetry. apply ax_overflow. unfold ndim in *. lia. }
  split; [|split].
  - unfold ndim at 1, expand_at. cbn [ash]. apply length_mkshape.
  - exact Hax.
  - intros e. unfold bget at 1, expand_at at 1. cbn [aget]. apply bget_ext. intros k Hk1 Hk2.
    cbn [Nat.ltb Nat.leb]. unfold clip. rewrite Hax.
    destruct (Nat.eqb_spec (ax (ash x) k) 1); [contradiction|reflexivity].
Qed.

Lemma add_trailing_ok : forall A (x : arr A) n,
  ndim (add_trailing_axes x n) = n + ndim x /\
  (forall k, ax (ash (add_trailing_axes x n)) k = if k <? n then 1 else ax (ash x) (k - n)) /\
  (forall e, bget (add_trailing_axes x n) e = bget x (fun j => e (j + n))).
Proof.
  intros A x. induction n as [|n (IH1 & IH2 & IH3)].
  - split; [reflexivity|]. split.
    + intros k. cbn. now rewrite Nat.sub_0_r.
    + intros e. cbn. f_equal. apply functional_extensionality. intros j. f_equal. lia.
  - change (add_trailing_axes x (Datatypes.S n)) with (expand_at (add_trailing_axes x n) 0).
    destruct (expand_at_0 _ (add_trailing_axes x n)) as (H1 & H2 & H3).
    split; [rewrite H1, IH1; reflexivity|]. split.
    + intros k. rewrite H2. destruct k as [|j]; [reflexivity|]. rewrite IH2.
      replace (Datatypes.S j <? Datatypes.S n) with (j <? n) by reflexivity. reflexivity.
    + intros e. rewrite H3, IH3. f_equal. apply functional_extensionality. intros j. f_equal. lia.
Qed.

(** ** Message to a parent *)
Lemma ax_skipn : forall s n k, ax (skipn n s) k = if k <? length s - n then ax s k else 1.
Proof.
  intros s n k.
  destruct (Nat.ltb_spec k (length s - n)) as [H|H].
  - replace (ax s k) with (ax (firstn n s ++ skipn n s) k) by (now rewrite firstn_skipn).
    rewrite ax_app, skipn_length. destruct (Nat.ltb_spec k (length s - n)); [reflexivity|lia].
  - apply ax_overflow. rewrite skipn_length. assumption.
Qed.

Lemma broadcasts_to_app : forall p q d e, length d = length e -> broadcasts_to p q -> broadcasts_to d e ->
  broadcasts_to (p ++ d) (q ++ e).
Proof.
  intros p q d e Hl [Hp1 Hp2] [Hd1 Hd2]. split.
  - rewrite !app_length. lia.
  - intros k. rewrite !ax_app, Hl. destruct (k <? length e); auto.
Qed.

Lemma message_to_parent_ok : forall m mask plates_self mult_self mult_parent pp pd D,
  broadcasts_to pp plates_self ->
  broadcasts_to mult_parent mult_self ->
  broadcasted_shape [skipn (ndim m - length pd) (ash m); pd] = Ok D ->
  broadcasts_to (ash m) (plates_self ++ D) ->
  broadcasts_to (ash mask) plates_self ->
  exists y r, message_to_parent m mask plates_self mult_self mult_parent pp pd = Ok y /\
    broadcasting_multiplier mult_self [mult_parent] = Ok r /\
    broadcasts_to (ash y) (pp ++ D) /\
    forall t, valid (pp ++ pd) t ->
      bget y t = (INR r * fibre_sum (plates_self ++ D) (pp ++ pd) t
                   (fun i => if bget mask (fun k => (i (k + length pd)%nat)) then bget m i else 0))%R.
Proof.
  intros m mask ps ms mp pp pd D Hpp Hmult HD Hm Hmask.
  unfold message_to_parent.
  destruct (squeeze_ok _ mask) as (mask' & Hsq & Hmax & Hml & Hmg). rewrite Hsq. cbn [bind].
  assert (Hr : broadcasting_multiplier ms [mp] = Ok (bm_value ms [mp])).
  { apply broadcasting_multiplier_ok. split; [|reflexivity]. intros a [<-|[]]; assumption. }
  rewrite Hr. cbn [bind].
  pose proof (proj1 (broadcasted_shape_ok _ _) HD) as HDn.
  assert (HlD : length D = length pd).
  { destruct HDn as (H1 & [->|[a [Ha H2]]] & _).
    - specialize (H1 pd (or_intror (or_introl eq_refl))). simpl in *. lia.
    - specialize (H1 pd (or_intror (or_introl eq_refl))).
      destruct Ha as [<-|[<-|[]]]; [|congruence]. rewrite skipn_length in H2. unfold ndim in *. lia. }
  assert (Hfs : (if 0 <? length pd
                 then dims <- broadcasted_shape [skipn (ndim m - length pd) (ash m); pd] ;; Ok (ps ++ dims)
                 else Ok ps) = Ok (ps ++ D)).
  { destruct (Nat.ltb_spec 0 (length pd)) as [H|H].
    - rewrite HD. reflexivity.
    - destruct D; [now rewrite app_nil_r|simpl in *; lia]. }
  rewrite Hfs. cbn [bind].
  destruct (add_trailing_ok _ mask' (length pd)) as (Ht1 & Ht2 & Ht3).
  assert (Hmi : broadcasts_to (ash (add_trailing_axes mask' (length pd))) (ps ++ D)).
  { split.
    - change (length (ash (add_trailing_axes mask' (length pd)))) with (ndim (add_trailing_axes mask' (length pd))).
      rewrite Ht1, app_length, HlD. destruct Hmask as [Hmk _]. unfold ndim. lia.
    - intros k. rewrite Ht2, ax_app, HlD. destruct (k <? length pd); [auto|]. rewrite Hmax. apply Hmask. }
  destruct (broadcast_exists_of_upper [ash (add_trailing_axes mask' (length pd)); ash m] (ps ++ D)) as [sx Hsx].
  { intros a [<-|[<-|[]]]; assumption. }
  unfold np_where0.
  destruct (np_map2 (fun (b : bool) (v : R) => if b then v else 0%R) (add_trailing_axes mask' (length pd)) m)
    as [x|ex] eqn:Hx.
  2:{ exfalso. unfold np_map2 in Hx. rewrite np_bshape_eq in Hx. rewrite Hsx in Hx. discriminate. }
  cbn [bind].
  apply np_map2_ok in Hx as [Hxs Hxg].
  assert (Hxfrom : broadcasts_to (ash x) (ps ++ D)).
  { apply (broadcast_least _ _ _ Hxs). intros a [<-|[<-|[]]]; assumption. }
  assert (HxS : broadcasted_shape (map ash [x]) = Ok (ash x)).
  { apply broadcasted_shape_ok. cbn [map]. split; [|split].
    - intros a [<-|[]]. lia.
    - right. exists (ash x). simpl; auto.
    - intros k. split; [intros a [<-|[]]; auto|]. right. exists (ash x). simpl; auto. }
  destruct (smtp_some [x] (pp ++ pd) (ps ++ D) 0 (ash x)) as (y & Hy & Hyl & Hys & _ & Hyg).
  { discriminate. }
  { exact HxS. }
  { intros a [<-|[]]. unfold get_plates. rewrite Nat.sub_0_r, firstn_all. assumption. }
  { apply broadcasts_to_app; [now symmetry|assumption|]. apply (broadcast_upper _ _ _ HDn). simpl; auto. }
  rewrite Hy. cbn [bind].
  exists (np_scale (bm_value ms [mp]) y), (bm_value ms [mp]). split; [reflexivity|]. split; [reflexivity|]. split.
  - cbn [np_scale np_map ash]. split.
    + rewrite app_length, HlD. rewrite app_length in Hyl. lia.
    + intros k. specialize (Hys k). rewrite Nat.add_0_r in Hys. rewrite Hys.
      rewrite !ax_app, HlD. destruct Hxfrom as [_ Hxf]. specialize (Hxf k). rewrite ax_app, HlD in Hxf.
      destruct (Nat.ltb_spec k (length pd)) as [Hk|Hk].
      * destruct (ax pd k =? 1); auto.
      * destruct (Nat.eqb_spec (ax pp (k - length pd)) 1) as [E|E]; [auto|].
        destruct Hpp as [_ Hpp]. destruct (Hpp (k - length pd)) as [|E2]; [contradiction|].
        rewrite E2. assumption.
  - intros t Ht. rewrite bget_scale. f_equal.
    specialize (Hyg t env0 Ht). replace (join 0 t env0) with t in Hyg.
    2:{ apply functional_extensionality. intros k. unfold join. cbn. now rewrite Nat.sub_0_r. }
    rewrite Hyg by (intros; lia). unfold fibre_sum. f_equal. apply map_ext_in. intros i Hi.
    replace (join 0 i env0) with i.
    2:{ apply functional_extensionality. intros k. unfold join. cbn. now rewrite Nat.sub_0_r. }
    unfold prodf. cbn [map lprod fold_right]. rewrite Rmult_1_r, Hxg, Ht3, Hmg; [reflexivity|].
    apply filter_In in Hi as [Hi _]. apply all_indices_valid in Hi.
    intros k Hk. destruct Hmask as [_ Hmk]. destruct (Hmk k) as [|E]; [contradiction|]. rewrite E.
    specialize (Hi (k + length pd)). rewrite ax_app, HlD in Hi.
    destruct (Nat.ltb_spec (k + length pd) (length pd)); [lia|].
    replace (k + length pd - length pd) with k in Hi by lia. exact Hi.
Qed.

(** ** Mask to a parent *)
Lemma bany_ex : forall n f, bany n f = true <-> exists x, x < n /\ f x = true.
Proof.
  induction n as [|n IH]; intros f; cbn [bany].
  - split; [discriminate|]. intros [x [H _]]. lia.
  - rewrite orb_true_iff, IH. split.
    + intros [[x [H1 H2]]|H]; [exists x; split; [lia|assumption]|exists n; split; [lia|assumption]].
    + intros [x [H1 H2]]. destruct (Nat.eq_dec x n) as [->|]; [auto|]. left. exists x. split; [lia|assumption].
Qed.

Lemma iterany_ex : forall l F e, NoDup (map fst l) ->
  (iterany l F e = true <->
   exists e', F e' = true /\ (forall k d, In (k, d) l -> e' k < d) /\
              (forall k, ~ In k (map fst l) -> e' k = e k)).
Proof.
  induction l as [|[k d] l IH]; intros F e Hnd; cbn [iterany fold_right map fst snd] in *.
  - split.
    + intros H. exists e. split; [assumption|]. split; [intros k d []|auto].
    + intros (e' & H & _ & H2). replace e with e'; [assumption|].
      apply functional_extensionality. intros k. apply H2. auto.
  - inversion Hnd as [|? ? Hk Hnd']; subst. unfold anyax. rewrite bany_ex. split.
    + intros [x [Hx H]]. apply IH in H as (e' & H1 & H2 & H3); [|assumption].
      exists e'. split; [assumption|]. split.
      * intros j d' [E|Hj]; [|now apply H2]. injection E as -> ->. rewrite H3 by assumption.
        now rewrite upd_same.
      * intros j Hj. simpl in Hj. rewrite H3 by tauto. rewrite upd_other; [reflexivity|]. intros ->. tauto.
    + intros (e' & H1 & H2 & H3). exists (e' k). split; [apply H2; simpl; auto|].
      apply IH; [assumption|]. exists e'. split; [assumption|]. split.
      * intros j d' Hj. apply H2. simpl; auto.
      * intros j Hj. unfold upd. destruct (Nat.eqb_spec j k) as [->|Hne]; [reflexivity|].
        apply H3. simpl. intros [->|]; tauto.
Qed.

Lemma bget_any_keep : forall a axes e,
  bget (np_any_keep a axes) e = iterany (sum_axes_list (ash a) axes) (bget a) e.
Proof.
  intros a axes e. unfold bget at 1. unfold np_any_keep at 1. cbn [aget].
  apply eq_true_iff_eq. rewrite !iterany_ex by apply NoDup_sum_axes.
  assert (Hax : forall k, ax (ash (np_any_keep a axes)) k = if memb k axes then 1 else ax (ash a) k).
  { intros k. unfold np_any_keep. cbn [ash]. rewrite ax_mkshape.
    destruct (Nat.ltb_spec k (ndim a)) as [H|H]; [reflexivity|].
    rewrite (ax_overflow (ash a)) by (unfold ndim in *; assumption). now destruct (memb k axes). }
  split; intros (e' & H1 & H2 & H3).
  - exists (fun k => if existsb (Nat.eqb k) (map fst (sum_axes_list (ash a) axes)) then e' k else e k).
    split; [|split].
    + rewrite <- H1. apply bget_ext. intros k Hk1 Hk2.
      destruct (existsb (Nat.eqb k) _) eqn:E; [reflexivity|].
      change (memb k (map fst (sum_axes_list (ash a) axes)) = false) in E. apply memb_false in E.
      rewrite H3 by assumption. unfold clip. rewrite Hax.
      destruct (memb k axes) eqn:Em.
      * exfalso. apply E. unfold sum_axes_list. rewrite map_map_fst_pair. apply filter_In.
        split; [apply in_seq; lia|assumption].
      * destruct (Nat.eqb_spec (ax (ash a) k) 1); [contradiction|reflexivity].
    + intros k d Hk. pose proof Hk as Hk'. apply in_map with (f := fst) in Hk'. cbn [fst] in Hk'.
      apply memb_In in Hk'. unfold memb in Hk'. rewrite Hk'. now apply H2.
    + intros k Hk. apply memb_false in Hk. unfold memb in Hk. now rewrite Hk.
  - exists (fun k => if existsb (Nat.eqb k) (map fst (sum_axes_list (ash a) axes)) then e' k
                     else clip (ash (np_any_keep a axes)) e k).
    split; [|split].
    + rewrite <- H1. apply bget_ext. intros k Hk1 Hk2.
      destruct (existsb (Nat.eqb k) _) eqn:E; [reflexivity|].
      change (memb k (map fst (sum_axes_list (ash a) axes)) = false) in E. apply memb_false in E.
      rewrite H3 by assumption. unfold clip. rewrite Hax.
      destruct (memb k axes) eqn:Em.
      * exfalso. apply E. unfold sum_axes_list. rewrite map_map_fst_pair. apply filter_In.
        split; [apply in_seq; lia|assumption].
      * destruct (Nat.eqb_spec (ax (ash a) k) 1); [contradiction|reflexivity].
    + intros k d Hk. pose proof Hk as Hk'. apply in_map with (f := fst) in Hk'. cbn [fst] in Hk'.
      apply memb_In in Hk'. unfold memb in Hk'. rewrite Hk'. now apply H2.
    + intros k Hk. apply memb_false in Hk. unfold memb in Hk. now rewrite Hk.
Qed.

Lemma ax_any_keep : forall a axes k,
  ax (ash (np_any_keep a axes)) k = if memb k axes then 1 else ax (ash a) k.
Proof.
  intros a axes k. unfold np_any_keep. cbn [ash]. rewrite ax_mkshape.
  destruct (Nat.ltb_spec k (ndim a)) as [H|H]; [reflexivity|].
  rewrite (ax_overflow (ash a)) by (unfold ndim in *; assumption). now destruct (memb k axes).
Qed.

(** The mask sent to the parent is True at parent plate [t] iff the weight is
    non-zero at some plate that maps to [t] (for plates without a zero-length
    repeat, i.e. when every parent plate has some child plate). *)
Lemma mask_to_parent_ok : forall w plates pp,
  broadcasts_to (ash w) plates -> broadcasts_to pp plates -> (forall k, ax plates k <> 0) ->
  exists y, mask_to_parent w plates pp = Ok y /\ broadcasts_to (ash y) pp /\
    forall t, valid pp t ->
      (bget y t = true <->
       exists i, valid plates i /\ maps_to (length plates) pp i t = true /\ bget w i = true).
Proof.
  intros w plates pp Hw Hpp Hpos. unfold mask_to_parent.
  rewrite (proj2 (is_shape_subset_spec _ _) Hw). cbn [negb].
  assert (Hc : axes_to_collapse (ash w) pp = Ok (collapse_list (ash w) pp)).
  { apply axes_to_collapse_ok. split; [reflexivity|]. intros k.
    destruct Hw as [_ Hw]. destruct (Hw k); [auto|]. destruct Hpp as [_ Hpp]. destruct (Hpp k); [auto|].
    right; right; congruence. }
  rewrite Hc. cbn [bind].
  set (axs := collapse_list (ash w) pp).
  assert (Haxs : forall k, In k axs <-> ax (ash w) k <> 1 /\ ax pp k = 1) by apply collapse_list_in.
  assert (Hkax : forall k, ax (ash (np_any_keep w axs)) k = if ax pp k =? 1 then 1 else ax (ash w) k).
  { intros k. rewrite ax_any_keep. destruct (memb k axs) eqn:E.
    - apply memb_In, Haxs in E as [_ E]. now rewrite E.
    - apply memb_false in E. rewrite Haxs in E. destruct (Nat.eqb_spec (ax pp k) 1); [|reflexivity].
      destruct (Nat.eq_dec (ax (ash w) k) 1); tauto. }
  destruct (squeeze_to_dim_ok _ (np_any_keep w axs) (length pp)) as (y & Hy & Hyl & Hys & Hyg).
  { intros k Hk. rewrite Hkax. now rewrite ax_overflow. }
  exists y. split; [assumption|]. split.
  - split; [lia|]. intros k. rewrite Hys, Hkax. destruct (Nat.eqb_spec (ax pp k) 1); [auto|].
    destruct Hw as [_ Hw]. destruct (Hw k); [auto|]. destruct (proj2 Hpp k); [contradiction|].
    right; congruence.
  - intros t Ht. rewrite Hyg, bget_any_keep, iterany_ex by apply NoDup_sum_axes.
    assert (Hfst : forall k, In k (map fst (sum_axes_list (ash w) axs)) <-> In k axs).
    { intros k. unfold sum_axes_list. rewrite map_map_fst_pair, filter_In, memb_In, in_seq.
      split; [tauto|]. intros H. split; [|assumption]. apply Haxs in H as [H _].
      destruct (Nat.lt_ge_cases k (length (ash w))); [lia|]. exfalso. apply H. now apply ax_overflow. }
    split.
    + intros (e' & H1 & H2 & H3).
      exists (fun k => if ax pp k =? 1 then (if memb k axs then e' k else 0) else t k).
      split; [|split].
      * intros k. destruct (Nat.eqb_spec (ax pp k) 1) as [E|E].
        -- destruct (memb k axs) eqn:Em.
           ++ apply memb_In in Em. pose proof Em as Em'. apply Haxs in Em' as [Em' _].
              destruct Hw as [_ Hw]. destruct (Hw k) as [|Ew]; [contradiction|]. rewrite <- Ew.
              apply H2. unfold sum_axes_list. apply in_map_iff. exists k. split; [reflexivity|].
              apply filter_In. split; [|now apply memb_In]. apply in_seq.
              destruct (Nat.lt_ge_cases k (length (ash w))); [lia|]. exfalso. apply Em'. now apply ax_overflow.
           ++ specialize (Hpos k). lia.
        -- destruct Hpp as [_ Hpp]. destruct (Hpp k) as [|Ep]; [contradiction|]. rewrite <- Ep. apply Ht.
      * unfold maps_to. apply forallb_forall. intros k _. apply Nat.eqb_eq. unfold clip.
        destruct (Nat.eqb_spec (ax pp k) 1) as [E|E]; [|reflexivity]. specialize (Ht k). lia.
      * rewrite <- H1. apply bget_ext. intros k Hk1 Hk2. destruct (Nat.eqb_spec (ax pp k) 1) as [E|E].
        -- replace (memb k axs) with true; [reflexivity|]. symmetry. apply memb_In, Haxs. auto.
        -- symmetry. apply H3. rewrite Hfst, Haxs. tauto.
    + intros (i & Hi1 & Hi2 & Hi3).
      exists (fun k => if memb k axs then i k else t k). split; [|split].
      * rewrite <- Hi3. apply bget_ext. intros k Hk1 Hk2. destruct (memb k axs) eqn:E; [reflexivity|].
        apply memb_false in E. rewrite Haxs in E. unfold maps_to in Hi2. rewrite forallb_forall in Hi2.
        destruct (Nat.lt_ge_cases k (length plates)) as [Hk|Hk].
        -- specialize (Hi2 k). rewrite in_seq, Nat.eqb_eq in Hi2. unfold clip in Hi2.
           destruct (Nat.eqb_spec (ax pp k) 1) as [E1|E1]; [tauto|]. symmetry. apply Hi2. lia.
        -- destruct Hw as [Hw _]. lia.
      * intros k d Hk. unfold sum_axes_list in Hk. apply in_map_iff in Hk as [j [E Hj]]. injection E as -> <-.
        apply filter_In in Hj as [_ Hj]. rewrite Hj. apply memb_In, Haxs in Hj as [Hj _].
        destruct Hw as [_ Hw]. destruct (Hw k) as [|Ew]; [contradiction|]. rewrite Ew. apply Hi1.
      * intros k Hk. rewrite Hfst in Hk. apply memb_false in Hk. now rewrite Hk.
Qed.
