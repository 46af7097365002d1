(** SumMultiply: from the constructor's arguments to positions, and the value of the moments. *)
From Coq Require Import List Arith ZArith Lia Bool Reals Lra Permutation FunctionalExtensionality.
From Verif Require Import Base Shapes SpecShapes ShapesLemmas NumPy MiscArray SpecArray TensorLemmas
  EinsumLemmas EinsumGen PlateSumLemmas PlateSum2Lemmas MessageLemmas SumMultiplyLemmas NetworkLemmas GateLemmas PGate Dot SpecDot
  DotEinsum DotSum DotMessage DotAdjoint DotNode DotPart DotExpect DotInit.
Import ListNotations.
Open Scope nat_scope.

(** ** The model's operands *)
Definition pars (ins : list (list nat)) (us : list pmom) (cs : list bool) : list par := zip3 ins us cs.

Lemma mean_ops : forall D ins us cs, length ins = length us -> length cs = length us ->
  combine (map mom0 us)
    (map (fun p => down_keys D (fst p) ++ snd p) (combine (map (fun p => ndim (mom0 (snd p)) - length (fst p)) (combine ins us)) ins))
  = lab_ops D (flat_map (mops D false) (pars ins us cs)) /\
  map (fun p => ndim (mom0 (snd p)) - length (fst p)) (combine ins us) = map plates_of (flat_map (mops D false) (pars ins us cs)).
Proof.
  intros D ins. induction ins as [|k ins IH]; intros [|u us] [|c cs] H1 H2; try discriminate; [split; reflexivity|].
  injection H1 as H1. injection H2 as H2. destruct (IH us cs H1 H2) as [I1 I2].
  unfold pars, zip3, lab_ops in *. cbn [combine map flat_map mops negb app fst snd]. rewrite I1, I2. split; reflexivity.
Qed.

Lemma list_max_dup : forall a l, list_max (a :: a :: l) = list_max (a :: l).
Proof. intros. unfold list_max. cbn [fold_right]. lia. Qed.

Lemma second_ops : forall P D sz zs dimss, Forall2 (par_fits P D sz) zs dimss ->
  exists counts ops, mapM sm_count1 zs = Ok counts /\ mapM (sm_ops1 D) zs = Ok ops /\
    concat ops = lab_ops (2 * D) (flat_map (mops D true) zs) /\
    list_max counts = list_max (map plates_of (flat_map (mops D true) zs)).
Proof.
  intros P D sz zs dimss H. induction H as [|[[keys u] c] dims zs dimss [Hk Hm] H IH].
  - exists [], []. repeat split; reflexivity.
  - destruct IH as (counts & ops & E1 & E2 & E3 & E4). unfold lab_ops in *. destruct c.
    + exists ((ndim (mom0 u) - length keys) :: counts), ([(mom0 u, down_keys (2 * D) (ndim (mom0 u) - length keys) ++ map (Nat.add D) keys);
        (mom0 u, down_keys (2 * D) (ndim (mom0 u) - length keys) ++ keys)] :: ops).
      cbn [mapM sm_count1 sm_ops1 bind]. rewrite E1, E2. cbn [bind]. split; [reflexivity|]. split; [reflexivity|].
      cbn [concat flat_map mops negb]. rewrite map_app, E3. split.
      * cbn [map]. unfold lab_op. cbn [fst snd]. rewrite map_length. reflexivity.
      * rewrite map_app. cbn [map app]. unfold plates_of at 1 2. cbn [fst snd]. rewrite map_length. rewrite list_max_dup.
        unfold list_max in *. cbn [fold_right]. now rewrite E4.
    + assert (E : mom1 u = Ok (xx_of u)) by (destruct u; [destruct Hm; discriminate|reflexivity|reflexivity]).
      exists ((ndim (xx_of u) - 2 * length keys) :: counts),
        ([(xx_of u, down_keys (2 * D) (ndim (xx_of u) - 2 * length keys) ++ map (Nat.add D) keys ++ keys)] :: ops).
      cbn [mapM sm_count1 sm_ops1]. rewrite E. cbn [bind]. rewrite E1, E2. cbn [bind]. split; [reflexivity|]. split; [reflexivity|].
      assert (EL : length (map (Nat.add D) keys ++ keys) = 2 * length keys) by (rewrite app_length, map_length; lia).
      cbn [concat flat_map mops negb]. rewrite map_app, E3. split.
      * cbn [map]. unfold lab_op. cbn [fst snd]. rewrite EL. reflexivity.
      * rewrite map_app. cbn [map app]. unfold plates_of at 1. cbn [fst snd]. rewrite EL.
        unfold list_max in *. cbn [fold_right]. now rewrite E4.
Qed.

(** ** Keys and positions *)
Section Setup.
Variables (full : list nat) (dimss : list shape) (keysets : list (list nat)) (keys_out : list nat) (size : nat -> nat).
Hypothesis full_ok : enumerates full keysets.
Hypothesis args_ok : valid_arguments dimss keysets keys_out.
Hypothesis size_is : forall k, In k (concat keysets) -> key_length dimss keysets k (size k).
Notation D := (length full).
Notation P' := (pos full).
Definition sz (k : nat) : nat := size (nth k full 0).
Definition out : list nat := map (pos full) keys_out.

Lemma in_full : forall ks k, In ks keysets -> In k ks -> In k full.
Proof. intros ks k H1 H2. apply full_ok. apply in_concat. eauto. Qed.
Lemma sz_pos : forall k, In k full -> sz (P' k) = size k.
Proof. intros k H. unfold sz. now destruct (pos_spec full k H) as (_ & _ & ->). Qed.
Lemma out_full : forall k, In k keys_out -> In k full.
Proof. intros k H. apply full_ok. now apply args_ok. Qed.
Lemma out_is_nodup : NoDup out.
Proof.
  unfold out. assert (N : NoDup keys_out) by apply args_ok. pose proof out_full as O. revert N O.
  generalize keys_out. intros l N. induction N as [|x l Hx N IH]; intros O; cbn [map]; constructor.
  - intros H. apply in_map_iff in H as [y [E Hy]]. apply pos_inj in E; [subst y; contradiction| |]; apply O; [now right|now left].
  - apply IH. intros k Hk. apply O. now right.
Qed.
Lemma out_is_lt : forall k, In k out -> k < D.
Proof. intros k H. apply in_map_iff in H as [x [<- Hx]]. now apply (pos_spec full x (out_full x Hx)). Qed.

Lemma pos_nodup : forall ks, NoDup ks -> (forall k, In k ks -> In k full) -> NoDup (map P' ks).
Proof.
  intros ks N. induction N as [|x l Hx N IH]; intros O; cbn [map]; constructor.
  - intros H. apply in_map_iff in H as [y [E Hy]]. apply pos_inj in E; [subst y; contradiction| |]; apply O; [now right|now left].
  - apply IH. intros k Hk. apply O. now right.
Qed.

Lemma nth_error_rev : forall A (l : list A) i d, i < length l -> nth i (rev l) d = nth (length l - S i) l d.
Proof. intros. now rewrite rev_nth. Qed.

Lemma keys_fit_pos : forall n ks dims, nth_error keysets n = Some ks -> nth_error dimss n = Some dims ->
  keys_fit D sz (map P' ks) dims.
Proof.
  intros n ks dims Hk Hd.
  assert (Hin : In ks keysets) by (eapply nth_error_In; eassumption).
  destruct args_ok as (_ & F & _).
  assert (HF : length dims = length ks /\ NoDup ks).
  { clear -F Hk Hd. revert n Hk Hd. induction F as [|d k dl kl H F IH]; intros [|n] Hk Hd; cbn in *; try discriminate.
    - injection Hk as ->. injection Hd as ->. assumption.
    - eapply IH; eassumption. }
  destruct HF as [HL HN]. unfold keys_fit. rewrite map_length. split; [assumption|]. split; [apply pos_nodup; [assumption|intros; eapply in_full; eassumption]|].
  split.
  - intros k H. apply in_map_iff in H as [x [<- Hx]]. now apply (pos_spec full x (in_full ks x Hin Hx)).
  - intros i Hi. rewrite nth_rev_map by assumption. rewrite rev_nth by assumption.
    assert (Hj : length ks - S i < length ks) by lia.
    set (j := length ks - S i) in *.
    assert (Hkj : In (nth j ks 0) ks) by (now apply nth_In).
    rewrite sz_pos by (eapply in_full; eassumption).
    assert (Hc : In (nth j ks 0) (concat keysets)) by (apply in_concat; eauto).
    destruct (size_is _ Hc) as [S1 _].
    assert (Hax : ax dims i = nth j dims 1).
    { unfold ax. rewrite rev_nth by lia. f_equal. unfold j. lia. }
    rewrite Hax. apply S1. exists n, j, ks, dims. repeat split; try assumption.
    + now apply nth_error_nth'.
    + apply nth_error_nth'. lia.
Qed.

Lemma combine_nth_error : forall A B (l : list A) (l' : list B) n a b,
  nth_error l n = Some a -> nth_error l' n = Some b -> In (a, b) (combine l l').
Proof.
  intros A B l. induction l as [|x l IH]; intros [|y l'] [|n] a b H1 H2; try discriminate; cbn in *.
  - left. congruence.
  - right. eapply IH; eassumption.
Qed.

Lemma attained_pos : forall zs, map (fun z : par => fst (fst z)) zs = map (map P') keysets ->
  forall k, k < D -> sz k = 1 \/ attained sz zs dimss k.
Proof.
  intros zs Hz k Hk. set (key := nth k full 0).
  assert (Hin : In key full) by (now apply nth_In).
  assert (Hc : In key (concat keysets)) by (now apply full_ok).
  destruct (size_is key Hc) as [_ [E|(n & i & ks & dims & A1 & A2 & A3 & A4)]]; [left; exact E|right].
  assert (Hn : exists z, nth_error zs n = Some z /\ fst (fst z) = map P' ks).
  { assert (E : nth_error (map (fun z : par => fst (fst z)) zs) n = Some (map P' ks)) by (rewrite Hz; apply map_nth_error; assumption).
    rewrite nth_error_map in E. destruct (nth_error zs n) as [z|] eqn:Ez; [|discriminate]. exists z. split; [reflexivity|]. cbn in E. congruence. }
  destruct Hn as (z & Hz1 & Hz2). exists z, dims, (length ks - S i).
  assert (Hi : i < length ks) by (apply nth_error_Some; congruence).
  assert (Hi2 : i < length dims) by (apply nth_error_Some; congruence).
  assert (HL : length dims = length ks).
  { destruct args_ok as (_ & F & _). clear -F A1 A2. revert n A1 A2. induction F as [|d k dl kl [H _] F IH]; intros [|n] A1 A2; cbn in *; try discriminate.
    - congruence.
    - eapply IH; eassumption. }
  split; [eapply combine_nth_error; eassumption|]. rewrite Hz2, map_length. split; [lia|]. split.
  - rewrite nth_rev_map by lia. rewrite rev_nth by lia. replace (length ks - S (length ks - S i)) with i by lia.
    rewrite (nth_error_nth _ _ 0 A3). destruct full_ok as [N _]. now apply pos_nth.
  - unfold ax. rewrite rev_nth by lia. replace (length dims - S (length ks - S i)) with i by lia.
    rewrite (nth_error_nth _ _ 1 A4). reflexivity.
Qed.

Lemma used_pos : forall zs, map (fun z : par => fst (fst z)) zs = map (map P') keysets ->
  forall k, k < D -> exists z, In z zs /\ In k (fst (fst z)).
Proof.
  intros zs Hz k Hk. assert (Hin : In (nth k full 0) full) by (now apply nth_In).
  apply full_ok in Hin. apply in_concat in Hin as [ks [H1 H2]].
  assert (E : In (map P' ks) (map (fun z : par => fst (fst z)) zs)) by (rewrite Hz; now apply in_map).
  apply in_map_iff in E as [z [E Hz']]. exists z. split; [assumption|]. rewrite E.
  replace k with (P' (nth k full 0)) by (destruct full_ok as [N _]; now apply pos_nth). now apply in_map.
Qed.

Lemma shape_pos : forall second, map (twice D sz) (two D second out) = if second then map size keys_out ++ map size keys_out else map size keys_out.
Proof.
  assert (E : map (twice D sz) out = map size keys_out).
  { unfold out. rewrite map_map. apply map_ext_in. intros k Hk. pose proof (out_full k Hk) as H.
    rewrite twice_lt by (now apply (pos_spec full k H)). now apply sz_pos. }
  intros []; cbn [two]; [|assumption]. rewrite map_app, map_map, E. f_equal. rewrite <- E. unfold out. rewrite !map_map.
  apply map_ext_in. intros k Hk. rewrite twice_add, twice_lt by (now apply (pos_spec full k (out_full k Hk))). reflexivity.
Qed.

(** ** Values: positions against keys *)
Definition out_env (o : list nat) (k : nat) : nat := match index_of k keys_out with Some i => nth i o 0 | None => 0 end.
Lemma out_env_map : forall o, length o = length keys_out -> map (out_env o) keys_out = o.
Proof.
  intros o Ho. apply nth_ext with (d := 0) (d' := 0); rewrite map_length; [lia|]. intros i Hi.
  rewrite (nth_indep _ 0 (out_env o 0)) by (rewrite map_length; lia). rewrite map_nth. unfold out_env.
  rewrite index_of_nth; [reflexivity| |assumption]. apply args_ok.
Qed.

Definition at_pos (values : list (arr R)) (L : env) : R :=
  lprod (map (fun p => bget (snd p) (at_index (map L (fst p)))) (combine (map (map P') keysets) values)).
Definition at_keys (values : list (arr R)) (index : env) : R :=
  lprod (map (fun p => bget (snd p) (at_index (map index (fst p)))) (combine keysets values)).

Lemma at_pos_keys : forall values L, at_pos values L = at_keys values (fun k => L (P' k)).
Proof.
  intros values L. unfold at_pos, at_keys. f_equal. revert values. generalize keysets. intros l.
  induction l as [|ks l IH]; intros [|v values]; cbn [map combine]; try reflexivity. rewrite IH. cbn [fst snd]. now rewrite map_map.
Qed.
Lemma at_keys_reads : forall values, reads (concat keysets) (at_keys values).
Proof.
  intros values L L' H. unfold at_keys. f_equal. apply map_ext_in. intros [ks v] Hin. cbn [fst snd]. f_equal. f_equal.
  apply map_ext_in. intros k Hk. apply H. apply in_concat. exists ks. split; [eapply in_combine_l; exact Hin|assumption].
Qed.
Lemma at_pos_reads : forall values, reads (seq 0 D) (at_pos values).
Proof.
  intros values L L' H. unfold at_pos. f_equal. apply map_ext_in. intros [ks v] Hin. cbn [fst snd]. f_equal. f_equal.
  apply map_ext_in. intros k Hk. apply H. apply in_combine_l in Hin. apply in_map_iff in Hin as [ks' [<- Hks]].
  apply in_map_iff in Hk as [x [<- Hx]]. apply in_seq. pose proof (in_full ks' x Hks Hx) as Hf. destruct (pos_spec full x Hf) as (_ & H1 & _). lia.
Qed.

Lemma free_sum_pos : forall values o L, (forall k, In k full -> L (P' k) = out_env o k) ->
  itersum (map (fun k => (k, sz k)) (filter (fun k => negb (memb k out)) (seq 0 D))) (at_pos values) L =
  sum_product_at size keysets keys_out values o.
Proof.
  intros values o L HL. unfold sum_product_at. fold (at_keys values). fold (out_env o).
  set (ks := filter (fun k => negb (memb k keys_out)) (nodup Nat.eq_dec (concat keysets))).
  transitivity (itersum (map (fun k => (P' k, size k)) ks) (fun L => at_keys values (fun k => L (P' k))) L).
  - transitivity (itersum (map (fun k => (P' k, size k)) ks) (at_pos values) L).
    2:{ apply itersum_ext_all. intros; apply at_pos_keys. }
    apply itersum_perm.
    + assert (Hks : forall k, In k ks -> In k full).
      { intros k Hk. apply filter_In in Hk as [Hk _]. apply nodup_In in Hk. now apply full_ok. }
      rewrite (map_ext_in (fun k => (P' k, size k)) (fun k => (fun j => (j, sz j)) (P' k))) by (intros k Hk; cbn; now rewrite sz_pos by auto).
      rewrite <- (map_map P' (fun j => (j, sz j))). apply Permutation_map. apply NoDup_Permutation.
      * apply NoDup_filter, seq_NoDup.
      * apply pos_nodup; [|assumption]. apply NoDup_filter, NoDup_nodup.
      * intros k. rewrite filter_In, in_seq, in_map_iff. split.
        -- intros [Hk Hn]. assert (Hin : In (nth k full 0) full) by (apply nth_In; lia).
           assert (Ep : P' (nth k full 0) = k) by (apply pos_nth; [apply full_ok|lia]).
           exists (nth k full 0). split; [assumption|]. apply filter_In. split; [apply nodup_In; now apply full_ok|].
           apply negb_true_iff. apply negb_true_iff in Hn. destruct (memb (nth k full 0) keys_out) eqn:E; [|reflexivity].
           apply memb_In in E. rewrite <- Hn. symmetry. apply memb_In. rewrite <- Ep. unfold out. now apply in_map.
        -- intros [x [<- Hx]]. pose proof (Hks x Hx) as Hf. split; [pose proof (pos_spec full x Hf); lia|].
           apply filter_In in Hx as [_ Hn]. apply negb_true_iff. apply negb_true_iff in Hn.
           destruct (memb (P' x) out) eqn:E; [|reflexivity]. apply memb_In in E. unfold out in E. apply in_map_iff in E as [y [E Hy]].
           apply pos_inj in E; [|now apply out_full|assumption]. subst y. rewrite <- Hn. symmetry. now apply memb_In.
    + rewrite map_map. cbn [fst]. rewrite map_id. apply NoDup_filter, seq_NoDup.
  - rewrite (itersum_rename_on P' (concat keysets) size (at_keys values) ks L).
    + apply (reads_itersum (concat keysets)); [apply at_keys_reads|]. intros k Hk. apply HL. now apply full_ok.
    + apply at_keys_reads.
    + intros a b Ha Hb. apply pos_inj; now apply full_ok.
    + intros k Hk. apply filter_In in Hk as [Hk _]. now apply nodup_In in Hk.
Qed.
End Setup.
