(** The constructor of SumMultiply. *)
From Coq Require Import List Arith ZArith Lia Bool Reals.
From Verif Require Import Base Shapes SpecShapes ShapesLemmas NumPy MiscArray SpecArray TensorLemmas
  EinsumGen SumMultiplyLemmas Dot SpecDot.
Import ListNotations.
Open Scope nat_scope.

Definition pos (full : list nat) (k : nat) : nat := match index_of k full with Some i => i | None => 0 end.
Lemma index_of_in : forall k l, In k l -> exists i, index_of k l = Some i /\ i < length l /\ nth i l 0 = k.
Proof.
  intros k l H. destruct (index_of k l) as [i|] eqn:E; [|apply index_of_none in E; contradiction].
  exists i. split; [reflexivity|]. apply index_of_some in E. split; [apply nth_error_Some; congruence|].
  now apply nth_error_nth.
Qed.
Lemma pos_spec : forall full k, In k full -> py_index full k = Ok (pos full k) /\ pos full k < length full /\ nth (pos full k) full 0 = k.
Proof.
  intros full k H. destruct (index_of_in k full H) as (i & E & H1 & H2). unfold py_index, pos. rewrite E. auto.
Qed.
Lemma pos_inj : forall full a b, In a full -> In b full -> pos full a = pos full b -> a = b.
Proof.
  intros full a b Ha Hb E. destruct (pos_spec full a Ha) as (_ & _ & <-). destruct (pos_spec full b Hb) as (_ & _ & <-). now rewrite E.
Qed.
Lemma pos_nth : forall full i, NoDup full -> i < length full -> pos full (nth i full 0) = i.
Proof. intros. unfold pos. now rewrite index_of_nth. Qed.

Lemma all_unique_iff : forall l, all_unique l = true <-> NoDup l.
Proof.
  intros l. unfold all_unique. rewrite Nat.eqb_eq. split.
  - intros H. assert (G : forall l, length (nodup Nat.eq_dec l) <= length l /\ (length (nodup Nat.eq_dec l) = length l -> NoDup l)).
    { clear. induction l as [|x l [IH1 IH2]]; [split; [reflexivity|constructor]|]. cbn [nodup length].
      destruct (in_dec Nat.eq_dec x l); [split; [lia|intros; lia]|]. cbn [length]. split; [lia|].
      intros E. constructor; [assumption|]. apply IH2. lia. }
    now apply G.
  - intros H. now rewrite nodup_fixed_point.
Qed.

Lemma F2_length : forall A B (R : A -> B -> Prop) l l', Forall2 R l l' -> length l = length l'.
Proof. intros A B R l l' H. induction H; cbn; congruence. Qed.
Section Size.
Variable key : nat.
Definition occ (e : nat) (nk : list (shape * list nat)) : Prop :=
  exists q i, In q nk /\ index_of key (snd q) = Some i /\ nth_error (fst q) i = Some e.
Definition bstep (size : nat) (nk : shape * list nat) : res nat :=
  match index_of key (snd nk) with
  | None => Ok size
  | Some i =>
      match nth_error (fst nk) i with
      | None => Err IndexError
      | Some node_size =>
          if node_size =? size then Ok size
          else if size =? 1 then Ok node_size
          else if negb (node_size =? 1) then Err ValueError
          else Ok size
      end
  end.
Lemma occ_cons : forall e q nk, occ e (q :: nk) <-> (exists i, index_of key (snd q) = Some i /\ nth_error (fst q) i = Some e) \/ occ e nk.
Proof.
  intros e q nk. split.
  - intros (q' & i & [<-|Hq] & H1 & H2); [left; eauto|right; exists q', i; auto].
  - intros [(i & H1 & H2)|(q' & i & Hq & H1 & H2)]; [exists q, i; cbn; auto|exists q', i; cbn; auto].
Qed.
Lemma bfold : forall nk s, (forall q, In q nk -> length (fst q) = length (snd q)) ->
  match foldM bstep s nk with
  | Ok d => (s = 1 \/ s = d) /\ (forall e, occ e nk -> e = 1 \/ e = d) /\ (d = s \/ occ d nk)
  | Err er => er = ValueError /\ exists e e', (e = s \/ occ e nk) /\ occ e' nk /\ e <> e' /\ e <> 1 /\ e' <> 1
  end.
Proof.
  induction nk as [|q nk IH]; intros s HL; cbn [foldM].
  - split; [now right|]. split; [intros e (q & _ & [] & _)|now left].
  - assert (HL' : forall q, In q nk -> length (fst q) = length (snd q)) by (intros; apply HL; now right).
    unfold bstep at 1. destruct (index_of key (snd q)) as [i|] eqn:Ei.
    + destruct (nth_error (fst q) i) as [n|] eqn:En.
      2:{ exfalso. apply nth_error_None in En. apply index_of_some in Ei. assert (i < length (snd q)) by (apply nth_error_Some; congruence).
          rewrite HL in En by (now left). lia. }
      assert (Hocc : forall e, occ e (q :: nk) <-> e = n \/ occ e nk).
      { intros e. rewrite occ_cons, Ei. split; [intros [(i' & E1 & E2)|H]|intros [->|H]]; [|now right|left; eauto|now right].
        injection E1 as <-. left. congruence. }
      destruct (Nat.eqb_spec n s) as [->|Hns]; [|destruct (Nat.eqb_spec s 1) as [->|Hs1]; [|destruct (Nat.eqb_spec n 1) as [->|Hn1]; cbn [negb]]];
      cbn [bind].
      * specialize (IH s HL'). destruct (foldM bstep s nk).
        -- destruct IH as (A & B & C). split; [assumption|]. split; [intros e He; apply Hocc in He as [->|He]; auto|].
           destruct C as [C|C]; [now left|right; apply Hocc; now right].
        -- destruct IH as (-> & x & x' & H1 & H2 & H3). split; [reflexivity|]. exists x, x'.
           split; [destruct H1 as [->|H1]; [now left|right; apply Hocc; now right]|]. split; [apply Hocc; now right|assumption].
      * specialize (IH n HL'). destruct (foldM bstep n nk).
        -- destruct IH as (A & B & C). split; [now left|]. split; [intros e He; apply Hocc in He as [->|He]; auto|].
           right. apply Hocc. destruct C as [->|C]; auto.
        -- destruct IH as (-> & x & x' & H1 & H2 & H3). split; [reflexivity|]. exists x, x'.
           split; [right; apply Hocc; tauto|]. split; [apply Hocc; now right|assumption].
      * specialize (IH s HL'). destruct (foldM bstep s nk).
        -- destruct IH as (A & B & C). split; [assumption|]. split; [intros e He; apply Hocc in He as [->|He]; auto|].
           destruct C as [C|C]; [now left|right; apply Hocc; now right].
        -- destruct IH as (-> & x & x' & H1 & H2 & H3). split; [reflexivity|]. exists x, x'.
           split; [destruct H1 as [->|H1]; [now left|right; apply Hocc; now right]|]. split; [apply Hocc; now right|assumption].
      * split; [reflexivity|]. exists s, n. split; [now left|]. split; [apply Hocc; now left|auto].
    + cbn [bind]. assert (Hocc : forall e, occ e (q :: nk) <-> occ e nk).
      { intros e. rewrite occ_cons, Ei. split; [intros [(i' & E1 & E2)|H]; [discriminate|assumption]|now right]. }
      specialize (IH s HL'). destruct (foldM bstep s nk).
      * destruct IH as (A & B & C). split; [assumption|]. split; [intros e He; apply Hocc in He; auto|].
        destruct C as [C|C]; [now left|right; now apply Hocc].
      * destruct IH as (-> & x & x' & H1 & H2 & H3). split; [reflexivity|]. exists x, x'.
        split; [destruct H1 as [->|H1]; [now left|right; now apply Hocc]|]. split; [now apply Hocc|assumption].
Qed.
End Size.

Lemma occ_axis : forall dimss keysets key e, Forall2 (fun dims ks => length dims = length ks /\ NoDup ks) dimss keysets ->
  (occ key e (combine dimss keysets) <-> axis_length dimss keysets key e).
Proof.
  intros dimss keysets key e H. unfold axis_length. induction H as [|dims ks dimss keysets [HL HN] _ IH].
  - split; [intros (q & _ & [] & _)|intros (n & i & ks & dims & E & _); destruct n; discriminate].
  - cbn [combine]. rewrite occ_cons, IH. cbn [fst snd]. split.
    + intros [(i & E1 & E2)|(n & i & k & d & E)].
      * exists 0, i, ks, dims. apply index_of_some in E1. auto.
      * exists (S n), i, k, d. exact E.
    + intros (n & i & k & d & E1 & E2 & E3 & E4). destruct n as [|n].
      * cbn in E1, E2. injection E1 as <-. injection E2 as <-. left. exists i. split; [|assumption].
        assert (Hi : i < length ks) by (apply nth_error_Some; congruence).
        rewrite <- (nth_error_nth _ _ 0 E3). now apply index_of_nth.
      * right. exists n, i, k, d. auto.
Qed.

Lemma size_ok : forall dimss keysets key, Forall2 (fun dims ks => length dims = length ks /\ NoDup ks) dimss keysets ->
  match broadcasted_size key (combine dimss keysets) with
  | Ok d => key_length dimss keysets key d
  | Err e => e = ValueError /\ exists d d', axis_length dimss keysets key d /\ axis_length dimss keysets key d' /\ d <> d' /\ d <> 1 /\ d' <> 1
  end.
Proof.
  intros dimss keysets key H.
  assert (HL : forall q, In q (combine dimss keysets) -> length (fst q) = length (snd q)).
  { clear key. induction H as [|d k dimss keysets [A _] _ IH]; intros q Hq; [destruct Hq|]. destruct Hq as [<-|Hq]; [exact A|auto]. }
  pose proof (bfold key (combine dimss keysets) 1 HL) as B. unfold broadcasted_size.
  change (foldM _ 1 (combine dimss keysets)) with (foldM (bstep key) 1 (combine dimss keysets)).
  destruct (foldM (bstep key) 1 (combine dimss keysets)) as [d|e].
  - destruct B as (_ & B & C). split.
    + intros e He. apply B. now apply occ_axis.
    + destruct C as [C|C]; [now left|right]. now apply occ_axis.
  - destruct B as (-> & x & x' & H1 & H2 & H3 & H4 & H5). split; [reflexivity|]. exists x, x'.
    destruct H1 as [->|H1]; [congruence|]. rewrite <- !occ_axis by assumption. auto.
Qed.

Lemma forallb_keys : forall dimss keysets, length dimss = length keysets ->
  (forallb (fun p : shape * list nat => (length (fst p) =? length (snd p)) && all_unique (snd p)) (combine dimss keysets) = true <->
   Forall2 (fun dims ks => length dims = length ks /\ NoDup ks) dimss keysets).
Proof.
  induction dimss as [|d dimss IH]; intros [|k keysets] HL; try discriminate; [cbn; split; [constructor|reflexivity]|].
  cbn [combine forallb fst snd]. injection HL as HL. rewrite !andb_true_iff, IH, Nat.eqb_eq, all_unique_iff by assumption. split.
  - intros [? ?]. now constructor.
  - intros H. inversion H; subst. auto.
Qed.

Lemma sm_init_ok : forall full nodes keysets keys_out g, enumerates full keysets ->
  sm_init full nodes keysets keys_out = Ok g ->
  valid_arguments (map fst nodes) keysets keys_out /\
  exists size, (forall k, In k (concat keysets) -> key_length (map fst nodes) keysets k (size k)) /\
    g = SM (map (map (pos full)) keysets) (map (pos full) keys_out) (length full)
           (map (fun p => is_delta (snd p)) nodes) (existsb (fun p => is_gamma (snd p)) nodes) (map size keys_out).
Proof.
  intros full nodes keysets keys_out g [HN HF] H. unfold sm_init in H.
  destruct ((length nodes =? 0) || negb (length nodes =? length keysets)) eqn:E1; [discriminate|].
  apply orb_false_iff in E1 as [E1 E1']. apply Nat.eqb_neq in E1. apply negb_false_iff, Nat.eqb_eq in E1'.
  destruct (forallb (fun p => (length (fst p) =? length (snd p)) && all_unique (snd p)) (combine (map fst nodes) keysets)) eqn:E2; [|discriminate].
  cbn [negb] in H. apply forallb_keys in E2; [|now rewrite map_length].
  destruct (all_unique keys_out) eqn:E3; [|discriminate]. apply all_unique_iff in E3. cbn [negb] in H.
  destruct (forallb (fun key => memb key full) keys_out) eqn:E4; [|discriminate]. cbn [negb] in H.
  rewrite forallb_forall in E4.
  assert (Hout : forall k, In k keys_out -> In k full) by (intros k Hk; apply memb_In; auto).
  destruct (mapM (fun key => broadcasted_size key (combine (map fst nodes) keysets)) full) as [sizes|] eqn:E5; [|discriminate].
  cbn [bind] in H. apply mapM_ok_Forall2 in E5.
  set (size k := nth (pos full k) sizes 0).
  assert (HS : forall k, In k full -> broadcasted_size k (combine (map fst nodes) keysets) = Ok (size k) /\ nth_error sizes (pos full k) = Some (size k)).
  { intros k Hk. destruct (pos_spec full k Hk) as (_ & P1 & P2). unfold size. revert P1 P2. generalize (pos full k). revert E5. clear.
    intros E5. induction E5 as [|a b full sizes Hab _ IH]; intros i P1 P2; [cbn in P1; lia|]. destruct i as [|i].
    - cbn in P2 |- *. subst. auto.
    - cbn in P1, P2 |- *. apply IH; [lia|assumption]. }
  assert (M1 : forall l, (forall k, In k l -> In k full) ->
    mapM (fun key => i <- py_index full key;; match nth_error sizes i with Some d => Ok d | None => Err KeyError end) l = Ok (map size l)).
  { induction l as [|k l IH]; intros Hl; [reflexivity|]. cbn [mapM map].
    destruct (pos_spec full k (Hl k ltac:(now left))) as (-> & _). cbn [bind]. destruct (HS k (Hl k ltac:(now left))) as [_ ->].
    cbn [bind]. rewrite IH by (intros; apply Hl; now right). reflexivity. }
  rewrite M1 in H by assumption. cbn [bind] in H.
  assert (M2 : forall l, (forall k, In k l -> In k full) -> mapM (py_index full) l = Ok (map (pos full) l)).
  { induction l as [|k l IH]; intros Hl; [reflexivity|]. cbn [mapM map].
    destruct (pos_spec full k (Hl k ltac:(now left))) as (-> & _). cbn [bind]. rewrite IH by (intros; apply Hl; now right). reflexivity. }
  rewrite M2 in H by assumption. cbn [bind] in H.
  assert (M3 : forall ls, (forall k, In k (concat ls) -> In k full) -> mapM (mapM (py_index full)) ls = Ok (map (map (pos full)) ls)).
  { induction ls as [|l ls IH]; intros Hl; [reflexivity|]. cbn [mapM map concat] in *.
    rewrite M2 by (intros; apply Hl; apply in_or_app; now left). cbn [bind]. rewrite IH by (intros; apply Hl; apply in_or_app; now right). reflexivity. }
  rewrite M3 in H by (intros; now apply HF). cbn [bind] in H. injection H as <-.
  assert (KL : forall k, In k (concat keysets) -> key_length (map fst nodes) keysets k (size k)).
  { intros k Hk. apply HF in Hk. destruct (HS k Hk) as [B _]. pose proof (size_ok (map fst nodes) keysets k E2) as S. now rewrite B in S. }
  split.
  - split; [intros E; apply map_eq_nil in E; subst; cbn in E1; lia|]. split; [assumption|]. split; [assumption|].
    split; [intros k Hk; apply HF; auto|].
    intros k d d' A A'.
    assert (Hk : In k (concat keysets)).
    { destruct A as (n & i & ks & dims & B1 & _ & B2 & _). apply in_concat. exists ks. split; eapply nth_error_In; eauto. }
    destruct (KL k Hk) as [B _]. destruct (B d A) as [-> | ->]; [auto|]. destruct (B d' A') as [-> | ->]; auto.
  - exists size. split; [assumption|reflexivity].
Qed.

Lemma sm_init_total : forall full nodes keysets keys_out, enumerates full keysets ->
  valid_arguments (map fst nodes) keysets keys_out -> exists g, sm_init full nodes keysets keys_out = Ok g.
Proof.
  intros full nodes keysets keys_out [HN HF] (V1 & V2 & V3 & V4 & V5). unfold sm_init.
  pose proof (F2_length _ _ _ _ _ V2) as HL. rewrite map_length in HL.
  assert (E1 : (length nodes =? 0) || negb (length nodes =? length keysets) = false).
  { rewrite HL, Nat.eqb_refl. cbn. rewrite orb_false_r. apply Nat.eqb_neq. rewrite <- HL. intros E. apply V1. destruct nodes; [reflexivity|discriminate]. }
  rewrite E1. pose proof V2 as V2'. apply forallb_keys in V2'; [|now rewrite map_length]. rewrite V2'. cbn [negb].
  pose proof V3 as V3'. apply all_unique_iff in V3'. rewrite V3'. cbn [negb].
  assert (E4 : forallb (fun key => memb key full) keys_out = true).
  { apply forallb_forall. intros k Hk. apply memb_In. apply HF. auto. }
  rewrite E4. cbn [negb].
  assert (E5 : exists sizes, mapM (fun key => broadcasted_size key (combine (map fst nodes) keysets)) full = Ok sizes).
  { apply mapM_ok_iff. intros k Hk. pose proof (size_ok (map fst nodes) keysets k V2) as S.
    destruct (broadcasted_size k (combine (map fst nodes) keysets)) as [d|e]; [eauto|exfalso].
    destruct S as (_ & d & d' & A & A' & N & N1 & N2). destruct (V5 k d d' A A') as [?|[?|?]]; congruence. }
  destruct E5 as [sizes E5]. rewrite E5. cbn [bind]. pose proof (mapM_ok_length _ _ _ _ _ E5) as Hlen.
  assert (M1 : exists s, mapM (fun key => i <- py_index full key;; match nth_error sizes i with Some d => Ok d | None => Err KeyError end) keys_out = Ok s).
  { apply mapM_ok_iff. intros k Hk. destruct (pos_spec full k) as (-> & P1 & _); [apply HF; auto|]. cbn [bind].
    destruct (nth_error sizes (pos full k)) eqn:E; [eauto|]. apply nth_error_None in E. lia. }
  destruct M1 as [s ->]. cbn [bind].
  assert (M2 : exists s, mapM (py_index full) keys_out = Ok s).
  { apply mapM_ok_iff. intros k Hk. destruct (pos_spec full k) as (-> & _); [apply HF; auto|]. eauto. }
  destruct M2 as [o ->]. cbn [bind].
  assert (M3 : exists s, mapM (mapM (py_index full)) keysets = Ok s).
  { apply mapM_ok_iff. intros l Hl. apply mapM_ok_iff. intros k Hk. destruct (pos_spec full k) as (-> & _); [|eauto].
    apply HF. apply in_concat. eauto. }
  destruct M3 as [ins ->]. cbn [bind]. eauto.
Qed.

Lemma sm_init_err : forall full nodes keysets keys_out e, enumerates full keysets ->
  sm_init full nodes keysets keys_out = Err e -> e = ValueError.
Proof.
  intros full nodes keysets keys_out e [HN HF] H. unfold sm_init in H.
  destruct (_ || _) eqn:E1; [congruence|].
  apply orb_false_iff in E1 as [E1 E1']. apply Nat.eqb_neq in E1. apply negb_false_iff, Nat.eqb_eq in E1'.
  destruct (forallb (fun p => (length (fst p) =? length (snd p)) && all_unique (snd p)) (combine (map fst nodes) keysets)) eqn:E2; cbn [negb] in H; [|congruence].
  apply forallb_keys in E2; [|now rewrite map_length].
  destruct (all_unique keys_out); cbn [negb] in H; [|congruence].
  destruct (forallb (fun key => memb key full) keys_out) eqn:E4; cbn [negb] in H; [|congruence].
  rewrite forallb_forall in E4.
  destruct (mapM (fun key => broadcasted_size key (combine (map fst nodes) keysets)) full) as [sizes|e'] eqn:E5; cbn [bind] in H.
  2:{ apply mapM_err in E5 as (k & Hk & E5). pose proof (size_ok (map fst nodes) keysets k E2) as S. rewrite E5 in S. destruct S as [-> _]. congruence. }
  exfalso. pose proof (mapM_ok_length _ _ _ _ _ E5) as Hlen.
  assert (M1 : exists s, mapM (fun key => i <- py_index full key;; match nth_error sizes i with Some d => Ok d | None => Err KeyError end) keys_out = Ok s).
  { apply mapM_ok_iff. intros k Hk. destruct (pos_spec full k) as (-> & P1 & _); [apply memb_In; auto|]. cbn [bind].
    destruct (nth_error sizes (pos full k)) eqn:E; [eauto|]. apply nth_error_None in E. lia. }
  destruct M1 as [s M1]. rewrite M1 in H. cbn [bind] in H.
  assert (M2 : exists s, mapM (py_index full) keys_out = Ok s).
  { apply mapM_ok_iff. intros k Hk. destruct (pos_spec full k) as (-> & _); [apply memb_In; auto|]. eauto. }
  destruct M2 as [o M2]. rewrite M2 in H. cbn [bind] in H.
  assert (M3 : exists s, mapM (mapM (py_index full)) keysets = Ok s).
  { apply mapM_ok_iff. intros l Hl. apply mapM_ok_iff. intros k Hk. destruct (pos_spec full k) as (-> & _); [|eauto].
    apply HF. apply in_concat. eauto. }
  destruct M3 as [ins M3]. rewrite M3 in H. discriminate.
Qed.
