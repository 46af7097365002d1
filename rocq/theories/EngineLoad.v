(** Loading what was saved. *)
From Coq Require Import String List Arith ZArith Lia Bool Reals Lra FinFun.
From Coq Require Import FunctionalExtensionality.
From Verif Require Import Base SpecShapes Shapes ShapesLemmas NumPy MiscArray TensorLemmas Engine SpecEngine
  EngineLemmas EngineLemmas2 EngineSave.
Import ListNotations.
Open Scope nat_scope.

Ltac mem := rewrite ?in_app_iff; cbn [In]; tauto.
Section L.
Variable name_of : nat -> string.
Variable stochastic : nat -> bool.
Variable update_mask : nat -> world -> world.

Notation save := (save name_of stochastic).
Notation load := (load name_of stochastic update_mask).
Notation load_node := (load_node name_of update_mask).
Notation masks_only := (masks_only update_mask).
Notation file_of := (file_of name_of stochastic).

Lemma run_bind : forall S A B (m : ST S A) (k : A -> ST S B) s s1 a,
  m s = (s1, Ok a) -> sbind m k s = k a s1.
Proof. intros S A B m k s s1 a H. unfold sbind. now rewrite H. Qed.

Lemma any_diff_same : forall (sh : list nat) (d : env -> bool), (forall e, d e = false) ->
  forall n e, any_diff_from sh n d e = false.
Proof.
  intros sh d H. induction n as [|n IH]; intros e; cbn; [apply H|].
  induction (ax sh n) as [|k IHk]; [reflexivity|]. cbn. now rewrite IHk, IH.
Qed.
Lemma any_differs_refl : forall a, any_differs a a = false.
Proof.
  intros a. unfold any_differs.
  assert (E : np_bshape [ash a; ash a] = Ok (ash a)).
  { rewrite np_bshape_eq. apply subset_iff_absorb. apply is_shape_subset_spec. apply broadcasts_to_refl. }
  rewrite E. apply any_diff_same. intros e. apply xorb_nilpotent.
Qed.

Lemma nth_enumerate : forall A (l : list A) i a, nth_error l i = Some a -> In (i, a) (enumerate l).
Proof.
  intros A l i a H. unfold enumerate.
  assert (G : forall l k, nth_error l i = Some a -> In (k + i, a) (combine (seq k (length l)) l)).
  { clear l H. revert i. intros i l. revert i. induction l as [|b l IH]; intros [|i] k H; cbn in H; try discriminate.
    - injection H as ->. left. f_equal. lia.
    - right. replace (k + S i) with (S k + i) by lia. now apply IH. }
  exact (G l 0 H).
Qed.

Lemma load_node_ok : forall f n st s, masks_only ->
  NoDup (map fst f) -> In (PNodes, VGroup) f -> In (PNode (name_of n), VGroup) f ->
  (forall x, In x (node_data (name_of n) st) -> In x f) ->
  length (n_phi (v_world s n)) = length (n_phi st) ->
  length (n_u (v_world s n)) = length (n_u st) ->
  exists s', load_node f n s = (s', Ok tt) /\ s' = set_world s (v_world s') /\
    same_state (v_world s' n) st /\ n_annealing (v_world s' n) = n_annealing (v_world s n) /\
    (forall j, j <> n -> but_mask (v_world s' j) (v_world s j)) /\
    (n_observed (v_world s n) = n_observed st ->
       forall j, n_mask (v_world s' j) = n_mask (v_world s j)).
Proof.
  intros f n st s Hm Hnd HN Hn Hdata Hphi Hu.
  assert (Hlk : forall p v, In (p, v) (node_data (name_of n) st) -> flookup f p = Some v).
  { intros p v H. apply flookup_in; [assumption|]. now apply Hdata. }
  unfold Engine.load_node.
  rewrite (flookup_in _ _ _ Hnd HN), (flookup_in _ _ _ Hnd Hn).
  erewrite run_bind by reflexivity. erewrite run_bind by reflexivity.
  destruct (load_list n n_phi (fun l st => NS l (n_u st) (n_f st) (n_g st) (n_observed st) (n_mask st) (n_annealing st))
    (fun i => rd_real f (PData (name_of n) (DPhi i))) (n_phi st)) with (s := s) as (s1 & E1 & E2 & E3 & E4).
  { reflexivity. } { reflexivity. } { intros []; reflexivity. }
  { intros i a Ha. unfold rd_real. rewrite (Hlk _ (VReal a)); [reflexivity|]. unfold node_data.
    apply in_app_iff. left. apply in_map_iff. exists (i, a). split; [reflexivity|]. now apply nth_enumerate. }
  { assumption. }
  rewrite Hphi. erewrite run_bind by exact E1.
  assert (HF : rd_real f (PData (name_of n) DF) = Ok (n_f st)).
  { unfold rd_real. rewrite (Hlk _ (VReal (n_f st))); [reflexivity|]. unfold node_data. mem. }
  assert (HG : rd_real f (PData (name_of n) DG) = Ok (n_g st)).
  { unfold rd_real. rewrite (Hlk _ (VReal (n_g st))); [reflexivity|]. unfold node_data. mem. }
  assert (HO : rd_bool f (PData (name_of n) DObserved) = Ok (n_observed st)).
  { unfold rd_bool. rewrite (Hlk _ (VBool (n_observed st))); [reflexivity|]. unfold node_data. mem. }
  rewrite HF, HG. erewrite run_bind by reflexivity. erewrite run_bind by reflexivity.
  erewrite run_bind by reflexivity. erewrite run_bind by reflexivity. erewrite run_bind by reflexivity.
  match goal with |- exists s', sbind _ _ ?x = _ /\ _ => set (s2 := x) end.
  assert (Hw2 : v_world s2 n = NS (n_phi st) (n_u (v_world s n)) (n_f st) (n_g st)
                  (n_observed (v_world s n)) (n_mask (v_world s n)) (n_annealing (v_world s n))).
  { unfold s2. cbn. unfold set_node. rewrite Nat.eqb_refl. cbn. rewrite E3. reflexivity. }
  assert (Hw2' : forall j, j <> n -> v_world s2 j = v_world s j).
  { intros j Hj. unfold s2. cbn. unfold set_node.
    destruct (Nat.eqb_spec j n); [contradiction|]. now apply E4. }
  assert (Hs2 : s2 = set_world s (v_world s2)).
  { unfold s2. cbn. rewrite E2. destruct s; reflexivity. }
  clearbody s2.
  destruct (load_list n n_u (fun l st => NS (n_phi st) l (n_f st) (n_g st) (n_observed st) (n_mask st) (n_annealing st))
    (fun i => rd_real f (PData (name_of n) (DU i))) (n_u st)) with (s := s2) as (s3 & F1 & F2 & F3 & F4).
  { reflexivity. } { reflexivity. } { intros []; reflexivity. }
  { intros i a Ha. unfold rd_real. rewrite (Hlk _ (VReal a)); [reflexivity|]. unfold node_data.
    assert (Hx : In (PData (name_of n) (DU i), VReal a) (map (fun p => (PData (name_of n) (DU (fst p)), VReal (snd p))) (enumerate (n_u st)))).
    { apply in_map_iff. exists (i, a). split; [reflexivity|]. now apply nth_enumerate. }
    mem. }
  { rewrite Hw2. exact Hu. }
  replace (length (n_u (v_world _ n))) with (length (n_u st)).
  2:{ match goal with |- _ = length (n_u (v_world ?x n)) => assert (Hx : x = s2 \/ True) by (now right) end.
      first [ rewrite Hw2; symmetry; exact Hu | cbn; unfold set_node; rewrite ?Nat.eqb_refl; cbn; rewrite ?E3; cbn; now rewrite Hu ]. }
  erewrite run_bind by exact F1.
  erewrite run_bind by reflexivity. rewrite HO. erewrite run_bind by reflexivity.
  erewrite run_bind by reflexivity.
  match goal with |- exists s', (if _ then _ else _) ?x = _ /\ _ => set (s4 := x) end.
  assert (Hw4 : v_world s4 n = NS (n_phi st) (n_u st) (n_f st) (n_g st)
                  (n_observed st) (n_mask (v_world s n)) (n_annealing (v_world s n))).
  { unfold s4. cbn. unfold set_node. rewrite Nat.eqb_refl. rewrite F3. cbn. rewrite Hw2. reflexivity. }
  assert (Hw4' : forall j, j <> n -> v_world s4 j = v_world s j).
  { intros j Hj. unfold s4. cbn. unfold set_node.
    destruct (Nat.eqb_spec j n); [contradiction|]. rewrite F4 by assumption. now apply Hw2'. }
  assert (Hs4 : s4 = set_world s (v_world s4)).
  { unfold s4. cbn. rewrite F2, Hs2. destruct s; reflexivity. }
  clearbody s4.
  destruct (any_differs _ _) eqn:Ead.
  - eexists. split; [reflexivity|]. cbn. split; [rewrite Hs4; destruct s; reflexivity|].
    destruct (Hm n (v_world s4) n) as [M1 M2]. split; [|split; [|split]].
    + eapply ss_trans; [exact M1|]. rewrite Hw4. repeat split.
    + rewrite M2, Hw4. reflexivity.
    + intros j Hj. rewrite <- (Hw4' j Hj). apply Hm.
    + intros Hobs. exfalso. match type of Ead with any_differs ?x _ = _ => replace x with (n_observed st) in Ead end.
      * rewrite any_differs_refl in Ead. discriminate.
      * rewrite F3. cbn. rewrite Hw2. cbn. now symmetry.
  - exists s4. split; [reflexivity|]. split; [assumption|]. rewrite Hw4. split; [repeat split|].
    split; [reflexivity|]. split.
    + intros j Hj. rewrite (Hw4' j Hj). apply bm_refl.
    + intros _ j. destruct (Nat.eq_dec j n) as [->|Hj]; [rewrite Hw4; reflexivity|now rewrite Hw4'].
Qed.

(** The nodes are loaded one by one. *)
Lemma load_nodes_ok : forall f (w0 : world) ns s, masks_only ->
  NoDup (map fst f) -> In (PNodes, VGroup) f -> NoDup ns ->
  (forall n, In n ns -> name_of n <> ""%string) ->
  (forall n x, In n ns -> In x (node_part name_of stochastic w0 n) -> In x f) ->
  (forall n, In n ns -> stochastic n = true ->
     length (n_phi (v_world s n)) = length (n_phi (w0 n)) /\
     length (n_u (v_world s n)) = length (n_u (w0 n))) ->
  exists s', sfor ns (fun n =>
      if string_dec (name_of n) "" then raise PyException
      else if stochastic n then catch_key (load_node f n) else ret tt) s = (s', Ok tt) /\
    s' = set_world s (v_world s') /\
    (forall n, In n ns -> stochastic n = true -> same_state (v_world s' n) (w0 n) /\
       n_annealing (v_world s' n) = n_annealing (v_world s n)) /\
    (forall j, ~ (In j ns /\ stochastic j = true) -> but_mask (v_world s' j) (v_world s j)) /\
    ((forall n, In n ns -> stochastic n = true -> n_observed (v_world s n) = n_observed (w0 n)) ->
       forall j, n_mask (v_world s' j) = n_mask (v_world s j)).
Proof.
  intros f w0 ns. induction ns as [|n ns IH]; intros s Hm Hnd HN Hns Hne Hf Hlen; cbn [sfor].
  - exists s. split; [reflexivity|]. split; [destruct s; reflexivity|]. split; [intros n []|].
    split; [intros; apply bm_refl|reflexivity].
  - inversion Hns as [|? ? Hni Hns' E]; subst.
    destruct (string_dec (name_of n) "") as [Ee|Ee]; [exfalso; apply (Hne n); [now left|assumption]|].
    destruct (stochastic n) eqn:Est.
    + destruct (load_node_ok f n (w0 n) s Hm Hnd HN) as (s1 & L1 & L2 & L3 & L4 & L5 & L6).
      { apply (Hf n); [now left|]. unfold node_part. rewrite Est. now left. }
      { intros x Hx. apply (Hf n); [now left|]. unfold node_part. rewrite Est. right. exact Hx. }
      { now apply Hlen; [left|]. } { now apply Hlen; [left|]. }
      destruct (IH s1 Hm Hnd HN Hns') as (s' & K1 & K2 & K3 & K4 & K5).
      { intros; apply Hne; now right. }
      { intros m x Hin Hx. apply (Hf m); [now right|assumption]. }
      { intros m Hin Hs. destruct (Hlen m) as [G1 G2]; [now right|assumption|].
        assert (Hmn : m <> n) by (intros ->; contradiction).
        destruct (L5 m Hmn) as [(P1 & P2 & _) _]. rewrite P1, P2. auto. }
      exists s'. split.
      { erewrite run_bind; [exact K1|]. unfold catch_key. rewrite L1. reflexivity. }
      split; [rewrite K2, L2; destruct s; reflexivity|]. split.
      * intros m [<-|Hin] Hs.
        -- destruct (K4 n) as [P1 P2]; [tauto|]. split; [eapply ss_trans; eassumption|congruence].
        -- destruct (K3 m Hin Hs) as [P1 P2]. split; [assumption|]. rewrite P2.
           apply L5. intros ->; contradiction.
      * split; [|intros Hobs j; rewrite K5, L6; [reflexivity|apply Hobs; [now left|assumption]|];
          intros m Hin Hs; assert (Hmn : m <> n) by (intros ->; contradiction);
          destruct (L5 m Hmn) as [(_ & _ & _ & _ & P5) _]; rewrite P5; apply Hobs; [now right|assumption]].
        intros j Hj. assert (Hjn : j <> n) by (intros ->; apply Hj; split; [now left|assumption]).
        eapply bm_trans; [apply K4|apply L5; assumption]. intros [Hin Hs]. apply Hj. split; [now right|assumption].
    + destruct (IH s Hm Hnd HN Hns') as (s' & K1 & K2 & K3 & K4 & K5).
      { intros; apply Hne; now right. }
      { intros m x Hin Hx. apply (Hf m); [now right|assumption]. }
      { intros m Hin Hs. apply Hlen; [now right|assumption]. }
      exists s'. split; [erewrite run_bind by reflexivity; exact K1|]. split; [assumption|]. split.
      * intros m [<-|Hin] Hs; [congruence|auto].
      * split; [|intros Hobs; apply K5; intros m Hin; apply Hobs; now right].
        intros j Hj. apply K4. intros [Hin Hs]. apply Hj. split; [now right|assumption].
Qed.

Lemma term_in : forall s n, wf s -> In n (v_model s) -> exists t, In (n, t) (v_l s) /\ term_of s n = Ok t.
Proof.
  intros s n (_ & _ & Hk & _) Hn. rewrite <- Hk in Hn. unfold term_of.
  destruct (find (fun p => fst p =? n) (v_l s)) as [p|] eqn:E.
  - apply find_some in E as [Hp E]. apply Nat.eqb_eq in E. destruct p as [m t]; cbn in *. subst. eauto.
  - apply in_map_iff in Hn as [p [Hp Hin]]. apply (find_none _ _ E) in Hin. rewrite Hp, Nat.eqb_refl in Hin. discriminate.
Qed.
Lemma term_unique : forall s n t, wf s -> In (n, t) (v_l s) -> term_of s n = Ok t.
Proof.
  intros s n t Hwf Hin. destruct (term_in s n Hwf) as (t' & Hin' & E).
  { destruct Hwf as (_ & _ & <- & _). change n with (fst (n, t)). now apply in_map. }
  rewrite E. f_equal. destruct Hwf as (_ & _ & Hk & Hnd & _).
  rewrite <- Hk in Hnd. clear - Hin Hin' Hnd. induction (v_l s) as [|[m x] l IH]; [destruct Hin|].
  cbn in Hnd. inversion Hnd as [|? ? Ha Hnd' E]; subst.
  destruct Hin as [Hin|Hin], Hin' as [Hin'|Hin'].
  - congruence.
  - injection Hin as -> ->. exfalso. apply Ha. change n with (fst (n, t')). now apply in_map.
  - injection Hin' as -> ->. exfalso. apply Ha. change n with (fst (n, t)). now apply in_map.
  - now apply IH.
Qed.

Lemma load_terms_ok : forall f ns s0 s, NoDup (map fst f) -> In (PBounds, VGroup) f ->
  (forall n t, In n ns -> term_of s0 n = Ok t -> In (PBound (name_of n), VVec t) f) ->
  (forall n, In n ns -> exists t, term_of s0 n = Ok t) ->
  map fst (v_l s) = map fst (v_l s0) -> NoDup ns ->
  exists s', sfor ns (fun n =>
      sbind (match flookup f PBounds with Some _ => ret tt | None => raise KeyError end) (fun u =>
      sbind (lift (rd_vec f (PBound (name_of n)))) (fun x =>
      modify (fun s => set_l s (map (fun p => if (fst p =? n)%nat then (n, x) else p) (v_l s)))))) s = (s', Ok tt) /\
    s' = set_l s (v_l s') /\ map fst (v_l s') = map fst (v_l s) /\
    (forall n t, In (n, t) (v_l s') ->
       (In n ns -> term_of s0 n = Ok t) /\ (~ In n ns -> In (n, t) (v_l s))).
Proof.
  intros f ns s0. induction ns as [|n ns IH]; intros s Hnd HB Ht Hex Hk Hns; cbn [sfor].
  - exists s. split; [reflexivity|]. split; [destruct s; reflexivity|]. split; [reflexivity|].
    intros n t H. split; [intros []|auto].
  - inversion Hns as [|? ? Hni Hns' E]; subst.
    destruct (Hex n ltac:(now left)) as [t Et].
    assert (Hrd : rd_vec f (PBound (name_of n)) = Ok t).
    { unfold rd_vec. rewrite (flookup_in _ _ (VVec t) Hnd); [reflexivity|]. apply Ht; [now left|assumption]. }
    set (s1 := set_l s (map (fun p => if (fst p =? n)%nat then (n, t) else p) (v_l s))).
    assert (Hk1 : map fst (v_l s1) = map fst (v_l s)).
    { cbn. rewrite map_map. apply map_ext. intros p. destruct (Nat.eqb_spec (fst p) n); cbn; congruence. }
    destruct (IH s1 Hnd HB) as (s' & K1 & K2 & K3 & K4).
    { intros; apply Ht; [now right|assumption]. } { intros; apply Hex; now right. }
    { congruence. } { assumption. }
    exists s'. split.
    { erewrite run_bind; [exact K1|]. rewrite (flookup_in _ _ _ Hnd HB), Hrd. reflexivity. }
    split; [rewrite K2; destruct s; reflexivity|]. split; [congruence|].
    intros m x Hin. destruct (K4 m x Hin) as [G1 G2]. split.
    + intros [<-|Hm]; [|auto]. specialize (G2 Hni). cbn in G2. apply in_map_iff in G2 as [p [Ep Hp]].
      destruct (Nat.eqb_spec (fst p) n) as [E|E].
      * injection Ep as <-. exact Et.
      * rewrite Ep in E. contradiction.
    + intros Hm. assert (Hm' : ~ In m ns) by (intros H; apply Hm; now right). specialize (G2 Hm').
      cbn in G2. apply in_map_iff in G2 as [p [Ep Hp]].
      destruct (Nat.eqb_spec (fst p) n) as [E|E].
      * injection Ep as -> _. exfalso. apply Hm. now left.
      * now rewrite <- Ep.
Qed.

Lemma load_ok : forall s1 s2 fn, masks_only -> wf s1 -> wf s2 ->
  NoDup (map name_of (v_model s1)) -> (forall n, In n (v_model s1) -> name_of n <> ""%string) ->
  NoDup (user_keys s1) -> v_model s2 = v_model s1 -> fname_of s2 fn <> ""%string ->
  files (v_disk s2) (fname_of s2 fn) = Some (file_of s1 (v_model s1)) ->
  (forall n, In n (v_model s1) -> stochastic n = true ->
     length (n_phi (v_world s2 n)) = length (n_phi (v_world s1 n)) /\
     length (n_u (v_world s2 n)) = length (n_u (v_world s1 n))) ->
  exists s', load [] fn false s2 = (s', Ok tt) /\
    (forall n, In n (v_model s1) -> stochastic n = true ->
       same_state (v_world s' n) (v_world s1 n) /\
       n_annealing (v_world s' n) = n_annealing (v_world s2 n)) /\
    (forall j, ~ (In j (v_model s1) /\ stochastic j = true) ->
       but_mask (v_world s' j) (v_world s2 j)) /\
    v_model s' = v_model s1 /\
    v_iter s' = v_iter s1 /\ v_L s' = v_L s1 /\ v_cputime s' = v_cputime s1 /\
    v_converged s' = v_converged s1 /\
    (forall n, In n (v_model s1) -> term_of s' n = term_of s1 n) /\
    v_callback_output s' = (match v_callback_output s1 with Some c => Some c | None => v_callback_output s2 end) /\
    v_disk s' = v_disk s2 /\ v_annealing_changed s' = v_annealing_changed s2 /\
    ((forall n, In n (v_model s1) -> stochastic n = true -> n_observed (v_world s2 n) = n_observed (v_world s1 n)) ->
       forall j, n_mask (v_world s' j) = n_mask (v_world s2 j)) /\
    map fst (v_l s') = v_model s1 /\
    s' = VB (v_world s') (v_model s2) (v_iter s') (v_annealing_changed s2) (v_converged s')
     (v_L s') (v_cputime s') (v_l s') (v_autosave_iterations s2) (v_autosave_nodes s2) (v_autosave_filename s2)
     (v_callback s2) (v_callback_output s') (v_tol s2) (v_ignore_bound_checks s2) (v_user_data s2) (v_disk s2) (v_clock s2).
Proof.
  intros s1 s2 fn Hm Hwf1 Hwf2 Hnd Hne Hu Hmod Hfn Hfile Hlen.
  set (f := file_of s1 (v_model s1)) in *.
  assert (Hndf : NoDup (map fst f)) by (now apply file_of_nodup).
  assert (HndM : NoDup (v_model s1)) by apply Hwf1.
  unfold Engine.load. erewrite run_bind by reflexivity.
  erewrite run_bind.
  2:{ instantiate (1 := fname_of s2 fn). instantiate (1 := s2).
      unfold fname_of in *. destruct (string_dec fn ""); [|reflexivity].
      destruct (string_dec (v_autosave_filename s2) ""); [contradiction|reflexivity]. }
  erewrite run_bind by reflexivity. rewrite Hfile. erewrite run_bind by reflexivity.
  erewrite run_bind by reflexivity. rewrite Hmod.
  destruct (load_nodes_ok f (v_world s1) (v_model s1) s2 Hm Hndf) as (s3 & E1 & E2 & E3 & E4 & E5); auto.
  { unfold f, EngineSave.file_of. mem. }
  { intros n x Hn Hx.
    assert (Hx' : In x (flat_map (node_part name_of stochastic (v_world s1)) (v_model s1))).
    { apply in_flat_map. eauto. }
    unfold f, EngineSave.file_of. mem. }
  erewrite run_bind by exact E1.
  assert (HL : rd_vec f PL = Ok (v_L s1)).
  { unfold rd_vec. rewrite (flookup_in _ _ (VVec (v_L s1)) Hndf); [reflexivity|].
    unfold f, EngineSave.file_of. mem. }
  assert (HC : rd_vec f PCputime = Ok (v_cputime s1)).
  { unfold rd_vec. rewrite (flookup_in _ _ (VVec (v_cputime s1)) Hndf); [reflexivity|].
    unfold f, EngineSave.file_of. mem. }
  rewrite HL, HC.
  do 4 (erewrite run_bind by reflexivity).
  rewrite (flookup_in f PIter (VNat (v_iter s1)) Hndf).
  2:{ unfold f, EngineSave.file_of. mem. }
  do 2 (erewrite run_bind by reflexivity).
  rewrite (flookup_in f PConverged (VFlag (v_converged s1)) Hndf).
  2:{ unfold f, EngineSave.file_of. mem. }
  do 2 (erewrite run_bind by reflexivity).
  match goal with |- exists s', sbind _ _ ?x = _ /\ _ => set (s4 := x) end.
  destruct (load_terms_ok f (v_model s1) s1 s4) as (s5 & F1 & F2 & F3 & F4).
  { assumption. }
  { unfold f, EngineSave.file_of. mem. }
  { intros n t Hn Ht.
    assert (Hx : In (PBound (name_of n), VVec t) (flat_map (term_part name_of s1) (v_model s1))).
    { apply in_flat_map. exists n. split; [assumption|]. unfold term_part. rewrite Ht. now left. }
    unfold f, EngineSave.file_of. mem. }
  { intros n Hn. destruct (term_in s1 n Hwf1 Hn) as (t & _ & Ht). eauto. }
  { unfold s4. cbn. rewrite E2. cbn. destruct Hwf1 as (_ & _ & -> & _). destruct Hwf2 as (_ & _ & -> & _). assumption. }
  { assumption. }
  erewrite run_bind by exact F1.
  assert (Hs5 : exists w l, s5 = VB w (v_model s2) (v_iter s1) (v_annealing_changed s2) (v_converged s1)
     (v_L s1) (v_cputime s1) l (v_autosave_iterations s2) (v_autosave_nodes s2) (v_autosave_filename s2)
     (v_callback s2) (v_callback_output s2) (v_tol s2) (v_ignore_bound_checks s2) (v_user_data s2) (v_disk s2) (v_clock s2)
     /\ w = v_world s3 /\ l = v_l s5).
  { exists (v_world s3), (v_l s5). split; [|auto]. rewrite F2. unfold s4. cbn. rewrite E2. reflexivity. }
  destruct Hs5 as (w & l & Hs5 & Hw & Hl).
  assert (Hterm : forall s', v_l s' = v_l s5 -> forall n, In n (v_model s1) -> term_of s' n = term_of s1 n).
  { intros s' El n Hn. destruct (term_in s1 n Hwf1 Hn) as (t & _ & Ht). rewrite Ht.
    unfold term_of. rewrite El.
    destruct (find (fun p => fst p =? n) (v_l s5)) as [[m x]|] eqn:Ef.
    - apply find_some in Ef as [Hp Ef]. apply Nat.eqb_eq in Ef. cbn in Ef. subst m.
      destruct (F4 n x Hp) as [G _]. specialize (G Hn). cbn. congruence.
    - exfalso. assert (Hk : In n (map fst (v_l s5))).
      { rewrite F3. unfold s4. cbn. rewrite E2. cbn. destruct Hwf2 as (_ & _ & -> & _). now rewrite Hmod. }
      apply in_map_iff in Hk as [p [Hp Hin]]. apply (find_none _ _ Ef) in Hin. rewrite Hp, Nat.eqb_refl in Hin. discriminate. }
  assert (Hcb : flookup f PCallback = match v_callback_output s1 with Some c => Some (VCb c) | None => None end).
  { destruct (v_callback_output s1) as [c|] eqn:Ecb.
    - apply flookup_in; [assumption|]. unfold f, EngineSave.file_of. rewrite Ecb. mem.
    - apply flookup_none. intros Hin. apply in_map_iff in Hin as [[p v] [Hp Hin]]. cbn in Hp. subst p.
      unfold f, EngineSave.file_of in Hin. rewrite Ecb in Hin.
      repeat (apply in_app_iff in Hin; destruct Hin as [Hin|Hin]; [|]).
      all: try (destruct Hin as [Hin|[]]; discriminate).
      + assert (Hx : In PCallback (map fst (flat_map (node_part name_of stochastic (v_world s1)) (v_model s1)))).
        { apply in_map_iff. exists (PCallback, v). auto. }
        apply parts_paths in Hx as (n & _ & [Hx|[d Hx]]); discriminate.
      + destruct Hin.
      + assert (Hx : In PCallback (map fst (flat_map (term_part name_of s1) (v_model s1)))).
        { apply in_map_iff. exists (PCallback, v). auto. }
        apply terms_paths in Hx as (n & _ & Hx); discriminate.
      + destruct (v_user_data s1); [|destruct Hin]. destruct Hin as [Hin|Hin]; [discriminate|].
        apply in_map_iff in Hin as [kv [Hin _]]. discriminate. }
  assert (Hfst : map fst (v_l s5) = v_model s2).
  { rewrite F3. unfold s4. cbn. rewrite E2. cbn. apply Hwf2. }
  rewrite Hcb. destruct (v_callback_output s1) as [c|].
  - exists (set_callback_output s5 (Some c)). split; [reflexivity|].
    cbn [v_world set_callback_output v_model v_iter v_L v_cputime v_converged v_callback_output v_disk v_annealing_changed].
    split; [intros n Hn Hs; rewrite Hs5; cbn; rewrite Hw; auto|].
    split; [intros j Hj; rewrite Hs5; cbn; rewrite Hw; auto|].
    split; [rewrite Hs5; cbn; congruence|].
    do 4 (split; [rewrite Hs5; reflexivity|]).
    split; [intros n Hn; apply Hterm; [reflexivity|assumption]|].
    split; [reflexivity|]. do 2 (split; [rewrite Hs5; reflexivity|]).
    split; [intros Ho j; rewrite Hs5; cbn; rewrite Hw; auto|].
    split; [cbn; rewrite Hfst; assumption|].
    rewrite Hs5. cbn. rewrite ?Hmod. reflexivity.
  - exists s5. split; [reflexivity|].
    split; [intros n Hn Hs; rewrite Hs5; cbn; rewrite Hw; auto|].
    split; [intros j Hj; rewrite Hs5; cbn; rewrite Hw; auto|].
    split; [rewrite Hs5; cbn; congruence|].
    do 4 (split; [rewrite Hs5; reflexivity|]).
    split; [intros n Hn; apply Hterm; [reflexivity|assumption]|].
    do 3 (split; [rewrite Hs5; reflexivity|]).
    split; [intros Ho j; rewrite Hs5; cbn; rewrite Hw; auto|].
    split; [cbn; rewrite Hfst; assumption|].
    rewrite Hs5. cbn. rewrite ?Hmod. reflexivity.
Qed.

Lemma l_determined : forall (ns : list nat) (a b : list (nat * list xr)), NoDup ns ->
  map fst a = ns -> map fst b = ns ->
  (forall n, In n ns -> find (fun p => fst p =? n) a = find (fun p => fst p =? n) b) -> a = b.
Proof.
  induction ns as [|n ns IH]; intros a b Hnd Ha Hb H.
  - destruct a, b; try discriminate. reflexivity.
  - destruct a as [|[n1 x] a], b as [|[n2 y] b]; try discriminate. cbn in Ha, Hb.
    injection Ha as -> Ha. injection Hb as -> Hb. inversion Hnd as [|? ? Hni Hnd' E]; subst.
    pose proof (H n ltac:(now left)) as H0. cbn in H0. rewrite Nat.eqb_refl in H0. injection H0 as ->.
    f_equal. apply (IH a b); auto.
    intros m Hm. specialize (H m ltac:(now right)). cbn in H.
    assert (Hmn : (n =? m) = false). { apply Nat.eqb_neq. intros ->. contradiction. }
    now rewrite Hmn in H.
Qed.

(** Loading into a model that was built, observed and configured in the same way
    gives back the saved state itself. *)
Lemma load_exact : forall s1 s2 fn, masks_only -> wf s1 -> wf s2 ->
  NoDup (map name_of (v_model s1)) -> (forall n, In n (v_model s1) -> name_of n <> ""%string) ->
  NoDup (user_keys s1) -> v_model s2 = v_model s1 -> fname_of s2 fn <> ""%string ->
  files (v_disk s2) (fname_of s2 fn) = Some (file_of s1 (v_model s1)) ->
  (forall n, In n (v_model s1) -> stochastic n = true ->
     length (n_phi (v_world s2 n)) = length (n_phi (v_world s1 n)) /\
     length (n_u (v_world s2 n)) = length (n_u (v_world s1 n)) /\
     n_observed (v_world s2 n) = n_observed (v_world s1 n) /\
     n_mask (v_world s2 n) = n_mask (v_world s1 n) /\
     n_annealing (v_world s2 n) = n_annealing (v_world s1 n)) ->
  (forall n, ~ (In n (v_model s1) /\ stochastic n = true) -> v_world s2 n = v_world s1 n) ->
  v_callback_output s2 = None ->
  exists s', load [] fn false s2 = (s', Ok tt) /\
    s' = VB (v_world s1) (v_model s1) (v_iter s1) (v_annealing_changed s2) (v_converged s1)
     (v_L s1) (v_cputime s1) (v_l s1) (v_autosave_iterations s2) (v_autosave_nodes s2) (v_autosave_filename s2)
     (v_callback s2) (v_callback_output s1) (v_tol s2) (v_ignore_bound_checks s2) (v_user_data s2) (v_disk s2) (v_clock s2).
Proof.
  intros s1 s2 fn Hm Hwf1 Hwf2 Hnd Hne Hu Hmod Hfn Hfile Hst Hother Hcb.
  destruct (load_ok s1 s2 fn Hm Hwf1 Hwf2 Hnd Hne Hu Hmod Hfn Hfile)
    as (s' & E & H1 & H2 & H3 & H4 & H5 & H6 & H7 & H8 & H9 & H10 & H11 & H12 & H13 & H14).
  { intros n Hn Hs. destruct (Hst n Hn Hs) as (A & B & _). auto. }
  exists s'. split; [assumption|]. rewrite H14, Hmod, H4, H5, H6, H7, H9, Hcb.
  assert (Hw : v_world s' = v_world s1).
  { apply functional_extensionality. intros j.
    assert (Hmask := H12 (fun n Hn Hs => proj1 (proj2 (proj2 (Hst n Hn Hs)))) j).
    destruct (in_dec Nat.eq_dec j (v_model s1)) as [Hj|Hj]; [destruct (stochastic j) eqn:Es|].
    - destruct (H1 j Hj Es) as [(A1 & A2 & A3 & A4 & A5) A6].
      destruct (Hst j Hj Es) as (_ & _ & _ & B1 & B2).
      destruct (v_world s' j), (v_world s1 j); cbn in *. f_equal; congruence.
    - assert (Hj' : ~ (In j (v_model s1) /\ stochastic j = true)) by (rewrite Es; intros [_ ?]; discriminate).
      rewrite <- (Hother j Hj'). destruct (H2 j Hj') as [(A1 & A2 & A3 & A4 & A5) A6].
      destruct (v_world s' j), (v_world s2 j); cbn in *. f_equal; congruence.
    - assert (Hj' : ~ (In j (v_model s1) /\ stochastic j = true)) by (intros [? _]; contradiction).
      rewrite <- (Hother j Hj'). destruct (H2 j Hj') as [(A1 & A2 & A3 & A4 & A5) A6].
      destruct (v_world s' j), (v_world s2 j); cbn in *. f_equal; congruence. }
  assert (Hl : v_l s' = v_l s1).
  { apply (l_determined (v_model s1)); [apply Hwf1|assumption|apply Hwf1|].
    intros n Hn. specialize (H8 n Hn). destruct (term_in s1 n Hwf1 Hn) as (t & _ & Ht).
    rewrite Ht in H8. unfold term_of in H8, Ht.
    destruct (find _ (v_l s')) as [[a x]|] eqn:F1; [|discriminate].
    destruct (find _ (v_l s1)) as [[b y]|] eqn:F2; [|discriminate].
    apply find_some in F1 as [_ F1]. apply find_some in F2 as [_ F2]. cbn in *.
    apply Nat.eqb_eq in F1, F2. congruence. }
  rewrite Hw, Hl. destruct (v_callback_output s1); reflexivity.
Qed.

(** ** What loading may touch *)

(** [m] changes, of the nodes, only those in [ns] and masks. *)
Definition touches (ns : list nat) (m : ST vb unit) : Prop := forall s s' r, m s = (s', r) ->
  s' = set_world s (v_world s') /\ forall j, ~ In j ns -> but_mask (v_world s' j) (v_world s j).
Lemma to_ret : forall ns, touches ns (ret tt).
Proof. intros ns s s' r H. injection H as <- <-. split; [destruct s; reflexivity|]. intros; apply bm_refl. Qed.
Lemma to_raise : forall ns e, touches ns (raise e).
Proof. intros ns e s s' r H. injection H as <- <-. split; [destruct s; reflexivity|]. intros; apply bm_refl. Qed.
Lemma to_bind : forall ns m k, touches ns m -> touches ns k -> touches ns (m >>> k).
Proof.
  intros ns m k Hm Hk s s' r H. unfold sbind in H. destruct (m s) as [s1 [[]|e]] eqn:E.
  - destruct (Hm _ _ _ E) as [A1 A2]. destruct (Hk _ _ _ H) as [B1 B2]. split.
    + rewrite B1, A1. destruct s; reflexivity.
    + intros j Hj. eapply bm_trans; [now apply B2|now apply A2].
  - injection H as <- <-. eapply Hm. eassumption.
Qed.
Lemma to_gets : forall ns A (f : vb -> A) k, (forall a, touches ns (k a)) -> touches ns (sbind (gets f) k).
Proof. intros ns A f k H s s' r E. unfold sbind, gets in E. eapply H. eassumption. Qed.
Lemma to_lift : forall ns A (f : res A) k, (forall a, touches ns (k a)) -> touches ns (sbind (lift f) k).
Proof.
  intros ns A f k H s s' r E. unfold sbind, lift in E. destruct f as [a|e].
  - eapply H. eassumption.
  - eapply (to_raise ns e). exact E.
Qed.
Lemma to_sfor : forall ns A (l : list A) b, (forall a, In a l -> touches ns (b a)) -> touches ns (sfor l b).
Proof.
  induction l as [|a l IH]; intros b H; cbn; [apply to_ret|].
  apply to_bind; [apply H; now left|]. apply IH. intros; apply H; now right.
Qed.
Lemma to_mod : forall ns n f, In n ns -> touches ns (mod_node n f).
Proof.
  intros ns n f Hn s s' r H. injection H as <- <-. split; [reflexivity|].
  intros j Hj. cbn. unfold set_node. destruct (Nat.eqb_spec j n) as [->|]; [contradiction|]. apply bm_refl.
Qed.
Lemma to_load_node : forall ns f n, masks_only -> In n ns -> touches ns (load_node f n).
Proof.
  intros ns f n Hm Hn. unfold Engine.load_node.
  apply to_bind. { destruct (flookup f PNodes); [destruct (flookup f _)|]; auto using to_ret, to_raise. }
  apply to_gets. intros ?. apply to_bind. { apply to_sfor. intros ? _. apply to_lift. intros ?. now apply to_mod. }
  apply to_lift. intros ?. apply to_bind; [now apply to_mod|].
  apply to_lift. intros ?. apply to_bind; [now apply to_mod|].
  apply to_gets. intros ?. apply to_bind. { apply to_sfor. intros ? _. apply to_lift. intros ?. now apply to_mod. }
  apply to_gets. intros ?. apply to_lift. intros ?. apply to_bind; [now apply to_mod|].
  destruct (any_differs _ _); [|apply to_ret].
  intros s s' r H. injection H as <- <-. split; [reflexivity|]. intros j _. cbn. apply Hm.
Qed.
Lemma to_catch : forall ns m, touches ns m -> touches ns (catch_key m).
Proof.
  intros ns m H s s' r E. unfold catch_key in E. destruct (m s) as [s1 r1] eqn:Em.
  destruct (H _ _ _ Em) as [A B].
  assert (s' = s1) as -> by (destruct r1 as [|[]]; injection E; auto). auto.
Qed.
Lemma smap_lift : forall A (f : A -> res nat) l (s s' : vb) r, smap l (fun k => lift (f k)) s = (s', r) ->
  s' = s /\ r = mapM f l.
Proof.
  induction l as [|a l IH]; intros s s' r H; cbn [smap mapM] in *.
  - injection H as <- <-. auto.
  - unfold sbind at 1, lift at 1 in H. destruct (f a) as [b|e]; cbn.
    + unfold sbind at 1 in H. destruct (smap l _ s) as [s1 r1] eqn:E. apply IH in E as [-> ->].
      destruct (mapM f l); cbn in *; injection H as <- <-; auto.
    + injection H as <- <-. auto.
Qed.

(** vb.load of given nodes with nodes_only=True *)
Lemma load_touch : forall nodes fn s s' r, masks_only -> nodes <> [] ->
  load nodes fn true s = (s', r) ->
  s' = set_world s (v_world s') /\
  forall j, (forall ns, mapM (getitem name_of s) nodes = Ok ns -> ~ In j ns) ->
    but_mask (v_world s' j) (v_world s j).
Proof.
  intros nodes fn s s' r Hm Hne H. unfold Engine.load in H.
  assert (Hid : forall r0 : res unit, (s, r0) = (s', r) -> s' = set_world s (v_world s') /\
    forall j, (forall ns, mapM (getitem name_of s) nodes = Ok ns -> ~ In j ns) ->
      but_mask (v_world s' j) (v_world s j)).
  { intros r0 E. injection E as <- <-. split; [destruct s; reflexivity|]. intros; apply bm_refl. }
  unfold sbind at 1, gets at 1 in H. unfold sbind at 1 in H.
  match type of H with (let (_, _) := ?x in _) = _ => assert (Hx : exists r0, x = (s, r0)) end.
  { destruct (string_dec fn ""); [destruct (string_dec _ "")|]; eexists; reflexivity. }
  destruct Hx as [r0 Hx]. rewrite Hx in H. destruct r0 as [fname|e]; [|now apply (Hid (Err e))].
  unfold sbind at 1, gets at 1 in H. unfold sbind at 1 in H.
  destruct (files (v_disk s) fname) as [f|]; [|now apply (Hid (Err OSError))].
  cbn [ret] in H. unfold ret at 1 in H. cbv beta iota in H.
  unfold sbind at 1 in H.
  destruct nodes as [|k nodes]; [contradiction|].
  unfold sbind at 1, gets at 1 in H. destruct (smap _ _ s) as [s1 r1] eqn:E.
  apply smap_lift in E as [-> ->].
  destruct (mapM _ _) as [ns|e] eqn:Ens; [|now apply (Hid (Err e))].
  match type of H with ?m s = _ => assert (T : touches ns m) end.
  { apply to_bind; [|apply to_ret]. apply to_sfor. intros n Hn.
    destruct (string_dec (name_of n) ""); [apply to_raise|]. destruct (stochastic n); [|apply to_ret].
    apply to_catch. now apply to_load_node. }
  destruct (T _ _ _ H) as [A B]. split; [assumption|]. intros j Hj. apply B. now apply Hj.
Qed.
End L.
