(** More lemmas about the engine: the update loop, sequences of calls. *)
From Coq Require Import String List Arith ZArith Lia Bool Reals Lra.
From Verif Require Import Base NumPy Engine SpecEngine EngineLemmas.
Import ListNotations.
Open Scope nat_scope.

Section L.
Variable name_of : nat -> string.
Variable stochastic : nat -> bool.
Variable update_node : nat -> world -> world * res unit.
Variable contribution : nat -> world -> res xr.
Variable update_mask : nat -> world -> world.

Notation save := (save name_of stochastic).
Notation end_iteration_step := (end_iteration_step name_of stochastic contribution).
Notation update_nodes := (update_nodes name_of stochastic update_node).
Notation update_loop := (update_loop name_of stochastic update_node contribution).
Notation update := (update name_of stochastic update_node contribution).
Notation getitem := (getitem name_of).
Notation sums_to := (sums_to contribution).
Notation updated := (updated stochastic update_node).
Notation iterated := (iterated stochastic update_node contribution).

Lemma getitem_model : forall s s' k, v_model s' = v_model s -> getitem s' k = getitem s k.
Proof. intros s s' k H. unfold Engine.getitem. now rewrite H. Qed.

Lemma mapM_ext' : forall A B (f g : A -> res B) l,
  (forall a, In a l -> f a = g a) -> mapM f l = mapM g l.
Proof.
  induction l as [|a r IH]; intros H; [reflexivity|]. cbn. rewrite H by now left.
  destruct (g a); cbn; [|reflexivity]. rewrite IH; [reflexivity|]. intros; apply H; now right.
Qed.

Lemma update_nodes_spec : forall nodes s s' r, update_nodes nodes s = (s', r) ->
  s' = set_world s (v_world s') /\
  (r = Ok tt -> exists ns, mapM (getitem s) nodes = Ok ns /\ updated ns (v_world s) (v_world s')).
Proof.
  unfold Engine.update_nodes. induction nodes as [|k nodes IH]; intros s s' r H; cbn [sfor] in H.
  - injection H as <- <-. split; [destruct s; reflexivity|]. intros _. exists []. split; [reflexivity|constructor].
  - sstep H.
    + sstepas H1 E1; [|discriminate]. injection E1 as <- <-. sstepas H1 E2; [|discriminate].
      injection E2 as <- Hg. rename a0 into n0. destruct (stochastic n0) eqn:Est.
      * destruct (update_node n0 (v_world s)) as [w r1] eqn:Eu. injection H1 as <- ->.
        apply IH in H as [E Hr]. split; [rewrite E; destruct s; reflexivity|].
        intros Hok. destruct (Hr Hok) as (ns & Hns & Hup). exists (n0 :: ns). split.
        -- cbn [mapM]. rewrite Hg. cbn [bind].
           replace (mapM (getitem s) nodes) with (mapM (getitem (set_world s w)) nodes) by reflexivity.
           now rewrite Hns.
        -- destruct a. eapply up_stochastic; [assumption|exact Eu|exact Hup].
      * injection H1 as <- _. apply IH in H as [E Hr]. split; [assumption|].
        intros Hok. destruct (Hr Hok) as (ns & Hns & Hup). exists (n0 :: ns). split.
        -- cbn [mapM]. rewrite Hg. cbn [bind]. now rewrite Hns.
        -- now apply up_other.
    + split; [|discriminate]. sstepas H1 E1; [|discriminate].
      injection E1 as <- <-. sstepas H1 E2.
      * injection E2 as <- Hg. rename a into n0. destruct (stochastic n0) eqn:Est; [|discriminate].
        destruct (update_node n0 (v_world s)) as [w r1] eqn:Eu. injection H1 as <- _.
        destruct s; reflexivity.
      * injection E2 as <- _. destruct s; reflexivity.
Qed.

(** ** What is opened for writing *)

Definition oo {A} (m : ST vb A) : Prop :=
  forall s s' r, m s = (s', r) -> opened (v_disk s') = opened (v_disk s).
Lemma oo_ret : forall A (a : A), oo (ret a).
Proof. intros A a s s' r H. injection H as <- <-. reflexivity. Qed.
Lemma oo_raise : forall A e, oo (@raise vb A e).
Proof. intros A e s s' r H. injection H as <- <-. reflexivity. Qed.
Lemma oo_lift : forall A (m : res A), oo (lift m).
Proof. intros A m s s' r H. injection H as <- <-. reflexivity. Qed.
Lemma oo_gets : forall A (f : vb -> A), oo (gets f).
Proof. intros A f s s' r H. injection H as <- <-. reflexivity. Qed.
Lemma oo_bind : forall A B (m : ST vb A) (k : A -> ST vb B),
  oo m -> (forall a, oo (k a)) -> oo (sbind m k).
Proof.
  intros A B m k Hm Hk s s' r H. sstep H.
  - apply Hk in H. apply Hm in H1. congruence.
  - eapply Hm; eassumption.
Qed.
Lemma oo_sfor : forall A (l : list A) b, (forall a, oo (b a)) -> oo (sfor l b).
Proof. induction l as [|a r IH]; intros b Hb; cbn; [apply oo_ret|]. apply oo_bind; auto. Qed.
Lemma oo_smap : forall A B (l : list A) (b : A -> ST vb B), (forall a, oo (b a)) -> oo (smap l b).
Proof.
  induction l as [|a r IH]; intros b Hb; cbn; [apply oo_ret|].
  apply oo_bind; auto. intros. apply oo_bind; auto. intros. apply oo_ret.
Qed.
Lemma oo_file_op : forall n f, oo (file_op n f).
Proof.
  intros n f s s' r H. unfold file_op in H.
  destruct (crash (v_disk s)) as [[|c]|].
  - injection H as <- <-. reflexivity.
  - destruct (f _); injection H as <- <-; reflexivity.
  - destruct (f _); injection H as <- <-; reflexivity.
Qed.
Lemma oo_h5_create : forall n p v, oo (h5_create n p v).
Proof. intros. apply oo_file_op. Qed.
Lemma oo_save_node : forall f n, oo (save_node name_of f n).
Proof.
  intros f n. unfold save_node. apply oo_bind; [apply oo_gets|]. intros st.
  repeat (apply oo_bind; [|intros]); try apply oo_sfor; intros; apply oo_h5_create.
Qed.

Lemma save_opens : forall nodes fn s s',
  save nodes fn s = (s', Ok tt) ->
  opened (v_disk s') = opened (v_disk s) ++
    [if string_dec fn "" then v_autosave_filename s else fn].
Proof.
  intros nodes fn s s' H. unfold Engine.save in H.
  sstep H; [|discriminate].
  assert (Hod : same_disk_only s s0 /\ opened (v_disk s0) = opened (v_disk s)).
  { destruct nodes.
    - injection H1 as <- _. auto with sdo.
    - assert (Hs : od (sbind (gets (fun s => s)) (fun s => smap (k :: nodes) (fun k => lift (getitem s k))))).
      { apply od_bind; [apply od_gets|]. intros. apply od_smap. intros; apply od_lift. }
      assert (Ho : oo (sbind (gets (fun s => s)) (fun s => smap (k :: nodes) (fun k => lift (getitem s k))))).
      { apply oo_bind; [apply oo_gets|]. intros. apply oo_smap. intros; apply oo_lift. }
      split; [eapply Hs; eassumption|eapply Ho; eassumption]. }
  destruct Hod as [Hd Ho]. clear H1.
  sstep H; [|discriminate]. injection H1 as <- <-.
  sstep H; [|discriminate].
  assert (Hf : s1 = s0 /\ a0 = if string_dec fn "" then v_autosave_filename s else fn).
  { destruct (string_dec fn "").
    - destruct (string_dec (v_autosave_filename s0) ""); [discriminate|].
      injection H1 as <- <-. split; [reflexivity|]. rewrite Hd. destruct s; reflexivity.
    - injection H1 as <- <-. auto. }
  destruct Hf as [-> <-]. clear H1.
  sstep H; [|discriminate].
  assert (Ho1 : opened (v_disk s1) = opened (v_disk s) ++ [a0]).
  { unfold h5_open_w in H1. sstep H1; [|discriminate].
    apply oo_file_op in H0. injection H1 as <- _. cbn. now rewrite H0, Ho. }
  clear H1. rewrite <- Ho1.
  match type of H with ?m s1 = _ => assert (Hoo : oo m); [|apply (Hoo _ _ _ H)] end.
  apply oo_bind; [apply oo_h5_create|]. intros _.
  apply oo_bind.
  { apply oo_sfor. intros n. destruct (string_dec _ _); [apply oo_raise|].
    destruct (stochastic n); [|apply oo_ret]. apply oo_bind; [apply oo_h5_create|]. intros; apply oo_save_node. }
  intros _. apply oo_bind; [apply oo_gets|]. intros st.
  do 4 (apply oo_bind; [apply oo_h5_create|]; intros _).
  apply oo_bind. { destruct (v_callback_output st); [apply oo_h5_create|apply oo_ret]. }
  intros _. apply oo_bind; [apply oo_h5_create|]. intros _.
  apply oo_bind. { apply oo_sfor. intros n. apply oo_bind; [apply oo_lift|]. intros; apply oo_h5_create. }
  intros _. destruct (v_user_data st); [|apply oo_ret].
  apply oo_bind; [apply oo_h5_create|]. intros. apply oo_sfor. intros; apply oo_h5_create.
Qed.

(** Files opened by [m] iterations after iteration [i]. *)
Definition autosaves (s : vb) (m : nat) : list string :=
  if (0 <? v_autosave_iterations s)%Z
  then map (fun _ => v_autosave_filename s) (multiples (v_autosave_iterations s) (v_iter s) m)
  else [].

Lemma step_opens : forall ct tol s s' c, wf s ->
  end_iteration_step ct tol s = (s', Ok c) ->
  opened (v_disk s') = opened (v_disk s) ++ autosaves s 1.
Proof.
  intros ct tol s s' c Hwf H. apply end_step in H; [|assumption].
  destruct H as (_ & Hc & _ & _ & _ & _ & _ & _ & Hsv).
  unfold autosaves, multiples. unfold autosave_now in Hsv. cbn [seq filter].
  destruct (0 <? v_autosave_iterations s)%Z; cbn [andb] in Hsv.
  - destruct (Z.of_nat (v_iter s + 1) mod v_autosave_iterations s =? 0)%Z.
    + destruct Hsv as (s1 & s2 & Hs & Hd1 & Hd2 & _ & _ & _ & Hfn & _).
      pose proof (save_opens _ _ _ _ Hs) as E. rewrite Hd2, E, Hd1. f_equal. cbn [map]. f_equal.
      rewrite Hfn. destruct (string_dec (v_autosave_filename s) ""); congruence.
    + rewrite Hsv. cbn. now rewrite app_nil_r.
  - rewrite Hsv. now rewrite app_nil_r.
Qed.

Lemma multiples_cons : forall k i m, multiples k i (S m) = multiples k i 1 ++ multiples k (S i) m.
Proof.
  intros k i m. unfold multiples. cbn [seq filter]. replace (S i + 1) with (S (i + 1)) by lia.
  destruct (Z.of_nat (i + 1) mod k =? 0)%Z; reflexivity.
Qed.

Lemma update_loop_spec : forall n nodes tol s s' r, wf s ->
  update_loop n nodes tol s = (s', r) ->
  wf s' /\ same_config s s' /\
  exists bs, history s' = history s ++ bs /\ v_iter s' = v_iter s + length bs /\ length bs <= n /\
  (r = Ok tt ->
    (n = 0 -> s' = s) /\
    (0 < n -> exists ns, mapM (getitem s) nodes = Ok ns /\
      iterated (v_model s) ns (v_callback s) (v_world s) bs (v_world s')) /\
    (forall j, j < length bs ->
      (converges (v_ignore_bound_checks s) (if j =? 0 then v_annealing_changed s else false)
         (match tol with None => v_tol s | Some x => x end) (history s ++ firstn (S j) bs)
       <-> S j = length bs /\ v_converged s' = true)) /\
    (length bs < n -> 0 < length bs /\ v_converged s' = true) /\
    opened (v_disk s') = opened (v_disk s) ++ autosaves s (length bs)).
Proof.
  induction n as [|n IH]; intros nodes tol s s' r Hwf H.
  - injection H as <- <-. split; [assumption|]. split; [apply sc_refl|]. exists []. cbn.
    rewrite app_nil_r. repeat split; auto; try lia.
    unfold autosaves, multiples. cbn. destruct (_ <? _)%Z; now rewrite app_nil_r.
  - cbn [Engine.update_loop] in H. sstepas H E1; [|discriminate]. injection E1 as <- <-.
    assert (Hwf0 : wf (set_clock s (fun n => v_clock s (S n)))) by exact Hwf.
    sstepas H E2.
    2:{ apply update_nodes_spec in E2 as [E _]. rewrite E. split; [exact Hwf|].
        split; [repeat split|]. exists []. unfold history; cbn. rewrite app_nil_r. repeat split; auto; try lia; discriminate. }
    apply update_nodes_spec in E2 as [E Hup].
    destruct (Hup ltac:(destruct a; reflexivity)) as (ns & Hns & Hupd). clear Hup. cbn in Hupd.
    sstepas H E3; [|discriminate]. injection E3 as <- <-.
    match type of H with sbind (end_iteration_step _ _) _ ?st = _ => set (s2 := st) in * end.
    assert (P2 : wf s2 /\ same_config s s2 /\ v_iter s2 = v_iter s /\ history s2 = history s /\
                 v_disk s2 = v_disk s /\ v_annealing_changed s2 = v_annealing_changed s /\
                 v_world s2 = v_world s0).
    { unfold s2. rewrite E. split; [exact Hwf|]. repeat split. }
    clearbody s2. clear E Hwf0. destruct P2 as (Hwf2 & Hc2 & Hit2 & Hh2 & Hd2 & Ha2 & Hw2).
    sstepas H E4.
    2:{ apply end_step in E4; [|assumption]. destruct E4 as (Hwf' & Hc' & Hi & Hh).
        split; [assumption|]. split; [eapply sc_trans; eassumption|]. exists [].
        rewrite app_nil_r. cbn. repeat split; try congruence; try lia; discriminate. }
    pose proof (step_opens _ _ _ _ _ Hwf2 E4) as Hop.
    apply end_step in E4; [|assumption].
    destruct E4 as (Hwf3 & Hc3 & Hi3 & Ha3 & Hcv3 & Hcb3 & (b & Hh3 & Hb3) & Hcg3 & _).
    assert (Hc03 : same_config s s1) by (eapply sc_trans; eassumption).
    assert (Hm2 : v_model s2 = v_model s) by apply Hc2.
    assert (Hcb2 : v_callback s2 = v_callback s) by apply Hc2.
    assert (Htol2 : v_tol s2 = v_tol s) by apply Hc2.
    assert (Hig2 : v_ignore_bound_checks s2 = v_ignore_bound_checks s) by apply Hc2.
    assert (Hau2 : autosaves s2 1 = autosaves s 1).
    { unfold autosaves. rewrite Hit2. destruct Hc2 as (_ & -> & _ & -> & _). reflexivity. }
    rewrite Htol2, Hig2, Ha2, Hh3, Hh2 in Hcg3. rewrite Hd2, Hau2 in Hop.
    rewrite Hm2 in Hb3. rewrite Hcb2, Hw2 in Hcb3.
    destruct a0.
    + injection H as <- <-. split; [assumption|]. split; [assumption|]. exists [b].
      split; [congruence|]. split; [cbn; lia|]. split; [cbn; lia|]. intros _.
      split; [lia|]. split.
      { intros _. exists ns. split; [rewrite <- Hns; reflexivity|].
        econstructor; [exact Hupd|exact Hcb3|exact Hb3|constructor]. }
      split.
      { intros j Hj. cbn in Hj. assert (j = 0) as -> by lia. cbn [Nat.eqb firstn length].
        rewrite <- Hcg3. split; [intros _; split; [reflexivity|exact Hcv3]|reflexivity]. }
      split; [intros _; split; [cbn; lia|exact Hcv3]|].
      exact Hop.
    + apply IH in H; [|assumption]. destruct H as (Hwf' & Hc' & bs & Hh' & Hi' & Hlen & Hok).
      split; [assumption|]. split; [eapply sc_trans; eassumption|]. exists (b :: bs).
      split; [rewrite Hh', Hh3, Hh2, <- app_assoc; reflexivity|].
      split; [cbn; lia|]. split; [cbn; lia|]. intros Hr. specialize (Hok Hr).
      destruct Hok as (Hz & Hit & Hcvg & Hstop & Hopn).
      assert (Hm1 : v_model s1 = v_model s) by apply Hc03.
      assert (Hcb1 : v_callback s1 = v_callback s) by apply Hc03.
      assert (Htol1 : v_tol s1 = v_tol s) by apply Hc03.
      assert (Hig1 : v_ignore_bound_checks s1 = v_ignore_bound_checks s) by apply Hc03.
      split; [lia|]. split.
      { intros _. exists ns. split; [rewrite <- Hns; reflexivity|].
        econstructor; [exact Hupd|exact Hcb3|exact Hb3|].
        destruct n as [|n].
        - destruct bs; [|cbn in Hlen; lia]. rewrite (Hz eq_refl). constructor.
        - destruct (Hit ltac:(lia)) as (ns' & Hns' & Hit').
          assert (ns' = ns) as ->.
          { assert (Hmm : mapM (getitem s1) nodes = mapM (getitem (set_clock s (fun n => v_clock s (S n)))) nodes).
            { apply mapM_ext'. intros k _. apply getitem_model. cbn. congruence. }
            rewrite Hmm in Hns'. congruence. }
          rewrite Hm1, Hcb1 in Hit'. exact Hit'. }
      split.
      { intros j Hj. destruct j as [|j].
        - cbn [Nat.eqb firstn]. rewrite <- Hcg3. split; [discriminate|]. intros [Hl Hcv].
          exfalso. cbn in Hl. assert (length bs = 0) as Hl0 by lia.
          destruct n as [|n].
          + rewrite (Hz eq_refl) in Hcv. congruence.
          + destruct (Hstop ltac:(lia)) as [Hpos _]. lia.
        - cbn [Nat.eqb]. specialize (Hcvg j ltac:(cbn in Hj; lia)).
          rewrite Ha3, Hig1, Htol1, Hh3, Hh2 in Hcvg.
          replace (if j =? 0 then false else false) with false in Hcvg by (destruct (j =? 0); reflexivity).
          rewrite <- app_assoc in Hcvg. cbn [app] in Hcvg. cbn [firstn length].
          rewrite Hcvg. split; intros [? ?]; split; auto; lia. }
      split.
      { intros Hlt. cbn [length] in *. destruct n as [|n]; [lia|]. destruct (Hstop ltac:(lia)). split; [lia|assumption]. }
      rewrite Hopn, Hop, <- app_assoc. f_equal. unfold autosaves.
      assert (He : v_autosave_iterations s1 = v_autosave_iterations s /\ v_autosave_filename s1 = v_autosave_filename s).
      { split; apply Hc03. }
      destruct He as [-> ->]. destruct (0 <? v_autosave_iterations s)%Z; [|reflexivity].
      cbn [length]. rewrite (multiples_cons _ _ (length bs)), map_app. f_equal. rewrite Hi3, Hit2. reflexivity.
Qed.

(** ** Sequences of calls *)

Lemma update_keeps : forall nodes rep tol bound s s' r, wf s ->
  update nodes rep tol bound s = (s', r) ->
  wf s' /\ same_config s s' /\ exists bs, history s' = history s ++ bs /\
    v_iter s' = v_iter s + length bs.
Proof.
  intros nodes rep tol bound s s' r Hwf H. unfold Engine.update in H.
  sstepas H E; [|discriminate]. injection E as <- <-.
  destruct rep as [n|].
  - apply update_loop_spec in H; [|assumption]. destruct H as (H1 & H2 & bs & H3 & H4 & _). eauto 6.
  - revert s Hwf H.
    generalize (match nodes with [] => map KNode (v_model s') | _ => nodes end).
    intros _ s. set (nodes' := match nodes with [] => map KNode (v_model s) | _ => nodes end).
    clearbody nodes'. revert s. induction bound as [|bound IH]; intros s Hwf H.
    + injection H as <- <-. split; [assumption|]. split; [apply sc_refl|]. exists [].
      rewrite app_nil_r. split; [reflexivity|cbn; lia].
    + sstepas H E1; [|discriminate]. injection E1 as <- <-.
      sstepas H E2.
      2:{ apply update_nodes_spec in E2 as [E _]. rewrite E. split; [exact Hwf|].
          split; [repeat split|]. exists []. unfold history; cbn. rewrite app_nil_r. split; [reflexivity|lia]. }
      apply update_nodes_spec in E2 as [E _].
      sstepas H E3; [|discriminate]. injection E3 as <- <-.
      match type of H with sbind (end_iteration_step _ _) _ ?st = _ => set (s2 := st) in * end.
      assert (P2 : wf s2 /\ same_config s s2 /\ v_iter s2 = v_iter s /\ history s2 = history s).
      { unfold s2. rewrite E. split; [exact Hwf|]. repeat split. }
      clearbody s2. clear E. destruct P2 as (Hwf2 & Hc2 & Hit2 & Hh2).
      sstepas H E4; apply end_step in E4; try assumption.
      * destruct E4 as (Hwf3 & Hc3 & Hi3 & _ & _ & _ & (b & Hh3 & _) & _).
        destruct a0.
        -- injection H as <- <-. split; [assumption|]. split; [eapply sc_trans; eassumption|].
           exists [b]. split; [congruence|cbn; lia].
        -- apply IH in H; [|assumption]. destruct H as (Hwf' & Hc' & bs & Hh' & Hi').
           split; [assumption|]. split; [eapply sc_trans; [|eassumption]; eapply sc_trans; eassumption|].
           exists (b :: bs). split; [rewrite Hh', Hh3, Hh2, <- app_assoc; reflexivity|cbn; lia].
      * destruct E4 as (Hwf' & Hc' & Hi & Hh). split; [assumption|].
        split; [eapply sc_trans; eassumption|]. exists []. rewrite app_nil_r. split; [congruence|cbn; lia].
Qed.
End L.
