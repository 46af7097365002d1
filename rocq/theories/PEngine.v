(** Properties C33-C38: the inference engine's bookkeeping, lookup, saving and
    loading. *)
From Coq Require Import String List Arith ZArith Lia Bool Reals Lra FinFun FunctionalExtensionality.
From Verif Require Import Base NumPy Engine SpecEngine EngineLemmas EngineLemmas2 EngineSave EngineLoad.
Import ListNotations.
Open Scope nat_scope.

(** The nodes an argument list of update/save/load stands for: all nodes of the
    model if it is empty. *)
Definition chosen (name_of : nat -> string) (s : vb) (nodes : list key) (ns : list nat) : Prop :=
  match nodes with [] => ns = v_model s | _ => mapM (getitem name_of s) nodes = Ok ns end.

Section P.
Variable name_of : nat -> string.
Variable stochastic : nat -> bool.
Variable update_node : nat -> world -> world * res unit.
Variable contribution : nat -> world -> res xr.
Variable update_mask : nat -> world -> world.
Notation update := (update name_of stochastic update_node contribution).
Notation save := (save name_of stochastic).
Notation load := (load name_of stochastic update_mask).
Notation perform := (perform name_of stochastic update_node contribution).
Notation used := (used name_of stochastic update_node contribution).
Notation reached := (reached name_of stochastic update_node contribution).
Notation iterated := (iterated stochastic update_node contribution).

Lemma sfor_mod_keeps : forall (g : nstate -> nstate) ns s s' r, sfor ns (fun n => mod_node n g) s = (s', r) ->
  s' = set_world s (v_world s') /\ r = Ok tt.
Proof.
  induction ns as [|n ns IH]; intros s s' r H; cbn [sfor] in H.
  - injection H as <- <-. split; [destruct s; reflexivity|reflexivity].
  - sstepas H E; [|discriminate]. injection E as <- _. apply IH in H as [E ->].
    split; [rewrite E; destruct s; reflexivity|reflexivity].
Qed.

Lemma perform_keeps : forall c s s' r, wf s -> perform c s = (s', r) ->
  wf s' /\ exists bs, history s' = history s ++ bs /\ v_iter s' = v_iter s + length bs.
Proof.
  intros c s s' r Hwf H. destruct c; cbn [SpecEngine.perform] in H.
  - apply update_keeps in H; [|assumption]. destruct H as (H1 & _ & H2). auto.
  - apply od_save in H. rewrite H. split; [exact Hwf|]. exists []. unfold history; cbn.
    rewrite app_nil_r. split; [reflexivity|lia].
  - injection H as <- <-. split; [exact Hwf|]. exists []. unfold history; cbn.
    rewrite app_nil_r. split; [reflexivity|lia].
  - injection H as <- <-. split; [exact Hwf|]. exists []. unfold history; cbn.
    rewrite app_nil_r. split; [reflexivity|lia].
  - unfold set_annealing in H. sstepas H E1; [|discriminate]. injection E1 as <- <-.
    sstepas H E2; apply sfor_mod_keeps in E2 as [E2 ?]; [|discriminate].
    injection H as <- <-. rewrite E2. split; [exact Hwf|]. exists []. unfold history; cbn.
    rewrite app_nil_r. split; [reflexivity|lia].
  - injection H as <- <-. split; [exact Hwf|]. exists []. unfold history; cbn.
    rewrite app_nil_r. split; [reflexivity|lia].
  - injection H as <- <-. split; [exact Hwf|]. exists []. unfold history; cbn.
    rewrite app_nil_r. split; [reflexivity|lia].
  - injection H as <- <-. split; [exact Hwf|]. exists []. unfold history; cbn.
    rewrite app_nil_r. split; [reflexivity|lia].
Qed.

Lemma used_keeps : forall s s', used s s' -> wf s ->
  wf s' /\ exists bs, history s' = history s ++ bs /\ v_iter s' = v_iter s + length bs.
Proof.
  induction 1 as [s|s s1 s2 c r H1 H2 IH]; intros Hwf.
  - split; [assumption|]. exists []. rewrite app_nil_r. split; [reflexivity|cbn; lia].
  - destruct (perform_keeps _ _ _ _ Hwf H1) as (Hwf1 & bs1 & E1 & E2).
    destruct (IH Hwf1) as (Hwf2 & bs2 & E3 & E4). split; [assumption|].
    exists (bs1 ++ bs2). rewrite E3, E1, app_assoc, app_length. split; [reflexivity|lia].
Qed.

Lemma reached_wf : forall s, reached s -> wf s.
Proof.
  intros s (nodes & w & tol & fn & tmp & k & ud & cb & d & ck & s0 & Hi & Hu).
  apply (init_wf name_of stochastic update_node contribution update_mask) in Hi as [Hi _]. exact (proj1 (used_keeps s0 s Hu Hi)).
Qed.

Lemma wf_history : forall s, wf s -> length (history s) = v_iter s.
Proof. intros s (H & _). unfold history. rewrite firstn_length. lia. Qed.

Lemma chosen_all : forall s ns, (forall n, In n ns -> In n (v_model s)) ->
  mapM (getitem name_of s) (map KNode ns) = Ok ns.
Proof.
  induction ns as [|n ns IH]; intros H; [reflexivity|]. cbn.
  assert (E : existsb (Nat.eqb n) (v_model s) = true).
  { apply existsb_exists. exists n. split; [apply H; now left|apply Nat.eqb_refl]. }
  rewrite E. cbn. rewrite IH; [reflexivity|]. intros; apply H; now right.
Qed.

(** * C33 *)

(** The history has one entry per finished iteration, and using the object
    further (also with calls that raise) only appends to it. *)
Theorem C33_history_kept : forall s s', reached s -> used s s' ->
  length (history s) = v_iter s /\
  exists bs, history s' = history s ++ bs /\ v_iter s' = v_iter s + length bs.
Proof.
  intros s s' Hr Hu. pose proof (reached_wf _ Hr) as Hwf. split; [now apply wf_history|].
  now apply used_keeps.
Qed.

(** update with repeat=n: at most n iterations, each of which updates the
    nodes in order, calls the callback and records the sum of the
    contributions; it stops early only at an iteration that converged. *)
Theorem C33_update_runs : forall s nodes n tol bound s', reached s -> 0 < n ->
  update nodes (Some n) tol bound s = (s', Ok tt) ->
  exists ns bs, chosen name_of s nodes ns /\
    iterated (v_model s) ns (v_callback s) (v_world s) bs (v_world s') /\
    history s' = history s ++ bs /\ v_iter s' = v_iter s + length bs /\
    1 <= length bs <= n /\ (length bs < n -> v_converged s' = true).
Proof.
  intros s nodes n tol bound s' Hr Hn H. pose proof (reached_wf _ Hr) as Hwf.
  unfold Engine.update in H. sstepas H E; [|discriminate]. injection E as <- <-.
  apply update_loop_spec in H; [|assumption].
  destruct H as (_ & _ & bs & H1 & H2 & H3 & H4). specialize (H4 eq_refl).
  destruct H4 as (_ & H4 & _ & H5 & _). destruct (H4 Hn) as (ns & Hns & Hit).
  exists ns, bs. split.
  { unfold chosen. destruct nodes; [|assumption].
    rewrite chosen_all in Hns by auto. congruence. }
  split; [assumption|]. split; [assumption|]. split; [assumption|]. split.
  - split; [|assumption]. destruct (le_lt_dec n (length bs)); [lia|]. now apply H5.
  - intros Hl. now apply H5.
Qed.

(** * C34 *)

(** The requested tolerance. *)
Definition tolerance (s : vb) (tol : option R) : R := match tol with None => v_tol s | Some x => x end.

(** Stopping early, or reporting convergence, means that the relative change at
    the last iteration is below the tolerance. *)
Theorem C34_stops_only_if_settled : forall s nodes n tol bound s', reached s ->
  update nodes (Some n) tol bound s = (s', Ok tt) ->
  (v_iter s' < v_iter s + n \/ (0 < n /\ v_converged s' = true)) ->
  exists h a b, history s' = h ++ [a; b] /\ settled (tolerance s tol) a b.
Proof.
  intros s nodes n tol bound s' Hr H Hstop. pose proof (reached_wf _ Hr) as Hwf.
  unfold Engine.update in H. sstepas H E; [|discriminate]. injection E as <- <-.
  apply update_loop_spec in H; [|assumption].
  destruct H as (_ & _ & bs & H1 & H2 & H3 & H4). specialize (H4 eq_refl).
  destruct H4 as (_ & _ & H5 & H6 & _).
  assert (Hb : 0 < length bs /\ v_converged s' = true).
  { destruct Hstop as [Hs|[Hn Hc]]; [apply H6; lia|]. split; [|assumption].
    destruct (le_lt_dec n (length bs)); [lia|]. now apply H6. }
  destruct Hb as [Hb1 Hb2]. specialize (H5 (length bs - 1) ltac:(lia)).
  replace (S (length bs - 1)) with (length bs) in H5 by lia. rewrite firstn_all in H5.
  destruct H5 as [_ H5]. specialize (H5 (conj eq_refl Hb2)).
  destruct H5 as (_ & _ & h & a & b & E1 & E2). rewrite <- H1 in E1. exists h, a, b. auto.
Qed.

(** The code reports a decrease of the bound as convergence, whatever its size:
    with the default checks on and a non-negative tolerance, the first iteration
    whose bound is lower than the previous one ends the run with
    [converged = True]. *)
Theorem C34_decrease_reported_refuted : forall s nodes n tol bound s' h x y r, reached s ->
  v_ignore_bound_checks s = false -> v_annealing_changed s = false ->
  (0 <= tolerance s tol)%R -> (y < x)%R ->
  update nodes (Some n) tol bound s = (s', Ok tt) ->
  history s' = h ++ [Some x; Some y] ++ r -> length (history s) < length h + 2 ->
  r = [] /\ v_converged s' = true.
Proof.
  intros s nodes n tol bound s' h x y r Hr Hig Han Htol Hxy H Hh Hlen. pose proof (reached_wf _ Hr) as Hwf.
  unfold Engine.update in H. sstepas H E; [|discriminate]. injection E as <- <-.
  apply update_loop_spec in H; [|assumption].
  destruct H as (_ & _ & bs & H1 & H2 & H3 & H4). specialize (H4 eq_refl).
  destruct H4 as (_ & _ & H5 & H6 & _).
  assert (Hl : length (history s) + length bs = length h + 2 + length r).
  { rewrite <- app_length, <- H1, Hh, !app_length. cbn. lia. }
  set (j := length h + 1 - length (history s)).
  assert (Hj : j < length bs) by lia. specialize (H5 j Hj).
  assert (Hpre : history s ++ firstn (S j) bs = h ++ [Some x; Some y]).
  { transitivity (firstn (length h + 2) (history s')).
    - rewrite H1, firstn_app. replace (length h + 2 - length (history s)) with (S j) by lia.
      f_equal. symmetry. apply firstn_all2. lia.
    - rewrite Hh, app_assoc, firstn_app, app_length. cbn [length].
      replace (length h + 2 - (length h + 2)) with 0 by lia. rewrite firstn_O, app_nil_r.
      apply firstn_all2. rewrite app_length. cbn. lia. }
  rewrite Hpre in H5. destruct H5 as [H5 _].
  destruct H5 as [E1 E2].
  { split; [assumption|]. split; [destruct (j =? 0); auto|]. exists h, (Some x), (Some y). split; [reflexivity|].
    exists x, y. split; [reflexivity|]. split; [reflexivity|].
    assert (Hp : (0 < (Rabs x + Rabs y) / 2)%R).
    { destruct (Rle_lt_dec y 0).
      - destruct (Req_dec y 0) as [->|]; [|assert (0 < Rabs y)%R by (apply Rabs_pos_lt; assumption); pose proof (Rabs_pos x); lra].
        assert (0 < Rabs x)%R by (apply Rabs_pos_lt; lra). pose proof (Rabs_pos 0). lra.
      - assert (0 < Rabs x)%R by (apply Rabs_pos_lt; lra). pose proof (Rabs_pos y). lra. }
    split; [lra|]. fold (tolerance s tol). apply Rlt_le_trans with 0%R; [|assumption].
    unfold Rdiv. assert (0 < / ((Rabs x + Rabs y) / 2))%R by now apply Rinv_0_lt_compat.
    fold (Rdiv (Rabs x + Rabs y) 2). rewrite <- (Rmult_0_l (/ ((Rabs x + Rabs y) / 2))).
    apply Rmult_lt_compat_r; lra. }
  split; [|assumption]. destruct r; [reflexivity|]. cbn in Hl. lia.
Qed.

(** * C35 *)

(** VB(nodes) accepts two different nodes of the same name, and one of them can
    then not be looked up by its name. *)
Theorem C35_duplicate_names_accepted_refuted : forall nodes w tol fn tmp k ud cb d ck a b,
  In a nodes -> In b nodes -> a <> b -> name_of a = name_of b ->
  exists s, vb_init name_of nodes w tol fn tmp k ud cb d ck = Ok s /\
    In a (v_model s) /\ In b (v_model s) /\
    (getitem name_of s (KName (name_of a)) <> Ok a \/ getitem name_of s (KName (name_of b)) <> Ok b).
Proof.
  intros nodes w tol fn tmp k ud cb d ck a b Ha Hb Hab Hn. unfold vb_init. rewrite map_length, Nat.eqb_refl. eexists. split; [reflexivity|]. cbn [v_model].
  destruct (unique_from_spec name_of stochastic update_node contribution update_mask nodes []) as [H1 H2].
  unfold unique. rewrite !H2. cbn [In].
  split; [tauto|]. split; [tauto|]. rewrite <- Hn.
  match goal with |- ?x <> _ \/ _ => destruct x as [m|] end; [|left; discriminate].
  destruct (Nat.eq_dec m a) as [->|]; [right|left]; congruence.
Qed.

(** vb['name'] gives a node of that name, KeyError if the model has none; it is
    the only node of that name if names are unique. *)
Theorem C35_lookup_partial : forall s nm,
  (forall n, getitem name_of s (KName nm) = Ok n -> In n (v_model s) /\ name_of n = nm) /\
  (forall e, getitem name_of s (KName nm) = Err e ->
     e = KeyError /\ forall n, In n (v_model s) -> name_of n <> nm) /\
  (NoDup (map name_of (v_model s)) -> forall n, In n (v_model s) ->
     getitem name_of s (KName (name_of n)) = Ok n).
Proof.
  intros s nm.
  assert (A : forall nm n, getitem name_of s (KName nm) = Ok n -> In n (v_model s) /\ name_of n = nm).
  { intros m n H. cbn in H. destruct (find _ _) as [x|] eqn:E; [|discriminate]. injection H as ->.
    apply find_some in E as [E1 E2]. rewrite <- in_rev in E1. split; [assumption|].
    destruct (string_dec (name_of n) m); [assumption|discriminate]. }
  assert (B : forall nm e, getitem name_of s (KName nm) = Err e ->
     e = KeyError /\ forall n, In n (v_model s) -> name_of n <> nm).
  { intros m e H. cbn in H. destruct (find _ _) as [x|] eqn:E; [discriminate|]. injection H as <-.
    split; [reflexivity|]. intros n Hn. rewrite in_rev in Hn. apply (find_none _ _ E) in Hn.
    destruct (string_dec (name_of n) m); [discriminate|assumption]. }
  split; [apply A|]. split; [apply B|]. intros Hnd n Hn.
  destruct (getitem name_of s (KName (name_of n))) as [m|e] eqn:E.
  - apply A in E as [E1 E2]. f_equal.
    clear - Hnd Hn E1 E2. induction (v_model s) as [|a l IH]; [destruct Hn|].
    cbn in Hnd. inversion Hnd as [|? ? Ha Hnd' E]; subst. destruct Hn as [->|Hn], E1 as [->|E1]; auto.
    + exfalso. apply Ha. rewrite <- E2. now apply in_map.
    + exfalso. apply Ha. rewrite E2. now apply in_map.
  - apply B in E as [_ E]. exfalso. now apply (E n).
Qed.

(** * C36 *)

(** Same name used to save and to load. *)
Definition same_file (s1 s2 : vb) (fn : string) : Prop :=
  (fn <> "" \/ v_autosave_filename s1 = v_autosave_filename s2)%string.

Lemma same_fname : forall s1 s2 fn, same_file s1 s2 fn -> fname_of s2 fn = fname_of s1 fn.
Proof. intros s1 s2 fn H. unfold fname_of. destruct (string_dec fn ""); [|reflexivity]. destruct H; [contradiction|congruence]. Qed.

Lemma save_fname : forall s fn s' , save [] fn s = (s', Ok tt) -> fname_of s fn <> ""%string.
Proof.
  intros s fn s' H. unfold fname_of. destruct (string_dec fn "") as [->|]; [|assumption].
  intros E. unfold Engine.save in H. unfold sbind, gets at 1 in H. cbn in H. rewrite E in H. cbn in H. discriminate.
Qed.

(** The nodes of the two models have the same structure. *)
Definition same_structure (s1 s2 : vb) : Prop :=
  v_model s2 = v_model s1 /\
  forall n, In n (v_model s1) -> stochastic n = true ->
     length (n_phi (v_world s2 n)) = length (n_phi (v_world s1 n)) /\
     length (n_u (v_world s2 n)) = length (n_u (v_world s1 n)).

(** vb.save() then vb.load() in a model of the same structure restores the
    parameters, moments, terms and observed masks of all stochastic nodes, the
    bound history and its per-node terms, times, iteration counter and
    convergence flag; the callback output too, if there was any. *)
Theorem C36_roundtrip : forall s1 s1' s2 fn, reached s1 -> reached s2 ->
  masks_only update_mask ->
  NoDup (map name_of (v_model s1)) -> (forall n, In n (v_model s1) -> name_of n <> ""%string) ->
  NoDup (user_keys s1) -> same_structure s1 s2 -> same_file s1 s2 fn ->
  save [] fn s1 = (s1', Ok tt) -> files (v_disk s2) = files (v_disk s1') ->
  exists s', load [] fn false s2 = (s', Ok tt) /\
    (forall n, In n (v_model s1) -> stochastic n = true ->
       same_state (v_world s' n) (v_world s1 n)) /\
    history s' = history s1 /\
    v_iter s' = v_iter s1 /\ v_L s' = v_L s1 /\ v_cputime s' = v_cputime s1 /\
    v_converged s' = v_converged s1 /\
    (forall n, In n (v_model s1) -> term_of s' n = term_of s1 n) /\
    (v_callback_output s1 <> None -> v_callback_output s' = v_callback_output s1).
Proof.
  intros s1 s1' s2 fn Hr1 Hr2 Hm Hnd Hne Hu [Hmod Hst] Hfn Hs Hd.
  pose proof (reached_wf _ Hr1) as W1. pose proof (reached_wf _ Hr2) as W2.
  pose proof (save_fname _ _ _ Hs) as Hf.
  destruct (save_crash name_of stochastic s1 fn Hf W1 Hnd Hne Hu) as (sx & r & E & _ & _ & E2).
  rewrite Hs in E. injection E as <- <-.
  destruct E2 as [(_ & E2 & _)|(k & E2 & [(_ & -> & _)|(E3 & _)])]; try discriminate.
  rewrite firstn_all in E2.
  destruct (load_ok name_of stochastic update_mask s1 s2 fn Hm W1 W2 Hnd Hne Hu Hmod) as (s' & H).
  { now rewrite (same_fname _ _ _ Hfn). } { now rewrite (same_fname _ _ _ Hfn), Hd. } { assumption. }
  destruct H as (H0 & H1 & H2 & H3 & H4 & H5 & H6 & H7 & H8 & H9 & _).
  exists s'. split; [assumption|]. split; [intros n Hn Hs'; now apply H1|].
  split; [unfold history; congruence|]. repeat split; auto.
  intros Hcb. rewrite H9. destruct (v_callback_output s1); [reflexivity|contradiction].
Qed.

(** If the second model was also given the same observations, annealing and
    settings, loading gives the saved state itself: whatever is done afterwards
    has the same outcome. *)
Theorem C36_continue : forall s1 s1' s2 fn, reached s1 -> reached s2 ->
  masks_only update_mask ->
  NoDup (map name_of (v_model s1)) -> (forall n, In n (v_model s1) -> name_of n <> ""%string) ->
  NoDup (user_keys s1) -> same_structure s1 s2 -> same_file s1 s2 fn ->
  save [] fn s1 = (s1', Ok tt) ->
  (* nothing done to the nodes except that the stochastic ones differ in
     parameters and moments *)
  (forall n, In n (v_model s1) -> stochastic n = true ->
     n_observed (v_world s2 n) = n_observed (v_world s1 n) /\
     n_mask (v_world s2 n) = n_mask (v_world s1 n) /\
     n_annealing (v_world s2 n) = n_annealing (v_world s1 n)) ->
  (forall n, ~ (In n (v_model s1) /\ stochastic n = true) -> v_world s2 n = v_world s1 n) ->
  (* same settings *)
  v_annealing_changed s2 = v_annealing_changed s1 /\
  v_autosave_iterations s2 = v_autosave_iterations s1 /\ v_autosave_nodes s2 = v_autosave_nodes s1 /\
  v_autosave_filename s2 = v_autosave_filename s1 /\ v_callback s2 = v_callback s1 /\
  v_callback_output s2 = None /\ v_tol s2 = v_tol s1 /\
  v_ignore_bound_checks s2 = v_ignore_bound_checks s1 /\ v_user_data s2 = v_user_data s1 /\
  v_disk s2 = v_disk s1' /\ v_clock s2 = v_clock s1 ->
  load [] fn false s2 = (s1', Ok tt).
Proof.
  intros s1 s1' s2 fn Hr1 Hr2 Hm Hnd Hne Hu [Hmod Hst] Hfn Hs Hn Ho Hset.
  pose proof (reached_wf _ Hr1) as W1. pose proof (reached_wf _ Hr2) as W2.
  pose proof (save_fname _ _ _ Hs) as Hf.
  destruct (save_crash name_of stochastic s1 fn Hf W1 Hnd Hne Hu) as (sx & r & E & E1 & _ & E2).
  rewrite Hs in E. injection E as <- <-.
  destruct E2 as [(_ & E2 & _)|(k & E2 & [(_ & -> & _)|(E3 & _)])]; try discriminate.
  rewrite firstn_all in E2.
  destruct Hset as (S1 & S2 & S3 & S4 & S5 & S6 & S7 & S8 & S9 & S10 & S11).
  destruct (load_exact name_of stochastic update_mask s1 s2 fn Hm W1 W2 Hnd Hne Hu Hmod) as (s' & L1 & L2); auto.
  { now rewrite (same_fname _ _ _ Hfn). } { now rewrite (same_fname _ _ _ Hfn), S10. }
  { intros n Hi Hsn. destruct (Hst n Hi Hsn), (Hn n Hi Hsn) as (? & ? & ?). auto. }
  rewrite L1. f_equal. rewrite L2, S1, S2, S3, S4, S5, S7, S8, S9, S10, S11, E1. reflexivity.
Qed.

(** load of given nodes with nodes_only=True leaves everything else alone,
    whether or not it succeeds (masks of other nodes may be recomputed). *)
Theorem C36_subset_only : forall nodes fn s s' r, masks_only update_mask -> nodes <> [] ->
  load nodes fn true s = (s', r) ->
  s' = set_world s (v_world s') /\
  forall j, (forall ns, mapM (getitem name_of s) nodes = Ok ns -> ~ In j ns) ->
    same_state (v_world s' j) (v_world s j) /\ n_annealing (v_world s' j) = n_annealing (v_world s j).
Proof.
  intros nodes fn s s' r Hm Hne H. destruct (load_touch name_of stochastic update_mask _ _ _ _ _ Hm Hne H) as [A B].
  split; [assumption|]. intros j Hj. now apply B.
Qed.

(** * C37 *)

(** Killed anywhere in vb.save(): the file is as before, or a strict prefix of
    what was to be written; other files are as before.  The full property would
    need the first or all of the new content; see the refutation below. *)
Theorem C37_killed_partial : forall s fn s', reached s -> fname_of s fn <> ""%string ->
  NoDup (map name_of (v_model s)) -> (forall n, In n (v_model s) -> name_of n <> ""%string) ->
  NoDup (user_keys s) ->
  save [] fn s = (s', Err Killed) ->
  (forall g, g <> fname_of s fn -> files (v_disk s') g = files (v_disk s) g) /\
  (files (v_disk s') = files (v_disk s) \/
   exists part rest, rest <> [] /\ files (v_disk s') (fname_of s fn) = Some part /\
     forall d, exists s'', save [] fn (set_disk s (Disk d None [])) = (s'', Ok tt) /\
       files (v_disk s'') (fname_of s fn) = Some (part ++ rest)).
Proof.
  intros s fn s' Hr Hf Hnd Hne Hu H. pose proof (reached_wf _ Hr) as W.
  destruct (save_crash name_of stochastic s fn Hf W Hnd Hne Hu) as (sx & r & E & E1 & E0 & E2).
  rewrite H in E. injection E as <- <-. split; [assumption|].
  destruct E2 as [(_ & _ & ->)|(k & E2 & [(E3 & _)|(_ & E3 & _)])]; [now left|discriminate|].
  right. exists (firstn k (file_of name_of stochastic s (v_model s))), (skipn k (file_of name_of stochastic s (v_model s))).
  split. { intros E. apply (f_equal (@length _)) in E. rewrite skipn_length in E. change (length (@nil (path * dval))) with 0 in E. lia. }
  split; [assumption|]. intros d.
  destruct (save_ok name_of stochastic (set_disk s (Disk d None [])) fn eq_refl Hf W Hnd Hne Hu) as (s'' & F1 & _ & _ & F2 & _).
  exists s''. split; [exact F1|]. rewrite firstn_skipn. exact F2.
Qed.

(** * C38 *)

(** During update(repeat=n) the autosave file is written once for each finished
    iteration whose number (counted over the life of the object) is a multiple
    of k, and no other file is; with k <= 0 nothing is written. *)
Theorem C38_schedule : forall s nodes n tol bound s', reached s ->
  update nodes (Some n) tol bound s = (s', Ok tt) ->
  opened (v_disk s') = opened (v_disk s) ++
    map (fun _ => v_autosave_filename s)
      (filter (fun i => (0 <? v_autosave_iterations s)%Z && (Z.of_nat i mod v_autosave_iterations s =? 0)%Z)
         (seq (v_iter s + 1) (v_iter s' - v_iter s))).
Proof.
  intros s nodes n tol bound s' Hr H. pose proof (reached_wf _ Hr) as Hwf.
  unfold Engine.update in H. sstepas H E; [|discriminate]. injection E as <- <-.
  apply update_loop_spec in H; [|assumption].
  destruct H as (_ & _ & bs & H1 & H2 & H3 & H4). specialize (H4 eq_refl).
  destruct H4 as (_ & _ & _ & _ & H5). rewrite H5, H2.
  replace (v_iter s + length bs - v_iter s) with (length bs) by lia.
  f_equal. unfold autosaves, multiples. destruct (0 <? v_autosave_iterations s)%Z; [reflexivity|].
  cbn. induction (seq _ _); [reflexivity|assumption].
Qed.
End P.

(** * A small model: two nodes, updating one subtracts 1 from its (only) moment,
    the contribution of a node is its moment. *)
Definition sc {A} (x : A) : arr A := Arr [] (fun _ => x).
Definition demo_name (n : nat) : string := match n with 0 => "X" | 1 => "Y" | 2 => "X" | _ => "Z" end%string.
Definition demo_stoch (n : nat) : bool := true.
Definition demo_node (u : xr) : nstate := NS [sc u] [sc u] (sc nan) (sc nan) (sc false) (sc true) 1%R.
Definition moment (st : nstate) : xr := match n_u st with a :: _ => aget a env0 | [] => nan end.
Definition demo_update (n : nat) (w : world) : world * res unit :=
  (set_node w n (demo_node (xsub (moment (w n)) (Some 1%R))), Ok tt).
Definition demo_contribution (n : nat) (w : world) : res xr := Ok (moment (w n)).
Definition demo_mask (n : nat) (w : world) : world := w.
Definition demo_world : world := fun _ => demo_node (Some 5%R).
Definition demo_disk (c : option nat) (f : string -> option file) : disk := Disk f c [].
Definition no_files : string -> option file := fun _ => None.
Definition demo_vb (nodes : list nat) (k : Z) (c : option nat) (f : string -> option file) : vb :=
  VB demo_world nodes 0 false false [] [] (map (fun n => (n, [])) nodes) k None "a.hdf5" None None
     (1/100)%R false None (demo_disk c f) (fun i => INR i).

Lemma demo_reached : forall nodes k c f, unique nodes = nodes ->
  reached demo_name demo_stoch demo_update demo_contribution (demo_vb nodes k c f).
Proof.
  intros nodes k c f H. exists nodes, demo_world, (1/100)%R, "a.hdf5"%string, ""%string, k, None, None, (demo_disk c f), (fun i => INR i).
  eexists. split; [|apply u_refl]. unfold vb_init. rewrite map_length, Nat.eqb_refl, H. reflexivity.
Qed.

Notation run_update := (update demo_name demo_stoch demo_update demo_contribution).
Notation run_save := (save demo_name demo_stoch).
Notation run_load := (load demo_name demo_stoch demo_mask).


Ltac run := cbv -[INR Rplus Rminus IZR Rdiv Rmult Rinv Rabs Rlt_dec Req_EM_T].

(** ** Refutations by concrete runs *)

(** The autosave made at the end of an iteration records one iteration too few:
    loading it right away loses the last entry of the history. *)
Theorem C36_autosave_refuted :
  exists s s1 s2, reached demo_name demo_stoch demo_update demo_contribution s /\
    v_autosave_iterations s = 1%Z /\
    run_update [] (Some 1) None 0 s = (s1, Ok tt) /\ run_load [] "" false s1 = (s2, Ok tt) /\
    length (history s1) = 1 /\ history s2 = [] /\ v_iter s1 = 1 /\ v_iter s2 = 0.
Proof.
  exists (demo_vb [0;1] 1 None no_files).
  eexists. eexists. split; [now apply demo_reached|]. split; [reflexivity|].
  split; [run; reflexivity|]. split; [run; reflexivity|]. repeat split.
Qed.

(** load of one node (nodes_only=False is the default) replaces the bound history
    and iteration counter of the whole object but the terms of that node only;
    the next update then raises IndexError. *)
Theorem C36_subset_then_update_refuted :
  exists s s' s'', reached demo_name demo_stoch demo_update demo_contribution s /\
    run_load [KName "X"%string] "f" false s = (s', Ok tt) /\
    v_iter s = 0 /\ v_iter s' = 1 /\
    (exists t, run_update [] (Some 1) None 0 s = (t, Ok tt)) /\
    run_update [] (Some 1) None 0 s' = (s'', Err IndexError).
Proof.
  set (d := fst (run_save [] "f" (fst (run_update [] (Some 1) None 0 (demo_vb [0;1] 0 None no_files))))).
  exists (demo_vb [0;1] 0 None (files (v_disk d))).
  eexists. eexists. split; [now apply demo_reached|]. subst d.
  split; [run; reflexivity|]. split; [reflexivity|]. split; [reflexivity|].
  split; [eexists; run; reflexivity|]. run. reflexivity.
Qed.

(** Killed between truncating the file and writing the first group: the file
    that could be loaded before cannot be loaded any more. *)
Theorem C37_crash_loses_save_refuted :
  exists s s' fresh, reached demo_name demo_stoch demo_update demo_contribution s /\
    (exists t, run_load [] "f" false s = (t, Ok tt)) /\
    run_save [] "f" s = (s', Err Killed) /\
    (* a new process, same model, files as the killed process left them *)
    fresh = demo_vb [0;1] 0 None (files (v_disk s')) /\
    snd (run_load [] "f" false fresh) = Err PyException.
Proof.
  set (d := fst (run_save [] "f" (fst (run_update [] (Some 1) None 0 (demo_vb [0;1] 0 None no_files))))).
  exists (demo_vb [0;1] 0 (Some 1) (files (v_disk d))).
  eexists. eexists. split; [now apply demo_reached|]. subst d.
  split; [eexists; run; reflexivity|]. split; [run; reflexivity|]. split; [reflexivity|].
  run. reflexivity.
Qed.

Print Assumptions C33_history_kept.
Print Assumptions C33_update_runs.
Print Assumptions C34_stops_only_if_settled.
Print Assumptions C34_decrease_reported_refuted.
Print Assumptions C35_duplicate_names_accepted_refuted.
Print Assumptions C35_lookup_partial.
Print Assumptions C36_roundtrip.
Print Assumptions C36_continue.
Print Assumptions C36_subset_only.
Print Assumptions C36_autosave_refuted.
Print Assumptions C36_subset_then_update_refuted.
Print Assumptions C37_killed_partial.
Print Assumptions C37_crash_loses_save_refuted.
Print Assumptions C38_schedule.

(** ** The hypotheses can be met *)

(** Five iterations requested; the bound goes from 8 to 6, so the second
    iteration counts as converged and the run stops (C33, C34). *)
Example C34_example : exists s', reached demo_name demo_stoch demo_update demo_contribution (demo_vb [0;1] 0 None no_files) /\
  run_update [] (Some 5) None 0 (demo_vb [0;1] 0 None no_files) = (s', Ok tt) /\
  v_iter s' = 2 /\ v_converged s' = true /\
  history s' = [Some (0 + (5 - 1) + (5 - 1))%R; Some (0 + (5 - 1 - 1) + (5 - 1 - 1))%R].
Proof.
  eexists. split; [now apply demo_reached|]. split.
  - unfold update. erewrite run_bind by reflexivity. cbn [update_loop].
    erewrite run_bind by reflexivity. erewrite run_bind by (run; reflexivity).
    erewrite run_bind by reflexivity. erewrite run_bind by (run; reflexivity). cbv iota.
    erewrite run_bind by reflexivity. erewrite run_bind by (run; reflexivity).
    erewrite run_bind by reflexivity.
    erewrite run_bind.
    2:{ unfold end_iteration_step. do 13 (erewrite run_bind by (run; reflexivity)).
        erewrite run_bind.
        2:{ match goal with |- (if ?b then _ else _) _ = _ => change b with true end. cbv iota.
            erewrite run_bind by (run; reflexivity). erewrite run_bind by (run; reflexivity).
            match goal with |- (if xltb (xdiv ?a ?b) ?c then _ else _) _ = _ =>
              assert (E : xltb (xdiv a b) c = true) end.
            { run. destruct (Req_EM_T _ _) as [E|E].
              - exfalso. revert E. rewrite !Rabs_right by lra. lra.
              - destruct (Rlt_dec _ _) as [L|L]; [reflexivity|].
                exfalso. apply L. rewrite !Rabs_right by lra. lra. }
            rewrite E. reflexivity. }
        run. reflexivity. }
    reflexivity.
  - split; [reflexivity|]. split; reflexivity.
Qed.

(** Autosaving every 2 iterations, 3 iterations without bound checks: one save. *)
Example C38_example : exists s',
  run_update [] (Some 3) None 0 (set_ignore (demo_vb [0;1] 2 None no_files) true) = (s', Ok tt) /\
  v_iter s' = 3 /\ opened (v_disk s') = ["a.hdf5"%string].
Proof. eexists. split; [run; reflexivity|]. split; reflexivity. Qed.

Example C35_example : exists s,
  vb_init demo_name [0;1;2;1] demo_world 1%R "f" "" 0 None None (demo_disk None no_files) (fun i => INR i) = Ok s /\
  v_model s = [0;1;2] /\ getitem demo_name s (KName "X"%string) = Ok 2 /\
  getitem demo_name s (KName "Y"%string) = Ok 1 /\ getitem demo_name s (KName "W"%string) = Err KeyError.
Proof. eexists. split; [reflexivity|]. repeat split. Qed.

(** Save after an iteration, load into a fresh model (C36). *)
Example C36_example : exists s1 s1' s', 
  run_update [] (Some 1) None 0 (demo_vb [0;1] 0 None no_files) = (s1, Ok tt) /\
  run_save [] "f" s1 = (s1', Ok tt) /\
  run_load [] "f" false (demo_vb [0;1] 0 None (files (v_disk s1'))) = (s', Ok tt) /\
  masks_only demo_mask /\ NoDup (map demo_name [0;1]) /\
  moment (v_world s' 1) = Some (5 - 1)%R /\ v_iter s' = 1.
Proof.
  do 3 eexists. split; [run; reflexivity|]. split; [run; reflexivity|]. split; [run; reflexivity|].
  split; [intros n w j; split; [apply ss_refl|reflexivity]|].
  split; [repeat constructor; cbn; intuition discriminate|]. split; reflexivity.
Qed.

(** Killed after 4 file operations: a strict prefix of the new file (C37). *)
Example C37_example : exists s', 
  run_save [] "f" (demo_vb [0;1] 0 (Some 4) no_files) = (s', Err Killed) /\
  option_map (@length _) (files (v_disk s') "f"%string) = Some 3.
Proof. eexists. split; [run; reflexivity|]. reflexivity. Qed.
