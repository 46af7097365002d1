(** C66: the terms of the lower bound by node, and the user data in a saved file. *)
From Coq Require Import String List Arith ZArith Lia Bool Reals Lra.
From Verif Require Import Base NumPy Engine SpecEngine EngineLemmas EngineLemmas2 EngineSave EngineLoad PEngine EngineQueries.
Import ListNotations.
Open Scope nat_scope.

(** The sum of some terms, in their order; nan if one of them is nan. *)
Definition total (cs : list xr) : xr := fold_left xadd cs (Some 0%R).

(** ** Rows of the table of terms *)
Definition row (i : nat) (l : list (nat * list xr)) : list (option xr) := map (fun p => nth_error (snd p) i) l.

Lemma mapM_same : forall A (f : A -> res A) l, (forall x, In x l -> f x = Ok x) -> mapM f l = Ok l.
Proof.
  induction l as [|x l IH]; intros H; [reflexivity|]. cbn [mapM]. rewrite H by now left. cbn [bind].
  rewrite IH by (intros; apply H; now right). reflexivity.
Qed.

Lemma mapM_app : forall A B (f : A -> res B) l m, mapM f (l ++ m) = bind (mapM f l) (fun a => bind (mapM f m) (fun b => Ok (a ++ b))).
Proof.
  induction l as [|x l IH]; intros m; cbn [app mapM bind]; [now destruct (mapM f m)|]. destruct (f x) as [y|e]; cbn [bind]; [|reflexivity].
  rewrite IH. destruct (mapM f l); cbn [bind]; [|reflexivity]. now destruct (mapM f m).
Qed.

Lemma set_term_at : forall l1 n ts l2 i x, ~ In n (map fst l1) -> ~ In n (map fst l2) ->
  set_term (l1 ++ (n, ts) :: l2) n i x = bind (set_nth ts i x) (fun v => Ok (l1 ++ (n, v) :: l2)).
Proof.
  intros l1 n ts l2 i x H1 H2. unfold set_term.
  assert (G : forall l, ~ In n (map fst l) ->
    mapM (fun p : nat * list xr => if fst p =? n then bind (set_nth (snd p) i x) (fun v => Ok (fst p, v)) else Ok p) l = Ok l).
  { intros l H. apply mapM_same. intros p Hp. destruct (Nat.eqb_spec (fst p) n) as [E|_]; [|reflexivity].
    exfalso. apply H. rewrite <- E. now apply in_map. }
  rewrite mapM_app, G by exact H1. cbn [bind mapM fst snd]. rewrite Nat.eqb_refl. destruct (set_nth ts i x) as [v|e]; cbn [bind]; [|reflexivity].
  now rewrite G.
Qed.

Lemma total_snoc : forall cs c, total (cs ++ [c]) = xadd (total cs) c.
Proof. intros. unfold total. now rewrite fold_left_app. Qed.

(** A list with an initial part of the keys. *)
Lemma split_keys : forall (l : list (nat * list xr)) n keys, map fst l = n :: keys -> exists ts l2, l = (n, ts) :: l2 /\ map fst l2 = keys.
Proof. intros [|[m ts] l] n keys H; [discriminate|]. injection H as -> <-. now exists ts, l. Qed.

Section Q.
Variable name_of : nat -> string.
Variable stochastic : nat -> bool.
Variable update_node : nat -> world -> world * res unit.
Variable contribution : nat -> world -> res xr.
Variable update_mask : nat -> world -> world.

Notation save := (save name_of stochastic).
Notation load := (load name_of stochastic update_mask).
Notation end_iteration_step := (end_iteration_step name_of stochastic contribution).
Notation loglikelihood_lowerbound := (loglikelihood_lowerbound contribution).
Notation update_nodes := (update_nodes name_of stochastic update_node).
Notation update_loop := (update_loop name_of stochastic update_node contribution).
Notation update := (update name_of stochastic update_node contribution).
Notation perform := (perform name_of stochastic update_node contribution).
Notation used := (used name_of stochastic update_node contribution).
Notation reached := (reached name_of stochastic update_node contribution).

Lemma loglik_rows : forall s s' r, map fst (v_l s) = v_model s -> NoDup (v_model s) -> loglikelihood_lowerbound s = (s', r) ->
  (forall i, i <> v_iter s -> row i (v_l s') = row i (v_l s)) /\
  (forall L, r = Ok L -> exists cs, Forall2 (fun n c => contribution n (v_world s) = Ok c) (v_model s) cs /\
     row (v_iter s) (v_l s') = map Some cs /\ L = total cs).
Proof.
  intros s0 s' r Hk Hn H. unfold Engine.loglikelihood_lowerbound in H. sstep H; [|discriminate]. injection H1 as <- <-.
  assert (G : forall nodes l1 l2 cs s s' r,
    (fix go (nodes : list nat) (L : xr) : ST vb xr :=
     match nodes with
     | [] => ret L
     | n :: r =>
       sbind (gets (fun s => s)) (fun s =>
       sbind (lift (contribution n (v_world s))) (fun lp =>
       sbind (lift (set_term (v_l s) n (v_iter s) lp)) (fun l' =>
       sbind (modify (fun s => set_l s l')) (fun _ => go r (xadd L lp)))))
     end) nodes (total cs) s = (s', r) ->
    v_l s = l1 ++ l2 -> map fst l2 = nodes -> NoDup (map fst (l1 ++ l2)) -> row (v_iter s) l1 = map Some cs ->
    Forall2 (fun n c => contribution n (v_world s) = Ok c) (map fst l1) cs ->
    (forall i, i <> v_iter s -> row i (v_l s') = row i (v_l s)) /\
    (forall L, r = Ok L -> exists cs', Forall2 (fun n c => contribution n (v_world s) = Ok c) (map fst (l1 ++ l2)) cs' /\
       row (v_iter s) (v_l s') = map Some cs' /\ L = total cs')).
  { clear. induction nodes as [|n nodes IH]; intros l1 l2 cs s s1 r H El Ek Hd Hr Hc.
    - injection H as <- <-. split; [reflexivity|]. intros L E. injection E as <-. destruct l2; [|discriminate].
      rewrite app_nil_r in *. exists cs. rewrite El. auto.
    - destruct (split_keys _ _ _ Ek) as (ts & l3 & -> & Ek').
      assert (N1 : ~ In n (map fst l1) /\ ~ In n (map fst l3)).
      { rewrite map_app in Hd. cbn [map fst] in Hd. apply NoDup_remove_2 in Hd. rewrite in_app_iff in Hd. tauto. }
      sstep H; [|discriminate]. injection H1 as <- <-. sstep H.
      2:{ injection H1 as <- _. split; [reflexivity|]. discriminate. }
      injection H1 as <- Hlp. sstep H.
      2:{ injection H1 as <- _. split; [reflexivity|]. discriminate. }
      injection H1 as <- Hl. sstep H; [|discriminate]. injection H1 as <- <-.
      rewrite El, set_term_at in Hl by tauto. destruct (set_nth ts (v_iter s) a) as [v|e] eqn:Ev; cbn [bind] in Hl; [|discriminate]. injection Hl as <-.
      assert (Hi : v_iter s < length ts).
      { destruct (le_lt_dec (length ts) (v_iter s)) as [C|C]; [|exact C]. rewrite set_nth_err in Ev by exact C. discriminate. }
      destruct (set_nth_ok _ ts (v_iter s) a Hi) as (v' & Ev' & _ & _ & V1 & V2 & _). rewrite Ev in Ev'. injection Ev' as <-.
      assert (RX : forall i, i <> v_iter s -> row i (l1 ++ (n, v) :: l3) = row i (l1 ++ (n, ts) :: l3)).
      { intros i Hne. unfold row. rewrite !map_app. cbn [map snd]. now rewrite V2. }
      rewrite <- total_snoc in H.
      apply (IH (l1 ++ [(n, v)]) l3 (cs ++ [a])) in H; cbn [set_l v_l v_iter v_world] in *.
      + destruct H as [G1 G2]. split.
        * intros i Hne. rewrite (G1 i Hne), El. now apply RX.
        * intros L HL. destruct (G2 L HL) as (cs' & F & R & T). exists cs'. rewrite <- app_assoc, map_app in F. cbn [app] in F.
          rewrite map_app. auto.
      + now rewrite <- app_assoc.
      + exact Ek'.
      + rewrite <- app_assoc. rewrite map_app in *. exact Hd.
      + unfold row in *. rewrite !map_app, Hr. cbn. now rewrite V1.
      + rewrite map_app. apply Forall2_app; [exact Hc|]. constructor; [exact Hlp|constructor]. }
  specialize (G (v_model s0) [] (v_l s0) [] s0 s' r H eq_refl Hk). cbn [app] in G. rewrite Hk in G.
  apply G; [exact Hn|reflexivity|constructor].
Qed.

(** ** What an iteration does to the table *)
Definition decomposed (s : vb) : Prop :=
  forall i, i < v_iter s -> exists cs, row i (v_l s) = map Some cs /\ nth_error (v_L s) i = Some (total cs).
(** The last recorded terms are those of the present state of the nodes. *)
Definition current (s : vb) : Prop :=
  exists cs, Forall2 (fun n c => contribution n (v_world s) = Ok c) (v_model s) cs /\
    row (v_iter s - 1) (v_l s) = map Some cs.

Definition same_table (s s' : vb) : Prop :=
  v_l s' = v_l s /\ v_L s' = v_L s /\ v_iter s' = v_iter s /\ v_world s' = v_world s /\ v_model s' = v_model s.
Definition kt {A} (m : ST vb A) : Prop := forall s s' r, m s = (s', r) -> same_table s s'.
Lemma st_refl : forall s, same_table s s. Proof. intros s. repeat split. Qed.
Lemma st_trans : forall a b c, same_table a b -> same_table b c -> same_table a c.
Proof. unfold same_table. intuition congruence. Qed.
Lemma kt_ret : forall A (a : A), kt (ret a). Proof. intros A a s s' r H. injection H as <- _. apply st_refl. Qed.
Lemma kt_lift : forall A (m : res A), kt (lift m). Proof. intros A m s s' r H. injection H as <- _. apply st_refl. Qed.
Lemma kt_gets : forall A (f : vb -> A), kt (gets f). Proof. intros A f s s' r H. injection H as <- _. apply st_refl. Qed.
Lemma kt_bind : forall A B (m : ST vb A) (k : A -> ST vb B), kt m -> (forall a, kt (k a)) -> kt (sbind m k).
Proof.
  intros A B m k Hm Hk s s' r H. sstep H.
  - eapply st_trans; [eapply Hm; eassumption|eapply Hk; eassumption].
  - eapply Hm; eassumption.
Qed.
Lemma kt_modify : forall f, (forall s, same_table s (f s)) -> kt (modify f).
Proof. intros f H s s' r E. injection E as <- _. apply H. Qed.
Lemma kt_od : forall A (m : ST vb A), od m -> kt m.
Proof. intros A m H s s' r E. apply H in E. rewrite E. repeat split. Qed.

Lemma step_table : forall ct tol s s' r, wf s -> end_iteration_step ct tol s = (s', r) -> decomposed s ->
  decomposed s' /\ (forall c, r = Ok c -> current s').
Proof.
  intros ct tol s s' r Hwf H D. unfold Engine.end_iteration_step in H. sstep H; [|discriminate]. injection H1 as <- <-.
  assert (A1 : exists s1, (if length (v_L s) <=? v_iter s then append_iterations 100 else ret tt) s = (s1, Ok tt) /\
    wf s1 /\ decomposed s1 /\ v_iter s1 < length (v_L s1)).
  { destruct Hwf as (W1 & W2 & W3 & W4 & W5). destruct (length (v_L s) <=? v_iter s) eqn:E.
    - apply Nat.leb_le in E. eexists. split; [reflexivity|]. split; [|split].
      + unfold wf; cbn -[repeat]. rewrite !app_length, !repeat_length. repeat split; auto; try lia.
        * rewrite map_map. exact W3.
        * intros p Hp. apply in_map_iff in Hp as [q [<- Hq]]. cbn -[repeat]. now rewrite app_length, repeat_length, W5.
      + intros i Hi. cbn -[repeat] in *. destruct (D i Hi) as (cs & R & T). exists cs. split.
        * rewrite <- R. unfold row. rewrite map_map. apply map_ext_in. intros p Hp. cbn [snd]. apply nth_error_app1. rewrite W5 by exact Hp. lia.
        * rewrite nth_error_app1 by lia. exact T.
      + cbn -[repeat]. rewrite app_length, repeat_length. lia.
    - apply Nat.leb_gt in E. exists s. split; [reflexivity|]. repeat split; auto. }
  destruct A1 as (s1 & E1 & W1 & D1 & I1). sstep H; [|rewrite E1 in H1; discriminate]. rewrite E1 in H1. injection H1 as <- _.
  assert (CB : forall st t, call_callback s1 = (st, t) -> wf st /\ decomposed st /\ v_iter st < length (v_L st)).
  { intros st t Hc. apply callback_spec in Hc as [Hc _]. rewrite Hc. unfold wf, decomposed in *. cbn. auto. }
  sstep H; [|destruct (CB _ _ H1) as (_ & D2 & _); split; [exact D2|discriminate]].
  destruct (CB _ _ H1) as (W2 & D2 & I2). clear H1 CB s1 E1 W1 D1 I1. rename s0 into s2.
  sstep H; [|discriminate]. injection H1 as <- <-.
  set (s3 := set_clock s2 (fun n => v_clock s2 (S n))) in *.
  assert (W3 : wf s3) by exact W2. assert (D3 : decomposed s3) by exact D2. assert (I3 : v_iter s3 < length (v_L s3)) by exact I2. clearbody s3. clear W2 D2 I2.
  assert (LL : forall st t, loglikelihood_lowerbound s3 = (st, t) ->
    st = set_l s3 (v_l st) /\ (forall i, i <> v_iter s3 -> row i (v_l st) = row i (v_l s3)) /\
    (forall L, t = Ok L -> exists cs, Forall2 (fun n c => contribution n (v_world s3) = Ok c) (v_model s3) cs /\
       row (v_iter s3) (v_l st) = map Some cs /\ L = total cs)).
  { intros st t Hl. split; [now apply loglik_spec in Hl|]. apply loglik_rows in Hl; [exact Hl|apply W3|apply W3]. }
  assert (DL : forall st t, loglikelihood_lowerbound s3 = (st, t) -> decomposed st).
  { intros st t Hl. apply LL in Hl as (E & R & _). intros i Hi. rewrite E in Hi. cbn in Hi. destruct (D3 i Hi) as (cs & R' & T). exists cs. split.
    - rewrite R by lia. exact R'.
    - rewrite E. cbn. exact T. }
  sstep H; [|split; [eapply DL; eassumption|discriminate]].
  pose proof (DL _ _ H1) as D4. destruct (LL _ _ H1) as (E4 & _ & R4). destruct (R4 _ eq_refl) as (cs & F4 & C4 & T4). clear H1 LL DL R4.
  rename s0 into s4.
  assert (X4 : v_iter s4 = v_iter s3 /\ v_L s4 = v_L s3 /\ v_world s4 = v_world s3 /\ v_model s4 = v_model s3) by (rewrite E4; repeat split).
  destruct X4 as (X1 & X2 & X3 & X4). rewrite <- X1 in C4, I3. rewrite <- X2 in I3. rewrite <- X3, <- X4 in F4. clear E4 X1 X2 X3 X4 W3 D3 s3.
  sstep H; [|discriminate]. injection H1 as <- <-. sstep H; [|discriminate]. injection H1 as <- <-.
  cbn [set_clock v_cputime v_iter v_L] in H.
  sstep H; [|injection H1 as <- _; split; [exact D4|discriminate]]. injection H1 as <- Ecs. sstep H; [|discriminate]. injection H1 as <- <-.
  cbn [set_cputime set_clock v_cputime v_iter v_L] in H.
  sstep H; [|injection H1 as <- _; split; [exact D4|discriminate]]. injection H1 as <- ELs. sstep H; [|discriminate]. injection H1 as <- <-.
  destruct (set_nth_ok _ (v_L s4) (v_iter s4) a1 I3) as (Ls & ELs' & _ & _ & V1 & V2 & _). rewrite ELs in ELs'. injection ELs' as <-.
  sstep H; [|discriminate]. injection H1 as <- <-. sstep H; [|discriminate]. injection H1 as <- <-.
  match type of H with sbind ?m ?k ?st = _ => set (s5 := st) in * end.
  match type of H with sbind ?m ?k ?st = _ => assert (K1 : kt m) end.
  { destruct (negb _ && negb _ && _); [|apply kt_ret]. apply kt_bind; [apply kt_lift|]. intros L0. apply kt_bind; [apply kt_lift|]. intros L1.
    destruct (xltb _ _); [|apply kt_ret]. apply kt_modify. intros st. repeat split. }
  assert (P5 : (forall i, i <= v_iter s5 -> exists cs, row i (v_l s5) = map Some cs /\ nth_error (v_L s5) i = Some (total cs)) /\
    exists cs, Forall2 (fun n c => contribution n (v_world s5) = Ok c) (v_model s5) cs /\ row (v_iter s5) (v_l s5) = map Some cs).
  { subst s5. cbn. split.
    - intros i Hi. destruct (Nat.eq_dec i (v_iter s4)) as [->|N].
      + exists cs. split; [exact C4|]. rewrite V1. now f_equal.
      + destruct (D4 i ltac:(lia)) as (cs' & R' & T'). exists cs'. split; [exact R'|]. rewrite V2 by exact N. exact T'.
    - exists cs. split; [exact F4|exact C4]. }
  clearbody s5. clear D4 I3 F4 C4 T4 V1 V2 ELs Ecs.
  assert (Fin : forall st, same_table s5 st -> decomposed st).
  { intros st (E1 & E2 & E3 & _). intros i Hi. rewrite E1, E2. apply P5. rewrite <- E3. lia. }
  sstep H; [|split; [apply Fin; eapply K1; eassumption|discriminate]]. pose proof (K1 _ _ _ H1) as T6.
  match type of H with sbind ?m ?k ?st = _ => assert (K2 : kt m) end.
  { destruct ((_ <? _)%Z && _); [|apply kt_ret]. destruct (v_autosave_nodes s5); apply kt_od, od_save. }
  sstep H; [|split; [apply Fin; eapply st_trans; [exact T6|eapply K2; eassumption]|discriminate]].
  assert (T7 : same_table s5 s1) by (eapply st_trans; [exact T6|eapply K2; eassumption]).
  sstepas H Z1; [|discriminate]. injection Z1 as <- <-. sstepas H Z2; [|discriminate]. injection Z2 as <- <-. injection H as <- <-.
  destruct T7 as (E1 & E2 & E3 & E4 & E5). split.
  - intros i Hi. cbn in *. rewrite E1, E2. apply P5. lia.
  - intros c _. destruct P5 as [_ (cs' & F & R)]. exists cs'. cbn. rewrite E1, E3, E4, E5. replace (v_iter s5 + 1 - 1) with (v_iter s5) by lia. auto.
Qed.

(** ** Sequences of calls *)
Lemma decomposed_same : forall s s', same_table s s' -> decomposed s -> decomposed s'.
Proof. intros s s' (E1 & E2 & E3 & _) D i Hi. rewrite E1, E2. apply D. now rewrite <- E3. Qed.

Lemma decomposed_world : forall s w, decomposed s -> decomposed (set_world s w).
Proof. intros s w D. exact D. Qed.

Lemma loop_table : forall n nodes tol s s' r, wf s -> decomposed s -> update_loop n nodes tol s = (s', r) ->
  decomposed s' /\ (r = Ok tt -> 0 < n -> current s').
Proof.
  induction n as [|n IH]; intros nodes tol s s' r W D H.
  - injection H as <- <-. split; [exact D|lia].
  - cbn [Engine.update_loop] in H. sstepas H E1; [|discriminate]. injection E1 as <- <-.
    sstepas H E2; apply update_nodes_spec in E2 as [E _]; [|rewrite E; split; [exact D|discriminate]].
    sstepas H E3; [|discriminate]. injection E3 as <- <-.
    match type of H with sbind (end_iteration_step _ _) _ ?st = _ => set (s2 := st) in * end.
    assert (W2 : wf s2) by (unfold s2; rewrite E; exact W). assert (D2 : decomposed s2) by (unfold s2; rewrite E; exact D).
    clearbody s2. clear E.
    sstepas H E4; [|apply step_table in E4 as [D3 _]; [split; [exact D3|discriminate]|exact W2|exact D2]].
    pose proof (proj1 (end_step _ _ _ _ _ _ _ _ W2 E4)) as W3. apply step_table in E4 as [D3 C3]; [|exact W2|exact D2].
    destruct a0.
    + injection H as <- <-. split; [exact D3|]. intros _ _. now apply (C3 true).
    + destruct (Nat.eq_dec n 0) as [->|N].
      * injection H as <- <-. split; [exact D3|]. intros _ _. now apply (C3 false).
      * apply IH in H; [|exact W3|exact D3]. destruct H as [D' C']. split; [exact D'|]. intros R _. apply C'; [exact R|lia].
Qed.

Lemma go_table : forall bound nodes tol s s' r, wf s -> decomposed s ->
  (fix go (i : nat) : ST vb unit :=
     match i with
     | O => raise Interrupted
     | S j => sbind time (fun t => sbind (update_nodes nodes) (fun _ => sbind time (fun t' =>
         sbind (end_iteration_step (t' - t) tol) (fun stop => if stop then ret tt else go j))))
     end) bound s = (s', r) -> decomposed s'.
Proof.
  induction bound as [|bound IH]; intros nodes tol s s' r W D H.
  - injection H as <- <-. exact D.
  - sstepas H E1; [|discriminate]. injection E1 as <- <-.
    sstepas H E2; apply update_nodes_spec in E2 as [E _]; [|rewrite E; exact D].
    sstepas H E3; [|discriminate]. injection E3 as <- <-.
    match type of H with sbind (end_iteration_step _ _) _ ?st = _ => set (s2 := st) in * end.
    assert (W2 : wf s2) by (unfold s2; rewrite E; exact W). assert (D2 : decomposed s2) by (unfold s2; rewrite E; exact D).
    clearbody s2. clear E.
    sstepas H E4; [|apply step_table in E4 as [D3 _]; [exact D3|exact W2|exact D2]].
    pose proof (proj1 (end_step _ _ _ _ _ _ _ _ W2 E4)) as W3. apply step_table in E4 as [D3 _]; [|exact W2|exact D2].
    destruct a0; [injection H as <- <-; exact D3|]. now apply IH in H.
Qed.

Lemma update_table : forall nodes rep tol bound s s' r, wf s -> decomposed s -> update nodes rep tol bound s = (s', r) -> decomposed s'.
Proof.
  intros nodes rep tol bound s s' r W D H. unfold Engine.update in H. sstepas H E; [|discriminate]. injection E as <- <-. destruct rep as [n|].
  - now apply loop_table in H.
  - now apply go_table in H.
Qed.

Lemma perform_table : forall c s s' r, wf s -> decomposed s -> perform c s = (s', r) -> decomposed s'.
Proof.
  intros c s s' r W D H. destruct c; cbn [SpecEngine.perform] in H.
  - now apply update_table in H.
  - apply (decomposed_same s); [|exact D]. eapply kt_od; [apply od_save|exact H].
  - injection H as <- <-. exact D.
  - injection H as <- <-. exact D.
  - unfold set_annealing in H. sstepas H E1; [|discriminate]. injection E1 as <- <-.
    sstepas H E2; apply (sfor_mod_keeps) in E2 as [E2 ?]; [|discriminate]. injection H as <- <-. rewrite E2. exact D.
  - injection H as <- <-. exact D.
  - injection H as <- <-. exact D.
  - injection H as <- <-. exact D.
Qed.

Lemma reached_table : forall s, reached s -> decomposed s.
Proof.
  intros s (nodes & w & tol & fn & tmp & k & ud & cb & d & ck & s0 & Hi & Hu).
  apply (init_wf name_of stochastic update_node contribution update_mask) in Hi as (W & I & _).
  assert (D : decomposed s0) by (intros i Hi; rewrite I in Hi; lia).
  clear I. induction Hu as [s|s s1 s2 c r H1 H2 IH]; [exact D|]. apply IH.
  - now apply (perform_keeps name_of stochastic update_node contribution) in H1.
  - now apply perform_table in H1.
Qed.

Lemma row_terms : forall l i cs, row i l = map Some cs -> Forall2 (fun p c => nth_error (snd p) i = Some c) l cs.
Proof.
  unfold row. induction l as [|p l IH]; intros i [|c cs] H; try discriminate; constructor; injection H as H1 H2; [exact H1|now apply IH].
Qed.

(** ** The theorems *)
(** However the object was used, also by calls that raised: for every finished iteration the terms
    recorded for the nodes of the model add up to the recorded bound. *)
Theorem C66_terms_add_up : forall s, reached s ->
  exists T, get_iteration_by_nodes s = (s, Ok T) /\ map fst T = v_model s /\
    forall i b, nth_error (history s) i = Some b ->
      exists cs, Forall2 (fun p c => nth_error (snd p) i = Some c) T cs /\ b = total cs.
Proof.
  intros s H. exists (v_l s). split; [reflexivity|].
  pose proof (reached_wf name_of stochastic update_node contribution update_mask _ H) as W. split; [apply W|].
  intros i b Hb. assert (Hi : i < length (history s)) by (apply nth_error_Some; congruence). rewrite (wf_history _ W) in Hi.
  destruct (reached_table s H i Hi) as (cs & R & T). exists cs. split; [now apply row_terms|].
  unfold history in Hb. rewrite <- (firstn_skipn (v_iter s) (v_L s)), nth_error_app1 in T.
  - congruence.
  - rewrite firstn_length. destruct W as (W1 & _). lia.
Qed.

(** After an update that returns, the terms recorded last are those of the present state. *)
Theorem C66_last_terms : forall s s' nodes n tol bound, reached s -> 0 < n -> update nodes (Some n) tol bound s = (s', Ok tt) ->
  exists T T' cs, get_iteration_by_nodes s' = (s', Ok T) /\ compute_lowerbound_terms contribution [] s' = (s', Ok T') /\
    T' = combine (v_model s') cs /\ 0 < v_iter s' /\ Forall2 (fun p c => nth_error (snd p) (v_iter s' - 1) = Some c) T cs.
Proof.
  intros s s' nodes n tol bound Hr Hn H. pose proof (reached_wf name_of stochastic update_node contribution update_mask _ Hr) as W.
  pose proof (reached_table s Hr) as D. unfold Engine.update in H. sstepas H E; [|discriminate]. injection E as <- <-.
  pose proof H as H'. apply (loop_table _ _ _ _ _ _ W D) in H as [_ C]. destruct (C eq_refl Hn) as (cs & F & R).
  apply (update_loop_spec name_of stochastic update_node contribution) in H' as (_ & _ & bs & _ & I & _ & K); [|exact W].
  destruct (K eq_refl) as (_ & _ & _ & St & _).
  assert (P : 0 < length bs) by (destruct (Nat.lt_ge_cases (length bs) n) as [Q|Q]; [now apply St|lia]).
  exists (v_l s'), (combine (v_model s') cs), cs. split; [reflexivity|]. split; [|split; [reflexivity|split; [lia|now apply row_terms]]].
  unfold compute_lowerbound_terms. f_equal. clear -F. revert F. generalize (v_model s'). generalize (v_world s'). intros w m F.
  induction F as [|n c ns cs E F IH]; [reflexivity|]. cbn [mapM combine]. rewrite E. cbn [bind]. rewrite IH. reflexivity.
Qed.

(** The terms of the present state add up to compute_lowerbound(), and asking changes nothing. *)
Theorem C66_terms_now : forall s,
  (forall T, compute_lowerbound_terms contribution [] s = (s, Ok T) ->
     map fst T = v_model s /\ compute_lowerbound contribution s = (s, Ok (total (map snd T)))) /\
  (forall L, compute_lowerbound contribution s = (s, Ok L) -> exists T, compute_lowerbound_terms contribution [] s = (s, Ok T)).
Proof.
  intros s. unfold compute_lowerbound_terms, compute_lowerbound, total. generalize (Some 0%R). generalize (v_model s). generalize (v_world s).
  intros w m. induction m as [|n m IH]; intros L0.
  - split; [intros T E; injection E as <-; split; reflexivity|]. intros L _. now exists [].
  - cbn [mapM foldM]. destruct (contribution n w) as [c|e]; cbn [bind].
    + destruct (IH (xadd L0 c)) as [I1 I2]. split.
      * intros T E. destruct (mapM _ m) as [T'|e]; cbn [bind] in E; [|discriminate]. injection E as <-. destruct (I1 T' eq_refl) as [K1 K2].
        split; [cbn; now f_equal|]. exact K2.
      * intros L E. destruct (I2 L E) as (T & E'). injection E' as E'. rewrite E'. cbn [bind]. eauto.
    + split; [intros T E; discriminate|]. intros L E. discriminate.
Qed.

(** For given nodes: exactly their terms. *)
Theorem C66_terms_of : forall s ns T, ns <> [] -> compute_lowerbound_terms contribution ns s = (s, Ok T) ->
  NoDup (map fst T) /\ forall n c, In (n, c) T <-> In n ns /\ contribution n (v_world s) = Ok c.
Proof.
  intros s ns T N H. unfold compute_lowerbound_terms in H. injection H as H.
  assert (U : (match ns with [] => v_model s | _ => unique ns end) = unique ns) by (destruct ns; [contradiction|reflexivity]). rewrite U in H.
  destruct (unique_from_spec name_of stochastic update_node contribution update_mask ns []) as [U1 U2]. fold (unique ns) in U1, U2.
  assert (G : forall m T, mapM (fun n => bind (contribution n (v_world s)) (fun c => Ok (n, c))) m = Ok T ->
    map fst T = m /\ forall n c, In (n, c) T <-> In n m /\ contribution n (v_world s) = Ok c).
  { clear. induction m as [|n m IH]; intros T H; cbn [mapM] in H.
    - injection H as <-. split; [reflexivity|]. intros. cbn. tauto.
    - destruct (contribution n (v_world s)) as [c|e] eqn:E; cbn [bind] in H; [|discriminate]. destruct (mapM _ m) as [T'|e]; cbn [bind] in H; [|discriminate].
      injection H as <-. destruct (IH T' eq_refl) as [K1 K2]. split; [cbn; now f_equal|]. intros n' c'. cbn [In]. rewrite K2. split.
      + intros [X|[X1 X2]]; [injection X as <- <-; auto|auto].
      + intros [[<-|X] X2]; [left; congruence|auto]. }
  destruct (G _ _ H) as [K1 K2]. split; [now rewrite K1|]. intros n c. rewrite K2, U2. cbn. tauto.
Qed.

(** Loading a file of the whole model keeps the terms and the bounds together. *)
Lemma find_key : forall (l : list (nat * list xr)) p, NoDup (map fst l) -> In p l -> find (fun q => fst q =? fst p) l = Some p.
Proof.
  induction l as [|q l IH]; intros p ND H; [destruct H|]. cbn [find]. inversion ND as [|? ? N ND']; subst. destruct H as [->|H].
  - now rewrite Nat.eqb_refl.
  - destruct (Nat.eqb_spec (fst q) (fst p)) as [E|_]; [|now apply IH]. exfalso. apply N. rewrite E. now apply in_map.
Qed.

Theorem C66_terms_loaded : forall s1 s1' s2 fn, reached s1 -> reached s2 -> masks_only update_mask ->
  NoDup (map name_of (v_model s1)) -> (forall n, In n (v_model s1) -> name_of n <> ""%string) ->
  NoDup (user_keys s1) -> same_structure stochastic s1 s2 -> same_file s1 s2 fn ->
  save [] fn s1 = (s1', Ok tt) -> files (v_disk s2) = files (v_disk s1') ->
  exists s', load [] fn false s2 = (s', Ok tt) /\ history s' = history s1 /\
    forall i b, nth_error (history s') i = Some b ->
      exists cs, Forall2 (fun n c => exists ts, term_of s' n = Ok ts /\ nth_error ts i = Some c) (v_model s1) cs /\ b = total cs.
Proof.
  intros s1 s1' s2 fn R1 R2 M ND NE NU SS SF H Hd.
  destruct (C36_roundtrip name_of stochastic update_node contribution update_mask s1 s1' s2 fn R1 R2 M ND NE NU SS SF H Hd)
    as (s' & L & _ & Hh & _ & _ & _ & _ & Ht & _).
  exists s'. split; [exact L|]. split; [exact Hh|]. intros i b Hb. rewrite Hh in Hb.
  destruct (C66_terms_add_up s1 R1) as (T & ET & KT & GT). injection ET as <-. destruct (GT i b Hb) as (cs & F & E). exists cs. split; [|exact E].
  pose proof (reached_wf name_of stochastic update_node contribution update_mask _ R1) as (_ & _ & W3 & W4 & _).
  assert (G : forall p, In p (v_l s1) -> term_of s' (fst p) = Ok (snd p)).
  { intros p Hp. rewrite Ht by (rewrite <- W3; now apply in_map). unfold term_of. rewrite find_key; [reflexivity|now rewrite W3|exact Hp]. }
  rewrite <- W3. clear -F G. revert G F. generalize (v_l s1). intros l G F. induction F as [|p c l cs E F IH]; [constructor|]. cbn [map]. constructor.
  - exists (snd p). split; [apply G; now left|exact E].
  - apply IH. intros q Hq. apply G. now right.
Qed.

(** *** User data *)
(** A save that returns has written every item of the user data. *)
Theorem C66_user_data_saved : forall s s' fn u, reached s -> NoDup (map name_of (v_model s)) ->
  (forall n, In n (v_model s) -> name_of n <> ""%string) -> v_user_data s = Some u -> NoDup (map fst u) ->
  save [] fn s = (s', Ok tt) ->
  exists f, files (v_disk s') (fname_of s fn) = Some f /\
    forall k v, In (k, v) u -> flookup f (PUser k) = Some (VUser v).
Proof.
  intros s s' fn u Hr Nd Ne Hu Nu H. pose proof (reached_wf name_of stochastic update_node contribution update_mask _ Hr) as W.
  assert (NK : NoDup (user_keys s)) by (unfold user_keys; now rewrite Hu).
  pose proof (save_fname name_of stochastic _ _ _ H) as Hf.
  destruct (save_crash name_of stochastic s fn Hf W Nd Ne NK) as (sx & r & E & _ & _ & E2). rewrite H in E. injection E as <- <-.
  destruct E2 as [(_ & E2 & _)|(k & E2 & [(_ & -> & _)|(E3 & _)])]; try discriminate. rewrite firstn_all in E2.
  exists (file_of name_of stochastic s (v_model s)). split; [exact E2|]. intros k v Hkv. apply flookup_in.
  - now apply file_of_nodup.
  - unfold file_of. rewrite Hu, !in_app_iff. do 10 right. apply in_map_iff. now exists (k, v).
Qed.

(** But it cannot be read back: load_user_data raises NameError when there is any item, KeyError
    when there was no user data, and returns nothing for an empty dictionary. *)
Theorem C66_load_user_data_refuted : forall s s' fn, reached s -> NoDup (map name_of (v_model s)) ->
  (forall n, In n (v_model s) -> name_of n <> ""%string) -> NoDup (user_keys s) -> save [] fn s = (s', Ok tt) ->
  load_user_data (v_disk s') (fname_of s fn) =
  match v_user_data s with None => Err KeyError | Some [] => Ok tt | Some _ => Err NameError end.
Proof.
  intros s s' fn Hr Nd Ne NK H. pose proof (reached_wf name_of stochastic update_node contribution update_mask _ Hr) as W.
  pose proof (save_fname name_of stochastic _ _ _ H) as Hf.
  destruct (save_crash name_of stochastic s fn Hf W Nd Ne NK) as (sx & r & E & _ & _ & E2). rewrite H in E. injection E as <- <-.
  destruct E2 as [(_ & E2 & _)|(k & E2 & [(_ & -> & _)|(E3 & _)])]; try discriminate. rewrite firstn_all in E2.
  unfold load_user_data. rewrite E2.
  pose proof (file_of_nodup name_of stochastic s (v_model s) Nd NK) as ND.
  assert (Other : forall q, In q (file_of name_of stochastic s (v_model s)) -> (is_user_item (fst q) = true \/ fst q = PUserGroup) ->
    In q (match v_user_data s with Some u => (PUserGroup, VGroup) :: map (fun kv => (PUser (fst kv), VUser (snd kv))) u | None => [] end)).
  { intros q Hq Hk. unfold file_of in Hq. rewrite !in_app_iff in Hq.
    assert (Bad : forall v, In q [v] -> (is_user_item (fst v) = true \/ fst v = PUserGroup -> False) -> False).
    { intros v [<-|[]] X. auto. }
    destruct Hq as [Hq|[Hq|[Hq|[Hq|[Hq|[Hq|[Hq|[Hq|[Hq|Hq]]]]]]]]]; try (exfalso; apply (Bad _ Hq); cbn; intros [X|X]; discriminate).
    - exfalso. apply (in_map fst) in Hq. apply parts_paths in Hq. destruct Hq as (n & _ & [Q|[d Q]]); rewrite Q in Hk; destruct Hk; discriminate.
    - exfalso. destruct (v_callback_output s); [|destruct Hq]. apply (Bad _ Hq). cbn. intros [X|X]; discriminate.
    - exfalso. apply in_flat_map in Hq as (n & _ & Hq). unfold term_part in Hq. destruct (term_of s n); [|destruct Hq].
      apply (Bad _ Hq). cbn. intros [X|X]; discriminate.
    - destruct (v_user_data s); [exact Hq|destruct Hq]. }
  destruct (v_user_data s) as [u|] eqn:Eu.
  - rewrite (flookup_in _ PUserGroup VGroup ND).
    2:{ unfold file_of. rewrite Eu, !in_app_iff. do 9 right. left. now left. }
    destruct u as [|[key v] u].
    + replace (existsb _ _) with false; [reflexivity|]. symmetry. apply not_true_is_false. intros X. apply existsb_exists in X as (q & Hq & X).
      apply Other in Hq; [|now left]. destruct Hq as [<-|[]]. discriminate.
    + replace (existsb _ _) with true; [reflexivity|]. symmetry. apply existsb_exists. exists (PUser key, VUser v). split; [|reflexivity].
      unfold file_of. rewrite Eu, !in_app_iff. do 10 right. now left.
  - rewrite flookup_none; [reflexivity|]. intros X. apply in_map_iff in X as (q & Eq & Hq). now apply Other in Hq; [|right].
Qed.
End Q.

(** ** Examples and a refutation by a concrete run *)

(** After one iteration with two nodes there is one bound and one term for each node. *)
Example ex_terms : exists s s', reached demo_name demo_stoch demo_update demo_contribution s /\
  Engine.update demo_name demo_stoch demo_update demo_contribution [] (Some 1) None 0 s = (s', Ok tt) /\ length (history s') = 1 /\
  exists a b, history s' = [xadd (xadd (Some 0%R) a) b] /\ compute_lowerbound_terms demo_contribution [] s' = (s', Ok [(0, a); (1, b)]).
Proof.
  exists (demo_vb [0; 1] 0 None no_files). eexists. split; [now apply demo_reached|]. split; [run; reflexivity|]. split; [reflexivity|].
  exists (Some (5 - 1)%R), (Some (5 - 1)%R). split; run; reflexivity.
Qed.

(** load of one node replaces the bounds of the whole model, but the terms of that node only. *)
Theorem C66_load_subset_refuted :
  exists s s' T b, reached demo_name demo_stoch demo_update demo_contribution s /\
    Engine.load demo_name demo_stoch demo_mask [KName "X"%string] "f" false s = (s', Ok tt) /\
    get_iteration_by_nodes s' = (s', Ok T) /\ map fst T = v_model s' /\ nth_error (history s') 0 = Some b /\
    ~ exists cs, Forall2 (fun p c => nth_error (snd p) 0 = Some c) T cs.
Proof.
  set (d := fst (Engine.save demo_name demo_stoch [] "f"
    (fst (Engine.update demo_name demo_stoch demo_update demo_contribution [] (Some 1) None 0 (demo_vb [0;1] 0 None no_files))))).
  exists (demo_vb [0;1] 0 None (files (v_disk d))). eexists. eexists. eexists. split; [now apply demo_reached|]. subst d.
  split; [run; reflexivity|]. split; [reflexivity|]. split; [reflexivity|]. split; [reflexivity|].
  intros (cs & F). inversion F as [|p c l cs' E F1]; subst. inversion F1 as [|p c' l cs'' E' F2]; subst. discriminate.
Qed.

(** Two nodes with different names and some user data. *)
Example ex_user : exists s s', reached demo_name demo_stoch demo_update demo_contribution s /\ v_user_data s = Some [("a"%string, [Some 1%R])] /\
  NoDup (map demo_name (v_model s)) /\ Engine.save demo_name demo_stoch [] "f" s = (s', Ok tt).
Proof.
  exists (VB demo_world [0; 1] 0 false false [] [] (map (fun n => (n, [])) [0; 1]) 0 None "a.hdf5" None None
     (1/100)%R false (Some [("a"%string, [Some 1%R])]) (demo_disk None no_files) (fun i => INR i)).
  eexists. split; [|split; [reflexivity|split; [|run; reflexivity]]].
  - exists [0; 1], demo_world, (1/100)%R, "a.hdf5"%string, ""%string, 0%Z, (Some [("a"%string, [Some 1%R])]), None, (demo_disk None no_files), (fun i => INR i).
    eexists. split; [reflexivity|apply u_refl].
  - cbn. repeat constructor; cbn; intuition discriminate.
Qed.

Print Assumptions C66_terms_add_up.
Print Assumptions C66_last_terms.
Print Assumptions C66_terms_now.
Print Assumptions C66_terms_of.
Print Assumptions C66_terms_loaded.
Print Assumptions C66_user_data_saved.
Print Assumptions C66_load_user_data_refuted.
Print Assumptions C66_load_subset_refuted.
