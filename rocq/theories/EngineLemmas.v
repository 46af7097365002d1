(** Lemmas about the engine model. *)
From Coq Require Import String List Arith ZArith Lia Bool Reals Lra.
From Verif Require Import Base NumPy Engine SpecEngine.
Import ListNotations.
Open Scope nat_scope.

Lemma sbind_inv : forall S A B (m : ST S A) (k : A -> ST S B) s s' r,
  sbind m k s = (s', r) ->
  (exists a s1, m s = (s1, Ok a) /\ k a s1 = (s', r)) \/
  (exists e, m s = (s', Err e) /\ r = Err e).
Proof.
  intros S A B m k s s' r H. unfold sbind in H. destruct (m s) as [s1 [a|e]].
  - left. eauto.
  - right. injection H as <- <-. eauto.
Qed.

Ltac sstep H :=
  apply sbind_inv in H;
  let a := fresh "a" in let s1 := fresh "s" in let H1 := fresh "H1" in
  let e := fresh "e" in let Er := fresh "Er" in
  destruct H as [(a & s1 & H1 & H)|(e & H1 & Er)];
  [|try (match type of Er with ?x = _ => is_var x; subst x end)].

Tactic Notation "sstepas" hyp(H) ident(E) :=
  apply sbind_inv in H;
  let a := fresh "a" in let s1 := fresh "s" in let e := fresh "e" in
  let H' := fresh "H'" in
  let Er := fresh "Er" in
  destruct H as [(a & s1 & E & H')|(e & E & Er)];
  [rename H' into H|try (match type of Er with ?x = _ => is_var x; subst x end)].

Lemma set_nth_ok : forall A (l : list A) i x, i < length l ->
  exists l', set_nth l i x = Ok l' /\ length l' = length l /\
    firstn i l' = firstn i l /\ nth_error l' i = Some x /\
    (forall j, j <> i -> nth_error l' j = nth_error l j) /\
    firstn (S i) l' = firstn i l ++ [x].
Proof.
  induction l as [|a r IH]; intros i x Hi; [cbn in Hi; lia|].
  destruct i as [|i].
  - exists (x :: r). cbn. repeat split; auto. intros [|j] Hj; [lia|reflexivity].
  - cbn in Hi. destruct (IH i x) as (l' & H1 & H2 & H3 & H4 & H5 & H6); [lia|].
    exists (a :: l'). cbn [set_nth]. rewrite H1. cbn [bind]. split; [reflexivity|].
    split; [cbn; lia|]. split; [cbn; now f_equal|]. split; [exact H4|]. split.
    + intros [|j] Hj; [reflexivity|]. cbn. apply H5. lia.
    + change (a :: firstn (S i) l' = (a :: firstn i r) ++ [x]). now rewrite H6.
Qed.

Lemma set_nth_err : forall A (l : list A) i x, length l <= i -> set_nth l i x = Err IndexError.
Proof.
  induction l as [|a r IH]; intros i x Hi; [reflexivity|].
  destruct i as [|i]; cbn in Hi; [lia|]. cbn. now rewrite IH by lia.
Qed.

Lemma get_nth_ok : forall A (l : list A) i x, get_nth l i = Ok x <-> nth_error l i = Some x.
Proof. intros A l i x. unfold get_nth. destruct (nth_error l i); split; congruence. Qed.

(** ** Computations that change the disk only *)

Definition same_disk_only (s s' : vb) : Prop := s' = set_disk s (v_disk s').
Definition od {A} (m : ST vb A) : Prop := forall s s' r, m s = (s', r) -> same_disk_only s s'.

Lemma sdo_refl : forall s, same_disk_only s s.
Proof. intros []. reflexivity. Qed.
Lemma sdo_trans : forall a b c, same_disk_only a b -> same_disk_only b c -> same_disk_only a c.
Proof. unfold same_disk_only. intros a b c -> ->. destruct a. reflexivity. Qed.
Lemma sdo_set : forall s d, same_disk_only s (set_disk s d).
Proof. intros [] d. reflexivity. Qed.
#[export] Hint Resolve sdo_refl sdo_set : sdo.

Lemma od_ret : forall A (a : A), od (ret a).
Proof. intros A a s s' r H. injection H as <- <-. auto with sdo. Qed.
Lemma od_raise : forall A e, od (@raise vb A e).
Proof. intros A e s s' r H. injection H as <- <-. auto with sdo. Qed.
Lemma od_lift : forall A (m : res A), od (lift m).
Proof. intros A m s s' r H. injection H as <- <-. auto with sdo. Qed.
Lemma od_gets : forall A (f : vb -> A), od (gets f).
Proof. intros A f s s' r H. injection H as <- <-. auto with sdo. Qed.
Lemma od_bind : forall A B (m : ST vb A) (k : A -> ST vb B),
  od m -> (forall a, od (k a)) -> od (sbind m k).
Proof.
  intros A B m k Hm Hk s s' r H. sstep H.
  - eapply sdo_trans; [eapply Hm; eassumption|eapply Hk; eassumption].
  - eapply Hm; eassumption.
Qed.
Lemma od_sfor : forall A (l : list A) b, (forall a, od (b a)) -> od (sfor l b).
Proof. induction l as [|a r IH]; intros b Hb; cbn; [apply od_ret|]. apply od_bind; auto. Qed.
Lemma od_smap : forall A B (l : list A) (b : A -> ST vb B), (forall a, od (b a)) -> od (smap l b).
Proof.
  induction l as [|a r IH]; intros b Hb; cbn; [apply od_ret|].
  apply od_bind; auto. intros. apply od_bind; auto. intros. apply od_ret.
Qed.
Lemma od_file_op : forall n f, od (file_op n f).
Proof.
  intros n f s s' r H. unfold file_op in H.
  destruct (crash (v_disk s)) as [[|c]|].
  - injection H as <- <-. auto with sdo.
  - destruct (f _); injection H as <- <-; auto with sdo.
  - destruct (f _); injection H as <- <-; auto with sdo.
Qed.
Lemma od_modify_disk : forall f : vb -> disk, od (modify (fun s => set_disk s (f s))).
Proof. intros f s s' r H. injection H as <- <-. auto with sdo. Qed.
Lemma od_h5_create : forall n p v, od (h5_create n p v).
Proof. intros. apply od_file_op. Qed.
Lemma od_open : forall n, od (h5_open_w n).
Proof. intros. apply od_bind; [apply od_file_op|]. intros. apply od_modify_disk. Qed.

Section L.
Variable name_of : nat -> string.
Variable stochastic : nat -> bool.
Variable update_node : nat -> world -> world * res unit.
Variable contribution : nat -> world -> res xr.
Variable update_mask : nat -> world -> world.

Notation save := (save name_of stochastic).
Notation end_iteration_step := (end_iteration_step name_of stochastic contribution).
Notation loglikelihood_lowerbound := (loglikelihood_lowerbound contribution).
Notation update_nodes := (update_nodes name_of stochastic update_node).
Notation update_loop := (update_loop name_of stochastic update_node contribution).
Notation update := (update name_of stochastic update_node contribution).
Notation getitem := (getitem name_of).
Notation sums_to := (sums_to contribution).
Notation updated := (updated stochastic update_node).
Notation iterated := (iterated stochastic update_node contribution).

Lemma od_save_node : forall f n, od (save_node name_of f n).
Proof.
  intros f n. unfold save_node. apply od_bind; [apply od_gets|]. intros st.
  repeat (apply od_bind; [|intros]); try apply od_sfor; intros; apply od_h5_create.
Qed.

Lemma od_save : forall nodes fn, od (save nodes fn).
Proof.
  intros nodes fn. unfold save.
  apply od_bind.
  { destruct nodes; [apply od_gets|]. apply od_bind; [apply od_gets|]. intros. apply od_smap. intros; apply od_lift. }
  intros ns. apply od_bind; [apply od_gets|]. intros auto.
  apply od_bind.
  { destruct (string_dec fn ""); [destruct (string_dec auto "")|]; try apply od_ret; apply od_raise. }
  intros fname. apply od_bind; [apply od_open|]. intros _.
  apply od_bind; [apply od_h5_create|]. intros _.
  apply od_bind.
  { apply od_sfor. intros n. destruct (string_dec _ _); [apply od_raise|].
    destruct (stochastic n); [|apply od_ret]. apply od_bind; [apply od_h5_create|]. intros; apply od_save_node. }
  intros _. apply od_bind; [apply od_gets|]. intros s.
  do 4 (apply od_bind; [apply od_h5_create|]; intros _).
  apply od_bind. { destruct (v_callback_output s); [apply od_h5_create|apply od_ret]. }
  intros _. apply od_bind; [apply od_h5_create|]. intros _.
  apply od_bind. { apply od_sfor. intros n. apply od_bind; [apply od_lift|]. intros; apply od_h5_create. }
  intros _. destruct (v_user_data s); [|apply od_ret].
  apply od_bind; [apply od_h5_create|]. intros. apply od_sfor. intros; apply od_h5_create.
Qed.

(** ** Well-formed engine states *)

Definition wf (s : vb) : Prop :=
  v_iter s <= length (v_L s) /\ length (v_cputime s) = length (v_L s) /\
  map fst (v_l s) = v_model s /\ NoDup (v_model s) /\
  forall p, In p (v_l s) -> length (snd p) = length (v_L s).

(** Fields no iteration changes. *)
Definition same_config (s s' : vb) : Prop :=
  v_model s' = v_model s /\ v_autosave_iterations s' = v_autosave_iterations s /\
  v_autosave_nodes s' = v_autosave_nodes s /\ v_autosave_filename s' = v_autosave_filename s /\
  v_callback s' = v_callback s /\ v_tol s' = v_tol s /\
  v_ignore_bound_checks s' = v_ignore_bound_checks s /\ v_user_data s' = v_user_data s.

Lemma sc_refl : forall s, same_config s s.
Proof. intros s. repeat split. Qed.
Lemma sc_trans : forall a b c, same_config a b -> same_config b c -> same_config a c.
Proof. unfold same_config. intros a b c H1 H2. intuition congruence. Qed.

Lemma unique_from_spec : forall l seen,
  NoDup (unique_from seen l) /\
  forall x, In x (unique_from seen l) <-> In x l /\ ~ In x seen.
Proof.
  induction l as [|a r IH]; intros seen; cbn [unique_from].
  - split; [constructor|]. intros x. cbn. tauto.
  - destruct (existsb (Nat.eqb a) seen) eqn:E.
    + apply existsb_exists in E as [y [Hy E]]. apply Nat.eqb_eq in E as <-.
      destruct (IH seen) as [H1 H2]. split; [assumption|]. intros x. rewrite H2. cbn.
      intuition congruence.
    + assert (Ha : ~ In a seen).
      { intros H. assert (existsb (Nat.eqb a) seen = true); [|congruence].
        apply existsb_exists. exists a. split; [assumption|apply Nat.eqb_refl]. }
      destruct (IH (a :: seen)) as [H1 H2]. split.
      * constructor; [|assumption]. rewrite H2. cbn. tauto.
      * intros x. cbn [In]. rewrite H2. cbn.
        destruct (Nat.eq_dec a x) as [->|Hne]; tauto.
Qed.

Lemma init_wf : forall nodes w tol fn tmp k ud cb d ck s,
  vb_init name_of nodes w tol fn tmp k ud cb d ck = Ok s ->
  wf s /\ v_iter s = 0 /\ v_L s = [] /\ v_model s = unique nodes /\ v_world s = w.
Proof.
  intros nodes w tol fn tmp k ud cb d ck s H. unfold vb_init in H.
  rewrite map_length, Nat.eqb_refl in H. injection H as <-. cbn.
  split; [|auto]. repeat split; cbn; auto.
  - rewrite map_map. cbn. apply map_id.
  - apply unique_from_spec.
  - intros p Hp. apply in_map_iff in Hp as [x [<- _]]. reflexivity.
Qed.

(** Bound terms: only [self.l] changes. *)
Lemma set_term_spec : forall l n i x l' m, set_term l n i x = Ok l' ->
  (forall p, In p l -> length (snd p) = m) ->
  map fst l' = map fst l /\ (forall p, In p l' -> length (snd p) = m).
Proof.
  induction l as [|p r IH]; intros n i x l' m H Hm.
  - injection H as <-. split; [reflexivity|]. intros p [].
  - cbn in H. apply bind_ok in H as [b [Hb H]]. apply bind_ok in H as [bs [Hbs H]].
    injection H as <-. destruct (IH n i x bs m Hbs) as [H1 H2]; [intros; apply Hm; now right|].
    assert (Hb' : fst b = fst p /\ length (snd b) = m).
    { destruct (fst p =? n).
      - apply bind_ok in Hb as [v [Hv Hb]]. injection Hb as <-. cbn. split; [reflexivity|].
        destruct (le_lt_dec (length (snd p)) i) as [Hle|Hlt].
        + rewrite set_nth_err in Hv by assumption. discriminate.
        + destruct (set_nth_ok _ (snd p) i x Hlt) as (l' & E & E' & _). rewrite E in Hv.
          injection Hv as <-. rewrite E'. apply Hm. now left.
      - injection Hb as <-. split; [reflexivity|]. apply Hm. now left. }
    destruct Hb' as [Hb1 Hb2]. split; [cbn; congruence|].
    intros q [<-|Hq]; auto.
Qed.

Lemma loglik_spec : forall s s' r, loglikelihood_lowerbound s = (s', r) ->
  s' = set_l s (v_l s') /\
  (forall m, (forall p, In p (v_l s) -> length (snd p) = m) ->
     map fst (v_l s') = map fst (v_l s) /\ forall p, In p (v_l s') -> length (snd p) = m) /\
  (forall L, r = Ok L -> sums_to (v_world s) (v_model s) L).
Proof.
  intros s0 s' r H. unfold Engine.loglikelihood_lowerbound in H. sstep H.
  2:{ discriminate. }
  injection H1 as <- <-.
  assert (G : forall nodes done L s s' r,
    (fix go (nodes : list nat) (L : xr) : ST vb xr :=
     match nodes with
     | [] => ret L
     | n :: r =>
       sbind (gets (fun s => s)) (fun s =>
       sbind (lift (contribution n (v_world s))) (fun lp =>
       sbind (lift (set_term (v_l s) n (v_iter s) lp)) (fun l' =>
       sbind (modify (fun s => set_l s l')) (fun _ => go r (xadd L lp)))))
     end) nodes L s = (s', r) ->
    sums_to (v_world s) done L ->
    s' = set_l s (v_l s') /\
    (forall m, (forall p, In p (v_l s) -> length (snd p) = m) ->
       map fst (v_l s') = map fst (v_l s) /\ forall p, In p (v_l s') -> length (snd p) = m) /\
    (forall L', r = Ok L' -> sums_to (v_world s) (done ++ nodes) L')).
  { clear H. induction nodes as [|n nodes IH]; intros done L s s1 r1 H Hd.
    - injection H as <- <-. split; [destruct s; reflexivity|]. split; [auto|].
      intros L' E. injection E as <-. now rewrite app_nil_r.
    - sstep H; [|discriminate]. injection H1 as <- <-. sstep H.
      2:{ injection H1 as <- H1. split; [destruct s; reflexivity|]. split; [auto|]. discriminate. }
      injection H1 as <- Hlp. sstep H.
      2:{ injection H1 as <- H1. split; [destruct s; reflexivity|]. split; [auto|]. discriminate. }
      injection H1 as <- Hl. sstep H; [|discriminate]. injection H1 as <- <-.
      apply (IH (done ++ [n])) in H; [|constructor; [exact Hd|exact Hlp]].
      destruct H as (E1 & E2 & E3). split.
      { rewrite E1. destruct s; reflexivity. }
      split.
      + intros m Hm. destruct (set_term_spec _ _ _ _ _ m Hl Hm) as [F1 F2].
        destruct (E2 m) as [F3 F4]; [exact F2|]. split; [|exact F4]. rewrite F3. exact F1.
      + intros L' HL'. apply E3 in HL'. rewrite <- app_assoc in HL'. exact HL'. }
  apply (G (v_model s0) [] (Some 0%R)) in H; [exact H|constructor].
Qed.

(** sums_to determines the sum *)
Lemma sums_to_fun : forall w ns a b, sums_to w ns a -> sums_to w ns b -> a = b.
Proof.
  intros w ns a b H. revert b. induction H as [|ns n L c Hs IH Hc]; intros b Hb.
  - inversion Hb as [|ns n L c H1 H2 E1 E2]; [reflexivity|]. destruct ns; discriminate.
  - inversion Hb as [E1|ns' n' L' c' H1 H2 E1 E2]; [destruct ns; discriminate|].
    apply app_inj_tail in E1 as [-> ->]. rewrite (IH L' H1). congruence.
Qed.

Lemma compute_lowerbound_spec : forall s s' L,
  compute_lowerbound contribution s = (s', Ok L) <-> s' = s /\ sums_to (v_world s) (v_model s) L.
Proof.
  intros s s' L. unfold compute_lowerbound.
  assert (G : forall w nodes done L0 L, sums_to w done L0 ->
    (foldM (fun L n => bind (contribution n w) (fun c => Ok (xadd L c))) L0 nodes = Ok L <->
     sums_to w (done ++ nodes) L)).
  { intros w. induction nodes as [|n nodes IH]; intros done L0 L1 Hd; cbn [foldM].
    - rewrite app_nil_r. split; [intros E; injection E as <-; exact Hd|].
      intros H. f_equal. eapply sums_to_fun; eassumption.
    - destruct (contribution n w) as [c|e] eqn:Ec; cbn [bind].
      + rewrite (IH (done ++ [n])) by (constructor; assumption). now rewrite <- app_assoc.
      + split; [discriminate|]. intros H. exfalso.
        assert (Hin : forall ns a, sums_to w ns a -> forall m, In m ns -> exists c, contribution m w = Ok c).
        { intros ns a Hs. induction Hs as [|ns m' L' c' Hs IHs Hc']; intros m Hm; [destruct Hm|].
          apply in_app_iff in Hm as [Hm|[<-|[]]]; eauto. }
        destruct (Hin _ _ H n) as [c Hc]; [apply in_app_iff; right; now left|]. congruence. }
  specialize (G (v_world s) (v_model s) [] (Some 0%R) L (st_nil _ _)). cbn [app] in G.
  split.
  - intros H. injection H as <- H. split; [reflexivity|]. now apply G.
  - intros [-> H]. f_equal. now apply G.
Qed.

Lemma callback_spec : forall s s' r, call_callback s = (s', r) ->
  s' = set_callback_output (set_world s (v_world s')) (v_callback_output s') /\
  (r = Ok tt -> called (v_callback s) (v_world s) (v_world s')).
Proof.
  intros s s' r H. unfold call_callback in H. sstep H; [|discriminate].
  injection H1 as <- <-. unfold called. destruct (v_callback s) as [f|] eqn:Ecb.
  - destruct (f (v_world s)) as [w [[z|]|e]] eqn:Ef.
    + destruct (append_callback _ z) as [o|e]; injection H as <- <-;
        (split; [destruct s; reflexivity|]); intros Hr; [|discriminate]. cbn. eauto.
    + injection H as <- <-. split; [destruct s; reflexivity|]. intros _. cbn. eauto.
    + injection H as <- <-. split; [destruct s; reflexivity|]. discriminate.
  - injection H as <- <-. split; [destruct s; reflexivity|]. reflexivity.
Qed.

(** [settled] is the test of the code. *)
Lemma settled_test : forall tol L0 L1,
  xltb (xdiv (xsub L1 L0) (xlift2 Rmult (Some (1/2)%R) (xadd (xabs L0) (xabs L1)))) (Some tol) = true
  <-> settled tol L0 L1.
Proof.
  intros tol L0 L1. unfold settled. destruct L0 as [x|], L1 as [y|]; cbn.
  - destruct (Req_EM_T (1 / 2 * (Rabs x + Rabs y)) 0) as [E|E].
    + split; [discriminate|]. intros (x' & y' & Hx & Hy & Hn & _).
      injection Hx as <-. injection Hy as <-. exfalso. apply Hn. lra.
    + unfold xltb. destruct (Rlt_dec ((y - x) / (1 / 2 * (Rabs x + Rabs y))) tol) as [Hl|Hl].
      * split; [|reflexivity]. intros _. exists x, y. repeat split; auto.
        -- intros H. apply E. lra.
        -- replace ((Rabs x + Rabs y) / 2)%R with (1 / 2 * (Rabs x + Rabs y))%R by lra. exact Hl.
      * split; [discriminate|]. intros (x' & y' & Hx & Hy & Hn & Hl').
        injection Hx as <-. injection Hy as <-. exfalso. apply Hl.
        replace (1 / 2 * (Rabs x + Rabs y))%R with ((Rabs x + Rabs y) / 2)%R by lra. exact Hl'.
  - split; [discriminate|]. intros (x' & y' & Hx & Hy & _). discriminate.
  - split; [discriminate|]. intros (x' & y' & Hx & Hy & _). discriminate.
  - split; [discriminate|]. intros (x' & y' & Hx & Hy & _). discriminate.
Qed.

(** Number of file operations [save] performs does not matter; whether it is
    called does. *)
Definition autosave_now (s : vb) : bool :=
  (0 <? v_autosave_iterations s)%Z &&
  (Z.of_nat (v_iter s + 1) mod v_autosave_iterations s =? 0)%Z.
Definition autosave_keys (s : vb) : list key :=
  match v_autosave_nodes s with Some ns => ns | None => [] end.

Lemma firstn_last : forall A (l : list A) n x, nth_error l n = Some x ->
  firstn (S n) l = firstn n l ++ [x].
Proof.
  induction l as [|a r IH]; intros [|n] x H; cbn in H; try discriminate.
  - injection H as ->. reflexivity.
  - cbn. f_equal. now apply IH.
Qed.

Lemma end_step : forall ct tol s s' r, wf s ->
  end_iteration_step ct tol s = (s', r) ->
  wf s' /\ same_config s s' /\
  match r with
  | Ok c =>
    v_iter s' = S (v_iter s) /\ v_annealing_changed s' = false /\ v_converged s' = c /\
    called (v_callback s) (v_world s) (v_world s') /\
    (exists b, history s' = history s ++ [b] /\ sums_to (v_world s') (v_model s) b) /\
    (c = true <-> converges (v_ignore_bound_checks s) (v_annealing_changed s)
                  (match tol with None => v_tol s | Some x => x end) (history s')) /\
    (if autosave_now s
     then exists s1 s2, save (autosave_keys s) (v_autosave_filename s) s1 = (s2, Ok tt) /\
            v_disk s1 = v_disk s /\ v_disk s' = v_disk s2 /\ v_world s1 = v_world s' /\
            v_L s1 = v_L s' /\ v_iter s1 = v_iter s /\
            v_autosave_filename s1 = v_autosave_filename s /\ s' = set_iter (set_annealing_changed s2 false) (v_iter s + 1)
     else v_disk s' = v_disk s)
  | Err e => v_iter s' = v_iter s /\ history s' = history s
  end.
Proof.
  intros ct tol s s' r Hwf H. unfold Engine.end_iteration_step in H.
  sstep H; [|discriminate]. injection H1 as <- <-.
  (* append *)
  assert (Happ : exists s1, (if length (v_L s) <=? v_iter s then append_iterations 100 else ret tt) s
             = (s1, Ok tt) /\ wf s1 /\ same_config s s1 /\ v_iter s < length (v_L s1) /\
             v_iter s1 = v_iter s /\ v_world s1 = v_world s /\ history s1 = history s /\
             v_disk s1 = v_disk s /\ v_annealing_changed s1 = v_annealing_changed s).
  { destruct Hwf as (W1 & W2 & W3 & W4 & W5).
    destruct (length (v_L s) <=? v_iter s) eqn:E.
    - apply Nat.leb_le in E. eexists. split; [reflexivity|]. unfold wf, same_config, history; cbn -[repeat].
      rewrite !app_length, !repeat_length. repeat split; auto; try lia.
      + rewrite map_map. exact W3.
      + intros p Hp. apply in_map_iff in Hp as [q [<- Hq]]. cbn -[repeat]. rewrite app_length, repeat_length.
        rewrite W5 by assumption. reflexivity.
      + rewrite firstn_app. replace (v_iter s - length (v_L s)) with 0 by lia. cbn [firstn].
        now rewrite app_nil_r.
    - apply Nat.leb_gt in E. exists s. split; [reflexivity|]. repeat split; auto. }
  destruct Happ as (s1 & E1 & Hwf1 & Hc1 & Hlt1 & Hit1 & Hw1 & Hh1 & Hd1 & Ha1).
  sstep H; [|rewrite E1 in H1; discriminate]. rewrite E1 in H1. injection H1 as <- _.
  (* callback *)
  sstep H.
  2:{ apply callback_spec in H1 as [E _].
      assert (Hx : wf s' /\ same_config s s' /\ v_iter s' = v_iter s /\ history s' = history s).
      { rewrite E. unfold wf, same_config, history in *. cbn. intuition congruence. }
      tauto. }
  rename s0 into s2. apply callback_spec in H1 as [E2 Hcb].
  assert (P2 : wf s2 /\ same_config s s2 /\ v_iter s2 = v_iter s /\ history s2 = history s /\
               v_iter s < length (v_L s2) /\ v_disk s2 = v_disk s /\
               v_annealing_changed s2 = v_annealing_changed s).
  { rewrite E2. unfold wf, same_config, history in *. cbn. intuition congruence. }
  assert (Hcb' : called (v_callback s) (v_world s) (v_world s2)).
  { rewrite <- Hw1. replace (v_callback s) with (v_callback s1) by (first [apply Hc1 | symmetry; apply Hc1]).
    apply Hcb. repeat match goal with x : unit |- _ => destruct x end; reflexivity. }
  clear E2 Hcb. destruct P2 as (Hwf2 & Hc2 & Hit2 & Hh2 & Hlt2 & Hd2 & Ha2).
  clear s1 E1 Hwf1 Hc1 Hlt1 Hit1 Hw1 Hh1 Hd1 Ha1.
  (* time *)
  sstep H; [|discriminate]. injection H1 as <- <-.
  (* bound *)
  sstep H.
  2:{ apply loglik_spec in H1 as (E & Hl & _).
      destruct (Hl (length (v_L s2))) as [Hl1 Hl2]; [apply Hwf2|].
      assert (Hx : wf s' /\ same_config s s' /\ v_iter s' = v_iter s /\ history s' = history s).
      { rewrite E in *. unfold wf, same_config, history in *. cbn in *. intuition congruence. }
      tauto. }
  rename s0 into s3. match goal with x : xr |- _ => rename x into L end. apply loglik_spec in H1 as (E & Hl & Hs).
  destruct (Hl (length (v_L s2))) as [Hl1 Hl2]; [apply Hwf2|]. specialize (Hs L eq_refl). cbn in Hs.
  assert (P3 : wf s3 /\ same_config s s3 /\ v_iter s3 = v_iter s /\ history s3 = history s /\
               v_iter s < length (v_L s3) /\ v_disk s3 = v_disk s /\
               v_annealing_changed s3 = v_annealing_changed s /\ v_world s3 = v_world s2).
  { rewrite E in *. unfold wf, same_config, history in *. cbn in *. intuition congruence. }
  clear E Hl Hl1 Hl2. destruct P3 as (Hwf3 & Hc3 & Hit3 & Hh3 & Hlt3 & Hd3 & Ha3 & Hw3).
  replace (v_model s2) with (v_model s) in Hs by (first [apply Hc2 | symmetry; apply Hc2]).
  (* time *)
  sstep H; [|discriminate]. injection H1 as <- <-.
  sstep H; [|discriminate]. injection H1 as <- <-. cbn [v_cputime v_iter set_clock] in H.
  (* cputime *)
  destruct (set_nth_ok _ (v_cputime s3) (v_iter s3) (Some (ct + (v_clock s3 0%nat - v_clock s2 0%nat))%R))
    as (cs & Ecs & Hcs & _).
  { destruct Hwf3 as (_ & -> & _). rewrite Hit3. exact Hlt3. }
  sstep H; [|cbn in H1; rewrite Ecs in H1; discriminate]. cbn in H1. rewrite Ecs in H1. injection H1 as <- <-.
  sstep H; [|discriminate]. injection H1 as <- <-. cbn [v_L v_iter set_cputime set_clock] in H.
  destruct (set_nth_ok _ (v_L s3) (v_iter s3) L) as (Ls & ELs & HLs1 & HLs2 & HLs3 & HLs4 & HLs5).
  { rewrite Hit3. exact Hlt3. }
  sstep H; [|cbn in H1; rewrite ELs in H1; discriminate]. cbn in H1. rewrite ELs in H1. injection H1 as <- <-.
  sstep H; [|discriminate]. injection H1 as <- <-.
  sstep H; [|discriminate]. injection H1 as <- <-.
  sstep H; [|discriminate]. injection H1 as <- <-.
  match type of H with sbind ?m _ ?st = _ => set (s4 := st) in * end.
  assert (Hs4 : wf s4 /\ same_config s s4 /\ v_iter s4 = v_iter s /\ v_L s4 = Ls /\
                v_disk s4 = v_disk s /\ v_annealing_changed s4 = v_annealing_changed s /\
                v_world s4 = v_world s2 /\ v_converged s4 = false /\ history s4 = history s).
  { destruct Hwf3 as (W1 & W2 & W3 & W4 & W5).
    split; [|split; [unfold s4, same_config in *; cbn in *; intuition congruence|]].
    - unfold s4, wf; cbn. rewrite HLs1, Hcs. repeat split; auto.
    - unfold s4; cbn. repeat split; auto. unfold history; cbn.
      rewrite HLs2. exact Hh3. }
  assert (Hh4 : firstn (S (v_iter s)) Ls = history s ++ [L]).
  { rewrite <- Hit3, HLs5. fold (history s3). now rewrite Hh3. }
  assert (HnL : nth_error Ls (v_iter s) = Some L) by (rewrite <- Hit3; exact HLs3).
  destruct Hs4 as (Hwf4 & Hc4 & Hit4 & HL4 & Hd4 & Ha4 & Hw4 & Hcv4 & Hh4').
  clearbody s4. clear Hwf3 Hc3 Hit3 Hh3 Hlt3 Hd3 Ha3 Hw3 Ecs Hcs ELs HLs1 HLs2 HLs3 HLs4 HLs5 s3 cs Hwf2 Hc2 Hit2 Hh2 Hlt2 Hd2 Ha2.
  set (tl := match tol with None => v_tol s | Some x => x end).
  assert (Htl : match tol with None => v_tol s4 | Some x => x end = tl).
  { unfold tl. destruct tol; [reflexivity|]. apply Hc4. }
  (* convergence *)
  match type of H with sbind ?m _ _ = _ =>
    assert (Hconv : exists c, m s4 = (set_converged s4 c, Ok tt) /\
      (c = true <-> converges (v_ignore_bound_checks s) (v_annealing_changed s) tl (history s ++ [L])))
  end.
  { assert (Ei : v_ignore_bound_checks s4 = v_ignore_bound_checks s) by apply Hc4.
    rewrite Ei, Ha4, Hit4, Htl.
    assert (Eself : forall b, v_converged s4 = b -> s4 = set_converged s4 b)
      by (intros b <-; destruct s4; reflexivity).
    destruct (v_ignore_bound_checks s) eqn:F1; cbn [negb andb].
    { exists false. split; [rewrite <- Eself by assumption; reflexivity|]. split; [discriminate|]. intros [? _]; discriminate. }
    destruct (v_annealing_changed s) eqn:F2; cbn [negb andb].
    { exists false. split; [rewrite <- Eself by assumption; reflexivity|]. split; [discriminate|]. intros (_ & ? & _); discriminate. }
    destruct (0 <? v_iter s) eqn:F3; cbn [andb].
    2:{ exists false. split; [rewrite <- Eself by assumption; reflexivity|]. split; [discriminate|].
        intros (_ & _ & h0 & x1 & x2 & E & _). apply Nat.ltb_ge in F3.
        assert (Hl : length (history s ++ [L]) = length (h0 ++ [x1;x2])) by now rewrite E.
        rewrite !app_length in Hl. unfold history in Hl. rewrite firstn_length in Hl. cbn in Hl. lia. }
    apply Nat.ltb_lt in F3.
    destruct (nth_error Ls (v_iter s - 1)) as [L0|] eqn:EL0.
    2:{ apply nth_error_None in EL0. assert (v_iter s < length Ls) by (apply nth_error_Some; congruence). lia. }
    assert (Hh0 : history s = firstn (v_iter s - 1) Ls ++ [L0]).
    { rewrite <- Hh4'. unfold history. rewrite Hit4, HL4.
      replace (v_iter s) with (S (v_iter s - 1)) at 1 by lia. now apply firstn_last. }
    unfold sbind at 1. unfold lift at 1. rewrite HL4, (proj2 (get_nth_ok _ _ _ _) EL0).
    unfold sbind at 1. unfold lift at 1. rewrite (proj2 (get_nth_ok _ _ _ _) HnL).
    destruct (xltb _ _) eqn:Ex.
    - exists true. split; [reflexivity|]. split; [intros _|reflexivity].
      apply settled_test in Ex. split; [reflexivity|]. split; [reflexivity|].
      exists (firstn (v_iter s - 1) Ls), L0, L. split; [|exact Ex]. rewrite Hh0, <- app_assoc. reflexivity.
    - exists false. split; [rewrite <- Eself by assumption; reflexivity|]. split; [discriminate|].
      intros (_ & _ & h0 & x1 & x2 & E & Hset). exfalso.
      rewrite Hh0, <- app_assoc in E. cbn in E.
      change [x1; x2] with ([x1] ++ [x2]) in E. change [L0; L] with ([L0] ++ [L]) in E.
      rewrite !app_assoc in E. apply app_inj_tail in E as [E <-]. apply app_inj_tail in E as [_ <-].
      apply settled_test in Hset. congruence. }
  destruct Hconv as (c & Ec & Hc).
  sstep H; [|rewrite Ec in H1; discriminate]. rewrite Ec in H1. injection H1 as <- _.
  (* autosave *)
  set (s5 := set_converged s4 c) in *.
  assert (Eauto : (0 <? v_autosave_iterations s4)%Z && (Z.of_nat (v_iter s4 + 1) mod v_autosave_iterations s4 =? 0)%Z = autosave_now s).
  { unfold autosave_now. replace (v_autosave_iterations s4) with (v_autosave_iterations s) by (first [apply Hc4 | symmetry; apply Hc4]). now rewrite Hit4. }
  rewrite Eauto in H.
  assert (Ekeys : forall st, match v_autosave_nodes s4 with
         | Some ns => save ns (v_autosave_filename s4) | None => save [] (v_autosave_filename s4) end st
         = save (autosave_keys s) (v_autosave_filename s) st).
  { intros st. unfold autosave_keys.
    replace (v_autosave_nodes s4) with (v_autosave_nodes s) by (first [apply Hc4 | symmetry; apply Hc4]).
    replace (v_autosave_filename s4) with (v_autosave_filename s) by (first [apply Hc4 | symmetry; apply Hc4]).
    destruct (v_autosave_nodes s); reflexivity. }
  assert (H5 : wf s5 /\ same_config s s5 /\ v_iter s5 = v_iter s /\ history s5 = history s).
  { unfold s5, wf, same_config, history in *. cbn in *. intuition congruence. }
  assert (Hsave : forall s6, same_disk_only s5 s6 ->
     wf s6 /\ same_config s s6 /\ v_iter s6 = v_iter s /\ history s6 = history s /\
     v_L s6 = Ls /\ v_converged s6 = c /\ v_world s6 = v_world s2).
  { intros s6 E6. rewrite E6. unfold s5, wf, same_config, history in *. cbn in *. intuition congruence. }
  sstep H.
  2:{ assert (Hod : same_disk_only s5 s').
      { destruct (autosave_now s); [|discriminate]. rewrite Ekeys in H1. eapply od_save; eassumption. }
      apply Hsave in Hod. tauto. }
  assert (Hod : same_disk_only s5 s0).
  { destruct (autosave_now s).
    - rewrite Ekeys in H1. eapply od_save; eassumption.
    - injection H1 as <- _. apply sdo_refl. }
  destruct (Hsave _ Hod) as (Hwf6 & Hc6 & Hit6 & Hh6 & HL6 & Hcv6 & Hw6).
  sstep H; [|discriminate]. injection H0 as <- <-.
  sstep H; [|discriminate]. injection H0 as <- <-.
  injection H as <- <-.
  assert (Hhist : history (set_iter (set_annealing_changed s0 false) (v_iter (set_annealing_changed s0 false) + 1)) = history s ++ [L]).
  { unfold history at 1. cbn. rewrite Hit6, HL6. replace (v_iter s + 1) with (S (v_iter s)) by lia. exact Hh4. }
  split; [|split].
  - destruct Hwf6 as (W1 & W2 & W3 & W4 & W5). repeat split; cbn; auto.
    rewrite Hit6, HL6. assert (v_iter s < length Ls) by (apply nth_error_Some; congruence). lia.
  - unfold same_config in *. cbn. intuition congruence.
  - split; [cbn; lia|]. split; [reflexivity|]. split; [cbn; rewrite Hcv6; reflexivity|].
    split; [cbn; rewrite Hw6; exact Hcb'|]. split.
    + exists L. split; [exact Hhist|]. cbn. rewrite Hw6. exact Hs.
    + split.
      * match goal with |- context [history ?x] =>
          replace (history x) with (history s ++ [L]) by (symmetry; exact Hhist) end.
        cbn. rewrite Hcv6. exact Hc.
      * destruct (autosave_now s) eqn:Ean.
        -- rewrite Ekeys in H1. exists s5, s0. repeat match goal with x : unit |- _ => destruct x end. split; [exact H1|].
           unfold s5. cbn. repeat split; auto; try congruence.
           all: try (now apply Hc4).
           all: rewrite <- Hit6; reflexivity.
        -- injection H1 as <- _. cbn. unfold s5. cbn. exact Hd4.
Qed.
End L.
