(** Invariants of the graph layer along histories. *)
From Coq Require Import List Arith Lia Bool.
From Verif Require Import Base Shapes SpecShapes ShapesLemmas NumPy MiscArray SpecArray Graph SpecGraph
  GraphLemmas.
Import ListNotations.

(** ** A loop of [_add_child] calls *)
Lemma add_children_spec : forall n fuel l g, older g -> (forall i q, In (i, q) l -> q < fuel) ->
  exists g', giter (fun ip => add_child fuel (snd ip) (n, fst ip)) l g = (g', Ok tt) /\
    static g g' /\
    forall X d, In d (kids (gnodes g' X)) <->
      In d (kids (gnodes g X)) \/
      exists i q, In (i, q) l /\ ((X = q /\ d = (n, i)) \/ link_up g q X d).
Proof.
  intros n fuel. induction l as [|[i q] l IHl]; intros g W B.
  - exists g. split; [reflexivity|]. split; [apply static_refl|]. intros X d. split; [auto|].
    intros [H|(i & q & [] & _)]; exact H.
  - destruct (add_child_spec fuel q (n, i) g W) as (g3 & E3 & S3 & K3).
    { apply (B i). now left. }
    destruct (IHl g3) as (g4 & E4 & S4 & K4).
    { now apply (older_static g). } { intros j r Hj. apply (B j). now right. }
    exists g4. cbn [giter]. unfold gseq, gbind. cbn [fst snd]. rewrite E3, E4.
    split; [reflexivity|]. split; [now apply (static_trans g g3)|].
    intros X d. rewrite K4, K3. split.
    + intros [[H|H]|(j & r & H1 & H2)].
      * now left.
      * right. exists i, q. split; [now left|]. tauto.
      * right. exists j, r. split; [now right|]. rewrite (link_up_static g g3 r X d S3). exact H2.
    + intros [H|(j & r & [H1|H1] & H2)].
      * now left; left.
      * injection H1 as <- <-. left. right. tauto.
      * right. exists j, r. split; [exact H1|]. now rewrite <- (link_up_static g g3 r X d S3).
Qed.

Lemma up_last : forall g q Y, up g q Y ->
  q = Y \/ exists Z, is_det (knd (gnodes g Z)) = true /\ up g q Z /\ In Y (pars (gnodes g Z)).
Proof.
  intros g q Y H. induction H as [p|p q r Hd Hi Hu IH]; [now left|]. right.
  destruct IH as [->|(Z & H1 & H2 & H3)].
  - exists p. repeat split; auto. apply up_refl.
  - exists Z. repeat split; auto. now apply up_step with q.
Qed.

Lemma up_trans1 : forall g q Z Y, up g q Z -> is_det (knd (gnodes g Z)) = true ->
  In Y (pars (gnodes g Z)) -> up g q Y.
Proof.
  intros g q Z Y H D HY. induction H as [p|p q r Hd Hi Hu IH].
  - apply up_step with Y; auto. apply up_refl.
  - apply up_step with q; auto.
Qed.

Lemma up_le : forall g q Y, older g -> up g q Y -> Y <= q.
Proof.
  intros g q Y W H. induction H as [p|p q r Hd Hi Hu IH]; [lia|]. apply W in Hi. lia.
Qed.

(** ** Removal only removes *)
Definition shrinks (g g' : graph) : Prop :=
  static g g' /\ forall X, exists f, kids (gnodes g' X) = filter f (kids (gnodes g X)).

Lemma filter_filter : forall A (f h : A -> bool) l,
  filter f (filter h l) = filter (fun x => h x && f x) l.
Proof.
  intros A f h. induction l as [|a r IH]; [reflexivity|]. cbn.
  destruct (h a); cbn; [destruct (f a)|]; now rewrite IH.
Qed.
Lemma filter_true : forall A (l : list A), filter (fun _ => true) l = l.
Proof. induction l as [|a r IH]; [reflexivity|]. cbn. now rewrite IH. Qed.

Lemma shrinks_refl : forall g, shrinks g g.
Proof.
  intros g. split; [apply static_refl|]. intros X. exists (fun _ => true). now rewrite filter_true.
Qed.
Lemma shrinks_trans : forall a b c, shrinks a b -> shrinks b c -> shrinks a c.
Proof.
  intros a b c [S1 K1] [S2 K2]. split; [eapply static_trans; eassumption|]. intros X.
  destruct (K1 X) as [f Hf], (K2 X) as [h Hh]. exists (fun x => f x && h x).
  rewrite Hh, Hf. apply filter_filter.
Qed.
Lemma shrinks_in : forall a b X d, shrinks a b -> In d (kids (gnodes b X)) -> In d (kids (gnodes a X)).
Proof.
  intros a b X d [_ K] H. destruct (K X) as [f Hf]. rewrite Hf in H. now apply filter_In in H.
Qed.
Lemma filter_le : forall A (f : A -> bool) l, length (filter f l) <= length l.
Proof. intros A f. induction l as [|a r IH]; cbn; [lia|]. destruct (f a); cbn; lia. Qed.
Lemma filter_lt : forall A (f : A -> bool) l d, In d l -> ~ In d (filter f l) ->
  length (filter f l) < length l.
Proof.
  intros A f. induction l as [|a r IH]; intros d H N; [destruct H|]. cbn in *.
  pose proof (filter_le A f r).
  destruct (f a) eqn:E; cbn in *.
  - destruct H as [->|H]; [exfalso; apply N; now left|]. specialize (IH d H). intuition lia.
  - lia.
Qed.
Lemma shrinks_lt : forall a b X d, shrinks a b -> In d (kids (gnodes a X)) ->
  ~ In d (kids (gnodes b X)) -> length (kids (gnodes b X)) < length (kids (gnodes a X)).
Proof.
  intros a b X d [_ K] H N. destruct (K X) as [f Hf]. rewrite Hf in *. eapply filter_lt; eassumption.
Qed.

Lemma giter_shrinks : forall A (f : A -> G unit) l,
  (forall a g, In a l -> shrinks g (fst (f a g))) -> forall g, shrinks g (fst (giter f l g)).
Proof.
  intros A f. induction l as [|a r IH]; intros H g; cbn; [apply shrinks_refl|].
  unfold gseq, gbind. specialize (H a g (or_introl eq_refl)) as Ha.
  destruct (f a g) as [g1 [u|e]]; cbn in *; [|exact Ha].
  eapply shrinks_trans; [exact Ha|]. apply IH. intros b h Hb. apply H. now right.
Qed.

Lemma remove_child_shrinks : forall fuel n c g, shrinks g (fst (remove_child fuel n c g)).
Proof.
  induction fuel as [|f IH]; intros n c g; cbn [remove_child].
  - apply shrinks_refl.
  - destruct (has c (kids (gnodes g n))); cbn [negb fst]; [|apply shrinks_refl].
    set (g1 := set_node _ _ _).
    assert (S1 : shrinks g g1).
    { split; [apply static_kids|]. intros X. unfold g1. cbn.
      destruct (Nat.eqb_spec X n) as [->|N]; cbn.
      - eexists. reflexivity.
      - exists (fun _ => true). now rewrite filter_true. }
    destruct (_ && _); cbn [fst]; [|exact S1].
    eapply shrinks_trans; [exact S1|]. apply giter_shrinks. intros a h _. apply IH.
Qed.

Lemma giter_frame : forall A (f : A -> G unit) l X,
  (forall a g, older g -> In a l -> static g (fst (f a g)) /\ kids (gnodes (fst (f a g)) X) = kids (gnodes g X)) ->
  forall g, older g -> static g (fst (giter f l g)) /\
    kids (gnodes (fst (giter f l g)) X) = kids (gnodes g X).
Proof.
  intros A f. induction l as [|a r IH]; intros X H g W; cbn; [split; [apply static_refl|reflexivity]|].
  unfold gseq, gbind. specialize (H a g W (or_introl eq_refl)) as Ha.
  destruct (f a g) as [g1 [u|e]]; cbn in *; [|exact Ha]. destruct Ha as [Ha1 Ha2].
  destruct (IH X) with (g := g1) as [I1 I2].
  - intros b h Wh Hb. apply H; [exact Wh|now right].
  - now apply (older_static g).
  - split; [now apply (static_trans g g1)|now rewrite I2].
Qed.

Lemma remove_child_frame : forall fuel n c g X, older g -> n < X ->
  static g (fst (remove_child fuel n c g)) /\
  kids (gnodes (fst (remove_child fuel n c g)) X) = kids (gnodes g X).
Proof.
  induction fuel as [|f IH]; intros n c g X W HX; cbn [remove_child].
  - split; [apply static_refl|reflexivity].
  - destruct (has c (kids (gnodes g n))); cbn [negb fst]; [|split; [apply static_refl|reflexivity]].
    set (g1 := set_node _ _ _).
    assert (S1 : static g g1) by apply static_kids.
    assert (K1 : kids (gnodes g1 X) = kids (gnodes g X)).
    { unfold g1. cbn. destruct (Nat.eqb_spec X n); [lia|reflexivity]. }
    destruct (_ && _); cbn [fst]; [|now split].
    assert (W1 : older g1) by now apply (older_static g).
    destruct (giter_frame _ (fun ip => remove_child f (snd ip) (n, fst ip))
                (enum (pars (gnodes g n))) X) with (g := g1) as [I1 I2]; auto.
    + intros [i q] h Wh Hi. apply in_enum in Hi. apply nth_error_In in Hi. apply W in Hi.
      cbn. apply IH; [exact Wh|]. lia.
    + split; [now apply (static_trans g g1)|now rewrite I2].
Qed.

Lemma remove_child_gone : forall fuel n c g g', remove_child fuel n c g = (g', Ok tt) ->
  ~ In c (kids (gnodes g' n)) /\ In c (kids (gnodes g n)).
Proof.
  intros [|f] n c g g' H; cbn [remove_child] in H; [discriminate|].
  destruct (has c (kids (gnodes g n))) eqn:E; cbn [negb] in H; [|discriminate].
  split; [|now apply has_in]. set (g1 := set_node _ _ _) in H.
  assert (N : ~ In c (kids (gnodes g1 n))).
  { unfold g1. cbn. rewrite Nat.eqb_refl. cbn. rewrite filter_out. tauto. }
  intros Hc. apply N. destruct (_ && _) in H.
  - assert (S : shrinks g1 g').
    { replace g' with (fst (g', Ok tt)) by reflexivity. rewrite <- H. apply giter_shrinks.
      intros a h _. apply remove_child_shrinks. }
    now apply (shrinks_in g1 g' n c S).
  - injection H as <-. exact Hc.
Qed.

Lemma removes_gone : forall fuel n l g g',
  giter (fun ip => remove_child fuel (snd ip) (n, fst ip)) l g = (g', Ok tt) ->
  forall i q, In (i, q) l -> ~ In (n, i) (kids (gnodes g' q)) /\ In (n, i) (kids (gnodes g q)).
Proof.
  intros fuel n. induction l as [|[j r] l IH]; intros g g' H i q Hi; [destruct Hi|].
  cbn [giter] in H. unfold gseq, gbind in H. cbn [fst snd] in H.
  destruct (remove_child fuel r (n, j) g) as [g1 [[]|e]] eqn:E; [|discriminate].
  destruct Hi as [Hi|Hi].
  - injection Hi as <- <-. apply remove_child_gone in E as [E1 E2]. split; [|exact E2].
    intros Hc. apply E1. eapply shrinks_in; [|exact Hc].
    replace g' with (fst (g', Ok tt)) by reflexivity. rewrite <- H. apply giter_shrinks.
    intros a h _. apply remove_child_shrinks.
  - destruct (IH g1 g' H i q Hi) as [H1 H2]. split; [exact H1|]. eapply shrinks_in; [|exact H2].
    replace g1 with (fst (g1, Ok tt)) by reflexivity. rewrite <- E. apply remove_child_shrinks.
Qed.

Lemma kids_loop_shrinks : forall body n s l, (forall k g, shrinks g (fst (body k g))) ->
  forall g, shrinks g (fst (kids_loop body n s l g)).
Proof.
  intros body n s. induction l as [|c r IH]; intros H g; cbn [kids_loop];
    destruct (negb _); cbn [fst]; try apply shrinks_refl.
  unfold gseq, gbind. specialize (H (fst c) g) as Hc.
  destruct (body (fst c) g) as [g1 [[]|e]]; cbn in *; [|exact Hc].
  eapply shrinks_trans; [exact Hc|]. now apply IH.
Qed.

Lemma delete_shrinks : forall fuel n g, shrinks g (fst (delete fuel n g)).
Proof.
  induction fuel as [|f IH]; intros n g; cbn [delete]; [apply shrinks_refl|].
  unfold gseq, gbind.
  set (r := giter _ _ g).
  assert (S1 : shrinks g (fst r)).
  { apply giter_shrinks. intros a h _. apply remove_child_shrinks. }
  destruct r as [g1 [[]|e]]; cbn in *; [|exact S1].
  eapply shrinks_trans; [exact S1|]. apply kids_loop_shrinks. exact IH.
Qed.

(** After a successful delete, no parent has the node among its children. *)
Lemma delete_gone : forall fuel n g g', delete fuel n g = (g', Ok tt) ->
  forall X i, parent_of g X n i -> ~ In (n, i) (kids (gnodes g' X)).
Proof.
  intros [|f] n g g' H X i P; cbn [delete] in H; [discriminate|].
  unfold gseq, gbind in H.
  destruct (giter _ _ g) as [g1 [[]|e]] eqn:E; [|discriminate].
  pose proof (removes_gone _ _ _ _ _ E i X) as R.
  destruct R as [R _]; [now apply in_enum|].
  intros Hc. apply R. eapply shrinks_in; [|exact Hc].
  replace g' with (fst (g', Ok tt)) by reflexivity. rewrite <- H. apply kids_loop_shrinks.
  apply delete_shrinks.
Qed.

(** Deleting a node that has children always raises. *)
Lemma delete_raises : forall fuel n g, older g -> sound g -> kids (gnodes g n) <> [] ->
  exists g' e, delete fuel n g = (g', Err e).
Proof.
  intros [|f] n g W So K; cbn [delete].
  - unfold graise. eauto.
  - unfold gseq, gbind.
    set (F := fun ip : nat * nat => remove_child (S n) (snd ip) (n, fst ip)).
    assert (P : static g (fst (giter F (enum (pars (gnodes g n))) g)) /\
      kids (gnodes (fst (giter F (enum (pars (gnodes g n))) g)) n) = kids (gnodes g n)).
    { apply giter_frame; [|exact W]. intros [i q] h Wh Hi. unfold F. cbn [fst snd].
      apply in_enum in Hi. apply nth_error_In in Hi. apply W in Hi.
      now apply remove_child_frame. }
    assert (Sh : shrinks g (fst (giter F (enum (pars (gnodes g n))) g))).
    { apply giter_shrinks. intros a h _. apply remove_child_shrinks. }
    destruct (giter F _ g) as [g1 [[]|e]]; [|eauto]. cbn [fst] in *.
    destruct P as [P1 P2]. rewrite P2.
    destruct (kids (gnodes g n)) as [|[c i] r] eqn:EK; [congruence|].
    cbn [kids_loop]. rewrite P2. rewrite Nat.eqb_refl. cbn [negb].
    unfold gseq, gbind. cbn [fst].
    destruct (delete f c g1) as [g2 [[]|e]] eqn:E; [|eauto].
    assert (Hlt : length (kids (gnodes g2 n)) < length (kids (gnodes g1 n))).
    { apply (shrinks_lt g1 g2 n (c, i)).
      - replace g2 with (fst (g2, Ok tt)) by reflexivity. rewrite <- E. apply delete_shrinks.
      - rewrite P2. now left.
      - apply (delete_gone _ _ _ _ E). unfold parent_of.
        destruct (proj2 P1 c) as (_ & E1 & _). rewrite E1.
        apply (So n (c, i)). rewrite EK. now left. }
    rewrite P2 in Hlt.
    destruct r as [|d r]; cbn [kids_loop];
      rewrite (proj2 (Nat.eqb_neq _ _)) by (cbn [length] in *; lia); cbn [negb]; eauto.
Qed.
