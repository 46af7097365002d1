(** Deletion keeps the invariant. *)
From Coq Require Import List Arith Lia Bool.
From Verif Require Import Base Shapes SpecShapes ShapesLemmas NumPy MiscArray SpecArray Graph SpecGraph
  GraphLemmas GraphLinks GraphInv.
Import ListNotations.

(** A loop of [_remove_child] calls for a stochastic node. *)
Lemma removes_spec : forall n fuel l g, older g -> sound g -> detq g (fun _ => False) ->
  is_det (knd (gnodes g n)) = false -> n <= fuel ->
  NoDup (map fst l) ->
  (forall i q, In (i, q) l -> parent_of g q n i) ->
  (forall i, In i (map fst l) -> linked g (n, i)) ->
  exists g', giter (fun ip => remove_child fuel (snd ip) (n, fst ip)) l g = (g', Ok tt) /\
    static g g' /\ sound g' /\ detq g' (fun _ => False) /\
    (forall i, In i (map fst l) -> ~ linked g' (n, i)) /\
    (forall Y i, is_det (knd (gnodes g Y)) = false -> (Y = n -> ~ In i (map fst l)) ->
       (linked g' (Y, i) <-> linked g (Y, i))) /\
    (forall X, n <= X -> kids (gnodes g' X) = kids (gnodes g X)) /\
    (forall X d, In d (kids (gnodes g' X)) -> In d (kids (gnodes g X))).
Proof.
  intros n fuel. induction l as [|[i q] l IH]; intros g W So Q Dn Hf ND HP HL.
  - exists g. split; [reflexivity|]. split; [apply static_refl|]. split; [exact So|]. split; [exact Q|].
    split; [intros i []|]. split; [intros; tauto|]. auto.
  - cbn [map fst] in *. inversion ND as [|? ? Ni ND']; subst.
    assert (Hq : parent_of g q n i) by (apply HP; now left).
    assert (q < n) by (apply W with (n := n); now apply nth_error_In in Hq).
    destruct (remove_child_spec fuel q (n, i) g (fun _ => False) W) as
        (g1 & E1 & St & So1 & Q1 & N1 & F1 & K1 & B1); auto.
    { lia. } { cbn. congruence. } { intros s []. }
    { apply kids_iff; [assumption|]. cbn [fst snd]. split; [exact Hq|]. apply HL. now left. }
    assert (Dk : forall Y, is_det (knd (gnodes g1 Y)) = is_det (knd (gnodes g Y))).
    { intros Y. destruct (proj2 St Y) as (E & _). now rewrite E. }
    destruct (IH g1) as (g2 & E2 & St2 & So2 & Q2 & N2 & F2 & K2 & B2); auto.
    { now apply (older_static g). }
    { now rewrite Dk. }
    { intros j r Hj. unfold parent_of. destruct (proj2 St n) as (_ & E & _). rewrite E. apply HP. now right. }
    { intros j Hj. apply F1; [| |apply HL; now right].
      - intros E. injection E as ->. contradiction.
      - right. exact Dn. }
    exists g2. cbn [giter]. unfold gseq, gbind. cbn [fst snd]. rewrite E1, E2.
    split; [reflexivity|]. split; [now apply (static_trans g g1)|]. split; [exact So2|]. split; [exact Q2|].
    split.
    { intros j [<-|Hj]; [|now apply N2]. rewrite F2; [exact N1|now rewrite Dk|auto]. }
    split.
    { intros Y j HY Nj. rewrite F2; [|now rewrite Dk|].
      - apply F1; [|now right]. intros E. injection E as -> ->. apply Nj; [reflexivity|now left].
      - intros E Hj. apply (Nj E). now right. }
    split.
    { intros X HX. rewrite K2, K1 by lia. reflexivity. }
    { intros X d Hd. apply B1, B2, Hd. }
Qed.

(** The effect of a successful delete. *)
Lemma delete_ok : forall del g n, inv del g ->
  kids (gnodes g n) = [] ->
  (is_det (knd (gnodes g n)) = false /\ (pars (gnodes g n) = [] \/ ~ In n del) ->
   exists g', delete_node n g = (g', Ok tt) /\ static g g' /\ sound g' /\ detq g' (fun _ => False) /\
     (forall i, ~ linked g' (n, i)) /\
     (forall Y i, is_det (knd (gnodes g Y)) = false -> Y <> n ->
        (linked g' (Y, i) <-> linked g (Y, i))) /\
     (forall X, n <= X -> kids (gnodes g' X) = kids (gnodes g X)) /\
     (forall X d, In d (kids (gnodes g' X)) -> In d (kids (gnodes g X)))) /\
  (pars (gnodes g n) <> [] -> is_det (knd (gnodes g n)) = true \/ In n del ->
   delete_node n g = (g, Err KeyError)).
Proof.
  intros del g n I K. split.
  - intros [Dn HD]. unfold delete_node. cbn [delete]. unfold gseq, gbind.
    destruct (removes_spec n (S n) (enum (pars (gnodes g n))) g) as
        (g1 & E1 & St & So1 & Q1 & N1 & F1 & K1 & B1); auto.
    { apply (inv_older _ _ I). } { apply (inv_sound _ _ I). } { apply (inv_det _ _ I). }
    { apply nodup_enum. }
    { intros i q H. apply in_enum in H. exact H. }
    { intros i Hi. apply in_map_iff in Hi as ([j q] & E & Hi). cbn in E. subst j. apply in_enum in Hi.
      assert (Hl : i < length (pars (gnodes g n))) by (apply nth_error_Some; congruence).
      destruct (knd (gnodes g n)) eqn:Kn; try discriminate.
      - rewrite (inv_const _ _ I n Kn) in Hl. cbn in Hl. lia.
      - apply (inv_stoch _ _ I n i Kn Hl). destruct HD as [HD|HD]; [|exact HD].
        rewrite HD in Hl. cbn in Hl. lia. }
    rewrite E1. rewrite K1 by lia. rewrite K. cbn [kids_loop]. rewrite K1 by lia. rewrite K. cbn.
    exists g1. split; [reflexivity|]. split; [exact St|]. split; [exact So1|]. split; [exact Q1|].
    split.
    { intros i HL. destruct HL as (X & H1 & H2). cbn [fst snd] in *.
      revert H2. rewrite kids_iff by exact So1. cbn [fst snd]. intros [_ H2]. revert H2. apply N1.
      apply in_map_iff. exists (i, X). split; [reflexivity|]. apply in_enum.
      unfold parent_of in H1. destruct (proj2 St n) as (_ & E & _). now rewrite E in H1. }
    split; [intros Y i HY NY; apply F1; [exact HY|congruence]|]. split; assumption.
  - intros NP H. unfold delete_node. cbn [delete]. unfold gseq, gbind.
    destruct (pars (gnodes g n)) as [|q r] eqn:EP; [congruence|].
    unfold enum. cbn [length seq combine giter]. unfold gseq, gbind. cbn [fst snd].
    assert (N : ~ In (n, 0) (kids (gnodes g q))).
    { intros Hin.
      assert (HL : linked g (n, 0)).
      { exists q. split; [|exact Hin]. unfold parent_of. cbn. now rewrite EP. }
      assert (Hlen : 0 < length (pars (gnodes g n))) by (rewrite EP; cbn; lia).
      destruct H as [H|H].
      - apply (inv_det _ _ I n 0 H (fun f => f) Hlen) in HL. congruence.
      - destruct (knd (gnodes g n)) eqn:Kn.
        + rewrite (inv_const _ _ I n Kn) in EP. discriminate.
        + now apply (inv_stoch _ _ I n 0 Kn Hlen) in HL.
        + apply (inv_det _ _ I n 0) in HL; [congruence|now rewrite Kn|tauto|exact Hlen].
        + apply (inv_det _ _ I n 0) in HL; [congruence|now rewrite Kn|tauto|exact Hlen]. }
    cbn [remove_child]. destruct (has (n, 0) (kids (gnodes g q))) eqn:E.
    + apply has_in in E. contradiction.
    + reflexivity.
Qed.

Lemma delete_inv : forall del g n g', inv del g -> exists_node g n ->
  delete_node n g = (g', Ok tt) -> inv (n :: del) g'.
Proof.
  intros del g n g' I [Hn _] E.
  destruct (kids (gnodes g n)) as [|d r] eqn:K.
  2:{ exfalso. destruct (delete_raises (S (gsize g - n)) n g) as (h & e & H).
      - apply (inv_older _ _ I). - apply (inv_sound _ _ I). - congruence.
      - unfold delete_node in E. congruence. }
  destruct (delete_ok del g n I K) as [D1 D2].
  assert (C : pars (gnodes g n) = [] \/ (is_det (knd (gnodes g n)) = false /\ ~ In n del)).
  { destruct (pars (gnodes g n)) as [|q r] eqn:EP; [now left|right].
    destruct (is_det (knd (gnodes g n))) eqn:Dn; [rewrite D2 in E by (congruence || auto); discriminate|].
    split; [reflexivity|]. intros H. rewrite D2 in E by (congruence || auto). discriminate. }
  assert (R : static g g' /\ sound g' /\ detq g' (fun _ => False) /\ (forall i, ~ linked g' (n, i)) /\
     (forall Y i, is_det (knd (gnodes g Y)) = false -> Y <> n ->
        (linked g' (Y, i) <-> linked g (Y, i))) /\
     (forall X, n <= X -> kids (gnodes g' X) = kids (gnodes g X)) /\
     (forall X d, In d (kids (gnodes g' X)) -> In d (kids (gnodes g X)))).
  { destruct (is_det (knd (gnodes g n))) eqn:Dn.
    - destruct C as [C|[C _]]; [|discriminate]. unfold delete_node in E. cbn [delete] in E.
      unfold gseq, gbind in E. rewrite C in E. cbn in E. rewrite K in E. cbn in E. rewrite K in E.
      cbn in E. injection E as <-.
      split; [apply static_refl|]. split; [apply (inv_sound _ _ I)|]. split; [apply (inv_det _ _ I)|].
      split; [|split; [intros; tauto|auto]].
      intros i (X & H & _). unfold parent_of in H. cbn in H. rewrite C in H. destruct i; discriminate.
    - destruct D1 as (h & E' & R).
      { split; [reflexivity|]. destruct C as [C|[_ C]]; auto. }
      rewrite E in E'. injection E' as <-. exact R. }
  destruct R as (St & So & Q & N & F & K' & B).
  assert (Kk : forall X, knd (gnodes g' X) = knd (gnodes g X)) by (intros X; now destruct (proj2 St X)).
  assert (Kp : forall X, pars (gnodes g' X) = pars (gnodes g X)).
  { intros X. now destruct (proj2 St X) as (_ & E' & _). }
  constructor.
  - apply (older_static g); [exact St|apply (inv_older _ _ I)].
  - exact So.
  - exact Q.
  - intros Y i HY Hi. rewrite Kk in HY. rewrite Kp in Hi. destruct (Nat.eq_dec Y n) as [->|NY].
    + split; [|cbn; tauto]. intros H. now apply N in H.
    + rewrite F; [|now rewrite HY|exact NY]. rewrite (inv_stoch _ _ I Y i HY Hi). cbn. intuition.
  - intros x Hx. destruct St as [E1 S]. rewrite E1 in Hx. specialize (S x).
    assert (Bx : gnodes g x = blank) by now apply (inv_blank _ _ I).
    assert (Kx : kids (gnodes g' x) = []).
    { destruct (kids (gnodes g' x)) as [|d l] eqn:EK; [reflexivity|]. exfalso.
      assert (Hd : In d (kids (gnodes g x))) by (apply B; rewrite EK; now left).
      rewrite Bx in Hd. destruct Hd. }
    rewrite Bx in S. destruct S as (S1 & S2 & S3 & S4 & S5 & S6 & S7).
    destruct (gnodes g' x); cbn in *. unfold blank. congruence.
  - intros x Hx. destruct St as [E1 S]. rewrite E1 in Hx. destruct (S x) as (_ & _ & _ & _ & _ & _ & S7).
    rewrite S7. now apply (inv_built _ _ I).
  - intros x Hx. rewrite Kk in Hx. rewrite Kp. now apply (inv_const _ _ I).
  - intros x Hx. rewrite Kk in Hx. rewrite Kp. apply (independent_ext g g'); auto. now apply (inv_indep _ _ I).
  - intros x [<-|Hx]; destruct St as [E1 _]; rewrite E1; [exact Hn|now apply (inv_del _ _ I)].
  - intros m i p Hp. unfold parent_of in Hp. rewrite Kp in Hp.
    destruct (proj2 St m) as (_ & _ & S3 & S4 & _). destruct (proj2 St p) as (_ & _ & _ & S5 & _).
    rewrite S3, S4, S5. now apply (inv_plates _ _ I).
Qed.
