(** Lemmas about the graph layer: links. *)
From Coq Require Import List Arith Lia Bool.
From Verif Require Import Base Shapes SpecShapes NumPy MiscArray SpecArray Graph SpecGraph.
Import ListNotations.

Lemma in_enum : forall A (l : list A) i x, In (i, x) (enum l) <-> nth_error l i = Some x.
Proof.
  intros A l. unfold enum.
  enough (G : forall k i x, In (i, x) (combine (seq k (length l)) l) <->
                            k <= i /\ nth_error l (i - k) = Some x).
  { intros i x. rewrite (G 0). rewrite Nat.sub_0_r. intuition lia. }
  induction l as [|a r IH]; intros k i x; cbn [length seq combine In].
  - split; [tauto|]. intros [_ H]. destruct (i - k); discriminate.
  - rewrite IH. split.
    + intros [E|[H1 H2]].
      * injection E as -> ->. split; [lia|]. rewrite Nat.sub_diag. reflexivity.
      * split; [lia|]. replace (i - k) with (S (i - S k)) by lia. exact H2.
    + intros [H1 H2]. destruct (Nat.eq_dec i k) as [->|N].
      * left. rewrite Nat.sub_diag in H2. cbn in H2. congruence.
      * right. split; [lia|]. replace (i - k) with (S (i - S k)) in H2 by lia. exact H2.
Qed.

Lemma nodup_enum : forall A (l : list A), NoDup (map fst (enum l)).
Proof.
  intros A l. unfold enum.
  assert (E : forall k, map fst (combine (seq k (length l)) l) = seq k (length l)).
  { induction l as [|a r IH]; intros k; cbn; [reflexivity|]. now rewrite IH. }
  rewrite E. apply seq_NoDup.
Qed.

Lemma pair_eqb_eq : forall a b, pair_eqb a b = true <-> a = b.
Proof.
  intros [a b] [c d]. unfold pair_eqb. cbn. rewrite andb_true_iff, !Nat.eqb_eq.
  split; [intros [-> ->]; reflexivity|intros E; injection E; auto].
Qed.

Lemma has_in : forall c l, has c l = true <-> In c l.
Proof.
  intros c l. unfold has. rewrite existsb_exists. split.
  - intros [x [H E]]. apply pair_eqb_eq in E. now subst.
  - intros H. exists c. split; [exact H|]. now apply pair_eqb_eq.
Qed.

(** Everything but the children is the same. *)
Definition static (g g' : graph) : Prop :=
  gsize g' = gsize g /\
  forall k, knd (gnodes g' k) = knd (gnodes g k) /\ pars (gnodes g' k) = pars (gnodes g k) /\
            cls (gnodes g' k) = cls (gnodes g k) /\ pls (gnodes g' k) = pls (gnodes g k) /\
            obs (gnodes g' k) = obs (gnodes g k) /\ msk (gnodes g' k) = msk (gnodes g k) /\
            built (gnodes g' k) = built (gnodes g k).

Lemma static_refl : forall g, static g g.
Proof. intros g. split; [reflexivity|]. intros k. tauto. Qed.
Lemma static_trans : forall a b c, static a b -> static b c -> static a c.
Proof.
  intros a b c [H1 H2] [H3 H4]. split; [congruence|]. intros k.
  specialize (H2 k). specialize (H4 k). intuition congruence.
Qed.

Lemma static_kids : forall g n l, static g (set_node g n (with_kids (gnodes g n) l)).
Proof.
  intros g n l. split; [reflexivity|]. intros k. cbn. destruct (Nat.eqb_spec k n) as [->|]; cbn; tauto.
Qed.

(** Parents are older. *)
Definition older (g : graph) : Prop := forall n q, In q (pars (gnodes g n)) -> q < n.
Lemma older_static : forall g g', static g g' -> older g -> older g'.
Proof.
  intros g g' [_ S] H n q Hq. destruct (S n) as (_ & E & _). rewrite E in Hq. now apply H.
Qed.

(** [q] is [p] or reached from [p] upwards through deterministic nodes. *)
Inductive up (g : graph) : nat -> nat -> Prop :=
| up_refl : forall p, up g p p
| up_step : forall p q r, is_det (knd (gnodes g p)) = true -> In q (pars (gnodes g p)) ->
    up g q r -> up g p r.

Lemma up_static : forall g g' p q, static g g' -> up g p q -> up g' p q.
Proof.
  intros g g' p q S H. induction H as [p|p q r Hd Hi Hu IH].
  - apply up_refl.
  - destruct S as [_ S]. destruct (S p) as (E1 & E2 & _).
    apply up_step with q; [now rewrite E1|now rewrite E2|exact IH].
Qed.
Lemma static_sym : forall g g', static g g' -> static g' g.
Proof.
  intros g g' [H1 H2]. split; [congruence|]. intros k. specialize (H2 k). intuition congruence.
Qed.

Definition link_up (g : graph) (p : nat) (X : nat) (d : nat * nat) : Prop :=
  is_det (knd (gnodes g (fst d))) = true /\ up g p (fst d) /\ parent_of g X (fst d) (snd d).

Lemma link_up_static : forall g g' p X d, static g g' -> (link_up g p X d <-> link_up g' p X d).
Proof.
  intros g g' p X d S. unfold link_up, parent_of.
  pose proof (proj2 S (fst d)) as (E1 & E2 & _). rewrite E1, E2.
  split; intros (H1 & H2 & H3); repeat split; auto; eapply up_static; try eassumption.
  now apply static_sym.
Qed.

Lemma add_child_spec : forall fuel n c g, older g -> n < fuel ->
  exists g', add_child fuel n c g = (g', Ok tt) /\ static g g' /\
    forall X d, In d (kids (gnodes g' X)) <->
      In d (kids (gnodes g X)) \/ (X = n /\ d = c) \/ link_up g n X d.
Proof.
  induction fuel as [|f IH]; intros n c g W Hn; [lia|]. cbn [add_child].
  set (g1 := if has c (kids (gnodes g n)) then g
             else set_node g n (with_kids (gnodes g n) (kids (gnodes g n) ++ [c]))).
  assert (S1 : static g g1).
  { unfold g1. destruct (has c (kids (gnodes g n))); [apply static_refl|apply static_kids]. }
  assert (K1 : forall X d, In d (kids (gnodes g1 X)) <->
                           In d (kids (gnodes g X)) \/ (X = n /\ d = c)).
  { intros X d. unfold g1. destruct (has c (kids (gnodes g n))) eqn:E.
    - apply has_in in E. split; [auto|]. intros [H|[-> ->]]; auto.
    - cbn. destruct (Nat.eqb_spec X n) as [->|N]; cbn.
      + rewrite in_app_iff. cbn. intuition.
      + intuition. }
  destruct (is_det (knd (gnodes g n))) eqn:D.
  - assert (Q : forall l g2, static g g2 -> (forall i q, In (i, q) l -> q < f) ->
      exists g', giter (fun ip => add_child f (snd ip) (n, fst ip)) l g2 = (g', Ok tt) /\
        static g g' /\
        forall X d, In d (kids (gnodes g' X)) <->
          In d (kids (gnodes g2 X)) \/
          exists i q, In (i, q) l /\ ((X = q /\ d = (n, i)) \/ link_up g q X d)).
    { induction l as [|[i q] l IHl]; intros g2 S2 B.
      - exists g2. split; [reflexivity|]. split; [exact S2|]. intros X d. split; [auto|].
        intros [H|(i & q & [] & _)]; exact H.
      - destruct (IH q (n, i) g2) as (g3 & E3 & S3 & K3).
        { now apply (older_static g). } { apply (B i). now left. }
        destruct (IHl g3) as (g4 & E4 & S4 & K4).
        { now apply (static_trans g g2). } { intros j r Hj. apply (B j). now right. }
        exists g4. cbn [giter]. unfold gseq, gbind. cbn [fst snd]. rewrite E3, E4.
        split; [reflexivity|]. split; [exact S4|].
        intros X d. rewrite K4, K3. rewrite <- (link_up_static g g2 q X d S2). split.
        + intros [[H|H]|(j & r & H1 & H2)].
          * now left.
          * right. exists i, q. split; [now left|]. tauto.
          * right. exists j, r. split; [now right|]. exact H2.
        + intros [H|(j & r & [H1|H1] & H2)].
          * now left; left.
          * injection H1 as <- <-. left. right. tauto.
          * right. now exists j, r. }
    destruct (Q (enum (pars (gnodes g n))) g1 S1) as (g2 & E2 & S2 & K2).
    { intros i q H. apply in_enum in H. apply nth_error_In in H. apply W in H. lia. }
    exists g2. split; [exact E2|]. split; [exact S2|].
    intros X d. rewrite K2, K1. split.
    + intros [[H|H]|(i & q & H1 & [[-> ->]|H2])].
      * now left. * now right; left.
      * right. right. apply in_enum in H1. split; [exact D|]. split; [apply up_refl|exact H1].
      * right. right. apply in_enum in H1. destruct H2 as (H2 & H3 & H4).
        split; [exact H2|]. split; [|exact H4]. apply up_step with q; auto.
        now apply nth_error_In in H1.
    + intros [H|[H|(H1 & H2 & H3)]].
      * now left; left. * now left; right.
      * right. inversion H2 as [p|p q r Hp Hq Hu]; subst.
        -- exists (snd d), X. rewrite in_enum. split; [exact H3|]. left. split; [reflexivity|].
           now destruct d.
        -- apply In_nth_error in Hq as [i Hi]. exists i, q. rewrite in_enum. split; [exact Hi|].
           right. now repeat split.
  - exists g1. split; [reflexivity|]. split; [exact S1|]. intros X d. rewrite K1. split; [tauto|].
    intros [H|[H|(H1 & H2 & H3)]]; auto. exfalso.
    inversion H2 as [p|p q r Hp Hq Hu]; subst; congruence.
Qed.

Definition linked (g : graph) (d : nat * nat) : Prop :=
  exists X, parent_of g X (fst d) (snd d) /\ In d (kids (gnodes g X)).
Definition sound (g : graph) : Prop :=
  forall X d, In d (kids (gnodes g X)) -> parent_of g X (fst d) (snd d).
Definition detq (g : graph) (S : nat -> Prop) : Prop :=
  forall Y i, is_det (knd (gnodes g Y)) = true -> ~ S Y -> i < length (pars (gnodes g Y)) ->
    (linked g (Y, i) <-> kids (gnodes g Y) <> []).

Lemma kids_iff : forall g X d, sound g ->
  (In d (kids (gnodes g X)) <-> parent_of g X (fst d) (snd d) /\ linked g d).
Proof.
  intros g X d S. split.
  - intros H. split; [now apply S|]. exists X. split; [now apply S|exact H].
  - intros [H1 (X' & H2 & H3)]. unfold parent_of in *. congruence.
Qed.

Lemma filter_out : forall c l d,
  In d (filter (fun d => negb (pair_eqb c d)) l) <-> In d l /\ d <> c.
Proof.
  intros c l d. rewrite filter_In. rewrite negb_true_iff. split.
  - intros [H E]. split; [exact H|]. intros ->.
    assert (pair_eqb c c = true) by now apply pair_eqb_eq. congruence.
  - intros [H N]. split; [exact H|]. destruct (pair_eqb c d) eqn:E; [|reflexivity].
    apply pair_eqb_eq in E. congruence.
Qed.

(** The state after removing [c] from the children of [n]. *)
Lemma drop_kid : forall g n c l, sound g -> In c (kids (gnodes g n)) ->
  (forall d, In d l <-> In d (kids (gnodes g n)) /\ d <> c) ->
  let g1 := set_node g n (with_kids (gnodes g n) l) in
  static g g1 /\ sound g1 /\ ~ linked g1 c /\
  (forall d, d <> c -> (linked g1 d <-> linked g d)) /\
  (forall X, X <> n -> kids (gnodes g1 X) = kids (gnodes g X)) /\
  kids (gnodes g1 n) = l.
Proof.
  intros g n c l S Hc L g1.
  assert (St : static g g1) by apply static_kids.
  assert (K : forall X d, In d (kids (gnodes g1 X)) <-> In d (kids (gnodes g X)) /\ (X = n -> d <> c)).
  { intros X d. unfold g1. cbn. destruct (Nat.eqb_spec X n) as [->|N]; cbn.
    - rewrite L. intuition.
    - intuition. }
  assert (P : forall X Y i, parent_of g1 X Y i <-> parent_of g X Y i).
  { intros X Y i. unfold parent_of. destruct (proj2 St Y) as (_ & E & _). now rewrite E. }
  split; [exact St|]. split.
  { intros X d Hd. apply P. apply S. now apply K in Hd. }
  split.
  { intros (X & H1 & H2). apply K in H2 as [H2 H3]. apply P in H1. apply S in Hc.
    unfold parent_of in *. rewrite Hc in H1. injection H1 as ->. now apply H3. }
  split.
  { intros d N. unfold linked. split; intros (X & H1 & H2); exists X; rewrite P in *; rewrite K in *; tauto. }
  split.
  { intros X N. unfold g1. cbn. destruct (Nat.eqb_spec X n); [contradiction|reflexivity]. }
  unfold g1. cbn. now rewrite Nat.eqb_refl.
Qed.

Lemma sound_older : forall g X d, sound g -> older g -> In d (kids (gnodes g X)) -> X < fst d.
Proof.
  intros g X d S W H. apply S in H. unfold parent_of in H. apply nth_error_In in H. now apply W in H.
Qed.

Lemma remove_child_spec : forall fuel n c g S, older g -> n < fuel -> sound g -> detq g S ->
  (is_det (knd (gnodes g (fst c))) = true -> S (fst c)) ->
  (forall s, S s -> n < s) -> In c (kids (gnodes g n)) ->
  exists g', remove_child fuel n c g = (g', Ok tt) /\ static g g' /\ sound g' /\ detq g' S /\
    ~ linked g' c /\
    (forall d, d <> c -> n < fst d \/ is_det (knd (gnodes g (fst d))) = false ->
       (linked g' d <-> linked g d)) /\
    (forall X, n < X -> kids (gnodes g' X) = kids (gnodes g X)) /\
    (forall X d, In d (kids (gnodes g' X)) -> In d (kids (gnodes g X))).
Proof.
  induction fuel as [|f IH]; intros n c g S W Hn So Q HS HSn Hc; [lia|].
  cbn [remove_child]. rewrite (proj2 (has_in c _) Hc). cbn [negb].
  set (l := filter (fun d => negb (pair_eqb c d)) (kids (gnodes g n))).
  assert (Hl : forall d, In d l <-> In d (kids (gnodes g n)) /\ d <> c) by (intros d; apply filter_out).
  destruct (drop_kid g n c l So Hc Hl) as (St & So1 & Nc & L1 & K1 & Kn).
  set (g1 := set_node g n (with_kids (gnodes g n) l)) in *.
  assert (Hcn : n < fst c) by exact (sound_older g n c So W Hc).
  assert (Sub1 : forall X d, In d (kids (gnodes g1 X)) -> In d (kids (gnodes g X))).
  { intros X d. destruct (Nat.eq_dec X n) as [->|N].
    - rewrite Kn. rewrite Hl. tauto.
    - now rewrite K1. }
  assert (W1 : older g1) by now apply (older_static g).
  assert (DY : forall Y, is_det (knd (gnodes g1 Y)) = is_det (knd (gnodes g Y))).
  { intros Y. destruct (proj2 St Y) as (E & _). now rewrite E. }
  assert (PY : forall Y, pars (gnodes g1 Y) = pars (gnodes g Y)).
  { intros Y. now destruct (proj2 St Y) as (_ & E & _). }
  destruct (is_det (knd (gnodes g n))) eqn:D.
  - destruct (Nat.eqb_spec (length l) 0) as [E0|E0]; cbn [andb].
    + apply length_zero_iff_nil in E0. rewrite E0 in Kn.
      set (S' := fun x => S x \/ x = n).
      assert (Q1 : detq g1 S').
      { intros Y i HY NY Hi. rewrite DY in HY. rewrite PY in Hi.
        assert (Y <> n) by (intros ->; apply NY; now right).
        rewrite K1 by assumption. rewrite L1.
        - apply Q; auto. intros HSY. apply NY. now left.
        - intros <-. apply NY. left. now apply HS. }
      assert (Ln : forall i, i < length (pars (gnodes g n)) -> linked g1 (n, i)).
      { intros i Hi. apply L1.
        - intros E. rewrite <- E in Hcn. cbn in Hcn. lia.
        - apply Q; auto.
          + intros HSY. apply HSn in HSY. lia.
          + intros E. rewrite E in Hc. destruct Hc. }
      assert (Loop : forall l2 g2, static g g2 -> sound g2 -> detq g2 S' ->
        NoDup (map fst l2) ->
        (forall i q, In (i, q) l2 -> nth_error (pars (gnodes g n)) i = Some q) ->
        (forall i, In i (map fst l2) -> linked g2 (n, i)) ->
        (forall i, i < length (pars (gnodes g n)) -> ~ In i (map fst l2) -> ~ linked g2 (n, i)) ->
        kids (gnodes g2 n) = [] ->
        exists g', giter (fun ip => remove_child f (snd ip) (n, fst ip)) l2 g2 = (g', Ok tt) /\
          static g g' /\ sound g' /\ detq g' S' /\
          (forall i, i < length (pars (gnodes g n)) -> ~ linked g' (n, i)) /\
          kids (gnodes g' n) = [] /\
          (forall d, n < fst d \/ is_det (knd (gnodes g (fst d))) = false ->
             (linked g' d <-> linked g2 d)) /\
          (forall X, n < X -> kids (gnodes g' X) = kids (gnodes g2 X)) /\
          (forall X d, In d (kids (gnodes g' X)) -> In d (kids (gnodes g2 X)))).
      { induction l2 as [|[i q] l2 IHl]; intros g2 St2 So2 Q2 ND HP HL HN HK.
        - exists g2. split; [reflexivity|]. do 3 (split; [assumption|]).
          split; [intros i Hi; apply HN; auto|]. split; [assumption|].
          split; [intros; tauto|]. split; [reflexivity|auto].
        - cbn [map fst] in *. inversion ND as [|? ? Ni ND']; subst.
          assert (Hq : nth_error (pars (gnodes g n)) i = Some q) by (apply HP; now left).
          assert (q < n) by (apply W with (n := n); now apply nth_error_In in Hq).
          assert (D2 : forall Y, is_det (knd (gnodes g2 Y)) = is_det (knd (gnodes g Y))).
          { intros Y. destruct (proj2 St2 Y) as (E & _). now rewrite E. }
          destruct (IH q (n, i) g2 S') as (g3 & E3 & St3 & So3 & Q3 & N3 & F3 & K3 & B3); auto.
          { now apply (older_static g). } { lia. }
          { intros _. now right. }
          { intros s [Hs| ->]; [apply HSn in Hs; lia|assumption]. }
          { apply kids_iff; [assumption|]. cbn [fst snd]. split; [|apply HL; now left].
            unfold parent_of. destruct (proj2 St2 n) as (_ & E & _). now rewrite E. }
          destruct (IHl g3) as (g4 & E4 & St4 & So4 & Q4 & N4 & Kn4 & F4 & K4 & B4); auto.
          { now apply (static_trans g g2). }
          { intros j r Hj. apply HP. now right. }
          { intros j Hj. apply F3; [| |apply HL; now right].
            - intros E. injection E as ->. contradiction.
            - left. cbn. lia. }
          { intros j Hj Nj. destruct (Nat.eq_dec j i) as [->|Nji]; [exact N3|].
            rewrite F3; [|congruence|left; cbn; lia]. apply HN; [exact Hj|].
            intros [<-|Hj2]; [congruence|contradiction]. }
          { rewrite K3 by assumption. exact HK. }
          exists g4. cbn [giter]. unfold gseq, gbind. cbn [fst snd]. rewrite E3, E4.
          split; [reflexivity|]. split; [exact St4|]. split; [exact So4|]. split; [exact Q4|].
          split; [exact N4|]. split; [exact Kn4|]. split; [|split].
          + intros d Hd. rewrite F4 by exact Hd. apply F3.
            * intros ->. cbn in Hd. destruct Hd as [Hd|Hd]; [lia|congruence].
            * rewrite D2. destruct Hd; [left; lia|now right].
          + intros X HX. rewrite K4, K3 by lia. reflexivity.
          + intros X d Hd. apply B3, B4, Hd. }
      destruct (Loop (enum (pars (gnodes g n))) g1) as
          (g' & E' & St' & So' & Q' & N' & Kn' & F' & K' & B'); auto.
      * apply nodup_enum.
      * intros i q Hi. now apply in_enum.
      * intros i Hi. apply Ln. apply in_map_iff in Hi as ([j q] & E & Hi). cbn in E. subst j.
        apply in_enum in Hi. apply nth_error_Some. congruence.
      * intros i Hi Ni. exfalso. apply Ni. destruct (nth_error (pars (gnodes g n)) i) as [q|] eqn:E.
        -- apply in_map_iff. exists (i, q). split; [reflexivity|]. now apply in_enum.
        -- apply nth_error_None in E. lia.
      * exists g'. split; [exact E'|]. split; [exact St'|]. split; [exact So'|].
        assert (D' : forall Y, is_det (knd (gnodes g' Y)) = is_det (knd (gnodes g Y))).
        { intros Y. destruct (proj2 St' Y) as (E & _). now rewrite E. }
        split.
        { intros Y i HY NY Hi. destruct (Nat.eq_dec Y n) as [->|NYn].
          - rewrite Kn'. split; [|congruence]. intros HL. exfalso. revert HL. apply N'.
            destruct (proj2 St' n) as (_ & E & _). now rewrite E in Hi.
          - apply Q'; auto. intros [HSY|HSY]; contradiction. }
        split.
        { destruct (is_det (knd (gnodes g (fst c)))) eqn:Dc.
          - rewrite F' by (left; exact Hcn). exact Nc.
          - rewrite F' by (right; exact Dc). exact Nc. }
        split.
        { intros d Nd Hd. rewrite F' by exact Hd. now apply L1. }
        split.
        { intros X HX. rewrite K' by exact HX. apply K1. lia. }
        { intros X d Hd. apply Sub1, B', Hd. }
    + exists g1. split; [reflexivity|]. split; [exact St|]. split; [exact So1|]. split.
      { intros Y i HY NY Hi. rewrite DY in HY. rewrite PY in Hi.
        assert (NE : (Y, i) <> c) by (intros <-; apply NY; now apply HS).
        rewrite L1 by exact NE. rewrite (Q Y i HY NY Hi).
        destruct (Nat.eq_dec Y n) as [->|NYn].
        - rewrite Kn. split.
          + intros _ E. rewrite E in E0. apply E0. reflexivity.
          + intros _ E. rewrite E in Hc. destruct Hc.
        - now rewrite K1. }
      split; [exact Nc|]. split; [|split].
      * intros d Nd _. now apply L1.
      * intros X HX. apply K1. lia.
      * exact Sub1.
  - cbn [andb]. exists g1. split; [reflexivity|]. split; [exact St|]. split; [exact So1|]. split.
    { intros Y i HY NY Hi. rewrite DY in HY. rewrite PY in Hi.
      assert (NE : (Y, i) <> c) by (intros <-; apply NY; now apply HS).
      rewrite L1 by exact NE. rewrite (Q Y i HY NY Hi).
      destruct (Nat.eq_dec Y n) as [->|NYn]; [congruence|]. now rewrite K1. }
    split; [exact Nc|]. split; [|split].
    + intros d Nd _. now apply L1.
    + intros X HX. apply K1. lia.
    + exact Sub1.
Qed.
