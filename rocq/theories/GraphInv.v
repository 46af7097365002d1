(** Invariant of all histories of the graph layer. *)
From Coq Require Import List Arith Lia Bool.
From Verif Require Import Base Shapes SpecShapes ShapesLemmas NumPy MiscArray SpecArray Graph SpecGraph
  GraphLemmas GraphLinks.
Import ListNotations.

(** ** Identifier lists *)
Lemma in_id_list : forall g, older g -> forall fuel n s, n < fuel ->
  (In s (id_list fuel g n) <-> feeds g s n).
Proof.
  intros g W. induction fuel as [|f IH]; intros n s Hn; [lia|]. cbn [id_list].
  assert (FM : is_det (knd (gnodes g n)) = true ->
    (In s (flat_map (id_list f g) (pars (gnodes g n))) <-> feeds g s n)).
  { intros D. rewrite in_flat_map. split.
    - intros (p & Hp & Hs). apply W in Hp as Hlt. apply IH in Hs; [|lia].
      now apply feeds_step with p.
    - intros H. inversion H as [s' Hk|s' p n' Hd Hp Hf]; subst.
      + rewrite Hk in D. discriminate.
      + exists p. split; [exact Hp|]. apply W in Hp as Hlt. apply IH; [lia|exact Hf]. }
  destruct (knd (gnodes g n)) eqn:K.
  - split; [intros []|]. intros H. inversion H as [s' Hk|s' p n' Hd Hp Hf]; subst.
    + congruence. + rewrite K in Hd. discriminate.
  - cbn. split.
    + intros [<-|[]]. now apply feeds_self.
    + intros H. inversion H as [s' Hk|s' p n' Hd Hp Hf]; subst; [now left|].
      rewrite K in Hd. discriminate.
  - now apply FM.
  - rewrite nodup_In. now apply FM.
Qed.

Lemma NoDup_app_iff : forall A (l m : list A), NoDup (l ++ m) <->
  NoDup l /\ NoDup m /\ forall x, In x l -> ~ In x m.
Proof.
  intros A. induction l as [|a r IH]; intros m; cbn.
  - split; [intros H; repeat split; auto; constructor|tauto].
  - split.
    + intros H. inversion H as [|? ? Ha H']; subst. apply IH in H' as (H1 & H2 & H3).
      rewrite in_app_iff in Ha. split; [constructor; tauto|]. split; [exact H2|].
      intros x [<-|Hx]; [tauto|now apply H3].
    + intros (H1 & H2 & H3). inversion H1 as [|? ? Ha H']; subst. constructor.
      * rewrite in_app_iff. intros [H|H]; [contradiction|]. apply (H3 a); auto.
      * apply IH. repeat split; auto.
Qed.

Lemma NoDup_flat_map : forall A B (f : A -> list B) l, (forall x, In x l -> NoDup (f x)) ->
  (NoDup (flat_map f l) <->
   ~ exists s i j p q, i <> j /\ nth_error l i = Some p /\ nth_error l j = Some q /\
                       In s (f p) /\ In s (f q)).
Proof.
  intros A B f. induction l as [|a r IH]; intros H; cbn [flat_map].
  - split; [|constructor]. intros _ (s & i & j & p & q & _ & Hi & _). destruct i; discriminate.
  - rewrite NoDup_app_iff. rewrite IH by (intros x Hx; apply H; now right). split.
    + intros (H1 & H2 & H3) (s & i & j & p & q & N & Hi & Hj & Hp & Hq).
      destruct i as [|i], j as [|j]; cbn in Hi, Hj.
      * congruence.
      * injection Hi as <-. apply (H3 s Hp). apply in_flat_map. exists q. split; [|exact Hq].
        now apply nth_error_In in Hj.
      * injection Hj as <-. apply (H3 s Hq). apply in_flat_map. exists p. split; [|exact Hp].
        now apply nth_error_In in Hi.
      * apply H2. exists s, i, j, p, q. repeat split; auto.
    + intros N. split; [apply H; now left|]. split.
      * intros (s & i & j & p & q & Nij & Hi & Hj & Hp & Hq). apply N.
        exists s, (S i), (S j), p, q. repeat split; auto.
      * intros s Hs Hs'. apply in_flat_map in Hs' as (q & Hq & Hsq). apply In_nth_error in Hq as [j Hj].
        apply N. exists s, 0, (S j), a, q. repeat split; auto.
Qed.

Lemma nodup_length : forall l : list nat,
  length l = length (nodup Nat.eq_dec l) <-> NoDup l.
Proof.
  intros l. split.
  - intros E. apply (NoDup_incl_NoDup (NoDup_nodup Nat.eq_dec l)); [lia|].
    intros x Hx. now apply nodup_In in Hx.
  - intros H. now rewrite nodup_fixed_point.
Qed.

Definition indep_dets (g : graph) : Prop :=
  forall n, knd (gnodes g n) = KDet -> independent g (pars (gnodes g n)).

Lemma id_list_nodup : forall g, older g -> indep_dets g -> forall fuel n, n < fuel ->
  NoDup (id_list fuel g n).
Proof.
  intros g W I. induction fuel as [|f IH]; intros n Hn; [lia|]. cbn [id_list].
  destruct (knd (gnodes g n)) eqn:K.
  - constructor.
  - constructor; [intros []|constructor].
  - apply NoDup_flat_map.
    + intros x Hx. apply W in Hx. apply IH. lia.
    + intros (s & i & j & p & q & N & Hi & Hj & Hp & Hq). apply (I n K).
      assert (p < n) by (apply W with (n := n); now apply nth_error_In in Hi).
      assert (q < n) by (apply W with (n := n); now apply nth_error_In in Hj).
      exists s, i, j, p, q. apply in_id_list in Hp; [|assumption|lia].
      apply in_id_list in Hq; [|assumption|lia]. auto.
  - apply NoDup_nodup.
Qed.

Lemma check_iff : forall g parents, older g -> indep_dets g ->
  (length (flat_map (get_id_list g) parents) =?
   length (nodup Nat.eq_dec (flat_map (get_id_list g) parents))) = true <->
  independent g parents.
Proof.
  intros g parents W I. rewrite Nat.eqb_eq, nodup_length. unfold get_id_list.
  rewrite NoDup_flat_map.
  - unfold independent. split; intros H (s & i & j & p & q & N & Hi & Hj & Hp & Hq); apply H;
      exists s, i, j, p, q; rewrite ?in_id_list in * by (assumption || lia); auto;
      repeat split; auto; now apply in_id_list; auto.
  - intros x _. apply id_list_nodup; auto.
Qed.

(** ** The invariant *)
Record inv (del : list nat) (g : graph) : Prop := Inv {
  inv_older : older g;
  inv_sound : sound g;
  inv_det : detq g (fun _ => False);
  inv_stoch : forall Y i, knd (gnodes g Y) = KStoch -> i < length (pars (gnodes g Y)) ->
    (linked g (Y, i) <-> ~ In Y del);
  inv_blank : forall n, gsize g <= n -> gnodes g n = blank;
  inv_built : forall n, n < gsize g -> built (gnodes g n) = true;
  inv_const : forall n, knd (gnodes g n) = KConst -> pars (gnodes g n) = [];
  inv_indep : indep_dets g;
  inv_del : forall n, In n del -> n < gsize g;
  inv_plates : forall m i p, parent_of g p m i -> exists pp,
    plates_from (cls (gnodes g m)) i (pls (gnodes g p)) = Ok pp /\
    broadcasts_to pp (pls (gnodes g m)) }.

Lemma inv_kid_size : forall del g X d, inv del g -> In d (kids (gnodes g X)) ->
  fst d < gsize g /\ X < fst d.
Proof.
  intros del g X d I H. pose proof (sound_older g X d (inv_sound _ _ I) (inv_older _ _ I) H).
  split; [|assumption]. apply (inv_sound _ _ I) in H. unfold parent_of in H.
  destruct (le_lt_dec (gsize g) (fst d)) as [L|L]; [|exact L].
  rewrite (inv_blank _ _ I _ L) in H. cbn in H. destruct (snd d); discriminate.
Qed.

Lemma inv_empty : inv [] empty_graph.
Proof.
  constructor.
  - intros n q [].
  - intros X d [].
  - intros Y i H. discriminate.
  - intros Y i H. discriminate.
  - reflexivity.
  - cbn. lia.
  - reflexivity.
  - intros n H. discriminate.
  - intros n [].
  - intros m i p H. unfold parent_of in H. cbn in H. destruct i; discriminate.
Qed.

Lemma feeds_ext : forall g g', (forall k, knd (gnodes g' k) = knd (gnodes g k)) ->
  (forall k, pars (gnodes g' k) = pars (gnodes g k)) -> forall s n, feeds g s n -> feeds g' s n.
Proof.
  intros g g' K P s n H. induction H as [s Hk|s p n Hd Hp Hf IH].
  - apply feeds_self. now rewrite K.
  - apply feeds_step with p; [now rewrite K|now rewrite P|exact IH].
Qed.

Lemma independent_ext : forall g g', (forall k, knd (gnodes g' k) = knd (gnodes g k)) ->
  (forall k, pars (gnodes g' k) = pars (gnodes g k)) -> forall l, independent g l -> independent g' l.
Proof.
  intros g g' K P l H (s & i & j & p & q & N & Hi & Hj & Hp & Hq). apply H.
  exists s, i, j, p, q. repeat split; auto; apply (feeds_ext g' g); auto.
Qed.

(** Agreement below [n] is enough for [feeds] into nodes below [n]. *)
Lemma feeds_below : forall g g' N, older g ->
  (forall k, k < N -> knd (gnodes g' k) = knd (gnodes g k) /\ pars (gnodes g' k) = pars (gnodes g k)) ->
  forall s n, feeds g s n -> n < N -> feeds g' s n.
Proof.
  intros g g' N W A s n H. induction H as [s Hk|s p n Hd Hp Hf IH]; intros Hn.
  - apply feeds_self. destruct (A s Hn) as [E _]. now rewrite E.
  - destruct (A n Hn) as [E1 E2]. apply feeds_step with p; [now rewrite E1|now rewrite E2|].
    apply IH. apply W in Hp. lia.
Qed.

(** A graph that differs only in masks and observations. *)
Definition same_links (g g' : graph) : Prop :=
  gsize g' = gsize g /\
  forall k, knd (gnodes g' k) = knd (gnodes g k) /\ pars (gnodes g' k) = pars (gnodes g k) /\
            cls (gnodes g' k) = cls (gnodes g k) /\ pls (gnodes g' k) = pls (gnodes g k) /\
            kids (gnodes g' k) = kids (gnodes g k) /\ built (gnodes g' k) = built (gnodes g k) /\
            (gsize g <= k -> gnodes g' k = gnodes g k).
Lemma same_links_refl : forall g, same_links g g.
Proof. intros g. split; [reflexivity|]. intros k. tauto. Qed.
Lemma same_links_trans : forall a b c, same_links a b -> same_links b c -> same_links a c.
Proof.
  intros a b c [H1 H2] [H3 H4]. split; [congruence|]. intros k.
  destruct (H2 k) as (A1 & A2 & A3 & A4 & A5 & A6 & A7).
  destruct (H4 k) as (B1 & B2 & B3 & B4 & B5 & B6 & B7).
  repeat split; try congruence. intros L. rewrite B7 by lia. apply A7. lia.
Qed.

Lemma inv_same_links : forall del g g', same_links g g' -> inv del g -> inv del g'.
Proof.
  intros del g g' [Z S] I.
  assert (P : forall X Y i, parent_of g' X Y i <-> parent_of g X Y i).
  { intros X Y i. unfold parent_of. destruct (S Y) as (_ & E & _). now rewrite E. }
  assert (Kd : forall X, kids (gnodes g' X) = kids (gnodes g X)).
  { intros X. now destruct (S X) as (_ & _ & _ & _ & E & _). }
  assert (Kn : forall X, knd (gnodes g' X) = knd (gnodes g X)) by (intros X; now destruct (S X)).
  assert (Pa : forall X, pars (gnodes g' X) = pars (gnodes g X)).
  { intros X. now destruct (S X) as (_ & E & _). }
  assert (Li : forall d, linked g' d <-> linked g d).
  { intros d. unfold linked. split; intros (X & H1 & H2); exists X; rewrite P, Kd in *; tauto. }
  constructor.
  - intros n q H. rewrite Pa in H. now apply (inv_older _ _ I).
  - intros X d H. rewrite P. rewrite Kd in H. now apply (inv_sound _ _ I).
  - intros Y i H N Hi. rewrite Li, Kd. apply (inv_det _ _ I); [now rewrite <- Kn|exact N|now rewrite <- Pa].
  - intros Y i H Hi. rewrite Li. apply (inv_stoch _ _ I); [now rewrite <- Kn|now rewrite <- Pa].
  - intros n H. destruct (S n) as (_ & _ & _ & _ & _ & _ & E). rewrite E by lia.
    apply (inv_blank _ _ I). lia.
  - intros n H. destruct (S n) as (_ & _ & _ & _ & _ & E & _). rewrite E. apply (inv_built _ _ I). lia.
  - intros n H. rewrite Pa. apply (inv_const _ _ I). now rewrite <- Kn.
  - intros n H. rewrite Pa. rewrite Kn in H. apply (independent_ext g g'); auto. now apply (inv_indep _ _ I).
  - intros n H. rewrite Z. now apply (inv_del _ _ I).
  - intros m i p H. apply P in H. destruct (S m) as (_ & _ & E1 & E2 & _). destruct (S p) as (_ & _ & _ & E3 & _).
    rewrite E1, E2, E3. now apply (inv_plates _ _ I).
Qed.

