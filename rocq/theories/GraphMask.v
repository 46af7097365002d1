(** Propagation of masks. *)
From Coq Require Import List Arith Lia Bool.
From Verif Require Import Base Shapes SpecShapes ShapesLemmas NumPy MiscArray SpecArray TensorLemmas
  EinsumLemmas MessageLemmas Graph SpecGraph GraphLemmas GraphLinks GraphInv GraphNew.
Import ListNotations.

Section Masks.
Variable D : nat -> nat -> env -> env -> Prop.

(** The mask of [n] agrees with its observation and its children's masks. *)
Definition local (g : graph) (n : nat) : Prop :=
  forall t, valid (pls (gnodes g n)) t ->
    (bget (msk (gnodes g n)) t = true <->
     (knd (gnodes g n) = KStoch /\ bget (obs (gnodes g n)) t = true) \/
     exists d e, In d (kids (gnodes g n)) /\ valid (pls (gnodes g (fst d))) e /\
       D (fst d) (snd d) e t /\ bget (msk (gnodes g (fst d))) e = true).

Definition shaped (g : graph) : Prop := forall n, n < gsize g ->
  broadcasts_to (ash (msk (gnodes g n))) (pls (gnodes g n)) /\
  broadcasts_to (ash (obs (gnodes g n))) (pls (gnodes g n)).

(** Only masks of existing nodes differ. *)
Definition masks_only (g g' : graph) : Prop :=
  same_links g g' /\ forall k, obs (gnodes g' k) = obs (gnodes g k).

Lemma masks_only_refl : forall g, masks_only g g.
Proof. intros g. split; [apply same_links_refl|reflexivity]. Qed.
Lemma masks_only_trans : forall a b c, masks_only a b -> masks_only b c -> masks_only a c.
Proof.
  intros a b c [H1 H2] [H3 H4]. split; [eapply same_links_trans; eassumption|].
  intros k. now rewrite H4.
Qed.

Lemma faithful_same : forall g g', same_links g g' -> faithful g D -> faithful g' D.
Proof.
  intros g g' [Z S] F m i p [Hm Hb] Hp. destruct (S m) as (E1 & E2 & E3 & E4 & E5 & E6 & _).
  destruct (S p) as (_ & _ & _ & E7 & _). rewrite E3, E4, E7. apply F.
  - split; [congruence|]. now rewrite <- E6.
  - unfold parent_of in *. now rewrite <- E2.
Qed.

Lemma broadcasts_join : forall a b P S, broadcasts_to a P -> broadcasts_to b P ->
  numpy_broadcast [a; b] S -> broadcasts_to S P.
Proof.
  intros a b P S H1 H2 H. apply (broadcast_least [a; b] S P H).
  intros p [<-|[<-|[]]]; assumption.
Qed.

Lemma or_ok : forall a b P, broadcasts_to (ash a) P -> broadcasts_to (ash b) P ->
  exists y, np_logical_or a b = Ok y /\ broadcasts_to (ash y) P /\
    forall t, bget y t = bget a t || bget b t.
Proof.
  intros a b P Ha Hb.
  assert (exists S, broadcasted_shape [ash a; ash b] = Ok S) as [S HS].
  { apply (broadcast_exists_of_upper [ash a; ash b] P). intros p [<-|[<-|[]]]; assumption. }
  unfold np_logical_or. destruct (np_map2_total _ _ _ orb a b S HS) as (y & E & Ey).
  exists y. split; [exact E|]. apply np_map2_ok in E as [E1 E2]. split; [|exact E2].
  now apply (broadcasts_join (ash a) (ash b)).
Qed.

Lemma scalar_broadcasts : forall A (x : A) P, broadcasts_to (ash (scalar x)) P.
Proof. intros A x P. split; cbn; [lia|]. intros k. left. now destruct k. Qed.

Lemma edges_ok : forall g n l m, sound g ->
  (forall k, k < gsize g -> built (gnodes g k) = true) ->
  faithful g D -> shaped g ->
  (forall d, In d l -> In d (kids (gnodes g n)) /\ fst d < gsize g) ->
  broadcasts_to (ash m) (pls (gnodes g n)) ->
  exists y, foldM (fun m c => w <- edge_mask g c ;; np_logical_or m w) m l = Ok y /\
    broadcasts_to (ash y) (pls (gnodes g n)) /\
    forall t, valid (pls (gnodes g n)) t ->
      (bget y t = true <-> bget m t = true \/
       exists d e, In d l /\ valid (pls (gnodes g (fst d))) e /\
         D (fst d) (snd d) e t /\ bget (msk (gnodes g (fst d))) e = true).
Proof.
  intros g n l m So Bu F Sh. revert m.
  induction l as [|d l IH]; intros m Hl Hm; cbn [foldM].
  - exists m. split; [reflexivity|]. split; [exact Hm|]. intros t _. split; [auto|].
    intros [H|(d & e & [] & _)]. exact H.
  - destruct (Hl d (or_introl eq_refl)) as [Hd Hs].
    assert (Hp : parent_of g n (fst d) (snd d)) by now apply So.
    destruct (F (fst d) (snd d) n) with (w := msk (gnodes g (fst d))) as (w' & pt & y & E1 & E2 & E3 & E4 & E5).
    { split; [exact Hs|now apply Bu]. } { exact Hp. } { now apply Sh. }
    assert (EM : edge_mask g d = Ok y).
    { unfold edge_mask. rewrite (Bu _ Hs). cbn [negb]. rewrite E1. cbn [bind]. rewrite E2. cbn [bind].
      unfold parent_of in Hp. rewrite Hp. exact E3. }
    rewrite EM. cbn [bind].
    destruct (or_ok m y (pls (gnodes g n)) Hm E4) as (m' & Em & Hm' & Bm). rewrite Em. cbn [bind].
    destruct (IH m') as (z & Ez & Hz & Bz).
    { intros c Hc. apply Hl. now right. } { exact Hm'. }
    exists z. split; [exact Ez|]. split; [exact Hz|].
    intros t Ht. rewrite (Bz t Ht), Bm, orb_true_iff, (E5 t Ht). split.
    + intros [[H|(e & H1 & H2 & H3)]|(c & e & H1 & H2)]; [now left|right..].
      * exists d, e. repeat split; auto. now left.
      * exists c, e. split; [now right|exact H2].
    + intros [H|(c & e & [<-|H1] & H2 & H3 & H4)]; [now left; left|left; right|right].
      * now exists e.
      * now exists c, e.
Qed.

Lemma update_mask_spec : forall fuel n g del dirty, inv del g -> n < fuel -> n < gsize g ->
  faithful g D -> shaped g ->
  (forall k, k < gsize g -> ~ dirty k -> local g k) ->
  exists g', update_mask fuel n g = (g', Ok tt) /\ masks_only g g' /\ shaped g' /\
    (forall k, k < gsize g -> ~ (dirty k /\ k <> n) -> local g' k).
Proof.
  induction fuel as [|f IH]; intros n g del dirty I Hf Hn F Sh Lo; [lia|]. cbn [update_mask].
  set (x := gnodes g n).
  destruct (edges_ok g n (kids x) (scalar false)) as (m & Em & Hm & Bm); auto.
  { apply (inv_sound _ _ I). } { apply (inv_built _ _ I). }
  { intros d Hd. split; [exact Hd|]. now apply (inv_kid_size _ _ _ _ I) in Hd. }
  { apply scalar_broadcasts. }
  assert (exists y, (match knd x with KStoch => np_logical_or m (obs x) | _ => Ok m end) = Ok y /\
    broadcasts_to (ash y) (pls x) /\
    forall t, valid (pls x) t -> (bget y t = true <->
      (knd x = KStoch /\ bget (obs x) t = true) \/
      exists d e, In d (kids x) /\ valid (pls (gnodes g (fst d))) e /\
       D (fst d) (snd d) e t /\ bget (msk (gnodes g (fst d))) e = true)) as (y & Ey & Hy & By).
  { destruct (knd x) eqn:Kx.
    2:{ destruct (or_ok m (obs x) (pls x) Hm) as (y & E & Hy & By); [now apply Sh|].
        exists y. split; [exact E|]. split; [exact Hy|]. intros t Ht.
        rewrite By, orb_true_iff, (Bm t Ht). unfold bget at 1. cbn [scalar ash aget]. intuition discriminate. }
    all: exists m; (split; [reflexivity|]); (split; [exact Hm|]); intros t Ht; rewrite (Bm t Ht);
      unfold bget at 1; cbn [scalar ash aget]; intuition discriminate. }
  rewrite Em. cbn [bind]. rewrite Ey.
  rewrite (proj2 (is_shape_subset_spec (ash y) (pls x)) Hy). cbn [negb].
  set (g1 := set_node g n (with_msk x y)).
  assert (O1 : forall k, k <> n -> gnodes g1 k = gnodes g k).
  { intros k N. unfold g1. cbn. destruct (Nat.eqb_spec k n); [contradiction|reflexivity]. }
  assert (N1 : gnodes g1 n = with_msk x y) by (unfold g1; cbn; now rewrite Nat.eqb_refl).
  assert (M1 : masks_only g g1).
  { split; [split; [reflexivity|]|]; intros k.
    - destruct (Nat.eq_dec k n) as [->|N]; [rewrite N1; cbn; fold x; repeat split; intros; lia|].
      rewrite O1 by assumption. tauto.
    - destruct (Nat.eq_dec k n) as [->|N]; [now rewrite N1|now rewrite O1]. }
  assert (I1 : inv del g1) by (apply (inv_same_links del g); [apply M1|exact I]).
  assert (Sh1 : shaped g1).
  { intros k Hk. destruct (Nat.eq_dec k n) as [->|N].
    - rewrite N1. cbn. split; [exact Hy|]. now apply Sh.
    - rewrite O1 by assumption. now apply Sh. }
  assert (PL : forall k, pls (gnodes g1 k) = pls (gnodes g k)).
  { intros k. destruct M1 as [[_ S] _]. now destruct (S k) as (_ & _ & _ & E & _). }
  set (dirty1 := fun k => (dirty k /\ k <> n) \/ In k (pars x)).
  assert (Lo1 : forall k, k < gsize g1 -> ~ dirty1 k -> local g1 k).
  { intros k Hk Nd t Ht. rewrite PL in Ht. destruct (Nat.eq_dec k n) as [->|N].
    - rewrite N1. cbn [msk with_msk knd obs kids]. rewrite (By t Ht).
      split; (intros [H|(d & e & H1 & H2 & H3 & H4)]; [now left|right]);
        exists d, e; rewrite PL in *; repeat split; auto;
        assert (fst d <> n) by (apply (inv_kid_size _ _ _ _ I) in H1 as [_ H1]; lia);
        rewrite O1 in * by assumption; auto.
    - rewrite O1 by assumption.
      assert (Nk : ~ dirty k) by (intros H; apply Nd; left; auto).
      rewrite (Lo k Hk Nk t Ht).
      split; (intros [H|(d & e & H1 & H2 & H3 & H4)]; [now left|right]);
        exists d, e; rewrite PL in *; repeat split; auto;
        assert (fst d <> n) by
          (intros E; apply Nd; right; apply (inv_sound _ _ I) in H1; unfold parent_of in H1;
           rewrite E in H1; now apply nth_error_In in H1);
        rewrite O1 in * by assumption; auto. }
  assert (Loop : forall l g2, (forall q, In q l -> q < n) -> inv del g2 -> masks_only g g2 -> shaped g2 ->
    (forall k, k < gsize g -> ~ ((dirty k /\ k <> n) \/ In k l) -> local g2 k) ->
    exists g', giter (update_mask f) l g2 = (g', Ok tt) /\ masks_only g g' /\ shaped g' /\
      (forall k, k < gsize g -> ~ (dirty k /\ k <> n) -> local g' k)).
  { induction l as [|q l IHl]; intros g2 Hl I2 M2 Sh2 Lo2.
    - exists g2. split; [reflexivity|]. split; [exact M2|]. split; [exact Sh2|].
      intros k Hk Nk. apply Lo2; [exact Hk|]. intros [H|[]]. contradiction.
    - assert (Hq : q < n) by (apply Hl; now left).
      assert (Z2 : gsize g2 = gsize g) by apply M2.
      destruct (IH q g2 del (fun k => (dirty k /\ k <> n) \/ In k (q :: l))) as (g3 & E3 & M3 & Sh3 & Lo3).
      { exact I2. } { lia. } { rewrite Z2. lia. } { apply (faithful_same g); [apply M2|exact F]. } { exact Sh2. }
      { intros k Hk Nk. apply Lo2; [now rewrite <- Z2|exact Nk]. }
      destruct (IHl g3) as (g4 & E4 & M4 & Sh4 & Lo4).
      { intros r Hr. apply Hl. now right. }
      { apply (inv_same_links del g2); [apply M3|exact I2]. }
      { now apply (masks_only_trans g g2). } { exact Sh3. }
      { intros k Hk Nk. apply Lo3; [now rewrite Z2|]. intros [[H|[<-|H]] Nq]; [apply Nk; now left|congruence|].
        apply Nk. now right. }
      exists g4. cbn [giter]. unfold gseq, gbind. rewrite E3. rewrite E4. auto. }
  apply (Loop (pars x) g1); auto.
  intros q Hq. now apply (inv_older _ _ I) in Hq.
Qed.
End Masks.
