(** Construction and deletion keep the invariant. *)
From Coq Require Import List Arith Lia Bool.
From Verif Require Import Base Shapes SpecShapes ShapesLemmas NumPy MiscArray SpecArray Graph SpecGraph
  GraphLemmas GraphLinks GraphInv.
Import ListNotations.

Lemma mapM_ext : forall A B (f h : A -> res B) l, (forall x, In x l -> f x = h x) ->
  mapM f l = mapM h l.
Proof.
  intros A B f h. induction l as [|a r IH]; intros H; [reflexivity|]. cbn.
  rewrite (H a) by now left. rewrite IH; [reflexivity|]. intros x Hx. apply H. now right.
Qed.

Lemma mapM_in : forall A B (f : A -> res B) l bs, mapM f l = Ok bs ->
  forall x, In x l -> exists b, f x = Ok b /\ In b bs.
Proof.
  intros A B f. induction l as [|a r IH]; intros bs H x Hx; [destruct Hx|]. cbn in H.
  apply bind_ok in H as (b & Hb & H). apply bind_ok in H as (bs' & Hbs & H). injection H as <-.
  destruct Hx as [<-|Hx]; [exists b; cbn; auto|]. destruct (IH _ Hbs x Hx) as (b' & H1 & H2).
  exists b'. cbn. auto.
Qed.

Lemma total_plates_parents : forall plates pp S, total_plates plates pp = Ok S ->
  forall p, In p pp -> broadcasts_to p S.
Proof.
  intros plates pp S H p Hp. destruct plates as [pl|].
  - cbn in H. apply bind_ok in H as (u & Hu & H). injection H as <-. destruct u.
    revert Hp. induction pp as [|a r IH]; intros Hp; [destruct Hp|]. cbn in Hu.
    apply bind_ok in Hu as (u & Hu1 & Hu2). destruct (is_shape_subset a pl) eqn:E; [|discriminate].
    destruct Hp as [<-|Hp]; [now apply is_shape_subset_spec|now apply IH].
  - unfold total_plates in H. destruct (broadcasted_shape pp) as [s|e] eqn:E; [|destruct e; discriminate].
    injection H as <-. apply broadcasted_shape_ok in E as (H1 & _ & H3).
    split; [now apply H1|]. intros k. destruct (H3 k) as [H4 _]. now apply H4.
Qed.

Section New.
Variables (del : list nat) (g : graph) (I : inv del g).
Variables (k : kind) (parents : list nat) (plates : option shape) (c : nclass).
Hypothesis L : legal g (New k parents plates c).

Let n := gsize g.
Let fresh b pl := GNode k parents [] c pl (scalar false) (scalar false) b.
Let g0 := set_node (Graph (S n) (gnodes g)) n (fresh false []).

Lemma g0_old : forall x, x <> n -> gnodes g0 x = gnodes g x.
Proof. intros x N. unfold g0. cbn. destruct (Nat.eqb_spec x n); [contradiction|reflexivity]. Qed.
Lemma g0_new : gnodes g0 n = fresh false [].
Proof. unfold g0. cbn. now rewrite Nat.eqb_refl. Qed.

Lemma parents_old : forall p, In p parents -> p < n.
Proof. intros p Hp. destruct L as [L1 _]. destruct (L1 p Hp) as [H _]. exact H. Qed.

Lemma older_g0 : older g0.
Proof.
  intros x q H. destruct (Nat.eq_dec x n) as [->|N].
  - rewrite g0_new in H. cbn in H. now apply parents_old.
  - rewrite g0_old in H by assumption. now apply (inv_older _ _ I).
Qed.

Lemma kids_n : kids (gnodes g n) = [].
Proof. rewrite (inv_blank _ _ I n) by (unfold n; lia). reflexivity. Qed.

Lemma notified : exists g1,
  (if is_det k then gret tt
   else giter (fun ip => add_child (S n) (snd ip) (n, fst ip)) (enum parents)) g0 = (g1, Ok tt) /\
  static g0 g1 /\
  forall X d, In d (kids (gnodes g1 X)) <->
    In d (kids (gnodes g X)) \/
    (is_det k = false /\ exists i q, nth_error parents i = Some q /\
       ((X = q /\ d = (n, i)) \/ link_up g0 q X d)).
Proof.
  assert (K0 : forall X, kids (gnodes g0 X) = kids (gnodes g X)).
  { intros X. destruct (Nat.eq_dec X n) as [->|N].
    - rewrite g0_new. symmetry. apply kids_n.
    - now rewrite g0_old. }
  destruct (is_det k).
  - exists g0. split; [reflexivity|]. split; [apply static_refl|]. intros X d. rewrite K0. intuition discriminate.
  - destruct (add_children_spec n (S n) (enum parents) g0 older_g0) as (g1 & E & St & K).
    { intros i q H. apply in_enum in H. apply nth_error_In in H. apply parents_old in H. lia. }
    exists g1. split; [exact E|]. split; [exact St|]. intros X d. rewrite K, K0. split.
    + intros [H|(i & q & H1 & H2)]; [now left|right]. split; [reflexivity|].
      exists i, q. rewrite in_enum in H1. auto.
    + intros [H|(_ & i & q & H1 & H2)]; [now left|right]. exists i, q. rewrite in_enum. auto.
Qed.

Lemma plates_same : forall g1, static g0 g1 ->
  (pp <- mapM (fun ip => plates_from c (fst ip) (pls (gnodes g1 (snd ip)))) (enum parents) ;;
   total_plates (if is_det k then None else plates) pp) = plates_result g k parents plates c.
Proof.
  intros g1 St. unfold plates_result. f_equal. apply mapM_ext. intros [i q] H. apply in_enum in H.
  apply nth_error_In in H. apply parents_old in H. cbn [fst snd].
  destruct (proj2 St q) as (_ & _ & _ & E & _). rewrite E. rewrite g0_old by lia. reflexivity.
Qed.

Lemma new_node_cases :
  (k <> KConcat /\ ~ independent g parents /\ new_node k parents plates c g = (g, Err ValueError)) \/
  ((k = KConcat \/ independent g parents) /\
   exists g1, static g0 g1 /\
     (forall X d, In d (kids (gnodes g1 X)) <->
        In d (kids (gnodes g X)) \/
        (is_det k = false /\ exists i q, nth_error parents i = Some q /\
           ((X = q /\ d = (n, i)) \/ link_up g0 q X d))) /\
     new_node k parents plates c g =
       match plates_result g k parents plates c with
       | Ok pl => (set_node g1 n (fresh true pl), Ok n)
       | Err e => (g1, Err e)
       end).
Proof.
  unfold new_node. fold n. fold g0.
  pose proof (check_iff g parents (inv_older _ _ I) (inv_indep _ _ I)) as CI.
  destruct notified as (g1 & E1 & St & K).
  assert (Body : forall P Q : Prop, P -> (P -> exists g1, static g0 g1 /\
     (forall X d, In d (kids (gnodes g1 X)) <->
        In d (kids (gnodes g X)) \/
        (is_det k = false /\ exists i q, nth_error parents i = Some q /\
           ((X = q /\ d = (n, i)) \/ link_up g0 q X d))) /\ Q) -> Q -> P /\ Q) by tauto.
  clear Body.
  set (body := gbind _ _).
  assert (B : body g0 = match plates_result g k parents plates c with
       | Ok pl => (set_node g1 n (fresh true pl), Ok n)
       | Err e => (g1, Err e)
       end).
  { unfold body, gbind. rewrite E1. rewrite (plates_same g1 St). reflexivity. }
  destruct k eqn:Ek; cbn [andb negb].
  1,2,3: destruct (_ =? _) eqn:EC; cbn [negb];
    [right; split; [right; now apply CI|]; exists g1; auto|
     left; split; [discriminate|]; split; [|reflexivity]; intros H; apply CI in H; congruence].
  right. split; [now left|]. exists g1. auto.
Qed.

Lemma new_node_inv : forall g', new_node k parents plates c g = (g', Ok n) -> inv del g'.
Proof.
  intros g' E. destruct new_node_cases as [(_ & _ & E')|(Hi & g1 & St & K & E')].
  { rewrite E' in E. discriminate. }
  rewrite E' in E. destruct (plates_result g k parents plates c) as [pl|e] eqn:EP; [|discriminate].
  injection E as <-.
  set (g' := set_node g1 n (fresh true pl)).
  assert (Kn1 : kids (gnodes g1 n) = []).
  { destruct (kids (gnodes g1 n)) as [|d l] eqn:EK; [reflexivity|]. exfalso.
    assert (H : In d (kids (gnodes g1 n))) by (rewrite EK; now left).
    apply K in H as [H|(Hd & i & q & Hq & [[H _]|H])].
    - rewrite kids_n in H. destruct H.
    - apply nth_error_In in Hq. apply parents_old in Hq. lia.
    - destruct H as (H1 & H2 & H3). apply nth_error_In in Hq. apply parents_old in Hq.
      apply up_le in H2; [|exact older_g0]. unfold parent_of in H3. apply nth_error_In in H3.
      apply older_g0 in H3. lia. }
  assert (G1old : forall x, x <> n -> gnodes g' x = gnodes g1 x).
  { intros x N. unfold g'. cbn. destruct (Nat.eqb_spec x n); [contradiction|reflexivity]. }
  assert (G1new : gnodes g' n = fresh true pl) by (unfold g'; cbn; now rewrite Nat.eqb_refl).
  assert (Kd : forall X, kids (gnodes g' X) = kids (gnodes g1 X)).
  { intros X. destruct (Nat.eq_dec X n) as [->|N]; [now rewrite G1new, Kn1|now rewrite G1old]. }
  assert (Kk : forall X, knd (gnodes g' X) = knd (gnodes g0 X)).
  { intros X. destruct (Nat.eq_dec X n) as [->|N]; [now rewrite G1new, g0_new|].
    rewrite G1old by assumption. now destruct (proj2 St X). }
  assert (Kp : forall X, pars (gnodes g' X) = pars (gnodes g0 X)).
  { intros X. destruct (Nat.eq_dec X n) as [->|N]; [now rewrite G1new, g0_new|].
    rewrite G1old by assumption. now destruct (proj2 St X) as (_ & E & _). }
  assert (P : forall X Y i, parent_of g' X Y i <-> parent_of g0 X Y i).
  { intros X Y i. unfold parent_of. now rewrite Kp. }
  assert (Po : forall X Y i, Y <> n -> (parent_of g0 X Y i <-> parent_of g X Y i)).
  { intros X Y i N. unfold parent_of. now rewrite g0_old. }
  assert (W : older g') by (intros x q Hq; rewrite Kp in Hq; now apply older_g0).
  assert (SoK : forall X d, In d (kids (gnodes g X)) -> fst d <> n /\ parent_of g0 X (fst d) (snd d)).
  { intros X d H. pose proof (inv_kid_size _ _ _ _ I H) as [Hs _].
    assert (fst d <> n) by (unfold n; lia). split; [assumption|]. apply Po; [assumption|].
    now apply (inv_sound _ _ I). }
  assert (So : sound g').
  { intros X d H. apply P. rewrite Kd in H. apply K in H as [H|(Hd & i & q & Hq & [[-> ->]|H])].
    - now apply SoK.
    - unfold parent_of. cbn [fst snd]. rewrite g0_new. exact Hq.
    - now destruct H as (_ & _ & H). }
  assert (Lk : forall Y i, linked g' (Y, i) <->
     linked g (Y, i) \/
     (is_det k = false /\ i < length (pars (gnodes g0 Y)) /\
      (Y = n \/ (is_det (knd (gnodes g0 Y)) = true /\ exists q, In q parents /\ up g0 q Y)))).
  { intros Y i. split.
    - intros (X & H1 & H2). cbn [fst snd] in *. apply P in H1.
      assert (i < length (pars (gnodes g0 Y))).
      { unfold parent_of in H1. apply nth_error_Some. congruence. }
      rewrite Kd in H2. apply K in H2 as [H2|(Hd & j & q & Hq & [[-> H2]|H2])].
      + left. exists X. cbn [fst snd]. split; [|exact H2]. apply SoK in H2 as [H2 _]. cbn in H2.
        now apply Po.
      + right. injection H2 as -> ->. auto.
      + right. split; [exact Hd|]. split; [assumption|]. right. destruct H2 as (H2 & H3 & H4).
        cbn [fst snd] in *. split; [exact H2|]. exists q. split; [now apply nth_error_In in Hq|exact H3].
    - intros [(X & H1 & H2)|(Hd & Hl & HY)].
      + exists X. cbn [fst snd] in *. split; [|rewrite Kd; apply K; now left].
        apply P. now apply SoK in H2 as [_ H2].
      + apply nth_error_Some in Hl. destruct (nth_error (pars (gnodes g0 Y)) i) as [X|] eqn:EX; [|congruence].
        exists X. cbn [fst snd]. split; [apply P; exact EX|]. rewrite Kd. apply K. right. split; [exact Hd|].
        destruct HY as [->|(Hdet & q & Hq & Hu)].
        * exists i, X. rewrite g0_new in EX. cbn in EX. auto.
        * apply In_nth_error in Hq as [j Hj]. exists j, q. split; [exact Hj|]. right.
          split; [exact Hdet|]. split; [exact Hu|exact EX]. }
  assert (Nlk : forall i, ~ linked g (n, i)).
  { intros i (X & H1 & H2). apply (inv_kid_size _ _ _ _ I) in H2 as [H2 _]. cbn in H2. unfold n in H2. lia. }
  assert (St0 : gsize g' = S n).
  { unfold g'. cbn. destruct St as [E _]. rewrite E. reflexivity. }
  constructor.
  - exact W.
  - exact So.
  - intros Y i HY _ Hi2. rewrite Kk in HY. rewrite Kp in Hi2. rewrite Lk, Kd.
    destruct (Nat.eq_dec Y n) as [->|NY].
    + rewrite g0_new in HY. cbn in HY. rewrite Kn1. split; [|congruence].
      intros [H|(H & _)]; [now apply Nlk in H|congruence].
    + rewrite g0_old in HY, Hi2 by assumption.
      rewrite (inv_det _ _ I Y i HY (fun f => f) Hi2). split.
      * intros [H|(Hd & _ & [H|(_ & q & Hq & Hu)])]; [| contradiction |].
        -- destruct (kids (gnodes g Y)) as [|d l] eqn:EK; [congruence|].
           assert (Hin : In d (kids (gnodes g1 Y))) by (apply K; left; rewrite EK; now left).
           intros E2. rewrite E2 in Hin. destruct Hin.
        -- apply In_nth_error in Hq as [j Hj]. apply up_last in Hu as [->|(Z & H1 & H2 & H3)].
           ++ assert (Hin : In (n, j) (kids (gnodes g1 Y))).
              { apply K. right. split; [exact Hd|]. exists j, Y. auto. }
              intros E2. rewrite E2 in Hin. destruct Hin.
           ++ apply In_nth_error in H3 as [m Hm].
              assert (Hin : In (Z, m) (kids (gnodes g1 Y))).
              { apply K. right. split; [exact Hd|]. exists j, q. split; [exact Hj|]. right. now repeat split. }
              intros E2. rewrite E2 in Hin. destruct Hin.
      * intros H. destruct (kids (gnodes g1 Y)) as [|d l] eqn:EK; [congruence|]. clear H.
        assert (Hin : In d (kids (gnodes g1 Y))) by (rewrite EK; now left).
        apply K in Hin as [Hin|(Hd & j & q & Hq & [[-> ->]|Hl])].
        -- left. intros E2. rewrite E2 in Hin. destruct Hin.
        -- right. split; [exact Hd|]. rewrite g0_old by assumption. split; [exact Hi2|]. right. split; [exact HY|].
           exists q. split; [now apply nth_error_In in Hq|apply up_refl].
        -- right. split; [exact Hd|]. rewrite g0_old by assumption. split; [exact Hi2|]. right. split; [exact HY|].
           exists q. split; [now apply nth_error_In in Hq|]. destruct Hl as (H1 & H2 & H3).
           apply up_trans1 with (fst d); auto. unfold parent_of in H3. now apply nth_error_In in H3.
  - intros Y i HY Hi2. rewrite Kk in HY. rewrite Kp in Hi2. rewrite Lk.
    destruct (Nat.eq_dec Y n) as [->|NY].
    + assert (~ In n del) by (intros H; apply (inv_del _ _ I) in H; unfold n in H; lia).
      rewrite g0_new in HY. cbn in HY. split; [auto|]. intros _. right.
      split; [rewrite HY; reflexivity|]. auto.
    + rewrite g0_old in HY, Hi2 |- * by assumption. rewrite <- (inv_stoch _ _ I Y i HY Hi2). split; [|auto].
      intros [H|(_ & _ & [H|(H & _)])]; [exact H|contradiction|]. rewrite HY in H. discriminate.
  - intros x Hx. rewrite St0 in Hx. rewrite G1old by lia.
    assert (B0 : gnodes g x = blank) by (apply (inv_blank _ _ I); unfold n in Hx; lia).
    assert (Kx : kids (gnodes g1 x) = []).
    { destruct (kids (gnodes g1 x)) as [|d l] eqn:EK; [reflexivity|]. exfalso.
      assert (H : In d (kids (gnodes g' x))) by (rewrite Kd, EK; now left).
      apply So in H. apply P in H. unfold parent_of in H.
      assert (fst d <= n).
      { destruct (le_lt_dec (fst d) n) as [Hle|Hgt]; [exact Hle|]. exfalso.
        rewrite g0_old in H by lia. rewrite (inv_blank _ _ I) in H by (unfold n in Hgt; lia).
        cbn in H. destruct (snd d); discriminate. }
      apply nth_error_In in H. apply older_g0 in H. lia. }
    destruct (proj2 St x) as (E1 & E2 & E3 & E4 & E5 & E6 & E7).
    rewrite g0_old in * by lia. rewrite B0 in *.
    destruct (gnodes g1 x); cbn in *. unfold blank. congruence.
  - intros x Hx. rewrite St0 in Hx. destruct (Nat.eq_dec x n) as [->|N]; [now rewrite G1new|].
    rewrite G1old by assumption. destruct (proj2 St x) as (_ & _ & _ & _ & _ & _ & E7). rewrite E7.
    rewrite g0_old by assumption. apply (inv_built _ _ I). unfold n in *. lia.
  - intros x Hx. rewrite Kk in Hx. rewrite Kp. destruct (Nat.eq_dec x n) as [->|N].
    + rewrite g0_new in *. cbn in *. destruct L as [_ L2]. now apply L2.
    + rewrite g0_old in * by assumption. now apply (inv_const _ _ I).
  - intros x Hx. rewrite Kk in Hx. rewrite Kp.
    assert (Fd : forall s y, y < n -> feeds g' s y -> feeds g s y).
    { intros s y Hy Hf. revert Hy. apply (feeds_below g' g n); auto.
      intros z Hz. rewrite Kk, Kp. rewrite g0_old by lia. auto. }
    intros (s & i & j & p & q & N & H1 & H2 & H3 & H4).
    destruct (Nat.eq_dec x n) as [->|Nx].
    + rewrite g0_new in *. cbn in *. destruct Hi as [Hi|Hi]; [congruence|]. apply Hi.
      exists s, i, j, p, q. split; [exact N|]. split; [exact H1|]. split; [exact H2|].
      apply nth_error_In in H1, H2. apply parents_old in H1, H2. auto.
    + rewrite g0_old in * by assumption. apply (inv_indep _ _ I x Hx).
      exists s, i, j, p, q. split; [exact N|]. split; [exact H1|]. split; [exact H2|].
      apply nth_error_In in H1, H2.
      assert (x < n).
      { destruct (le_lt_dec n x) as [Hl|Hl]; [|exact Hl]. rewrite (inv_blank _ _ I x) in Hx by exact Hl.
        discriminate. }
      apply (inv_older _ _ I) in H1, H2. split; apply Fd; auto; lia.
  - intros x Hx. rewrite St0. apply (inv_del _ _ I) in Hx. unfold n. lia.
  - intros m i p Hp. apply P in Hp.
    assert (Pl : forall x, x <> n -> pls (gnodes g' x) = pls (gnodes g x) /\ cls (gnodes g' x) = cls (gnodes g x)).
    { intros x Nx. rewrite G1old by assumption. destruct (proj2 St x) as (_ & _ & E3 & E4 & _).
      rewrite E3, E4. now rewrite g0_old. }
    assert (Hpm : p < m) by (apply older_g0 with (n := m); now apply nth_error_In in Hp).
    destruct (Nat.eq_dec m n) as [->|Nm].
    + destruct (Pl p) as [E1 E2]; [lia|]. rewrite G1new, E1. cbn.
      unfold parent_of in Hp. rewrite g0_new in Hp. cbn in Hp.
      unfold plates_result in EP. apply bind_ok in EP as (pp & HM & HT).
      destruct (mapM_in _ _ _ _ _ HM (i, p)) as (b & Hb & Hin); [now apply in_enum|].
      exists b. split; [exact Hb|]. eapply total_plates_parents; eassumption.
    + apply Po in Hp; [|assumption]. 
      assert (m < n).
      { destruct (le_lt_dec n m) as [Hl|Hl]; [|exact Hl]. unfold parent_of in Hp.
        rewrite (inv_blank _ _ I m) in Hp by exact Hl. destruct i; discriminate. }
      destruct (Pl p) as [E1 E2]; [lia|]. destruct (Pl m) as [E3 E4]; [lia|].
      rewrite E1, E3, E4. now apply (inv_plates _ _ I).
Qed.
End New.
