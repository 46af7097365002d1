(** Correctness of the breadth-first search for converters. *)
From Coq Require Import List Arith Lia Bool.
From Verif Require Import Base Converter SpecConverter.
Import ListNotations.

Lemma memn_in : forall c l, memn c l = true <-> In c l.
Proof.
  intros c l. unfold memn. rewrite existsb_exists. split.
  - intros (x & H & E). apply Nat.eqb_eq in E. now subst.
  - intros H. exists c. split; [exact H|apply Nat.eqb_refl].
Qed.

Lemma chain_snoc : forall h r c ks b d k t, chain h r c ks b -> issub h b d = true ->
  In (t, k) (converters h r d) -> chain h r c (ks ++ [k]) t.
Proof.
  intros h r c ks b d k t H. induction H as [c|c a x kx ks e Hs Hi H IH]; intros S I.
  - cbn. eapply chain_cons; eauto. apply chain_nil.
  - cbn. eapply chain_cons; eauto.
Qed.

Lemma chain_unsnoc : forall h r c ks d, chain h r c ks d -> ks <> [] ->
  exists ks' k b a, ks = ks' ++ [k] /\ chain h r c ks' b /\ issub h b a = true /\
    In (d, k) (converters h r a).
Proof.
  intros h r c ks d H. induction H as [c|c a t k ks d Hs Hi H IH]; intros N; [congruence|].
  destruct ks as [|k2 ks].
  - inversion H; subst. exists [], k, c, a. repeat split; auto. apply chain_nil.
  - destruct IH as (ks' & k' & b & a' & E & H1 & H2 & H3); [discriminate|].
    exists (k :: ks'), k', b, a'. rewrite E. repeat split; auto. eapply chain_cons; eauto.
Qed.

Lemma classic_conv : forall (conv : list (nat * list nat)) b,
  (exists q, In (b, q) conv) \/ ~ exists q, In (b, q) conv.
Proof.
  induction conv as [|[c p] l IH]; intros b.
  - right. intros (q & []).
  - destruct (Nat.eq_dec c b) as [->|N]; [left; exists p; now left|].
    destruct (IH b) as [(q & H)|H]; [left; exists q; now right|right].
    intros (q & [E|E]); [injection E as -> _; congruence|]. apply H. now exists q.
Qed.

Section Search.
Variables (h : hierarchy) (r : registry) (target : nat).
Hypothesis WF : well_formed h.

Lemma add_bases_spec : forall l path v v' cur, add_bases l path v = (v', cur) ->
  (forall x, In x v' <-> In x v \/ In x l) /\
  (forall x p, In (x, p) cur -> p = path /\ In x l /\ ~ In x v) /\
  (forall x, In x v' -> ~ In x v -> In (x, path) cur) /\
  (NoDup v -> NoDup v') .
Proof.
  induction l as [|b l IH]; intros path v v' cur E; cbn in E.
  - injection E as <- <-. split; [intros x; cbn; tauto|]. split; [intros x p []|]. split; [tauto|auto].
  - destruct (memn b v) eqn:M.
    + apply memn_in in M. apply IH in E as (H1 & H2 & H3 & H4). split; [|split; [|split]].
      * intros x. rewrite H1. cbn. split; [tauto|]. intros [H|[<-|H]]; auto.
      * intros x p Hx. apply H2 in Hx as (A & B & C). split; [exact A|]. split; [now right|exact C].
      * intros x Hx Nx. now apply H3.
      * exact H4.
    + assert (Nb : ~ In b v) by (rewrite <- memn_in; congruence).
      destruct (add_bases l path (b :: v)) as [v1 cur1] eqn:E1. injection E as <- <-.
      apply IH in E1 as (H1 & H2 & H3 & H4). split; [|split; [|split]].
      * intros x. rewrite H1. cbn. tauto.
      * intros x p [Hx|Hx].
        -- injection Hx as <- <-. repeat split; auto. now left.
        -- apply H2 in Hx as (A & B & C). cbn in C. repeat split; [exact A|now right|tauto].
      * intros x Hx Nx. destruct (Nat.eq_dec x b) as [->|N]; [now left|right].
        apply H3; [exact Hx|]. intros [E|E]; congruence.
      * intros ND. apply H4. now constructor.
Qed.

(** After [expand] without a hit. *)
Lemma expand_spec : forall conv v v' cur, expand h target conv v = (None, v', cur) ->
  (forall c p, In (c, p) conv -> issub h c target = false) /\
  (forall x, In x v' <-> In x v \/ exists c p, In (c, p) conv /\ In x (bases h c)) /\
  (forall c p, In (c, p) conv -> In (c, p) cur) /\
  (forall x p, In (x, p) cur -> exists c, In (c, p) conv /\ (x = c \/ In x (bases h c))) /\
  (forall x, In x v' -> ~ In x v -> exists c p, In (c, p) conv /\ In x (bases h c) /\ In (x, p) cur) /\
  (NoDup v -> NoDup v').
Proof.
  induction conv as [|[c path] l IH]; intros v v' cur E; cbn in E.
  - injection E as <- <-. split; [intros c p []|]. split.
    { intros x. split; [auto|]. intros [H|(c & p & [] & _)]. exact H. }
    split; [intros c p []|]. split; [intros x p []|]. split; [tauto|auto].
  - destruct (issub h c target) eqn:S; [discriminate|].
    destruct (add_bases (bases h c) path v) as [v1 cur1] eqn:E1.
    destruct (expand h target l v1) as [[o v2] cur2] eqn:E2. injection E as -> <- <-.
    apply add_bases_spec in E1 as (A1 & A2 & A3 & A4).
    apply IH in E2 as (B1 & B2 & B3 & B4 & B5 & B6).
    split; [intros c' p' [H|H]; [injection H as <- <-; exact S|now apply (B1 c' p')]|].
    split.
    { intros x. rewrite B2, A1. split.
      - intros [[H|H]|(c' & p' & H1 & H2)]; [now left|right; exists c, path; split; [now left|exact H]|].
        right. exists c', p'. split; [now right|exact H2].
      - intros [H|(c' & p' & [H1|H1] & H2)]; [now left; left| |].
        + injection H1 as <- <-. left. now right.
        + right. now exists c', p'. }
    split.
    { intros c' p' [H|H]; [now left|right]. apply in_or_app. right. now apply B3. }
    split.
    { intros x p [H|H].
      - injection H as <- <-. exists c. split; [now left|now left].
      - apply in_app_or in H as [H|H].
        + apply A2 in H as (-> & H & _). exists c. split; [now left|now right].
        + apply B4 in H as (c' & H1 & H2). exists c'. split; [now right|exact H2]. }
    split.
    { intros x Hx Nx. destruct (in_dec Nat.eq_dec x v1) as [Hv|Hv].
      - exists c, path. pose proof (proj1 (A1 x) Hv) as [H|H]; [contradiction|].
        split; [now left|]. split; [exact H|]. right. apply in_or_app. left. now apply A3.
      - destruct (B5 x Hx Hv) as (c' & p' & H1 & H2 & H3). exists c', p'. split; [now right|].
        split; [exact H2|]. right. apply in_or_app. now right. }
    auto.
Qed.

(** A hit. *)
Lemma expand_hit : forall conv v path v' cur, expand h target conv v = (Some path, v', cur) ->
  exists c, In (c, path) conv /\ issub h c target = true.
Proof.
  induction conv as [|[c p] l IH]; intros v path v' cur E; cbn in E; [discriminate|].
  destruct (issub h c target) eqn:S.
  - injection E as <- _ _. exists c. split; [now left|exact S].
  - destruct (add_bases (bases h c) p v) as [v1 cur1].
    destruct (expand h target l v1) as [[o v2] cur2] eqn:E2. injection E as -> _ _.
    apply IH in E2 as (c' & H1 & H2). exists c'. split; [now right|exact H2].
Qed.

Lemma apply_table_spec : forall t path v v' new, apply_table t path v = (v', new) ->
  (forall x, In x v' <-> In x v \/ exists k, In (x, k) t) /\
  (forall x p, In (x, p) new -> ~ In x v /\ In x v' /\ exists k, In (x, k) t /\ p = path ++ [k]) /\
  (forall x, In x v' -> In x v \/ exists p, In (x, p) new) /\
  (NoDup v -> NoDup v' /\ length v' = length v + length new).
Proof.
  induction t as [|[d k] t IH]; intros path v v' new E; cbn in E.
  - injection E as <- <-. split; [intros x; split; [auto|intros [H|(k & [])]; exact H]|].
    split; [intros x p []|]. split; [auto|]. cbn. intros H. split; [exact H|lia].
  - destruct (memn d v) eqn:M.
    + apply memn_in in M. apply IH in E as (H1 & H2 & H3 & H4). split; [|split; [|split]]; auto.
      * intros x. rewrite H1. split.
        -- intros [H|(k' & H)]; [now left|right; exists k'; now right].
        -- intros [H|(k' & [H|H])]; [now left|injection H as <- <-; now left|right; now exists k'].
      * intros x p Hx. apply H2 in Hx as (A & B & k' & C & F). split; [exact A|]. split; [exact B|].
        exists k'. split; [now right|exact F].
    + assert (Nd : ~ In d v) by (rewrite <- memn_in; congruence).
      destruct (apply_table t path (d :: v)) as [v1 new1] eqn:E1. injection E as <- <-.
      apply IH in E1 as (H1 & H2 & H3 & H4). split; [|split; [|split]].
      * intros x. rewrite H1. cbn. split.
        -- intros [[<-|H]|(k' & H)]; [right; exists k; now left|now left|right; exists k'; now right].
        -- intros [H|(k' & [H|H])]; [now left; right|injection H as <- <-; now left; left|right; now exists k'].
      * intros x p [Hx|Hx].
        -- injection Hx as <- <-. split; [exact Nd|]. split; [apply H1; left; now left|].
           exists k. split; [now left|reflexivity].
        -- apply H2 in Hx as (A & B & k' & C & F). cbn in A. split; [tauto|]. split; [exact B|].
           exists k'. split; [now right|exact F].
      * intros x Hx. apply H3 in Hx as [[<-|H]|(p & H)]; [right; eexists; now left|now left|].
        right. exists p. now right.
      * intros ND. destruct H4 as [H4 H5]; [now constructor|]. split; [exact H4|]. cbn in *. lia.
Qed.

Lemma apply_all_spec : forall cur v v' new, apply_all h r cur v = (v', new) ->
  (forall x, In x v' <-> In x v \/ exists c p k, In (c, p) cur /\ In (x, k) (converters h r c)) /\
  (forall x p, In (x, p) new -> ~ In x v /\ In x v' /\
     exists c q k, In (c, q) cur /\ In (x, k) (converters h r c) /\ p = q ++ [k]) /\
  (forall x, In x v' -> In x v \/ exists p, In (x, p) new) /\
  (NoDup v -> NoDup v' /\ length v' = length v + length new).
Proof.
  induction cur as [|[c path] l IH]; intros v v' new E; cbn in E.
  - injection E as <- <-. split; [intros x; split; [auto|intros [H|(c & p & k & [] & _)]; exact H]|].
    split; [intros x p []|]. split; [auto|]. cbn. intros H. split; [exact H|lia].
  - destruct (apply_table (converters h r c) path v) as [v1 n1] eqn:E1.
    destruct (apply_all h r l v1) as [v2 n2] eqn:E2. injection E as <- <-.
    apply apply_table_spec in E1 as (A1 & A2 & A3 & A4). apply IH in E2 as (B1 & B2 & B3 & B4).
    split; [|split; [|split]].
    + intros x. rewrite B1, A1. split.
      * intros [[H|(k & H)]|(c' & p' & k & H1 & H2)]; [now left| |].
        -- right. exists c, path, k. split; [now left|exact H].
        -- right. exists c', p', k. split; [now right|exact H2].
      * intros [H|(c' & p' & k & [H1|H1] & H2)]; [now left; left| |].
        -- injection H1 as <- <-. left. right. now exists k.
        -- right. now exists c', p', k.
    + intros x p Hx. apply in_app_or in Hx as [Hx|Hx].
      * apply A2 in Hx as (N & Hv & k & H1 & H2). split; [exact N|]. split; [apply B1; now left|].
        exists c, path, k. split; [now left|auto].
      * apply B2 in Hx as (N & Hv & c' & q & k & H1 & H2). split; [intros H; apply N, A1; now left|].
        split; [exact Hv|]. exists c', q, k. split; [now right|exact H2].
    + intros x Hx. apply B3 in Hx as [Hx|(p & Hx)].
      * apply A3 in Hx as [Hx|(p & Hx)]; [now left|right; exists p; apply in_or_app; now left].
      * right. exists p. apply in_or_app. now right.
    + intros ND. destruct (A4 ND) as [ND1 L1]. destruct (B4 ND1) as [ND2 L2]. split; [exact ND2|].
      rewrite app_length. lia.
Qed.

(** ** The loop invariant *)
Variable src : nat.

Definition finished (v : list nat) (conv : list (nat * list nat)) (x : nat) : Prop :=
  In x v /\ ~ exists p, In (x, p) conv.

Record loop_inv (i : nat) (conv : list (nat * list nat)) (v : list nat) : Prop := LI {
  li_nodup : NoDup v;
  li_sound : forall c p, In (c, p) conv -> In c v /\ chain h r src p c /\ length p = i;
  li_done : forall x, finished v conv x -> issub h x target = false /\
    forall a t k, issub h x a = true -> In (t, k) (converters h r a) -> In t v;
  li_dist : forall ks x, chain h r src ks x -> length ks <= i -> In x v;
  li_near : forall ks x, chain h r src ks x -> length ks < i -> finished v conv x }.

Hypothesis IN : inherited h r.

Lemma loop_step : forall i conv v v1 cur v2 conv2, loop_inv i conv v ->
  expand h target conv v = (None, v1, cur) -> apply_all h r cur v1 = (v2, conv2) ->
  loop_inv (S i) conv2 v2.
Proof.
  intros i conv v v1 cur v2 conv2 [ND So Do Di Ne] E1 E2.
  destruct WF as (W1 & W2 & W3).
  apply expand_spec in E1 as (A1 & A2 & A3 & A4 & A5 & A6).
  apply apply_all_spec in E2 as (B1 & B2 & B3 & B4).
  assert (Sub1 : forall x, In x v -> In x v1) by (intros x H; apply A2; now left).
  assert (Sub2 : forall x, In x v1 -> In x v2) by (intros x H; apply B1; now left).
  (* every class in v1 is finished in the new state *)
  assert (Cl : forall x, In x v1 -> issub h x target = false /\
     forall a t k, issub h x a = true -> In (t, k) (converters h r a) -> In t v2).
  { assert (Pr : forall c p, In (c, p) conv -> forall a t k, issub h c a = true ->
        In (t, k) (converters h r a) -> In t v2).
    { intros c p Hc a t k Ha Ht. destruct (IN c a t k Ha Ht) as (b & k' & Hb & Hk).
      assert (Hbv : In b v1).
      { destruct Hb as [->|Hb]; [apply Sub1; now apply (So c p)|]. apply A2. right. now exists c, p. }
      destruct Hb as [->|Hb].
      - apply B1. right. exists c, p, k'. split; [now apply A3|exact Hk].
      - destruct (in_dec Nat.eq_dec b v) as [Hv|Hv].
        + (* b was visited before *)
          destruct (classic_conv conv b) as [(q & Hq)|Nq].
          * apply B1. right. exists b, q, k'. split; [now apply A3|exact Hk].
          * apply Sub2, Sub1. destruct (Do b (conj Hv Nq)) as [_ D]. apply (D b t k'); auto.
        + destruct (A5 b Hbv Hv) as (c' & p' & H1 & H2 & H3). apply B1. right.
          exists b, p', k'. auto. }
    intros x Hx. destruct (in_dec Nat.eq_dec x v) as [Hv|Hv].
    - destruct (classic_conv conv x) as [(q & Hq)|Nq].
      + split; [now apply (A1 x q)|]. now apply (Pr x q).
      + destruct (Do x (conj Hv Nq)) as [D1 D2]. split; [exact D1|]. intros a t k Ha Ht.
        apply Sub2, Sub1. now apply (D2 a t k).
    - destruct (A5 x Hx Hv) as (c & p & H1 & H2 & H3). split.
      + destruct (issub h x target) eqn:S; [|reflexivity]. exfalso.
        assert (issub h c target = true) by (apply (W2 c x target); auto).
        rewrite (A1 c p H1) in H. discriminate.
      + intros a t k Ha Ht. apply (Pr c p H1 a t k); auto. apply (W2 c x a); auto. }
  assert (Fin : forall x, In x v1 -> finished v2 conv2 x).
  { intros x Hx. split; [now apply Sub2|]. intros (p & Hp). now apply B2 in Hp as [N _]. }
  constructor.
  - now apply B4, A6.
  - intros c p Hc. apply B2 in Hc as (N & Hv & c' & q & k & H1 & H2 & ->).
    split; [exact Hv|]. apply A4 in H1 as (c0 & H1 & H3). apply So in H1 as (_ & H4 & H5).
    split; [|rewrite app_length; cbn; lia].
    apply (chain_snoc h r src q c0 c' k c); auto. destruct H3 as [->|H3]; auto.
  - intros x [Hx Nx]. apply Cl. destruct (B3 x Hx) as [H|H]; [exact H|contradiction].
  - intros ks x Hc Hl. destruct ks as [|k0 ks0].
    + inversion Hc; subst. apply Sub2, Sub1. apply (Di []); [apply chain_nil|cbn; lia].
    + apply chain_unsnoc in Hc as (ks' & k & b & a & E & H1 & H2 & H3); [|discriminate].
      assert (L : length ks' <= i).
      { apply (f_equal (@length nat)) in E. rewrite app_length in E. cbn in *. lia. }
      apply Di in H1; [|exact L]. apply Sub1 in H1. destruct (Cl b H1) as [_ D]. now apply (D a x k).
  - intros ks x Hc Hl. apply Fin, Sub1. apply (Di ks x Hc). lia.
Qed.

Lemma loop_start : issub h src target = false -> loop_inv 0 [(src, [])] [src].
Proof.
  intros S. constructor.
  - constructor; [intros []|constructor].
  - intros c p [E|[]]. injection E as <- <-. split; [now left|]. split; [apply chain_nil|reflexivity].
  - intros x [[<-|[]] N]. exfalso. apply N. exists []. now left.
  - intros ks x H L. destruct ks; [|cbn in L; lia]. inversion H; subst. now left.
  - intros ks x H L. lia.
Qed.

(** No conversion when nothing is left to explore. *)
Lemma exhausted : forall i v, loop_inv i [] v -> forall ks d, chain h r src ks d ->
  issub h d target = false.
Proof.
  intros i v [ND So Do Di Ne].
  assert (Fin : forall x, In x v -> finished v [] x) by (intros x H; split; [exact H|intros (p & [])]).
  assert (R : forall ks c d, chain h r c ks d -> In c v -> In d v).
  { intros ks c d H. induction H as [c|c a t k ks d Hs Hi H IH]; intros Hc; [exact Hc|].
    apply IH. destruct (Do c (Fin c Hc)) as [_ D]. now apply (D a t k). }
  intros ks d H. apply (Do d). apply Fin. apply (R ks src d H).
  apply (Di []); [apply chain_nil|cbn; lia].
Qed.

Variable U : list nat.
Hypothesis CU : classes h r U.

Lemma search_spec : forall fuel i conv v, loop_inv i conv v -> incl v U ->
  length U + (match conv with [] => 0 | _ => 1 end) < fuel + length v ->
  (exists ks, search h r target fuel conv v = Ok ks /\ conversion h r src target ks /\
     forall ks', conversion h r src target ks' -> length ks <= length ks') \/
  (search h r target fuel conv v = Err NoConverterError /\
     forall ks', ~ conversion h r src target ks').
Proof.
  induction fuel as [|f IH]; intros i conv v L Iv Hf.
  { exfalso.
    pose proof (NoDup_incl_length (li_nodup _ _ _ L) Iv). lia. }
  cbn [search]. destruct conv as [|[c0 p0] conv'] eqn:EC.
  { right. split; [reflexivity|]. intros ks' (d & H & S). 
    rewrite (exhausted i v L ks' d H) in S. discriminate. }
  rewrite <- EC in L |- *. clear EC c0 p0 conv'.
  destruct (expand h target conv v) as [[[path|] v1] cur] eqn:E1.
  - left. exists path. split; [reflexivity|]. apply expand_hit in E1 as (c & Hc & S).
    destruct (li_sound _ _ _ L c path Hc) as (_ & H1 & H2). split; [now exists c|].
    intros ks' (d & H & Sd). destruct (le_lt_dec (length path) (length ks')) as [H3|H3]; [exact H3|].
    exfalso. rewrite H2 in H3. apply (li_near _ _ _ L ks' d H) in H3.
    apply (li_done _ _ _ L) in H3 as [H3 _]. congruence.
  - destruct (apply_all h r cur v1) as [v2 conv2] eqn:E2.
    pose proof (loop_step i conv v v1 cur v2 conv2 L E1 E2) as L2.
    assert (NDv := li_nodup _ _ _ L).
    apply expand_spec in E1 as (A1 & A2 & A3 & A4 & A5 & A6).
    apply apply_all_spec in E2 as (B1 & B2 & B3 & B4).
    destruct (B4 (A6 NDv)) as [ND2 Len].
    assert (I1 : incl v1 U).
    { intros x Hx. apply A2 in Hx as [Hx|(c & p & Hc & Hx)]; [now apply Iv|].
      destruct CU as [C1 _]. apply (C1 c); [|exact Hx]. apply Iv. now apply (li_sound _ _ _ L c p). }
    assert (I2 : incl v2 U).
    { intros x Hx. apply B1 in Hx as [Hx|(c & p & k & Hc & Hx)]; [now apply I1|].
      destruct CU as [_ C2]. apply (C2 c x k); [|exact Hx]. apply A4 in Hc as (c0 & Hc0 & Hc).
      assert (In c0 U) by (apply Iv; now apply (li_sound _ _ _ L c0 p)).
      destruct Hc as [->|Hc]; [assumption|]. destruct CU as [C1 _]. now apply (C1 c0). }
    assert (Len1 : length v <= length v1).
    { apply NoDup_incl_length; [exact NDv|]. intros x Hx. apply A2. now left. }
    apply (IH (S i) conv2 v2 L2 I2).
    destruct conv2; cbn [length] in Len; lia.
Qed.
End Search.
