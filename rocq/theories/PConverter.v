(** Property C32: the converter search. *)
From Coq Require Import List Arith Lia Bool.
From Verif Require Import Base Converter SpecConverter ConverterLemmas.
Import ListNotations.

(** The search terminates; it returns a shortest conversion, or NoConverterError
    when there is none. *)
Theorem C32_search_partial : forall h r U src target,
  well_formed h -> inherited h r -> classes h r U -> In src U ->
  exists N, forall fuel, N <= fuel ->
  (exists ks, get_converter h r target fuel src = Ok ks /\ conversion h r src target ks /\
     forall ks', conversion h r src target ks' -> length ks <= length ks') \/
  (get_converter h r target fuel src = Err NoConverterError /\
     forall ks', ~ conversion h r src target ks').
Proof.
  intros h r U src target WF IN CU Hs. exists (length U + 1). intros fuel Hf. unfold get_converter.
  destruct (issub h src target) eqn:S.
  - left. exists []. split; [reflexivity|]. split; [|intros; cbn; lia].
    exists src. split; [apply chain_nil|exact S].
  - apply (search_spec h r target WF src IN U CU fuel 0); [now apply loop_start| |cbn; lia].
    intros x [<-|[]]. exact Hs.
Qed.
Print Assumptions C32_search_partial.

(** Without the assumption on inherited tables: whatever is returned is a chain
    of registered converters that ends in the target class or a subclass. *)
Theorem C32_sound : forall h r target src fuel ks, well_formed h ->
  get_converter h r target fuel src = Ok ks -> conversion h r src target ks.
Proof.
  intros h r target src fuel ks WF E. unfold get_converter in E.
  destruct (issub h src target) eqn:S.
  { injection E as <-. exists src. split; [apply chain_nil|exact S]. }
  assert (G : forall fuel conv v, (forall c p, In (c, p) conv -> chain h r src p c) ->
     search h r target fuel conv v = Ok ks -> conversion h r src target ks).
  { clear E fuel. induction fuel as [|f IH]; intros conv v Hc E; [discriminate|].
    cbn [search] in E. destruct conv as [|x conv0] eqn:EC; [discriminate|]. rewrite <- EC in *. clear EC x conv0.
    destruct (expand h target conv v) as [[[path|] v1] cur] eqn:E1.
    - injection E as <-. apply expand_hit in E1 as (c & H1 & H2). exists c. auto.
    - destruct (apply_all h r cur v1) as [v2 conv2] eqn:E2. apply IH in E; [exact E|].
      apply expand_spec in E1 as (_ & _ & _ & A4 & _). apply apply_all_spec in E2 as (_ & B2 & _).
      intros c p Hcp. apply B2 in Hcp as (_ & _ & c' & q & k & H1 & H2 & ->).
      apply A4 in H1 as (c0 & H1 & H3). apply (chain_snoc h r src q c0 c' k c); auto.
      destruct WF as (W1 & _ & W3). destruct H3 as [->|H3]; auto. }
  apply (G fuel _ _) in E; [exact E|]. intros c p [H|[]]. injection H as <- <-. apply chain_nil.
Qed.
Print Assumptions C32_sound.

(** The search terminates for every hierarchy and every table, cyclic or not. *)
Theorem C32_terminates : forall h r U src target, classes h r U -> In src U ->
  exists N, forall fuel, N <= fuel -> get_converter h r target fuel src <> Err Interrupted.
Proof.
  intros h r U src target CU Hs. exists (length U + 1). intros fuel Hf. unfold get_converter.
  destruct (issub h src target); [discriminate|].
  assert (G : forall fuel conv v, NoDup v -> incl v U -> (forall c p, In (c, p) conv -> In c v) ->
    length U + (match conv with [] => 0 | _ => 1 end) < fuel + length v ->
    search h r target fuel conv v <> Err Interrupted).
  { clear fuel Hf. induction fuel as [|f IH]; intros conv v ND Iv Cv Hf.
    { pose proof (NoDup_incl_length ND Iv). lia. }
    cbn [search]. destruct conv as [|x conv0] eqn:EC; [discriminate|]. rewrite <- EC in Cv |- *. clear EC x conv0.
    destruct (expand h target conv v) as [[[path|] v1] cur] eqn:E1; [discriminate|].
    destruct (apply_all h r cur v1) as [v2 conv2] eqn:E2.
    apply expand_spec in E1 as (A1 & A2 & A3 & A4 & A5 & A6).
    apply apply_all_spec in E2 as (B1 & B2 & B3 & B4). destruct (B4 (A6 ND)) as [ND2 Len].
    destruct CU as [C1 C2].
    assert (I1 : incl v1 U).
    { intros x Hx. apply A2 in Hx as [Hx|(c & p & Hc & Hx)]; [now apply Iv|].
      apply (C1 c); [|exact Hx]. now apply Iv, (Cv c p). }
    assert (Len1 : length v <= length v1).
    { apply NoDup_incl_length; [exact ND|]. intros x Hx. apply A2. now left. }
    apply IH; auto.
    - intros x Hx. apply B1 in Hx as [Hx|(c & p & k & Hc & Hx)]; [now apply I1|].
      apply (C2 c x k); [|exact Hx]. apply A4 in Hc as (c0 & Hc0 & Hc).
      assert (In c0 U) by (apply Iv; now apply (Cv c0 p)).
      destruct Hc as [->|Hc]; [assumption|]. now apply (C1 c0).
    - intros c p Hc. now apply B2 in Hc as (_ & Hc & _).
    - destruct conv2; cbn [length] in Len; lia. }
  apply G.
  - constructor; [intros []|constructor].
  - intros x [<-|[]]. exact Hs.
  - intros c p [H|[]]. injection H as <- <-. now left.
  - cbn. lia.
Qed.
Print Assumptions C32_terminates.

(** The composed function turns a node of the source class into one of the
    target class, for every meaning of the converters that respects the classes
    they are registered for. *)
Theorem C32_composite_converts : forall h r target src fuel ks (X : Type)
  (has_class : X -> nat -> Prop) (run : nat -> X -> X), well_formed h ->
  (forall x c d, issub h c d = true -> has_class x c -> has_class x d) ->
  (forall c t k x, In (t, k) (converters h r c) -> has_class x c -> has_class (run k x) t) ->
  get_converter h r target fuel src = Ok ks ->
  forall x, has_class x src -> has_class (composite_function (map run ks) x) target.
Proof.
  intros h r target src fuel ks X hc run WF Up Ty E x Hx.
  apply (C32_sound h r target src fuel ks WF) in E as (d & Hc & Hd).
  apply (Up _ d target Hd). clear Hd. revert x Hx.
  induction Hc as [c|c a t k ks d Hs Hi H IH]; intros x Hx; [exact Hx|].
  cbn. apply IH. apply (Ty a t k x Hi). now apply (Up x c a).
Qed.
Print Assumptions C32_composite_converts.

(** The registrations made by BayesPy itself: 0 Moments, 1 GaussianMoments,
    2 GaussianGammaMoments, 3 GaussianWishartMoments, 4 GaussianMarkovChainMoments,
    5 MultinomialMoments, 6 CategoricalMoments, 7 PoissonMoments, 8 BinomialMoments,
    9 BernoulliMoments, 10 CategoricalMarkovChainMoments (gaussian.py 2275, 2288,
    gaussian_markov_chain.py 2097, bernoulli.py 162, categorical_markov_chain.py 437). *)
Definition bp_mro (c : nat) : list nat :=
  match c with
  | 0 => [0] | 6 => [6; 5; 0] | 8 => [8; 7; 0] | 9 => [9; 8; 7; 0]
  | 1 | 2 | 3 | 4 | 5 | 7 | 10 => [c; 0] | _ => [c]
  end.
Definition bp : hierarchy := Hier (fun c => match bp_mro c with _ :: b :: _ => [b] | _ => [] end)
  bp_mro (fun c d => memn d (bp_mro c)).
Definition bp_reg : registry :=
  let r0 : registry := fun c => if c =? 0 then Some [] else None in
  let r1 := add_converter bp r0 1 2 100 in
  let r2 := add_converter bp r1 2 3 101 in
  let r3 := add_converter bp r2 4 1 102 in
  let r4 := add_converter bp r3 6 9 103 in
  add_converter bp r4 10 6 104.

Example C32_bayespy : well_formed bp /\ inherited bp bp_reg /\ classes bp bp_reg (seq 0 11) /\
  get_converter bp bp_reg 3 12 4 = Ok [102; 100; 101] /\
  get_converter bp bp_reg 8 12 10 = Ok [104; 103] /\
  get_converter bp bp_reg 10 12 4 = Err NoConverterError.
Proof.
  split; [split; [|split]|split; [|split]].
  - intros c. cbn. destruct (le_lt_dec 11 c) as [L|L].
    + replace (bp_mro c) with [c] by (do 11 (destruct c as [|c]; [lia|]); reflexivity).
      cbn. now rewrite Nat.eqb_refl.
    + do 11 (destruct c as [|c]; [reflexivity|]). lia.
  - intros a b c. cbn. rewrite !memn_in. intros Ha Hb.
    destruct (le_lt_dec 11 a) as [L|L].
    + replace (bp_mro a) with [a] in * by (do 11 (destruct a as [|a]; [lia|]); reflexivity).
      destruct Ha as [<-|[]].
      replace (bp_mro a) with [a] in * by (do 11 (destruct a as [|a]; [lia|]); reflexivity). exact Hb.
    + do 11 (destruct a as [|a]; [cbn in Ha; repeat (destruct Ha as [<-|Ha]; [cbn in *; tauto|]); destruct Ha|]).
      lia.
  - intros c b Hb. cbn in *. apply memn_in. do 11 (destruct c as [|c]; [cbn in *; tauto|]). destruct Hb.
  - intros c a t k Ha Ht. cbn in Ha. apply memn_in in Ha.
    destruct (le_lt_dec 11 c) as [L|L].
    + replace (bp_mro c) with [c] in * by (do 11 (destruct c as [|c]; [lia|]); reflexivity).
      destruct Ha as [<-|[]]. exists c, k. auto.
    + assert (A : forallb (fun c => forallb (fun a => match converters bp bp_reg a with [] => true | _ => a =? c end)
          (bp_mro c)) (seq 0 11) = true) by reflexivity.
      rewrite forallb_forall in A. specialize (A c). rewrite in_seq, forallb_forall in A.
      specialize (A ltac:(lia) a Ha). destruct (converters bp bp_reg a) eqn:Ea; [destruct Ht|].
      apply Nat.eqb_eq in A. subst a. exists c, k. rewrite Ea. auto.
  - split.
    + intros c b Hc Hb. apply in_seq in Hc. apply in_seq.
      do 11 (destruct c as [|c]; [cbn in Hb; repeat (destruct Hb as [<-|Hb]; [lia|]); destruct Hb|]). lia.
    + intros c t k Hc Ht. apply in_seq in Hc. apply in_seq.
      do 11 (destruct c as [|c]; [vm_compute in Ht; repeat (destruct Ht as [Ht|Ht]; [injection Ht as <- <-; lia|]); destruct Ht|]). lia.
  - vm_compute. auto.
Qed.

(** False in general: class 1 derives from 2 and 2 from 3.  A converter is
    registered for 2 and afterwards one from 3 to 5.  It applies to class 1, but
    the search looks at direct bases only and reports that there is none. *)
Definition deep : hierarchy := Hier
  (fun c => match c with 1 => [2] | 2 => [3] | _ => [] end)
  (fun c => match c with 1 => [1; 2; 3] | 2 => [2; 3] | _ => [c] end)
  (fun c d => memn d (match c with 1 => [1; 2; 3] | 2 => [2; 3] | _ => [c] end)).
Definition deep_reg : registry :=
  add_converter deep (add_converter deep (fun c => if c =? 3 then Some [] else None) 2 4 100) 3 5 101.

Theorem C32_grandparent_converter_missed_refuted :
  well_formed deep /\ conversion deep deep_reg 1 5 [101] /\
  forall fuel, 3 <= fuel -> get_converter deep deep_reg 5 fuel 1 = Err NoConverterError.
Proof.
  split; [split; [|split]|split].
  - intros [|[|[|c]]]; cbn; try reflexivity. now rewrite Nat.eqb_refl.
  - intros a b c. cbn. rewrite !memn_in. intros Ha Hb. destruct a as [|[|[|a]]]; cbn in Ha.
    + destruct Ha as [<-|[]]. exact Hb.
    + destruct Ha as [<-|[<-|[<-|[]]]]; cbn in *; tauto.
    + destruct Ha as [<-|[<-|[]]]; cbn in *; tauto.
    + destruct Ha as [<-|[]]. exact Hb.
  - intros [|[|[|c]]] b; cbn; try tauto; intros [<-|[]]; reflexivity.
  - exists 5. split; [|reflexivity]. apply (chain_cons deep deep_reg 1 3 5 101 [] 5); [reflexivity| |apply chain_nil].
    vm_compute. auto.
  - intros [|[|[|fuel]]] H; try lia. reflexivity.
Qed.
Print Assumptions C32_grandparent_converter_missed_refuted.

(** Registering a converter: the class gets it beside those it has or inherits, a new converter
    for the same target replaces the old one, and no class outside its subclasses is touched. *)
Theorem C32_registration : forall h r c t k rest, mro h c = c :: rest -> 
  let r' := add_converter h r c t k in
  (forall t' k', In (t', k') (converters h r' c) <-> (t' = t /\ k' = k) \/ (t' <> t /\ In (t', k') (converters h r c))) /\
  (forall x, ~ In c (mro h x) -> converters h r' x = converters h r x) /\
  (forall x before after, mro h x = before ++ c :: after -> (forall y, In y before -> r y = None /\ y <> c) -> converters h r' x = converters h r' c).
Proof.
  intros h r c t k rest Hc r'. assert (EC : converters h r' c = dict_set (converters h r c) t k).
  { unfold converters at 1. rewrite Hc. cbn [lookup_in]. unfold r', add_converter. now rewrite Nat.eqb_refl. }
  split; [|split].
  - rewrite EC. intros t' k'. generalize (converters h r c). intros d. unfold dict_set.
    assert (MM : forall l, In (t', k') (map (fun e => if fst e =? t then (t, k) else e) l) <-> (existsb (fun e => fst e =? t) l = true /\ t' = t /\ k' = k) \/ (t' <> t /\ In (t', k') l)).
    { induction l as [|[a b] l IH]; cbn [map In existsb fst]; [split; [tauto|intros [[H _]|[_ []]]; discriminate]|]. rewrite IH.
      destruct (Nat.eqb_spec a t) as [->|N]; cbn [orb].
      - split.
        + intros [H|[H|H]]; [injection H as <- <-; left; auto|left; tauto|right; tauto].
        + intros [H|[H [I|I]]]; [destruct H as (_ & -> & ->); left; reflexivity|injection I as -> _; contradiction|right; right; tauto].
      - split.
        + intros [H|[H|H]]; [injection H as <- <-; right; auto|left; tauto|right; tauto].
        + intros [H|[H [I|I]]]; [right; left; tauto|left; exact I|right; right; tauto]. }
    destruct (existsb (fun e => fst e =? t) d) eqn:EX; [rewrite MM, EX; tauto|]. rewrite in_app_iff. cbn [In].
    split.
    + intros [H|[H|[]]].
      * right. split; [|exact H]. intros ->. assert (existsb (fun e => fst e =? t) d = true); [|congruence].
        apply existsb_exists. exists (t, k'). split; [exact H|apply Nat.eqb_refl].
      * injection H as <- <-. left. auto.
    + intros [[-> ->]|[_ H]]; [right; left; reflexivity|left; exact H].
  - intros x Hx. unfold converters. induction (mro h x) as [|y l IH]; [reflexivity|]. cbn [lookup_in]. unfold r' at 1, add_converter.
    destruct (Nat.eqb_spec y c) as [->|N]; [exfalso; apply Hx; now left|]. destruct (r y); [reflexivity|]. apply IH. intros H. apply Hx. now right.
  - intros x before after Hx HB. rewrite EC. unfold converters at 1. rewrite Hx. clear Hx. induction before as [|y l IH]; cbn [app lookup_in].
    + unfold r', add_converter. now rewrite Nat.eqb_refl.
    + destruct (HB y (or_introl eq_refl)) as [H1 H2]. unfold r' at 1, add_converter. destruct (Nat.eqb_spec y c) as [E|_]; [contradiction|]. rewrite H1. apply IH. intros z Hz. apply HB. now right.
Qed.
Print Assumptions C32_registration.
Example ex_C32_registration : mro deep 1 = 1 :: tl (mro deep 1) /\ In (4, 100) (converters deep (add_converter deep deep_reg 2 9 200) 2).
Proof. split; [reflexivity|]. cbn. tauto. Qed.
