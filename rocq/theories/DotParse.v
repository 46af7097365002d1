(** Parsing the argument string of SumMultiply. *)
From Coq Require Import Ascii String List Arith Lia Bool.
From Verif Require Import Base Shapes NumPy MiscArray Dot SpecDot.
Import ListNotations.
Open Scope nat_scope.

Lemma eqb_code : forall c d, Ascii.eqb c d = (nat_of_ascii c =? nat_of_ascii d).
Proof.
  intros c d. destruct (Ascii.eqb_spec c d) as [->|H]; [now rewrite Nat.eqb_refl|]. symmetry. apply Nat.eqb_neq. intros E. apply H.
  rewrite <- (ascii_nat_embedding c), <- (ascii_nat_embedding d). now rewrite E.
Qed.
Lemma key_char_ne : forall c, key_char c -> Ascii.eqb c "," = false /\ Ascii.eqb c "-" = false /\ Ascii.eqb c ">" = false.
Proof.
  intros c [_ H]. rewrite !eqb_code. change (nat_of_ascii ",") with 44. change (nat_of_ascii "-") with 45. change (nat_of_ascii ">") with 62.
  repeat split; apply Nat.eqb_neq; intros E; apply H; rewrite E; cbn; auto.
Qed.
Lemma filter_keep : forall l, (forall c, In c l -> is_space c = false) -> remove_whitespace l = l.
Proof.
  unfold remove_whitespace. induction l as [|c l IH]; intros H; [reflexivity|]. cbn [filter]. rewrite (H c) by now left. cbn [negb].
  f_equal. apply IH. intros d Hd. apply H. now right.
Qed.
Lemma split_comma_none : forall l, (forall c, In c l -> Ascii.eqb c "," = false) -> split_comma l = [l].
Proof.
  induction l as [|c l IH]; intros H; [reflexivity|]. cbn [split_comma]. rewrite (H c) by now left. rewrite IH; [reflexivity|].
  intros d Hd. apply H. now right.
Qed.
Lemma split_comma_app : forall k r, (forall c, In c k -> Ascii.eqb c "," = false) -> split_comma (k ++ ","%char :: r) = k :: split_comma r.
Proof.
  induction k as [|c k IH]; intros r H; [reflexivity|]. cbn [split_comma app]. rewrite (H c) by now left. rewrite IH; [reflexivity|].
  intros d Hd. apply H. now right.
Qed.
Lemma split_comma_ok : forall ins, ins <> [] -> (forall k, In k ins -> forall c, In c k -> Ascii.eqb c "," = false) ->
  split_comma (comma_separated ins) = ins.
Proof.
  induction ins as [|k ins IH]; intros N H; [congruence|]. destruct ins as [|k' ins].
  - cbn [comma_separated]. apply split_comma_none. apply H. now left.
  - change (comma_separated (k :: k' :: ins)) with (k ++ ","%char :: comma_separated (k' :: ins)).
    rewrite split_comma_app by (apply H; now left). f_equal. apply IH; [discriminate|]. intros q Hq. apply H. now right.
Qed.
Lemma split_arrow_none : forall l, (forall c, In c l -> Ascii.eqb c "-" = false) -> split_arrow l = [l].
Proof.
  induction l as [|c l IH]; intros H; [reflexivity|]. destruct l as [|d l]; [reflexivity|].
  change (split_arrow (c :: d :: l)) with (if Ascii.eqb c "-" && Ascii.eqb d ">" then [] :: split_arrow l else
    match split_arrow (d :: l) with [] => [[c]] | h :: t => (c :: h) :: t end).
  rewrite (H c) by now left. cbn [andb]. rewrite IH; [reflexivity|]. intros x Hx. apply H. now right.
Qed.
Lemma split_arrow_app : forall k r, (forall c, In c k -> Ascii.eqb c "-" = false) ->
  split_arrow (k ++ "-"%char :: ">"%char :: r) = k :: split_arrow r.
Proof.
  induction k as [|c k IH]; intros r H; [reflexivity|]. cbn [app]. destruct (k ++ "-"%char :: ">"%char :: r) as [|d l] eqn:E; [destruct k; discriminate|].
  change (split_arrow (c :: d :: l)) with (if Ascii.eqb c "-" && Ascii.eqb d ">" then [] :: split_arrow l else
    match split_arrow (d :: l) with [] => [[c]] | h :: t => (c :: h) :: t end).
  rewrite (H c) by now left. cbn [andb]. rewrite <- E, IH; [reflexivity|]. intros x Hx. apply H. now right.
Qed.
Lemma in_comma : forall ins c, In c (comma_separated ins) -> c = ","%char \/ exists k, In k ins /\ In c k.
Proof.
  induction ins as [|k ins IH]; intros c H; [destruct H|]. destruct ins as [|k' ins].
  - right. exists k. split; [now left|exact H].
  - change (comma_separated (k :: k' :: ins)) with (k ++ ","%char :: comma_separated (k' :: ins)) in H.
    apply in_app_or in H as [H|[H|H]]; [right; exists k; split; [now left|exact H]|left; now symmetry|].
    destruct (IH c H) as [->|[q [H1 H2]]]; [now left|]. right. exists q. split; [now right|assumption].
Qed.

Lemma parse_ok : forall ins out, ins <> [] -> (forall k, In k ins -> forall c, In c k -> key_char c) -> (forall c, In c out -> key_char c) ->
  sm_parse (einsum_string ins out) (List.length ins) = Ok (map (map nat_of_ascii) ins, map nat_of_ascii out).
Proof.
  intros ins out N H1 H2. unfold sm_parse, einsum_string. rewrite list_ascii_of_string_of_list_ascii.
  change (ascii_of_nat 45) with "-"%char. change (ascii_of_nat 62) with ">"%char.
  rewrite filter_keep.
  - rewrite split_arrow_app.
    + rewrite split_arrow_none by (intros c Hc; now apply key_char_ne, H2). cbn [List.length Nat.ltb Nat.leb].
      rewrite split_comma_ok; [|assumption|intros k Hk c Hc; now apply key_char_ne, (H1 k Hk)].
      rewrite Nat.eqb_refl. reflexivity.
    + intros c Hc. apply in_comma in Hc as [->|[k [Hk Hc]]]; [reflexivity|]. now apply key_char_ne, (H1 k Hk).
  - intros c Hc. apply in_app_or in Hc as [Hc|[<-|[<-|Hc]]]; [|reflexivity|reflexivity|now apply H2].
    apply in_comma in Hc as [->|[k [Hk Hc]]]; [reflexivity|]. now apply (H1 k Hk).
Qed.

(** Without an arrow there are no output keys. *)
Lemma parse_no_out : forall ins, ins <> [] -> (forall k, In k ins -> forall c, In c k -> key_char c) ->
  sm_parse (string_of_list_ascii (comma_separated ins)) (List.length ins) = Ok (map (map nat_of_ascii) ins, []).
Proof.
  intros ins N H1. unfold sm_parse. rewrite list_ascii_of_string_of_list_ascii. rewrite filter_keep.
  - rewrite split_arrow_none.
    + cbn [List.length Nat.ltb Nat.leb]. rewrite split_comma_ok; [|assumption|intros k Hk c Hc; now apply key_char_ne, (H1 k Hk)].
      rewrite Nat.eqb_refl. reflexivity.
    + intros c Hc. apply in_comma in Hc as [->|[k [Hk Hc]]]; [reflexivity|]. now apply key_char_ne, (H1 k Hk).
  - intros c Hc. apply in_comma in Hc as [->|[k [Hk Hc]]]; [reflexivity|]. now apply (H1 k Hk).
Qed.

(** Every string. *)
Lemma white_space : forall c, is_space c = true <-> white c.
Proof.
  intros c. unfold is_space, white. set (n := nat_of_ascii c). rewrite !orb_true_iff, !andb_true_iff, !Nat.leb_le, !Nat.eqb_eq. cbn [In]. lia.
Qed.
Lemma unspaced_ok : forall s t, unspaced s t <-> remove_whitespace s = t.
Proof.
  unfold remove_whitespace. induction s as [|c s IH]; intros t; cbn [filter].
  - split; intros H; [now inversion H|subst; constructor].
  - destruct (is_space c) eqn:E; cbn [negb].
    + apply white_space in E. rewrite <- IH. split; intros H; [inversion H; subst; [assumption|contradiction]|now constructor].
    + assert (N : ~ white c) by (rewrite <- white_space; congruence). split.
      * intros H. inversion H; subst; [contradiction|]. f_equal. now apply IH.
      * intros <-. constructor; [exact N|]. now apply IH.
Qed.
Lemma split_arrow_cons : forall c d l, split_arrow (c :: d :: l) = if Ascii.eqb c "-" && Ascii.eqb d ">" then [] :: split_arrow l else
    match split_arrow (d :: l) with [] => [[c]] | h :: t => (c :: h) :: t end.
Proof. reflexivity. Qed.
Lemma no_arrow_tl : forall c l, no_arrow (c :: l) -> no_arrow l.
Proof. intros c l H a b E. apply (H (c :: a) b). now rewrite E. Qed.
Lemma no_arrow_hd : forall c d l, no_arrow (c :: d :: l) -> Ascii.eqb c "-" && Ascii.eqb d ">" = false.
Proof.
  intros c d l H. destruct (Ascii.eqb_spec c "-"), (Ascii.eqb_spec d ">"); try reflexivity. exfalso. subst. exact (H [] l eq_refl).
Qed.
Lemma split_no_arrow : forall l, no_arrow l -> split_arrow l = [l].
Proof.
  induction l as [|c l IH]; intros H; [reflexivity|]. destruct l as [|d l]; [reflexivity|].
  rewrite split_arrow_cons, (no_arrow_hd c d l H), IH by exact (no_arrow_tl _ _ H). reflexivity.
Qed.
Lemma split_at_arrow : forall a r, no_arrow a -> split_arrow (a ++ arrow ++ r) = a :: split_arrow r.
Proof.
  induction a as [|c a IH]; intros r H; [reflexivity|]. cbn [app]. destruct a as [|d a].
  - cbn [app arrow]. rewrite split_arrow_cons. change (ascii_of_nat 45) with "-"%char. change (ascii_of_nat 62) with ">"%char.
    replace (Ascii.eqb c "-" && Ascii.eqb "-" ">") with false by (now rewrite andb_false_r). specialize (IH r). cbn [app arrow] in IH.
    change (ascii_of_nat 45) with "-"%char in IH. change (ascii_of_nat 62) with ">"%char in IH. rewrite IH; [reflexivity|]. exact (no_arrow_tl _ _ H).
  - cbn [app]. rewrite split_arrow_cons, (no_arrow_hd c d a H). change (d :: a ++ arrow ++ r) with ((d :: a) ++ arrow ++ r).
    rewrite IH by exact (no_arrow_tl _ _ H). reflexivity.
Qed.
(** Either there is no arrow, or the string is cut at the first one. *)
Lemma first_arrow : forall l, no_arrow l \/ exists a r, l = a ++ arrow ++ r /\ no_arrow a.
Proof.
  assert (N0 : no_arrow []) by (intros [|x a] b E; discriminate).
  induction l as [|c l IH]; [left; exact N0|]. destruct l as [|d l].
  - left. intros [|x [|y a]] b E; discriminate.
  - destruct (Ascii.eqb c "-" && Ascii.eqb d ">") eqn:E.
    + right. exists [], l. split; [|exact N0]. apply andb_true_iff in E as [E1 E2]. apply Ascii.eqb_eq in E1, E2. now subst.
    + assert (HC : forall q, no_arrow (d :: q) -> no_arrow (c :: d :: q)).
      { intros q Hq [|x a] b Eq; [injection Eq as -> -> _; discriminate E|]. injection Eq as _ Eq. exact (Hq a b Eq). }
      destruct IH as [H|[a [r [H Ha]]]]; [left; now apply HC|]. right. destruct a as [|d' a].
      * exists [c], r. split; [cbn [app] in *; now rewrite H|]. intros [|x [|y a]] b Eq; discriminate.
      * cbn [app] in H. injection H as <- ->. exists (c :: d :: a), r. split; [reflexivity|]. now apply HC.
Qed.
Lemma split_comma_nonempty : forall l, split_comma l <> [].
Proof. destruct l as [|c l]; cbn [split_comma]; [discriminate|]. destruct (Ascii.eqb c ","); [discriminate|]. destruct (split_comma l); discriminate. Qed.
Lemma split_comma_inv : forall l, comma_separated (split_comma l) = l /\ forall k, In k (split_comma l) -> ~ In comma k.
Proof.
  induction l as [|c l [IH1 IH2]]; [split; [reflexivity|]; intros k [<-|[]] []|]. cbn [split_comma]. pose proof (split_comma_nonempty l) as N.
  destruct (Ascii.eqb_spec c ",") as [->|NE].
  - split; [|intros k [<-|H]; [intros []|now apply IH2]]. destruct (split_comma l) as [|h t]; [congruence|].
    change (comma_separated ([] :: h :: t)) with (","%char :: comma_separated (h :: t)). now rewrite IH1.
  - destruct (split_comma l) as [|h t]; [congruence|]. split.
    + rewrite <- IH1. destruct t; reflexivity.
    + intros k [<-|H]; [|apply IH2; now right]. intros [E|H]; [now apply NE|]. exact (IH2 h (or_introl eq_refl) H).
Qed.
Lemma no_comma_eqb : forall ins, (forall k, In k ins -> ~ In comma k) -> forall k, In k ins -> forall c, In c k -> Ascii.eqb c "," = false.
Proof. intros ins H k Hk c Hc. destruct (Ascii.eqb_spec c ","); [|reflexivity]. exfalso. subst. exact (H k Hk Hc). Qed.

Lemma parse_iff : forall s n ks o, sm_parse s n = Ok (ks, o) <->
  exists ins out, argument_string (list_ascii_of_string s) ins out /\ List.length ins = n /\
    ks = map (map nat_of_ascii) ins /\ o = map nat_of_ascii out.
Proof.
  intros s n ks o. unfold sm_parse, argument_string. split.
  - intros H. set (t := remove_whitespace (list_ascii_of_string s)) in *. assert (U : unspaced (list_ascii_of_string s) t) by now apply unspaced_ok.
    destruct (first_arrow t) as [N|[a [r [E Na]]]].
    + rewrite (split_no_arrow t N) in H. cbn [List.length Nat.ltb Nat.leb] in H. destruct (Nat.eqb_spec (List.length (split_comma t)) n) as [L|L]; [|discriminate].
      cbn [negb] in H. injection H as <- <-. destruct (split_comma_inv t) as [C1 C2]. exists (split_comma t), []. rewrite C1.
      split; [|repeat split; assumption]. split; [apply split_comma_nonempty|]. split; [exact C2|]. split; [exact N|]. split; [intros [|x [|y a]] b E; discriminate|]. right. now split.
    + rewrite E, (split_at_arrow a r Na) in H. destruct (first_arrow r) as [N|[b [r' [E' Nb]]]].
      2:{ rewrite E', (split_at_arrow b r' Nb) in H. destruct (split_arrow r') as [|h u] eqn:Z; [|cbn in H; discriminate].
          exfalso. destruct (first_arrow r') as [N|[b' [r'' [E'' Nb']]]]; [rewrite (split_no_arrow r' N) in Z; discriminate|].
          rewrite E'', split_at_arrow in Z by assumption. discriminate. }
      rewrite (split_no_arrow r N) in H. cbn [List.length Nat.ltb Nat.leb] in H. destruct (Nat.eqb_spec (List.length (split_comma a)) n) as [L|L]; [|discriminate].
      cbn [negb] in H. injection H as <- <-. destruct (split_comma_inv a) as [C1 C2]. exists (split_comma a), r. rewrite C1, <- E.
      split; [|repeat split; assumption]. split; [apply split_comma_nonempty|]. split; [exact C2|]. split; [exact Na|]. split; [exact N|]. now left.
  - intros (ins & out & (NE & NC & N1 & N2 & U) & <- & -> & ->).
    assert (CO : split_comma (comma_separated ins) = ins) by (apply split_comma_ok; [exact NE|exact (no_comma_eqb ins NC)]).
    destruct U as [U|[U ->]]; apply unspaced_ok in U; rewrite U.
    + rewrite split_at_arrow, split_no_arrow by assumption. cbn [List.length Nat.ltb Nat.leb]. rewrite CO, Nat.eqb_refl. reflexivity.
    + rewrite split_no_arrow by assumption. cbn [List.length Nat.ltb Nat.leb]. rewrite CO, Nat.eqb_refl. reflexivity.
Qed.
Lemma parse_raises : forall s n e, sm_parse s n = Err e -> e = ValueError.
Proof.
  intros s n e. unfold sm_parse. set (t := remove_whitespace (list_ascii_of_string s)). destruct (split_arrow t) as [|a r] eqn:Z.
  - exfalso. destruct (first_arrow t) as [N|[a [r [E Na]]]]; [rewrite (split_no_arrow t N) in Z; discriminate|]. rewrite E, split_at_arrow in Z by assumption. discriminate.
  - destruct (1 <? List.length r); [congruence|]. cbv zeta. destruct (List.length (split_comma a) =? n); cbn [negb]; congruence.
Qed.

Lemma list_ascii_app : forall a b, list_ascii_of_string (a ++ b)%string = list_ascii_of_string a ++ list_ascii_of_string b.
Proof. induction a as [|c a IH]; intros b; [reflexivity|]. cbn. now rewrite IH. Qed.
Lemma dot_tail : forall n, list_ascii_of_string ("i" ++ String.concat ""%string (repeat ",i"%string n))%string = comma_separated (repeat ["i"%char] (S n)).
Proof.
  induction n as [|n IH]; [reflexivity|].
  assert (E : forall m, String.concat ""%string (repeat ",i"%string (S m)) = (",i" ++ String.concat ""%string (repeat ",i"%string m))%string) by (intros [|m]; reflexivity).
  rewrite E. change (comma_separated (repeat ["i"%char] (S (S n)))) with ("i"%char :: ","%char :: comma_separated (repeat ["i"%char] (S n))).
  rewrite <- IH. reflexivity.
Qed.
Lemma dot_parse : forall n, 0 < n -> sm_parse (dot_string n) n = Ok (repeat [nat_of_ascii "i"] n, []).
Proof.
  intros n Hn. destruct n as [|n]; [lia|]. unfold dot_string. replace (S n - 1) with n by lia.
  rewrite <- (string_of_list_ascii_of_string ("i" ++ String.concat ""%string (repeat ",i"%string n))%string). rewrite dot_tail.
  rewrite <- (repeat_length ["i"%char] (S n)) at 2. rewrite parse_no_out.
  - f_equal. f_equal. generalize (S n). intros m. induction m as [|m IH]; [reflexivity|]. cbn [repeat map]. now rewrite IH.
  - discriminate.
  - intros k Hk c Hc. apply repeat_spec in Hk as ->. destruct Hc as [<-|[]]. split; [reflexivity|]. cbn. lia.
Qed.
