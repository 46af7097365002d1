(** C47: Add and ConcatGaussian. *)
From Coq Require Import List Arith ZArith Lia Bool Reals Lra FunctionalExtensionality.
From Verif Require Import Base Shapes SpecShapes ShapesLemmas NumPy MiscArray SpecArray TakeConcat Dot SpecDot PDot AddNode SpecAdd AddLemmas ConcatLemmas3.
Import ListNotations.
Open Scope nat_scope.

(** ** Arguments *)

(** Add accepts exactly two or more parents with the same shape. *)
Theorem C47_add_arguments : forall dimss,
  (forall d, add_init dimss = Ok d <-> 2 <= length dimss /\ forall d', In d' dimss -> d' = d) /\
  (forall e, add_init dimss = Err e -> e = ValueError).
Proof.
  intros dimss. assert (SD : forall l, same_dims l = true <-> forall a b, In a l -> In b l -> a = b).
  { induction l as [|a l IH]; [split; [intros _ a b []|reflexivity]|]. destruct l as [|b r].
    - split; [intros _ x y [<-|[]] [<-|[]]; reflexivity|reflexivity].
    - cbn [same_dims]. rewrite andb_true_iff. change (match r with [] => true | b0 :: _ => (if list_eq_dec Nat.eq_dec b b0 then true else false) && same_dims r end) with (same_dims (b :: r)).
      rewrite IH. split.
      + intros [E H]. destruct (list_eq_dec Nat.eq_dec a b) as [->|]; [|discriminate]. intros x y [<-|Hx] [<-|Hy]; auto; apply H; cbn; auto.
      + intros H. split; [|intros x y Hx Hy; apply H; now right]. rewrite (H a b) by (cbn; auto). now destruct (list_eq_dec Nat.eq_dec b b). }
  unfold add_init. destruct (Nat.ltb_spec (length dimss) 2) as [C|C].
  - split; [|intros e E; congruence]. intros d. split; [discriminate|lia].
  - destruct (same_dims dimss) eqn:ES; cbn [negb].
    + destruct dimss as [|d0 r]; [cbn in C; lia|]. split; [|discriminate]. pose proof (proj1 (SD _) ES) as EQ. intros d. split.
      * intros E. injection E as <-. split; [exact C|]. intros d' Hd. apply EQ; [exact Hd|now left].
      * intros [_ H]. f_equal. apply H. now left.
    + split; [|intros e E; congruence]. intros d. split; [discriminate|]. intros [_ H]. exfalso.
      assert (same_dims dimss = true) by (apply SD; intros a b Ha Hb; rewrite (H a Ha), (H b Hb); reflexivity). congruence.
Qed.
Print Assumptions C47_add_arguments.
Example C47_add_arguments_example : add_init [[3;2];[3;2];[3;2]] = Ok [3;2] /\ add_init [[3;2]] = Err ValueError /\ add_init [[3];[3];[2]] = Err ValueError.
Proof. repeat split. Qed.

(** ConcatGaussian accepts exactly vectors; its length is the sum of the lengths. *)
Theorem C47_concat_arguments : forall dimss,
  (forall lens, dimss = map (fun n => [n]) lens -> concat_init dimss = Ok (list_sum lens, map (fun k => list_sum (firstn k lens)) (seq 0 (S (length lens))))) /\
  ((exists d, In d dimss /\ length d <> 1) -> concat_init dimss = Err ValueError).
Proof.
  intros dimss. split.
  - intros lens ->. unfold concat_init.
    assert (F : forallb (fun d : list nat => length d =? 1) (map (fun n => [n]) lens) = true) by (apply forallb_forall; intros d Hd; apply in_map_iff in Hd as (n & <- & _); reflexivity).
    rewrite F, map_map, (map_ext (fun x => ax [x] 0) (fun x => x)), map_id by reflexivity. f_equal. f_equal.
    apply nth_ext with (d := 0) (d' := 0).
    + assert (L : forall l acc, length (cumsum acc l) = length l) by (induction l; intros; cbn; congruence). unfold cat_indices. cbn [length]. now rewrite L, map_length, seq_length.
    + intros k Hk. assert (L : forall l acc, length (cumsum acc l) = length l) by (induction l; intros; cbn; congruence).
      unfold cat_indices in Hk. cbn [length] in Hk. rewrite L in Hk.
      rewrite (nth_error_nth _ _ _ (cat_indices_nth lens k ltac:(lia))). symmetry. apply nth_error_nth. rewrite nth_error_map, (nth_error_nth' _ 0) by (rewrite seq_length; lia).
      now rewrite seq_nth by lia.
  - intros (d & Hd & N). unfold concat_init.
    destruct (forallb (fun d : list nat => length d =? 1) dimss) eqn:E; [|reflexivity]. rewrite forallb_forall in E. specialize (E d Hd). now apply Nat.eqb_eq in E.
Qed.
Print Assumptions C47_concat_arguments.
Example C47_concat_arguments_example : concat_init [[3];[2];[4]] = Ok (9, [0;3;5;9]) /\ concat_init [[3];[2;2]] = Err ValueError.
Proof. split; reflexivity. Qed.

(** ** Moments *)

(** Any number of parents with variable shape [d] (any number of axes), with plates that
    broadcast to [P]: the moments of Add are the first two moments of the sum of independent
    draws from the parents. *)
Theorem C47_add_moments : forall P d ps, ps <> [] -> Forall (fun p => gaussian_parent P d (fst p) (snd p)) ps ->
  exists x0 x1, add_moments (length d) (map fst ps) = Ok (x0, x1) /\ variable_of P d x0 /\ variable_of P (d ++ d) x1 /\
    forall p, plate_in P p ->
      (forall o, index_in d o ->
        bget x0 (join (length d) p (at_index o)) = expect (map (fun q => snd q p) ps) (fun os => sum_at os o)) /\
      (forall o o', index_in d o -> index_in d o' ->
        bget x1 (join (length (d ++ d)) p (at_index (o ++ o'))) =
        expect (map (fun q => snd q p) ps) (fun os => sum_at os o * sum_at os o')%R).
Proof. exact add_moments_expect. Qed.
Print Assumptions C47_add_moments.

(** The moments of ConcatGaussian are the first two moments of the concatenation of
    independent draws. *)
Theorem C47_concat_moments : forall P lens ps, ps <> [] ->
  Forall2 (fun k p => gaussian_parent P [k] (fst p) (snd p)) lens ps ->
  let N := list_sum lens in
  exists x xx, concat_moments (map fst ps) = Ok (x, xx) /\ variable_of P [N] x /\ variable_of P [N; N] xx /\
    forall p, plate_in P p ->
      (forall o, o < N ->
        bget x (join 1 p (at_index [o])) = expect (map (fun q => snd q p) ps) (fun os => concat_at os o)) /\
      (forall o o', o < N -> o' < N ->
        bget xx (join 2 p (at_index [o; o'])) =
        expect (map (fun q => snd q p) ps) (fun os => concat_at os o * concat_at os o')%R).
Proof. exact concat_moments_expect. Qed.
Print Assumptions C47_concat_moments.

(** ** Messages *)

(** For every message [m] with a symmetric second part there are messages [y] and a constant
    [C], both computed without the moments [u] of the receiving parent, such that
    <m, moments of the node> = <y, u> + C for every [u]: [y] are the coefficients of [u]. *)
Theorem C47_add_messages : forall P d m us1 us2, us1 ++ us2 <> [] -> Forall (gaussian_shaped P d) (us1 ++ us2) ->
  gaussian_shaped P d m -> symmetric P d (snd m) ->
  exists y C, gaussian_shaped P d y /\ forall u, gaussian_shaped P d u ->
    add_message (length d) (length us1) m (us1 ++ u :: us2) = Ok y /\
    exists x, add_moments (length d) (us1 ++ u :: us2) = Ok x /\ paired P d m x = (paired P d y u + C)%R.
Proof.
  intros P d m us1 us2 N H M S. destruct (add_messages_ok P d m us1 us2 N H M S) as (y0 & C & V & R).
  exists (y0, snd m), C. split; [split; [exact V|apply M]|exact R].
Qed.
Print Assumptions C47_add_messages.

Theorem C47_concat_messages : forall P lens1 k lens2 m us1 us2,
  Forall2 (fun k u => gaussian_shaped P [k] u) lens1 us1 -> Forall2 (fun k u => gaussian_shaped P [k] u) lens2 us2 ->
  let N := list_sum (lens1 ++ k :: lens2) in
  gaussian_shaped P [N] m -> symmetric P [N] (snd m) ->
  exists y C, gaussian_shaped P [k] y /\ forall u, gaussian_shaped P [k] u ->
    (exists r, concat_init (map (fun n => [n]) (lens1 ++ k :: lens2)) = Ok (N, r) /\
      concat_message r (length us1) m (us1 ++ u :: us2) = Ok y) /\
    exists x, concat_moments (us1 ++ u :: us2) = Ok x /\ paired P [N] m x = (paired P [k] y u + C)%R.
Proof.
  intros P lens1 k lens2 m us1 us2 H1 H2 N M S. destruct (concat_messages_list P lens1 k lens2 m us1 us2 H1 H2 M S) as (y & C & V & _ & R).
  exists y, C. split; [exact V|]. intros u Hu. destruct (R u Hu) as [R1 R2]. split; [|exact R2].
  exists (cat_indices (lens1 ++ k :: lens2)). split; [|exact R1]. unfold concat_init.
  assert (F : forallb (fun d : list nat => length d =? 1) (map (fun n => [n]) (lens1 ++ k :: lens2)) = true) by (apply forallb_forall; intros d Hd; apply in_map_iff in Hd as (n & <- & _); reflexivity).
  rewrite F, map_map, (map_ext (fun x => ax [x] 0) (fun x => x)), map_id by reflexivity. reflexivity.
Qed.
Print Assumptions C47_concat_messages.

(** ** Examples *)
Definition ex_draws (n : nat) (c : nat) (p : env) : list outcome :=
  [Outcome (1/3) (Arr [n] (fun e => INR (e 0 + c * p 0)%nat)) 1; Outcome (2/3) (Arr [n] (fun e => (- INR (e 0%nat))%R)) 1].
Definition ex_parent (n c : nat) (plates : shape) : gmom :=
  (Arr (plates ++ [n]) (fun e => mean_of (ex_draws n c (fun k => e (k + 1)%nat)) (fun o => bget (o_value o) e)),
   Arr (plates ++ [n; n]) (fun e => mean_of (ex_draws n c (fun k => e (k + 2)%nat)) (fun o => bget (o_value o) (fun k => e (k + 1)%nat) * bget (o_value o) e)%R)).
Lemma ex_parent_ok : forall n, 2 <= n -> gaussian_parent [4] [n] (ex_parent n 1 [4]) (ex_draws n 1).
Proof.
  intros n Hn. split; [intros p _; unfold mean_of, lsum; cbn; field|]. split.
  { intros p o _ [<-|[<-|[]]]; (split; [reflexivity|cbn; lra]). }
  cbn [is_delta]. split; [now apply ex_variable|]. split; [now apply ex_variable|]. split; [|split].
  - intros p o _ [<-|[<-|[]]]; reflexivity.
  - intros p i Hp Hi. inversion Hi as [|a ? l ? Ha Hl]; subst. inversion Hl; subst. destruct n as [|[|n]]; [lia|lia|]. reflexivity.
  - intros p i j Hp Hi Hj. inversion Hi as [|a ? l ? Ha Hl]; subst. inversion Hl; subst. inversion Hj as [|b ? l' ? Hb Hl']; subst. inversion Hl'; subst.
    destruct n as [|[|n]]; [lia|lia|]. reflexivity.
Qed.
(** A parent without plates. *)
Lemma ex_parent0_ok : forall n, 2 <= n -> gaussian_parent [4] [n] (ex_parent n 0 []) (ex_draws n 0).
Proof.
  intros n Hn. split; [intros p _; unfold mean_of, lsum; cbn; field|]. split.
  { intros p o _ [<-|[<-|[]]]; (split; [reflexivity|cbn; lra]). }
  cbn [is_delta]. split; [|split].
  - split; [cbn; lia|]. split; [intros i Hi; reflexivity|]. split; [cbn; lia|]. intros [|k]; [now right|]. left. apply ax_overflow. cbn. lia.
  - split; [cbn; lia|]. split; [intros i Hi; reflexivity|]. split; [cbn; lia|]. intros [|[|k]]; [now right|now right|]. left. apply ax_overflow. cbn. lia.
  - split; [|split].
    + intros p o _ [<-|[<-|[]]]; reflexivity.
    + intros p i Hp Hi. inversion Hi as [|a ? l ? Ha Hl]; subst. inversion Hl; subst. destruct n as [|[|n]]; [lia|lia|]. reflexivity.
    + intros p i j Hp Hi Hj. inversion Hi as [|a ? l ? Ha Hl]; subst. inversion Hl; subst. inversion Hj as [|b ? l' ? Hb Hl']; subst. inversion Hl'; subst.
      destruct n as [|[|n]]; [lia|lia|]. reflexivity.
Qed.
Example C47_moments_example :
  Forall (fun p => gaussian_parent [4] [3] (fst p) (snd p)) [(ex_parent 3 1 [4], ex_draws 3 1); (ex_parent 3 0 [], ex_draws 3 0)] /\
  Forall2 (fun k p => gaussian_parent [4] [k] (fst p) (snd p)) [3; 2] [(ex_parent 3 1 [4], ex_draws 3 1); (ex_parent 2 0 [], ex_draws 2 0)] /\
  plate_in [4] (at_index [3]).
Proof.
  split; [|split].
  - constructor; [apply ex_parent_ok; lia|]. constructor; [apply ex_parent0_ok; lia|constructor].
  - constructor; [apply ex_parent_ok; lia|]. constructor; [apply ex_parent0_ok; lia|constructor].
  - intros [|j] H; [cbn; lia|]. destruct H. apply ax_overflow. cbn. lia.
Qed.
Example C47_messages_example :
  let m5 : gmom := (Arr [4;5] (fun e => INR (e 0 + e 1)), Arr [4;5;5] (fun e => INR (e 0 * e 1 + e 2))) in
  gaussian_shaped [4] [5] m5 /\ symmetric [4] [5] (snd m5) /\
  Forall2 (fun k u => gaussian_shaped [4] [k] u) [3] [ex_parent 3 1 [4]] /\ gaussian_shaped [4] [2] (ex_parent 2 0 []).
Proof.
  cbv zeta. split; [split; now apply ex_variable|]. split; [|split].
  - intros p o o' Hp Ho Ho'. inversion Ho as [|a ? l ? Ha Hl]; subst. inversion Hl; subst. inversion Ho' as [|b ? l' ? Hb Hl']; subst. inversion Hl'; subst.
    cbn. f_equal. lia.
  - constructor; [|constructor]. eapply parent_shaped. apply ex_parent_ok. lia.
  - eapply parent_shaped. apply ex_parent0_ok. lia.
Qed.
