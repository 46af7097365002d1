(** Properties C23 (softmax), C48 (intervals), C49 (categorical sampling),
    C50 (set index). *)
From Coq Require Import List Arith ZArith Lia Bool Reals Lra FunctionalExtensionality.
From Verif Require Import Base SpecShapes Shapes ShapesLemmas NumPy MiscArray TensorLemmas EinsumLemmas
  SpecArray SumMultiplyLemmas PlateSumLemmas
  ExtReal Numeric SpecNumeric NumericLemmas.
Import ListNotations.
Open Scope R_scope.

(** * C23 *)

(** logsumexp is the log of the sum of exponentials; -inf entries count as
    zero weights and a row of -inf gives -inf. *)
Theorem C23_logsumexp : forall X, X <> [] -> (forall a, In a X -> log_weight a) ->
  ((exists a, In a X /\ a <> NInf) ->
     0 < lsum (map weight X) /\ logsumexp X = Ok (Fin (ln (lsum (map weight X))))) /\
  ((forall a, In a X -> a = NInf) -> logsumexp X = Ok NInf).
Proof.
  intros X Hne H. split.
  - intro E. split; [apply weight_total_pos|apply logsumexp_fin]; auto.
  - intro E. apply logsumexp_ninf; auto.
Qed.
Print Assumptions C23_logsumexp.

Example C23_logsumexp_example :
  logsumexp [Fin 0; NInf; Fin (ln 3)] = Ok (Fin (ln 4)).
Proof.
  assert (H := C23_logsumexp [Fin 0; NInf; Fin (ln 3)]).
  destruct H as [H _]; [discriminate| |].
  - intros a [<-|[<-|[<-|[]]]]; exact I.
  - destruct H as [_ H]; [exists (Fin 0); split; [left|]; [reflexivity|discriminate]|].
    rewrite H. simpl. rewrite exp_0, exp_ln by lra. do 3 f_equal. lra.
Qed.

(** The weights are the normalised exponentials; for real entries they are
    positive; they sum to one; the second result is the log-normaliser. *)
Theorem C23_normalized_exp : forall xs, xs <> [] -> 
  exists ws, normalized_exp (map Fin xs) =
      Ok (map Fin ws, Fin (ln (lsum (map exp xs)))) /\
    length ws = length xs /\
    (forall i, (i < length xs)%nat ->
       nth i ws 0 = exp (nth i xs 0) / lsum (map exp xs) /\ 0 < nth i ws 0) /\
    lsum ws = 1.
Proof.
  intros xs Hne.
  assert (E : map weight (map Fin xs) = map exp xs) by (rewrite map_map; reflexivity).
  assert (P : 0 < lsum (map exp xs)).
  { rewrite <- E. apply weight_total_pos.
    - intros a Ha. apply in_map_iff in Ha as [x [<- _]]. exact I.
    - destruct xs as [|x r]; [congruence|]. exists (Fin x). split; [now left|discriminate]. }
  exists (map (fun x => exp x / lsum (map exp xs)) xs). repeat split.
  - rewrite normalized_exp_fin, E, !map_map; [reflexivity| |].
    + intros a Ha. apply in_map_iff in Ha as [x [<- _]]. exact I.
    + destruct xs as [|x r]; [congruence|]. exists (Fin x). split; [now left|discriminate].
  - apply map_length.
  - set (t := lsum (map exp xs)) in *.
    rewrite nth_indep with (d' := (fun x => exp x / t) 0) by (rewrite map_length; lia).
    apply (map_nth (fun x => exp x / t)).
  - set (t := lsum (map exp xs)) in *.
    rewrite nth_indep with (d' := (fun x => exp x / t) 0) by (rewrite map_length; lia).
    rewrite (map_nth (fun x => exp x / t)). unfold Rdiv. apply Rmult_lt_0_compat.
    + apply exp_pos.
    + now apply Rinv_0_lt_compat.
  - unfold Rdiv. rewrite lsum_map_mult. apply Rinv_r. lra.
Qed.
Print Assumptions C23_normalized_exp.

(** With -inf entries allowed: such an entry gets weight zero. *)
Theorem C23_normalized_exp_zero_weights : forall X,
  (forall a, In a X -> log_weight a) -> (exists a, In a X /\ a <> NInf) ->
  exists ws, normalized_exp X = Ok (map Fin ws, Fin (ln (lsum (map weight X)))) /\
    ws = map (fun a => weight a / lsum (map weight X)) X /\ lsum ws = 1.
Proof.
  intros X H E. eexists. split; [|split; [reflexivity|]].
  - rewrite normalized_exp_fin, map_map; auto.
  - unfold Rdiv. rewrite lsum_map_mult. apply Rinv_r.
    assert (P := weight_total_pos X H E). lra.
Qed.
Print Assumptions C23_normalized_exp_zero_weights.

Example C23_zero_weights_example : exists l,
  normalized_exp [NInf; Fin 5; NInf] = Ok (map Fin [0; 1; 0], l).
Proof.
  destruct (C23_normalized_exp_zero_weights [NInf; Fin 5; NInf]) as [ws [E [Ew _]]].
  - intros a [<-|[<-|[<-|[]]]]; exact I.
  - exists (Fin 5). split; [right; left; reflexivity|discriminate].
  - rewrite E, Ew. simpl. eexists. generalize (exp_pos 5). intro P.
    replace (0 + (exp 5 + (0 + 0))) with (exp 5) by ring.
    replace (0 / exp 5) with 0 by (field; lra).
    replace (exp 5 / exp 5) with 1 by (field; lra). reflexivity.
Qed.

(** Adding a constant to all entries does not change the weights and shifts the
    log-normaliser. *)
Theorem C23_shift_invariant : forall X c,
  (forall a, In a X -> log_weight a) -> (exists a, In a X /\ a <> NInf) ->
  exists ws l, normalized_exp X = Ok (ws, Fin l) /\
    normalized_exp (map (fun a => eadd a (Fin c)) X) = Ok (ws, Fin (l + c)).
Proof.
  intros X c H E.
  assert (W : forall a, log_weight a -> weight (eadd a (Fin c)) = weight a * exp c).
  { intros [x| | |] Ha; simpl in *; try contradiction; [apply exp_plus|lra]. }
  assert (EW : lsum (map weight (map (fun a => eadd a (Fin c)) X)) =
               lsum (map weight X) * exp c).
  { rewrite map_map, <- lsum_map_mult. f_equal. apply map_ext_in. auto. }
  assert (P := weight_total_pos X H E). assert (Q := exp_pos c).
  do 2 eexists. split; [apply normalized_exp_fin; auto|].
  rewrite normalized_exp_fin.
  - rewrite EW, ln_mult, ln_exp by auto. do 2 f_equal.
    rewrite map_map. apply map_ext_in. intros a Ha. rewrite W by auto. f_equal. field. lra.
  - intros a Ha. apply in_map_iff in Ha as [b [<- Hb]]. specialize (H b Hb).
    destruct b; simpl in *; auto.
  - destruct E as [a [Ha Hn]]. exists (eadd a (Fin c)). split; [apply in_map_iff; exists a; auto|].
    specialize (H a Ha). destruct a; simpl in *; try contradiction; discriminate || (elim Hn; reflexivity).
Qed.
Print Assumptions C23_shift_invariant.

Example C23_shift_example : exists ws l,
  normalized_exp [Fin 1; Fin 2] = Ok (ws, Fin l) /\
  normalized_exp [Fin (1 + 1000); Fin (2 + 1000)] = Ok (ws, Fin (l + 1000)).
Proof.
  apply (C23_shift_invariant [Fin 1; Fin 2] 1000).
  - intros a [<-|[<-|[]]]; exact I.
  - exists (Fin 1). split; [left; reflexivity|discriminate].
Qed.

(** When every weight is zero the result is nan, not a distribution. *)
Theorem C23_no_possible_value : forall X, X <> [] -> (forall a, In a X -> a = NInf) ->
  normalized_exp X = Ok (map (fun _ => NaN) X, NInf).
Proof. exact normalized_exp_ninf. Qed.
Print Assumptions C23_no_possible_value.

(** * C48 *)
Open Scope Z_scope.

(** Every draw gives a placement of the requested intervals. *)
Theorem C48_intervals_disjoint : forall N len amount gap gaps s,
  0 <= len + gap ->
  multinomial_draw (N - len * Z.of_nat amount - gap * (Z.of_nat amount - 1)) (S amount) gaps ->
  intervals N len amount gap gaps = Ok s ->
  placement N len gap amount s.
Proof. intros. eapply intervals_placed; eauto. Qed.
Print Assumptions C48_intervals_disjoint.

(** ValueError exactly when they do not fit: no placement exists (for at least
    one interval). *)
Theorem C48_raises_iff_no_room : forall N len amount gap,
  0 <= len + gap -> (0 < amount)%nat ->
  (forall gaps, intervals N len amount gap gaps = Err ValueError) /\
    (~ exists s, placement N len gap amount s) \/
  (forall gaps, exists s, intervals N len amount gap gaps = Ok s) /\
    (exists s, placement N len gap amount s).
Proof.
  intros N len amount gap Hlg Ha.
  destruct (N <? len * Z.of_nat amount + gap * (Z.of_nat amount - 1)) eqn:E.
  - left. split; [intro gaps; unfold intervals; rewrite E; reflexivity|].
    intros [s Hs]. destruct (intervals_complete N len amount gap s Hlg) as [g [_ Hg]];
      [lia|exact Hs|]. unfold intervals in Hg. rewrite E in Hg. discriminate.
  - right.
    assert (A : forall gaps, exists s, intervals N len amount gap gaps = Ok s)
      by (intro gaps; unfold intervals; rewrite E; eauto).
    split; [exact A|].
    set (g := total_gap N len amount gap :: repeat 0 amount).
    destruct (A g) as [s Hs]. exists s. eapply intervals_placed; eauto.
    apply Z.ltb_ge in E. unfold g. split; [simpl; rewrite repeat_length; reflexivity|]. split.
    + intros c [<-|Hc]; [unfold total_gap; lia|]. apply repeat_spec in Hc. lia.
    + simpl. assert (Z0 : fold_right Z.add 0 (repeat 0 amount) = 0).
      { clear. induction amount; simpl; lia. }
      lia.
Qed.
Print Assumptions C48_raises_iff_no_room.

(** Every placement is the result of some draw. *)
Theorem C48_every_placement_possible : forall N len amount gap s,
  0 <= len + gap -> (0 < amount)%nat -> placement N len gap amount s ->
  exists gaps,
    multinomial_draw (N - len * Z.of_nat amount - gap * (Z.of_nat amount - 1)) (S amount) gaps /\
    intervals N len amount gap gaps = Ok s.
Proof. intros. apply intervals_complete; auto. lia. Qed.
Print Assumptions C48_every_placement_possible.

Example C48_example :
  multinomial_draw (16 - 2 * 4 - 1 * (4 - 1)) 5 [1; 3; 1; 0; 0] /\
  intervals 16 2 4 1 [1; 3; 1; 0; 0] = Ok [1; 7; 11; 14] /\
  placement 16 2 1 4 [1; 7; 11; 14] /\
  intervals 10 2 4 1 [1; 3; 1; 0; 0] = Err ValueError.
Proof.
  assert (M : multinomial_draw (16 - 2 * 4 - 1 * (4 - 1)) 5 [1; 3; 1; 0; 0]).
  { split; [reflexivity|]. split; [|reflexivity].
    intros c [<-|[<-|[<-|[<-|[<-|[]]]]]]; lia. }
  split; [exact M|]. split; [reflexivity|]. split; [|reflexivity].
  apply (C48_intervals_disjoint 16 2 4 1 [1; 3; 1; 0; 0]); [lia|exact M|reflexivity].
Qed.

(** * C50 *)

(** The element at that position of the concatenated sets belongs to the
    returned set; otherwise the call raises. *)
Theorem C50_find_set_index : forall i sizes,
  find_set_index i sizes =
  match py_nth (set_of sizes) i with Some k => Ok k | None => Err PyException end.
Proof. intros. apply find_set_index_spec. Qed.
Print Assumptions C50_find_set_index.

(** The same with bounds: set k holds the positions between the totals of the
    sets before it and including it. *)
Theorem C50_set_bounds : forall i sizes k, 0 <= i ->
  find_set_index i sizes = Ok k <->
  (k < length sizes)%nat /\
  Z.of_nat (list_sum (firstn k sizes)) <= i < Z.of_nat (list_sum (firstn (S k) sizes)).
Proof.
  intros i sizes k Hi. rewrite C50_find_set_index. unfold py_nth.
  assert (i <? 0 = false) as -> by lia.
  assert (G : forall sizes j n,
    nth_error (set_of_from j sizes) n = Some (j + k)%nat <->
    (k < length sizes)%nat /\
    (list_sum (firstn k sizes) <= n < list_sum (firstn (S k) sizes))%nat).
  2:{ specialize (G sizes 0%nat (Z.to_nat i)). simpl plus in G. unfold set_of.
      destruct (nth_error (set_of_from 0 sizes) (Z.to_nat i)) as [k'|].
      - split.
        + intro E. injection E as ->. destruct (proj1 G eq_refl). lia.
        + intros [A B]. assert (Some k' = Some k) by (apply G; lia). congruence.
      - split; [discriminate|]. intros [A B].
        assert (None = Some k) by (apply G; lia). discriminate. }
  clear. intros sizes. revert k. induction sizes as [|m r IH]; intros k j n.
  - simpl. split; [destruct n; discriminate|lia].
  - simpl set_of_from. destruct (Nat.lt_ge_cases n m) as [L|L].
    + rewrite nth_error_app1 by (rewrite repeat_length; lia).
      rewrite nth_error_rep by lia. destruct k as [|k].
      * simpl. rewrite Nat.add_0_r. split; [intros _; lia|reflexivity].
      * split; [intro E; injection E; lia|]. simpl. lia.
    + rewrite nth_error_app2 by (rewrite repeat_length; lia). rewrite repeat_length.
      destruct k as [|k].
      * split; [|simpl; lia]. intro E. exfalso. apply nth_error_In in E.
        assert (forall l q x, In x (set_of_from q l) -> (q <= x)%nat) as Q.
        { clear. induction l as [|a l IHl]; intros q x Hx; simpl in Hx; [tauto|].
          apply in_app_or in Hx as [Hx|Hx].
          - apply repeat_spec in Hx. lia.
          - apply IHl in Hx. lia. }
        apply Q in E. lia.
      * replace (j + S k)%nat with (S j + k)%nat by lia. rewrite (IH k (S j) (n - m)%nat).
        change (list_sum (firstn (S k) (m :: r))) with (m + list_sum (firstn k r))%nat.
        change (list_sum (firstn (S (S k)) (m :: r))) with (m + list_sum (firstn (S k) r))%nat.
        simpl length. lia.
Qed.
Print Assumptions C50_set_bounds.

Example C50_example :
  find_set_index 4 [2; 0; 3; 4]%nat = Ok 2%nat /\
  find_set_index (-1) [2; 0; 3; 4]%nat = Ok 3%nat /\
  find_set_index 9 [2; 0; 3; 4]%nat = Err PyException /\
  find_set_index (-10) [2; 0; 3; 4]%nat = Err PyException.
Proof. repeat split. Qed.

(** * C49 *)
Open Scope R_scope.

Lemma unravel_valid : forall s i, (i < size s)%nat -> valid s (unravel s i).
Proof.
  intros s i Hi k. unfold unravel. apply Nat.mod_upper_bound.
  destruct (Nat.lt_ge_cases k (length s)) as [L|L].
  - intro Z. assert (S0 : forall n, (k < n)%nat -> stride s n = 0%nat).
    { induction n as [|n IH]; intro Hn; [lia|]. simpl.
      destruct (Nat.eq_dec n k) as [->|]; [rewrite Z; lia|]. rewrite IH by lia. reflexivity. }
    unfold size in Hi. rewrite S0 in Hi by lia. lia.
  - rewrite ax_overflow by lia. lia.
Qed.

Lemma unravel_surj : forall s e, valid s e ->
  (ravel s (length s) e < size s)%nat /\ unravel s (ravel s (length s) e) = e.
Proof.
  intros s e He. split; [apply ravel_lt; intros; apply He|].
  apply functional_extensionality. intro k.
  destruct (Nat.lt_ge_cases k (length s)) as [L|L].
  - apply unravel_ravel; auto.
  - specialize (He k). unfold unravel. rewrite ax_overflow in * by lia. rewrite Nat.mod_1_r. lia.
Qed.

(** A negative entry or a shape mismatch raises ValueError, nothing else does. *)
Theorem C49_categorical_raises_iff : forall p sz x, ash p <> [] ->
  let plates := firstn (ndim p - 1) (ash p) in
  let target := match sz with Some s => s | None => plates end in
  ((exists z, categorical p sz x = Ok z) <->
   (forall e, valid (ash p) e -> 0 <= bget p e) /\ broadcasts_to plates target) /\
  (forall er, categorical p sz x = Err er -> er = ValueError).
Proof.
  intros p sz x Hne plates target. unfold categorical. fold plates. fold target.
  destruct (ash p) as [|a0 s0] eqn:Ep; [congruence|]. rewrite <- Ep.
  destruct (existsb _ _) eqn:Ex.
  - split; [|congruence]. split; [intros [z Hz]; discriminate|].
    intros [A _]. apply existsb_exists in Ex as [v [Hv Hl]].
    apply in_map_iff in Hv as [i [<- Hi]]. apply in_seq in Hi.
    assert (Hi' : (i < size (ash p))%nat) by (destruct Hi as [_ Hi]; exact Hi).
    specialize (A (unravel (ash p) i) (unravel_valid _ i Hi')).
    destruct (Rlt_dec _ 0); [lra|discriminate].
  - assert (NN : forall e, valid (ash p) e -> 0 <= bget p e).
    { intros e He. destruct (unravel_surj _ e He) as [H1 H2].
      destruct (Rlt_dec (bget p e) 0) as [L|L]; [|lra]. exfalso.
      assert (existsb (fun v => if Rlt_dec v 0 then true else false)
        (map (fun i => bget p (unravel (ash p) i)) (seq 0 (size (ash p)))) = true); [|congruence].
      apply existsb_exists. exists (bget p e). split.
      - apply in_map_iff. exists (ravel (ash p) (length (ash p)) e). rewrite H2. split; auto.
        apply in_seq. lia.
      - destruct (Rlt_dec _ _); auto. }
    destruct (is_shape_subset plates target) eqn:Es; cbn [negb].
    + split; [|congruence]. split; [|eauto]. intros _. split; auto. now apply is_shape_subset_spec.
    + split; [|congruence]. split; [intros [z Hz]; discriminate|].
      intros [_ B]. apply is_shape_subset_spec in B. congruence.
Qed.
Print Assumptions C49_categorical_raises_iff.

(** The sampled index at every position is in range and has positive
    probability, and index j is chosen exactly when the uniform variate lies in
    the j-th interval, whose length is the (normalised) probability of j. *)
Theorem C49_categorical_sample : forall p sz x z e,
  categorical p sz x = Ok z -> valid (ash z) e ->
  0 < lsum (row p e) -> 0 < x e <= 1 ->
  let r := row p e in
  let prob j := nth j r 0 / lsum r in
  let below j := lsum (firstn j r) / lsum r in
  (aget z e < length r)%nat /\ 0 < nth (aget z e) r 0 /\
  (forall j, (j < length r)%nat -> (aget z e = j <-> below j < x e <= below j + prob j)).
Proof.
  intros p sz x z e Hz He Hpos Hx r prob below.
  assert (Hs : ash p <> []) by (intro E; unfold categorical in Hz; rewrite E in Hz; discriminate).
  destruct (C49_categorical_raises_iff p sz x Hs) as [C _].
  destruct (proj1 C (ex_intro _ z Hz)) as [NN Hsub]. clear C.
  set (plates := firstn (ndim p - 1) (ash p)) in *.
  set (target := match sz with Some s => s | None => plates end) in *.
  assert (Hz' : ash z = target /\
    aget z e = searchsorted_left (rcumsum (map (fun v => v / lsum r) r)) (x e)).
  { unfold categorical in Hz. fold plates target in Hz.
    destruct (ash p) eqn:Ep; [congruence|]. rewrite <- Ep in Hz.
    destruct (existsb _ _); [discriminate|]. destruct (negb _); [discriminate|].
    injection Hz as <-. split; reflexivity. }
  destruct Hz' as [Hsh Hv].
  assert (Rn : forall v, In v r -> 0 <= v).
  { intros v Hin. unfold r, row in Hin. apply in_map_iff in Hin as [k [<- Hk]].
    apply in_seq in Hk. unfold bget at 1.
    set (e' := fun j => match j with O => k | S j' => e j' end).
    assert (V : valid (ash p) (clip (ash p) e')).
    { intro j. unfold clip. destruct (ax (ash p) j =? 1)%nat eqn:E1.
      - apply Nat.eqb_eq in E1. lia.
      - destruct j as [|j]; [simpl; lia|]. simpl.
        apply Nat.eqb_neq in E1.
        assert (L : (S j < length (ash p))%nat).
        { apply Nat.nle_gt. intro Q. apply E1. apply ax_overflow. lia. }
        assert (A1 : ax plates j = ax (ash p) (S j)).
        { change plates with (get_plates 1 (ash p)). rewrite ax_get_plates. f_equal. lia. }
        rewrite <- A1 in *. destruct Hsub as [_ Hsub]. specialize (He j). rewrite Hsh in He.
        destruct (Hsub j) as [Q|Q]; [congruence|]. rewrite Q. exact He. }
    generalize (NN _ V). unfold bget. rewrite clip_clip. auto. }
  set (q := map (fun v => v / lsum r) r) in *.
  fold r in Hpos.
  assert (Qn : forall v, In v q -> 0 <= v).
  { intros v Hin. apply in_map_iff in Hin as [w [<- Hw]]. apply Rn in Hw.
    unfold Rdiv. apply Rmult_le_pos; [exact Hw|]. left. now apply Rinv_0_lt_compat. }
  assert (Q1 : lsum q = 1) by (unfold q; rewrite lsum_map_scal; field; lra).
  assert (QF : forall j, lsum (firstn j q) = below j).
  { intro j. unfold q, below. rewrite firstn_map, lsum_map_scal. reflexivity. }
  assert (QS : forall j, below (S j) = below j + prob j).
  { intro j. unfold below, prob. rewrite lsum_firstn_S. field. lra. }
  destruct (search_left_spec q 0 (x e)) as [S1 S2]; [lra|].
  unfold rcumsum in Hv. rewrite <- Hv in S1, S2. rewrite !Rplus_0_l, !QF in S2.
  assert (LQ : length q = length r) by (apply map_length).
  split; [lia|]. split.
  - rewrite QS in S2. assert (P : 0 < prob (aget z e)) by lra. unfold prob in P.
    apply Rmult_lt_reg_r with (/ lsum r); [now apply Rinv_0_lt_compat|].
    unfold Rdiv in P. lra.
  - intros j Hj. rewrite <- QS. split; [intros <-; exact S2|].
    intro H. apply (interval_unique q (x e)); auto; rewrite !QF; auto.
Qed.
Print Assumptions C49_categorical_sample.

Definition demo_p : arr R := Arr [2; 3]%nat (fun e =>
  match e 1%nat, e 0%nat with
  | O, O => 1 | O, S O => 0 | O, _ => 3 | _, O => 2 | _, S O => 2 | _, _ => 0 end).

Example C49_example :
  exists z, categorical demo_p None (fun _ => 1 / 2) = Ok z /\ ash z = [2]%nat /\
    valid (ash z) (fun _ => 0%nat) /\
    0 < lsum (row demo_p (fun _ => 0%nat)) /\
    aget z (fun _ => 0%nat) = 2%nat.
Proof.
  assert (B : broadcasts_to [2]%nat [2]%nat).
  { apply is_shape_subset_spec. reflexivity. }
  destruct (C49_categorical_raises_iff demo_p None (fun _ => 1 / 2)) as [C _]; [discriminate|].
  destruct (proj2 C) as [z Hz].
  - split; [|exact B]. intros e _. unfold bget. simpl.
    repeat match goal with |- context [match ?n with _ => _ end] => destruct n end; lra.
  - exists z. split; [exact Hz|].
    assert (Sz : ash z = [2]%nat).
    { unfold categorical in Hz. cbn [demo_p ash] in Hz.
      destruct (existsb _ _); [discriminate|]. destruct (negb _); [discriminate|].
      injection Hz as <-. reflexivity. }
    split; [exact Sz|].
    assert (V : valid (ash z) (fun _ => 0%nat)).
    { rewrite Sz. intro k. destruct k as [|[|k]]; cbn; lia. }
    split; [exact V|].
    assert (P : 0 < lsum (row demo_p (fun _ => 0%nat))) by (cbn; lra).
    split; [exact P|].
    destruct (C49_categorical_sample demo_p None _ z _ Hz V P) as [_ [_ H]]; [lra|].
    apply H; cbn; [lia|].
    unfold bget; cbn. split; lra.
Qed.

(** numpy.random.rand can return exactly 0, and then an impossible category may
    be chosen. *)
Theorem C49_impossible_category_refuted :
  exists p z, categorical p None (fun _ => 0) = Ok z /\
    lsum (row p (fun _ => 0%nat)) = 1 /\
    nth (aget z (fun _ => 0%nat)) (row p (fun _ => 0%nat)) 7 = 0.
Proof.
  exists (Arr [2]%nat (fun e => match e 0%nat with 0%nat => 0 | _ => 1 end)).
  destruct (C49_categorical_raises_iff
    (Arr [2]%nat (fun e => match e 0%nat with 0%nat => 0 | _ => 1 end)) None (fun _ => 0))
    as [C _]; [discriminate|].
  destruct (proj2 C) as [z Hz].
  - split; [|apply is_shape_subset_spec; reflexivity]. intros e _. unfold bget. simpl.
    destruct (clip [2%nat] e 0%nat); lra.
  - exists z. split; [exact Hz|]. split; [cbn; lra|].
    unfold categorical in Hz. cbn [ash] in Hz.
    destruct (existsb _ _); [discriminate|]. destruct (negb _); [discriminate|].
    injection Hz as <-. cbn. destruct (Rlt_dec _ 0) as [L|L]; [|reflexivity].
    exfalso. revert L. unfold Rdiv. rewrite Rmult_0_l. lra.
Qed.
Print Assumptions C49_impossible_category_refuted.

(** ceildiv rounds the quotient up, for either sign of the divisor. *)
Theorem C50_ceildiv : forall a b : Z,
  (ceildiv a b = Err PyException <-> b = 0)%Z /\
  (forall q, ceildiv a b = Ok q -> (0 < b -> (q - 1) * b < a <= q * b) /\ (b < 0 -> q * b <= a < (q - 1) * b))%Z.
Proof.
  intros a b. unfold ceildiv. destruct (Z.eqb_spec b 0) as [->|N].
  - split; [split; reflexivity|discriminate].
  - split; [split; [discriminate|contradiction]|]. intros q [= <-].
    pose proof (Z.div_mod (- a) b N) as E. split; intros Hb.
    + pose proof (Z.mod_pos_bound (- a) b Hb). nia.
    + pose proof (Z.mod_neg_bound (- a) b Hb). nia.
Qed.
Print Assumptions C50_ceildiv.
Example ex_C50_ceildiv : ceildiv 7 2 = Ok 4%Z /\ ceildiv (-7) 2 = Ok (-3)%Z /\ ceildiv 7 (-2) = Ok (-3)%Z.
Proof. repeat split. Qed.
