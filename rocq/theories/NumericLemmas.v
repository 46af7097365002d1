From Coq Require Import List Arith ZArith Lia Bool Reals Lra.
From Verif Require Import Base SpecShapes Shapes ShapesLemmas NumPy TensorLemmas ExtReal Numeric SpecNumeric.
Import ListNotations.
Open Scope Z_scope.

(** ** find_set_index *)
Lemma fold_add : forall l a, fold_left Z.add l a = a + fold_right Z.add 0 l.
Proof. induction l as [|x r IH]; intro a; simpl; [lia|]. rewrite IH. lia. Qed.

Lemma zsum_right : forall l, zsum l = fold_right Z.add 0 l.
Proof. intro l. unfold zsum. rewrite fold_add. lia. Qed.

Lemma set_of_length : forall l k,
  Z.of_nat (length (set_of_from k l)) = zsum (map Z.of_nat l).
Proof.
  induction l as [|n r IH]; intro k; simpl; [reflexivity|].
  rewrite app_length, repeat_length, Nat2Z.inj_add, IH.
  rewrite !zsum_right. reflexivity.
Qed.

Lemma nth_error_rep : forall A (x : A) n i, (i < n)%nat -> nth_error (repeat x n) i = Some x.
Proof.
  induction n as [|n IH]; intros i H; [lia|].
  destruct i; simpl; [reflexivity|]. apply IH. lia.
Qed.

Lemma search_right_spec : forall l acc k i,
  acc <= i < acc + zsum (map Z.of_nat l) ->
  nth_error (set_of_from k l) (Z.to_nat (i - acc)) =
  Some (k + searchsorted_right (cumsum_from acc (map Z.of_nat l)) i)%nat.
Proof.
  induction l as [|n r IH]; intros acc k i H; simpl in *.
  - unfold zsum in H. simpl in H. lia.
  - rewrite zsum_right in H. simpl in H. rewrite <- zsum_right in H.
    destruct (acc + Z.of_nat n <=? i) eqn:E.
    + apply Z.leb_le in E.
      rewrite nth_error_app2 by (rewrite repeat_length; lia).
      rewrite repeat_length.
      replace (Z.to_nat (i - acc) - n)%nat with (Z.to_nat (i - (acc + Z.of_nat n))) by lia.
      rewrite IH by lia. f_equal. lia.
    + apply Z.leb_gt in E.
      rewrite nth_error_app1 by (rewrite repeat_length; lia).
      rewrite nth_error_rep by lia. f_equal. lia.
Qed.

Lemma find_set_index_spec : forall l i,
  find_set_index i l =
  match py_nth (set_of l) i with Some k => Ok k | None => Err PyException end.
Proof.
  intros l i. unfold find_set_index, py_nth, set_of. rewrite set_of_length.
  set (n := zsum (map Z.of_nat l)).
  assert (Hn : 0 <= n) by (unfold n; rewrite <- (set_of_length l 0); lia).
  assert (In0 : forall j, 0 <= j < n ->
    nth_error (set_of_from 0 l) (Z.to_nat j) =
    Some (searchsorted_right (cumsum (map Z.of_nat l)) j)).
  { intros j Hj. generalize (search_right_spec l 0 0 j). rewrite Z.sub_0_r.
    simpl. intro H. apply H. fold n. lia. }
  assert (Out : forall j, n <= j -> nth_error (set_of_from 0 l) (Z.to_nat j) = None).
  { intros j Hj. apply nth_error_None. generalize (set_of_length l 0). fold n. lia. }
  destruct (i <? 0) eqn:E.
  - apply Z.ltb_lt in E. destruct (i + n <? 0) eqn:E2.
    + rewrite orb_true_r. reflexivity.
    + apply Z.ltb_ge in E2. assert (n <=? i + n = false) as -> by lia. simpl.
      rewrite In0 by lia. reflexivity.
  - rewrite E, orb_false_r. apply Z.ltb_ge in E. destruct (n <=? i) eqn:E2.
    + rewrite Out by lia. reflexivity.
    + rewrite In0 by lia. reflexivity.
Qed.

(** ** intervals *)
Lemma cumsum_length : forall l a, length (cumsum_from a l) = length l.
Proof. induction l; intro a'; simpl; auto. Qed.

Lemma cumsum_nth : forall l a i, (i < length l)%nat ->
  nth_error (cumsum_from a l) i = Some (a + fold_right Z.add 0 (firstn (S i) l)).
Proof.
  induction l as [|x r IH]; intros a i H; simpl in H; [lia|].
  destruct i as [|i].
  - simpl. f_equal. lia.
  - change (nth_error (cumsum_from (a + x) r) i =
      Some (a + (x + fold_right Z.add 0 (firstn (S i) r)))).
    rewrite IH by lia. f_equal. lia.
Qed.

Lemma nth_error_combine : forall A B (l : list A) (m : list B) i a b,
  nth_error l i = Some a -> nth_error m i = Some b ->
  nth_error (combine l m) i = Some (a, b).
Proof.
  induction l as [|x l IH]; intros m i a b Ha Hb; destruct i; destruct m; simpl in *; try discriminate.
  - congruence.
  - eauto.
Qed.

Lemma removelast_length' : forall A (l : list A), length (removelast l) = (length l - 1)%nat.
Proof.
  induction l as [|x [|y l] IH]; [reflexivity|reflexivity|].
  change (S (length (removelast (y :: l))) = (S (length (y :: l)) - 1)%nat).
  rewrite IH. simpl. lia.
Qed.

Lemma removelast_firstn' : forall A (l : list A), removelast l = firstn (length l - 1) l.
Proof.
  induction l as [|x [|y l] IH]; [reflexivity|reflexivity|].
  change (x :: removelast (y :: l) = firstn (S (length (y :: l)) - 1) (x :: y :: l)).
  rewrite IH. simpl. rewrite Nat.sub_0_r. reflexivity.
Qed.

Lemma firstn_sum_le : forall l i, (forall c, In c l -> 0 <= c) ->
  0 <= fold_right Z.add 0 (firstn i l) <= fold_right Z.add 0 l.
Proof.
  induction l as [|x r IH]; intros i H; destruct i; simpl; try lia.
  - assert (0 <= x) by (apply H; now left).
    specialize (IH 0%nat (fun c Hc => H c (or_intror Hc))). lia.
  - assert (0 <= x) by (apply H; now left).
    specialize (IH i (fun c Hc => H c (or_intror Hc))). lia.
Qed.

Lemma intervals_nth : forall N len amount gap gaps s i,
  length gaps = S amount ->
  intervals N len amount gap gaps = Ok s ->
  length s = amount /\
  ((i < amount)%nat -> nth_error s i =
     Some (fold_right Z.add 0 (firstn (S i) gaps) + Z.of_nat i * (len + gap))).
Proof.
  intros N len amount gap gaps s i HL H. unfold intervals in H.
  destruct (N <? _); [discriminate|]. injection H as <-.
  assert (HR : length (removelast gaps) = amount) by (rewrite removelast_length'; lia).
  split.
  - rewrite map_length, combine_length, map_length, seq_length. unfold cumsum.
    rewrite cumsum_length. lia.
  - intro Hi.
    erewrite map_nth_error; [|apply nth_error_combine].
    + cbn [fst snd]. reflexivity.
    + unfold cumsum. rewrite cumsum_nth by lia. rewrite Z.add_0_l, removelast_firstn', firstn_firstn.
      replace (Init.Nat.min (S i) (length gaps - 1)) with (S i) by lia. reflexivity.
    + erewrite map_nth_error; [reflexivity|].
      rewrite nth_error_nth' with (d := 0%nat) by (rewrite seq_length; lia).
      rewrite seq_nth by lia. reflexivity.
Qed.

Lemma nth_error_ext : forall A (l m : list A),
  (forall i, nth_error l i = nth_error m i) -> l = m.
Proof.
  induction l as [|x l IH]; intros [|y m] H; auto.
  - specialize (H 0%nat). discriminate.
  - specialize (H 0%nat). discriminate.
  - f_equal; [specialize (H 0%nat); simpl in H; congruence|].
    apply IH. intro i. apply (H (S i)).
Qed.

Lemma Some_inj : forall A (a b : A), Some a = Some b -> a = b.
Proof. congruence. Qed.

Lemma intervals_placed : forall N len amount gap gaps s,
  multinomial_draw (total_gap N len amount gap) (S amount) gaps ->
  intervals N len amount gap gaps = Ok s -> 
  0 <= len + gap -> placement N len gap amount s.
Proof.
  intros N len amount gap gaps s [HL [Hp Ht]] H Hlg.
  destruct (intervals_nth _ _ _ _ _ _ 0%nat HL H) as [Hs _].
  split; [exact Hs|]. split.
  - intros v Hv. apply In_nth_error in Hv as [i Hi].
    assert (Hia : (i < amount)%nat) by (rewrite <- Hs; apply nth_error_Some; congruence).
    destruct (intervals_nth _ _ _ _ _ _ i HL H) as [_ E]. rewrite (E Hia) in Hi.
    apply Some_inj in Hi. subst v.
    generalize (firstn_sum_le gaps (S i) Hp). rewrite Ht. unfold total_gap. intros [B1 B2].
    assert (M1 : Z.of_nat i * (len + gap) <= (Z.of_nat amount - 1) * (len + gap))
      by (apply Z.mul_le_mono_nonneg_r; lia).
    assert (M2 : 0 <= Z.of_nat i * (len + gap)) by (apply Z.mul_nonneg_nonneg; lia).
    split; lia.
  - intros i v w Hv Hw.
    assert (Hia : (S i < amount)%nat) by (rewrite <- Hs; apply nth_error_Some; congruence).
    destruct (intervals_nth _ _ _ _ _ _ i HL H) as [_ E1].
    destruct (intervals_nth _ _ _ _ _ _ (S i) HL H) as [_ E2].
    rewrite E1 in Hv by lia. rewrite E2 in Hw by lia.
    apply Some_inj in Hv. apply Some_inj in Hw. subst v w.
    assert (0 <= nth (S i) gaps 0).
    { apply Hp. apply nth_In. lia. }
    assert (F : forall l k, fold_right Z.add 0 (firstn (S k) l) =
      fold_right Z.add 0 (firstn k l) + nth k l 0).
    { induction l as [|x r IH]; intros k; [destruct k; reflexivity|].
      destruct k; [simpl; lia|].
      change (x + fold_right Z.add 0 (firstn (S k) r) = x + fold_right Z.add 0 (firstn k r) + nth k r 0).
      rewrite IH. lia. }
    rewrite (F gaps (S i)). nia.
Qed.

(** The gaps of a given placement. *)
Fixpoint gaps_of (prev : Z) (step : Z) (starts : list Z) (last : Z) : list Z :=
  match starts with
  | [] => [last - prev]
  | s :: r => (s - prev) :: gaps_of (s + step) step r last
  end.

Lemma gaps_of_length : forall s p st l, length (gaps_of p st s l) = S (length s).
Proof. induction s; intros; simpl; auto. Qed.

Lemma gaps_of_sum : forall s p st l,
  fold_right Z.add 0 (gaps_of p st s l) = l - p - st * Z.of_nat (length s).
Proof.
  induction s as [|x r IH]; intros; simpl; [lia|]. rewrite IH. lia.
Qed.

Lemma gaps_of_pos : forall s p st l,
  (forall x, nth_error s 0 = Some x -> p <= x) ->
  (forall i a b, nth_error s i = Some a -> nth_error s (S i) = Some b -> a + st <= b) ->
  (forall x, nth_error s (length s - 1) = Some x -> x + st <= l) ->
  (s = [] -> p <= l) ->
  forall c, In c (gaps_of p st s l) -> 0 <= c.
Proof.
  induction s as [|x r IH]; intros p st l H1 H2 H3 H4 c Hc; simpl in Hc.
  - destruct Hc as [<-|[]]. specialize (H4 eq_refl). lia.
  - destruct Hc as [<-|Hc].
    + specialize (H1 x eq_refl). lia.
    + revert Hc. apply IH.
      * intros y Hy. apply (H2 0%nat x y eq_refl Hy).
      * intros i a b Ha Hb. apply (H2 (S i) a b Ha Hb).
      * intros y Hy. apply H3. destruct r as [|z r]; [discriminate|].
        simpl in *. rewrite Nat.sub_0_r in Hy. exact Hy.
      * intros ->. apply (H3 x). reflexivity.
Qed.

Lemma gaps_of_prefix : forall s p st l i x, nth_error s i = Some x ->
  fold_right Z.add 0 (firstn (S i) (gaps_of p st s l)) + Z.of_nat i * st = x - p.
Proof.
  induction s as [|y r IH]; intros p st l i x H; [destruct i; discriminate|].
  destruct i as [|i].
  - simpl in H. injection H as ->. simpl. lia.
  - simpl in H. specialize (IH (y + st) st l i x H).
    change (y - p + fold_right Z.add 0 (firstn (S i) (gaps_of (y + st) st r l)) +
      Z.of_nat (S i) * st = x - p). lia.
Qed.

Lemma intervals_complete : forall N len amount gap s,
  0 <= len + gap ->
  (amount = 0%nat -> 0 <= N + gap) ->
  placement N len gap amount s ->
  exists gaps, multinomial_draw (total_gap N len amount gap) (S amount) gaps /\
    intervals N len amount gap gaps = Ok s.
Proof.
  intros N len amount gap s Hlg H0 [Hs [Hr Hd]].
  set (gs := gaps_of 0 (len + gap) s (N + gap)).
  assert (HL : length gs = S amount) by (unfold gs; rewrite gaps_of_length; lia).
  assert (Hp : forall c, In c gs -> 0 <= c).
  { apply gaps_of_pos.
    - intros x Hx. apply (Hr x). eapply nth_error_In; eauto.
    - intros i a b Ha Hb. specialize (Hd i a b Ha Hb). lia.
    - intros x Hx. destruct (Hr x); [eapply nth_error_In; eauto|]. lia.
    - intros ->. apply H0. symmetry. exact Hs. }
  assert (Ht : fold_right Z.add 0 gs = total_gap N len amount gap).
  { unfold gs. rewrite gaps_of_sum, Hs. unfold total_gap. lia. }
  exists gs. split; [split; auto|].
  assert (Hnn : 0 <= total_gap N len amount gap).
  { rewrite <- Ht. apply (firstn_sum_le gs 0 Hp). }
  destruct (intervals N len amount gap gs) as [s'|e] eqn:E.
  - f_equal. apply nth_error_ext. intro i.
    destruct (intervals_nth _ _ _ _ _ _ i HL E) as [Hl Hn].
    destruct (Nat.lt_ge_cases i amount) as [Hi|Hi].
    + rewrite Hn by exact Hi.
      destruct (nth_error s i) as [x|] eqn:Ex.
      * f_equal. generalize (gaps_of_prefix s 0 (len + gap) (N + gap) i x Ex). fold gs. lia.
      * apply nth_error_None in Ex. lia.
    + rewrite !(proj2 (nth_error_None _ _)) by lia. reflexivity.
  - unfold intervals in E. destruct (N <? _) eqn:E2; [|discriminate].
    unfold total_gap in Hnn. lia.
Qed.

Open Scope R_scope.

(** ** categorical *)
Lemma lsum_nonneg : forall l, (forall v, In v l -> 0 <= v) -> 0 <= lsum l.
Proof.
  induction l as [|x r IH]; intro H; simpl; [lra|].
  assert (0 <= x) by (apply H; now left).
  assert (0 <= lsum r) by (apply IH; intros; apply H; now right). lra.
Qed.

Lemma lsum_firstn_S : forall l k, lsum (firstn (S k) l) = lsum (firstn k l) + nth k l 0.
Proof.
  induction l as [|x r IH]; intros k; [destruct k; simpl; lra|].
  destruct k; [simpl; lra|].
  change (x + lsum (firstn (S k) r) = x + lsum (firstn k r) + nth k r 0).
  rewrite IH. lra.
Qed.

Lemma lsum_firstn_mono : forall l i j, (forall v, In v l -> 0 <= v) -> (i <= j)%nat ->
  lsum (firstn i l) <= lsum (firstn j l).
Proof.
  intros l i j H Hij. induction Hij as [|j Hij IH]; [lra|].
  rewrite lsum_firstn_S.
  assert (0 <= nth j l 0).
  { destruct (Nat.lt_ge_cases j (length l)).
    - apply H. now apply nth_In.
    - rewrite nth_overflow by lia. lra. }
  lra.
Qed.

Lemma search_left_spec : forall l acc x, acc < x <= acc + lsum l ->
  let k := searchsorted_left (rcumsum_from acc l) x in
  (k < length l)%nat /\ acc + lsum (firstn k l) < x <= acc + lsum (firstn (S k) l).
Proof.
  induction l as [|y r IH]; intros acc x H; simpl in *; [lra|].
  destruct (Rlt_dec (acc + y) x) as [L|L].
  - destruct (IH (acc + y) x) as [A B]; [lra|].
    split; [lia|]. revert B. cbn zeta.
    set (k := searchsorted_left _ _).
    change (lsum (firstn (S k) (y :: r))) with (y + lsum (firstn k r)).
    change (match r with [] => [] | a :: l => a :: firstn k l end) with (firstn (S k) r). lra.
  - simpl. split; [lia|]. lra.
Qed.

Lemma interval_unique : forall l x j k, (forall v, In v l -> 0 <= v) ->
  lsum (firstn j l) < x <= lsum (firstn (S j) l) ->
  lsum (firstn k l) < x <= lsum (firstn (S k) l) -> j = k.
Proof.
  intros l x j k H Hj Hk.
  destruct (Nat.lt_trichotomy j k) as [L|[L|L]]; auto; exfalso.
  - generalize (lsum_firstn_mono l (S j) k H L). lra.
  - generalize (lsum_firstn_mono l (S k) j H L). lra.
Qed.

Lemma lsum_map_scal : forall c l, lsum (map (fun v => v / c) l) = lsum l / c.
Proof. induction l as [|x r IH]; simpl; [unfold Rdiv; ring|]. rewrite IH. unfold Rdiv. ring. Qed.

(** ** logsumexp *)
Lemma esum_fin : forall l a,
  fold_left eadd (map Fin l) (Fin a) = Fin (a + lsum l).
Proof.
  induction l as [|x r IH]; intro a; simpl; [f_equal; lra|]. rewrite IH. f_equal. lra.
Qed.

Lemma esum_map_fin : forall A (f : A -> ext) (g : A -> R) l,
  (forall a, In a l -> f a = Fin (g a)) -> esum (map f l) = Fin (lsum (map g l)).
Proof.
  intros A f g l H. rewrite (map_ext_in f (fun a => Fin (g a))) by exact H.
  rewrite <- map_map. unfold esum. rewrite esum_fin. f_equal. lra.
Qed.

Lemma emax_lw : forall a b, log_weight a -> log_weight b -> log_weight (emax2 a b).
Proof. intros [] []; simpl; auto. Qed.

Lemma emax_ninf : forall a b, log_weight a -> log_weight b ->
  (emax2 a b = NInf <-> a = NInf /\ b = NInf).
Proof.
  intros [] []; simpl; intros; try contradiction; split; intros; auto; try discriminate;
  destruct H1; discriminate.
Qed.

Lemma fold_emax : forall l a, log_weight a -> (forall b, In b l -> log_weight b) ->
  log_weight (fold_left emax2 l a) /\
  (fold_left emax2 l a = NInf <-> a = NInf /\ forall b, In b l -> b = NInf).
Proof.
  induction l as [|x r IH]; intros a Ha H; simpl.
  - split; auto. split; [intros ->; split; auto; intros b []|tauto].
  - assert (Hx : log_weight x) by (apply H; now left).
    destruct (IH (emax2 a x) (emax_lw _ _ Ha Hx)) as [L1 L2]; [intros; apply H; now right|].
    split; auto. rewrite L2, emax_ninf by auto. split.
    + intros [[-> ->] E]. split; auto. intros b [<-|Hb]; auto.
    + intros [-> E]. split; [split; auto|]; intros; apply E; auto.
Qed.

Lemma weight_nonneg : forall a, 0 <= weight a.
Proof. intros []; simpl; try lra. left. apply exp_pos. Qed.

Lemma weight_total : forall l, 0 <= lsum (map weight l).
Proof.
  intro l. apply lsum_nonneg. intros v Hv. apply in_map_iff in Hv as [a [<- _]]. apply weight_nonneg.
Qed.

Lemma weight_total_pos : forall l, (forall a, In a l -> log_weight a) ->
  (exists a, In a l /\ a <> NInf) -> 0 < lsum (map weight l).
Proof.
  induction l as [|x r IH]; intros H [a [Ha Hn]]; [destruct Ha|]. simpl.
  destruct Ha as [<-|Ha].
  - assert (W : log_weight x) by (apply H; now left).
    destruct x; simpl in W; try contradiction; try congruence.
    simpl. generalize (exp_pos x) (weight_total r). lra.
  - generalize (weight_nonneg x). assert (0 < lsum (map weight r)).
    { apply IH; [intros; apply H; now right|]. exists a. auto. } lra.
Qed.

Lemma shifted_weight : forall a m, log_weight a ->
  eexp (esub a (Fin m)) = Fin (weight a * exp (- m)).
Proof.
  intros [x| | |] m H; simpl in *; try contradiction.
  - rewrite exp_plus. reflexivity.
  - f_equal. lra.
Qed.

Lemma lsum_map_mult : forall A (f : A -> R) c l,
  lsum (map (fun a => f a * c) l) = lsum (map f l) * c.
Proof. induction l as [|x r IH]; simpl; [lra|]. rewrite IH. lra. Qed.

Lemma logsumexp_fin : forall X, (forall a, In a X -> log_weight a) ->
  (exists a, In a X /\ a <> NInf) ->
  logsumexp X = Ok (Fin (ln (lsum (map weight X)))).
Proof.
  intros X H E. destruct X as [|x r]; [destruct E as [a [[] _]]|].
  unfold logsumexp.
  destruct (fold_emax r x) as [L1 L2]; [apply H; now left|intros; apply H; now right|].
  destruct (fold_left emax2 r x) as [m| | |] eqn:Em; simpl in L1; try contradiction.
  2:{ exfalso. destruct E as [a [Ha Hn]]. apply Hn. destruct (proj1 L2 eq_refl) as [E1 E2].
      destruct Ha as [<-|Ha]; auto. }
  cbn [is_finite]. f_equal.
  rewrite (esum_map_fin _ _ (fun a => weight a * exp (- m)))
    by (intros a Ha; apply shifted_weight; auto).
  rewrite lsum_map_mult.
  assert (P := weight_total_pos _ H E). assert (Q := exp_pos (- m)).
  assert (PQ : 0 < lsum (map weight (x :: r)) * exp (- m)) by (apply Rmult_lt_0_compat; auto).
  unfold elog. destruct (Rlt_dec 0 _) as [_|N]; [|contradiction].
  cbn [eadd]. f_equal. rewrite ln_mult by auto. rewrite ln_exp. lra.
Qed.

Lemma logsumexp_ninf : forall X, X <> [] -> (forall a, In a X -> a = NInf) ->
  logsumexp X = Ok NInf.
Proof.
  intros [|x r] Hne H; [congruence|]. unfold logsumexp.
  destruct (fold_emax r x) as [L1 L2].
  { rewrite (H x) by now left. exact I. }
  { intros b Hb. rewrite (H b) by now right. exact I. }
  rewrite (proj2 L2) by (split; [apply H; now left|intros; apply H; now right]).
  cbn [is_finite]. f_equal.
  rewrite (esum_map_fin _ _ (fun _ => 0)) by (intros a Ha; rewrite (H a Ha); reflexivity).
  assert (Z : forall l : list ext, lsum (map (fun _ => 0) l) = 0).
  { induction l; simpl; lra. }
  rewrite Z. unfold elog. destruct (Rlt_dec 0 0); [lra|].
  destruct (Req_EM_T 0 0); [reflexivity|lra].
Qed.

Lemma exp_ninf_sub : forall a s, log_weight a -> 0 < s ->
  eexp (esub a (Fin (ln s))) = Fin (weight a / s).
Proof.
  intros a s H Hs. rewrite shifted_weight by auto. rewrite exp_Ropp, exp_ln by auto. reflexivity.
Qed.

Lemma normalized_exp_fin : forall X, (forall a, In a X -> log_weight a) ->
  (exists a, In a X /\ a <> NInf) ->
  normalized_exp X =
  Ok (map (fun a => Fin (weight a / lsum (map weight X))) X,
      Fin (ln (lsum (map weight X)))).
Proof.
  intros X H E. unfold normalized_exp. rewrite (logsumexp_fin X H E). cbn [bind].
  set (s := lsum (map weight X)).
  assert (Hs : 0 < s) by (apply weight_total_pos; auto).
  rewrite (map_ext_in (fun x => eexp (esub x (Fin (ln s)))) (fun a => Fin (weight a / s)))
    by (intros a Ha; apply exp_ninf_sub; auto).
  rewrite (esum_map_fin _ _ (fun a => weight a / s)) by reflexivity.
  assert (ES : lsum (map (fun a => weight a / s) X) = 1).
  { unfold Rdiv. rewrite lsum_map_mult. fold s. field. lra. }
  rewrite ES, map_map. do 2 f_equal. apply map_ext. intro a. unfold ediv.
  destruct (Req_EM_T 1 0); [lra|]. f_equal. field. lra.
Qed.

Lemma normalized_exp_ninf : forall X, X <> [] -> (forall a, In a X -> a = NInf) ->
  normalized_exp X = Ok (map (fun _ => NaN) X, NInf).
Proof.
  intros X Hne H. unfold normalized_exp. rewrite logsumexp_ninf by auto. cbn [bind].
  do 2 f_equal. rewrite map_map. apply map_ext_in. intros a Ha. rewrite (H a Ha). reflexivity.
Qed.
