(** Expectations over independent parents, and renaming of keys. *)
From Coq Require Import List Arith ZArith Lia Bool Reals Lra Permutation FunctionalExtensionality.
From Verif Require Import Base Shapes SpecShapes ShapesLemmas NumPy MiscArray SpecArray TensorLemmas
  EinsumLemmas EinsumGen PlateSumLemmas PlateSum2Lemmas SumMultiplyLemmas Dot SpecDot DotEinsum DotSum DotNode.
Import ListNotations.
Open Scope nat_scope.

Lemma mean_ext : forall d F G, (forall o, In o d -> F o = G o) -> mean_of d F = mean_of d G.
Proof. intros d F G H. unfold mean_of. f_equal. apply map_ext_in. intros o Ho. now rewrite H. Qed.
Lemma mean_scal : forall d c F, mean_of d (fun o => c * F o)%R = (c * mean_of d F)%R.
Proof. intros d c F. unfold mean_of, lsum. induction d as [|o d IH]; cbn; [ring|]. rewrite IH. ring. Qed.
Lemma mean_add : forall d F G, mean_of d (fun o => F o + G o)%R = (mean_of d F + mean_of d G)%R.
Proof. intros d F G. unfold mean_of, lsum. induction d as [|o d IH]; cbn; [ring|]. rewrite IH. ring. Qed.
Lemma mean_zero : forall d, mean_of d (fun _ => 0%R) = 0%R.
Proof. intros d. unfold mean_of, lsum. induction d as [|o d IH]; cbn; [ring|]. rewrite IH. ring. Qed.

Notation drawn os ds := (Forall2 (fun o d => In o d) os ds).

Lemma expect_ext : forall ds F G, (forall os, drawn os ds -> F os = G os) -> expect ds F = expect ds G.
Proof.
  induction ds as [|d r IH]; intros F G H; cbn [expect]; [apply H; constructor|].
  apply mean_ext. intros o Ho. apply IH. intros os Hos. apply H. now constructor.
Qed.
Lemma expect_scal : forall ds c F, expect ds (fun os => c * F os)%R = (c * expect ds F)%R.
Proof.
  induction ds as [|d r IH]; intros c F; cbn [expect]; [reflexivity|].
  rewrite <- mean_scal. apply mean_ext. intros o _. apply (IH c (fun os => F (o :: os))).
Qed.
Lemma expect_add : forall ds F G, expect ds (fun os => F os + G os)%R = (expect ds F + expect ds G)%R.
Proof.
  induction ds as [|d r IH]; intros F G; cbn [expect]; [reflexivity|].
  rewrite <- mean_add. apply mean_ext. intros o _. apply (IH (fun os => F (o :: os)) (fun os => G (o :: os))).
Qed.
Lemma expect_zero : forall ds, expect ds (fun _ => 0%R) = 0%R.
Proof.
  induction ds as [|d r IH]; cbn [expect]; [reflexivity|].
  rewrite (mean_ext _ _ (fun _ => 0%R)); [apply mean_zero|]. intros; apply IH.
Qed.
Lemma expect_rsum : forall ds n (F : nat -> list outcome -> R),
  expect ds (fun os => rsum n (fun x => F x os)) = rsum n (fun x => expect ds (F x)).
Proof.
  intros ds n F. induction n as [|n IH]; cbn [rsum]; [apply expect_zero|]. rewrite expect_add. now rewrite IH.
Qed.
Lemma expect_itersum : forall ds l (F : list outcome -> env -> R) e,
  itersum l (fun L => expect ds (fun os => F os L)) e = expect ds (fun os => itersum l (F os) e).
Proof.
  intros ds l F. induction l as [|[k n] l IH]; intros e; [reflexivity|].
  rewrite itersum_cons. unfold sumax.
  transitivity (rsum n (fun x => expect ds (fun os => itersum l (F os) (upd e k x)))).
  { apply rsum_ext. intros x _. apply IH. }
  rewrite <- expect_rsum. apply expect_ext. intros os _. rewrite itersum_cons. reflexivity.
Qed.
Lemma expect_one : forall ds, (forall d, In d ds -> mean_of d (fun _ => 1%R) = 1%R) -> expect ds (fun _ => 1%R) = 1%R.
Proof.
  induction ds as [|d r IH]; intros H; cbn [expect]; [reflexivity|].
  rewrite (mean_ext _ _ (fun _ => 1%R)); [apply H; now left|]. intros. apply IH. intros; apply H; now right.
Qed.

(** Independence. *)
Lemma expect_product : forall (fs : list (outcome -> R)) ds, length fs = length ds ->
  lprod (map (fun q => mean_of (snd q) (fst q)) (combine fs ds)) =
  expect ds (fun os => lprod (map (fun q => (fst q) (snd q)) (combine fs os))).
Proof.
  induction fs as [|f fs IH]; intros [|d ds] H; try discriminate; [reflexivity|].
  cbn [combine map expect fst snd]. injection H as H.
  change (lprod (?a :: ?l)) with (a * lprod l)%R. rewrite (IH ds H).
  rewrite Rmult_comm, <- mean_scal. apply mean_ext. intros o _. cbn [combine map fst snd].
  change (fun os => lprod (f o :: map (fun q : (outcome -> R) * outcome => fst q (snd q)) (combine fs os)))
    with (fun os => f o * lprod (map (fun q : (outcome -> R) * outcome => fst q (snd q)) (combine fs os)))%R.
  rewrite expect_scal. ring.
Qed.
(** Expectation of a sum of functions of one parent each. *)
Lemma expect_sum : forall (f : outcome -> R) ds, (forall d, In d ds -> mean_of d (fun _ => 1%R) = 1%R) ->
  expect ds (fun os => lsum (map f os)) = lsum (map (fun d => mean_of d f) ds).
Proof.
  intros f ds. induction ds as [|d r IH]; intros H; [reflexivity|]. cbn [expect map].
  change (lsum (?a :: ?l)) with (a + lsum l)%R.
  rewrite (mean_ext _ _ (fun o => f o + lsum (map (fun d => mean_of d f) r))%R).
  - rewrite mean_add. f_equal.
    rewrite (mean_ext _ _ (fun o => lsum (map (fun d => mean_of d f) r) * 1)%R) by (intros; ring).
    rewrite mean_scal, H by (now left). ring.
  - intros o _. change (fun os => lsum (map f (o :: os))) with (fun os => f o + lsum (map f os))%R.
    rewrite expect_add, IH by (intros; apply H; now right). f_equal.
    rewrite (expect_ext _ _ (fun _ => f o * 1)%R) by (intros; ring).
    rewrite expect_scal, expect_one; [ring|]. intros; apply H; now right.
Qed.

(** ** Index lists clipped to a shape *)
Definition clip1 (q : nat * nat) : nat := if snd q =? 1 then 0 else fst q.
Definition clipl (dims idx : list nat) : list nat := map clip1 (combine idx dims).
Lemma at_clipl : forall dims idx k, length idx = length dims -> k < length dims ->
  at_index (clipl dims idx) k = if ax dims k =? 1 then 0 else at_index idx k.
Proof.
  intros dims idx k HL Hk. unfold at_index, clipl, ax. rewrite <- map_rev.
  rewrite (nth_indep _ 0 (clip1 (0, 1))) by (rewrite map_length, rev_length, combine_length; lia).
  rewrite map_nth. rewrite rev_nth by (rewrite combine_length; lia). rewrite combine_length, HL, Nat.min_id, combine_nth by assumption.
  unfold clip1. cbn [fst snd]. rewrite !rev_nth by lia. now rewrite HL.
Qed.
Lemma clipl_length : forall dims idx, length idx = length dims -> length (clipl dims idx) = length dims.
Proof. intros. unfold clipl. rewrite map_length, combine_length. lia. Qed.
Lemma clipl_in : forall dims idx, length idx = length dims ->
  (forall k, k < length dims -> ax dims k <> 1 -> at_index idx k < ax dims k) -> index_in dims (clipl dims idx).
Proof.
  induction dims as [|d dims IH]; intros [|i idx] HL H; try discriminate; [constructor|].
  injection HL as HL. unfold clipl. cbn [combine map]. unfold clip1 at 1. cbn [fst snd]. constructor.
  - specialize (H (length dims)). rewrite ax_cons, Nat.eqb_refl in H. unfold at_index in H. cbn [rev] in H.
    rewrite app_nth2 in H; rewrite rev_length in *; [|lia]. rewrite HL, Nat.sub_diag in H. cbn [nth] in H.
    destruct (Nat.eqb_spec d 1); [subst; lia|]. apply H; [cbn; lia|assumption].
  - apply IH; [assumption|]. intros k Hk E. specialize (H k). rewrite ax_cons in H.
    destruct (Nat.eqb_spec k (length dims)); [lia|]. unfold at_index in *. cbn [rev] in H.
    rewrite app_nth1 in H by (rewrite rev_length; lia). apply H; [cbn; lia|assumption].
Qed.
Lemma bget_clipl : forall (a : arr R) dims p idx, length idx = length dims ->
  (forall i, i < length dims -> ax (ash a) i = ax dims i) ->
  bget a (join (length dims) p (at_index idx)) = bget a (join (length dims) p (at_index (clipl dims idx))).
Proof.
  intros a dims p idx HL HA. apply bget_ext. intros k _ E. unfold join. destruct (Nat.ltb_spec k (length dims)); [|reflexivity].
  rewrite at_clipl by assumption. rewrite HA in E by assumption. destruct (Nat.eqb_spec (ax dims k) 1); [contradiction|reflexivity].
Qed.
Lemma bget_clipl0 : forall (a : arr R) idx, length idx = length (ash a) ->
  bget a (at_index idx) = bget a (at_index (clipl (ash a) idx)).
Proof.
  intros a idx HL. apply bget_ext. intros k Hk E. rewrite at_clipl by assumption.
  destruct (Nat.eqb_spec (ax (ash a) k) 1); [contradiction|reflexivity].
Qed.
Lemma clipl_app : forall d d' i i', length i = length d -> clipl (d ++ d') (i ++ i') = clipl d i ++ clipl d' i'.
Proof.
  induction d as [|x d IH]; intros d' [|y i] i' H; try discriminate; [reflexivity|]. injection H as H.
  unfold clipl in *. cbn [app combine map]. now rewrite IH.
Qed.

(** ** The operands of one parent *)
Definition par_value (D : nat) (second : bool) (keys : list nat) (L : env) (o : outcome) : R :=
  if second then (o_scale o * (bget (o_value o) (at_index (map (fun k => L (D + k)%nat) keys)) * bget (o_value o) (at_index (map L keys))))%R
  else (o_scale o * bget (o_value o) (at_index (map L keys)))%R.

Lemma describes_mom_ok : forall gamma P dims kind u dist, describes gamma P dims kind u dist -> mom_ok P dims (is_delta kind) u.
Proof.
  intros gamma P dims kind u dist (_ & _ & H). destruct kind, gamma, u; cbn [is_delta] in H; try contradiction; cbn; tauto.
Qed.

Lemma par_entries : forall gamma P D sz keys dims kind u dist second p L,
  describes gamma P dims kind u dist -> keys_fit D sz keys dims -> plate_in P p ->
  (forall k, In k (two D second keys) -> L k < twice D sz k) ->
  prod_entries (mops D second (keys, u, is_delta kind)) p L = mean_of (dist p) (par_value D second keys L).
Proof.
  intros gamma P D sz keys dims kind u dist second p L (D1 & D2 & D3) (K1 & K2 & K3 & K4) Hp HL.
  assert (C1 : forall (b : bool), (b = true -> second = true) -> index_in dims (clipl dims (map (fun k => L (if b then D + k else k)) keys))).
  { intros b Hb. apply clipl_in; [rewrite map_length; lia|]. intros k Hk E. rewrite at_index_map by lia.
    destruct (K4 k ltac:(lia)) as [E'|E']; [contradiction|]. rewrite E'.
    assert (Hin : In (nth k (rev keys) 0) keys) by (apply nth_rev_In; lia). specialize (K3 _ Hin).
    destruct b.
    - rewrite <- (twice_add D sz). apply HL. rewrite (Hb eq_refl). cbn [two]. apply in_or_app. left. now apply in_map.
    - rewrite <- (twice_lt D sz) by assumption. apply HL. destruct second; cbn [two]; [apply in_or_app; now right|assumption]. }
  assert (C2 : forall o f, In o (dist p) -> bget (o_value o) (at_index (map f keys)) = bget (o_value o) (at_index (clipl dims (map f keys)))).
  { intros o f Ho. destruct (D2 p o Hp Ho) as [E _]. rewrite <- E. apply bget_clipl0. rewrite map_length, E. lia. }
  pose proof (C1 false ltac:(discriminate)) as C10. cbv iota in C10. change (map (fun k => L k) keys) with (map L keys) in C10.
  assert (N1 : forall (x : arr R), variable_of P dims x -> forall f, entry keys x p f = bget x (join (length dims) p (at_index (clipl dims (map f keys))))).
  { intros x (V1 & V2 & V3) f. unfold entry. rewrite <- K1. apply bget_clipl; [rewrite map_length; lia|assumption]. }
  assert (N1' : second = true -> forall (x : arr R), variable_of P dims x ->
    entry (map (Nat.add D) keys) x p L = bget x (join (length dims) p (at_index (clipl dims (map (fun k => L (D + k)) keys))))).
  { intros _ x (V1 & V2 & V3). unfold entry. rewrite map_length, <- K1, map_map. apply bget_clipl; [rewrite map_length; lia|assumption]. }
  assert (N2 : second = true -> forall (xx : arr R), variable_of P (dims ++ dims) xx ->
    entry (map (Nat.add D) keys ++ keys) xx p L =
    bget xx (join (length (dims ++ dims)) p (at_index (clipl dims (map (fun k => L (D + k)) keys) ++ clipl dims (map L keys))))).
  { intros _ xx (V1 & V2 & V3). unfold entry. rewrite map_app, map_map.
    replace (length (map (Nat.add D) keys ++ keys)) with (length (dims ++ dims)) by (rewrite !app_length, map_length; lia).
    rewrite <- clipl_app by (rewrite map_length; lia). apply bget_clipl; [rewrite !app_length, !map_length; lia|assumption]. }
  destruct kind, u as [x|x xx|x xx a la]; cbn [is_delta] in *; try (destruct gamma; contradiction).
  - (* constant *)
    destruct D3 as [V D3].
    assert (A : forall f (b : bool), index_in dims (clipl dims (map f keys)) -> forall o, In o (dist p) ->
      o_scale o = 1%R /\ bget (o_value o) (at_index (map f keys)) = bget x (join (length dims) p (at_index (clipl dims (map f keys))))).
    { intros f b Hf o Ho. destruct (D3 p o Hp Ho) as [S1 S2]. split; [assumption|]. rewrite C2 by assumption. now apply S2. }
    destruct second; cbn [mops negb]; unfold prod_entries; cbn [map fst snd mom0]; unfold lprod; cbn [fold_right].
    + pose proof (C1 true ltac:(reflexivity)) as C11. cbv iota in C11. rewrite N1' by auto. rewrite N1 by assumption.
      set (va := bget x (join (length dims) p (at_index (clipl dims (map (fun k => L (D + k)) keys))))).
      set (vb := bget x (join (length dims) p (at_index (clipl dims (map L keys))))).
      rewrite (mean_ext _ _ (fun o => (va * vb) * 1)%R).
      * rewrite mean_scal, D1 by assumption. ring.
      * intros o Ho. unfold par_value. destruct (A _ true C11 o Ho) as [-> ->]. destruct (A _ true C10 o Ho) as [_ ->]. unfold va, vb. ring.
    + rewrite N1 by assumption. set (vb := bget x _).
      rewrite (mean_ext _ _ (fun o => vb * 1)%R).
      * rewrite mean_scal, D1 by assumption. ring.
      * intros o Ho. unfold par_value. destruct (A _ true C10 o Ho) as [-> ->]. unfold vb. ring.
  - (* Gaussian *)
    destruct gamma; [contradiction|]. destruct D3 as (V & V' & S1 & E1 & E2).
    destruct second; cbn [mops negb]; unfold prod_entries; cbn [map fst snd mom0 xx_of]; unfold lprod; cbn [fold_right]; rewrite Rmult_1_r.
    + pose proof (C1 true ltac:(reflexivity)) as C11. cbv iota in C11. rewrite N2 by auto.
      rewrite E2 by assumption. apply mean_ext. intros o Ho. unfold par_value. rewrite (S1 p o Hp Ho), !(C2 o _ Ho). ring.
    + rewrite N1, E1 by assumption. apply mean_ext. intros o Ho. unfold par_value. rewrite (S1 p o Hp Ho), (C2 o _ Ho). ring.
  - (* Gaussian, converted to Gaussian-gamma *)
    destruct gamma; [|contradiction]. destruct D3 as (V & V' & _ & _ & E1 & E2 & _).
    destruct second; cbn [mops negb]; unfold prod_entries; cbn [map fst snd mom0 xx_of]; unfold lprod; cbn [fold_right]; rewrite Rmult_1_r.
    + pose proof (C1 true ltac:(reflexivity)) as C11. cbv iota in C11. rewrite N2 by auto.
      rewrite E2 by assumption. apply mean_ext. intros o Ho. unfold par_value. rewrite !(C2 o _ Ho). ring.
    + rewrite N1, E1 by assumption. apply mean_ext. intros o Ho. unfold par_value. rewrite (C2 o _ Ho). ring.
  - destruct gamma; [contradiction|]. destruct D3 as (V & V' & S1 & E1 & E2).
    destruct second; cbn [mops negb]; unfold prod_entries; cbn [map fst snd mom0 xx_of]; unfold lprod; cbn [fold_right]; rewrite Rmult_1_r.
    + pose proof (C1 true ltac:(reflexivity)) as C11. cbv iota in C11. rewrite N2 by auto.
      rewrite E2 by assumption. apply mean_ext. intros o Ho. unfold par_value. rewrite (S1 p o Hp Ho), !(C2 o _ Ho). ring.
    + rewrite N1, E1 by assumption. apply mean_ext. intros o Ho. unfold par_value. rewrite (S1 p o Hp Ho), (C2 o _ Ho). ring.
  - destruct gamma; [|contradiction]. destruct D3 as (V & V' & _ & _ & E1 & E2 & _).
    destruct second; cbn [mops negb]; unfold prod_entries; cbn [map fst snd mom0 xx_of]; unfold lprod; cbn [fold_right]; rewrite Rmult_1_r.
    + pose proof (C1 true ltac:(reflexivity)) as C11. cbv iota in C11. rewrite N2 by auto.
      rewrite E2 by assumption. apply mean_ext. intros o Ho. unfold par_value. rewrite !(C2 o _ Ho). ring.
    + rewrite N1, E1 by assumption. apply mean_ext. intros o Ho. unfold par_value. rewrite (C2 o _ Ho). ring.
Qed.

(** ** Both copies of the keys *)
Lemma itersum_two : forall D sz out (A B : env -> R) L, reads (seq 0 D) A -> reads (seq 0 D) B ->
  (forall k, In k out -> k < D) ->
  itersum (map (fun k => (k, twice D sz k)) (filter (fun k => negb (memb k (map (Nat.add D) out ++ out))) (seq 0 (2 * D))))
          (fun L => A (fun k => L (D + k)%nat) * B L)%R L =
  (itersum (map (fun k => (k, sz k)) (filter (fun k => negb (memb k out)) (seq 0 D))) A (fun k => L (D + k)%nat) *
   itersum (map (fun k => (k, sz k)) (filter (fun k => negb (memb k out)) (seq 0 D))) B L)%R.
Proof.
  intros D sz out A B L HA HB HO.
  set (fl := filter (fun k => negb (memb k out)) (seq 0 D)).
  assert (Efl : filter (fun k => negb (memb k (map (Nat.add D) out ++ out))) (seq 0 (2 * D)) = fl ++ map (Nat.add D) fl).
  { replace (2 * D) with (D + D) by lia. rewrite seq_app, filter_app. cbn [Nat.add]. f_equal.
    - unfold fl. apply filter_ext_in. intros k Hk. apply in_seq in Hk. f_equal. apply eq_true_iff_eq. rewrite !memb_In, in_app_iff, in_map_iff.
      split; [intros [[x [E _]]|H]; [lia|assumption]|auto].
    - unfold fl. replace (seq D D) with (map (Nat.add D) (seq 0 D)).
      + generalize (seq 0 D). intros l. induction l as [|x l IH]; [reflexivity|]. cbn [map filter]. rewrite IH.
        assert (E : memb (D + x) (map (Nat.add D) out ++ out) = memb x out).
        { apply eq_true_iff_eq. rewrite !memb_In, in_app_iff, in_map_iff. split.
          - intros [[y [E Hy]]|H]; [replace x with y by lia; assumption|specialize (HO _ H); lia].
          - intros H. left. exists x. auto. }
        rewrite E. destruct (memb x out); reflexivity.
      + assert (G : forall n b a, map (Nat.add b) (seq a n) = seq (b + a) n).
        { induction n as [|n IH]; intros b a; [reflexivity|]. cbn [seq map]. f_equal. rewrite IH. f_equal. lia. }
        rewrite G. f_equal. lia. }
  rewrite Efl, map_app, itersum_app.
  assert (Hfl : forall k, In k fl -> k < D) by (intros k Hk; apply filter_In in Hk as [Hk _]; apply in_seq in Hk; lia).
  set (SA := itersum (map (fun k => (k, sz k)) fl) A).
  transitivity (itersum (map (fun k => (k, sz k)) fl) (fun L => SA (fun k => L (D + k)%nat) * B L)%R L).
  - assert (E1 : map (fun k => (k, twice D sz k)) fl = map (fun k => (k, sz k)) fl).
    { apply map_ext_in. intros k Hk. now rewrite twice_lt by auto. }
    rewrite E1. apply itersum_ext_all. intros L'.
    rewrite itersum_mul_l.
    + f_equal. rewrite map_map. rewrite (map_ext _ (fun k => (D + k, sz k))) by (intros; now rewrite twice_add).
      apply (itersum_rename_on (Nat.add D) (seq 0 D) sz A fl L'); [assumption|intros; lia|].
      intros k Hk. apply in_seq. specialize (Hfl k Hk). lia.
    + intros k Hk L'' x. rewrite map_map in Hk. cbn [fst] in Hk. rewrite map_map, map_id in Hk || rewrite map_id in Hk.
      apply HB. intros j Hj. apply in_seq in Hj. apply upd_other. intros E. apply in_map_iff in Hk as [y [Ey _]]. lia.
  - apply (itersum_mul_r _ B (fun L => SA (fun k => L (D + k)%nat)) L). intros k Hk L' x. rewrite map_map in Hk. cbn [fst] in Hk. rewrite map_id in Hk.
    unfold SA. apply (reads_itersum (seq 0 D)); [assumption|]. intros j Hj. unfold upd. specialize (Hfl k Hk).
    destruct (Nat.eqb_spec (D + j) k); [lia|reflexivity].
Qed.
