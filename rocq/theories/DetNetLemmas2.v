(** Lemmas for C25 with deterministic nodes: moments and messages of a network. *)
From Coq Require Import List Arith ZArith Lia Bool Reals Lra FunctionalExtensionality.
From Verif Require Import Base Shapes SpecShapes ShapesLemmas NumPy MiscArray TensorLemmas
  EinsumLemmas SumMultiplyLemmas SpecArray PlateSumLemmas PlateSum2Lemmas MessageLemmas
  ShapeOpsLemmas DiagLemmas ExpFam SpecExpFam ExpFamLemmas ExpFamBound ExpFamGrad PExpFam SpecUpdate
  UpdateLemmas PUpdate FamilyDist SpecFamilyDist PFamilyDist Network SpecNetwork NetworkLemmas NetworkLemmas2
  PNetwork PFamilyNet Dot SpecDot DetNet SpecDetNet DetNetLemmas.
Import ListNotations.
Open Scope nat_scope.

Lemma mapM_map : forall A B (f : A -> res B) (g : A -> B) l, (forall x, In x l -> f x = Ok (g x)) ->
  mapM f l = Ok (map g l).
Proof.
  intros A B f g l. induction l as [|a l IH]; intros H; [reflexivity|]. cbn [mapM map].
  rewrite H by now left. cbn [bind]. rewrite IH by (intros; apply H; now right). reflexivity.
Qed.
Lemma mapM_ext_in : forall A B (f g : A -> res B) l, (forall x, In x l -> f x = g x) -> mapM f l = mapM g l.
Proof.
  intros A B f g l. induction l as [|a l IH]; intros H; [reflexivity|]. cbn [mapM].
  rewrite H by now left. rewrite IH by (intros; apply H; now right). reflexivity.
Qed.
Lemma foldM_ext_in : forall A B (f g : A -> B -> res A) l acc, (forall a x, In x l -> f a x = g a x) ->
  foldM f acc l = foldM g acc l.
Proof.
  intros A B f g l. induction l as [|b l IH]; intros acc H; [reflexivity|]. cbn [foldM].
  rewrite H by now left. destruct (g acc b); [|reflexivity]. cbn [bind]. apply IH. intros; apply H; now right.
Qed.

Lemma exclude_map : forall A B (f : A -> list B) k l,
  exclude k (map f l) = map (fun xi => if fst xi =? k then [] else f (snd xi)) (combine (seq 0 (length l)) l).
Proof.
  intros A B f k l. unfold exclude. rewrite map_length. generalize 0 as m.
  induction l as [|a l IH]; intros m; [reflexivity|]. cbn [length seq combine map fst snd]. f_equal. apply IH.
Qed.
Lemma exclude_at_plates : forall pdims ups p k, length ups = length pdims ->
  at_plates pdims (exclude k ups) p = exclude k (at_plates pdims ups p).
Proof.
  intros pdims ups p k L. unfold at_plates, exclude. rewrite map_length, combine_length, <- L, Nat.min_id.
  generalize 0 as m. revert pdims L. induction ups as [|u ups IH]; intros [|pd pdims] L m; try discriminate; [reflexivity|].
  cbn [length seq combine map fst snd]. f_equal; [|apply IH; cbn in L; lia].
  destruct (m =? k); [|reflexivity]. unfold at_plate. now destruct pd.
Qed.

Lemma pair_place : forall n m u, functional n m u = pairing (place_of n) m u.
Proof. reflexivity. Qed.

Section Net.
Variable net : dnet.
Variable T : types.

Definition mom (st : nstate) (j : nat) : list (arr R) :=
  match dn_moments net st (dt_size net) j with Ok u => u | Err _ => [] end.

Lemma moments_fuel : forall st fuel fuel' j, dnet_ok net T st -> j < dt_size net -> j < fuel -> j < fuel' ->
  dn_moments net st fuel j = dn_moments net st fuel' j.
Proof.
  intros st. induction fuel as [|fuel IH]; intros fuel' j OK Hj H H'; [lia|]. destruct fuel' as [|fuel']; [lia|].
  cbn [dn_moments]. destruct (dt_kind net j) eqn:EK; [reflexivity|].
  rewrite (mapM_ext_in _ _ (dn_moments net st fuel) (dn_moments net st fuel')); [reflexivity|].
  intros x Hx. pose proof (do_order _ _ _ OK j x Hj Hx). apply IH; try assumption; lia.
Qed.

Lemma mom_spec : forall st j, dnet_ok net T st -> j < dt_size net ->
  dn_moments net st (dt_size net) j = Ok (mom st j) /\ moments_in (place_of (st j)) (t_mom T j) (mom st j).
Proof.
  intros st j OK. induction (lt_wf j) as [j _ IH]. intros Hj.
  assert (G : exists u, dn_moments net st (dt_size net) j = Ok u /\ moments_in (place_of (st j)) (t_mom T j) u).
  { destruct (dt_size net) as [|n] eqn:En; [lia|]. cbn [dn_moments]. rewrite <- En in *. destruct (dt_kind net j) as [F|D] eqn:EK.
    - eexists. split; [reflexivity|]. now apply (do_mom _ _ _ OK j F).
    - rewrite (mapM_map _ _ _ (mom st)).
      2:{ intros x Hx. pose proof (do_order _ _ _ OK j x Hj Hx). rewrite (moments_fuel st n (dt_size net)) by (try assumption; lia).
          apply (IH x); lia. }
      cbn [bind]. apply (dy_mom _ _ _ _ _ _ (do_det _ _ _ OK j D Hj EK)).
      apply Forall2_of_nth; [now rewrite map_length|]. intros x i u Hi Hu. rewrite (map_nth_error _ _ _ Hi) in Hu. injection Hu as <-.
      apply nth_error_In in Hi. pose proof (do_order _ _ _ OK j i Hj Hi). apply (IH i); lia. }
  destruct G as (u & E & M). unfold mom. rewrite E. split; [reflexivity|exact M].
Qed.

Lemma mom_stoch : forall st j F, j < dt_size net -> dt_kind net j = KStoch F -> mom st j = n_u (st j).
Proof. intros st j F Hj E. unfold mom. destruct (dt_size net); [lia|]. cbn [dn_moments]. now rewrite E. Qed.

Definition moms (st : nstate) (j : nat) := map (mom st) (dt_parents net j).

Lemma mom_det : forall st j D, dnet_ok net T st -> j < dt_size net -> dt_kind net j = KDet D ->
  df_moments D (moms st j) = Ok (mom st j).
Proof.
  intros st j D OK Hj EK. destruct (mom_spec st j OK Hj) as [E _]. rewrite <- E. unfold moms.
  destruct (dt_size net) as [|n] eqn:En; [lia|]. cbn [dn_moments]. rewrite EK, <- En in *.
  rewrite (mapM_map _ _ _ (mom st)); [reflexivity|].
  intros x Hx. pose proof (do_order _ _ _ OK j x Hj Hx). rewrite (moments_fuel st n (dt_size net)) by (try assumption; lia).
  apply (mom_spec st x OK). lia.
Qed.

Lemma moms_in : forall st j, dnet_ok net T st -> j < dt_size net ->
  Forall2 (fun i u => moments_in (place_of (st i)) (t_mom T i) u) (dt_parents net j) (moms st j).
Proof.
  intros st j OK Hj. apply Forall2_of_nth; [unfold moms; now rewrite map_length|]. intros x i u Hi Hu. unfold moms in Hu.
  rewrite (map_nth_error _ _ _ Hi) in Hu. injection Hu as <-. apply nth_error_In in Hi.
  pose proof (do_order _ _ _ OK j i Hj Hi). apply (mom_spec st i OK). lia.
Qed.

Lemma from_parents_ok : forall st j, dnet_ok net T st -> j < dt_size net -> from_parents net st j = Ok (moms st j).
Proof.
  intros st j OK Hj. unfold from_parents. apply mapM_map. intros x Hx. pose proof (do_order _ _ _ OK j x Hj Hx).
  apply (mom_spec st x OK). lia.
Qed.
Lemma from_other_ok : forall st j k, dnet_ok net T st -> j < dt_size net ->
  from_other_parents net st j k = Ok (exclude k (moms st j)).
Proof.
  intros st j k OK Hj. unfold from_other_parents, moms. rewrite exclude_map. apply mapM_map. intros [x i] Hx. cbn [fst snd].
  destruct (x =? k); [reflexivity|]. apply in_combine_r in Hx. pose proof (do_order _ _ _ OK j i Hj Hx). apply (mom_spec st i OK). lia.
Qed.

(** ** Messages *)
Lemma dchildren_spec : forall i j k, In (j, k) (dchildren net i) <->
  j < dt_size net /\ nth_error (dt_parents net j) k = Some i.
Proof.
  intros i j k. unfold dchildren. rewrite in_flat_map. split.
  - intros (j' & Hj & H). apply in_map_iff in H as (k' & E & H).
    injection E as -> ->. apply filter_In in H as [H1 H2]. apply in_seq in Hj. apply in_seq in H1. split; [lia|].
    apply Nat.eqb_eq in H2. rewrite <- H2. apply nth_error_nth'. lia.
  - intros [Hj Hk]. exists j. split; [apply in_seq; lia|]. apply in_map. apply filter_In.
    assert (k < length (dt_parents net j)) by (apply nth_error_Some; congruence).
    split; [apply in_seq; lia|]. rewrite (nth_error_nth _ _ _ Hk). apply Nat.eqb_refl.
Qed.

Lemma children_fuel : forall st fuel fuel' i, dnet_ok net T st -> i < dt_size net -> dt_size net <= i + fuel -> dt_size net <= i + fuel' ->
  from_children net st fuel i = from_children net st fuel' i.
Proof.
  intros st. induction fuel as [|fuel IH]; intros fuel' i OK Hi H H'; [lia|]. destruct fuel' as [|fuel']; [lia|].
  cbn [from_children]. apply foldM_ext_in. intros acc [j k] Hx. apply dchildren_spec in Hx as [Hj Hk].
  destruct (from_other_parents net st j k); [|reflexivity]. cbn [bind]. destruct (dt_kind net j); [reflexivity|].
  pose proof (do_order _ _ _ OK j i Hj (nth_error_In _ _ Hk)). now rewrite (IH fuel' j) by (try assumption; lia).
Qed.

Definition msg (st : nstate) (i : nat) : list (arr R) :=
  match from_children net st (dt_size net) i with Ok m => m | Err _ => [] end.
(** The message of node [j] to its parent number [k], which is node [i]. *)
Definition part_res (st : nstate) (j k i : nat) : res (list (arr R)) :=
  match dt_kind net j with
  | KStoch F => stoch_message F (st j) (st i) k (exclude k (moms st j))
  | KDet D => df_message D (place_of (st j)) (place_of (st i)) k (msg st j) (exclude k (moms st j))
  end.
Definition part (st : nstate) (j k i : nat) : list (arr R) :=
  match part_res st j k i with Ok m => m | Err _ => [] end.

Lemma parents_at : forall st j F p, dnet_ok net T st -> j < dt_size net -> dt_kind net j = KStoch F ->
  valid (n_plates (st j)) p -> parents_in T F (dt_parents net j) (at_plates (e_pdims F) (moms st j) p).
Proof.
  intros st j F p OK Hj EK Hp. pose proof (do_arity _ _ _ OK j F Hj EK) as LP.
  assert (Lm : length (moms st j) = length (e_pdims F)) by (unfold moms; now rewrite map_length).
  assert (G : forall k i, nth_error (dt_parents net j) k = Some i ->
    nth_error (e_pdims F) k = Some (n_dims (st i)) /\
    nth_error (at_plates (e_pdims F) (moms st j) p) k = Some (at_plate (n_dims (st i)) (mom st i) p) /\
    i < dt_size net /\ broadcasts_to (n_plates (st i)) (n_plates (st j))).
  { intros k i Hk. destruct (do_link _ _ _ OK j F k i Hj EK Hk) as [L1 L2 _ _].
    assert (Hpd : nth_error (e_pdims F) k = Some (n_dims (st i))).
    { rewrite <- L1. apply nth_error_nth'. rewrite LP. apply nth_error_Some. congruence. }
    split; [exact Hpd|]. split; [|split; [|exact L2]].
    - apply at_plates_nth; [exact Hpd|]. unfold moms. now apply map_nth_error.
    - pose proof (do_order _ _ _ OK j i Hj (nth_error_In _ _ Hk)). lia. }
  assert (La : length (at_plates (e_pdims F) (moms st j) p) = length (e_pdims F)).
  { unfold at_plates. rewrite map_length, combine_length. lia. }
  split.
  - apply Forall2_of_nth; [now symmetry|]. intros k pd us Hpd Hus.
    destruct (nth_total _ _ _ (dt_parents net j) k pd LP Hpd) as [i Hi].
    destruct (G k i Hi) as (G1 & G2 & G3 & G4). rewrite G1 in Hpd. injection Hpd as <-. rewrite G2 in Hus. injection Hus as <-.
    apply at_plate_length. symmetry. destruct (mom_spec st i OK G3) as [_ [M _]]. apply (Forall2_len _ _ _ _ _ M).
  - apply Forall2_of_nth; [now rewrite La|]. intros k i us Hi Hus.
    destruct (G k i Hi) as (G1 & G2 & G3 & G4). rewrite G2 in Hus. injection Hus as <-.
    apply (moments_in_child (place_of (st i)) _ _ (n_plates (st j)) p (proj2 (mom_spec st i OK G3))); [|exact G4|exact Hp].
    now apply (do_values _ _ _ OK).
Qed.

Lemma own_at : forall st j F p, dnet_ok net T st -> j < dt_size net -> dt_kind net j = KStoch F ->
  valid (n_plates (st j)) p ->
  length (at_plate (fam_dims (e_fam F)) (n_u (st j)) p) = length (fam_dims (e_fam F)) /\
  t_mom T j (at_plate (fam_dims (e_fam F)) (n_u (st j)) p).
Proof.
  intros st j F p OK Hj EK Hp. pose proof (do_node _ _ _ OK j F Hj EK) as N. destruct (do_mom _ _ _ OK j F Hj EK) as [V M].
  cbn [place_of pl_dims pl_plates] in *. rewrite <- (nk_dims _ _ _ N). split; [|now apply M].
  apply at_plate_length. symmetry. apply (Forall2_len _ _ _ _ _ V).
Qed.

Definition stoch_part (st : nstate) (F : efam) (j k : nat) (u : list (arr R)) : R :=
  (lprod (map INR (n_mult (st j))) * total (n_plates (st j)) (fun p => if bget (n_mask (st j)) p then
     fdot (nth k (e_pdims F) [])
       (e_message F k (at_plate (fam_dims (e_fam F)) (n_u (st j)) p)
          (exclude k (at_plates (e_pdims F) (moms st j) p)))
       (at_plate (nth k (e_pdims F) []) u p) else 0))%R.

Lemma stoch_part_ok : forall st j F k i, dnet_ok net T st -> j < dt_size net -> dt_kind net j = KStoch F ->
  nth_error (dt_parents net j) k = Some i ->
  exists y, stoch_message F (st j) (st i) k (exclude k (moms st j)) = Ok y /\
    messages_in (place_of (st i)) (t_msg T i) y /\ silent (place_of (st i)) y /\
    forall u, fits (n_plates (st i)) (n_dims (st i)) u -> pairing (place_of (st i)) y u = stoch_part st F j k u.
Proof.
  intros st j F k i OK Hj EK Hk. destruct (do_link _ _ _ OK j F k i Hj EK Hk) as [L1 L2 L3 L4].
  assert (Hi : i < dt_size net) by (pose proof (do_order _ _ _ OK j i Hj (nth_error_In _ _ Hk)); lia).
  pose proof (do_mask _ _ _ OK j Hj) as Mj. pose proof (do_mask _ _ _ OK i Hi) as Mi.
  pose proof (do_stoch _ _ _ OK j F Hj EK) as S. pose proof (do_arity _ _ _ OK j F Hj EK) as LP.
  assert (Kl : k < length (e_pdims F)) by (rewrite LP; apply nth_error_Some; congruence).
  assert (Lm : length (moms st j) = length (e_pdims F)) by (unfold moms; now rewrite map_length).
  unfold stoch_message.
  replace (fun p : env => e_message F k (at_plate (fam_dims (e_fam F)) (n_u (st j)) p)
             (at_plates (e_pdims F) (exclude k (moms st j)) p))
    with (fun p : env => e_message F k (at_plate (fam_dims (e_fam F)) (n_u (st j)) p)
             (exclude k (at_plates (e_pdims F) (moms st j) p)))
    by (apply functional_extensionality; intros p; now rewrite exclude_at_plates).
  set (f := fun p : env => _). rewrite L1.
  destruct (messages_adjoint (n_mask (st j)) (n_mask (st i)) (n_plates (st j)) (n_mult (st j)) (n_mult (st i))
    (n_plates (st i)) (n_dims (st i)) (lift_arrays (n_plates (st j)) (n_dims (st i)) f) L2 L3 Mj Mi L4) as (ys & E & Fy & G).
  { apply Forall2_of_nth; [now rewrite lift_arrays_length|]. intros x d a Hd Ha.
    now destruct (lift_arrays_nth _ _ _ _ _ _ Hd Ha). }
  exists ys. split; [exact E|]. split; [|split].
  2: exact (lifted_silent _ _ _ _ _ _ _ _ _ L2 L3 Mj Mi L4 E Fy _).
  - split; [exact Fy|]. intros p Hp.
    apply (lifted_message_in _ _ _ _ _ _ _ _ _ L2 L3 Mj (do_cone _ _ _ OK i Hi) E Fy); [|exact Hp].
    intros q Hq. destruct (own_at st j F q OK Hj EK Hq) as [X1 X2].
    apply (sy_msg _ _ _ _ _ S); try assumption. now apply parents_at.
  - intros u Fu. rewrite <- pair_place. unfold functional. rewrite (G u Fu).
    unfold stoch_part. f_equal. apply total_ext. intros p Hp. destruct (bget _ _); [|reflexivity].
    rewrite L1. rewrite lift_dot; [reflexivity|exact Hp| |].
    + unfold f. rewrite (sy_len _ _ _ _ _ S) by exact Kl. now rewrite L1.
    + symmetry. apply (Forall2_len _ _ _ _ _ Fu).
Qed.

Lemma fold_parts : forall st i (g : nat -> nat -> res (list (arr R))) l acc,
  SpecDetNet.cone (n_dims (st i)) (t_msg T i) ->
  (forall j k, In (j, k) l -> exists y, g j k = Ok y /\ messages_in (place_of (st i)) (t_msg T i) y /\ silent (place_of (st i)) y) ->
  messages_in (place_of (st i)) (t_msg T i) acc -> silent (place_of (st i)) acc -> Forall2 (variable_of (n_plates (st i))) (n_dims (st i)) acc ->
  exists m, foldM (fun acc jk => let '(j, k) := (jk : nat * nat) in m <- g j k ;; zipM np_add acc m) acc l = Ok m /\
    messages_in (place_of (st i)) (t_msg T i) m /\ silent (place_of (st i)) m /\ Forall2 (variable_of (n_plates (st i))) (n_dims (st i)) m /\
    forall u, pairing (place_of (st i)) m u = (pairing (place_of (st i)) acc u +
      lsum (map (fun jk => pairing (place_of (st i)) (match g (fst jk) (snd jk) with Ok y => y | Err _ => [] end) u) l))%R.
Proof.
  intros st i g l. induction l as [|[j k] l IH]; intros acc C H MA SA VA.
  - exists acc. split; [reflexivity|]. split; [exact MA|]. split; [exact SA|]. split; [exact VA|]. intros u. unfold lsum. cbn. ring.
  - destruct (H j k (or_introl eq_refl)) as (y & Ey & My & Sy). cbn [foldM]. rewrite Ey. cbn [bind].
    destruct (add_fits _ _ _ _ (proj1 MA) (proj1 My)) as (acc' & E2 & F2). rewrite E2. cbn [bind].
    assert (MA' : messages_in (place_of (st i)) (t_msg T i) acc') by exact (add_in (place_of (st i)) _ _ _ _ C MA My E2).
    assert (VA' : Forall2 (variable_of (n_plates (st i))) (n_dims (st i)) acc') by (apply (add_variable _ _ _ _ _ VA (proj1 My) E2)).
    pose proof (add_silent (place_of (st i)) _ _ _ (proj1 MA) (proj1 My) E2 SA Sy) as SA'.
    destruct (IH acc' C (fun j k J => H j k (or_intror J)) MA' SA' VA') as (m & E3 & M3 & S3 & V3 & G3).
    exists m. split; [exact E3|]. split; [exact M3|]. split; [exact S3|]. split; [exact V3|]. intros u. rewrite (G3 u).
    rewrite (pairing_add _ _ _ _ u (proj1 MA) (proj1 My) E2). unfold lsum. cbn [map fold_right fst snd]. rewrite Ey. ring.
Qed.

(** The message to a node that needs one exists and is the sum of the messages of its children. *)
Lemma msg_spec : forall st i, dnet_ok net T st -> i < dt_size net -> live net i ->
  from_children net st (dt_size net) i = Ok (msg st i) /\
  messages_in (place_of (st i)) (t_msg T i) (msg st i) /\ silent (place_of (st i)) (msg st i) /\
  Forall2 (variable_of (n_plates (st i))) (n_dims (st i)) (msg st i) /\
  (forall j k, In (j, k) (dchildren net i) -> part_res st j k i = Ok (part st j k i) /\
     messages_in (place_of (st i)) (t_msg T i) (part st j k i)) /\
  forall u, pairing (place_of (st i)) (msg st i) u =
    lsum (map (fun jk => pairing (place_of (st i)) (part st (fst jk) (snd jk) i) u) (dchildren net i)).
Proof.
  intros st i OK. remember (dt_size net - i) as n eqn:En. revert i En.
  induction n as [n IH] using lt_wf_ind. intros i En Hi LV.
  assert (LC : forall j k D, dt_kind net j = KDet D -> nth_error (dt_parents net j) k = Some i -> live net j).
  { intros j k D EK Hk. destruct LV as (s & F & E1 & E2). exists s, F. split; [exact E1|].
    apply (cf_step net s j D i EK (nth_error_In _ _ Hk) E2). }
  assert (HP : forall j k, In (j, k) (dchildren net i) -> exists y, part_res st j k i = Ok y /\ messages_in (place_of (st i)) (t_msg T i) y /\ silent (place_of (st i)) y).
  { intros j k Hjk. apply dchildren_spec in Hjk as [Hj Hk].
    pose proof (do_order _ _ _ OK j i Hj (nth_error_In _ _ Hk)) as Hij. unfold part_res.
    destruct (dt_kind net j) as [F|D] eqn:EK.
    - destruct (stoch_part_ok st j F k i OK Hj EK Hk) as (y & E & M & S & _). now exists y.
    - destruct (IH (dt_size net - j) ltac:(lia) j eq_refl Hj (LC j k D EK Hk)) as (_ & M & S & V & _).
      destruct (dy_msg _ _ _ _ _ _ (do_det _ _ _ OK j D Hj EK) k i (moms st j) (msg st j) Hk LV (moms_in st j OK Hj) M V S) as (y & E & My & Sy & _).
      now exists y. }
  pose proof (zeros_in (place_of (st i)) (t_msg T i) (do_cone _ _ _ OK i Hi)) as Z. cbn [pl_dims place_of] in Z.
  destruct (fold_parts st i (fun j k => part_res st j k i) (dchildren net i) _ (do_cone _ _ _ OK i Hi) HP Z (zeros_silent (place_of (st i))) (zeros_variable _ _))
    as (m & E & M & S & V & G).
  assert (E' : from_children net st (dt_size net) i = Ok m).
  { rewrite <- E. destruct (dt_size net) as [|s] eqn:Es; [lia|]. cbn [from_children]. rewrite <- Es in *. apply foldM_ext_in.
    intros acc [j k] Hjk. apply dchildren_spec in Hjk as [Hj Hk].
    pose proof (do_order _ _ _ OK j i Hj (nth_error_In _ _ Hk)) as Hij.
    rewrite (from_other_ok st j k OK Hj). cbn [bind]. unfold part_res. destruct (dt_kind net j) as [F|D] eqn:EK; [reflexivity|].
    destruct (IH (dt_size net - j) ltac:(lia) j eq_refl Hj (LC j k D EK Hk)) as (Ej & _).
    rewrite (children_fuel st s (dt_size net) j OK Hj) by lia. rewrite Ej. reflexivity. }
  assert (EM : msg st i = m) by (unfold msg; now rewrite E'). rewrite EM. split; [exact E'|]. split; [exact M|]. split; [exact S|]. split; [exact V|]. split.
  - intros j k Hjk. destruct (HP j k Hjk) as (y & Ey & My & _). unfold part. rewrite Ey. now split.
  - intros u. rewrite (G u). rewrite (pairing_zero (place_of (st i))). rewrite Rplus_0_l. reflexivity.
Qed.
End Net.
