(** C24 for nodes: an update of a node maximises the lower bound. *)
From Coq Require Import List Arith ZArith Lia Bool Reals Lra FunctionalExtensionality.
From Verif Require Import Base Shapes SpecShapes ShapesLemmas NumPy MiscArray TensorLemmas
  EinsumLemmas SumMultiplyLemmas SpecArray PlateSumLemmas PlateSum2Lemmas MessageLemmas
  ShapeOpsLemmas DiagLemmas ExpFam SpecExpFam ExpFamLemmas ExpFamBound ExpFamGrad PExpFam SpecUpdate
  UpdateLemmas.
Import ListNotations.
Open Scope nat_scope.

(** The part of the lower bound that depends on a node in state [n], when its
    parents send [u_parents] and its children send the messages [m]: its own
    contribution and <m, u>.  [c] is the weight of the messages (the argument
    annealing of update, 1 by default). *)
Definition objective {pm val} (D : dist pm val) (nan : R) (n : efnode) (u_parents : pm)
           (m : list (arr R)) (c : R) (L : R) : Prop :=
  exists l, lower_bound_contribution D nan n u_parents = Ok l /\ L = (l + c * message_dot n m)%R.

Lemma lprod_INR_pos : forall l, (0 <= lprod (map INR l))%R.
Proof.
  induction l as [|x l IH]; unfold lprod in *; cbn; [lra|]. apply Rmult_le_pos; [apply pos_INR|exact IH].
Qed.

Section Plates.
Context {pm val : Type}.
Variable D : dist pm val.

(** The objective, plate by plate. *)
Definition plate_objective (n : efnode) (prior : list (arr R)) (cgf : arr R) (m : list (arr R)) (c : R) (p : env) : R :=
  (plate_bound n prior cgf p + c * dot_at (n_dims n) m (n_u n) p)%R.

Lemma objective_ok : forall nan n up prior cgf m c, d_phi D up = Ok prior -> d_cgf D up = Ok cgf ->
  bound_shaped n prior cgf ->
  objective D nan n up m c (lprod (map INR (n_mult n)) * total (n_plates n) (fun p =>
     if bget (n_mask n) p then plate_objective n prior cgf m c p else 0))%R.
Proof.
  intros nan n up prior cgf m c E1 E2 B. eexists. split; [apply (lower_bound_ok D nan n up prior cgf E1 E2 B)|].
  unfold message_dot, plate_objective.
  rewrite (total_ext _ (fun p => if bget (n_mask n) p then (plate_bound n prior cgf p + c * dot_at (n_dims n) m (n_u n) p)%R else 0%R)
     (fun p => (c * (if bget (n_mask n) p then dot_at (n_dims n) m (n_u n) p else 0) +
               (if bget (n_mask n) p then plate_bound n prior cgf p else 0))%R)).
  - rewrite total_lin. ring.
  - intros p _. destruct (bget (n_mask n) p); ring.
Qed.

Lemma plate_compare : forall n mc up prior cgf c n' alt proper,
  step_shaped D n mc up prior -> bound_shaped n prior cgf -> no_bias n -> (0 < n_ann n)%R ->
  gibbs D (n_plates n) (n_dims n) proper ->
  update D n mc up c = (n', Ok tt) -> proper (n_phi n') -> candidate D proper n alt -> bound_shaped alt prior cgf ->
  bound_shaped n' prior cgf /\
  n_plates n' = n_plates n /\ n_dims n' = n_dims n /\ n_mask n' = n_mask n /\ n_mult n' = n_mult n /\
  n_obs n' = n_obs n /\ (np_all (n_obs n) = false -> consistent D n') /\
  forall p, valid (n_plates n) p ->
    (plate_objective alt prior cgf mc c p <= plate_objective n' prior cgf mc c p)%R /\
    (strict_gibbs D (n_plates n) (n_dims n) proper -> plate_objective alt prior cgf mc c p = plate_objective n' prior cgf mc c p ->
     forall i d a b, nth_error (n_dims n) i = Some d -> nth_error (n_u alt) i = Some a ->
       nth_error (n_u n') i = Some b -> forall v, valid d v -> bget a (join (length d) p v) = bget b (join (length d) p v)).
Proof.
  intros n mc up prior cgf c n' alt proper SS B NB HA GI HU PR CA BA.
  pose proof (bs_ws _ _ _ B) as W.
  assert (Lp : length prior = length (n_dims n)) by (symmetry; apply (Forall2_len _ _ _ _ _ (bs_prior _ _ _ B))).
  assert (Lq : length (n_phi n) = length (n_dims n)) by (symmetry; apply (Forall2_len _ _ _ _ _ (bs_phi _ _ _ B))).
  assert (Lu : length (n_u n) = length (n_dims n)) by (symmetry; apply (Forall2_len _ _ _ _ _ (ws_u _ W))).
  destruct CA as [A1 A2 A3 A4 A5 A6 A7 A8 A9 A10 (ua & ga & AM & ASW & AG)].
  assert (La : length (n_u alt) = length (n_dims n)) by apply A8.
  assert (Lqa : length (n_phi alt) = length (n_dims n)) by (symmetry; apply (Forall2_len _ _ _ _ _ A9)).
  assert (OBS : forall m, n_dims m = n_dims n -> length (n_u m) = length (n_dims n) -> length (n_phi m) = length (n_dims n) ->
    forall p, valid (n_plates n) p -> bget (n_obs n) p = true -> n_obs m = n_obs n -> n_f m = n_f n ->
      same_where (n_plates n) (n_dims n) (bget (n_obs n)) (n_u m) (n_u n) ->
      plate_objective m prior cgf mc c p =
      (bget cgf p + bget (n_f n) p + dot_at (n_dims n) prior (n_u n) p + c * dot_at (n_dims n) mc (n_u n) p)%R).
  { intros m M1 M2 M3 p Hp Ho M4 M5 M6. unfold plate_objective. rewrite plate_bound_eq; rewrite ?M1; try assumption.
    rewrite M4, M5, Ho. now rewrite !(dot_at_same (n_plates n) (n_dims n) _ _ _ _ p M6 Hp Ho). }
  destruct (np_all (n_obs n)) eqn:Hall.
  - unfold update in HU. rewrite Hall in HU. injection HU as <-.
    split; [exact B|]. do 5 (split; [reflexivity|]). split; [discriminate|]. intros p Hp.
    assert (Ho : bget (n_obs n) p = true).
    { rewrite <- (bget_clip _ (n_obs n)). apply (proj1 (np_all_spec _) Hall).
      apply (valid_clip _ (n_plates n)); [apply (ws_obs _ W)|exact Hp]. }
    rewrite (OBS alt), (OBS n); try assumption; try reflexivity.
    + split; [lra|]. intros _ _ i d a b Hd Ha Hb v Hv. apply (proj2 (proj2 A8) i d a b Hd Ha Hb);
        [now apply join_valid|now rewrite join_plate].
    + split; [exact Lu|]. split; [exact Lu|]. intros i d a b _ Ha Hb. rewrite Ha in Hb. now injection Hb as ->.
  - destruct (update_shape D n mc up prior c n' W SS Hall HU)
      as (V & u & g & ys & gg & -> & FV & LIN & EM & MX & EG & W').
    set (n' := with_g (with_u (with_phi n V) ys) gg) in *.
    assert (AM' : d_moments D (n_phi alt) (np_not (n_obs n)) = Ok (ua, ga)) by (now rewrite <- A4).
    destruct (GI _ _ _ _ _ _ _ FV A9 PR A10 EM AM') as [BG _].
    destruct (GI _ _ _ _ _ _ _ A9 FV A10 PR AM' EM) as [_ KL].
    assert (Lv : length V = length (n_dims n)) by (symmetry; apply (Forall2_len _ _ _ _ _ FV)).
    destruct (mixed_same _ _ _ _ _ _ MX) as [MS1 MS2].
    assert (Ly : length ys = length (n_dims n)) by apply MS1.
    assert (B' : bound_shaped n' prior cgf).
    { destruct B. constructor; try assumption. cbn [n_g n_plates n' with_g with_u with_phi].
      apply (where_broadcasts _ _ _ _ _ EG); [apply not_broadcasts, (ws_obs n W)|exact BG|assumption]. }
    split; [exact B'|]. do 5 (split; [reflexivity|]). split.
    { intros _. exists u, g. split; [exact EM|]. split.
      - cbn [n_plates n_dims n_obs n_u n' with_g with_u with_phi]. destruct MS1 as (S1 & S2 & S3).
        split; [exact S1|]. split; [exact S2|]. intros i d a b Hd Ha Hb e He Ho.
        apply (S3 i d a b Hd Ha Hb e He). now rewrite bget_not.
      - cbn [n_plates n_dims n_obs n_g n' with_g with_u with_phi]. intros p Hp Ho.
        destruct (np_where_ok _ _ _ _ _ EG) as [_ ->]. now rewrite bget_not, Ho. }
    intros p Hp. destruct (bget (n_obs n) p) eqn:Ho.
    + rewrite (OBS alt), (OBS n'); try assumption; try reflexivity.
      * split; [lra|]. intros _ _ i d a b Hd Ha Hb v Hv.
        destruct (nth_total _ _ (n_dims n) (n_u n) i d (eq_sym Lu) Hd) as [z Hz].
        transitivity (bget z (join (length d) p v)).
        -- apply (proj2 (proj2 A8) i d a z Hd Ha Hz); [now apply join_valid|now rewrite join_plate].
        -- apply (proj2 (proj2 MS2) i d z b Hd Hz Hb); [now apply join_valid|].
           now rewrite join_plate, bget_not, Ho.
      * cbn [n_u n' with_g with_u with_phi]. split; [exact Ly|]. split; [exact Lu|].
        intros i d a b Hd Ha Hb e He Hoe. symmetry. apply (proj2 (proj2 MS2) i d b a Hd Hb Ha e He).
        now rewrite bget_not, Hoe.
    + specialize (KL p Hp). rewrite bget_not, Ho in KL. specialize (KL eq_refl).
      assert (ESA : forall a, dot_at (n_dims n) a (n_u alt) p = dot_at (n_dims n) a ua p).
      { intros a. symmetry. rewrite A1, A2, A4 in ASW. apply (dot_at_same _ _ _ _ _ _ p ASW Hp). now rewrite Ho. }
      assert (ESN : forall a, dot_at (n_dims n) a ys p = dot_at (n_dims n) a u p).
      { intros a. symmetry. apply (dot_at_same _ _ _ _ _ _ p MS1 Hp). now rewrite bget_not, Ho. }
      assert (GA : bget (n_g alt) p = bget ga p).
      { symmetry. apply AG; [now rewrite A1|now rewrite A4]. }
      assert (GN : bget gg p = bget g p).
      { destruct (np_where_ok _ _ _ _ _ EG) as [_ ->]. now rewrite bget_not, Ho. }
      assert (DV : forall w, length w = length (n_dims n) ->
        (dot_at (n_dims n) prior w p + c * dot_at (n_dims n) mc w p = 1 / n_ann n * dot_at (n_dims n) V w p)%R).
      { intros w Lw. rewrite (dot_lin _ _ _ _ _ _ _ w p LIN Lw), dot_scaled, (dot_zero _ _ _ _ NB). field. lra. }
      assert (Lua : length ua = length (n_dims n)) by (destruct ASW as (X & _); now rewrite A2 in X).
      assert (LL : length u = length (n_dims n)) by apply MS1.
      assert (E1 : plate_objective alt prior cgf mc c p = (bget cgf p + 1 / n_ann n *
          (dot_at (n_dims n) V ua p - dot_at (n_dims n) (n_phi alt) ua p - bget ga p))%R).
      { unfold plate_objective. rewrite plate_bound_eq; rewrite ?A2; try assumption.
        rewrite A4, Ho, A6, GA, !ESA. pose proof (DV ua Lua). lra. }
      assert (E2 : plate_objective n' prior cgf mc c p = (bget cgf p + 1 / n_ann n * (- bget g p))%R).
      { unfold plate_objective. rewrite plate_bound_eq; try assumption.
        cbn [n_plates n_dims n_obs n_u n_g n_ann n_phi n' with_g with_u with_phi].
        rewrite Ho, GN, !ESN. pose proof (DV u LL). lra. }
      assert (Ti : (0 < 1 / n_ann n)%R) by (apply Rdiv_lt_0_compat; lra).
      split.
      * rewrite E1, E2. apply Rplus_le_compat_l. apply Rmult_le_compat_l; lra.
      * intros SG EQ i d a b Hd Ha Hb v Hv. rewrite E1, E2 in EQ.
        assert (Z : (dot_at (n_dims n) (n_phi alt) ua p - dot_at (n_dims n) V ua p + bget ga p - bget g p = 0)%R).
        { apply Rplus_eq_reg_l in EQ. apply Rmult_eq_reg_l in EQ; lra. }
        destruct (nth_total _ _ (n_dims n) ua i d (eq_sym Lua) Hd) as [x Hx].
        destruct (nth_total _ _ (n_dims n) u i d (eq_sym LL) Hd) as [y Hy].
        transitivity (bget x (join (length d) p v)).
        { symmetry. rewrite A1, A2, A4 in ASW. apply (proj2 (proj2 ASW) i d x a Hd Hx Ha);
            [now apply join_valid|now rewrite join_plate, Ho]. }
        transitivity (bget y (join (length d) p v)).
        { apply (SG _ _ _ _ _ _ _ A9 FV A10 PR AM' EM p Hp ltac:(now rewrite bget_not, Ho) Z i d x y Hd Hx Hy v Hv). }
        { apply (proj2 (proj2 MS1) i d y b Hd Hy Hb); [now apply join_valid|].
          now rewrite join_plate, bget_not, Ho. }
Qed.
End Plates.

(** An update maximises the objective: no other state that the node could be in
    (same data, any natural parameters of the family and their moments) has a
    greater one.  This holds for all priors, messages, masks, plates, partial
    observations and for any positive annealing of the node.  The previous state
    of the node is such a state, so the bound never decreases. *)
Theorem C24_update :
  forall pm val (D : dist pm val) n m_children u_parents prior cgf nan c n' alt proper,
  step_shaped D n m_children u_parents prior ->
  d_cgf D u_parents = Ok cgf -> bound_shaped n prior cgf -> no_bias n -> (0 < n_ann n)%R ->
  gibbs D (n_plates n) (n_dims n) proper ->
  update D n m_children u_parents c = (n', Ok tt) -> proper (n_phi n') ->
  candidate D proper n alt -> bound_shaped alt prior cgf ->
  exists L L', objective D nan alt u_parents m_children c L /\
               objective D nan n' u_parents m_children c L' /\ (L' >= L)%R.
Proof.
  intros pm val D n mc up prior cgf nan c n' alt proper SS EC B NB HA GI HU PR CA BA.
  destruct (plate_compare D n mc up prior cgf c n' alt proper SS B NB HA GI HU PR CA BA)
    as (B' & P1 & P2 & P3 & P4 & P5 & _ & H).
  eexists. eexists. split; [apply (objective_ok D nan alt up prior cgf mc c (ss_prior _ _ _ _ _ SS) EC BA)|].
  split; [apply (objective_ok D nan n' up prior cgf mc c (ss_prior _ _ _ _ _ SS) EC B')|].
  rewrite P1, P3, P4, (ca_plates _ _ _ _ CA), (ca_mask _ _ _ _ CA), (ca_mult _ _ _ _ CA).
  apply Rle_ge, Rmult_le_compat_l; [apply lprod_INR_pos|]. apply total_le. intros p Hp.
  destruct (bget (n_mask n) p); [now apply H|lra].
Qed.
Print Assumptions C24_update.

(** The maximiser is unique: a state with the same objective has the same moments
    in every plate that counts. *)
Theorem C24_update_unique :
  forall pm val (D : dist pm val) n m_children u_parents prior cgf nan c n' alt L proper,
  step_shaped D n m_children u_parents prior ->
  d_cgf D u_parents = Ok cgf -> bound_shaped n prior cgf -> no_bias n -> (0 < n_ann n)%R ->
  gibbs D (n_plates n) (n_dims n) proper -> strict_gibbs D (n_plates n) (n_dims n) proper ->
  Forall (fun k => 0 < k) (n_mult n) ->
  update D n m_children u_parents c = (n', Ok tt) -> proper (n_phi n') ->
  candidate D proper n alt -> bound_shaped alt prior cgf ->
  objective D nan alt u_parents m_children c L -> objective D nan n' u_parents m_children c L ->
  same_where (n_plates n) (n_dims n) (fun p => bget (n_mask n) p) (n_u alt) (n_u n').
Proof.
  intros pm val D n mc up prior cgf nan c n' alt L proper SS EC B NB HA GI SG HM HU PR CA BA O1 O2.
  destruct (plate_compare D n mc up prior cgf c n' alt proper SS B NB HA GI HU PR CA BA)
    as (B' & P1 & P2 & P3 & P4 & P5 & _ & H).
  destruct (objective_ok D nan alt up prior cgf mc c (ss_prior _ _ _ _ _ SS) EC BA) as (l1 & X1 & Y1).
  destruct (objective_ok D nan n' up prior cgf mc c (ss_prior _ _ _ _ _ SS) EC B') as (l2 & X2 & Y2).
  destruct O1 as (l1' & Z1 & ->). destruct O2 as (l2' & Z2 & E). rewrite X1 in Z1. injection Z1 as ->.
  rewrite X2 in Z2. injection Z2 as ->. rewrite <- Y1, <- Y2 in E.
  rewrite P1, P3, P4, (ca_plates _ _ _ _ CA), (ca_mask _ _ _ _ CA), (ca_mult _ _ _ _ CA) in E.
  assert (PM : (0 < lprod (map INR (n_mult n)))%R).
  { clear -HM. induction HM as [|k l Hk HM IH]; unfold lprod in *; cbn; [lra|].
    apply Rmult_lt_0_compat; [now apply lt_0_INR|exact IH]. }
  apply Rmult_eq_reg_l in E; [|lra].
  split; [apply (ca_data _ _ _ _ CA)|]. split.
  { rewrite <- P2. symmetry. apply (Forall2_len _ _ _ _ _ (ws_u _ (bs_ws _ _ _ B'))). }
  intros i d a b Hd Ha Hb e He Hm.
  set (p := plate_of (length d) e) in *.
  assert (Hp : valid (n_plates n) p).
  { intros k. specialize (He (k + length d)). rewrite ax_app in He.
    replace (k + length d <? length d) with false in He by (symmetry; apply Nat.ltb_ge; lia).
    now replace (k + length d - length d) with k in He by lia. }
  assert (LE : forall q, valid (n_plates n) q ->
     ((if bget (n_mask n) q then plate_objective alt prior cgf mc c q else 0) <=
      (if bget (n_mask n) q then plate_objective n' prior cgf mc c q else 0))%R).
  { intros q Hq. destruct (bget (n_mask n) q); [now apply H|lra]. }
  pose proof (total_eq_pointwise (n_plates n) _ _ LE E p) as EQ. cbv beta in EQ.
  rewrite Hm in EQ.
  specialize (EQ (all_indices_complete _ _ Hp)).
  destruct (H p Hp) as [_ HS]. specialize (HS SG EQ i d a b Hd Ha Hb (fun k => if k <? length d then e k else 0)).
  assert (EE : join (length d) p (fun k => if k <? length d then e k else 0) = e).
  { apply functional_extensionality. intros k. unfold join, p, plate_of.
    destruct (Nat.ltb_spec k (length d)); [reflexivity|]. f_equal. lia. }
  rewrite EE in HS. apply HS. intros k. destruct (Nat.ltb_spec k (length d)) as [K|K].
  - specialize (He k). rewrite ax_app, (proj2 (Nat.ltb_lt _ _) K) in He. exact He.
  - rewrite ax_overflow by exact K. lia.
Qed.
Print Assumptions C24_update_unique.

(** After a successful update the moments and the log-normaliser of the node are
    those of its natural parameters, so states that updates reach are candidates. *)
Theorem C24_update_consistent :
  forall pm val (D : dist pm val) n m_children u_parents prior c n',
  well_shaped n -> step_shaped D n m_children u_parents prior -> np_all (n_obs n) = false ->
  update D n m_children u_parents c = (n', Ok tt) -> consistent D n'.
Proof.
  intros pm val D n mc up prior c n' W SS Hall HU.
  destruct (update_shape D n mc up prior c n' W SS Hall HU)
      as (V & u & g & ys & gg & -> & FV & LIN & EM & MX & EG & W').
  destruct (mixed_same _ _ _ _ _ _ MX) as [(S1 & S2 & S3) _].
  exists u, g. split; [exact EM|]. split.
  - cbn [n_plates n_dims n_obs n_u with_g with_u with_phi].
    split; [exact S1|]. split; [exact S2|]. intros i d a b Hd Ha Hb e He Ho.
    apply (S3 i d a b Hd Ha Hb e He). now rewrite bget_not.
  - cbn [n_plates n_dims n_obs n_g with_g with_u with_phi]. intros p Hp Ho.
    destruct (np_where_ok _ _ _ _ _ EG) as [_ ->]. now rewrite bget_not, Ho.
Qed.
Print Assumptions C24_update_consistent.
