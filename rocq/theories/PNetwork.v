(** C25: in a network of conjugate nodes every update, in any order, leaves the
    lower bound as it is or raises it. *)
From Coq Require Import List Arith ZArith Lia Bool Reals Lra FunctionalExtensionality.
From Verif Require Import Base Shapes SpecShapes ShapesLemmas NumPy MiscArray TensorLemmas
  EinsumLemmas SumMultiplyLemmas SpecArray PlateSumLemmas PlateSum2Lemmas MessageLemmas
  ShapeOpsLemmas DiagLemmas ExpFam SpecExpFam ExpFamLemmas ExpFamBound ExpFamGrad PExpFam SpecUpdate
  UpdateLemmas PUpdate FamilyDist SpecFamilyDist PFamilyDist Network SpecNetwork NetworkLemmas NetworkLemmas2.
Import ListNotations.
Open Scope nat_scope.

Lemma filter_single : forall A (P : A -> bool) l x, NoDup l -> In x l -> P x = true ->
  (forall y, In y l -> P y = true -> y = x) -> filter P l = [x].
Proof.
  intros A P l x ND. induction ND as [|a l N ND IH]; intros HI HP HU; [destruct HI|]. cbn [filter].
  destruct (P a) eqn:E.
  - assert (a = x) by (apply HU; [now left|exact E]). subst a. f_equal.
    destruct (filter P l) as [|y l'] eqn:F; [reflexivity|]. exfalso.
    assert (Hy : In y (filter P l)) by (rewrite F; now left). apply filter_In in Hy as [Y1 Y2].
    apply N. rewrite <- (HU y (or_intror Y1) Y2). exact Y1.
  - destruct HI as [->|HI]; [congruence|]. apply IH; auto. intros y Hy. apply HU. now right.
Qed.
Lemma filter_none : forall A (P : A -> bool) l, (forall y, In y l -> P y = false) -> filter P l = [].
Proof. induction l as [|a l IH]; intros H; [reflexivity|]. cbn. rewrite H by now left. apply IH. intros; apply H; now right. Qed.

Lemma combine_nth_error : forall A B (l : list A) (m : list B) k x y, nth_error l k = Some x ->
  nth_error m k = Some y -> nth_error (combine l m) k = Some (x, y).
Proof.
  induction l as [|a l IH]; intros [|b m] [|k] x y H1 H2; try discriminate; cbn in *; [congruence|]. now apply IH.
Qed.

Section Net.
Variable net : network.
Variable dom : nat -> list (env -> R) -> Prop.

Lemma at_plates_nth : forall pdims ups p k pd u, nth_error pdims k = Some pd -> nth_error ups k = Some u ->
  nth_error (at_plates pdims ups p) k = Some (at_plate pd u p).
Proof.
  intros pdims ups p k pd u H1 H2. unfold at_plates.
  apply (map_nth_error (fun du => at_plate (fst du) (snd du) p) k (combine pdims ups) (combine_nth_error _ _ _ _ _ _ _ H1 H2)).
Qed.

Lemma parent_moments_nth : forall st j k i, nth_error (nn_parents (nt_node net j)) k = Some i ->
  nth_error (parent_moments net st j) k = Some (n_u (st i)).
Proof. intros st j k i H. unfold parent_moments. now apply (map_nth_error (fun j => n_u (st j))). Qed.

Lemma moments_of_parents : forall st j p, net_ok net dom st -> j < nt_size net ->
  moments_of (nn_fam (nt_node net j)) (at_plates (e_pdims (nn_fam (nt_node net j))) (parent_moments net st j) p).
Proof.
  intros st j p OK Hj. pose proof (no_pdims _ _ _ OK j Hj) as LP. apply Forall2_of_nth.
  { unfold at_plates, parent_moments. rewrite map_length, combine_length, map_length. lia. }
  intros k pd us Hpd Hus.
  destruct (nth_total _ _ _ (nn_parents (nt_node net j)) k pd LP Hpd) as [i Hi].
  rewrite (at_plates_nth _ _ p k pd (n_u (st i)) Hpd (parent_moments_nth st j k i Hi)) in Hus. injection Hus as <-.
  destruct (no_link _ _ _ OK j k i Hj Hi) as (Hi' & _ & [L1 _ _ _]).
  rewrite (nth_error_nth _ _ _ Hpd) in L1. apply at_plate_length. rewrite L1. symmetry.
  apply (Forall2_len _ _ _ _ _ (moments_fit _ (nk_shaped _ _ _ (no_node _ _ _ OK i Hi')))).
Qed.

Definition index_list (i j : nat) : list nat :=
  filter (fun k => nth k (nn_parents (nt_node net j)) 0 =? i) (seq 0 (length (nn_parents (nt_node net j)))).

Lemma set_node_same : forall st i n, set_node st i n i = n.
Proof. intros. unfold set_node. now rewrite Nat.eqb_refl. Qed.
Lemma set_node_other : forall st i n j, j <> i -> set_node st i n j = st j.
Proof. intros. unfold set_node. now rewrite (proj2 (Nat.eqb_neq _ _) H). Qed.

(** The contribution of another node changes by the message. *)
Lemma contribution_change : forall st i n' j, net_ok net dom st -> net_ok net dom (set_node st i n') ->
  j < nt_size net -> j <> i ->
  (contribution net (set_node st i n') j - contribution net st j =
   lsum (map (fun k => child_part net st j k (n_u n') - child_part net st j k (n_u (st i))) (index_list i j)))%R.
Proof.
  intros st i n' j OK OK' Hj Nji. set (st' := set_node st i n') in *. set (ps := nn_parents (nt_node net j)).
  assert (Ej : st' j = st j) by now apply set_node_other.
  destruct (in_dec Nat.eq_dec i ps) as [Hin|Hin].
  - apply In_nth_error in Hin as [k Hk]. unfold index_list. fold ps.
    assert (Lk : k < length ps) by (apply nth_error_Some; congruence).
    rewrite (filter_single _ _ _ k (seq_NoDup _ _)).
    2:{ apply in_seq. lia. }
    2:{ rewrite (nth_error_nth _ _ _ Hk). apply Nat.eqb_refl. }
    2:{ intros y Hy Ey. apply in_seq in Hy. apply Nat.eqb_eq in Ey.
        pose proof (no_distinct _ _ _ OK j Hj) as ND. fold ps in ND.
        apply (proj1 (NoDup_nth ps 0) ND); try lia. rewrite Ey, (nth_error_nth _ _ _ Hk). reflexivity. }
    unfold lsum. cbn [map fold_right]. unfold contribution, child_part. rewrite Ej.
    set (F := nn_fam (nt_node net j)).
    rewrite (total_ext _ (fun p => if bget (n_mask (st j)) p then
       (terms F (at_plates (e_pdims F) (parent_moments net st' j) p) (at_plate (fam_dims (e_fam F)) (n_u (st j)) p)
         + rest (st j) p)%R else 0%R)
      (fun p => 1 * (if bget (n_mask (st j)) p then
         terms F (at_plates (e_pdims F) (parent_moments net st j) p) (at_plate (fam_dims (e_fam F)) (n_u (st j)) p)
         + rest (st j) p else 0)
       + (1 * (if bget (n_mask (st j)) p then fdot (nth k (e_pdims F) [])
             (e_message F k (at_plate (fam_dims (e_fam F)) (n_u (st j)) p)
               (exclude k (at_plates (e_pdims F) (parent_moments net st j) p)))
             (at_plate (nth k (e_pdims F) []) (n_u n') p) else 0)
          + (-1) * (if bget (n_mask (st j)) p then fdot (nth k (e_pdims F) [])
             (e_message F k (at_plate (fam_dims (e_fam F)) (n_u (st j)) p)
               (exclude k (at_plates (e_pdims F) (parent_moments net st j) p)))
             (at_plate (nth k (e_pdims F) []) (n_u (st i)) p) else 0)))%R).
    + rewrite !total_lin, total_scal. ring.
    + intros p Hp. destruct (bget (n_mask (st j)) p); [|ring].
      destruct (no_conjugate _ _ _ OK j Hj) as (_ & _ & C). fold F in C.
      pose proof (no_pdims _ _ _ OK j Hj) as LP. fold F in LP. fold ps in LP.
      assert (Kl : k < length (e_pdims F)) by lia.
      assert (Hpd : nth_error (e_pdims F) k = Some (nth k (e_pdims F) [])) by now apply nth_error_nth'.
      specialize (C k (at_plate (fam_dims (e_fam F)) (n_u (st j)) p)
        (at_plates (e_pdims F) (parent_moments net st j) p) (at_plates (e_pdims F) (parent_moments net st' j) p) Kl
        (moments_of_parents st j p OK Hj) (moments_of_parents st' j p OK' Hj)).
      cbv zeta in C. fold F in C.
      rewrite (nth_error_nth _ _ _ (at_plates_nth _ _ p k _ _ Hpd (parent_moments_nth st j k i Hk))) in C.
      rewrite (nth_error_nth _ _ _ (at_plates_nth _ _ p k _ _ Hpd (parent_moments_nth st' j k i Hk))) in C.
      unfold st' in C at 4. rewrite set_node_same in C. unfold terms.
      assert (C1 : length (at_plate (fam_dims (e_fam F)) (n_u (st j)) p) = length (fam_dims (e_fam F))).
      { apply at_plate_length. pose proof (no_node _ _ _ OK j Hj) as N. unfold F. rewrite <- (nk_dims _ _ _ N). symmetry.
        apply (Forall2_len _ _ _ _ _ (moments_fit _ (nk_shaped _ _ _ N))). }
      assert (C2 : exclude k (at_plates (e_pdims F) (parent_moments net st j) p) =
                   exclude k (at_plates (e_pdims F) (parent_moments net st' j) p)).
      { apply exclude_nth.
        - unfold at_plates, parent_moments. now rewrite !map_length, !combine_length, !map_length.
        - intros x Hx. destruct (nth_error (e_pdims F) x) as [pd|] eqn:Ex.
          + destruct (nth_total _ _ _ ps x pd LP Ex) as [y Hy].
            rewrite (at_plates_nth _ _ p x _ _ Ex (parent_moments_nth st j x y Hy)).
            rewrite (at_plates_nth _ _ p x _ _ Ex (parent_moments_nth st' j x y Hy)). f_equal. f_equal.
            unfold st'. rewrite set_node_other; [reflexivity|]. intros ->.
            apply Hx. apply (proj1 (NoDup_nth_error ps) (no_distinct _ _ _ OK j Hj)); [apply nth_error_Some; fold ps in Hy; congruence|].
            fold ps in Hy. now rewrite Hy, Hk.
          + apply nth_error_None in Ex. transitivity (@None (list (env -> R))); [|symmetry]; apply nth_error_None;
              unfold at_plates; rewrite map_length, combine_length; lia. }
      specialize (C C1 C2). lra.
  - unfold index_list. fold ps. rewrite filter_none.
    2:{ intros k Hk. apply in_seq in Hk. apply Nat.eqb_neq. intros <-. apply Hin, nth_In. lia. }
    unfold lsum. cbn [map fold_right]. unfold contribution. rewrite Ej.
    replace (parent_moments net st' j) with (parent_moments net st j); [ring|].
    unfold parent_moments. apply map_ext_in. intros x Hx. fold ps in Hx. f_equal. symmetry. apply set_node_other.
    intros ->. contradiction.
Qed.

(** A state in which one node has been replaced by a similar one. *)
Lemma net_ok_set : forall st i n', net_ok net dom st -> i < nt_size net ->
  node_ok (nn_fam (nt_node net i)) (dom i) n' -> n_plates n' = n_plates (st i) -> n_mult n' = n_mult (st i) ->
  n_mask n' = n_mask (st i) -> net_ok net dom (set_node st i n').
Proof.
  intros st i n' OK Hi N' E1 E2 E3. destruct OK as [O1 O2 O3 O4 O5 O6]. constructor; try assumption.
  - intros j Hj. destruct (Nat.eq_dec j i) as [->|D]; [now rewrite set_node_same|]. rewrite set_node_other by exact D. now apply O1.
  - intros j k x Hj Hk. destruct (O6 j k x Hj Hk) as (A1 & A2 & [L1 L2 L3 L4]). split; [exact A1|]. split; [exact A2|].
    assert (G : forall y, y < nt_size net ->
       n_plates (set_node st i n' y) = n_plates (st y) /\ n_mult (set_node st i n' y) = n_mult (st y) /\
       n_mask (set_node st i n' y) = n_mask (st y) /\ n_dims (set_node st i n' y) = n_dims (st y)).
    { intros y Hy. destruct (Nat.eq_dec y i) as [->|D]; [|now rewrite set_node_other by exact D].
      rewrite set_node_same. repeat split; try assumption. rewrite (nk_dims _ _ _ N'). symmetry. apply (nk_dims _ _ _ (O1 i Hi)). }
    destruct (G j Hj) as (J1 & J2 & J3 & J4). destruct (G x A1) as (X1 & X2 & X3 & X4).
    constructor; rewrite ?J1, ?J2, ?J3, ?X1, ?X2, ?X3, ?X4; assumption.
Qed.

Definition total_bound (st : nstate) : R := lsum (map (contribution net st) (seq 0 (nt_size net))).

Lemma lsum_split : forall (f g : nat -> R) l i, NoDup l -> In i l ->
  (lsum (map f l) - lsum (map g l) = f i - g i + lsum (map (fun j => if j =? i then 0 else f j - g j) l))%R.
Proof.
  intros f g l i ND. induction ND as [|a l N ND IH]; intros HI; [destruct HI|]. unfold lsum in *. cbn [map fold_right].
  destruct (Nat.eqb_spec a i) as [->|D].
  - assert (Z : forall l', ~ In i l' -> (fold_right Rplus 0 (map f l') - fold_right Rplus 0 (map g l') =
       fold_right Rplus 0 (map (fun j => if j =? i then 0 else f j - g j) l'))%R).
    { clear. induction l' as [|b l' IH]; intros N; cbn; [lra|].
      destruct (Nat.eqb_spec b i) as [->|D]; [exfalso; apply N; now left|].
      specialize (IH (fun X => N (or_intror X))). lra. }
    specialize (Z l N). lra.
  - destruct HI as [->|HI]; [congruence|]. specialize (IH HI). lra.
Qed.

Lemma child_parts_sum : forall st i u u',
  (child_parts net st (children_of net i) u' - child_parts net st (children_of net i) u =
   lsum (map (fun j => lsum (map (fun k => child_part net st j k u' - child_part net st j k u) (index_list i j)))
     (seq 0 (nt_size net))))%R.
Proof.
  intros st i u u'. unfold child_parts, children_of. fold (index_list i).
  rewrite !lsum_flat_map.
  assert (G : forall l, (lsum (map (fun x => lsum (map (fun jk => child_part net st (fst jk) (snd jk) u')
      (map (pair x) (index_list i x)))) l) - lsum (map (fun x => lsum (map (fun jk => child_part net st (fst jk) (snd jk) u)
      (map (pair x) (index_list i x)))) l) =
     lsum (map (fun j => lsum (map (fun k => child_part net st j k u' - child_part net st j k u) (index_list i j))) l))%R).
  { induction l as [|j l IH]; unfold lsum in *; cbn [map fold_right]; [lra|]. rewrite <- IH.
    assert (H : (fold_right Rplus 0 (map (fun jk => child_part net st (fst jk) (snd jk) u') (map (pair j) (index_list i j)))
       - fold_right Rplus 0 (map (fun jk => child_part net st (fst jk) (snd jk) u) (map (pair j) (index_list i j)))
       = fold_right Rplus 0 (map (fun k => child_part net st j k u' - child_part net st j k u) (index_list i j)))%R).
    { clear. induction (index_list i j) as [|k m IH]; cbn [map fold_right fst snd]; [lra|]. lra. }
    lra. }
  apply G.
Qed.

Lemma update_step : forall st i st', net_ok net dom st -> i < nt_size net -> vb_update1 net st i = Ok st' ->
  np_all (n_obs (st i)) = true \/
    proper_at (e_fam (nn_fam (nt_node net i))) (dom i) (n_plates (st i)) (n_phi (st' i)) ->
  net_ok net dom st' /\ (total_bound st <= total_bound st')%R.
Proof.
  intros st i st' OK Hi HU PR. unfold vb_update1 in HU.
  destruct (message_from_children_ok net dom st i OK) as (m & Em & Fm & Gm). rewrite Em in HU. cbn [bind] in HU.
  destruct (update (dist_of net st i) (st i) m (parent_moments net st i) 1) as [n' [[]|e]] eqn:EU; [|discriminate].
  injection HU as <-. rewrite set_node_same in PR.
  pose proof (no_node _ _ _ OK i Hi) as N. destruct (np_all (n_obs (st i))) eqn:Hobs.
  { assert (st i = n') as <- by (unfold update in EU; rewrite Hobs in EU; congruence).
    replace (set_node st i (st i)) with st; [split; [exact OK|lra]|]. apply functional_extensionality. intros j.
    unfold set_node. now destruct (Nat.eqb_spec j i) as [->|]. }
  destruct PR as [PR|PR]; [discriminate|].
  set (D := dist_of net st i) in *. set (F := nn_fam (nt_node net i)) in *. set (ups := parent_moments net st i) in *.
  pose proof (node_shaped F (dom i) (st i) ups N) as B.
  set (prior := lift_arrays (n_plates (st i)) (fam_dims (e_fam F)) (fun p => e_phi F (at_plates (e_pdims F) ups p))) in *.
  set (cgf := Arr (n_plates (st i)) (fun p => e_cgf F (at_plates (e_pdims F) ups p))) in *.
  assert (SSn : step_shaped D (st i) m ups prior).
  { constructor; [reflexivity|apply (bs_prior _ _ _ B)| |exact Fm|apply (nk_phi _ _ _ N)].
    pose proof (nk_bias _ _ _ N) as NB. unfold no_bias in NB. revert NB. generalize (n_dims (st i)) (n_bias (st i)). clear.
    intros l b H. induction H as [|d x l b [E _] H IH]; constructor; [rewrite E; apply broadcasts_to_nil|exact IH]. }
  destruct (nk_state _ _ _ N) as [X|[CO PP]]; [congruence|].
  assert (GI : gibbs D (n_plates (st i)) (n_dims (st i)) (proper_at (e_fam F) (dom i) (n_plates (st i)))).
  { rewrite (nk_dims _ _ _ N). apply lift_gibbs; [reflexivity|]. apply (no_gibbs _ _ _ OK i Hi). }
  assert (CA : candidate D (proper_at (e_fam F) (dom i) (n_plates (st i))) (st i) (st i)).
  { constructor; try reflexivity; try assumption; [|apply (nk_phi _ _ _ N)].
    pose proof (moments_fit _ (nk_shaped _ _ _ N)) as MF. pose proof (Forall2_len _ _ _ _ _ MF) as ML.
    split; [now symmetry|]. split; [now symmetry|]. intros x d a b Hd Ha Hb e _ _. congruence. }
  destruct (update_shape D (st i) m ups prior 1 n' (nk_shaped _ _ _ N) SSn Hobs EU)
    as (V & u & g & ys & gg & En & FV & LIN & EM & MX & EG & W').
  pose proof (C24_update_consistent _ _ D (st i) m ups prior 1 n' (nk_shaped _ _ _ N) SSn Hobs EU) as CO'.
  assert (N' : node_ok F (dom i) n').
  { rewrite En in *. constructor; cbn [n_dims n_plates n_phi n_g n_f n_mask n_ann n_obs with_g with_u with_phi].
    - apply (nk_dims _ _ _ N).
    - exact W'.
    - exact FV.
    - apply (where_broadcasts _ _ _ _ _ EG); [apply (ws_obs _ (nk_shaped _ _ _ N))| |apply (nk_g _ _ _ N)].
      destruct (lift_ok _ _ _ _ _ _ EM) as [-> _]. apply broadcasts_to_refl.
    - apply (nk_f _ _ _ N).
    - apply (nk_mask _ _ _ N).
    - apply (nk_bias _ _ _ N).
    - apply (nk_ann _ _ _ N).
    - right. split; [exact CO'|exact PR]. }
  assert (Q : n_plates n' = n_plates (st i) /\ n_dims n' = n_dims (st i) /\ n_mult n' = n_mult (st i) /\ n_mask n' = n_mask (st i))
    by (rewrite En; now repeat split).
  destruct Q as (Q1 & Q2 & Q3 & Q4).
  assert (OK' : net_ok net dom (set_node st i n')) by now apply net_ok_set.
  split; [exact OK'|].
  destruct (C24_update _ _ D (st i) m ups prior cgf 0 1 n' (st i) _ SSn eq_refl B (nk_bias _ _ _ N) (nk_ann _ _ _ N) GI EU PR CA B)
    as (L & L' & (l & E1 & ->) & (l' & E2 & ->) & GE).
  unfold D, ups in E1. rewrite (contribution_ok net dom 0 st i OK Hi) in E1. injection E1 as <-.
  assert (PM : parent_moments net (set_node st i n') i = ups).
  { unfold ups, parent_moments. apply map_ext_in. intros x Hx. f_equal. apply set_node_other. intros ->.
    apply In_nth_error in Hx as [k Hk]. now destruct (no_link _ _ _ OK i k i Hi Hk) as (_ & X & _). }
  assert (E2' : Ok l' = Ok (contribution net (set_node st i n') i)).
  { rewrite <- E2, <- (contribution_ok net dom 0 (set_node st i n') i OK' Hi), PM, set_node_same. unfold D, dist_of.
    now rewrite set_node_same, Q1. }
  injection E2' as ->.
  assert (M1 : message_dot (st i) m = child_parts net st (children_of net i) (n_u (st i))).
  { rewrite <- Gm by apply (moments_fit _ (nk_shaped _ _ _ N)). reflexivity. }
  assert (M2 : message_dot n' m = child_parts net st (children_of net i) (n_u n')).
  { rewrite <- Gm by (rewrite <- Q1, <- Q2; apply (moments_fit _ W')). unfold message_dot, functional.
    now rewrite Q1, Q2, Q3, Q4. }
  rewrite M1, M2 in GE.
  enough (total_bound (set_node st i n') - total_bound st =
    contribution net (set_node st i n') i - contribution net st i +
    (child_parts net st (children_of net i) (n_u n') - child_parts net st (children_of net i) (n_u (st i))))%R by lra.
  unfold total_bound. rewrite (lsum_split _ _ _ i (seq_NoDup _ _)) by (apply in_seq; lia). f_equal.
  rewrite child_parts_sum. f_equal. apply map_ext_in. intros j Hj. apply in_seq in Hj.
  destruct (Nat.eqb_spec j i) as [->|Dj].
  - unfold index_list. rewrite filter_none; [reflexivity|]. intros k Hk. apply in_seq in Hk. apply Nat.eqb_neq. intros E.
    assert (Hk' : nth_error (nn_parents (nt_node net i)) k = Some i) by (rewrite <- E at 2; apply nth_error_nth'; lia).
    now destruct (no_link _ _ _ OK i k i Hi Hk') as (_ & X & _).
  - apply contribution_change; [exact OK|exact OK'|lia|exact Dj].
Qed.

Lemma updates_run : forall l st st', net_ok net dom st -> (forall i, In i l -> i < nt_size net) ->
  stays_proper net dom st l -> vb_updates net st l = Ok st' ->
  net_ok net dom st' /\ (total_bound st <= total_bound st')%R.
Proof.
  induction l as [|i l IH]; intros st st' OK Hl SP H.
  - injection H as <-. split; [exact OK|lra].
  - cbn [vb_updates] in H. destruct (vb_update1 net st i) as [st1|] eqn:E; [|discriminate]. cbn [bind] in H.
    destruct (SP st1 E) as [P1 P2].
    destruct (update_step st i st1 OK (Hl i (or_introl eq_refl)) E P1) as [OK1 L1].
    destruct (IH st1 st' OK1 (fun x Hx => Hl x (or_intror Hx)) P2 H) as [OK2 L2]. split; [exact OK2|lra].
Qed.
End Net.

(** The lower bound of a network of conjugate nodes exists in every state, and no
    sequence of updates lowers it. *)
Theorem C25_network : forall net dom st schedule st' nan,
  net_ok net dom st -> (forall i, In i schedule -> i < nt_size net) ->
  stays_proper net dom st schedule ->
  vb_updates net st schedule = Ok st' ->
  exists L L', compute_lowerbound net nan st = Ok L /\ compute_lowerbound net nan st' = Ok L' /\ (L <= L')%R.
Proof.
  intros net dom st l st' nan OK Hl SP H. destruct (updates_run net dom l st st' OK Hl SP H) as [OK' LE].
  exists (total_bound net st), (total_bound net st'). split; [|split; [|exact LE]].
  - apply (bound_sum_ok net dom nan st _ OK). intros j Hj. apply in_seq in Hj. lia.
  - apply (bound_sum_ok net dom nan st' _ OK'). intros j Hj. apply in_seq in Hj. lia.
Qed.
Print Assumptions C25_network.
