(** Lemmas for C25: the bound of a network as a function of one node. *)
From Coq Require Import List Arith ZArith Lia Bool Reals Lra FunctionalExtensionality.
From Verif Require Import Base Shapes SpecShapes ShapesLemmas NumPy MiscArray TensorLemmas
  EinsumLemmas SumMultiplyLemmas SpecArray PlateSumLemmas PlateSum2Lemmas MessageLemmas
  ShapeOpsLemmas DiagLemmas ExpFam SpecExpFam ExpFamLemmas ExpFamBound ExpFamGrad PExpFam SpecUpdate
  UpdateLemmas PUpdate FamilyDist SpecFamilyDist PFamilyDist Network SpecNetwork NetworkLemmas.
Import ListNotations.
Open Scope nat_scope.

Lemma combine_seq_nth : forall A (l : list A) m i x, nth_error l i = Some x ->
  nth_error (combine (seq m (length l)) l) i = Some (m + i, x).
Proof.
  induction l as [|a l IH]; intros m [|i] x H; try discriminate; cbn in *.
  - injection H as ->. now rewrite Nat.add_0_r.
  - rewrite (IH (S m) i x H). f_equal. f_equal. lia.
Qed.

(** ** Arrays from functions of the plate *)
Lemma lift_arrays_length : forall plates dims f, length (lift_arrays plates dims f) = length dims.
Proof. intros. unfold lift_arrays. rewrite map_length, combine_length, seq_length. lia. Qed.

Lemma lift_arrays_nth : forall plates dims f i d a, nth_error dims i = Some d ->
  nth_error (lift_arrays plates dims f) i = Some a ->
  ash a = plates ++ d /\
  forall p v, valid plates p -> valid d v -> bget a (join (length d) p v) = nth i (f p) (fun _ => 0%R) v.
Proof.
  intros plates dims f i d a Hd Ha. unfold lift_arrays in Ha.
  erewrite map_nth_error in Ha by (apply combine_seq_nth, Hd). injection Ha as <-. cbn [fst snd ash]. split; [reflexivity|].
  intros p v Hp Hv. unfold bget. cbn [ash aget]. rewrite clip_valid_id by (apply join_valid; assumption).
  replace (fun k => join (length d) p v (k + length d)) with p by (symmetry; apply join_plate).
  f_equal. now apply inner_join.
Qed.

Lemma Forall2_of_nth : forall A B (P : A -> B -> Prop) l m, length l = length m ->
  (forall i x y, nth_error l i = Some x -> nth_error m i = Some y -> P x y) -> Forall2 P l m.
Proof.
  induction l as [|x l IH]; intros [|y m] L H; try discriminate; constructor.
  - apply (H 0); reflexivity.
  - apply IH; [cbn in L; lia|]. intros i. apply (H (S i)).
Qed.
Lemma Forall2_to_nth : forall A B (P : A -> B -> Prop) l m, Forall2 P l m ->
  forall i x y, nth_error l i = Some x -> nth_error m i = Some y -> P x y.
Proof.
  intros A B P l m H. induction H; intros [|i] a b Ha Hb; try discriminate; cbn in *; [congruence|]. now apply (IHForall2 i).
Qed.

Lemma lift_arrays_fits : forall plates dims f, fits plates dims (lift_arrays plates dims f).
Proof.
  intros. apply Forall2_of_nth; [now rewrite lift_arrays_length|]. intros i d a Hd Ha.
  destruct (lift_arrays_nth _ _ _ _ _ _ Hd Ha) as [-> _]. apply broadcasts_to_refl.
Qed.

Lemma dot_fdot_l : forall dims A u xs p, length A = length dims -> length u = length dims ->
  length xs = length dims ->
  (forall i d a, nth_error dims i = Some d -> nth_error A i = Some a ->
      forall v, valid d v -> bget a (join (length d) p v) = nth i xs (fun _ => 0%R) v) ->
  dot_at dims A u p = fdot dims xs (at_plate dims u p).
Proof.
  induction dims as [|d dims IH]; intros [|a A] [|x u] [|y xs] p L1 L2 L3 H; try discriminate; [reflexivity|].
  cbn [dot_at]. unfold at_plate. cbn [combine map fst snd fdot]. f_equal.
  - apply total_ext. intros v Hv. f_equal. apply (H 0 d a eq_refl eq_refl v Hv).
  - apply IH; try (cbn in *; lia). intros i d' a' Hd Ha. apply (H (S i) d' a' Hd Ha).
Qed.

Lemma lift_dot : forall plates dims f u p, valid plates p -> length (f p) = length dims -> length u = length dims ->
  dot_at dims (lift_arrays plates dims f) u p = fdot dims (f p) (at_plate dims u p).
Proof.
  intros plates dims f u p Hp L1 L2. apply dot_fdot_l; try assumption; [apply lift_arrays_length|].
  intros i d a Hd Ha v Hv. destruct (lift_arrays_nth _ _ _ _ _ _ Hd Ha) as [_ H]. now apply H.
Qed.

(** ** Messages as linear functionals *)

(** <m, u> over the plates of a node that count. *)
Definition functional (n : efnode) (m u : list (arr R)) : R :=
  (lprod (map INR (n_mult n)) *
   total (n_plates n) (fun p => if bget (n_mask n) p then dot_at (n_dims n) m u p else 0))%R.

Lemma functional_zero : forall n u, functional n (map (fun d => Arr d (fun _ => 0%R)) (n_dims n)) u = 0%R.
Proof.
  intros n u. unfold functional. rewrite total_zero; [ring|]. intros p _. destruct (bget _ _); [|reflexivity].
  revert u. induction (n_dims n) as [|d dims IH]; intros [|x u]; cbn [map dot_at]; try reflexivity.
  rewrite IH, total_zero; [ring|]. intros v _. unfold bget at 1. cbn [aget]. ring.
Qed.

Lemma dot_add : forall plates dims A B C, zipM np_add A B = Ok C -> fits plates dims A -> fits plates dims B ->
  forall u p, dot_at dims C u p = (dot_at dims A u p + dot_at dims B u p)%R.
Proof.
  intros plates dims A B C E FA. revert B C E. induction FA as [|d a dims A Ha FA IH]; intros B C E FB u p.
  - inversion FB; subst. cbn in *. lra.
  - inversion FB as [|? b ? B' Hb FB']; subst. cbn [zipM] in E.
    destruct (map2_exists _ _ _ Rplus a b _ Ha Hb) as (y & E1 & _ & _ & G). unfold np_add in E. rewrite E1 in E. cbn [bind] in E.
    fold np_add in E. destruct (zipM np_add A B') as [C'|] eqn:E2; [|discriminate]. injection E as <-.
    destruct u as [|x u]; cbn [dot_at]; [lra|]. rewrite (IH B' C' E2 FB' u p).
    rewrite (total_ext d _ (fun v => 1 * (bget a (join (length d) p v) * bget x (join (length d) p v)) +
       bget b (join (length d) p v) * bget x (join (length d) p v))%R).
    + rewrite total_lin. ring.
    + intros v _. rewrite G. ring.
Qed.
Lemma add_fits : forall plates dims A B, fits plates dims A -> fits plates dims B ->
  exists C, zipM np_add A B = Ok C /\ fits plates dims C.
Proof.
  intros plates dims A B FA. revert B. induction FA as [|d a dims A Ha FA IH]; intros B FB; inversion FB as [|? b ? B' Hb FB']; subst.
  - exists []. split; [reflexivity|constructor].
  - destruct (map2_exists _ _ _ Rplus a b _ Ha Hb) as (y & E1 & _ & B1 & _). destruct (IH B' FB') as (C & E2 & F2).
    exists (y :: C). cbn [zipM]. unfold np_add in *. rewrite E1. cbn [bind]. rewrite E2. split; [reflexivity|now constructor].
Qed.

(** The message of node [n] to its parent, all arrays. *)
Lemma messages_adjoint : forall (mask maskp : arr bool) ps ms mp pp dims arrs,
  broadcasts_to pp ps -> broadcasts_to mp ms -> broadcasts_to (ash mask) ps -> broadcasts_to (ash maskp) pp ->
  (forall i, valid ps i -> bget mask i = true -> bget maskp i = true) ->
  Forall2 (fun d a => ash a = ps ++ d) dims arrs ->
  exists ys, zipM (fun d m => message_to_parent m mask ps ms mp pp d) dims arrs = Ok ys /\ fits pp dims ys /\
    forall u, fits pp dims u ->
    (lprod (map INR mp) * total pp (fun t => if bget maskp t then dot_at dims ys u t else 0)
     = lprod (map INR ms) * total ps (fun p => if bget mask p then dot_at dims arrs u p else 0))%R.
Proof.
  intros mask maskp ps ms mp pp dims arrs Hp Hm Hk Hkp HI H. induction H as [|d a dims arrs Ha H IH].
  - exists []. split; [reflexivity|]. split; [constructor|]. intros u _.
    rewrite !total_zero; [ring|intros p _; now destruct (bget _ _)|intros p _; now destruct (bget _ _)].
  - destruct IH as (ys & E & Fy & G). destruct (message_adjoint a mask maskp ps ms mp pp d Ha Hp Hm Hk Hkp HI) as (y & E1 & By & G1).
    exists (y :: ys). cbn [zipM]. rewrite E1. cbn [bind]. rewrite E. split; [reflexivity|]. split; [now constructor|].
    intros u Fu. inversion Fu as [|? x ? us Hx Fus]; subst. specialize (G us Fus). specialize (G1 x Hx). cbn [dot_at].
    rewrite (total_ext pp _ (fun t => 1 * (if bget maskp t then
        total d (fun v => bget y (join (length d) t v) * bget x (join (length d) t v)) else 0) +
        (if bget maskp t then dot_at dims ys us t else 0))%R) by (intros; destruct (bget maskp e); ring).
    rewrite (total_ext ps _ (fun t => 1 * (if bget mask t then
        total d (fun v => bget a (join (length d) t v) * bget x (join (length d) t v)) else 0) +
        (if bget mask t then dot_at dims arrs us t else 0))%R) by (intros; destruct (bget mask e); ring).
    rewrite !total_lin. lra.
Qed.

(** The message of child [j] through its parent number [k], in terms of the plates
    of the child. *)
Definition child_part (net : network) (st : nstate) (j k : nat) (u : list (arr R)) : R :=
  let F := nn_fam (nt_node net j) in
  (lprod (map INR (n_mult (st j))) * total (n_plates (st j)) (fun p => if bget (n_mask (st j)) p then
     fdot (nth k (e_pdims F) [])
       (e_message F k (at_plate (fam_dims (e_fam F)) (n_u (st j)) p)
          (exclude k (at_plates (e_pdims F) (parent_moments net st j) p)))
       (at_plate (nth k (e_pdims F) []) u p) else 0))%R.

Section Net.
Variable net : network.
Variable dom : nat -> list (env -> R) -> Prop.

Lemma child_message_ok : forall st j k i, net_ok net dom st -> j < nt_size net ->
  nth_error (nn_parents (nt_node net j)) k = Some i ->
  exists ys, child_message net st j k = Ok ys /\ fits (n_plates (st i)) (n_dims (st i)) ys /\
    forall u, fits (n_plates (st i)) (n_dims (st i)) u -> functional (st i) ys u = child_part net st j k u.
Proof.
  intros st j k i OK Hj Hk. destruct (no_link _ _ _ OK j k i Hj Hk) as (Hi & Nij & [L1 L2 L3 L4]).
  pose proof (no_node _ _ _ OK i Hi) as Ni. pose proof (no_node _ _ _ OK j Hj) as Nj.
  unfold child_message. rewrite (nth_error_nth _ _ _ Hk).
  set (F := nn_fam (nt_node net j)). set (f := fun p : env => _).
  destruct (messages_adjoint (n_mask (st j)) (n_mask (st i)) (n_plates (st j)) (n_mult (st j)) (n_mult (st i))
    (n_plates (st i)) (n_dims (st i)) (lift_arrays (n_plates (st j)) (nth k (e_pdims F) []) f) L2 L3
    (nk_mask _ _ _ Nj) (nk_mask _ _ _ Ni) L4) as (ys & E & Fy & G).
  { unfold F. rewrite L1. apply Forall2_of_nth; [now rewrite lift_arrays_length|]. intros x d a Hd Ha.
    now destruct (lift_arrays_nth _ _ _ _ _ _ Hd Ha). }
  exists ys. split; [exact E|]. split; [exact Fy|]. intros u Fu. unfold functional. rewrite (G u Fu).
  unfold child_part. fold F. f_equal. apply total_ext. intros p Hp. destruct (bget _ _); [|reflexivity].
  unfold F in *. rewrite L1. rewrite lift_dot; [reflexivity|exact Hp| |].
  - unfold f. rewrite (proj1 (proj2 (no_conjugate _ _ _ OK j Hj))); [now rewrite L1|].
    rewrite (no_pdims _ _ _ OK j Hj). apply nth_error_Some. congruence.
  - symmetry. apply (Forall2_len _ _ _ _ _ Fu).
Qed.

Definition child_parts (st : nstate) (l : list (nat * nat)) (u : list (arr R)) : R :=
  lsum (map (fun jk => child_part net st (fst jk) (snd jk) u) l).

Lemma add_messages_ok : forall st i l acc, net_ok net dom st ->
  (forall jk, In jk l -> fst jk < nt_size net /\ nth_error (nn_parents (nt_node net (fst jk))) (snd jk) = Some i) ->
  fits (n_plates (st i)) (n_dims (st i)) acc ->
  exists m, add_messages net st l acc = Ok m /\ fits (n_plates (st i)) (n_dims (st i)) m /\
    forall u, fits (n_plates (st i)) (n_dims (st i)) u ->
      functional (st i) m u = (functional (st i) acc u + child_parts st l u)%R.
Proof.
  intros st i l. induction l as [|[j k] l IH]; intros acc OK H FA.
  - exists acc. split; [reflexivity|]. split; [exact FA|]. intros u _. unfold child_parts. cbn. ring.
  - destruct (H (j, k) (or_introl eq_refl)) as [Hj Hk]. cbn [fst snd] in Hj, Hk.
    destruct (child_message_ok st j k i OK Hj Hk) as (ys & E & Fy & G).
    destruct (add_fits _ _ _ _ FA Fy) as (acc' & E2 & F2).
    destruct (IH acc' OK (fun jk J => H jk (or_intror J)) F2) as (m & E3 & F3 & G3).
    exists m. cbn [add_messages]. rewrite E. cbn [bind]. rewrite E2. cbn [bind]. split; [exact E3|]. split; [exact F3|].
    intros u Fu. rewrite (G3 u Fu). unfold child_parts. unfold lsum. cbn [map fold_right fst snd].
    rewrite <- (G u Fu). unfold functional.
    rewrite (total_ext _ (fun p => if bget (n_mask (st i)) p then dot_at (n_dims (st i)) acc' u p else 0%R)
      (fun p => 1 * (if bget (n_mask (st i)) p then dot_at (n_dims (st i)) acc u p else 0) +
        (if bget (n_mask (st i)) p then dot_at (n_dims (st i)) ys u p else 0))%R).
    + rewrite total_lin. ring.
    + intros p _. rewrite (dot_add _ _ _ _ _ E2 FA Fy). destruct (bget _ _); ring.
Qed.

Lemma children_of_spec : forall i jk, In jk (children_of net i) ->
  fst jk < nt_size net /\ nth_error (nn_parents (nt_node net (fst jk))) (snd jk) = Some i.
Proof.
  intros i [j k] H. unfold children_of in H. apply in_flat_map in H as (j' & Hj & H). apply in_map_iff in H as (k' & E & H).
  injection E as -> ->. apply filter_In in H as [H1 H2]. apply in_seq in Hj. apply in_seq in H1. cbn [fst snd]. split; [lia|].
  apply Nat.eqb_eq in H2. rewrite <- H2. apply nth_error_nth'. lia.
Qed.

Lemma message_from_children_ok : forall st i, net_ok net dom st ->
  exists m, message_from_children net st i = Ok m /\ fits (n_plates (st i)) (n_dims (st i)) m /\
    forall u, fits (n_plates (st i)) (n_dims (st i)) u ->
      functional (st i) m u = child_parts st (children_of net i) u.
Proof.
  intros st i OK. destruct (add_messages_ok st i (children_of net i) (map (fun d => Arr d (fun _ => 0%R)) (n_dims (st i))) OK (children_of_spec i)) as (m & E & Fm & G).
  { clear. induction (n_dims (st i)) as [|d dims IH]; constructor; [|exact IH]. cbn [ash]. split; [rewrite app_length; lia|].
    intros k. rewrite ax_app. destruct (Nat.ltb_spec k (length d)); [now right|left; now apply ax_overflow]. }
  exists m. split; [exact E|]. split; [exact Fm|]. intros u Fu. rewrite (G u Fu), functional_zero. ring.
Qed.

(** ** The contribution of a node to the bound *)
Definition terms (F : efam) (ups : list (list (env -> R))) (x : list (env -> R)) : R :=
  (e_cgf F ups + fdot (fam_dims (e_fam F)) (e_phi F ups) x)%R.
Definition rest (n : efnode) (p : env) : R :=
  if bget (n_obs n) p then bget (n_f n) p
  else (- (1 / n_ann n) * bget (n_g n) p - 1 / n_ann n * dot_at (n_dims n) (n_phi n) (n_u n) p)%R.
Definition contribution (st : nstate) (j : nat) : R :=
  let F := nn_fam (nt_node net j) in
  (lprod (map INR (n_mult (st j))) * total (n_plates (st j)) (fun p => if bget (n_mask (st j)) p then
     terms F (at_plates (e_pdims F) (parent_moments net st j) p) (at_plate (fam_dims (e_fam F)) (n_u (st j)) p)
     + rest (st j) p else 0))%R.

Lemma node_shaped : forall F d n ups, node_ok F d n ->
  bound_shaped n (lift_arrays (n_plates n) (fam_dims (e_fam F)) (fun p => e_phi F (at_plates (e_pdims F) ups p)))
    (Arr (n_plates n) (fun p => e_cgf F (at_plates (e_pdims F) ups p))).
Proof.
  intros F d n ups [N1 N2 N3 N4 N5 N6 N7 N8 N9]. constructor; try assumption; cbn [ash].
  - rewrite N1. apply lift_arrays_fits.
  - apply broadcasts_to_refl.
Qed.

Lemma moments_fit : forall n, well_shaped n -> fits (n_plates n) (n_dims n) (n_u n).
Proof.
  intros n [W _]. unfold fits. revert W. generalize (n_dims n) (n_u n). intros l m H.
  induction H as [|d a l m (_ & H & _) _ IH]; constructor; assumption.
Qed.

Lemma contribution_ok : forall nan st j, net_ok net dom st -> j < nt_size net ->
  lower_bound_contribution (dist_of net st j) nan (st j) (parent_moments net st j) = Ok (contribution st j).
Proof.
  intros nan st j OK Hj. pose proof (no_node _ _ _ OK j Hj) as N. unfold dist_of.
  pose proof (node_shaped _ _ _ (parent_moments net st j) N) as B.
  rewrite (lower_bound_ok (net_dist (nn_fam (nt_node net j)) (n_plates (st j))) nan (st j) (parent_moments net st j) _ _ eq_refl eq_refl B).
  unfold contribution. f_equal. f_equal. apply total_ext. intros p Hp. destruct (bget (n_mask (st j)) p); [|reflexivity].
  assert (Lu : length (n_u (st j)) = length (n_dims (st j))).
  { symmetry. apply (Forall2_len _ _ _ _ _ (moments_fit _ (nk_shaped _ _ _ N))). }
  rewrite plate_bound_eq; [|rewrite (nk_dims _ _ _ N); apply lift_arrays_length| |exact Lu].
  2:{ symmetry. apply (Forall2_len _ _ _ _ _ (nk_phi _ _ _ N)). }
  unfold terms, rest. rewrite (nk_dims _ _ _ N) in *. rewrite lift_dot; [|exact Hp| |exact Lu].
  2:{ apply (proj1 (no_conjugate _ _ _ OK j Hj)). }
  assert (Ec : forall g : env -> R, bget (Arr (n_plates (st j)) g) p = g p).
  { intros g. unfold bget. cbn [ash aget]. now rewrite clip_valid_id by exact Hp. }
  rewrite !Ec. destruct (bget (n_obs (st j)) p); ring.
Qed.

Lemma bound_sum_ok : forall nan st l, net_ok net dom st -> (forall j, In j l -> j < nt_size net) ->
  bound_sum net nan st l = Ok (lsum (map (contribution st) l)).
Proof.
  intros nan st l OK. induction l as [|j l IH]; intros H; [reflexivity|]. cbn [bound_sum].
  rewrite contribution_ok by (try assumption; apply H; now left). cbn [bind]. rewrite IH by (intros; apply H; now right).
  reflexivity.
Qed.

(** ** The effect of a new state of one node on the contribution of another *)
Lemma exclude_nth : forall A k (l l' : list (list A)), length l = length l' ->
  (forall x, x <> k -> nth_error l x = nth_error l' x) -> exclude k l = exclude k l'.
Proof.
  intros A k l l' L H. unfold exclude. rewrite <- L.
  assert (G : forall m (l l' : list (list A)), length l = length l' ->
     (forall x, m + x <> k -> nth_error l x = nth_error l' x) ->
     map (fun ju => if fst ju =? k then [] else snd ju) (combine (seq m (length l)) l) =
     map (fun ju => if fst ju =? k then [] else snd ju) (combine (seq m (length l)) l')).
  { clear. intros m l. revert m. induction l as [|a l IH]; intros m [|b l'] L H; try discriminate; [reflexivity|].
    cbn [length seq combine map fst snd]. f_equal.
    - destruct (Nat.eqb_spec m k); [reflexivity|]. specialize (H 0 ltac:(lia)). cbn in H. congruence.
    - apply IH; [cbn in L; lia|]. intros x Hx. apply (H (S x)). lia. }
  apply G; assumption.
Qed.
End Net.
