(** An update of a node in terms of its plates. *)
From Coq Require Import List Arith ZArith Lia Bool Reals Lra FunctionalExtensionality.
From Verif Require Import Base Shapes SpecShapes ShapesLemmas NumPy MiscArray TensorLemmas
  EinsumLemmas SumMultiplyLemmas SpecArray PlateSumLemmas PlateSum2Lemmas MessageLemmas
  ShapeOpsLemmas DiagLemmas ExpFam SpecExpFam ExpFamLemmas ExpFamBound ExpFamGrad PExpFam SpecUpdate.
Import ListNotations.
Open Scope nat_scope.

Lemma same_where_tail : forall plates d dims on x us y us',
  same_where plates (d :: dims) on (x :: us) (y :: us') ->
  (forall e, valid (plates ++ d) e -> on (plate_of (length d) e) = true -> bget x e = bget y e) /\
  same_where plates dims on us us'.
Proof.
  intros plates d dims on x us y us' (L1 & L2 & H). cbn in L1, L2. split; [|split; [|split]]; try lia.
  - intros e. now apply (H 0 d x y).
  - intros i. apply (H (S i)).
Qed.

Lemma dot_at_same : forall plates dims on a u u' p, same_where plates dims on u u' ->
  valid plates p -> on p = true -> dot_at dims a u p = dot_at dims a u' p.
Proof.
  induction dims as [|d dims IH]; intros on a u u' p H Hp Ho; [reflexivity|].
  destruct u as [|x u]; [destruct H as (H & _); discriminate|].
  destruct u' as [|y u']; [destruct H as (_ & H & _); discriminate|].
  destruct a as [|z a]; [reflexivity|]. apply same_where_tail in H as [H1 H2]. cbn [dot_at]. f_equal.
  - apply total_ext. intros v Hv. f_equal. apply H1; [now apply join_valid|now rewrite join_plate].
  - now apply (IH on).
Qed.

Lemma total_lin : forall s c F G, total s (fun e => c * F e + G e)%R = (c * total s F + total s G)%R.
Proof.
  intros s c F G. unfold total. induction (all_indices s) as [|e l IH]; cbn; [lra|]. unfold lsum in *. cbn. rewrite IH. lra.
Qed.
Lemma total_scal : forall s c F, total s (fun e => c * F e)%R = (c * total s F)%R.
Proof.
  intros s c F. unfold total. induction (all_indices s) as [|e l IH]; cbn; [lra|]. unfold lsum in *. cbn. rewrite IH. lra.
Qed.

Lemma dot_lin : forall ann dims A B M Q U u p,
  all6 (fun d a b m q w => forall e, bget w e = (ann * (bget a e + bget b e + bget m e))%R) dims A B M Q U ->
  length u = length dims ->
  dot_at dims U u p = (ann * (dot_at dims A u p + dot_at dims B u p + dot_at dims M u p))%R.
Proof.
  intros ann dims A B M Q U u p H. revert u.
  induction H as [|d a b m q w ds As Bs Ms Qs Us H1 H2 IH]; intros [|x u] L; try discriminate; cbn [dot_at]; [lra|].
  rewrite IH by (cbn in L; lia).
  rewrite (total_ext d _ (fun v => ann * (bget a (join (length d) p v) * bget x (join (length d) p v)) +
     (ann * (bget b (join (length d) p v) * bget x (join (length d) p v)) +
      ann * (bget m (join (length d) p v) * bget x (join (length d) p v))))%R).
  - rewrite total_lin, total_lin, total_scal. ring.
  - intros v _. rewrite H1. ring.
Qed.

Lemma dot_scaled : forall dims c M u p, dot_at dims (map (np_scaleR c) M) u p = (c * dot_at dims M u p)%R.
Proof.
  induction dims as [|d dims IH]; intros c [|m M] [|x u] p; cbn [map dot_at]; try lra.
  rewrite IH. rewrite (total_ext d _ (fun v => c * (bget m (join (length d) p v) * bget x (join (length d) p v)))%R).
  - rewrite total_scal. ring.
  - intros v _. rewrite bget_scaleR. ring.
Qed.

Lemma dot_zero : forall dims B u p, Forall2 (fun _ b => ash b = [] /\ forall e, bget b e = 0%R) dims B ->
  dot_at dims B u p = 0%R.
Proof.
  intros dims B u p H. revert u. induction H as [|d b ds bs [_ H] H2 IH]; intros [|x u]; cbn [dot_at]; try reflexivity.
  rewrite IH, (total_ext d _ (fun _ => 0 * 0)%R) by (intros; rewrite H; ring). rewrite (total_scal d 0 (fun _ => 0%R)). ring.
Qed.

Lemma sum_terms_latent : forall T dims pp pq us p, length pp = length dims -> length pq = length dims ->
  length us = length dims ->
  sum_terms (fun d a b u => total d (fun v => (bget a (join (length d) p v) - T * bget b (join (length d) p v))
      * bget u (join (length d) p v))%R) dims pp pq us
  = (dot_at dims pp us p - T * dot_at dims pq us p)%R.
Proof.
  intros T. induction dims as [|d dims IH]; intros [|a pp] [|b pq] [|u us] p L1 L2 L3; try discriminate; cbn [sum_terms dot_at]; [lra|].
  rewrite IH by (cbn in *; lia).
  rewrite (total_ext d _ (fun v => (- T) * (bget b (join (length d) p v) * bget u (join (length d) p v)) +
     bget a (join (length d) p v) * bget u (join (length d) p v))%R) by (intros; ring).
  rewrite total_lin. ring.
Qed.
Lemma sum_terms_observed : forall dims pp pq us p, length pp = length dims -> length pq = length dims ->
  length us = length dims ->
  sum_terms (fun d a b u => total d (fun v => (bget a (join (length d) p v) - 0)
      * bget u (join (length d) p v))%R) dims pp pq us = dot_at dims pp us p.
Proof.
  induction dims as [|d dims IH]; intros [|a pp] [|b pq] [|u us] p L1 L2 L3; try discriminate; cbn [sum_terms dot_at]; [lra|].
  rewrite IH by (cbn in *; lia). f_equal. apply total_ext. intros; ring.
Qed.

(** The bound of a plate. *)
Lemma plate_bound_eq : forall n phi_p cgf_p p, length phi_p = length (n_dims n) ->
  length (n_phi n) = length (n_dims n) -> length (n_u n) = length (n_dims n) ->
  plate_bound n phi_p cgf_p p = if bget (n_obs n) p
    then (bget cgf_p p + bget (n_f n) p + dot_at (n_dims n) phi_p (n_u n) p)%R
    else (bget cgf_p p - 1 / n_ann n * bget (n_g n) p + dot_at (n_dims n) phi_p (n_u n) p
          - 1 / n_ann n * dot_at (n_dims n) (n_phi n) (n_u n) p)%R.
Proof.
  intros n phi_p cgf_p p L1 L2 L3. unfold plate_bound. cbn zeta. destruct (bget (n_obs n) p).
  - now rewrite sum_terms_observed.
  - rewrite sum_terms_latent by assumption. lra.
Qed.

Lemma total_le : forall s F G, (forall e, valid s e -> F e <= G e)%R -> (total s F <= total s G)%R.
Proof.
  intros s F G H. unfold total. assert (K : forall e, In e (all_indices s) -> (F e <= G e)%R).
  { intros e He. apply H. now apply all_indices_valid. }
  clear H. induction (all_indices s) as [|e l IH]; unfold lsum in *; cbn; [lra|].
  assert (F e <= G e)%R by (apply K; now left). specialize (IH (fun e He => K e (or_intror He))). lra.
Qed.
Lemma total_eq_pointwise : forall s F G, (forall e, valid s e -> F e <= G e)%R -> total s F = total s G ->
  forall e, In e (all_indices s) -> F e = G e.
Proof.
  intros s F G H E. unfold total in E. assert (K : forall e, In e (all_indices s) -> (F e <= G e)%R).
  { intros e He. apply H. now apply all_indices_valid. }
  clear H. induction (all_indices s) as [|e l IH]; [intros e []|]. unfold lsum in *. cbn in E.
  assert (F e <= G e)%R by (apply K; now left).
  assert (Q : (fold_right Rplus 0 (map F l) <= fold_right Rplus 0 (map G l))%R).
  { assert (K' : forall e, In e l -> (F e <= G e)%R) by (intros; apply K; now right). clear -K'.
    induction l as [|e l IH]; cbn; [lra|]. assert (F e <= G e)%R by (apply K'; now left).
    specialize (IH (fun e He => K' e (or_intror He))). lra. }
  intros e' [<-|He]; [lra|]. apply IH; [lra|intros; apply K; now right|exact He].
Qed.

Section Dist.
Context {pm val : Type}.
Variable D : dist pm val.

Lemma mixed_same : forall plates mask dims news curs ys, mixed_all plates mask dims news curs ys ->
  same_where plates dims (fun p => bget mask p) news ys /\
  same_where plates dims (fun p => negb (bget mask p)) curs ys.
Proof.
  intros plates mask dims news curs ys H. destruct (mixed_nth _ _ _ _ _ _ H) as [(L1 & L2 & L3) N]. split.
  - split; [exact L1|]. split; [exact L3|]. intros i d a b Hd Ha Hb e He Ho.
    destruct (nth_total _ _ dims curs i d (eq_sym L2) Hd) as [c Hc].
    rewrite (N i d a c b Hd Ha Hc Hb e He). now rewrite Ho.
  - split; [exact L2|]. split; [exact L3|]. intros i d a b Hd Ha Hb e He Ho.
    destruct (nth_total _ _ dims news i d (eq_sym L1) Hd) as [c Hc].
    rewrite (N i d c a b Hd Hc Ha Hb e He). apply negb_true_iff in Ho. now rewrite Ho.
Qed.

(** What an update that succeeds does. *)
Lemma update_shape : forall n mc up prior c n', well_shaped n -> step_shaped D n mc up prior ->
  np_all (n_obs n) = false -> update D n mc up c = (n', Ok tt) ->
  exists V u g ys gg, n' = with_g (with_u (with_phi n V) ys) gg /\ fits (n_plates n) (n_dims n) V /\
    all6 (fun d a b m q w => forall e, bget w e = (n_ann n * (bget a e + bget b e + bget m e))%R)
      (n_dims n) prior (n_bias n) (map (np_scaleR c) mc) (n_phi n) V /\
    d_moments D V (np_not (n_obs n)) = Ok (u, g) /\
    mixed_all (n_plates n) (np_not (n_obs n)) (n_dims n) u (n_u n) ys /\
    np_where (np_not (n_obs n)) g (n_g n) = Ok gg /\
    well_shaped n'.
Proof.
  intros n mc up prior c n' W SSn Hall HU.
  assert (W' : well_shaped n').
  { destruct (run_eop_keeps D n (Update mc up c) W) as [X _]. cbn [run_eop] in X. now rewrite HU in X. }
  destruct SSn as [H1 H2 H3 H4 H5].
  assert (H4' : Forall2 (bc (n_plates n)) (n_dims n) (map (np_scaleR c) mc)).
  { clear -H4. induction H4; cbn; constructor; auto. }
  destruct (components (n_plates n) (n_ann n) 1 (n_dims n) prior (n_bias n) (map (np_scaleR c) mc) (n_phi n)
      H2 H3 H4' H5)
    as (Q & Q2 & V & QM & Eg & Gg & Sg & E1 & E2 & E3 & E4 & E5 & E6 & E7 & E8 & E8' & E9 & E10).
  assert (EU : update D n mc up c = finish (with_phi n V) (update_moments_and_cgf D (with_phi n V))).
  { unfold update. rewrite Hall. unfold update_distribution, phi_from_parents, prior_phi.
    rewrite H1. cbn [bind]. rewrite E1. cbn [bind]. rewrite E2. cbn [bind]. rewrite E3. reflexivity. }
  rewrite EU in HU. clear EU.
  unfold update_moments_and_cgf in HU. cbn [n_obs n_phi with_phi] in HU.
  destruct (d_moments D V (np_not (n_obs n))) as [[u g]|] eqn:EM; [|discriminate HU]. cbn [bind] in HU.
  unfold set_moments_and_cgf in HU.
  destruct (check_shape (with_phi n V) u true) as [[]|] eqn:CK.
  2:{ unfold set_moments in HU. rewrite CK in HU. discriminate HU. }
  destruct (set_moments_checked (with_phi n V) u (np_not (n_obs n)) true (with_phi_shaped n V W)
     ltac:(apply not_broadcasts, (ws_obs n W)) CK) as (ys & Y1 & Y2).
  rewrite Y1 in HU. cbn [bind n_g with_u with_phi] in HU.
  destruct (np_where (np_not (n_obs n)) g (n_g n)) as [gg|] eqn:EG; [|discriminate HU].
  cbn [bind finish] in HU. injection HU as <-.
  exists V, u, g, ys, gg. repeat split; try assumption; try reflexivity; apply W'.
Qed.

Lemma where_broadcasts : forall (c : arr bool) (x y z : arr R) S, np_where c x y = Ok z ->
  broadcasts_to (ash c) S -> broadcasts_to (ash x) S -> broadcasts_to (ash y) S -> broadcasts_to (ash z) S.
Proof.
  intros c x y z S H Hc Hx Hy. destruct (np_where_ok _ _ _ _ _ H) as [B _].
  apply (broadcast_least _ _ S B). intros s [<-|[<-|[<-|[]]]]; assumption.
Qed.
End Dist.
