(** Properties C26, C27, C39 of exponential-family nodes. *)
From Coq Require Import List Arith ZArith Lia Bool Reals Lra FunctionalExtensionality.
From Verif Require Import Base Shapes SpecShapes ShapesLemmas NumPy MiscArray TensorLemmas
  EinsumLemmas SumMultiplyLemmas SpecArray PlateSumLemmas PlateSum2Lemmas MessageLemmas
  ShapeOpsLemmas DiagLemmas ExpFam SpecExpFam ExpFamLemmas ExpFamBound ExpFamGrad.
Import ListNotations.
Open Scope nat_scope.

Lemma mixed_nth : forall plates mask dims news curs ys, mixed_all plates mask dims news curs ys ->
  (length news = length dims /\ length curs = length dims /\ length ys = length dims) /\
  forall i d w c y, nth_error dims i = Some d -> nth_error news i = Some w ->
    nth_error curs i = Some c -> nth_error ys i = Some y -> mixed plates d mask w c y.
Proof.
  intros plates mask dims news curs ys H. induction H as [|d dims w news c curs y ys H1 H2 [IL IH]].
  - split; [cbn; lia|]. intros [|i]; discriminate.
  - split; [cbn; lia|]. intros [|i] d' w' c' y'; cbn [nth_error].
    + intros [= <-] [= <-] [= <-] [= <-]. exact H1.
    + apply IH.
Qed.

Lemma agree_nth : forall plates o dims cs ys, agree_all plates o dims cs ys ->
  (length cs = length dims /\ length ys = length dims) /\
  forall i d c y, nth_error dims i = Some d ->
    nth_error cs i = Some c -> nth_error ys i = Some y -> agree plates d o c y.
Proof.
  intros plates o dims cs ys H. induction H as [|d dims c cs y ys H1 H2 [IL IH]].
  - split; [cbn; lia|]. intros [|i]; discriminate.
  - split; [cbn; lia|]. intros [|i] d' c' y'; cbn [nth_error].
    + intros [= <-] [= <-] [= <-]. exact H1.
    + apply IH.
Qed.

Lemma nth_total : forall A B (l : list A) (m : list B) i x, length l = length m ->
  nth_error l i = Some x -> exists y, nth_error m i = Some y.
Proof.
  intros A B l m i x L H. assert (i < length m).
  { rewrite <- L. apply nth_error_Some. congruence. }
  destruct (nth_error m i) eqn:E; [eauto|]. apply nth_error_None in E. lia.
Qed.

(** ** C26 *)

(** observe(x, mask) sets the moments and f of the plates in the mask to those of
    [x] and leaves the moments of the other plates; afterwards no history of updates,
    initialisations, parameter changes and gradient steps -- whatever the other
    nodes send, and whether or not the calls raise -- changes the moments or f of
    the observed plates. *)
Theorem C26_observed_plates_fixed : forall pm val (D : dist pm val) n children_mask x mask n1 history,
  well_shaped n -> observe D n children_mask x mask = Ok n1 ->
  exists u f, d_fixed D x mask = Ok (u, f) /\
    same_where (n_plates n) (n_dims n) (bget mask) u (n_u n1) /\
    same_where (n_plates n) (n_dims n) (fun p => negb (bget mask p)) (n_u n) (n_u n1) /\
    let n2 := run_eops D n1 history in
    n_obs n2 = mask /\
    same_where (n_plates n) (n_dims n) (bget mask) u (n_u n2) /\
    forall p, valid (n_plates n) p -> bget mask p = true -> bget (n_f n2) p = bget f p.
Proof.
  intros pm val D n cm x mask n1 history W H.
  destruct (observe_ok D n cm x mask n1 W H) as (W1 & Eo & Ep & Ed & u & f & Hf & M & Ff).
  exists u, f. split; [exact Hf|].
  destruct (mixed_nth _ _ _ _ _ _ M) as [(L1 & L2 & L3) MN].
  assert (SW : same_where (n_plates n) (n_dims n) (bget mask) u (n_u n1)).
  { split; [exact L1|]. split; [exact L3|]. intros i d a b Hd Ha Hb e He Hm.
    destruct (nth_total _ _ (n_dims n) (n_u n) i d (eq_sym L2) Hd) as [c Hc].
    rewrite (MN i d a c b Hd Ha Hc Hb e He), Hm. reflexivity. }
  split; [exact SW|]. split.
  { split; [exact L2|]. split; [exact L3|]. intros i d c b Hd Hc Hb e He Hm.
    destruct (nth_total _ _ (n_dims n) u i d (eq_sym L1) Hd) as [a Ha].
    apply negb_true_iff in Hm. rewrite (MN i d a c b Hd Ha Hc Hb e He), Hm. reflexivity. }
  cbn zeta. destruct (run_eops_keeps D history n1 W1) as [W2 K]. destruct K.
  split; [congruence|]. rewrite Ep, Ed, Eo in kp_u. destruct (agree_nth _ _ _ _ _ kp_u) as [(_ & L4) AN]. split.
  - split; [exact L1|]. split; [exact L4|]. intros i d a b Hd Ha Hb e He Hm.
    destruct (nth_total _ _ (n_dims n) (n_u n1) i d (eq_sym L3) Hd) as [c Hc].
    rewrite (AN i d c b Hd Hc Hb e He Hm). destruct SW as (_ & _ & SW). now apply (SW i d a c).
  - intros p Hp Hm. rewrite kp_f, Ff, Hm. reflexivity.
Qed.
Print Assumptions C26_observed_plates_fixed.

(** One step: an operation on a node changes the moments of unobserved plates
    only, from any state. *)
Theorem C26_step : forall pm val (D : dist pm val) n o, well_shaped n ->
  same_where (n_plates n) (n_dims n) (bget (n_obs n)) (n_u n) (n_u (fst (run_eop D n o))) /\
  n_obs (fst (run_eop D n o)) = n_obs n /\ n_f (fst (run_eop D n o)) = n_f n /\
  well_shaped (fst (run_eop D n o)).
Proof.
  intros pm val D n o W. destruct (run_eop_keeps D n o W) as [W1 K]. destruct K.
  destruct (agree_nth _ _ _ _ _ kp_u) as [(L1 & L2) AN]. split; [|split; [exact kp_obs|split; [exact kp_f|exact W1]]].
  split; [exact L1|]. split; [exact L2|]. intros i d a b Hd Ha Hb e He Ho. symmetry.
  now apply (AN i d a b Hd Ha Hb e He).
Qed.
Print Assumptions C26_step.

(** A Poisson node with two plates, the first observed as 7; updates change the
    second plate only.  (The constant f of the density is left out here.) *)
Definition poisson_ex : dist (arr R * arr R) (arr R) := Dist _ _
  (fun p => Ok [snd p])
  (fun p => Ok (np_map Ropp (fst p)))
  (fun phi _ => match phi with
     | [p] => Ok ([np_map exp p], np_map (fun v => - exp v)%R p)
     | _ => Err ValueError end)
  (fun x _ => Ok ([x], scalar 0%R))
  (fun x => Ok [x]).
Definition vec2 (a b : R) : arr R := Arr [2] (fun e => match e 0 with 0 => a | _ => b end).
Definition mask2 (a b : bool) : arr bool := Arr [2] (fun e => match e 0 with 0 => a | _ => b end).
Definition node_ex : efnode :=
  EF [2] [[]] [vec2 1 1] [vec2 0 0] (scalar 0%R) (scalar 0%R) (scalar false) (scalar true)
     [scalar 0%R] 1%R [].

Lemma node_ex_shaped : well_shaped node_ex.
Proof.
  constructor; [|apply broadcasts_to_nil]. constructor; [|constructor].
  split; [reflexivity|]. split; [apply broadcasts_to_refl|]. intros k Hk. cbn in Hk. lia.
Qed.

Example C26_poisson :
  exists n1 n2, observe poisson_ex node_ex (scalar true) (vec2 7 9) (mask2 true false) = Ok n1 /\
    run_eops poisson_ex n1 [Update [scalar 0%R] (vec2 3 3, vec2 2 2) 1%R] = n2 /\
    match n_u n2 with
    | [u] => bget u (at_index [0]) = 7%R /\ bget u (at_index [1]) = exp 2
    | _ => False
    end.
Proof.
  eexists. eexists. split; [cbv -[Rplus exp Rmult Ropp IZR]; reflexivity|].
  split; [reflexivity|]. cbv -[Rplus exp Rmult Ropp IZR]. split; [reflexivity|].
  f_equal. ring.
Qed.

(** ** C27 *)

(** The contribution of a node to the lower bound is the sum over the plates in
    its mask of the bound of that plate (times the multiplicity of the node):
    plates outside the mask contribute zero. *)
Theorem C27_bound_is_sum_over_mask : forall pm val (D : dist pm val) nan n u_parents phi_p cgf_p,
  d_phi D u_parents = Ok phi_p -> d_cgf D u_parents = Ok cgf_p -> bound_shaped n phi_p cgf_p ->
  lower_bound_contribution D nan n u_parents =
  Ok (lprod (map INR (n_mult n)) *
      total (n_plates n) (fun p => if bget (n_mask n) p then plate_bound n phi_p cgf_p p else 0))%R.
Proof. intros. now apply lower_bound_ok. Qed.
Print Assumptions C27_bound_is_sum_over_mask.

Lemma sum_terms_ext : forall F G dims pp pq us pp' pq' us',
  length pp = length dims -> length pq = length dims -> length us = length dims ->
  length pp' = length dims -> length pq' = length dims -> length us' = length dims ->
  (forall i d a b u a' b' u', nth_error dims i = Some d -> nth_error pp i = Some a ->
     nth_error pq i = Some b -> nth_error us i = Some u -> nth_error pp' i = Some a' ->
     nth_error pq' i = Some b' -> nth_error us' i = Some u' -> F d a b u = G d a' b' u') ->
  sum_terms F dims pp pq us = sum_terms G dims pp' pq' us'.
Proof.
  intros F G dims. induction dims as [|d dims IH]; intros pp pq us pp' pq' us' L1 L2 L3 L4 L5 L6 H;
    [reflexivity|].
  destruct pp as [|a pp]; [discriminate|]. destruct pq as [|b pq]; [discriminate|].
  destruct us as [|u us]; [discriminate|]. destruct pp' as [|a' pp']; [discriminate|].
  destruct pq' as [|b' pq']; [discriminate|]. destruct us' as [|u' us']; [discriminate|].
  cbn in *. f_equal.
  - now apply (H 0).
  - apply IH; try lia. intros i. apply (H (S i)).
Qed.

Lemma join_valid : forall plates d p v, valid plates p -> valid d v -> valid (plates ++ d) (join (length d) p v).
Proof.
  intros plates d p v Hp Hv k. unfold join. rewrite ax_app.
  destruct (k <? length d); auto.
Qed.

Lemma join_plate : forall nd p v, plate_of nd (join nd p v) = p.
Proof.
  intros nd p v. apply functional_extensionality. intros k. unfold plate_of, join.
  replace (k + nd <? nd) with false by (symmetry; apply Nat.ltb_ge; lia). f_equal. lia.
Qed.

(** Non-interference for the lower bound: two states of a node (and two
    messages from the parents) that agree on the plates in the mask have the same
    lower bound contribution, whatever is stored in the other plates. *)
Theorem C27_masked_values_do_not_matter : forall pm val (D : dist pm val) nan n n' up up' phi_p phi_p' cgf_p cgf_p',
  d_phi D up = Ok phi_p -> d_cgf D up = Ok cgf_p -> bound_shaped n phi_p cgf_p ->
  d_phi D up' = Ok phi_p' -> d_cgf D up' = Ok cgf_p' -> bound_shaped n' phi_p' cgf_p' ->
  n_plates n' = n_plates n -> n_dims n' = n_dims n -> n_mult n' = n_mult n -> n_ann n' = n_ann n ->
  (forall p, valid (n_plates n) p -> bget (n_mask n') p = bget (n_mask n) p) ->
  let on := bget (n_mask n) in
  (forall p, valid (n_plates n) p -> on p = true ->
     bget (n_obs n') p = bget (n_obs n) p /\ bget cgf_p' p = bget cgf_p p /\
     (bget (n_obs n) p = true -> bget (n_f n') p = bget (n_f n) p) /\
     (bget (n_obs n) p = false -> bget (n_g n') p = bget (n_g n) p)) ->
  same_where (n_plates n) (n_dims n) on phi_p phi_p' ->
  same_where (n_plates n) (n_dims n) on (n_u n) (n_u n') ->
  same_where (n_plates n) (n_dims n) (fun p => on p && negb (bget (n_obs n) p)) (n_phi n) (n_phi n') ->
  lower_bound_contribution D nan n' up' = lower_bound_contribution D nan n up.
Proof.
  intros pm val D nan n n' up up' phi_p phi_p' cgf_p cgf_p' A1 A2 A3 B1 B2 B3 Ep Ed Em Ea Hm on Hp S1 S2 S3.
  rewrite (lower_bound_ok D nan n up phi_p cgf_p A1 A2 A3).
  rewrite (lower_bound_ok D nan n' up' phi_p' cgf_p' B1 B2 B3).
  rewrite Em, Ep. do 2 f_equal. apply total_ext. intros p Vp. rewrite Hm by exact Vp.
  destruct (bget (n_mask n) p) eqn:M; [|reflexivity].
  destruct (Hp p Vp M) as (O1 & O2 & O3 & O4). unfold plate_bound. cbn zeta. rewrite O1, O2, Ea, Ed.
  f_equal.
  - destruct (bget (n_obs n) p); [now rewrite O3|now rewrite O4].
  - destruct S1 as (La & La' & S1), S2 as (Lu & Lu' & S2), S3 as (Lb & Lb' & S3).
    apply sum_terms_ext; auto. intros i d a b u a' b' u' Hd Ha Hb Hu Ha' Hb' Hu'.
    apply total_ext. intros v Hv. pose proof (join_valid _ _ p v Vp Hv) as Hj.
    rewrite <- (S1 i d a' a), <- (S2 i d u' u); auto; try (rewrite join_plate; exact M).
    destruct (bget (n_obs n) p) eqn:O; [reflexivity|].
    rewrite <- (S3 i d b' b); auto. rewrite join_plate, O. unfold on. now rewrite M.
Qed.
Print Assumptions C27_masked_values_do_not_matter.

(** The lower bound of [node_ex] with a mask: the second plate is not counted. *)
Example C27_poisson : exists r,
  lower_bound_contribution poisson_ex 0%R (with_mask node_ex (mask2 true false)) (vec2 3 5, vec2 2 4) = Ok r /\
  r = (-3 + 2)%R.
Proof.
  eexists. split; [apply (lower_bound_ok poisson_ex _ _ _ [vec2 2 4] (np_map Ropp (vec2 3 5)))|]; try reflexivity.
  - constructor; cbn; try apply broadcasts_to_refl; try apply broadcasts_to_nil.
    + destruct node_ex_shaped as [H1 H2]. constructor; assumption.
    + repeat constructor; apply broadcasts_to_refl.
    + repeat constructor; apply broadcasts_to_refl.
  - cbv -[Rplus exp Rmult Ropp IZR Rdiv Rinv Rminus]. field.
Qed.

(** Non-interference for messages: two messages (arrays computed by the node
    before masking and summing over plates) that agree on the plates in the mask
    give the same message to the parent. *)
Theorem C27_masked_message : forall m m' mask plates_self mult_self mult_parent parent_plates parent_dims Dm y y',
  broadcasts_to parent_plates plates_self ->
  broadcasts_to mult_parent mult_self ->
  numpy_broadcast [skipn (ndim m - length parent_dims) (ash m); parent_dims] Dm ->
  ash m' = ash m ->
  broadcasts_to (ash m) (plates_self ++ Dm) ->
  broadcasts_to (ash mask) plates_self ->
  (forall i, valid (plates_self ++ Dm) i ->
     bget mask (plate_of (length parent_dims) i) = true -> bget m i = bget m' i) ->
  message_to_parent m mask plates_self mult_self mult_parent parent_plates parent_dims = Ok y ->
  message_to_parent m' mask plates_self mult_self mult_parent parent_plates parent_dims = Ok y' ->
  forall t, valid (parent_plates ++ parent_dims) t -> bget y t = bget y' t.
Proof.
  intros m m' mask ps ms mp pp pd Dm y y' H1 H2 H3 Es H4 H5 Hag E E' t Ht.
  apply broadcasted_shape_ok in H3.
  destruct (message_to_parent_ok m mask ps ms mp pp pd Dm H1 H2 H3 H4 H5) as (z & r & Z1 & Z2 & _ & Z3).
  destruct (message_to_parent_ok m' mask ps ms mp pp pd Dm H1 H2) as (z' & r' & Z1' & Z2' & _ & Z3').
  - unfold ndim. rewrite Es. exact H3.
  - now rewrite Es.
  - exact H5.
  - rewrite Z1 in E. rewrite Z1' in E'. injection E as <-. injection E' as <-.
    rewrite Z3, Z3' by exact Ht. rewrite Z2 in Z2'. injection Z2' as <-. f_equal.
    unfold fibre_sum. f_equal. apply map_ext_in. intros i Hi. apply filter_In in Hi as [Hi _].
    apply all_indices_valid in Hi. specialize (Hag i Hi). unfold plate_of in Hag.
    destruct (bget mask _); [now rewrite Hag|reflexivity].
Qed.
Print Assumptions C27_masked_message.

Lemma valid_eq : forall s e e', valid s e -> valid s e' ->
  (forall k, k < length s -> e k = e' k) -> e = e'.
Proof.
  intros s e e' H H' E. apply functional_extensionality. intros k.
  destruct (Nat.lt_ge_cases k (length s)) as [L|L]; [auto|].
  specialize (H k). specialize (H' k). rewrite ax_overflow in * by exact L. lia.
Qed.

(** ... so the moments a node stores in masked plates do not influence the
    messages it sends, when its message is computed plate by plate. *)
Theorem C27_masked_moments_do_not_reach_parents :
  forall message mask plates dims us us' m m' mult_self mult_parent parent_plates parent_dims y y',
  plate_local plates dims (length parent_dims) message ->
  message us = Ok m -> message us' = Ok m' -> ash m' = ash m ->
  same_where plates dims (bget mask) us us' ->
  broadcasts_to parent_plates plates -> broadcasts_to mult_parent mult_self ->
  numpy_broadcast [skipn (ndim m - length parent_dims) (ash m); parent_dims] parent_dims ->
  broadcasts_to (ash m) (plates ++ parent_dims) -> broadcasts_to (ash mask) plates ->
  message_to_parent m mask plates mult_self mult_parent parent_plates parent_dims = Ok y ->
  message_to_parent m' mask plates mult_self mult_parent parent_plates parent_dims = Ok y' ->
  forall t, valid (parent_plates ++ parent_dims) t -> bget y t = bget y' t.
Proof.
  intros message mask plates dims us us' m m' ms mp pp pd y y' HL E1 E2 Es (L1 & L2 & HS) B1 B2 B3 B4 B5 Y1 Y2 t Ht.
  refine (C27_masked_message m m' mask plates ms mp pp pd pd y y' B1 B2 B3 Es B4 B5 _ Y1 Y2 t Ht).
  intros i Hi Hm. set (p := plate_of (length pd) i) in *.
  assert (Vp : valid plates p).
  { intros k. unfold p, plate_of. specialize (Hi (k + length pd)). rewrite ax_app in Hi.
    replace (k + length pd <? length pd) with false in Hi by (symmetry; apply Nat.ltb_ge; lia).
    now replace (k + length pd - length pd) with k in Hi by lia. }
  replace i with (join (length pd) p i).
  - apply (HL us us' m m' p Vp E1 E2). split; [exact L1|]. split; [exact L2|].
    intros j d a b Hd Ha Hb e He Hq. apply (HS j d a b Hd Ha Hb e He).
    assert (Ep : plate_of (length d) e = p).
    { apply (valid_eq plates); [|exact Vp|].
      - intros k. unfold plate_of. specialize (He (k + length d)). rewrite ax_app in He.
        replace (k + length d <? length d) with false in He by (symmetry; apply Nat.ltb_ge; lia).
        now replace (k + length d - length d) with k in He by lia.
      - intros k Hk. rewrite forallb_forall in Hq. apply Nat.eqb_eq. apply Hq. apply in_seq. lia. }
    rewrite Ep. exact Hm.
  - apply functional_extensionality. intros k. unfold join, p, plate_of.
    destruct (Nat.ltb_spec k (length pd)); [reflexivity|]. f_equal. lia.
Qed.
Print Assumptions C27_masked_moments_do_not_reach_parents.

(** The messages of the Poisson node to its rate parent, [-1] and [x], are
    computed plate by plate. *)
Example C27_poisson_local : plate_local [2] [[]] 0 (fun us =>
  match us with [u] => Ok u | _ => Err ValueError end).
Proof.
  intros us us' m m' p Vp H1 H2 (_ & _ & HS) v.
  destruct us as [|u [|]]; try discriminate. destruct us' as [|u' [|]]; try discriminate.
  injection H1 as <-. injection H2 as <-.
  replace (join 0 p v) with p.
  - apply (HS 0 [] u u'); try reflexivity; [exact Vp|].
    apply forallb_forall. intros k _. unfold plate_of. rewrite Nat.add_0_r. apply Nat.eqb_refl.
  - apply functional_extensionality. intros k. unfold join. cbn. f_equal. lia.
Qed.

(** ** C39 *)

(** The arrays an update uses have the shapes of the node. *)
Record step_shaped {pm val} (D : dist pm val) (n : efnode) (m_children : list (arr R))
       (u_parents : pm) (prior : list (arr R)) : Prop := SS {
  ss_prior : d_phi D u_parents = Ok prior;
  ss_p : Forall2 (fun d a => broadcasts_to (ash a) (n_plates n ++ d)) (n_dims n) prior;
  ss_b : Forall2 (fun d a => broadcasts_to (ash a) (n_plates n ++ d)) (n_dims n) (n_bias n);
  ss_m : Forall2 (fun d a => broadcasts_to (ash a) (n_plates n ++ d)) (n_dims n) m_children;
  ss_q : Forall2 (fun d a => broadcasts_to (ash a) (n_plates n ++ d)) (n_dims n) (n_phi n) }.

Lemma all6_nth : forall P ds As Bs Cs Xs Ys, all6 P ds As Bs Cs Xs Ys ->
  forall i d a b c x y, nth_error ds i = Some d -> nth_error As i = Some a -> nth_error Bs i = Some b ->
    nth_error Cs i = Some c -> nth_error Xs i = Some x -> nth_error Ys i = Some y -> P d a b c x y.
Proof.
  intros P ds As Bs Cs Xs Ys H. induction H as [|d a b c x y ds As Bs Cs Xs Ys H1 H2 IH];
    intros [|i]; cbn; try discriminate.
  - intros d' a' b' c' x' y'. intros [= <-] [= <-] [= <-] [= <-] [= <-] [= <-]. exact H1.
  - apply IH.
Qed.

Lemma map_scale1 : forall ms dims plates, Forall2 (bc plates) dims ms ->
  Forall2 (bc plates) dims (map (np_scaleR 1) ms).
Proof. intros ms dims plates H. induction H; cbn; constructor; auto. Qed.

Lemma finish_phi : forall n (r : res efnode), (forall n', r = Ok n' -> n_phi n' = n_phi n) ->
  n_phi (fst (finish n r)) = n_phi n.
Proof. intros n [n'|e] H; cbn; auto. Qed.

Lemma update_moments_phi : forall pm val (D : dist pm val) n n', update_moments_and_cgf D n = Ok n' -> n_phi n' = n_phi n.
Proof.
  intros pm val D n n' H. unfold update_moments_and_cgf, set_moments_and_cgf, set_moments in H.
  destruct (d_moments _ _ _) as [[u g]|]; [|discriminate]. cbn [bind] in H.
  destruct (check_shape n u true); [|discriminate]. cbn [bind] in H.
  destruct (set_moments_loop _ _ _ _ _); [|discriminate]. cbn [bind] in H.
  destruct (np_where _ _ _); [|discriminate]. cbn [bind] in H. injection H as <-. reflexivity.
Qed.

(** The parameters that an update and that a gradient step of length [s] store:
    the step interpolates linearly between the current parameters and those of
    the update, in every entry. *)
Theorem C39_step_interpolates :
  forall pm val (D : dist pm val) n m_children u_parents prior s,
  step_shaped D n m_children u_parents prior -> np_all (n_obs n) = false ->
  let upd := n_phi (fst (update D n m_children u_parents 1%R)) in
  let stp := n_phi (fst (gradient_step D n m_children u_parents s)) in
  length upd = length (n_dims n) /\ length stp = length (n_dims n) /\
  forall i q a b, nth_error (n_phi n) i = Some q -> nth_error upd i = Some a ->
    nth_error stp i = Some b ->
    forall e, bget b e = ((1 - s) * bget q e + s * bget a e)%R.
Proof.
  intros pm val D n mc up prior s [H1 H2 H3 H4 H5] Hall.
  destruct (components (n_plates n) (n_ann n) s (n_dims n) prior (n_bias n) mc (n_phi n) H2 H3 H4 H5)
    as (P & P2 & U & PM & Df & G & S & C1 & C2 & C3 & C4 & C5 & C6 & C7 & C8 & C8' & C9 & C10).
  destruct (components (n_plates n) (n_ann n) s (n_dims n) prior (n_bias n) (map (np_scaleR 1) mc) (n_phi n)
      H2 H3 (map_scale1 _ _ _ H4) H5)
    as (Q & Q2 & V & QM & Eg & Gg & Sg & E1 & E2 & E3 & E4 & E5 & E6 & E7 & E8 & E8' & E9 & E10).
  cbn zeta.
  assert (HU : n_phi (fst (update D n mc up 1)) = V).
  { unfold update. rewrite Hall. unfold update_distribution, phi_from_parents, prior_phi.
    rewrite H1. cbn [bind]. rewrite E1. cbn [bind]. rewrite E2. cbn [bind]. rewrite E3. cbn zeta.
    rewrite finish_phi; [reflexivity|]. intros n' Hn. now rewrite (update_moments_phi _ _ _ _ _ Hn). }
  assert (HS : n_phi (fst (gradient_step D n mc up s)) = S).
  { unfold gradient_step, get_riemannian_gradient, prior_phi, get_parameters.
    rewrite H1. cbn [bind]. rewrite C1. cbn [bind]. rewrite C4. cbn [bind]. rewrite C5. cbn [bind].
    rewrite C6. cbn [bind]. rewrite C7. unfold set_parameters. cbn zeta.
    rewrite finish_phi; [reflexivity|]. intros n' Hn. now rewrite (update_moments_phi _ _ _ _ _ Hn). }
  rewrite HU, HS.
  split; [symmetry; apply (Forall2_len _ _ _ _ _ E8)|].
  split; [symmetry; apply (Forall2_len _ _ _ _ _ C8')|].
  intros i q a b Hq Ha Hb e.
  destruct (nth_total _ _ _ (n_dims n) i q (eq_sym (Forall2_len _ _ _ _ _ H5)) Hq) as [d Hd].
  destruct (nth_total _ _ _ prior i d (Forall2_len _ _ _ _ _ H2) Hd) as [x Hx].
  destruct (nth_total _ _ _ (n_bias n) i d (Forall2_len _ _ _ _ _ H3) Hd) as [z Hz].
  destruct (nth_total _ _ _ mc i d (Forall2_len _ _ _ _ _ H4) Hd) as [m Hm].
  rewrite (all6_nth _ _ _ _ _ _ _ C9 i d x z m q b Hd Hx Hz Hm Hq Hb e).
  assert (Hm1 : nth_error (map (np_scaleR 1) mc) i = Some (np_scaleR 1 m)) by (now apply map_nth_error).
  rewrite (all6_nth _ _ _ _ _ _ _ E10 i d x z _ q a Hd Hx Hz Hm1 Hq Ha e).
  rewrite (proj1 (scaleR_1 m)). ring.
Qed.
Print Assumptions C39_step_interpolates.

Lemma fits_check : forall plates d sh, broadcasts_to sh (plates ++ d) -> length d <= length sh ->
  (forall k, k < length d -> ax sh k = ax d k) -> check_shape1 plates d sh true = true.
Proof.
  intros plates d sh [Hl H] L Hx. unfold check_shape1. cbn [negb].
  destruct (Nat.eqb_spec (length d) 0) as [E|E].
  - apply is_shape_subset_spec. now split.
  - rewrite app_length in Hl. apply andb_true_iff. split.
    + apply is_shape_subset_spec. split; [rewrite firstn_length; lia|]. intros k.
      destruct (Nat.lt_ge_cases k (length sh - length d)) as [K|K].
      * rewrite firstn_skipn_ax by exact K. specialize (H (k + length d)). rewrite ax_app in H.
        replace (k + length d <? length d) with false in H by (symmetry; apply Nat.ltb_ge; lia).
        now replace (k + length d - length d) with k in H by lia.
      * left. apply ax_overflow. rewrite firstn_length. lia.
    + destruct (list_eq_dec _ _ _) as [|N]; [reflexivity|]. exfalso. apply N.
      apply shape_ext; [rewrite skipn_length; lia|]. intros k.
      destruct (Nat.lt_ge_cases k (length d)) as [K|K].
      * rewrite <- Hx by exact K. transitivity (ax (firstn (length sh - length d) sh ++ skipn (length sh - length d) sh) k); [|now rewrite firstn_skipn].
        rewrite ax_app, skipn_length. replace (length sh - (length sh - length d)) with (length d) by lia.
        now rewrite (proj2 (Nat.ltb_lt _ _) K).
      * rewrite !ax_overflow; [reflexivity|exact K|rewrite skipn_length; lia].
Qed.

Lemma fits_check_all : forall n u,
  Forall2 (fun d a => broadcasts_to (ash a) (n_plates n ++ d) /\ length d <= length (ash a) /\
                      forall k, k < length d -> ax (ash a) k = ax d k) (n_dims n) u ->
  check_shape n u true = Ok tt.
Proof.
  intros n u H. unfold check_shape. rewrite <- (Forall2_len _ _ _ _ _ H), Nat.eqb_refl. cbn [negb].
  replace (forallb _ _) with true; [reflexivity|]. symmetry.
  induction H as [|d a ds us (A1 & A2 & A3) H IH]; [reflexivity|]. cbn [combine forallb fst snd].
  now rewrite fits_check, IH.
Qed.

Lemma set_moments_checked : forall n u mask b, well_shaped n -> broadcasts_to (ash mask) (n_plates n) ->
  check_shape n u b = Ok tt -> exists ys, set_moments n u mask b = Ok (with_u n ys) /\
     mixed_all (n_plates n) mask (n_dims n) u (n_u n) ys.
Proof.
  intros n u mask b [Hu Ho] Hm C. unfold set_moments. rewrite C. cbn [bind]. unfold check_shape in C.
  destruct (Nat.eqb_spec (length u) (length (n_dims n))) as [L|L]; cbn [negb] in C; [|discriminate].
  destruct (forallb _ _) eqn:F; [|discriminate]. rewrite forallb_forall in F.
  destruct (set_moments_loop_ok (n_plates n) mask (n_dims n) (n_u n) u Hu L) as (ys & -> & H1 & H2).
  - intros p Hp. apply (check_shape1_ok _ _ _ b). now apply F.
  - exact Hm.
  - exists ys. split; [reflexivity|exact H2].
Qed.

(** A gradient step of length one is an update: it succeeds when the update does,
    and afterwards the parameters, the moments and the log-normaliser of the node
    are the same. *)
Theorem C39_unit_step_is_update :
  forall pm val (D : dist pm val) n m_children u_parents prior,
  well_shaped n -> step_shaped D n m_children u_parents prior ->
  extensional D (n_plates n) (n_dims n) -> broadcasts_to (ash (n_g n)) (n_plates n) ->
  np_all (n_obs n) = false ->
  snd (update D n m_children u_parents 1%R) = Ok tt ->
  let n1 := fst (update D n m_children u_parents 1%R) in
  let n2 := fst (gradient_step D n m_children u_parents 1%R) in
  snd (gradient_step D n m_children u_parents 1%R) = Ok tt /\
  same_where (n_plates n) (n_dims n) (fun _ => true) (n_phi n1) (n_phi n2) /\
  same_where (n_plates n) (n_dims n) (fun _ => true) (n_u n1) (n_u n2) /\
  (forall p, valid (n_plates n) p -> bget (n_g n1) p = bget (n_g n2) p).
Proof.
  intros pm val D n mc up prior W SSn EX Bg Hall HU. cbn zeta.
  pose proof (C39_step_interpolates pm val D n mc up prior 1 SSn Hall) as I. cbn zeta in I.
  destruct SSn as [H1 H2 H3 H4 H5].
  destruct (components (n_plates n) (n_ann n) 1 (n_dims n) prior (n_bias n) mc (n_phi n) H2 H3 H4 H5)
    as (P & P2 & U & PM & Df & G & S & C1 & C2 & C3 & C4 & C5 & C6 & C7 & C8 & C8' & C9 & C10).
  destruct (components (n_plates n) (n_ann n) 1 (n_dims n) prior (n_bias n) (map (np_scaleR 1) mc) (n_phi n)
      H2 H3 (map_scale1 _ _ _ H4) H5)
    as (Q & Q2 & V & QM & Eg & Gg & Sg & E1 & E2 & E3 & E4 & E5 & E6 & E7 & E8 & E8' & E9 & E10).
  assert (EU : update D n mc up 1 = finish (with_phi n V) (update_moments_and_cgf D (with_phi n V))).
  { unfold update. rewrite Hall. unfold update_distribution, phi_from_parents, prior_phi.
    rewrite H1. cbn [bind]. rewrite E1. cbn [bind]. rewrite E2. cbn [bind]. rewrite E3. reflexivity. }
  assert (ES : gradient_step D n mc up 1 = finish (with_phi n S) (update_moments_and_cgf D (with_phi n S))).
  { unfold gradient_step, get_riemannian_gradient, prior_phi, get_parameters.
    rewrite H1. cbn [bind]. rewrite C1. cbn [bind]. rewrite C4. cbn [bind]. rewrite C5. cbn [bind].
    rewrite C6. cbn [bind]. rewrite C7. reflexivity. }
  rewrite EU in *. rewrite ES in *. clear EU ES.
  rewrite finish_phi in I by (intros n' Hn; now rewrite (update_moments_phi _ _ _ _ _ Hn)).
  rewrite finish_phi in I by (intros n' Hn; now rewrite (update_moments_phi _ _ _ _ _ Hn)).
  destruct I as (L1 & L2 & I). cbn [n_phi with_phi] in L1, L2, I.
  assert (SW : same_where (n_plates n) (n_dims n) (fun _ => true) V S).
  { split; [exact L1|]. split; [exact L2|]. intros i d a b Hd Ha Hb e He _.
    destruct (nth_total _ _ _ (n_phi n) i d (Forall2_len _ _ _ _ _ H5) Hd) as [q Hq].
    rewrite (I i q a b Hq Ha Hb e). ring. }
  unfold update_moments_and_cgf in *. cbn [n_obs n_phi with_phi] in *.
  set (mask := np_not (n_obs n)) in *.
  assert (Bm : broadcasts_to (ash mask) (n_plates n)) by (apply not_broadcasts, (ws_obs n W)).
  destruct (d_moments D V mask) as [[u g]|] eqn:EM; [|discriminate HU]. cbn [bind] in HU |- *.
  assert (BS : Forall2 (fun d a => broadcasts_to (ash a) (n_plates n ++ d)) (n_dims n) S).
  { clear -C8'. induction C8' as [|d a ds us A H IH]; constructor; [rewrite A; apply broadcasts_to_refl|exact IH]. }
  destruct (EX V S mask u g E8 BS SW EM) as (u' & g' & EM' & Su & Sg' & SWu & Hg). rewrite EM'. cbn [bind].
  unfold set_moments_and_cgf in *.
  destruct (check_shape (with_phi n V) u true) as [[]|] eqn:CK.
  2:{ unfold set_moments in HU. rewrite CK in HU. discriminate HU. }
  assert (CK' : check_shape (with_phi n S) u' true = Ok tt).
  { now apply fits_check_all. }
  destruct (set_moments_checked (with_phi n V) u mask true (with_phi_shaped n V W) Bm CK) as (ys & Y1 & Y2).
  destruct (set_moments_checked (with_phi n S) u' mask true (with_phi_shaped n S W) Bm CK') as (ys' & Y1' & Y2').
  rewrite Y1 in *. rewrite Y1'. cbn [bind n_g with_u with_phi] in *.
  destruct (np_where mask g (n_g n)) as [gg|] eqn:EG; [|discriminate HU].
  assert (EG' : exists gg', np_where mask g' (n_g n) = Ok gg').
  { destruct (broadcast_exists_of_upper [ash mask; ash g'; ash (n_g n)] (n_plates n)) as [sh Hsh].
    - intros x [<-|[<-|[<-|[]]]]; assumption.
    - unfold np_where. rewrite np_bshape_eq. rewrite Hsh. cbn. eauto. }
  destruct EG' as [gg' EG']. rewrite EG'. cbn [bind finish fst snd n_phi n_u n_g with_g with_u with_phi].
  split; [reflexivity|]. split; [exact SW|].
  destruct (mixed_nth _ _ _ _ _ _ Y2) as [(M1 & M2 & M3) MN].
  destruct (mixed_nth _ _ _ _ _ _ Y2') as [(M1' & M2' & M3') MN']. split.
  - split; [exact M3|]. split; [exact M3'|]. intros i d a b Hd Ha Hb e He _.
    cbn [n_dims n_plates n_u with_phi] in *.
    destruct (nth_total _ _ (n_dims n) u i d (eq_sym M1) Hd) as [x Hx].
    destruct (nth_total _ _ (n_dims n) u' i d (eq_sym M1') Hd) as [x' Hx'].
    destruct (nth_total _ _ (n_dims n) (n_u n) i d (eq_sym M2) Hd) as [c Hc].
    rewrite (MN i d x c a Hd Hx Hc Ha e He), (MN' i d x' c b Hd Hx' Hc Hb e He).
    destruct SWu as (_ & _ & SWu). now rewrite (SWu i d x x' Hd Hx Hx' e He eq_refl).
  - intros p Hp. destruct (np_where_ok _ _ _ _ _ EG) as [_ ->]. destruct (np_where_ok _ _ _ _ _ EG') as [_ ->].
    now rewrite Hg.
Qed.
Print Assumptions C39_unit_step_is_update.

Example C39_poisson : step_shaped poisson_ex node_ex [vec2 1 2] (vec2 3 3, vec2 2 2) [vec2 2 2] /\
  np_all (n_obs node_ex) = false /\ snd (update poisson_ex node_ex [vec2 1 2] (vec2 3 3, vec2 2 2) 1%R) = Ok tt /\
  match n_phi (fst (gradient_step poisson_ex node_ex [vec2 1 2] (vec2 3 3, vec2 2 2) (1/2)%R)) with
  | [p] => bget p (at_index [1]) = 2%R | _ => False end.
Proof.
  split; [|split; [reflexivity|split; [reflexivity|]]].
  - constructor; cbn [n_dims n_bias n_phi n_plates node_ex]; [reflexivity|..];
      (constructor; [|constructor]); cbn [ash scalar vec2 app];
      first [apply broadcasts_to_refl|apply broadcasts_to_nil].
  - cbv -[Rplus exp Rmult Ropp IZR Rdiv Rinv Rminus]. field.
Qed.

Example C39_poisson_extensional : extensional poisson_ex [2] [[]].
Proof.
  intros phi phi' mask u g B B' (_ & _ & SW) E.
  inversion B as [|? a ? ? B1 B2]; subst. inversion B2; subst.
  inversion B' as [|? a' ? ? B1' B2']; subst. inversion B2'; subst.
  cbn in E. injection E as <- <-. exists [np_map exp a'], (np_map (fun v => - exp v)%R a').
  split; [reflexivity|].
  assert (SW1 : forall e, valid [2] e -> bget a e = bget a' e).
  { intros e He. apply (SW 0 [] a a'); try reflexivity. exact He. }
  split; [|split; [exact B1'|split]].
  - constructor; [|constructor]. split; [exact B1'|]. split; [cbn; lia|]. intros k Hk. cbn in Hk. lia.
  - split; [reflexivity|]. split; [reflexivity|]. intros [|[|i]]; cbn [nth_error]; try discriminate.
    intros d x y [= <-] [= <-] [= <-] e He _. rewrite !bget_map. now rewrite SW1.
  - intros p Hp. rewrite !bget_map. now rewrite SW1.
Qed.
