(** Property C61: what a node is left with when a call raises. *)
From Coq Require Import List Arith ZArith Lia Bool Reals Lra.
From Verif Require Import Base Shapes SpecShapes ShapesLemmas NumPy MiscArray TensorLemmas
  SpecArray PlateSumLemmas PlateSum2Lemmas MessageLemmas ShapeOpsLemmas ExpFam SpecExpFam
  ExpFamLemmas PExpFam Families FamilyDist Rejected SpecRejected.
Import ListNotations.
Open Scope nat_scope.

Lemma with_u_same : forall n, with_u n (n_u n) = n.
Proof. now intros []. Qed.

(** ** The statements one by one do what the results of ExpFam.v say *)
Definition same_result (o : outcome) (r : res efnode) : Prop :=
  match r with Ok n' => o = (n', Ok tt) | Err e => snd o = Err e end.

Lemma moment_steps_agree : forall shp nd mask cur new,
  match set_moment shp nd mask cur new with
  | Ok y => set_moment_steps shp nd mask cur new = (y, Ok tt)
  | Err e => snd (set_moment_steps shp nd mask cur new) = Err e
  end.
Proof.
  intros. unfold set_moment, set_moment_steps. cbv zeta.
  destruct (broadcasted_shape _) as [sh|]; cbn [bind]; [|reflexivity].
  destruct (repeat_to_shape _ _) as [c|]; cbn [bind]; [|reflexivity].
  destruct (np_copyto _ _ _) as [c2|]; cbn [bind]; [|reflexivity].
  destruct (_ <? _); [reflexivity|]. destruct (_ <? _); reflexivity.
Qed.

Lemma moments_steps_agree : forall plates mask dims us news,
  match set_moments_loop plates mask dims us news with
  | Ok y => set_moments_steps plates mask dims us news = (y, Ok tt)
  | Err e => snd (set_moments_steps plates mask dims us news) = Err e
  end.
Proof.
  intros plates mask dims. induction dims as [|d dims IH]; intros [|u us] [|w news]; cbn [set_moments_loop set_moments_steps]; try reflexivity.
  pose proof (moment_steps_agree (plates ++ d) (length d) mask u w) as A.
  destruct (set_moment _ _ _ _ _) as [y|e]; cbn [bind].
  - rewrite A. specialize (IH us news). destruct (set_moments_loop _ _ _ _ _) as [r|e]; cbn [bind].
    + now rewrite IH.
    + destruct (set_moments_steps _ _ _ _ _). exact IH.
  - destruct (set_moment_steps _ _ _ _ _) as [u1 o]. cbn in A. subst o. reflexivity.
Qed.

Lemma set_moments_agree : forall n u mask b, same_result (set_moments_at n u mask b) (set_moments n u mask b).
Proof.
  intros. unfold set_moments_at, set_moments, eval. destruct (check_shape n u b); cbn [bind]; [|reflexivity].
  pose proof (moments_steps_agree (n_plates n) mask (n_dims n) (n_u n) u) as A.
  destruct (set_moments_loop _ _ _ _ _) as [r|e]; cbn [bind].
  - rewrite A. reflexivity.
  - destruct (set_moments_steps _ _ _ _ _). exact A.
Qed.

Lemma set_moments_cgf_agree : forall n u g mask,
  same_result (set_moments_and_cgf_at n u g mask) (set_moments_and_cgf n u g mask).
Proof.
  intros. unfold set_moments_and_cgf_at, set_moments_and_cgf. pose proof (set_moments_agree n u mask true) as A.
  destruct (set_moments n u mask true) as [n1|e]; cbn [same_result bind] in *.
  - rewrite A. cbn [then_]. unfold eval. destruct (np_where _ _ _); reflexivity.
  - destruct (set_moments_at _ _ _ _) as [n1 o]. cbn in A. subst o. reflexivity.
Qed.

Section Dist.
Context {pm val : Type}.
Variable D : dist pm val.

Lemma update_moments_agree : forall n,
  same_result (update_moments_and_cgf_at D n) (update_moments_and_cgf D n).
Proof.
  intros. unfold update_moments_and_cgf_at, update_moments_and_cgf, eval.
  destruct (d_moments D _ _) as [[u g]|e]; cbn [bind fst snd]; [|reflexivity]. apply set_moments_cgf_agree.
Qed.

Lemma same_finish : forall n o r, same_result o r -> snd (finish n r) = snd o /\
  (snd o = Ok tt -> finish n r = o).
Proof.
  intros n [n1 o] [n'|e] A; cbn in *.
  - injection A as -> ->. split; reflexivity.
  - subst o. split; [reflexivity|discriminate].
Qed.

Lemma set_parameters_agree : forall n x,
  snd (set_parameters D n x) = snd (set_parameters_at D n x) /\
  (snd (set_parameters_at D n x) = Ok tt -> set_parameters D n x = set_parameters_at D n x).
Proof. intros. apply same_finish. apply update_moments_agree. Qed.

Lemma fix_phi_agree : forall plates dims phi, length phi <= length dims ->
  match zipM (fix_axes plates) dims phi with
  | Ok r => fix_phi plates dims phi = (r, Ok tt)
  | Err e => snd (fix_phi plates dims phi) = Err e
  end.
Proof.
  intros plates dims. induction dims as [|d dims IH]; intros [|p phi] L; cbn [zipM fix_phi]; try reflexivity; [cbn in L; lia|].
  unfold fix_axes at 1. fold (adjust_axes (length plates + length d) p).
  destruct (adjust_axes _ p) as [p1|]; cbn [bind]; [|reflexivity].
  destruct (is_shape_subset _ _); cbn [bind]; [|reflexivity].
  cbn in L. specialize (IH phi ltac:(lia)). destruct (zipM _ dims phi) as [r|e]; cbn [bind].
  - now rewrite IH.
  - destruct (fix_phi _ _ _). exact IH.
Qed.

Lemma zipM_length : forall A B C (f : A -> B -> res C) l m r, zipM f l m = Ok r -> length r <= length m.
Proof.
  intros A B C f l. induction l as [|x l IH]; intros [|y m] r H; cbn in H; try (injection H as <-; cbn; lia).
  destruct (f x y); [|discriminate]. cbn in H. destruct (zipM f l m) eqn:E; [|discriminate].
  injection H as <-. cbn. apply IH in E. lia.
Qed.

Lemma phi_agree : forall n u, length (n_bias n) <= length (n_dims n) ->
  match phi_from_parents D n u with
  | Ok p => update_phi_from_parents_at D n u = (with_phi n p, Ok tt)
  | Err e => snd (update_phi_from_parents_at D n u) = Err e
  end.
Proof.
  intros n u L. unfold phi_from_parents, update_phi_from_parents_at, prior_phi, eval.
  destruct (d_phi D u) as [a|]; cbn [bind]; [|reflexivity].
  destruct (zipM np_add a (n_bias n)) as [p|] eqn:Z; cbn [bind]; [|reflexivity].
  apply zipM_length in Z. pose proof (fix_phi_agree (n_plates n) (n_dims n) p ltac:(lia)) as A.
  destruct (zipM _ _ _).
  - now rewrite A.
  - destruct (fix_phi _ _ _). exact A.
Qed.

Lemma update_agree : forall n m u a, length (n_bias n) <= length (n_dims n) ->
  snd (update D n m u a) = snd (update_at D n m u a) /\
  (snd (update_at D n m u a) = Ok tt -> update D n m u a = update_at D n m u a).
Proof.
  intros n m u a L. unfold update, update_at. destruct (np_all _); [split; reflexivity|].
  unfold update_distribution, update_distribution_at. pose proof (phi_agree n u L) as A.
  destruct (phi_from_parents D n u) as [p|e]; cbn [bind].
  - rewrite A. cbn [then_ n_phi with_phi n_ann]. unfold eval. destruct (zipM _ p _) as [phi|e].
    + change (with_phi (with_phi n p) phi) with (with_phi n phi). apply same_finish. apply update_moments_agree.
    + split; [reflexivity|discriminate].
  - destruct (update_phi_from_parents_at _ _ _) as [n1 o]. cbn in A. subst o. cbn. split; [reflexivity|discriminate].
Qed.

Lemma initialize_parents_agree : forall n u, length (n_bias n) <= length (n_dims n) ->
  snd (initialize_from_parent_moments D n u) = snd (initialize_from_parents_at D n u) /\
  (snd (initialize_from_parents_at D n u) = Ok tt ->
   initialize_from_parent_moments D n u = initialize_from_parents_at D n u).
Proof.
  intros n u L. unfold initialize_from_parent_moments, initialize_from_parents_at.
  destruct (np_all _); [split; reflexivity|]. pose proof (phi_agree n u L) as A.
  destruct (phi_from_parents D n u) as [p|e].
  - rewrite A. cbn [then_]. apply same_finish. apply update_moments_agree.
  - destruct (update_phi_from_parents_at _ _ _) as [n1 o]. cbn in A. subst o. cbn. split; [reflexivity|discriminate].
Qed.

Lemma observe_agree : forall n cm x mask, same_result (observe_at D n cm x mask) (observe D n cm x mask).
Proof.
  intros. unfold observe_at, observe, eval. destruct (d_fixed D x mask) as [[u f]|]; cbn [bind fst snd]; [|reflexivity].
  pose proof (set_moments_agree n u mask false) as A.
  destruct (set_moments n u mask false) as [n1|e]; cbn [same_result bind] in *.
  - rewrite A. cbn [then_]. destruct (np_where _ _ _) as [f'|]; cbn [bind]; [|reflexivity].
    unfold update_mask_at, eval. destruct (np_logical_or _ _) as [m|]; cbn [bind]; [|reflexivity].
    destruct (is_shape_subset _ _); reflexivity.
  - destruct (set_moments_at _ _ _ _) as [n1 o]. cbn in A. subst o. reflexivity.
Qed.

(** ** The shape checks *)
Lemma check_full : forall n u, check_shape n u false = Ok tt <-> full_moments n u.
Proof.
  intros n u. unfold check_shape, full_moments. generalize (n_plates n) (n_dims n). clear n. intros plates dims.
  revert u. induction dims as [|d dims IH]; intros [|w u]; cbn [length combine forallb fst snd Nat.eqb negb]; try (split; [discriminate|intros H; inversion H]).
  - split; [constructor|reflexivity].
  - specialize (IH u). unfold check_shape1 at 1. cbn [negb].
    destruct (list_eq_dec Nat.eq_dec (ash w) (plates ++ d)) as [E|E]; cbn [andb].
    + rewrite IH. split; intros H; [constructor; assumption|now inversion H].
    + destruct (negb _); (split; [discriminate|intros H; inversion H; contradiction]).
Qed.

Lemma check_legal1 : forall plates d sh, check_shape1 plates d sh true = true <->
  exists lead, sh = lead ++ d /\ broadcasts_to lead plates.
Proof.
  intros plates d sh. unfold check_shape1. cbn [negb]. destruct (Nat.eqb_spec (length d) 0) as [E|E].
  - destruct d; [|discriminate]. rewrite app_nil_r, is_shape_subset_spec. split.
    + intros H. exists sh. now rewrite app_nil_r.
    + intros (l & -> & H). now rewrite app_nil_r.
  - rewrite andb_true_iff, is_shape_subset_spec. split.
    + intros [H1 H2]. destruct (list_eq_dec _ _ d) as [Q|]; [|discriminate]. exists (firstn (length sh - length d) sh).
      split; [|exact H1]. rewrite <- Q at 2. now rewrite firstn_skipn.
    + intros (l & -> & H). rewrite app_length, Nat.add_sub, firstn_app, Nat.sub_diag, firstn_all, app_nil_r.
      rewrite skipn_app, skipn_all, Nat.sub_diag. cbn [app skipn]. split; [exact H|].
      now destruct (list_eq_dec Nat.eq_dec d d).
Qed.

Lemma check_legal : forall n u, check_shape n u true = Ok tt <-> legal_moments n u.
Proof.
  intros n u. unfold check_shape, legal_moments. generalize (n_plates n) (n_dims n). clear n. intros plates dims.
  revert u. induction dims as [|d dims IH]; intros [|w u]; cbn [length combine forallb fst snd Nat.eqb negb]; try (split; [discriminate|intros H; inversion H]).
  - split; [constructor|reflexivity].
  - specialize (IH u). pose proof (check_legal1 plates d (ash w)) as C.
    destruct (check_shape1 plates d (ash w) true); cbn [andb].
    + rewrite IH. split; intros H; [constructor; [now apply C|assumption]|now inversion H].
    + destruct (negb _); (split; [discriminate|intros H; inversion H; subst]);
        match goal with Q : exists lead, _ |- _ => apply C in Q; discriminate end.
Qed.

Lemma check_err : forall n u b e, check_shape n u b = Err e -> e = ValueError.
Proof.
  intros n u b e. unfold check_shape. destruct (negb _); [congruence|]. destruct (forallb _ _); congruence.
Qed.

Lemma set_moments_checked_at : forall n u mask b, well_shaped n -> broadcasts_to (ash mask) (n_plates n) ->
  (exists ys, check_shape n u b = Ok tt /\ set_moments_at n u mask b = (with_u n ys, Ok tt)) \/
  (check_shape n u b = Err ValueError /\ set_moments_at n u mask b = (n, Err ValueError)).
Proof.
  intros n u mask b W Hm. pose proof (set_moments_agree n u mask b) as A.
  destruct (check_shape n u b) as [[]|e] eqn:C.
  - left. destruct (set_moments_ok n u mask b W Hm) as [(ys & E & _)|E].
    + rewrite E in A. exists ys. now split.
    + exfalso. unfold set_moments in E. rewrite C in E. cbn [bind] in E.
      unfold check_shape in C. destruct (Nat.eqb_spec (length u) (length (n_dims n))) as [L|]; [|discriminate].
      cbn [negb] in C. destruct (forallb _ _) eqn:F; [|discriminate]. rewrite forallb_forall in F.
      destruct W as [Hu _].
      destruct (set_moments_loop_ok (n_plates n) mask (n_dims n) (n_u n) u Hu L) as (ys & E2 & _); try assumption.
      { intros p Hp. apply (check_shape1_ok _ _ _ b). now apply (F p). }
      rewrite E2 in E. discriminate.
  - right. pose proof (check_err _ _ _ _ C) as ->. split; [reflexivity|]. unfold set_moments_at. now rewrite C.
Qed.

Lemma np_where_total : forall A (c : arr bool) (x y : arr A) S, broadcasts_to (ash c) S ->
  broadcasts_to (ash x) S -> broadcasts_to (ash y) S -> exists z, np_where c x y = Ok z.
Proof.
  intros A c x y S Hc Hx Hy. unfold np_where. rewrite np_bshape_eq.
  destruct (broadcast_exists_of_upper [ash c; ash x; ash y] S) as [sh ->].
  { intros a [<-|[<-|[<-|[]]]]; assumption. }
  cbn [bind]. eauto.
Qed.

(** ** observe *)

(** With a mask that broadcasts to the plates, observe either does all of its work
    or raises with the node as it was; it raises exactly when the value is not one
    of the distribution, or its moments do not have the shape of the node. *)
Theorem C61_observe : forall n cm x mask, well_shaped n ->
  broadcasts_to (ash mask) (n_plates n) -> broadcasts_to (ash cm) (n_plates n) ->
  broadcasts_to (ash (n_f n)) (n_plates n) ->
  (forall u f, d_fixed D x mask = Ok (u, f) -> full_moments n u -> broadcasts_to (ash f) (n_plates n)) ->
  atomic n (observe_at D n cm x mask) /\
  (snd (observe_at D n cm x mask) = Ok tt <-> exists u f, d_fixed D x mask = Ok (u, f) /\ full_moments n u) /\
  (forall u f, d_fixed D x mask = Ok (u, f) -> ~ full_moments n u ->
     snd (observe_at D n cm x mask) = Err ValueError) /\
  (forall e, d_fixed D x mask = Err e -> snd (observe_at D n cm x mask) = Err e).
Proof.
  intros n cm x mask W Hm Hc Hf HF. unfold observe_at. destruct (d_fixed D x mask) as [[u f]|e] eqn:E; cbn [eval fst snd].
  2:{ split; [intros e' _; reflexivity|]. split; [|split; [discriminate|intros e' [= <-]; reflexivity]].
      split; [discriminate|intros (u & f & [=] & _)]. }
  destruct (set_moments_checked_at n u mask false W Hm) as [(ys & C & ->)|[C ->]]; cbn [then_].
  - apply check_full in C. cbn [n_f with_u].
    destruct (np_where_total _ mask f (n_f n) (n_plates n)) as [f' ->]; [assumption|now apply (HF u)|assumption|].
    cbn [eval]. unfold update_mask_at. cbn [n_obs with_observed with_f n_plates with_u].
    unfold np_logical_or. destruct (np_map2 orb cm mask) as [m|e] eqn:Q; cbn [eval].
    + apply np_map2_ok in Q as [Q _].
      assert (B : broadcasts_to (ash m) (n_plates n)).
      { apply (broadcast_least _ _ _ Q). intros a [<-|[<-|[]]]; assumption. }
      apply is_shape_subset_spec in B. cbn [n_plates with_mask with_observed with_f with_u]. rewrite B. cbn [snd fst].
      split; [intros e; discriminate|]. split; [split; [intros _; eauto|reflexivity]|].
      split; [intros u' f'' [= -> ->] N; contradiction|discriminate].
    + exfalso. unfold np_map2 in Q. rewrite np_bshape_eq in Q.
      destruct (broadcast_exists_of_upper [ash cm; ash mask] (n_plates n)) as [sh Hsh].
      { intros a [<-|[<-|[]]]; assumption. }
      rewrite Hsh in Q. discriminate.
  - cbn [fst snd]. split; [intros e _; reflexivity|]. split.
    + split; [discriminate|]. intros (u' & f' & [= -> ->] & F). apply check_full in F. congruence.
    + split; [reflexivity|discriminate].
Qed.

(** A mask that does not broadcast to the plates is never accepted. *)
Theorem C61_observe_mask : forall n cm x mask, ~ broadcasts_to (ash mask) (n_plates n) ->
  snd (observe_at D n cm x mask) <> Ok tt.
Proof.
  intros n cm x mask H E. apply H. clear H. unfold observe_at, eval in E.
  destruct (d_fixed D x mask) as [[u f]|]; [|discriminate]. cbn [fst snd] in E.
  destruct (set_moments_at n u mask false) as [n1 [[]|]] eqn:S; cbn [then_] in E; [|discriminate].
  assert (P : n_plates n1 = n_plates n).
  { unfold set_moments_at, eval in S. destruct (check_shape _ _ _); [|congruence].
    destruct (set_moments_steps _ _ _ _ _). injection S as <- _. reflexivity. }
  destruct (np_where _ _ _) as [f'|]; [|discriminate]. unfold update_mask_at, eval in E.
  cbn [n_obs with_observed with_f n_plates] in E.
  destruct (np_logical_or cm mask) as [m|] eqn:Q; [|discriminate].
  cbn [n_plates with_mask with_observed with_f] in E. rewrite P in E.
  destruct (is_shape_subset _ _) eqn:B; [|discriminate]. apply is_shape_subset_spec in B.
  apply np_map2_ok in Q as [Q _]. eapply broadcasts_to_trans; [|exact B]. apply (broadcast_upper _ _ _ Q).
  right. now left.
Qed.

(** ** initialize_from_value *)
Lemma value_test_legal : forall xsh plates dims u,
  Forall2 (fun d a => exists lead, ash a = lead ++ d /\ broadcasts_to lead plates) dims u ->
  value_shape_test xsh dims u = Ok tt.
Proof.
  intros xsh plates dims u H. induction H as [|d a dims u (l & E & _) H IH]; cbn [value_shape_test]; [reflexivity|].
  unfold ndim. rewrite E, app_length, Nat.add_sub, skipn_app, skipn_all, Nat.sub_diag. cbn [app skipn].
  destruct (list_eq_dec Nat.eq_dec d d); [|contradiction]. cbn [negb]. rewrite andb_false_r. exact IH.
Qed.

Theorem C61_initialize : forall vshape big n x, well_shaped n -> broadcasts_to (ash (n_g n)) (n_plates n) ->
  atomic n (initialize_from_value_at D vshape big n x) /\
  (snd (initialize_from_value_at D vshape big n x) = Ok tt <->
   exists u, d_fixed_moments D x = Ok u /\ legal_moments n u).
Proof.
  intros vshape big n x W Hg. unfold initialize_from_value_at, eval.
  destruct (d_fixed_moments D x) as [u|e].
  2:{ split; [intros e' _; reflexivity|]. split; [discriminate|intros (u & [=] & _)]. }
  destruct (value_shape_test _ _ _) as [[]|e] eqn:V.
  2:{ split; [intros e' _; reflexivity|]. split; [discriminate|]. intros (u' & [= ->] & L).
      rewrite (value_test_legal _ _ _ _ L) in V. discriminate. }
  unfold set_moments_and_cgf_at. pose proof (not_broadcasts _ _ (ws_obs _ W)) as Hm.
  destruct (set_moments_checked_at n u (np_not (n_obs n)) true W Hm) as [(ys & C & ->)|[C ->]]; cbn [then_].
  - cbn [n_g with_u]. destruct (np_where_total _ (np_not (n_obs n)) (scalar big) (n_g n) (n_plates n)) as [g' ->]; try assumption.
    { apply broadcasts_to_nil. }
    cbn [eval snd]. split; [intros e; discriminate|]. split; [|reflexivity]. intros _. exists u. split; [reflexivity|]. now apply check_legal.
  - cbn [fst snd]. split; [intros e _; reflexivity|]. split; [discriminate|]. intros (u' & [= ->] & L).
    apply check_legal in L. congruence.
Qed.

(** The exception is not the one the code names: a value whose moments do not have
    the axes of the variable is rejected with TypeError, not ValueError, unless the
    value has two axes. *)
Theorem C61_initialize_error_refuted : forall vshape big n x w u d dims,
  d_fixed_moments D x = Ok (w :: u) -> n_dims n = d :: dims -> d <> [] ->
  (forall lead, ash w <> lead ++ d) ->
  initialize_from_value_at D vshape big n x =
    (n, Err (if length (vshape x) =? 2 then ValueError else TypeError)).
Proof.
  intros vshape big n x w u d dims E Ed Hd Hw. unfold initialize_from_value_at, eval. rewrite E, Ed. cbn [value_shape_test].
  destruct d as [|k d]; [contradiction|]. change (0 <? length (k :: d)) with true.
  destruct (list_eq_dec Nat.eq_dec (skipn (ndim w - length (k :: d)) (ash w)) (k :: d)) as [Q|Q].
  - exfalso. apply (Hw (firstn (ndim w - length (k :: d)) (ash w))). rewrite <- Q at 2. now rewrite firstn_skipn.
  - cbn [negb andb]. destruct (length (vshape x) =? 2); reflexivity.
Qed.

(** ** update, set_parameters, initialize_from_parameters *)

(** [g] has no more plates than the moments. *)
Definition cgf_fits (n : efnode) : Prop := forall phi m u g,
  d_moments D phi m = Ok (u, g) -> legal_moments n u -> broadcasts_to (ash g) (n_plates n).

Lemma update_moments_keeps : forall n, well_shaped n -> broadcasts_to (ash (n_g n)) (n_plates n) ->
  cgf_fits n -> atomic n (update_moments_and_cgf_at D n).
Proof.
  intros n W Hg Hc e. unfold update_moments_and_cgf_at, eval.
  destruct (d_moments D _ _) as [[u g]|e'] eqn:M; [|reflexivity]. cbn [fst snd]. unfold set_moments_and_cgf_at.
  pose proof (not_broadcasts _ _ (ws_obs _ W)) as Hm.
  destruct (set_moments_checked_at n u (np_not (n_obs n)) true W Hm) as [(ys & C & ->)|[C ->]]; cbn [then_]; [|reflexivity].
  cbn [n_g with_u]. apply check_legal in C. specialize (Hc _ _ _ _ M C).
  destruct (np_where_total _ (np_not (n_obs n)) g (n_g n) (n_plates n)) as [g' ->]; try assumption. discriminate.
Qed.

Lemma with_phi_shaped : forall n p, well_shaped n -> well_shaped (with_phi n p).
Proof. intros n p [H1 H2]. constructor; assumption. Qed.

Lemma phi_keeps : forall n u,
  fst (update_phi_from_parents_at D n u) = with_phi n (n_phi (fst (update_phi_from_parents_at D n u))).
Proof.
  intros n u. unfold update_phi_from_parents_at, eval. destruct (bind _ _) as [phi|]; [|now destruct n].
  destruct (fix_phi _ _ _). reflexivity.
Qed.

Lemma keeps_moments_phi : forall n p o, (forall e, snd o = Err e -> exists q, fst o = with_phi (with_phi n p) q) ->
  keeps_moments n o.
Proof. intros n p o H e E. destruct (H e E) as [q ->]. repeat split. Qed.

(** When one of the updates of the distribution raises, the moments, the masks and
    the terms of the lower bound of the node are as they were. *)
Theorem C61_moments_kept : forall n, well_shaped n -> broadcasts_to (ash (n_g n)) (n_plates n) -> cgf_fits n ->
  (forall x, keeps_moments n (set_parameters_at D n x)) /\
  (forall m u a, keeps_moments n (update_at D n m u a)) /\
  (forall u, keeps_moments n (initialize_from_parents_at D n u)).
Proof.
  intros n W Hg Hc.
  assert (K : forall p e, snd (update_moments_and_cgf_at D (with_phi n p)) = Err e ->
    fst (update_moments_and_cgf_at D (with_phi n p)) = with_phi n p).
  { intros p. apply update_moments_keeps; [now apply with_phi_shaped|exact Hg|exact Hc]. }
  assert (Q : forall p n1, n1 = with_phi n p -> with_phi (with_phi n p) (n_phi n1) = n1) by (intros p n1 ->; reflexivity).
  split; [|split].
  - intros x. apply (keeps_moments_phi n x). intros e E. exists x. unfold set_parameters_at in *. now rewrite (K x e E).
  - intros m u a. unfold update_at. destruct (np_all _); [intros e; discriminate|]. unfold update_distribution_at.
    pose proof (phi_keeps n u) as P. destruct (update_phi_from_parents_at D n u) as [n1 [[]|e]]; cbn [then_ fst] in *.
    + unfold eval. destruct (zipM _ _ _) as [phi|e].
      * apply (keeps_moments_phi n phi). intros e E. exists phi. rewrite P in *. cbn [n_phi with_phi] in *.
        change (with_phi (with_phi n (n_phi n1)) phi) with (with_phi n phi) in *. now rewrite (K phi e E).
      * apply (keeps_moments_phi n (n_phi n1)). intros e' _. exists (n_phi n1). exact P.
    + apply (keeps_moments_phi n (n_phi n1)). intros e' _. exists (n_phi n1). exact P.
  - intros u. unfold initialize_from_parents_at. destruct (np_all _); [intros e; discriminate|].
    pose proof (phi_keeps n u) as P. destruct (update_phi_from_parents_at D n u) as [n1 [[]|e]]; cbn [then_ fst] in *.
    + rewrite P. apply (keeps_moments_phi n (n_phi n1)). intros e E. exists (n_phi n1). now rewrite (K _ e E).
    + apply (keeps_moments_phi n (n_phi n1)). intros e' _. exists (n_phi n1). exact P.
Qed.

(** But the natural parameters are those of the rejected call: they do not belong to
    the moments any more. *)
Theorem C61_parameters_refuted : forall n x e, d_moments D x (np_not (n_obs n)) = Err e ->
  set_parameters_at D n x = (with_phi n x, Err e) /\
  get_parameters (fst (set_parameters_at D n x)) = x.
Proof.
  intros n x e H. unfold set_parameters_at, update_moments_and_cgf_at, eval. cbn [n_phi n_obs with_phi]. rewrite H. now split.
Qed.

Theorem C61_update_refuted : forall n m u a p phi e, np_all (n_obs n) = false ->
  length (n_bias n) <= length (n_dims n) -> phi_from_parents D n u = Ok p ->
  zipM (fun p m => y <- np_add p m ;; Ok (np_scaleR (n_ann n) y)) p (map (np_scaleR a) m) = Ok phi ->
  d_moments D phi (np_not (n_obs n)) = Err e ->
  update_at D n m u a = (with_phi n phi, Err e).
Proof.
  intros n m u a p phi e Ho L Hp Hz H. unfold update_at. rewrite Ho. unfold update_distribution_at.
  pose proof (phi_agree n u L) as A. rewrite Hp in A. rewrite A. cbn [then_ n_phi with_phi n_ann]. unfold eval at 1. rewrite Hz.
  unfold update_moments_and_cgf_at, eval. cbn [n_phi n_obs with_phi]. rewrite H. reflexivity.
Qed.

(** A later update or initialization from the parents that succeeds repairs this:
    its result does not depend on the parameters before it. *)
Theorem C61_retry : forall n q m u a, np_all (n_obs n) = false ->
  (snd (update_at D n m u a) = Ok tt -> update_at D (with_phi n q) m u a = update_at D n m u a) /\
  (snd (initialize_from_parents_at D n u) = Ok tt ->
   initialize_from_parents_at D (with_phi n q) u = initialize_from_parents_at D n u).
Proof.
  intros n q m u a Ho. unfold update_at, initialize_from_parents_at, update_distribution_at, update_phi_from_parents_at.
  cbn [n_obs n_bias n_plates n_dims with_phi]. rewrite Ho.
  destruct (bind (d_phi D u) _) as [phi|e]; cbn [eval then_ snd]; [|split; discriminate].
  destruct (fix_phi _ _ _) as [p o]. change (with_phi (with_phi n q) p) with (with_phi n p). split; reflexivity.
Qed.

Theorem C61_agrees : forall n, length (n_bias n) <= length (n_dims n) ->
  (forall cm x mask, match observe D n cm x mask with
     | Ok n' => observe_at D n cm x mask = (n', Ok tt)
     | Err e => snd (observe_at D n cm x mask) = Err e end) /\
  (forall m u a, snd (update D n m u a) = snd (update_at D n m u a) /\
     (snd (update_at D n m u a) = Ok tt -> update D n m u a = update_at D n m u a)) /\
  (forall u, snd (initialize_from_parent_moments D n u) = snd (initialize_from_parents_at D n u) /\
     (snd (initialize_from_parents_at D n u) = Ok tt ->
      initialize_from_parent_moments D n u = initialize_from_parents_at D n u)) /\
  (forall x, snd (set_parameters D n x) = snd (set_parameters_at D n x) /\
     (snd (set_parameters_at D n x) = Ok tt -> set_parameters D n x = set_parameters_at D n x)) /\
  (forall vshape big x, snd (initialize_from_value_at D vshape big n x) = Ok tt ->
     initialize_from_value D big n x = initialize_from_value_at D vshape big n x).
Proof.
  intros n L. split; [intros; apply observe_agree|]. split; [intros; now apply update_agree|].
  split; [intros; now apply initialize_parents_agree|]. split; [intros; apply set_parameters_agree|].
  intros vshape big x. unfold initialize_from_value_at, initialize_from_value, eval.
  destruct (d_fixed_moments D x) as [u|e]; cbn [bind]; [|discriminate].
  destruct (value_shape_test _ _ _); [|discriminate]. intros E.
  apply (same_finish n _ _ (set_moments_cgf_agree n u (scalar big) (np_not (n_obs n)))). exact E.
Qed.
End Dist.
Print Assumptions C61_observe.
Print Assumptions C61_observe_mask.
Print Assumptions C61_initialize.
Print Assumptions C61_initialize_error_refuted.
Print Assumptions C61_moments_kept.
Print Assumptions C61_parameters_refuted.
Print Assumptions C61_update_refuted.
Print Assumptions C61_retry.
Print Assumptions C61_agrees.

(** ** observe with a mask that does not broadcast to the plates *)

(** A Poisson node with one plate, and masks with k + 2 plates, or with an axis of
    length k + 2 in front.  Both calls raise; the first leaves a node that is
    observed at k + 2 plates, the second one with a moment array of two axes. *)
Definition one_plate : efnode :=
  EF [1] [[]] [Arr [1] (fun _ => 1%R)] [Arr [1] (fun _ => 0%R)] (scalar 0%R) (scalar 0%R)
     (scalar false) (scalar true) [scalar 0%R] 1%R [].
Ltac ev k :=
  repeat (progress (cbv -[IZR Nat.eqb]; rewrite ?(Nat.eqb_refl k), ?(Nat.eqb_refl (S k)), ?(Nat.eqb_refl (S (S k)));
    change (S (S k) =? 1) with false; change (1 =? S (S k)) with false; change (1 =? 1) with true; change (0 =? 0) with true; change (1 =? 0) with false; change (0 =? 1) with false; change (S k =? 1) with (k =? 0);
    change (1 =? S k) with (0 =? k); change (S (S k) =? 0) with false; change (S k =? 0) with false)); try reflexivity.
Theorem C61_observe_refuted : forall k b,
  let x := Arr [1] (fun _ => 7%R) in
  let long := Arr [S (S k)] b in
  let deep := Arr [S (S k); 1] b in
  well_shaped one_plate /\
  (exists n1, observe_at poisson_ex one_plate (scalar false) x long = (n1, Err ValueError) /\
     n_obs n1 = long /\ map ash (n_u n1) = [[S (S k)]] /\ ash (n_mask n1) = [S (S k)]) /\
  (exists n2, observe_at poisson_ex one_plate (scalar false) x deep = (n2, Err RuntimeError) /\
     map ash (n_u n2) = [[S (S k); 1]] /\ ~ well_shaped n2).
Proof.
  intros k b x long deep. split; [|split].
  - constructor; [|apply broadcasts_to_nil]. constructor; [|constructor].
    split; [reflexivity|]. split; [apply broadcasts_to_refl|]. intros j Hj. cbn in Hj. lia.
  - eexists. split; [unfold x, long; ev k|]. repeat split.
  - eexists. split; [unfold x, deep; ev k|]. split; [reflexivity|]. intros [H _]. cbn in H.
    inversion H as [|? ? ? ? (Q & _) _]. discriminate.
Qed.
Print Assumptions C61_observe_refuted.

(** ** set_value of a constant *)
Theorem C61_set_value : forall val (fixed : val -> res (list (arr R))) plates dims u x,
  (snd (constant_set_value fixed plates dims u x) = Ok tt ->
   exists u', fixed x = Ok u' /\ fst (constant_set_value fixed plates dims u x) = u' /\
     forall i d w, nth_error dims i = Some d -> nth_error u' i = Some w -> broadcasts_to (ash w) (plates ++ d)) /\
  (forall e, fixed x = Err e -> constant_set_value fixed plates dims u x = (u, Err e)).
Proof.
  intros val fixed plates dims u x. unfold constant_set_value. split; [|now intros e ->].
  destruct (fixed x) as [u'|e]; cbn [fst snd]; [|discriminate]. intros H. exists u'. split; [reflexivity|]. split; [reflexivity|].
  revert u' H. induction dims as [|d dims IH]; intros [|w u'] H [|i] d' w'; cbn in H |- *; try discriminate;
    destruct (is_shape_subset (ash w) (plates ++ d)) eqn:B; try discriminate.
  - intros [= <-] [= <-]. now apply is_shape_subset_spec.
  - now apply IH.
Qed.

(** A value of the wrong shape is refused with ValueError, after the constant has
    taken it: from then on it sends the moments of the refused value. *)
Theorem C61_set_value_refuted : forall val (fixed : val -> res (list (arr R))) plates dims u x u' i d w,
  fixed x = Ok u' -> length u' = length dims ->
  nth_error dims i = Some d -> nth_error u' i = Some w -> ~ broadcasts_to (ash w) (plates ++ d) ->
  constant_set_value fixed plates dims u x = (u', Err ValueError).
Proof.
  intros val fixed plates dims u x u' i d w E L Hd Hw H. unfold constant_set_value. rewrite E. f_equal. clear E u.
  revert u' i L Hd Hw. induction dims as [|d0 dims IH]; intros [|w0 u'] [|i] L Hd Hw; cbn in L, Hd, Hw |- *; try discriminate.
  - injection Hd as ->. injection Hw as ->. destruct (is_shape_subset (ash w) (plates ++ d)) eqn:B; [|reflexivity].
    apply is_shape_subset_spec in B. contradiction.
  - destruct (is_shape_subset _ _); [|reflexivity]. apply (IH u' i); auto.
Qed.
Print Assumptions C61_set_value.
Print Assumptions C61_set_value_refuted.

(** ** Examples *)

(** The Poisson node of C26 accepts a partial observation and refuses a value of
    the wrong shape; it is as it was then. *)
Example C61_ex_observe :
  snd (observe_at poisson_ex node_ex (scalar true) (vec2 7 9) (mask2 true false)) = Ok tt /\
  observe_at poisson_ex node_ex (scalar true) (Arr [3] (fun _ => 7%R)) (mask2 true false) = (node_ex, Err ValueError) /\
  snd (initialize_from_value_at poisson_ex ash 0%R node_ex (vec2 7 9)) = Ok tt /\
  initialize_from_value_at poisson_ex ash 0%R node_ex (Arr [3] (fun _ => 7%R)) = (node_ex, Err ValueError).
Proof. repeat split. Qed.

(** A vector of two given to a node of vectors of three: TypeError. *)
Definition vec_dist : dist unit (arr R) := Dist _ _ (fun _ => Ok []) (fun _ => Ok (scalar 0%R))
  (fun phi _ => Ok (phi, scalar 0%R)) (fun x _ => Ok ([x], scalar 0%R)) (fun x => Ok [x]).
Definition vec_node : efnode :=
  EF [] [[3]] [Arr [3] (fun _ => 0%R)] [Arr [3] (fun _ => 0%R)] (scalar 0%R) (scalar 0%R)
     (scalar false) (scalar true) [scalar 0%R] 1%R [].
Example C61_ex_error :
  initialize_from_value_at vec_dist ash 0%R vec_node (vec2 1 2) = (vec_node, Err TypeError) /\
  initialize_from_value_at vec_dist ash 0%R vec_node (Arr [2; 2] (fun _ => 1%R)) = (vec_node, Err ValueError) /\
  snd (initialize_from_value_at vec_dist ash 0%R vec_node (Arr [3] (fun _ => 1%R))) = Ok tt.
Proof. repeat split. Qed.

(** A gamma node with shape 2 and rate 1: set_parameters with a positive first
    parameter raises; the node has the refused parameters and its old moments, and
    an update from the prior afterwards gives what it gives without that call. *)
Section Gamma.
Variables gammaln digamma : R -> R.
Definition gamma_dist : dist (R * R) (arr R) := Dist _ _
  (fun p => Ok [scalar (- snd p)%R; scalar (fst p)]) (fun _ => Ok (scalar 0%R))
  (lift_moments (gamma_family gammaln digamma) []) (fun x _ => Ok ([x; np_map ln x], scalar 0%R))
  (fun x => Ok [x; np_map ln x]).
Definition gamma_node : efnode :=
  EF [] [[]; []] [scalar 2%R; scalar (digamma 2)] [scalar (-1)%R; scalar 2%R] (scalar 0%R) (scalar 0%R)
     (scalar false) (scalar true) [scalar 0%R; scalar 0%R] 1%R [].
Lemma gamma_node_shaped : well_shaped gamma_node.
Proof.
  constructor; [|apply broadcasts_to_nil].
  constructor; [|constructor; [|constructor]]; (split; [reflexivity|]; split; [apply broadcasts_to_nil|]; intros j Hj; cbn in Hj; lia).
Qed.
Lemma gamma_fits : cgf_fits gamma_dist gamma_node.
Proof.
  intros phi m u g H _. cbn [d_moments gamma_dist] in H. unfold lift_moments in H.
  destruct (forallb _ _); [|discriminate]. injection H as _ <-. apply broadcasts_to_nil.
Qed.
Example C61_ex_gamma : 
  let bad := [scalar 1%R; scalar 3%R] in
  let n1 := fst (set_parameters_at gamma_dist gamma_node bad) in
  snd (set_parameters_at gamma_dist gamma_node bad) = Err ValueError /\
  get_parameters n1 = bad /\ get_parameters gamma_node <> bad /\ n_u n1 = n_u gamma_node /\
  np_all (n_obs gamma_node) = false /\
  snd (update_at gamma_dist gamma_node [scalar (-3)%R; scalar 1%R] (2, 1)%R 1%R) = Ok tt /\
  update_at gamma_dist n1 [scalar (-3)%R; scalar 1%R] (2, 1)%R 1%R =
    update_at gamma_dist gamma_node [scalar (-3)%R; scalar 1%R] (2, 1)%R 1%R.
Proof.
  intros bad n1.
  assert (E : d_moments gamma_dist bad (np_not (n_obs gamma_node)) = Err ValueError).
  { unfold bad. cbv -[Rle_dec IZR Rplus Rmult Ropp Rdiv ln Rminus]. destruct (Rle_dec _ _) as [_|N]; [reflexivity|exfalso; lra]. }
  destruct (C61_parameters_refuted gamma_dist gamma_node bad _ E) as [P1 P2].
  assert (U : snd (update_at gamma_dist gamma_node [scalar (-3)%R; scalar 1%R] (2, 1)%R 1%R) = Ok tt).
  { cbv -[Rle_dec IZR Rplus Rmult Ropp Rdiv ln Rminus]. destruct (Rle_dec _ _) as [L|_]; [exfalso; lra|]. reflexivity. }
  split; [now rewrite P1|]. split; [exact P2|]. split.
  { intros Q. apply (f_equal (fun l => match l with a :: _ => bget a env0 | _ => 0%R end)) in Q. cbn in Q. lra. }
  split; [unfold n1; now rewrite P1|]. split; [reflexivity|]. split; [exact U|].
  unfold n1. rewrite P1. cbn [fst]. now apply (C61_retry gamma_dist gamma_node bad _ (2, 1)%R 1%R).
Qed.

(** A message from a child that makes the first parameter positive: update raises,
    the moments are kept, the parameters are not. *)
Example C61_ex_update :
  let o := update_at gamma_dist gamma_node [scalar 3%R; scalar 1%R] (2, 1)%R 1%R in
  snd o = Err ValueError /\ keeps_moments gamma_node o /\
  match n_phi (fst o) with a :: _ => bget a env0 = 2%R | _ => False end.
Proof.
  intros o.
  assert (U : exists phi, o = (with_phi gamma_node phi, Err ValueError) /\
    match phi with a :: _ => bget a env0 = 2%R | _ => False end).
  { eexists. split.
    - unfold o. eapply C61_update_refuted; [reflexivity|cbn; lia|cbv -[IZR Rplus Rmult Ropp]; reflexivity|
        cbv -[IZR Rplus Rmult Ropp]; reflexivity|].
      cbv -[Rle_dec IZR Rplus Rmult Ropp Rdiv ln Rminus]. destruct (Rle_dec _ _) as [_|N]; [reflexivity|exfalso; clear o; lra].
    - cbv -[IZR Rplus Rmult Ropp]. clear o. lra. }
  destruct U as (phi & U & P). split; [now rewrite U|]. split; [|now rewrite U].
  exact (proj1 (proj2 (C61_moments_kept gamma_dist gamma_node gamma_node_shaped (broadcasts_to_nil _) gamma_fits)) _ _ _).
Qed.
End Gamma.

(** A constant with three plates that is given two values. *)
Example C61_ex_constant :
  constant_set_value (fun x => Ok [x]) [3] [[]] [Arr [3] (fun _ => 1%R)] (vec2 5 6) = ([vec2 5 6], Err ValueError) /\
  snd (constant_set_value (fun x => Ok [x]) [3] [[]] [Arr [3] (fun _ => 1%R)] (scalar 5%R)) = Ok tt.
Proof. split; reflexivity. Qed.
