(** Lemmas about exponential-family nodes: setting moments. *)
From Coq Require Import List Arith ZArith Lia Bool Reals FunctionalExtensionality.
From Verif Require Import Base Shapes SpecShapes ShapesLemmas NumPy MiscArray TensorLemmas
  SpecArray PlateSumLemmas PlateSum2Lemmas MessageLemmas ShapeOpsLemmas ExpFam SpecExpFam.
Import ListNotations.
Open Scope nat_scope.

Lemma Forall2_len : forall A B (P : A -> B -> Prop) l m, Forall2 P l m -> length l = length m.
Proof. intros A B P l m H. induction H; cbn; congruence. Qed.

Lemma bget_clip_out : forall A (a : arr A) S e, broadcasts_to (ash a) S -> bget a (clip S e) = bget a e.
Proof.
  intros A a S e [Hl H]. apply bget_ext. intros k Hk Hn. unfold clip.
  destruct (Nat.eqb_spec (ax S k) 1) as [E|E]; [|reflexivity]. destruct (H k); congruence.
Qed.

Lemma trailing_broadcasts : forall A (m : arr A) plates d,
  broadcasts_to (ash m) plates -> broadcasts_to (ash (add_trailing_axes m (length d))) (plates ++ d).
Proof.
  intros A m plates d [Hl H]. destruct (add_trailing_ok A m (length d)) as (H1 & H2 & _). split.
  - unfold ndim in H1. rewrite H1, app_length. lia.
  - intros k. rewrite H2, ax_app. destruct (k <? length d); auto.
Qed.

Lemma set_moment_ok : forall plates d mask cur new,
  moment_array plates d cur -> broadcasts_to (ash new) (plates ++ d) ->
  broadcasts_to (ash mask) plates ->
  exists y, set_moment (plates ++ d) (length d) mask cur new = Ok y /\ moment_array plates d y /\
    forall e, valid (plates ++ d) e ->
      bget y e = if bget mask (plate_of (length d) e) then bget new e else bget cur e.
Proof.
  intros plates d mask cur new (Hn & Hc & Hx) Hw Hm. unfold set_moment.
  pose proof (trailing_broadcasts _ mask plates d Hm) as Hu.
  destruct (add_trailing_ok _ mask (length d)) as (_ & _ & Hg).
  set (um := add_trailing_axes mask (length d)) in *.
  destruct (broadcast_exists_of_upper [ash cur; ash new; ash um] (plates ++ d)) as [sh Hsh].
  { intros a [<-|[<-|[<-|[]]]]; assumption. }
  rewrite Hsh. cbn [bind]. apply broadcasted_shape_ok in Hsh.
  assert (Bs : broadcasts_to sh (plates ++ d)).
  { apply (broadcast_least _ _ _ Hsh). intros a [<-|[<-|[<-|[]]]]; assumption. }
  assert (Bc : broadcasts_to (ash cur) sh) by (apply (broadcast_upper _ _ _ Hsh); now left).
  assert (Bw : broadcasts_to (ash new) sh) by (apply (broadcast_upper _ _ _ Hsh); right; now left).
  assert (Bu : broadcasts_to (ash um) sh) by (apply (broadcast_upper _ _ _ Hsh); right; right; now left).
  destruct (repeat_to_shape_ok _ cur sh Bc) as (c2 & -> & Es & Hg2). cbn [bind].
  unfold np_copyto. rewrite Es.
  rewrite (proj2 (is_shape_subset_spec _ _) Bw), (proj2 (is_shape_subset_spec _ _) Bu). cbn [bind andb].
  assert (Lsh : length sh = length (plates ++ d)).
  { destruct Bs as [L1 _], Bc as [L2 _]. rewrite app_length in *. lia. }
  unfold ndim. cbn [ash]. rewrite Lsh, Nat.ltb_irrefl.
  eexists. split; [reflexivity|]. split.
  - split; [cbn [ash]; rewrite Lsh, app_length; reflexivity|]. split; [exact Bs|].
    intros k Hk. cbn [ash]. destruct Bs as [_ Bs]. specialize (Bs k). destruct Bc as [_ Bc].
    specialize (Bc k). rewrite (Hx k Hk) in Bc. rewrite ax_app in Bs.
    destruct (Nat.ltb_spec k (length d)); [|lia]. destruct Bc as [Bc|Bc]; [|congruence].
    destruct Bs; congruence.
  - intros e He. unfold bget at 1. cbn [ash aget].
    assert (Hv : valid sh (clip sh e)) by (apply (valid_clip sh _ e Bs He)).
    rewrite (bget_clip_out _ um sh e Bu), Hg.
    change (fun j => e (j + length d)) with (plate_of (length d) e).
    destruct (bget mask (plate_of (length d) e)); [apply (bget_clip_out _ new sh e Bw)|].
    rewrite Hg2 by exact Hv. apply (bget_clip_out _ cur sh e Bc).
Qed.

Lemma firstn_skipn_ax : forall (s : shape) n k, k < length s - n -> ax (firstn (length s - n) s) k = ax s (k + n).
Proof.
  intros s n k H. pose proof (ax_get_plates n s k) as E. exact E.
Qed.

Lemma check_shape1_ok : forall plates d sh b, check_shape1 plates d sh b = true ->
  broadcasts_to sh (plates ++ d).
Proof.
  intros plates d sh b H. unfold check_shape1 in H. destruct b; cbn [negb] in H.
  - destruct (Nat.eqb_spec (length d) 0) as [E|E].
    + now apply is_shape_subset_spec.
    + apply andb_true_iff in H as [H1 H2]. apply is_shape_subset_spec in H1 as [L1 H1].
      destruct (list_eq_dec Nat.eq_dec (skipn (length sh - length d) sh) d) as [Ed|]; [|discriminate].
      assert (Ld : length d <= length sh).
      { rewrite <- Ed at 1. rewrite skipn_length. lia. }
      assert (Lf : length (firstn (length sh - length d) sh) = length sh - length d).
      { apply firstn_length_le. lia. }
      assert (Es : sh = firstn (length sh - length d) sh ++ d).
      { rewrite <- Ed at 2. rewrite Ed. symmetry. rewrite <- Ed at 2. apply firstn_skipn. }
      split; [rewrite app_length; lia|]. intros k. rewrite Es at 1 2. rewrite !ax_app.
      destruct (k <? length d); auto.
  - destruct (list_eq_dec Nat.eq_dec sh (plates ++ d)) as [->|]; [apply broadcasts_to_refl|discriminate].
Qed.

(** One moment array against the new one. *)
Definition mixed (plates d : shape) (mask : arr bool) (new cur y : arr R) : Prop :=
  forall e, valid (plates ++ d) e ->
    bget y e = if bget mask (plate_of (length d) e) then bget new e else bget cur e.

Inductive mixed_all (plates : shape) (mask : arr bool) :
  list shape -> list (arr R) -> list (arr R) -> list (arr R) -> Prop :=
| mixed_nil : mixed_all plates mask [] [] [] []
| mixed_cons : forall d dims w news c curs y ys, mixed plates d mask w c y ->
    mixed_all plates mask dims news curs ys ->
    mixed_all plates mask (d :: dims) (w :: news) (c :: curs) (y :: ys).

Lemma set_moments_loop_ok : forall plates mask dims us news,
  Forall2 (moment_array plates) dims us -> length news = length dims ->
  (forall p, In p (combine dims news) -> broadcasts_to (ash (snd p)) (plates ++ fst p)) ->
  broadcasts_to (ash mask) plates ->
  exists ys, set_moments_loop plates mask dims us news = Ok ys /\
    Forall2 (moment_array plates) dims ys /\ mixed_all plates mask dims news us ys.
Proof.
  intros plates mask dims us news H. revert news.
  induction H as [|d c dims us Hc Hr IH]; intros news L B M.
  - destruct news; [|discriminate]. exists []. cbn. repeat constructor.
  - destruct news as [|w news]; [discriminate|]. cbn [set_moments_loop].
    destruct (set_moment_ok plates d mask c w Hc (B (d, w) (or_introl eq_refl)) M) as (y & -> & Hy & Hg).
    cbn [bind]. destruct (IH news) as (ys & -> & H1 & H2).
    + cbn in L. lia.
    + intros p Hp. apply B. now right.
    + exact M.
    + cbn [bind]. exists (y :: ys). split; [reflexivity|]. split; constructor; auto.
Qed.

Lemma set_moments_ok : forall n u mask b, well_shaped n -> broadcasts_to (ash mask) (n_plates n) ->
  (exists ys, set_moments n u mask b = Ok (with_u n ys) /\ well_shaped (with_u n ys) /\
     mixed_all (n_plates n) mask (n_dims n) u (n_u n) ys) \/
  set_moments n u mask b = Err ValueError.
Proof.
  intros n u mask b [Hu Ho] Hm. unfold set_moments, check_shape.
  destruct (Nat.eqb_spec (length u) (length (n_dims n))) as [L|L]; cbn [negb]; [|now right].
  destruct (forallb _ _) eqn:F; [|now right]. rewrite forallb_forall in F. left. cbn [bind].
  destruct (set_moments_loop_ok (n_plates n) mask (n_dims n) (n_u n) u Hu L) as (ys & -> & H1 & H2).
  - intros p Hp. apply (check_shape1_ok _ _ _ b). now apply (F p).
  - exact Hm.
  - cbn [bind]. exists ys. split; [reflexivity|]. split; [constructor; assumption|exact H2].
Qed.

Lemma not_broadcasts : forall (o : arr bool) S, broadcasts_to (ash o) S -> broadcasts_to (ash (np_not o)) S.
Proof. auto. Qed.

Lemma bget_not : forall (o : arr bool) e, bget (np_not o) e = negb (bget o e).
Proof. intros o e. unfold np_not, np_map, bget. cbn. now rewrite clip_clip. Qed.

(** ** Moments of the observed plates *)

(** [y] agrees with [c] on the plates where [o] is true. *)
Definition agree (plates d : shape) (o : arr bool) (c y : arr R) : Prop :=
  forall e, valid (plates ++ d) e -> bget o (plate_of (length d) e) = true -> bget y e = bget c e.
Inductive agree_all (plates : shape) (o : arr bool) : list shape -> list (arr R) -> list (arr R) -> Prop :=
| agree_nil : agree_all plates o [] [] []
| agree_cons : forall d dims c cs y ys, agree plates d o c y -> agree_all plates o dims cs ys ->
    agree_all plates o (d :: dims) (c :: cs) (y :: ys).

Lemma agree_refl : forall plates o dims us, length us = length dims -> agree_all plates o dims us us.
Proof.
  intros plates o dims. induction dims as [|d dims IH]; intros [|u us] L; try discriminate; constructor.
  - intros e _ _. reflexivity.
  - apply IH. cbn in L. lia.
Qed.

Lemma agree_trans : forall plates o dims a b c, agree_all plates o dims a b ->
  agree_all plates o dims b c -> agree_all plates o dims a c.
Proof.
  intros plates o dims a b c H. revert c. induction H as [|d dims x xs y ys H1 H2 IH]; intros c H;
    inversion H; subst; constructor.
  - intros e He Ho. transitivity (bget y e); auto.
  - now apply IH.
Qed.

Lemma mixed_agree : forall plates o dims news us ys, mixed_all plates (np_not o) dims news us ys ->
  agree_all plates o dims us ys.
Proof.
  intros plates o dims news us ys H. induction H as [|d dims w news c curs y ys H1 H2 IH]; constructor; auto.
  intros e He Ho. rewrite H1, bget_not, Ho by exact He. reflexivity.
Qed.

(** What an operation other than observe keeps. *)
Record keeps (n n' : efnode) : Prop := KP {
  kp_plates : n_plates n' = n_plates n; kp_dims : n_dims n' = n_dims n;
  kp_obs : n_obs n' = n_obs n; kp_mask : n_mask n' = n_mask n; kp_f : n_f n' = n_f n;
  kp_ann : n_ann n' = n_ann n; kp_mult : n_mult n' = n_mult n; kp_bias : n_bias n' = n_bias n;
  kp_u : agree_all (n_plates n) (n_obs n) (n_dims n) (n_u n) (n_u n');
  kp_g : forall p, valid (n_plates n) p -> bget (n_obs n) p = true -> bget (n_g n') p = bget (n_g n) p }.

Lemma keeps_same_u : forall n n', well_shaped n -> n_plates n' = n_plates n -> n_dims n' = n_dims n ->
  n_obs n' = n_obs n -> n_mask n' = n_mask n -> n_f n' = n_f n -> n_ann n' = n_ann n ->
  n_mult n' = n_mult n -> n_bias n' = n_bias n -> n_u n' = n_u n -> n_g n' = n_g n -> keeps n n'.
Proof.
  intros n n' W E1 E2 E3 E4 E5 E6 E7 E8 E9 E10. constructor; auto.
  - rewrite E9. apply agree_refl. symmetry. apply (Forall2_len _ _ _ _ _ (ws_u n W)).
  - intros. now rewrite E10.
Qed.

Lemma keeps_refl : forall n, well_shaped n -> keeps n n.
Proof. intros n W. now apply keeps_same_u. Qed.

Lemma keeps_trans : forall a b c, keeps a b -> keeps b c -> keeps a c.
Proof.
  intros a b c [] []. constructor; try congruence.
  - rewrite kp_plates0, kp_obs0, kp_dims0 in kp_u1. eapply agree_trans; eauto.
  - intros p Hp Ho. rewrite kp_g1; [now apply kp_g0|now rewrite kp_plates0|now rewrite kp_obs0].
Qed.

Lemma np_where_ok : forall A (c : arr bool) (x y z : arr A), np_where c x y = Ok z ->
  numpy_broadcast [ash c; ash x; ash y] (ash z) /\
  forall e, bget z e = if bget c e then bget x e else bget y e.
Proof.
  intros A c x y z H. unfold np_where in H. rewrite np_bshape_eq in H.
  destruct (broadcasted_shape _) as [s|] eqn:E; [|discriminate]. cbn [bind] in H. injection H as <-.
  apply broadcasted_shape_ok in E. cbn [ash]. split; [exact E|]. intros e. unfold bget at 1. cbn [ash aget].
  rewrite !bget_clip_out; [reflexivity| | |]; apply (broadcast_upper _ _ _ E); cbn; auto.
Qed.

Lemma set_moments_and_cgf_keeps : forall n u g n', well_shaped n ->
  set_moments_and_cgf n u g (np_not (n_obs n)) = Ok n' -> well_shaped n' /\ keeps n n'.
Proof.
  intros n u g n' W H. unfold set_moments_and_cgf in H.
  destruct (set_moments_ok n u (np_not (n_obs n)) true W (ws_obs n W)) as [(ys & E & W1 & M)|E];
    rewrite E in H; cbn [bind] in H; [|discriminate].
  destruct (np_where (np_not (n_obs n)) g (n_g (with_u n ys))) as [g'|] eqn:G; [|discriminate].
  cbn [bind] in H. injection H as <-. destruct W1 as [W1 W2]. split; [constructor; assumption|].
  constructor; try reflexivity.
  - cbn. now apply (mixed_agree _ _ _ u).
  - intros p Hp Ho. apply np_where_ok in G as [_ G]. cbn. now rewrite G, bget_not, Ho.
Qed.

Section Dist.
Context {pm val : Type}.
Variable D : dist pm val.

Lemma update_moments_keeps : forall n n', well_shaped n -> update_moments_and_cgf D n = Ok n' ->
  well_shaped n' /\ keeps n n'.
Proof.
  intros n n' W H. unfold update_moments_and_cgf in H.
  destruct (d_moments D _ _) as [[u g]|]; [|discriminate]. cbn [bind] in H.
  now apply (set_moments_and_cgf_keeps n u g).
Qed.

Lemma finish_keeps : forall n r, well_shaped n -> (forall n', r = Ok n' -> well_shaped n' /\ keeps n n') ->
  well_shaped (fst (finish n r)) /\ keeps n (fst (finish n r)).
Proof.
  intros n [n'|e] W H; cbn; [now apply H|]. split; [exact W|now apply keeps_refl].
Qed.

Lemma with_phi_shaped : forall n p, well_shaped n -> well_shaped (with_phi n p).
Proof. intros n p []. now constructor. Qed.

Lemma with_phi_keeps : forall n p, well_shaped n -> keeps n (with_phi n p).
Proof. intros n p W. now apply keeps_same_u. Qed.

Lemma phi_then_moments : forall n p, well_shaped n ->
  let r := finish (with_phi n p) (update_moments_and_cgf D (with_phi n p)) in
  well_shaped (fst r) /\ keeps n (fst r).
Proof.
  intros n p W. cbn zeta. pose proof (with_phi_shaped n p W) as W1.
  destruct (finish_keeps (with_phi n p) _ W1 (fun n' => update_moments_keeps (with_phi n p) n' W1)) as [H1 H2].
  split; [exact H1|]. apply (keeps_trans _ _ _ (with_phi_keeps n p W) H2).
Qed.

Lemma run_eop_keeps : forall n o, well_shaped n ->
  well_shaped (fst (run_eop D n o)) /\ keeps n (fst (run_eop D n o)).
Proof.
  intros n o W. pose proof (keeps_refl n W) as KR.
  destruct o as [m u a|u|x big|x|m u s]; cbn [run_eop].
  - unfold update. destruct (np_all (n_obs n)); [split; assumption|]. unfold update_distribution.
    destruct (bind (phi_from_parents D n u) _) as [p|e]; [|split; assumption]. now apply phi_then_moments.
  - unfold initialize_from_parent_moments. destruct (np_all (n_obs n)); [split; assumption|].
    destruct (phi_from_parents D n u) as [p|e]; [|split; assumption]. now apply phi_then_moments.
  - unfold initialize_from_value. apply finish_keeps; [exact W|]. intros n' H.
    destruct (d_fixed_moments D x) as [u|]; [|discriminate]. cbn [bind] in H.
    now apply (set_moments_and_cgf_keeps n u (scalar big)).
  - unfold set_parameters. now apply phi_then_moments.
  - unfold gradient_step. destruct (bind (get_riemannian_gradient D n m u) _) as [p|e]; [|split; assumption].
    unfold set_parameters. now apply phi_then_moments.
Qed.

Lemma run_eops_keeps : forall l n, well_shaped n ->
  well_shaped (run_eops D n l) /\ keeps n (run_eops D n l).
Proof.
  induction l as [|o l IH]; intros n W; cbn [run_eops]; [split; [exact W|now apply keeps_refl]|].
  destruct (run_eop_keeps n o W) as [W1 K1]. destruct (IH _ W1) as [W2 K2].
  split; [exact W2|]. eapply keeps_trans; eauto.
Qed.

Lemma observe_ok : forall n cm x mask n', well_shaped n -> observe D n cm x mask = Ok n' ->
  well_shaped n' /\ n_obs n' = mask /\ n_plates n' = n_plates n /\ n_dims n' = n_dims n /\
  exists u f, d_fixed D x mask = Ok (u, f) /\
    mixed_all (n_plates n) mask (n_dims n) u (n_u n) (n_u n') /\
    forall p, bget (n_f n') p = if bget mask p then bget f p else bget (n_f n) p.
Proof.
  intros n cm x mask n' W H. unfold observe in H.
  destruct (d_fixed D x mask) as [[u f]|] eqn:F; [|discriminate]. cbn [bind] in H.
  destruct (set_moments n u mask false) as [n1|] eqn:S; [|discriminate]. cbn [bind] in H.
  destruct (np_where mask f (n_f n1)) as [f'|] eqn:Wf; [|discriminate]. cbn [bind] in H.
  cbn [n_obs with_observed with_f n_plates] in H.
  destruct (np_logical_or cm mask) as [m|] eqn:Mo; [|discriminate]. cbn [bind] in H.
  destruct (is_shape_subset (ash m) _) eqn:Sub; [|discriminate]. injection H as <-.
  assert (P1 : n_plates n1 = n_plates n /\ n_dims n1 = n_dims n /\ n_f n1 = n_f n).
  { unfold set_moments in S. destruct (check_shape n u false); [|discriminate]. cbn [bind] in S.
    destruct (set_moments_loop _ _ _ _ _); [|discriminate]. injection S as <-. auto. }
  destruct P1 as (P1 & P2 & P3). cbn [n_plates with_mask with_observed with_f] in Sub.
  apply is_shape_subset_spec in Sub. apply np_map2_ok in Mo as [Mo _].
  assert (Bm : broadcasts_to (ash mask) (n_plates n)).
  { rewrite <- P1. eapply broadcasts_to_trans; [|exact Sub]. apply (broadcast_upper _ _ _ Mo).
    right. now left. }
  destruct (set_moments_ok n u mask false W Bm) as [(ys & E & W1 & M)|E]; [|congruence].
  rewrite S in E. injection E as ->. destruct W1 as [W1 W2]. cbn in *.
  split; [constructor; assumption|]. split; [reflexivity|]. split; [reflexivity|]. split; [reflexivity|].
  exists u, f. split; [reflexivity|]. split; [exact M|]. apply np_where_ok in Wf as [_ Wf]. exact Wf.
Qed.
End Dist.
