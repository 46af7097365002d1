(** Theorems for C40: optimize and pattern_search and the lower bound. *)
From Coq Require Import List Arith Lia Bool Reals Lra.
From Verif Require Import Base Optimize.
Import ListNotations.
Open Scope R_scope.

(** [l] is not lower than [l0], up to the tolerance of the code. *)
Definition not_lower (l0 l : R) : Prop := l0 - (/ 100000000 + / 100000000 * Rabs l0) <= l.
(** A recorded bound and the one before it (if there is one). *)
Definition step_ok (prev : option (option R)) (new : option R) : Prop :=
  exists l, new = Some l /\ forall l0, prev = Some (Some l0) -> not_lower l0 l.
(** Bounds, the latest first, appended to [hist]. *)
Fixpoint steps_ok (new hist : list (option R)) : Prop :=
  match new with [] => True | l :: r => step_ok (hd_error (r ++ hist)) l /\ steps_ok r hist end.

Lemma accepted : forall prev l, bound_decreased prev l = false -> forall l0, prev = Some (Some l0) -> not_lower l0 l.
Proof.
  intros prev l H l0 ->. cbn in H. unfold ltb, allclose, leb in H. unfold not_lower.
  assert (A : 0 <= / 100000000 + / 100000000 * Rabs l0).
  { assert (0 < / 100000000) by lra. pose proof (Rabs_pos l0). nra. }
  destruct (Rlt_dec l l0); [|lra]. destruct (Rle_dec _ _) as [C|]; [|discriminate].
  pose proof (Rle_abs (- (l - l0))) as Q. rewrite Rabs_Ropp in Q. lra.
Qed.

Lemma search_ok : forall St P (O : ops St P) fuel prev p g2 c s s' r,
  search O fuel prev p g2 c s = Some (s', Ok r) -> step_ok prev (o_bound O s').
Proof.
  intros St P O. induction fuel as [|fuel IH]; intros prev p g2 c s s' r H; [discriminate|]. cbn [search] in H.
  destruct (o_set O _ s) as [s1 ok1]. destruct ok1; cbn [negb] in H; [|eapply IH; exact H].
  destruct (o_updc O s1) as [s2 ok2]. destruct ok2; cbn [negb] in H.
  - destruct (o_bound O s2) as [l|] eqn:B.
    + destruct (bound_decreased prev l) eqn:D.
      * destruct (o_setc O _ s2) as [s3 ok3]. destruct ok3; cbn [negb] in H; [|discriminate].
        destruct (c_isg2 c); [eapply IH; exact H|]. destruct (ltb _ _); eapply IH; exact H.
      * injection H as <- <-. exists l. split; [exact B|]. now apply accepted.
    + destruct (o_setc O _ s2) as [s3 ok3]. destruct ok3; cbn [negb] in H; [|discriminate].
      destruct (c_isg2 c); [eapply IH; exact H|]. destruct (ltb _ _); eapply IH; exact H.
  - destruct (o_setc O _ s2) as [s3 ok3]. destruct ok3; cbn [negb] in H; [eapply IH; exact H|discriminate].
Qed.

(** When optimize returns, every bound it recorded is a number and not lower than the bound
    recorded before it, up to the tolerance; and the nodes are in the state of the last one.
    Missing for the full claim: the first iteration of a VB object that has not run yet, the
    tolerance, and a recorded bound that is out of date (see the _refuted theorems). *)
Theorem C40_optimize_partial : forall St P (O : ops St P) maxiter fuel m riemannian converged hist s s' hist',
  optimize O maxiter fuel m riemannian converged hist s = Some (s', hist', Ok tt) ->
  exists new, hist' = new ++ hist /\ (length new <= maxiter)%nat /\ steps_ok new hist /\
    (new = [] -> s' = s) /\ (new <> [] -> hd_error new = Some (o_bound O s')).
Proof.
  intros St P O maxiter fuel m rm cv hist s s' hist'. unfold optimize. generalize (o_get O s), 0, 1, (@None P). revert hist s s' hist'.
  induction maxiter as [|n IH]; intros hist s s' hist' p dd scale c H.
  - cbn in H. injection H as <- <-. exists []. repeat split; [cbn; lia|congruence].
  - cbn [optimize_loop] in H. destruct (o_grad O s) as [rg g].
    match type of H with (let '(_, _) := ?e in _) = _ => destruct e as [g1 g2] end.
    assert (G : exists d isg2 dd', match search O fuel (hd_error hist) p g2 (Cg d isg2 scale dd') s with
          | None => None
          | Some (s', Err e) => Some (s', hist, Err e)
          | Some (s', Ok (p', c')) =>
              let hist' := o_bound O s' :: hist in
              if cv hist' then Some (s', hist', Ok tt)
              else optimize_loop O n fuel m rm cv p' (c_dd c') (c_scale c' * sqrt 2) (Some (c_s c')) hist' s'
          end = Some (s', hist', Ok tt)).
    { destruct m; [| |discriminate]; match type of H with (let '(_, _) := ?e in _) = _ => destruct e as [d i] end; eauto. }
    clear H. destruct G as (d & i & dd' & H).
    destruct (search O fuel (hd_error hist) p g2 _ s) as [[s1 [[p1 c1]|e]]|] eqn:E; [|discriminate|discriminate].
    apply search_ok in E. cbn zeta in H. destruct (cv (o_bound O s1 :: hist)) eqn:V.
    + injection H as <- <-. exists [o_bound O s1]. split; [reflexivity|]. split; [cbn; lia|]. split; [split; [exact E|exact I]|]. split; [discriminate|reflexivity].
    + destruct (IH _ _ _ _ _ _ _ _ H) as (new & N1 & N2 & N3 & N4 & N5). exists (new ++ [o_bound O s1]).
      split; [rewrite <- app_assoc; exact N1|]. split; [rewrite app_length; cbn; lia|]. split.
      { clear -N3 E. induction new as [|l new IHn]; [split; [exact E|exact I]|]. cbn [app steps_ok] in *. destruct N3 as [N N']. split; [|now apply IHn].
        rewrite <- app_assoc. exact N. }
      split; [intros C; now apply app_eq_nil in C as [_ C]|]. intros _. destruct new as [|l new]; [rewrite (N4 eq_refl); reflexivity|]. exact (N5 ltac:(discriminate)).
Qed.

(** With the gradient method every iteration moves the parameters from where they are along the
    gradient at that point, by a positive step. *)
Inductive ascent {St P} (O : ops St P) (riemannian : bool) : nat -> St -> St -> Prop :=
| ascent_0 : forall s, ascent O riemannian 0 s s
| ascent_S : forall n s s1 s' k, 0 < k ->
    o_get O s1 = o_add O (o_get O s) ((if riemannian then fst else snd) (o_grad O s)) k ->
    ascent O riemannian n s1 s' -> ascent O riemannian (S n) s s'.
Lemma search_moves : forall St P (O : ops St P),
  (forall p s s1, o_set O p s = (s1, true) -> o_get O s1 = p) ->
  (forall s s1, o_updc O s = (s1, true) -> o_get O s1 = o_get O s) ->
  forall fuel prev p g2 k dd s s' p' c', 0 < k ->
  search O fuel prev p g2 (Cg g2 true k dd) s = Some (s', Ok (p', c')) ->
  o_get O s' = p' /\ exists k', 0 < k' /\ p' = o_add O p g2 k' /\ 0 < c_scale c' /\ c_s c' = g2.
Proof.
  intros St P O HS HU. induction fuel as [|fuel IH]; intros prev p g2 k dd s s' p' c' K H; [discriminate|]. cbn [search c_s c_scale] in H.
  assert (K2 : 0 < k / 2) by lra.
  destruct (o_set O _ s) as [s1 ok1] eqn:E1. destruct ok1; cbn [negb] in H; [|eapply IH; [exact K2|exact H]].
  destruct (o_updc O s1) as [s2 ok2] eqn:E2. destruct ok2; cbn [negb] in H.
  - destruct (match o_bound O s2 with None => true | Some l => bound_decreased prev l end).
    + destruct (o_setc O _ s2) as [s3 ok3]. destruct ok3; cbn [negb] in H; [|discriminate]. eapply IH; [exact K2|exact H].
    + injection H as <- <- <-. split; [rewrite (HU _ _ E2); exact (HS _ _ _ E1)|]. exists k. repeat split; assumption.
  - destruct (o_setc O _ s2) as [s3 ok3]. destruct ok3; cbn [negb] in H; [eapply IH; [exact K2|exact H]|discriminate].
Qed.
Theorem C40_gradient_path : forall St P (O : ops St P) maxiter fuel riemannian converged hist s s' hist',
  (* set_parameters sets what get_parameters returns, and updating the collapsed nodes keeps it *)
  (forall p s s1, o_set O p s = (s1, true) -> o_get O s1 = p) ->
  (forall s s1, o_updc O s = (s1, true) -> o_get O s1 = o_get O s) ->
  optimize O maxiter fuel Gradient riemannian converged hist s = Some (s', hist', Ok tt) ->
  exists n, length hist' = (n + length hist)%nat /\ ascent O riemannian n s s'.
Proof.
  intros St P O maxiter fuel rm cv hist s s' hist' HS HU. unfold optimize. assert (K : 0 < 1) by lra. revert K. generalize 0 at 2, 1 at 1 2, (@None P).
  revert hist s s' hist'.
  induction maxiter as [|n IH]; intros hist s s' hist' dd scale c K H.
  - cbn in H. injection H as <- <-. exists 0%nat. split; [reflexivity|constructor].
  - cbn [optimize_loop] in H. destruct (o_grad O s) as [rg g] eqn:EG.
    match type of H with (let '(_, _) := ?e in _) = _ => replace e with ((if rm then rg else g), (if rm then rg else g)) in H by (destruct rm; reflexivity) end.
    destruct (Req_EM_T 0 0) as [_|N]; [|contradiction].
    destruct (search O fuel (hd_error hist) (o_get O s) _ _ s) as [[s1 [[p1 c1]|e]]|] eqn:E; [|discriminate|discriminate].
    destruct (search_moves _ _ O HS HU _ _ _ _ _ _ _ _ _ _ K E) as (G & k & Hk & Ep & Hc & _). subst p1. cbn zeta in H.
    assert (ST : o_get O s1 = o_add O (o_get O s) ((if rm then fst else snd) (o_grad O s)) k) by (rewrite Ep, EG; now destruct rm).
    destruct (cv (o_bound O s1 :: hist)).
    + injection H as <- <-. exists 1%nat. split; [reflexivity|]. exact (ascent_S O rm _ _ _ _ k Hk ST (ascent_0 O rm _)).
    + destruct (IH _ _ _ _ _ _ _ (Rmult_lt_0_compat _ _ Hc (sqrt_lt_R0 2 ltac:(lra))) H) as (m & L & A).
      exists (S m). split; [rewrite L; cbn [length]; lia|]. exact (ascent_S O rm _ _ _ _ k Hk ST A).
Qed.

(** One real parameter x with bound -x^2, Euclidian gradient -2x and Riemannian gradient -c x:
    an ascent direction. *)
Definition parabola (c : R) : ops R R :=
  Ops R R (fun x => x) (fun p _ => (p, true)) (fun x => (- c * x, - 2 * x)) (fun _ => 0) (fun _ s => (s, true)) (fun s => (s, true))
      (fun s => (s, true)) (fun x => Some (- (x * x))) Rmult (fun a b k => a + k * b).

Lemma parabola_step : forall c hist, bound_decreased (hd_error hist) (- ((1 - c) * (1 - c))) = false ->
  optimize (parabola c) 1 1 Gradient true (fun _ => false) hist 1 = Some (1 - c, Some (- ((1 - c) * (1 - c))) :: hist, Ok tt).
Proof.
  intros c hist H. unfold optimize. cbn [optimize_loop o_grad parabola o_get]. destruct (Req_EM_T 0 0) as [_|N]; [|contradiction].
  cbn [search o_set o_add o_getc o_updc o_bound parabola negb c_s c_scale].
  replace (1 + 1 * (- c * 1)) with (1 - c) by ring. rewrite H. reflexivity.
Qed.

Example C40_optimize_case :
  optimize (parabola (3 / 2)) 1 1 Gradient true (fun _ => false) [Some (-1)] 1 =
  Some (1 - 3 / 2, [Some (- ((1 - 3 / 2) * (1 - 3 / 2))); Some (-1)], Ok tt).
Proof. apply parabola_step. cbn. unfold ltb. destruct (Rlt_dec _ _); [lra|reflexivity]. Qed.

Example C40_gradient_path_case :
  (forall p s s1, o_set (parabola (3 / 2)) p s = (s1, true) -> o_get (parabola (3 / 2)) s1 = p) /\
  (forall s s1, o_updc (parabola (3 / 2)) s = (s1, true) -> o_get (parabola (3 / 2)) s1 = o_get (parabola (3 / 2)) s) /\
  ascent (parabola (3 / 2)) true 1 1 (1 - 3 / 2).
Proof.
  split; [|split]; [intros p s s1 H; cbn in *; congruence|intros s s1 H; cbn in *; congruence|].
  apply (ascent_S (parabola (3 / 2)) true 0 1 (1 - 3 / 2) (1 - 3 / 2) 1); [lra|cbn; lra|constructor].
Qed.

(** The first iteration is never checked: the bound can fall by any amount. *)
Theorem C40_optimize_first_step_refuted : forall D, 0 < D ->
  exists St P (O : ops St P) (s s' : St) hist' l l',
    optimize O 1 1 Gradient true (fun _ => false) [] s = Some (s', hist', Ok tt) /\
    o_bound O s = Some l /\ o_bound O s' = Some l' /\ l' < l - D.
Proof.
  intros D HD. exists R, R, (parabola (D + 2)), 1, (1 - (D + 2)). do 3 eexists. split; [apply parabola_step; reflexivity|].
  split; [reflexivity|]. split; [reflexivity|]. nra.
Qed.

(** A small decrease is accepted although the recorded bound is up to date. *)
Theorem C40_optimize_tolerance_refuted :
  exists St P (O : ops St P) (s s' : St) hist' l l',
    o_bound O s = Some l /\ o_bound O s' = Some l' /\
    optimize O 1 1 Gradient true (fun _ => false) [o_bound O s] s = Some (s', hist', Ok tt) /\ l' < l.
Proof.
  set (e := / 1000000000). assert (E : 0 < e <= / 1000000000) by (unfold e; lra). clearbody e. assert (E2 : 0 <= e * e <= e) by (split; nra).
  exists R, R, (parabola (2 + e)), 1, (1 - (2 + e)). do 3 eexists. split; [reflexivity|]. split; [reflexivity|]. split.
  - apply parabola_step. cbn. unfold ltb, allclose, leb.
    destruct (Rle_dec _ _) as [_|N]; [now rewrite andb_false_r|]. exfalso. apply N. clear N.
    replace (- (1 * 1)) with (-1) by ring. rewrite (Rabs_left (-1)) by lra.
    unfold Rabs. replace (- ((1 - (2 + e)) * (1 - (2 + e))) - -1) with (- (2 * e) - e * e) by ring. destruct (Rcase_abs _); lra.
  - nra.
Qed.

(** The comparison is with the last recorded bound, not with the bound at the call: after
    other changes to the nodes the bound can fall by any amount. *)
Theorem C40_optimize_stale_refuted : forall D, 0 < D ->
  exists St P (O : ops St P) (s s' : St) lrec hist' l l',
    optimize O 1 1 Gradient true (fun _ => false) [Some lrec] s = Some (s', hist', Ok tt) /\
    o_bound O s = Some l /\ o_bound O s' = Some l' /\ l' < l - D.
Proof.
  intros D HD. exists R, R, (parabola (D + 2)), 1, (1 - (D + 2)), (- ((1 - (D + 2)) * (1 - (D + 2))) - 1). do 3 eexists. split.
  - apply parabola_step. cbn. unfold ltb. destruct (Rlt_dec _ _); [lra|reflexivity].
  - split; [reflexivity|]. split; [reflexivity|]. nra.
Qed.

(** If the parameters cannot be set, optimize never returns (it halves the step for ever). *)
Theorem C40_optimize_hangs : forall St P (O : ops St P) n fuel riemannian converged hist s,
  (forall p s, snd (o_set O p s) = false) ->
  optimize O (S n) fuel FletcherReeves riemannian converged hist s = None.
Proof.
  intros St P O n fuel rm cv hist s H.
  assert (A : forall fuel prev p g2 c s, search O fuel prev p g2 c s = None).
  { clear -H. induction fuel as [|fuel IH]; intros; [reflexivity|]. cbn [search].
    pose proof (H (o_add O p (c_s c) (c_scale c)) s) as Q. destruct (o_set O _ s) as [s1 ok]. cbn in Q. subst ok. cbn [negb]. apply IH. }
  unfold optimize. cbn [optimize_loop]. destruct (o_grad O s) as [rg g]. destruct rm; cbn beta iota; destruct (Req_EM_T 0 0) as [_|N]; try contradiction;
    destruct (Req_EM_T 0 0) as [_|N]; try contradiction; now rewrite A.
Qed.

(** Pattern search.  Updates never lower the bound; the bound after updating the collapsed
    nodes is a function [B] of the other parameters; the minimiser returns a point that is not
    worse than 0.  Then the bound is not lower than before the call. *)
Theorem C40_pattern_search_partial : forall St P (O : ops St P) (B : P -> R) (good : St -> Prop) t s s',
  (forall a b, o_add O a b 0 = a) ->
  (forall s, good s -> exists l, o_bound O s = Some l) ->
  (forall s s1, good s -> o_upd O s = (s1, true) -> good s1 /\
     forall l l1, o_bound O s = Some l -> o_bound O s1 = Some l1 -> l <= l1) ->
  (forall s s1, good s -> o_updc O s = (s1, true) -> good s1 /\ o_get O s1 = o_get O s /\ o_bound O s1 = Some (B (o_get O s)) /\
     forall l, o_bound O s = Some l -> l <= B (o_get O s)) ->
  (forall p s, good s -> good (fst (o_set O p s)) /\ (snd (o_set O p s) = true -> o_get O (fst (o_set O p s)) = p)) ->
  (forall s, good s -> snd (o_updc O s) = true) ->
  (* the contract of minimize_scalar, for a cost that is a function *)
  (forall p1 dp s1 s2 x, good s1 -> minimize O t p1 dp s1 = (s2, Ok x) -> B (o_add O p1 dp 0) <= B (o_add O p1 dp x)) ->
  good s -> pattern_search O t s = (s', Ok tt) ->
  exists l l', o_bound O s = Some l /\ o_bound O s' = Some l' /\ l <= l'.
Proof.
  intros St P O B good t s s' A0 GB U C ST CT MIN Gs H. unfold pattern_search in H.
  destruct (o_upd O s) as [s1 k1] eqn:E1. destruct k1; [|discriminate]. cbn [negb] in H. destruct (U s s1 Gs E1) as [G1 U1].
  destruct (o_updc O s1) as [s2 k2] eqn:E2. destruct k2; [|discriminate]. cbn [negb] in H. destruct (C s1 s2 G1 E2) as (G2 & _ & B2 & M2).
  destruct (o_upd O s2) as [s3 k3] eqn:E3. destruct k3; [|discriminate]. cbn [negb] in H. destruct (U s2 s3 G2 E3) as [G3 U3].
  set (p1 := o_get O s3) in *. set (dp := o_add O p1 (o_get O s2) (-1)) in *.
  destruct (minimize O t p1 dp s3) as [s4 [x|e]] eqn:E4; [|discriminate].
  assert (GM : forall t q1 q2 a b y, good a -> minimize O t q1 q2 a = (b, Ok y) -> good b).
  { clear -ST C. induction t as [al k IH|y0]; intros q1 q2 a b y Ga E.
    - cbn [minimize] in E. unfold cost in E. destruct (ST (o_add O q1 q2 al) a Ga) as [Gs _]. destruct (o_set O _ a) as [sa ka]. cbn [fst snd] in *. destruct ka; cbn [negb] in E.
      + destruct (o_updc O sa) as [sb kb] eqn:Eb. destruct kb; cbn [negb] in E; [|discriminate]. eapply IH; [|exact E]. now apply (C sa sb).
      + eapply IH; [|exact E]. exact Gs.
    - cbn in E. injection E as <- <-. exact Ga. }
  pose proof (GM t p1 dp s3 s4 x G3 E4) as G4. clear GM.
  pose proof (MIN p1 dp s3 s4 x G3 E4) as MX. rewrite A0 in MX.
  destruct (ST (o_add O p1 dp x) s4 G4) as [G5 Q5]. destruct (o_set O _ s4) as [s5 k5]. cbn [fst snd] in *. destruct k5; [|discriminate]. cbn [negb] in H.
  specialize (Q5 eq_refl). destruct (o_updc O s5) as [s6 k6] eqn:E6. destruct k6; [|discriminate]. cbn [negb] in H. injection H as <-.
  destruct (C s5 s6 G5 E6) as (G6 & _ & B6 & _).
  destruct (GB s Gs) as [l L]. destruct (GB s1 G1) as [l1 L1]. destruct (GB s3 G3) as [l3 L3].
  exists l, (B (o_get O s5)). split; [exact L|]. split; [exact B6|]. rewrite Q5.
  (* B p1 is the bound after updating the collapsed nodes from s3 *)
  assert (X3 : l3 <= B p1).
  { pose proof (CT s3 G3) as K3. destruct (o_updc O s3) as [s3' k3'] eqn:E3'. cbn in K3. subst k3'. destruct (C s3 s3' G3 E3') as (_ & _ & _ & M3). now apply M3. }
  pose proof (U1 l l1 L L1). pose proof (M2 l1 L1). pose proof (U3 _ l3 B2 L3). lra.
Qed.

(** A case that meets these hypotheses: maximise -(x - c)^2 - x^2 over x, with c collapsed; the
    minimiser asks for the cost at 0 and 1 and returns the better one. *)
Definition ridge : ops (R * R) R :=
  Ops (R * R) R fst (fun p s => ((p, snd s), true)) (fun s => (0, 0)) snd (fun c s => ((fst s, c), true)) (fun s => ((fst s, fst s), true))
      (fun s => ((snd s / 2, snd s), true)) (fun s => Some (- ((fst s - snd s) * (fst s - snd s)) - fst s * fst s)) Rmult (fun a b k => a + k * b).
Definition two_points (q : R) : strategy :=
  Ask 0 (fun a => Ask q (fun b => match a, b with
                                  | Some a, Some b => if Rlt_dec b a then Answer q else Answer 0
                                  | _, _ => Answer 0 end)).
Example C40_pattern_search_case : exists s' l l',
  pattern_search ridge (two_points 1) (4, 8) = (s', Ok tt) /\ o_bound ridge (4, 8) = Some l /\ o_bound ridge s' = Some l' /\ l <= l'.
Proof.
  assert (H : exists s', pattern_search ridge (two_points 1) (4, 8) = (s', Ok tt)).
  { unfold pattern_search, two_points. cbn [o_upd o_updc ridge negb minimize cost o_set o_add o_get o_bound option_map fst snd].
    destruct (Rlt_dec _ _) as [_|N]; [|exfalso; apply N; lra]. eexists. reflexivity. }
  destruct H as [s' H]. exists s'.
  destruct (C40_pattern_search_partial _ _ ridge (fun p => - (p * p)) (fun _ => True) (two_points 1) (4, 8) s') as (l & l' & H1 & H2 & H3).
  - intros a b. cbn. ring.
  - intros s _. eexists. reflexivity.
  - intros [x c] s1 _ E. cbn in E. injection E as <-. split; [exact I|]. cbn. intros l l1 E1 E2. injection E1 as <-. injection E2 as <-.
    pose proof (Rle_0_sqr (x - c / 2)) as Q. unfold Rsqr in Q. lra.
  - intros [x c] s1 _ E. cbn in E. injection E as <-. split; [exact I|]. cbn. split; [reflexivity|]. split; [f_equal; ring|]. intros l E1. injection E1 as <-.
    pose proof (Rle_0_sqr (x - c)) as Q. unfold Rsqr in Q. lra.
  - intros p [x c] _. cbn. auto.
  - intros [x c] _. reflexivity.
  - intros p1 dp [x c] s2 y _ E. unfold two_points in E. cbn [minimize cost ridge o_set o_add o_updc o_bound option_map negb fst snd] in E.
    cbn. destruct (Rlt_dec _ _) as [C|C]; cbn in E; injection E as _ <-; [|lra]. lra.
  - exact I.
  - exact H.
  - exists l, l'. auto.
Qed.

(** When updating the collapsed nodes once does not bring them to their optimum (say, two
    nodes that depend on each other), the cost depends on what was asked before: the minimiser
    returns the best point it saw, every update improves the bound, and still the bound can
    fall by any amount. *)
Definition slow : ops (R * R) R :=
  Ops (R * R) R fst (fun p s => ((p, snd s), true)) (fun s => (0, 0)) snd (fun c s => ((fst s, c), true)) (fun s => ((fst s, (fst s + snd s) / 2), true))
      (fun s => ((snd s / 2, snd s), true)) (fun s => Some (- ((fst s - snd s) * (fst s - snd s)) - fst s * fst s)) Rmult (fun a b k => a + k * b).
Theorem C40_pattern_search_refuted : forall D, 0 < D ->
  (* every update improves the bound *)
  (forall s l, o_bound slow s = Some l ->
     (exists s1 l1, o_upd slow s = (s1, true) /\ o_bound slow s1 = Some l1 /\ l <= l1) /\
     (exists s1 l1, o_updc slow s = (s1, true) /\ o_bound slow s1 = Some l1 /\ l <= l1)) /\
  exists q s l l' s', 
    (* of the costs at 0 and q that it is told, the minimiser picks the smaller one *)
    pattern_search slow (two_points q) s = (s', Ok tt) /\ o_bound slow s = Some l /\ o_bound slow s' = Some l' /\ l' < l - D.
Proof.
  intros D HD. split.
  - intros [x c] l E. cbn in E. injection E as <-. split; do 2 eexists; (split; [reflexivity|]); (split; [reflexivity|]); cbn.
    + pose proof (Rle_0_sqr (x - c / 2)) as Q. unfold Rsqr in Q. lra.
    + pose proof (Rle_0_sqr (x - c)) as Q. unfold Rsqr in Q. lra.
  - (* start at (4, 8): x = 4, c = 6, p0 = 4; x = 3, p1 = 3, dp = -1; cost at 0 is 9 + 1.5^2 ... *)
    exists (- (D + 100)), (4, 8).
    assert (H : exists s', pattern_search slow (two_points (- (D + 100))) (4, 8) = (s', Ok tt) /\ exists l', o_bound slow s' = Some l' /\ l' < - 32 - D).
    { unfold pattern_search, two_points. cbn [o_upd o_updc slow negb minimize cost o_set o_add o_get o_bound option_map fst snd].
      match goal with |- context[Rlt_dec ?a ?b] => destruct (Rlt_dec a b) as [C|C] end; [exfalso; nra|]. cbn [minimize fst snd negb].
      eexists. split; [reflexivity|]. eexists. split; [reflexivity|]. cbn [fst snd]. nra. }
    destruct H as (s' & E & l' & B & Q). do 3 eexists. split; [exact E|]. split; [reflexivity|]. split; [exact B|]. cbn. lra.
Qed.

Print Assumptions C40_optimize_partial.
Print Assumptions C40_gradient_path.
Print Assumptions C40_optimize_first_step_refuted.
Print Assumptions C40_optimize_tolerance_refuted.
Print Assumptions C40_optimize_stale_refuted.
Print Assumptions C40_optimize_hangs.
Print Assumptions C40_pattern_search_partial.
Print Assumptions C40_pattern_search_refuted.
