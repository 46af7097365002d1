(** Property C62: a plain array in the place of a parent. *)
From Coq Require Import List Arith ZArith Lia Bool Reals Lra.
From Verif Require Import Base Shapes SpecShapes ShapesLemmas NumPy MiscArray TensorLemmas
  SpecArray PlateSumLemmas PlateSum2Lemmas MessageLemmas ShapeOpsLemmas ExpFam SpecExpFam ExpFamLemmas ExpFamBound
  Families AddNode SpecDot Gate PGate LinalgLemmas2 ConstNode SpecConstNode.
Import ListNotations.
Open Scope nat_scope.

Lemma variable_exact : forall P d a, ash a = P ++ d -> variable_of P d a.
Proof.
  intros P d a E. unfold variable_of, ndim. rewrite E, app_length. split; [lia|]. split; [|apply broadcasts_to_refl].
  intros i Hi. rewrite ax_app. apply Nat.ltb_lt in Hi. now rewrite Hi.
Qed.

Lemma variable_scalar : forall P a, broadcasts_to (ash a) P -> variable_of P [] a.
Proof. intros P a H. unfold variable_of. rewrite app_nil_r. split; [cbn; lia|]. split; [intros i Hi; cbn in Hi; lia|exact H]. Qed.

Lemma constant_ok : forall P d dims u0 u, ash u0 = P ++ d -> Forall2 (variable_of P) dims u ->
  exists c, constant (map PI d :: map (map PI) dims) (u0 :: u) = Ok c /\ proper c P (d :: dims) /\ c_u c = u0 :: u.
Proof.
  intros P d dims u0 u E F. unfold constant. eexists. split; [reflexivity|]. split; [|reflexivity].
  split; [|split; [reflexivity|constructor; [now apply variable_exact|exact F]]]. cbn [c_plates].
  rewrite map_length. unfold ndim. rewrite E, app_length, Nat.add_sub, firstn_app, Nat.sub_diag, firstn_all.
  cbn [firstn]. rewrite app_nil_r. destruct d; cbn; [now rewrite app_nil_r|reflexivity].
Qed.

Lemma constant1 : forall P d u0, ash u0 = P ++ d ->
  exists c, constant [map PI d] [u0] = Ok c /\ proper c P [d].
Proof.
  intros P d u0 E. destruct (constant_ok P d [] u0 [] E (Forall2_nil _)) as (c & H1 & H2 & _). exists c. now split.
Qed.
Lemma constant2 : forall P d d1 u0 u1, ash u0 = P ++ d -> variable_of P d1 u1 ->
  exists c, constant [map PI d; map PI d1] [u0; u1] = Ok c /\ proper c P [d; d1].
Proof.
  intros P d d1 u0 u1 E V. destruct (constant_ok P d [d1] u0 [u1] E) as (c & H1 & H2 & _); [now constructor|]. exists c. now split.
Qed.

Lemma last_axes_app : forall P s, last_axes (length s) (P ++ s) = s.
Proof. intros P s. unfold last_axes. rewrite app_length, Nat.add_sub, skipn_app, skipn_all, Nat.sub_diag. reflexivity. Qed.

Lemma any_spec : forall p x, np_any p x = false <-> everywhere (fun v => p v = false) x.
Proof.
  intros p x. unfold np_any, everywhere. rewrite negb_false_iff, np_all_spec. cbn [ash np_map]. split; intros H e He; specialize (H e He).
  - unfold bget at 1 in H. cbn [ash np_map aget] in H. rewrite bget_clip in H. now apply negb_true_iff in H.
  - unfold bget at 1. cbn [ash np_map aget]. rewrite bget_clip. now apply negb_true_iff.
Qed.


Lemma everywhere_iff : forall P Q x, (forall v, P v <-> Q v) -> everywhere P x <-> everywhere Q x.
Proof. intros P Q x H. unfold everywhere. split; intros E e He; apply H; auto. Qed.
Lemma ltb_false : forall a b, ltb a b = false <-> (b <= a)%R.
Proof. intros a b. unfold ltb. destruct (Rlt_dec a b); split; intros; try discriminate; try reflexivity; lra. Qed.
Lemma leb_false : forall a b, leb a b = false <-> (b < a)%R.
Proof. intros a b. unfold leb. destruct (Rle_dec a b); split; intros; try discriminate; try reflexivity; lra. Qed.

Lemma any_ltb : forall x a, np_any (fun v => ltb v a) x = false <-> everywhere (fun v => (a <= v)%R) x.
Proof. intros x a. rewrite any_spec. apply everywhere_iff. intros v. apply ltb_false. Qed.
Lemma any_gtb : forall x a, np_any (fun v => ltb a v) x = false <-> everywhere (fun v => (v <= a)%R) x.
Proof. intros x a. rewrite any_spec. apply everywhere_iff. intros v. apply ltb_false. Qed.
Lemma any_leb : forall x a, np_any (fun v => leb v a) x = false <-> everywhere (fun v => (a < v)%R) x.
Proof. intros x a. rewrite any_spec. apply everywhere_iff. intros v. apply leb_false. Qed.
Lemma any_geb : forall x a, np_any (fun v => leb a v) x = false <-> everywhere (fun v => (v < a)%R) x.
Proof. intros x a. rewrite any_spec. apply everywhere_iff. intros v. apply leb_false. Qed.

Lemma scalars_ok : forall x y, ash y = ash x ->
  exists c, constant [[]; []] [x; y] = Ok c /\ proper c (ash x) [[]; []].
Proof.
  intros x y E. destruct (constant_ok (ash x) [] [[]] x [y]) as (c & H1 & H2 & _).
  - now rewrite app_nil_r.
  - constructor; [|constructor]. apply variable_scalar. rewrite E. apply broadcasts_to_refl.
  - now exists c.
Qed.

Section Special.
Variable gammaln : R -> R.
Variable multigammaln : R -> nat -> R.
Variable logdet : nat -> arr R -> res (arr R).
Let ens := ensure_moments gammaln multigammaln logdet.

(** Scalar parents: every axis of the value is a plate. *)
Theorem C62_scalars : forall x i,
  accepts (ens Gamma_ NoKw (Array x i)) (everywhere (fun v => (0 <= v)%R) x) (ash x) [[]; []] /\
  accepts (ens GammaPrior_ NoKw (Array x i)) (everywhere (fun v => (0 < v)%R) x) (ash x) [[]; []] /\
  accepts (ens Poisson_ NoKw (Array x i)) (i = true) (ash x) [[]] /\
  (forall d, accepts (ens WishartPrior_ (KwD d) (Array x i)) True (ash x) [[]; []]).
Proof.
  intros x i. unfold ens, accepts. cbn [ensure_moments]. split; [|split; [|split]].
  - unfold gamma_constant. rewrite <- any_ltb. destruct (np_any _ x); split; try congruence; intros _.
    now apply scalars_ok.
  - unfold gamma_prior_constant. rewrite <- any_leb. destruct (np_any _ x); split; try congruence; intros _.
    now apply scalars_ok.
  - unfold poisson_constant. destruct i; cbn [negb]; split; try congruence; intros _.
    destruct (constant_ok (ash x) [] [] x []) as (c & H1 & H2 & _); [now rewrite app_nil_r|constructor|]. now exists c.
  - intros d. split; [|tauto]. intros _. now apply scalars_ok.
Qed.

(** Categories: the constant has one-hot vectors of length K. *)
Theorem C62_categorical : forall K x i,
  accepts (ens Categorical_ (KwCategories K) (Array x i))
          (i = true /\ everywhere (fun v => (0 <= v < INR K)%R) x) (ash x) [[K]].
Proof.
  intros K x i. unfold ens, accepts. cbn [ensure_moments]. unfold categorical_constant.
  assert (A : everywhere (fun v => (0 <= v < INR K)%R) x <->
    np_any (fun v => ltb v 0) x || np_any (fun v => leb (INR K) v) x = false).
  { rewrite orb_false_iff, any_ltb, any_geb. unfold everywhere. split; [intros H; split; intros e He; now apply H|].
    intros [H1 H2] e He. split; auto. }
  rewrite A. destruct i; cbn [negb]; [|split; [intros [? _]; discriminate|reflexivity]].
  destruct (_ || _); split; try (intros [_ ?]; discriminate); try reflexivity.
  - intros _. now apply (constant1 (ash x) [K]).
  - intros H. exfalso. now apply H.
Qed.

(** Probability vectors and concentrations: the last axis is the vector. *)
Lemma row_sum_at : forall P K (p : arr R) e, ash p = P ++ [K] ->
  row_sum p (fun k => e (k - 1)) = rsum K (fun k => bget p (fun j => match j with 0 => k | S j' => e j' end)).
Proof.
  intros P K p e E. unfold row_sum. rewrite E, ax_app. cbn [length Nat.ltb Nat.leb].
  replace (ax [K] 0) with K by reflexivity. apply rsum_ext. intros k _. f_equal.
  unfold upd. apply FunctionalExtensionality.functional_extensionality. intros [|j]; cbn; [reflexivity|]. now rewrite Nat.sub_0_r.
Qed.

Lemma rows_spec : forall P K p, ash p = P ++ [K] ->
  np_all (Arr (removelast (ash p)) (fun e => allclose (row_sum p (fun k => e (k - 1))) 1)) = true <->
  rows_sum_to_one P K p.
Proof.
  intros P K p E. rewrite np_all_spec, E, removelast_last. cbn [ash]. unfold rows_sum_to_one.
  assert (C : forall e, valid P e ->
    (bget (Arr P (fun e => allclose (row_sum p (fun k => e (k - 1))) 1)) e = true <->
     (Rabs (rsum K (fun k => bget p (fun j => match j with 0 => k | S j' => e j' end)) - 1) <= / 100000000 + / 100000)%R)).
  { intros e He. unfold bget at 1. cbn [ash aget]. rewrite (clip_valid_id P e He).
    rewrite (row_sum_at P K p e E). unfold allclose. rewrite Rabs_R1, Rmult_1_r. destruct (Rle_dec _ _); split; congruence || tauto. }
  split; intros H e He; apply C; auto.
Qed.

Lemma dirichlet_of : forall P K p, ash p = P ++ [K] ->
  let ok := everywhere (fun v => (0 <= v <= 1)%R) p /\ rows_sum_to_one P K p in
  (ok -> exists u, dirichlet_moments_of p = Ok [u] /\ ash u = P ++ [K]) /\
  (~ ok -> dirichlet_moments_of p = Err ValueError).
Proof.
  intros P K p E ok. unfold dirichlet_moments_of.
  assert (N : ndim p <? 1 = false) by (apply Nat.ltb_ge; unfold ndim; rewrite E, app_length; cbn; lia). rewrite N.
  assert (A : everywhere (fun v => (0 <= v <= 1)%R) p <->
    np_any (fun v => ltb v 0) p || np_any (fun v => ltb 1 v) p = false).
  { rewrite orb_false_iff, any_ltb, any_gtb. unfold everywhere. split; [intros Q; split; intros e He; now apply Q|].
    intros [H1 H2] e He. split; auto. }
  unfold ok. rewrite A. pose proof (rows_spec P K p E) as B. rewrite <- B.
  destruct (_ || _); [split; [intros [? _]; discriminate|reflexivity]|].
  destruct (np_all _); cbn [negb]; split; try (intros [_ ?]; discriminate); try reflexivity.
  - intros _. eexists. split; [reflexivity|exact E].
  - intros H. exfalso. apply H. now split.
Qed.

Theorem C62_vectors : forall P K x i, ash x = P ++ [K] ->
  accepts (ens Dirichlet_ NoKw (Array x i))
          (everywhere (fun v => (0 <= v <= 1)%R) x /\ rows_sum_to_one P K x) P [[K]] /\
  accepts (ens Concentration_ NoKw (Array x i)) (everywhere (fun v => (0 <= v)%R) x) P [[K]; []].
Proof.
  intros P K x i E. unfold ens, accepts. cbn [ensure_moments].
  assert (N : ndim x <? 1 = false) by (apply Nat.ltb_ge; unfold ndim; rewrite E, app_length; cbn; lia).
  assert (L : ax (ash x) 0 = K) by (rewrite E, ax_app; reflexivity).
  unfold dirichlet_constant, concentration_constant. rewrite N, L. split.
  - destruct (dirichlet_of P K x E) as [D1 D2]. split; [|intros H; now rewrite (D2 H)].
    intros H. destruct (D1 H) as (u & -> & Su). cbn [bind]. now apply (constant1 P [K]).
  - rewrite <- any_ltb. destruct (np_any _ x); split; try congruence; intros _.
    apply (constant2 P [K] []); [exact E|]. apply variable_scalar. cbn [ash]. rewrite E, removelast_last. apply broadcasts_to_refl.
Qed.

(** A scalar is no vector. *)
Theorem C62_vectors_scalar : forall x i, ash x = [] ->
  ens Dirichlet_ NoKw (Array x i) = Err ValueError /\ ens Concentration_ NoKw (Array x i) = Err ValueError.
Proof.
  intros x i E. unfold ens. cbn [ensure_moments]. unfold dirichlet_constant, concentration_constant, ndim. rewrite E. now split.
Qed.

(** Probabilities of a beta parent: every axis is a plate, the moments are pairs. *)
Theorem C62_beta : forall x i,
  accepts (ens Beta_ NoKw (Array x i)) (everywhere (fun v => (0 <= v <= 1)%R) x) (ash x) [[2]].
Proof.
  intros x i. unfold ens, accepts. cbn [ensure_moments]. unfold beta_constant.
  destruct (dirichlet_of (ash x) 2 (beta_array x) eq_refl) as [D1 D2].
  assert (V : forall e, valid (ash x ++ [2]) e -> bget (beta_array x) e =
     (if (e 0 =? 0)%nat then bget x (fun k => e (S k)) else 1 - bget x (fun k => e (S k)))%R).
  { intros e He. unfold bget at 1. cbn [ash aget beta_array]. rewrite (clip_valid_id _ _ He). destruct (e 0 =? 0); ring. }
  assert (Q : forall e, valid (ash x) e -> forall k, k < 2 -> valid (ash x ++ [2]) (fun j => match j with 0 => k | S j' => e j' end)).
  { intros e He k Hk [|j]; rewrite ax_app; cbn [length].
    - exact Hk.
    - destruct (Nat.ltb_spec (S j) 1); [lia|]. replace (S j - 1) with j by lia. apply He. }
  assert (S : everywhere (fun v => (0 <= v <= 1)%R) x <->
     everywhere (fun v => (0 <= v <= 1)%R) (beta_array x) /\ rows_sum_to_one (ash x) 2 (beta_array x)).
  { split.
    - intros H. split.
      + intros e He. change (ash (beta_array x)) with (ash x ++ [2]) in He. rewrite (V e He).
        assert (He' : valid (ash x) (fun k => e (S k))).
        { intros k. specialize (He (S k)). rewrite ax_app in He. cbn [length] in He.
          destruct (Nat.ltb_spec (S k) 1); [lia|]. now replace (S k - 1) with k in He by lia. }
        specialize (H _ He'). destruct (e 0 =? 0); lra.
      + intros e He. cbn [rsum]. rewrite !(V _) by (apply Q; [exact He|lia]). cbn [Nat.eqb].
        match goal with |- (Rabs ?z <= _)%R => replace z with 0%R by ring end. rewrite Rabs_R0. lra.
    - intros [H _] e He. specialize (H (fun j => match j with 0 => 0 | S j' => e j' end) (Q e He 0 ltac:(lia))).
      rewrite (V _ (Q e He 0 ltac:(lia))) in H. exact H. }
  split.
  - intros H. apply S in H. destruct (D1 H) as (u & -> & Su). cbn [bind]. now apply (constant1 (ash x) [2]).
  - intros H. rewrite D2; [reflexivity|]. intros C. apply H. now apply S.
Qed.

(** ** Gaussian parents *)

(** An array with enough axes: the last ndim axes are the variable. *)
Theorem C62_gaussian : forall P s x i, ash x = P ++ s ->
  exists c, ens Gaussian_ (KwNdim (length s)) (Array x i) = Ok c /\ proper c P [s; s ++ s].
Proof.
  intros P s x i E. unfold ens. cbn [ensure_moments]. unfold gaussian_constant.
  assert (Sh : (if length s =? 0 then [] else last_axes (length s) (ash x)) = s).
  { rewrite E, last_axes_app. destruct s; reflexivity. }
  rewrite Sh.
  assert (A : atleast_nd x (length s) = Ok x).
  { unfold atleast_nd, ndim. rewrite E, app_length. now destruct (Nat.ltb_spec (length P + length s) (length s)); [lia|]. }
  cbv zeta. rewrite A. cbn [bind].
  pose proof (variable_exact P s x E) as V. destruct (outer_ok P s s x x eq_refl V V) as (y & -> & Vy & _). cbn [bind].
  now apply (constant2 P s (s ++ s)).
Qed.

(** An array with too few axes is not refused: it becomes a Gaussian constant with
    fewer axes than the parent must have. *)
Theorem C62_gaussian_refuted : forall nd x i, ndim x < nd ->
  exists c, ens Gaussian_ (KwNdim nd) (Array x i) = Ok c /\ proper c [] [ash x; ash x ++ ash x] /\
    length (ash x) <> nd.
Proof.
  intros nd x i L. destruct (C62_gaussian [] (ash x) x i eq_refl) as (c & H1 & H2). exists c.
  split; [|split; [exact H2|unfold ndim in L; lia]]. rewrite <- H1. unfold ens. cbn [ensure_moments]. unfold gaussian_constant, last_axes.
  destruct (Nat.eqb_spec nd 0); [lia|]. unfold ndim in L. replace (length (ash x) - nd) with 0 by lia. rewrite Nat.sub_diag. cbn [skipn].
  destruct (Nat.eqb_spec (length (ash x)) 0) as [Q|Q]; [|reflexivity]. now destruct (ash x).
Qed.

Lemma trailing_shape : forall (a : arr R) n, ash (add_trailing_axes a n) = ash a ++ repeat 1 n.
Proof.
  intros a n. destruct (add_trailing_ok R a n) as (H1 & H2 & _). apply shape_ext.
  - unfold ndim in H1. rewrite H1, app_length, repeat_length. lia.
  - intros k Hk. rewrite H2, ax_app, repeat_length. destruct (Nat.ltb_spec k n); [|reflexivity].
    symmetry. apply ax_repeat1.
Qed.

Lemma variable_trailing : forall P s (a : arr R), broadcasts_to (ash a) P -> broadcasts_to (ash (add_trailing_axes a (length s))) (P ++ s).
Proof.
  intros P s a [L H]. rewrite trailing_shape. split; [rewrite !app_length, repeat_length; lia|].
  intros k. rewrite !ax_app, repeat_length. destruct (k <? length s); [left; apply ax_repeat1|apply H].
Qed.

(** A pair (x, alpha) for a Gaussian-gamma parent: the plates of both are broadcast. *)
Theorem C62_gaussian_gamma : forall P s Px x alpha, s <> [] -> ash x = Px ++ s ->
  numpy_broadcast [Px; ash alpha] P ->
  exists c, ens GaussianGamma_ (KwNdim (length s)) (Pair x alpha) = Ok c /\
    proper c P [s; s ++ s; []; []].
Proof.
  intros P s Px x alpha Hs E B. unfold ens. cbn [ensure_moments]. unfold gaussian_gamma_constant.
  assert (Z : length s =? 0 = false) by (destruct s; [contradiction|reflexivity]). rewrite Z. rewrite E, last_axes_app. cbv zeta. rewrite map_length.
  assert (BX : broadcasts_to Px P) by (apply (broadcast_upper _ _ _ B); now left).
  assert (BA : broadcasts_to (ash alpha) P) by (apply (broadcast_upper _ _ _ B); right; now left).
  assert (VX : variable_of P s x).
  { unfold variable_of, ndim. rewrite E, app_length. split; [lia|]. split.
    - intros j Hj. rewrite ax_app. apply Nat.ltb_lt in Hj. now rewrite Hj.
    - destruct BX as [L H]. split; [rewrite !app_length; lia|]. intros k. rewrite !ax_app. destruct (k <? length s); [now right|apply H]. }
  destruct (map2_upper _ _ _ Rmult x (add_trailing_axes alpha (length s)) (P ++ s)) as (u0 & E0 & N0 & B0 & _).
  { apply VX. } { now apply variable_trailing. }
  unfold np_multiply. rewrite E0. cbn [bind].
  destruct (outer_ok P s s x x eq_refl VX VX) as (xx & -> & Vxx & _). cbn [bind].
  assert (Tw : 2 * length s = length (s ++ s)) by (rewrite app_length; lia). rewrite Tw.
  destruct (map2_upper _ _ _ Rmult xx (add_trailing_axes alpha (length (s ++ s))) (P ++ s ++ s)) as (u1 & E1 & N1 & B1 & _).
  { apply Vxx. } { now apply variable_trailing. }
  rewrite E1. cbn [bind].
  assert (S0 : ash u0 = P ++ s).
  { apply (numpy_broadcast_unique _ _ _ N0). rewrite E, trailing_shape. destruct B as (B2 & B3 & B4). split; [|split].
    - intros a [<-|[<-|[]]]; rewrite !app_length, ?repeat_length.
      + specialize (B2 Px ltac:(now left)). lia.
      + specialize (B2 (ash alpha) ltac:(right; now left)). lia.
    - right. destruct B3 as [->|(a & Ha & La)].
      + exists (Px ++ s). split; [now left|]. specialize (B2 Px ltac:(now left)). rewrite !app_length. cbn in *. lia.
      + destruct Ha as [<-|[<-|[]]]; [exists (Px ++ s); split; [now left|rewrite !app_length; lia]|].
        exists (ash alpha ++ repeat 1 (length s)). split; [right; now left|rewrite !app_length, repeat_length; lia].
    - intros k. destruct (Nat.ltb_spec k (length s)) as [C|C].
      + apply Nat.ltb_lt in C. split.
        * intros a [<-|[<-|[]]]; rewrite !ax_app, ?repeat_length, C; [now right|left; apply ax_repeat1].
        * right. exists (Px ++ s). split; [now left|]. now rewrite !ax_app, C.
      + apply Nat.ltb_ge in C. destruct (B4 (k - length s)) as [B5 B6]. split.
        * intros a [<-|[<-|[]]]; rewrite !ax_app, ?repeat_length, C; apply B5; [now left|right; now left].
        * rewrite ax_app, C. destruct B6 as [B6|(a & [<-|[<-|[]]] & B6)]; [now left| |]; right.
          -- exists (Px ++ s). split; [now left|]. now rewrite ax_app, C.
          -- exists (ash alpha ++ repeat 1 (length s)). split; [right; now left|]. now rewrite ax_app, repeat_length, C. }
  rewrite <- map_app.
  destruct (constant_ok P s [s ++ s; []; []] u0 [u1; alpha; np_map ln alpha] S0) as (c & H1 & H2 & _).
  - constructor; [|constructor; [|constructor; [|constructor]]]; try (now apply variable_scalar).
    destruct Vxx as (V1 & V2 & V3). destruct N1 as (M1 & M2 & M3). unfold variable_of. split; [|split; [|exact B1]].
    + specialize (M1 (ash xx) ltac:(now left)). unfold ndim in *. lia.
    + intros j Hj. destruct (M3 j) as [M4 M5]. pose proof (M4 (ash xx) ltac:(now left)) as M6. rewrite (V2 j Hj) in M6.
      destruct M5 as [M5|(a & [<-|[<-|[]]] & M5)].
      * destruct M6; congruence.
      * rewrite <- M5. now apply V2.
      * rewrite trailing_shape, ax_app, repeat_length in M5. apply Nat.ltb_lt in Hj. rewrite Hj, ax_repeat1 in M5. destruct M6; congruence.
  - exists c. now split.
Qed.

(** With ndim = 0 no pair is accepted as a scalar: values with fewer than four axes
    are refused, others get dims made of empty tuples. *)
Theorem C62_gaussian_gamma_refuted : forall x alpha,
  (ndim x < 4 -> ens GaussianGamma_ (KwNdim 0) (Pair x alpha) = Err ValueError) /\
  (forall c P, ens GaussianGamma_ (KwNdim 0) (Pair x alpha) = Ok c -> ~ proper c P [[]; []; []; []]).
Proof.
  intros x alpha. unfold ens. cbn [ensure_moments]. unfold gaussian_gamma_constant. cbn [Nat.eqb]. cbv zeta. cbn [length Nat.mul Nat.add]. split.
  - intros L. unfold np_multiply at 1. destruct (np_map2 Rmult x _) as [u0|e] eqn:M; cbn [bind].
    + unfold la_outer. cbn [Nat.eqb]. apply Nat.ltb_lt in L. now rewrite L.
    + unfold np_map2 in M. rewrite np_bshape_eq in M. destruct (broadcasted_shape _) eqn:Q; [discriminate|]. cbn [bind] in M. injection M as <-.
      apply broadcasted_shape_err in Q as [-> _]. reflexivity.
  - intros c P H (_ & D & _). destruct (np_multiply x _) as [u0|]; [|discriminate]. cbn [bind] in H.
    destruct (la_outer x x 4) as [xx|]; [|discriminate]. cbn [bind] in H.
    destruct (np_multiply xx _) as [u1|]; [|discriminate]. cbn [bind] in H. injection H as <-. discriminate.
Qed.

(** ** Precision matrices *)
Theorem C62_wishart : forall P s x i, ash x = P ++ s ++ s ->
  (forall l, logdet (length s) x = Ok l -> ash l = P ->
     exists c, ens Wishart_ (KwNdim (length s)) (Array x i) = Ok c /\ proper c P [s ++ s; []]) /\
  (forall e, logdet (length s) x = Err e -> ens Wishart_ (KwNdim (length s)) (Array x i) = Err e).
Proof.
  intros P s x i E. unfold ens. cbn [ensure_moments]. unfold wishart_constant.
  assert (N : ndim x <? 2 * length s = false) by (apply Nat.ltb_ge; unfold ndim; rewrite E, !app_length; lia). rewrite N.
  assert (L1 : last_axes (length s) (ash x) = s) by (rewrite E, app_assoc; apply last_axes_app).
  assert (L2 : last_axes (length s) (firstn (ndim x - length s) (ash x)) = s).
  { unfold ndim. rewrite E. replace (length (P ++ s ++ s) - length s) with (length (P ++ s)) by (rewrite !app_length; lia).
    rewrite app_assoc, firstn_app, Nat.sub_diag, firstn_all. cbn [firstn]. rewrite app_nil_r. apply last_axes_app. }
  cbv zeta. rewrite L1, L2. destruct (list_eq_dec Nat.eq_dec s s); [|contradiction]. cbn [negb]. rewrite andb_false_r.
  assert (S : (if 0 <? length s then s else []) = s) by (destruct s; reflexivity). rewrite S. split.
  - intros l -> Sl. cbn [bind]. apply (constant2 P (s ++ s) []); [exact E|]. apply variable_scalar. rewrite Sl. apply broadcasts_to_refl.
  - intros er ->. reflexivity.
Qed.

(** Matrices that are not square are refused. *)
Theorem C62_wishart_square : forall nd P s t x i, length s = nd -> length t = nd -> s <> t ->
  ash x = P ++ s ++ t -> ens Wishart_ (KwNdim nd) (Array x i) = Err ValueError.
Proof.
  intros nd P s t x i Hs Ht D E. unfold ens. cbn [ensure_moments]. unfold wishart_constant.
  assert (N : ndim x <? 2 * nd = false) by (apply Nat.ltb_ge; unfold ndim; rewrite E, !app_length; lia). rewrite N.
  assert (L1 : last_axes nd (ash x) = t) by (rewrite E, app_assoc, <- Ht; apply last_axes_app).
  assert (L2 : last_axes nd (firstn (ndim x - nd) (ash x)) = s).
  { unfold ndim. rewrite E. replace (length (P ++ s ++ t) - nd) with (length (P ++ s)) by (rewrite !app_length; lia).
    rewrite app_assoc, firstn_app, Nat.sub_diag, firstn_all. cbn [firstn]. rewrite app_nil_r, <- Hs. apply last_axes_app. }
  cbv zeta. rewrite L1, L2. destruct (list_eq_dec Nat.eq_dec t s); [congruence|]. cbn [negb]. rewrite andb_true_r.
  destruct nd; [destruct s, t; try discriminate; contradiction|]. reflexivity.
Qed.

(** ** Classes that no array can become *)
Theorem C62_multinomial_refuted : forall P K x, ash x = P ++ [K] -> everywhere (fun v => (0 <= v)%R) x ->
  exists c, ens Multinomial_ NoKw (Array x true) = Ok c /\ c_plates c = P /\ c_dims c = [[PT [PI K]]] /\
    ~ proper c P [[K]].
Proof.
  intros P K x E H. unfold ens. cbn [ensure_moments]. unfold multinomial_constant.
  assert (N : ndim x <? 1 = false) by (apply Nat.ltb_ge; unfold ndim; rewrite E, app_length; cbn; lia). rewrite N.
  apply any_ltb in H. rewrite H. cbn [negb constant]. eexists. split; [reflexivity|]. cbn [c_plates c_dims length].
  split; [|split].
  - unfold ndim. rewrite E, app_length, Nat.add_sub, firstn_app, Nat.sub_diag, firstn_all. cbn. apply app_nil_r.
  - now rewrite E, ax_app.
  - intros (_ & D & _). cbn in D. discriminate.
Qed.

Theorem C62_no_constants_refuted : forall kw v,
  ens GaussianWishart_ kw v = Err TypeError /\
  (forall A x Lambda nd, exists e, gaussian_wishart_from_values (A := A) x Lambda nd = Err e) /\
  ens Binomial_ kw v = Err TypeError /\
  (exists e, ens CategoricalMarkovChain_ kw v = Err e /\ e <> NotImplementedError).
Proof.
  intros kw v. unfold ens. split; [reflexivity|]. split.
  - intros A x Lambda nd. unfold gaussian_wishart_from_values. destruct (nd =? 0); [eauto|]. destruct (_ <? _); [eauto|].
    destruct (list_eq_dec _ _ _); eauto.
  - split; [reflexivity|]. cbn [ensure_moments]. destruct kw; eexists; (split; [reflexivity|discriminate]).
Qed.
(** It raises NameError exactly when the value and the matrix fit, otherwise ValueError. *)
Theorem C62_wishart_values_refuted : forall A x Lambda nd, 0 < nd ->
  ((exists P Q S, length S = nd /\ ash x = P ++ S /\ ash Lambda = Q ++ S ++ S) ->
   gaussian_wishart_from_values (A := A) x Lambda nd = Err NameError) /\
  ((forall P Q S, length S = nd -> ash x = P ++ S -> ash Lambda <> Q ++ S ++ S) ->
   gaussian_wishart_from_values (A := A) x Lambda nd = Err ValueError).
Proof.
  intros A x Lambda nd Hnd. unfold gaussian_wishart_from_values, last_axes. destruct (Nat.eqb_spec nd 0) as [C|_]; [lia|]. split.
  - intros (P & Q & S & L & Ex & El). unfold ndim. rewrite Ex, El, !app_length.
    destruct (Nat.ltb_spec (length P + length S) nd) as [C|_]; [lia|].
    replace (length P + length S - nd) with (length P) by lia. replace (length Q + (length S + length S) - 2 * nd) with (length Q) by lia.
    rewrite !skipn_app, !skipn_all, !Nat.sub_diag. cbn [skipn app]. destruct (list_eq_dec _ _ _) as [_|C]; [reflexivity|contradiction].
  - intros N. destruct (Nat.ltb_spec (ndim x) nd) as [|C]; [reflexivity|]. destruct (list_eq_dec _ _ _) as [E|_]; [|reflexivity]. exfalso.
    unfold ndim in C. apply (N (firstn (length (ash x) - nd) (ash x)) (firstn (length (ash Lambda) - 2 * nd) (ash Lambda)) (skipn (length (ash x) - nd) (ash x))).
    + rewrite skipn_length. lia.
    + symmetry. apply firstn_skipn.
    + rewrite <- E. symmetry. apply firstn_skipn.
Qed.
(** A gamma parent that is joined with a Gaussian-Wishart mean is asked for with an
    argument that its from_values does not have (gaussian.py 2401). *)
Theorem C62_gamma_ndim_refuted : forall nd v, ens Gamma_ (KwNdim nd) v = Err TypeError.
Proof. reflexivity. Qed.
(** ** The values of the moments *)
Lemma valid_plate_in : forall P e, valid P e -> plate_in P e.
Proof. intros P e H j _. apply H. Qed.
Lemma at_last_upd : forall a e k, bget (A := R) a (upd e 0 k) = bget a (at_last k e).
Proof. intros a e k. apply bget_ext. intros [|j] _ _; reflexivity. Qed.
Lemma row_sum_last : forall P K p e, ash p = P ++ [K] -> row_sum p e = rsum K (fun k => bget p (at_last k e)).
Proof.
  intros P K p e E. unfold row_sum. replace (ax (ash p) 0) with K by (rewrite E, ax_app; reflexivity).
  apply rsum_ext. intros k _. apply at_last_upd.
Qed.
Lemma constant_u : forall dims u c, constant dims u = Ok c -> c_u c = u.
Proof. intros [|d ds] [|u0 us] c H; try discriminate. injection H as <-. reflexivity. Qed.

Theorem C62_moments_scalars : forall x i d,
  moments_are [(ash x, bget x); (ash x, fun e => ln (bget x e))] (ens Gamma_ NoKw (Array x i)) /\
  moments_are [(ash x, bget x); (ash x, fun e => gammaln (bget x e))] (ens GammaPrior_ NoKw (Array x i)) /\
  moments_are [(ash x, bget x)] (ens Poisson_ NoKw (Array x i)) /\
  moments_are [(ash x, bget x); (ash x, fun e => multigammaln (bget x e / 2) d)] (ens WishartPrior_ (KwD d) (Array x i)) /\
  moments_are [(ash x, bget x)] (ens Multinomial_ NoKw (Array x i)) /\
  (forall nd l, logdet nd x = Ok l ->
     moments_are [(ash x, bget x); (ash l, bget l)] (ens Wishart_ (KwNdim nd) (Array x i))).
Proof.
  intros x i d. unfold ens, moments_are. cbn [ensure_moments].
  unfold gamma_constant, gamma_prior_constant, poisson_constant, wishart_prior_constant, multinomial_constant, wishart_constant.
  repeat split; try (intros nd l L); intros c H; cbv zeta in *;
    repeat match type of H with (if ?b then _ else _) = _ => destruct b; [discriminate H|] end;
    try (rewrite L in H; cbn [bind] in H);
    apply constant_u in H; rewrite H; repeat constructor; cbn [fst snd]; intros e _; rewrite ?bget_map; try reflexivity.
  f_equal. lra.
Qed.

(** One category has the value one. *)
Theorem C62_moments_categorical : forall K x i,
  moments_are [(ash x ++ [K], fun e => if Req_EM_T (bget x (plate_of 1 e)) (INR (e 0)) then 1%R else 0%R)]
    (ens Categorical_ (KwCategories K) (Array x i)).
Proof.
  intros K x i c H. unfold ens in H. cbn [ensure_moments] in H. unfold categorical_constant in H.
  destruct (negb i); [discriminate|]. destruct (_ || _); [discriminate|]. apply constant_u in H. rewrite H.
  repeat constructor. cbn [fst snd]. intros e He. unfold bget at 1. cbn [ash aget]. rewrite (clip_valid_id _ _ He).
  unfold plate_of. replace (bget x (fun k => e (k + 1))) with (bget x (fun k => e (S k))); [reflexivity|].
  apply bget_ext. intros k _ _. now rewrite Nat.add_1_r.
Qed.

Lemma dirichlet_value : forall P K p us, ash p = P ++ [K] -> dirichlet_moments_of p = Ok us ->
  exists u, us = [u] /\ forall e, valid (P ++ [K]) e -> bget u e = ln (bget p e / rsum K (fun k => bget p (at_last k e))).
Proof.
  intros P K p us E H. unfold dirichlet_moments_of in H. destruct (_ <? _); [discriminate|]. destruct (_ || _); [discriminate|].
  destruct (negb _); [discriminate|]. injection H as <-. eexists. split; [reflexivity|]. intros e He. rewrite <- E in He.
  unfold bget at 1. cbn [ash aget]. rewrite (clip_valid_id _ _ He). now rewrite (row_sum_last P K p e E).
Qed.
(** Probabilities are normalised before the logarithm. *)
Theorem C62_moments_vectors : forall P K x i, ash x = P ++ [K] ->
  moments_are [(P ++ [K], fun e => ln (bget x e / rsum K (fun k => bget x (at_last k e))))] (ens Dirichlet_ NoKw (Array x i)) /\
  moments_are [(P ++ [K], bget x);
               (P, fun e => let e' k := (fun j => match j with 0 => k | S j' => e j' end) in
                            gammaln (rsum K (fun k => bget x (e' k))) - rsum K (fun k => gammaln (bget x (e' k))))%R]
    (ens Concentration_ NoKw (Array x i)).
Proof.
  intros P K x i E. unfold ens, moments_are. cbn [ensure_moments]. unfold dirichlet_constant, concentration_constant. split; intros c H.
  - destruct (_ <? _); [discriminate|]. destruct (dirichlet_moments_of x) as [us|] eqn:D; [|discriminate]. cbn [bind] in H.
    apply constant_u in H. rewrite H. destruct (dirichlet_value P K x us E D) as (u & -> & V). repeat constructor. exact V.
  - destruct (_ <? _); [discriminate|]. destruct (np_any _ _); [discriminate|]. cbv zeta in H. apply constant_u in H. rewrite H.
    constructor; [|constructor; [|constructor]]; cbn [fst snd]; intros e He; [reflexivity|].
    unfold bget at 1. cbn [ash aget]. rewrite E, removelast_last, (clip_valid_id _ _ He).
    rewrite (row_sum_last P K x _ E), (row_sum_last P K (np_map gammaln x) _ E).
    assert (Q : forall (a : arr R) k, bget a (at_last k (fun j => e (j - 1))) = bget a (fun j => match j with 0 => k | S j' => e j' end)).
    { intros a k. apply bget_ext. intros [|j] _ _; cbn; [reflexivity|]. now rewrite Nat.sub_0_r. }
    f_equal; [f_equal|]; apply rsum_ext; intros k _; now rewrite ?bget_map, Q.
Qed.
Theorem C62_moments_beta : forall x i,
  moments_are [(ash x ++ [2], fun e => ln (if e 0 =? 0 then bget x (plate_of 1 e) else 1 - bget x (plate_of 1 e)))]
    (ens Beta_ NoKw (Array x i)).
Proof.
  intros x i c H. unfold ens in H. cbn [ensure_moments] in H. unfold beta_constant in H.
  destruct (dirichlet_moments_of (beta_array x)) as [us|] eqn:D; [|discriminate]. cbn [bind] in H. apply constant_u in H. rewrite H.
  destruct (dirichlet_value (ash x) 2 (beta_array x) us eq_refl D) as (u & -> & V). repeat constructor. cbn [fst snd]. intros e He. rewrite (V e He).
  assert (B : forall e', valid (ash x ++ [2]) e' -> bget (beta_array x) e' =
     (if (e' 0 =? 0)%nat then bget x (plate_of 1 e') else 1 - bget x (plate_of 1 e'))%R).
  { intros e' He'. unfold bget at 1. cbn [ash aget beta_array]. rewrite (clip_valid_id _ _ He').
    replace (bget x (plate_of 1 e')) with (bget x (fun k => e' (S k))); [destruct (e' 0 =? 0); ring|].
    apply bget_ext. intros k _ _. unfold plate_of. now rewrite Nat.add_1_r. }
  assert (VL : forall k, k < 2 -> valid (ash x ++ [2]) (at_last k e)).
  { intros k Hk [|j]; [rewrite ax_app; exact Hk|apply (He (S j))]. }
  assert (PL : forall k, bget x (plate_of 1 (at_last k e)) = bget x (plate_of 1 e)).
  { intros k. apply bget_ext. intros j _ _. unfold plate_of, at_last. now rewrite Nat.add_1_r. }
  cbn [rsum]. rewrite (B e He), (B _ (VL 0 ltac:(lia))), (B _ (VL 1 ltac:(lia))), !PL. cbn [at_last Nat.eqb].
  f_equal. field_simplify_eq; [ring|]. lra.
Qed.

(** The second moment is the outer product. *)
Theorem C62_moments_gaussian : forall P s x i, ash x = P ++ s ->
  moments_are [(P ++ s, bget x);
               (P ++ s ++ s, fun e => (bget x (plate_of (length s) e) * bget x (second_axes (length s) e))%R)]
    (ens Gaussian_ (KwNdim (length s)) (Array x i)).
Proof.
  intros P s x i E c H. unfold ens in H. cbn [ensure_moments] in H. unfold gaussian_constant in H.
  assert (Sh : (if length s =? 0 then [] else last_axes (length s) (ash x)) = s).
  { rewrite E, last_axes_app. destruct s; reflexivity. }
  rewrite Sh in H.
  assert (A : atleast_nd x (length s) = Ok x).
  { unfold atleast_nd, ndim. rewrite E, app_length. now destruct (Nat.ltb_spec (length P + length s) (length s)); [lia|]. }
  cbv zeta in H. rewrite A in H. cbn [bind] in H.
  pose proof (variable_exact P s x E) as V. destruct (outer_ok P s s x x eq_refl V V) as (y & Ey & Vy & By). rewrite Ey in H. cbn [bind] in H.
  apply constant_u in H. rewrite H. repeat constructor; cbn [fst snd]. intros e He. apply By. exact (valid_plate_in _ _ He).
Qed.

(** x and its outer product are weighted with alpha. *)
Theorem C62_moments_gaussian_gamma : forall P s Px x alpha, s <> [] -> ash x = Px ++ s ->
  numpy_broadcast [Px; ash alpha] P ->
  moments_are [(P ++ s, fun e => bget x e * bget alpha (plate_of (length s) e));
               (P ++ s ++ s, fun e => bget x (plate_of (length s) e) * bget x (second_axes (length s) e)
                                      * bget alpha (plate_of (length s + length s) e));
               (P, bget alpha); (P, fun e => ln (bget alpha e))]%R
    (ens GaussianGamma_ (KwNdim (length s)) (Pair x alpha)).
Proof.
  intros P s Px x alpha Hs E B c H. unfold ens in H. cbn [ensure_moments] in H. unfold gaussian_gamma_constant in H.
  assert (Z : length s =? 0 = false) by (destruct s; [contradiction|reflexivity]). rewrite Z, E, last_axes_app in H. cbv zeta in H. rewrite map_length in H.
  assert (BX : broadcasts_to Px P) by (apply (broadcast_upper _ _ _ B); now left).
  assert (VX : variable_of P s x).
  { unfold variable_of, ndim. rewrite E, app_length. split; [lia|]. split.
    - intros j Hj. rewrite ax_app. apply Nat.ltb_lt in Hj. now rewrite Hj.
    - destruct BX as [L Q]. split; [rewrite !app_length; lia|]. intros k. rewrite !ax_app. destruct (k <? length s); [now right|apply Q]. }
  unfold np_multiply in H. destruct (np_map2 Rmult x _) as [u0|] eqn:E0; [|discriminate]. cbn [bind] in H.
  destruct (outer_ok P s s x x eq_refl VX VX) as (xx & Exx & _ & Bxx). rewrite Exx in H. cbn [bind] in H.
  destruct (np_map2 Rmult xx _) as [u1|] eqn:E1; [|discriminate]. cbn [bind] in H. apply constant_u in H. rewrite H.
  apply np_map2_ok in E0 as [_ G0]. apply np_map2_ok in E1 as [_ G1].
  repeat constructor; cbn [fst snd]; intros e He; rewrite ?bget_map; try reflexivity.
  - rewrite G0. f_equal. destruct (add_trailing_ok R alpha (length s)) as (_ & _ & T). apply T.
  - rewrite G1, Bxx by exact (valid_plate_in _ _ He). f_equal. destruct (add_trailing_ok R alpha (2 * length s)) as (_ & _ & T). rewrite T.
    apply bget_ext. intros k _ _. unfold plate_of. f_equal. lia.
Qed.
End Special.
Print Assumptions C62_scalars.
Print Assumptions C62_categorical.
Print Assumptions C62_vectors.
Print Assumptions C62_vectors_scalar.
Print Assumptions C62_beta.
Print Assumptions C62_gaussian.
Print Assumptions C62_gaussian_refuted.
Print Assumptions C62_gaussian_gamma.
Print Assumptions C62_gaussian_gamma_refuted.
Print Assumptions C62_wishart.
Print Assumptions C62_wishart_square.
Print Assumptions C62_multinomial_refuted.
Print Assumptions C62_no_constants_refuted.
Print Assumptions C62_wishart_values_refuted.
Print Assumptions C62_gamma_ndim_refuted.
Print Assumptions C62_moments_scalars.
Print Assumptions C62_moments_categorical.
Print Assumptions C62_moments_vectors.
Print Assumptions C62_moments_beta.
Print Assumptions C62_moments_gaussian.
Print Assumptions C62_moments_gaussian_gamma.

(** ** Examples *)
Definition vec2 (a b : R) : arr R := Arr [2] (fun e => if e 0 =? 0 then a else b).
Lemma vec2_everywhere : forall (Q : R -> Prop) a b, Q a -> Q b -> everywhere Q (vec2 a b).
Proof. intros Q a b Ha Hb e _. unfold bget, vec2. cbn [aget ash]. destruct (clip [2] e 0 =? 0); assumption. Qed.
(** Precisions 2 and 0 are accepted, 2 and -1 are not; as a shape parameter 0 is not. *)
Example C62_gamma_example :
  (exists c, ensure_moments ln (fun x _ => x) (fun _ x => Ok x) Gamma_ NoKw (Array (vec2 2 0) false) = Ok c /\ proper c [2] [[]; []]) /\
  ensure_moments ln (fun x _ => x) (fun _ x => Ok x) Gamma_ NoKw (Array (vec2 2 (-1)) false) = Err ValueError /\
  ensure_moments ln (fun x _ => x) (fun _ x => Ok x) GammaPrior_ NoKw (Array (vec2 2 0) false) = Err ValueError.
Proof.
  assert (V : forall k, k < 2 -> valid [2] (fun j => match j with 0 => k | _ => 0 end)) by (intros k Hk [|[|j]]; cbn; lia).
  split; [|split].
  - apply (C62_scalars ln (fun x _ => x) (fun _ x => Ok x) (vec2 2 0) false). apply vec2_everywhere; lra.
  - apply (C62_scalars ln (fun x _ => x) (fun _ x => Ok x) (vec2 2 (-1)) false). intros H. specialize (H _ (V 1 ltac:(lia))). cbn in H. lra.
  - apply (C62_scalars ln (fun x _ => x) (fun _ x => Ok x) (vec2 2 0) false). intros H. specialize (H _ (V 1 ltac:(lia))). cbn in H. lra.
Qed.
(** Probabilities 1/4 and 3/4 are accepted, 1/4 and 1/2 are not. *)
Example C62_dirichlet_example :
  (exists c, ensure_moments ln (fun x _ => x) (fun _ x => Ok x) Dirichlet_ NoKw (Array (vec2 (1/4) (3/4)) false) = Ok c /\ proper c [] [[2]]) /\
  ensure_moments ln (fun x _ => x) (fun _ x => Ok x) Dirichlet_ NoKw (Array (vec2 (1/4) (1/2)) false) = Err ValueError.
Proof.
  split.
  - destruct (C62_vectors ln (fun x _ => x) (fun _ x => Ok x) [] 2 (vec2 (1/4) (3/4)) false eq_refl) as [[H _] _]. apply H. split; [apply vec2_everywhere; lra|].
    intros e _. cbn. replace (0 + 1 / 4 + 3 / 4 - 1)%R with 0%R by lra. rewrite Rabs_R0. lra.
  - destruct (C62_vectors ln (fun x _ => x) (fun _ x => Ok x) [] 2 (vec2 (1/4) (1/2)) false eq_refl) as [[_ H] _]. apply H. intros [_ Q].
    specialize (Q (fun _ => 0) ltac:(intros [|k]; cbn; lia)). cbn in Q. rewrite Rabs_left in Q; lra.
Qed.
(** Three vectors of length two, with one precision each. *)
Example C62_gaussian_gamma_example :
  exists c, ensure_moments ln (fun x _ => x) (fun _ x => Ok x) GaussianGamma_ (KwNdim 1)
    (Pair (vec2 5 7) (Arr [3] (fun e => INR (S (e 0))))) = Ok c /\ proper c [3] [[2]; [2; 2]; []; []].
Proof.
  apply (C62_gaussian_gamma ln (fun x _ => x) (fun _ x => Ok x) [3] [2] []); [discriminate|reflexivity|].
  split; [|split].
  - intros a [<-|[<-|[]]]; cbn; lia.
  - right. exists [3]. split; [right; now left|reflexivity].
  - intros [|[|k]]; (split; [intros a [<-|[<-|[]]]; cbn; auto|]); cbn; [right; exists [3]; split; [right; now left|reflexivity]|now left|].
    left. now destruct k.
Qed.
