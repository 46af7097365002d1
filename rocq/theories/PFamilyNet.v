(** C25 for models made of Poisson, binomial, multinomial (categorical), gamma and
    Dirichlet (beta) nodes and constants. *)
From Coq Require Import List Arith ZArith Lia Bool Reals Lra FunctionalExtensionality.
From Verif Require Import Base Shapes SpecShapes ShapesLemmas NumPy MiscArray TensorLemmas
  EinsumLemmas SumMultiplyLemmas SpecArray PlateSumLemmas PlateSum2Lemmas MessageLemmas
  ShapeOpsLemmas DiagLemmas ExpFam SpecExpFam ExpFamLemmas ExpFamBound ExpFamGrad PExpFam SpecUpdate
  UpdateLemmas PUpdate Families SpecFamilies FamiliesLemmas FamiliesLemmas2 FamilyDist SpecFamilyDist
  PFamilyDist Network SpecNetwork NetworkLemmas NetworkLemmas2 PNetwork FamilyNet SpecFamilyNet.
Import ListNotations.
Open Scope R_scope.

(** ** The nodes are conjugate *)
Ltac inv H := inversion H; subst; clear H.
Ltac break_moments H := unfold moments_of in H; cbn [efam_of e_pdims poisson_efam binomial_efam multinomial_efam gamma_efam dirichlet_efam] in H;
  repeat match goal with
  | X : Forall2 _ (_ :: _) _ |- _ => inv X
  | X : Forall2 _ [] _ |- _ => inv X
  end.

Lemma rsum_comm : forall K a b, rsum K (fun i => a i * b i) = rsum K (fun i => b i * a i).
Proof. intros. apply rsum_ext. intros. ring. Qed.

Lemma poisson_conjugate : conjugate poisson_efam.
Proof.
  split; [|split].
  - intros ups. cbn. destruct ups as [|[|l [|ll [|]]] [|]]; reflexivity.
  - intros k x ups Hk. cbn in Hk. assert (k = 0%nat) by lia. subst k. cbn. destruct x as [|x0 [|]]; reflexivity.
  - intros k x ups ups' Hk H H' L _. cbn in Hk. assert (k = 0%nat) by lia. subst k.
    break_moments H. break_moments H'.
    repeat match goal with X : length ?y = length [[]; []] |- _ => is_var y; list2 y end. list1 x.
    cbn [e_cgf e_phi e_message e_fam e_pdims fam_dims poisson_efam poisson_family nth fdot]. rewrite !total_0d.
    unfold poisson_cgf, poisson_phi, poisson_message. cbn [fst snd]. ring.
Qed.

Lemma binomial_conjugate : forall N, conjugate (binomial_efam N).
Proof.
  intros N. split; [|split].
  - intros ups. cbn. destruct ups as [|[|l [|ll]] [|]]; reflexivity.
  - intros k x ups Hk. cbn in Hk. assert (k = 0%nat) by lia. subst k. cbn. destruct x as [|x0 [|]]; reflexivity.
  - intros k x ups ups' Hk H H' L _. cbn in Hk. assert (k = 0%nat) by lia. subst k.
    break_moments H. break_moments H'.
    repeat match goal with X : length ?y = length [[2%nat]] |- _ => is_var y; list1 y end. list1 x.
    cbn [e_cgf e_phi e_message e_fam e_pdims fam_dims binomial_efam binomial_family nth fdot]. rewrite !total_0d, !total_1d.
    unfold binomial_cgf, binomial_phi, binomial_message, as_vec, of_vec. cbn. ring.
Qed.

Lemma multinomial_conjugate : forall N K, conjugate (multinomial_efam N K).
Proof.
  intros N K. split; [|split].
  - intros ups. cbn. destruct ups as [|[|l [|ll]] [|]]; reflexivity.
  - intros k x ups Hk. cbn in Hk. assert (k = 0%nat) by lia. subst k. cbn. destruct x as [|x0 [|]]; reflexivity.
  - intros k x ups ups' Hk H H' L _. cbn in Hk. assert (k = 0%nat) by lia. subst k.
    break_moments H. break_moments H'.
    repeat match goal with X : length ?y = length [[K]] |- _ => is_var y; list1 y end. list1 x.
    cbn [e_cgf e_phi e_message e_fam e_pdims fam_dims multinomial_efam multinomial_family nth fdot]. rewrite !total_1d.
    unfold multinomial_cgf, multinomial_phi, multinomial_message, as_vec, of_vec. cbn.
    rewrite (rsum_comm K (fun i => p0 (upd env0 0 i))), (rsum_comm K (fun i => p (upd env0 0 i))). ring.
Qed.

Lemma dirichlet_conjugate : forall lg psi K, conjugate (dirichlet_efam lg psi K).
Proof.
  intros lg psi K. split; [|split].
  - intros ups. cbn. destruct ups as [|[|l [|ll [|]]] [|]]; reflexivity.
  - intros k x ups Hk. cbn in Hk. assert (k = 0%nat) by lia. subst k. cbn. destruct x as [|x0 [|]]; reflexivity.
  - intros k x ups ups' Hk H H' L _. cbn in Hk. assert (k = 0%nat) by lia. subst k.
    break_moments H. break_moments H'.
    repeat match goal with X : length ?y = length [[K]; []] |- _ => is_var y; list2 y end. list1 x.
    cbn [e_cgf e_phi e_message e_fam e_pdims fam_dims dirichlet_efam dirichlet_family nth fdot]. rewrite !total_1d, !total_0d.
    unfold dirichlet_cgf, dirichlet_phi, dirichlet_message, as_vec, of_vec. cbn.
    rewrite (rsum_comm K (fun i => p0 (upd env0 0 i))), (rsum_comm K (fun i => p (upd env0 0 i))). ring.
Qed.

Lemma gamma_conjugate : forall lg psi, conjugate (gamma_efam lg psi).
Proof.
  intros lg psi. split; [|split].
  - intros ups. cbn. destruct ups as [|[|a [|ga [|]]] [|[|b [|lb [|]]] [|]]]; reflexivity.
  - intros k x ups Hk. cbn in Hk. assert (k = 0%nat \/ k = 1%nat) as [-> | ->] by lia; cbn;
      destruct x as [|x0 [|x1 [|]]]; try reflexivity; destruct ups as [|[|a [|ga [|]]] [|[|b [|lb [|]]] [|]]]; reflexivity.
  - intros k x ups ups' Hk H H' L E. cbn in Hk. break_moments H. break_moments H'.
    repeat match goal with X : length ?y = length [[]; []] |- _ => is_var y; list2 y end. list2 x.
    assert (k = 0%nat \/ k = 1%nat) as [-> | ->] by lia; cbn in E; injection E as E1 E2; subst;
    cbn [e_cgf e_phi e_message e_fam e_pdims fam_dims gamma_efam gamma_family nth fdot]; cbn [exclude length seq combine map fst snd Nat.eqb nth]; cbn [fdot];
    rewrite !total_0d; unfold gamma_cgf, gamma_phi, gamma_message_a, gamma_message_b; cbn [fst snd]; ring.
Qed.

Lemma constant_conjugate : forall dims, conjugate (constant_efam dims).
Proof.
  intros dims. split; [|split].
  - intros ups. cbn. apply map_length.
  - intros k x ups Hk. cbn in Hk. lia.
  - intros k x ups ups' Hk. cbn in Hk. lia.
Qed.

Lemma kind_conjugate : forall lg psi k, conjugate (efam_of lg psi k).
Proof.
  intros lg psi [| | | | |]; cbn [efam_of]; [apply poisson_conjugate|apply binomial_conjugate|apply multinomial_conjugate|
    apply gamma_conjugate|apply dirichlet_conjugate|apply constant_conjugate].
Qed.

Lemma kind_gibbs : forall lg psi k, gamma_convex lg psi -> log_beta_convex lg psi -> kind_ok k ->
  fam_gibbs (e_fam (efam_of lg psi k)) (kind_dom k).
Proof.
  intros lg psi k HG HB KO. destruct k as [|N|N K| |K|dims]; cbn [efam_of e_fam poisson_efam binomial_efam multinomial_efam gamma_efam dirichlet_efam constant_efam].
  - intros phi phi' u g u' g' L L' _ _. now apply poisson_fam_gibbs.
  - intros phi phi' u g u' g' L L' _ _. now apply binomial_fam_gibbs.
  - intros phi phi' u g u' g' L L' _ _. destruct KO. now apply multinomial_fam_gibbs.
  - intros phi phi' u g u' g' L L' D D'. now apply (gamma_fam_gibbs lg psi HG).
  - intros phi phi' u g u' g' L L' _ _. now apply dirichlet_fam_gibbs.
  - intros phi phi' u g u' g' L L' _ _ E. discriminate.
Qed.

Lemma model_net : forall lg psi M st, gamma_convex lg psi -> log_beta_convex lg psi -> model_ok lg psi M st ->
  net_ok (net_of lg psi M) (fun i => kind_dom (md_kind M i)) st.
Proof.
  intros lg psi M st HG HB [O1 O2 O3 O4 O5 O6 O7]. constructor; cbn [nt_size nt_node net_of nn_fam nn_parents].
  - exact O2.
  - intros i _. apply kind_conjugate.
  - intros i Hi. apply kind_gibbs; auto.
  - exact O6.
  - intros j Hj. symmetry. now apply O5.
  - intros j k i Hj Hk. destruct (O7 j k i Hj Hk) as (A & B & _ & C & _). auto.
Qed.

(** ** Signs of parameters and messages *)

(** What the messages to a node of this kind look like (component [c])... *)
Definition cone (k : kind) (c : nat) (x : R) : Prop :=
  match k, c with
  | KGamma, O => x <= 0
  | KGamma, S O => 0 <= x
  | KDirichlet _, O => 0 <= x
  | _, _ => True
  end.
(** ... and its natural parameters. *)
Definition strict (k : kind) (c : nat) (x : R) : Prop :=
  match k, c with
  | KGamma, O => x < 0
  | KGamma, S O => 0 < x
  | KDirichlet _, O => 0 < x
  | _, _ => True
  end.

Lemma cone_zero : forall k c, cone k c 0.
Proof. intros [| | | | |] [|[|c]]; cbn; lra || exact I. Qed.
Lemma cone_add : forall k c x y, cone k c x -> cone k c y -> cone k c (x + y).
Proof. intros [| | | | |] [|[|c]] x y; cbn; intros; lra || exact I. Qed.
Lemma cone_scal : forall k c r x, 0 <= r -> cone k c x -> cone k c (r * x).
Proof.
  intros [| | | | |] [|[|c]] r x; cbn; intros Hr Hx; try exact I; try now apply Rmult_le_pos.
  replace (r * x) with (- (r * (- x))) by ring. assert (0 <= r * - x) by (apply Rmult_le_pos; lra). lra.
Qed.
Lemma cone_lsum : forall k c A (F : A -> R) l, (forall a, In a l -> cone k c (F a)) -> cone k c (lsum (map F l)).
Proof.
  intros k c A F. induction l as [|a l IH]; intros H; [apply cone_zero|]. unfold lsum in *. cbn [map fold_right].
  apply cone_add; [apply H; now left|apply IH; intros; apply H; now right].
Qed.
Lemma strict_add : forall k c ann x y, 0 < ann -> strict k c x -> cone k c y -> strict k c (ann * (x + y)).
Proof.
  intros [| | | | |] [|[|c]] ann x y; cbn; intros Ha Hx Hy; try exact I; try (apply Rmult_lt_0_compat; lra).
  replace (ann * (x + y)) with (- (ann * (- x - y))) by ring. assert (0 < ann * (- x - y)) by (apply Rmult_lt_0_compat; lra). lra.
Qed.

Definition entry (l : list (env -> R)) (c : nat) (v : env) : R := nth c l (fun _ => 0) v.

Definition ranges (dims : list shape) (P : nat -> R -> Prop) (x : list (env -> R)) : Prop :=
  forall c d v, nth_error dims c = Some d -> valid d v -> P c (entry x c v).

Lemma valid_0d : forall v, valid [] v -> v = env0.
Proof. intros v H. apply functional_extensionality. intros k. specialize (H k). rewrite ax_overflow in H by (cbn; lia). unfold env0. lia. Qed.

(** The message of a node of kind [kj] to a parent of kind [ki]. *)
Lemma message_cone : forall lg psi kj k ki x ups, may_be_parent kj k ki ->
  (k < length (e_pdims (efam_of lg psi kj)))%nat ->
  length x = length (fam_dims (e_fam (efam_of lg psi kj))) -> moments_of (efam_of lg psi kj) ups ->
  ranges (fam_dims (e_fam (efam_of lg psi kj))) (moment_range kj) x ->
  (forall k' , ranges (nth k' (e_pdims (efam_of lg psi kj)) []) (required kj k') (nth k' ups [])) ->
  ranges (nth k (e_pdims (efam_of lg psi kj)) []) (cone ki) (e_message (efam_of lg psi kj) k x (exclude k ups)).
Proof.
  intros lg psi kj k ki x ups MP Hk L MO RX RU c d v Hd Hv.
  destruct ki as [| | | |Ki|kd]; cbn [may_be_parent] in MP; try (destruct kj; try contradiction; destruct k as [|[|]]; contradiction).
  - destruct kj as [|N|N K| |K|dims]; try contradiction; try (destruct k; contradiction).
    + destruct k; [|contradiction]. list1 x. specialize (RX 0%nat [] env0 eq_refl).
      assert (V0 : valid [] env0) by (intros i; rewrite ax_overflow by (cbn; lia); unfold env0; lia).
      specialize (RX V0). unfold entry in RX. cbn in RX.
      destruct c as [|[|c]]; cbn; unfold entry; cbn; try lra; try exact I.
    + destruct k as [|[|]]; try contradiction. break_moments MO.
      repeat match goal with X : length ?y = length [[]; []] |- _ => is_var y; list2 y end. list2 x.
      assert (V0 : valid [] env0) by (intros i; rewrite ax_overflow by (cbn; lia); unfold env0; lia).
      pose proof (RX 0%nat [] env0 eq_refl V0) as R0. pose proof (RU 0%nat 0%nat [] env0 eq_refl V0) as R1.
      cbn in R0, R1. unfold entry in R0, R1. cbn in R0, R1.
      destruct c as [|[|c]]; cbn; unfold entry; cbn; try lra; try exact I.
  - destruct c; [|exact I]. cbn [cone].
    assert (V0 : valid [] env0) by (intros i; rewrite ax_overflow by (cbn; lia); unfold env0; lia).
    destruct kj as [|N|N K| |K|dims]; try contradiction; try (destruct k as [|[|]]; contradiction).
    + destruct k; [|contradiction]. list1 x. pose proof (RX 0%nat [] env0 eq_refl V0) as R0. cbn in R0. unfold entry in R0. cbn in R0.
      cbn in Hd. injection Hd as <-. unfold entry. cbn. unfold of_vec, binomial_message. destruct (v 0%nat); lra.
    + destruct k; [|contradiction]. list1 x. cbn in Hd. injection Hd as <-.
      pose proof (RX 0%nat [K] (upd env0 0 (v 0%nat)) eq_refl) as R0. unfold entry in *. cbn in *. unfold of_vec, multinomial_message, as_vec.
      apply R0. intros i. unfold upd. destruct (Nat.eqb_spec i 0) as [->|NE]; [apply (Hv 0%nat)|].
      rewrite ax_overflow by (cbn; lia). unfold env0. lia.
  - exact I.
Qed.

Lemma prior_strict : forall lg psi kj ups, moments_of (efam_of lg psi kj) ups ->
  (forall k' , ranges (nth k' (e_pdims (efam_of lg psi kj)) []) (required kj k') (nth k' ups [])) ->
  ranges (fam_dims (e_fam (efam_of lg psi kj))) (strict kj) (e_phi (efam_of lg psi kj) ups).
Proof.
  intros lg psi kj ups MO RU c d v Hd Hv.
  assert (V0 : valid [] env0) by (intros i; rewrite ax_overflow by (cbn; lia); unfold env0; lia).
  destruct kj as [|N|N K| |K|dims]; try (destruct c; exact I).
  - break_moments MO. repeat match goal with X : length ?y = length [[]; []] |- _ => is_var y; list2 y end.
    pose proof (RU 0%nat 0%nat [] env0 eq_refl V0) as R0. pose proof (RU 1%nat 0%nat [] env0 eq_refl V0) as R1.
    cbn in R0, R1. unfold entry in *. cbn in R0, R1. destruct c as [|[|c]]; cbn; lra || exact I.
  - break_moments MO. repeat match goal with X : length ?y = length [[K]; []] |- _ => is_var y; list2 y end.
    destruct c; [|exact I]. cbn in Hd. injection Hd as <-.
    pose proof (RU 0%nat 0%nat [K] (upd env0 0 (v 0%nat)) eq_refl) as R0. cbn in R0. unfold entry in *. cbn in *.
    unfold of_vec, dirichlet_phi, as_vec. apply R0.
    intros i. unfold upd. destruct (Nat.eqb_spec i 0) as [->|NE]; [apply (Hv 0%nat)|].
    rewrite ax_overflow by (cbn; lia). unfold env0. lia.
Qed.

Lemma moments_total : forall lg psi k phi, kind_ok k -> (forall dims, k <> KConstant dims) ->
  length phi = length (fam_dims (e_fam (efam_of lg psi k))) ->
  ranges (fam_dims (e_fam (efam_of lg psi k))) (strict k) phi ->
  kind_dom k phi /\ exists u g, fam_moments (e_fam (efam_of lg psi k)) phi = Ok (u, g) /\
    ranges (fam_dims (e_fam (efam_of lg psi k))) (moment_range k) u.
Proof.
  intros lg psi k phi KO NC L RP.
  assert (V0 : valid [] env0) by (intros i; rewrite ax_overflow by (cbn; lia); unfold env0; lia).
  destruct k as [|N|N K| |K|dims]; [| | | | |exfalso; now apply (NC dims)].
  - split; [exact I|]. list1 phi. eexists. eexists. split; [reflexivity|]. intros [|c] d v Hd Hv; [|exact I]. unfold entry. cbn.
    pose proof (exp_pos (p env0)). lra.
  - split; [exact I|]. list1 phi. eexists. eexists. split; [reflexivity|]. intros [|c] d v Hd Hv; [|exact I]. unfold entry. cbn.
    cbn in KO. pose proof (exp_pos (- p env0)) as E. split.
    + apply Rlt_le, Rdiv_lt_0_compat; lra.
    + apply (Rmult_le_reg_r (1 + exp (- p env0))); [lra|]. unfold Rdiv. rewrite Rmult_assoc, Rinv_l by lra.
      replace (N * (1 + exp (- p env0))) with (N + N * exp (- p env0)) by ring.
      pose proof (Rmult_lt_0_compat _ _ KO E). lra.
  - split; [exact I|]. list1 phi. destruct KO as [HN HK]. cbn [efam_of multinomial_efam e_fam multinomial_family fam_moments fam_dims].
    destruct (multinomial_moments_ok N K (as_vec p) HK) as [Q1 Q2].
    destruct (multinomial_moments N K (as_vec p)) as [w g]. eexists. eexists. split; [reflexivity|].
    intros [|c] d v Hd Hv; [|exact I]. cbn in Hd. injection Hd as <-. unfold entry. cbn. unfold of_vec. cbn [fst] in Q1.
    rewrite Q1. apply Rmult_le_pos; [lra|]. apply Rlt_le, Rdiv_lt_0_compat; [apply exp_pos|now apply sumexp_pos].
  - list2 phi. pose proof (RP 0%nat [] env0 eq_refl V0) as R0. pose proof (RP 1%nat [] env0 eq_refl V0) as R1.
    cbn in R0, R1. unfold entry in R0, R1. cbn in R0, R1. split; [exact R1|].
    cbn [efam_of gamma_efam e_fam gamma_family fam_moments fam_dims]. unfold gamma_moments. cbn [fst snd].
    destruct (Rle_dec (- p env0) 0); [lra|]. cbn [bind]. eexists. eexists. split; [reflexivity|].
    intros [|c] d v Hd Hv; [|destruct c; exact I]. unfold entry. cbn. apply Rdiv_lt_0_compat; lra.
  - split; [exact I|]. list1 phi. cbn [efam_of dirichlet_efam e_fam dirichlet_family fam_moments fam_dims]. unfold dirichlet_moments.
    destruct (any_le0 K (as_vec p)) eqn:A.
    + exfalso. unfold any_le0 in A. apply existsb_exists in A as (i & Hi & A). apply in_seq in Hi.
      destruct (Rle_dec (as_vec p i) 0); [|discriminate].
      pose proof (RP 0%nat [K] (upd env0 0 i) eq_refl) as R0. unfold entry in R0. cbn in R0. unfold as_vec in *.
      enough (0 < p (upd env0 0 i)) by lra. apply R0.
      intros j. unfold upd. destruct (Nat.eqb_spec j 0) as [->|NE]; [cbn; lia|].
      rewrite ax_overflow by (cbn; lia). unfold env0. lia.
    + cbn [bind]. eexists. eexists. split; [reflexivity|]. intros [|c] d v Hd Hv; exact I.
Qed.

Lemma range_required : forall kj k ki c x, may_be_parent kj k ki -> (forall dims, ki <> KConstant dims) ->
  moment_range ki c x -> required kj k c x.
Proof.
  intros kj k ki c x MP NC H. destruct ki as [|N|N K| |K|dims]; [| | | | |exfalso; now apply (NC dims)];
    destruct kj; try contradiction; destruct k as [|[|k]]; try contradiction; destruct c as [|c]; try exact I; exact H.
Qed.

(** ** Arrays whose entries all satisfy a condition *)
Definition arrays_in (plates : shape) (dims : list shape) (P : nat -> R -> Prop) (ms : list (arr R)) : Prop :=
  forall c d a e, nth_error dims c = Some d -> nth_error ms c = Some a -> valid (plates ++ d) e -> P c (bget a e).

Lemma arrays_at : forall plates dims P ms p, arrays_in plates dims P ms -> length ms = length dims -> valid plates p ->
  ranges dims P (at_plate dims ms p).
Proof.
  intros plates dims P ms p H L Hp c d v Hd Hv. unfold entry, at_plate.
  destruct (nth_total _ _ _ ms c d (eq_sym L) Hd) as [a Ha].
  rewrite (nth_error_nth _ c (fun _ => 0) (map_nth_error _ c _ (combine_nth_error _ _ _ _ _ _ _ Hd Ha))). cbn [fst snd].
  apply (H c d a _ Hd Ha). now apply join_valid.
Qed.

(** At a plate of a node whose plates the arrays broadcast to. *)
Lemma arrays_at_child : forall pp ps dims P ms p, arrays_in pp dims P ms -> fits pp dims ms ->
  broadcasts_to pp ps -> valid ps p -> ranges dims P (at_plate dims ms p).
Proof.
  intros pp ps dims P ms p H Fi B Hp. pose proof (Forall2_len _ _ _ _ _ Fi) as L.
  intros c d v Hd Hv. unfold entry, at_plate. destruct (nth_total _ _ _ ms c d L Hd) as [a Ha].
  rewrite (nth_error_nth _ c (fun _ => 0) (map_nth_error _ c _ (combine_nth_error _ _ _ _ _ _ _ Hd Ha))). cbn [fst snd].
  rewrite <- (bget_clip_out _ a (pp ++ d)) by apply (Forall2_to_nth _ _ _ _ _ Fi c d a Hd Ha).
  apply (H c d a _ Hd Ha). apply valid_clip with (S := ps ++ d); [|now apply join_valid].
  destruct B as [B1 B2]. split; [rewrite !app_length; lia|]. intros k. rewrite !ax_app.
  destruct (k <? length d)%nat; [now right|apply B2].
Qed.

Lemma fibre_cone : forall kd c from to t F, (forall e, valid from e -> cone kd c (F e)) -> cone kd c (fibre_sum from to t F).
Proof.
  intros kd c from to t F H. unfold fibre_sum. apply cone_lsum. intros e He. apply filter_In in He as [He _].
  apply H. now apply all_indices_valid.
Qed.

Lemma message_to_parent_cone : forall kd c (m : arr R) (mask : arr bool) ps ms mp pp d y,
  ash m = (ps ++ d)%list -> broadcasts_to pp ps -> broadcasts_to mp ms -> broadcasts_to (ash mask) ps ->
  message_to_parent m mask ps ms mp pp d = Ok y -> (forall e, valid (ps ++ d) e -> cone kd c (bget m e)) ->
  forall e, valid (pp ++ d) e -> cone kd c (bget y e).
Proof.
  intros kd c m mask ps ms mp pp d y Em Hp Hm Hk Ey Hc e He.
  assert (Esk : skipn (ndim m - length d) (ash m) = d).
  { unfold ndim. rewrite Em, app_length. replace (length ps + length d - length d)%nat with (length ps) by lia.
    rewrite skipn_app, Nat.sub_diag, skipn_all2 by lia. reflexivity. }
  destruct (message_to_parent_ok m mask ps ms mp pp d d Hp Hm) as (y' & r & E1 & _ & _ & G).
  { rewrite Esk. apply broadcast_self. }
  { rewrite Em. apply broadcasts_to_refl. }
  { exact Hk. }
  rewrite Ey in E1. injection E1 as <-. rewrite (G e He). apply cone_scal; [apply pos_INR|]. apply fibre_cone.
  intros i Hi. destruct (bget mask _); [now apply Hc|apply cone_zero].
Qed.

Lemma zipM_nth : forall A B C (f : A -> B -> res C) l m r i x y z, zipM f l m = Ok r ->
  nth_error l i = Some x -> nth_error m i = Some y -> nth_error r i = Some z -> f x y = Ok z.
Proof.
  induction l as [|a l IH]; intros [|b m] r i x y z H Hx Hy Hz; try (destruct i; discriminate).
  cbn [zipM] in H. destruct (f a b) as [w|] eqn:E; [|discriminate]. cbn [bind] in H.
  destruct (zipM f l m) as [r'|] eqn:E2; [|discriminate]. cbn [bind] in H. injection H as <-.
  destruct i; cbn in *; [congruence|]. now apply (IH m r' i).
Qed.

Section Total.
Context {pm val : Type}.
Variable D : dist pm val.

Lemma full_shape : forall plates d, check_shape1 plates d (plates ++ d) true = true.
Proof.
  intros plates d. unfold check_shape1. cbn [negb].
  replace (length (plates ++ d) - length d)%nat with (length plates) by (rewrite app_length; lia).
  rewrite skipn_app, Nat.sub_diag, skipn_all2, firstn_app, Nat.sub_diag, firstn_all2 by lia. cbn [skipn firstn app]. rewrite app_nil_r.
  destruct (length d =? 0)%nat; [apply is_shape_subset_spec, broadcasts_to_refl|].
  rewrite (proj2 (is_shape_subset_spec _ _) (broadcasts_to_refl plates)). destruct (list_eq_dec Nat.eq_dec d d); [reflexivity|contradiction].
Qed.

Lemma update_total : forall n mc up prior c, well_shaped n -> step_shaped D n mc up prior ->
  np_all (n_obs n) = false -> broadcasts_to (ash (n_g n)) (n_plates n) ->
  (forall V, fits (n_plates n) (n_dims n) V ->
     all6 (fun d a b m q w => forall e, bget w e = (n_ann n * (bget a e + bget b e + bget m e))%R)
      (n_dims n) prior (n_bias n) (map (np_scaleR c) mc) (n_phi n) V ->
     exists u g, d_moments D V (np_not (n_obs n)) = Ok (u, g) /\
       Forall2 (fun d a => ash a = (n_plates n ++ d)%list) (n_dims n) u /\ broadcasts_to (ash g) (n_plates n)) ->
  exists n', update D n mc up c = (n', Ok tt).
Proof.
  intros n mc up prior c W SSn Hall Bg HT.
  destruct SSn as [H1 H2 H3 H4 H5].
  assert (H4' : Forall2 (bc (n_plates n)) (n_dims n) (map (np_scaleR c) mc)).
  { clear -H4. induction H4; cbn; constructor; auto. }
  destruct (components (n_plates n) (n_ann n) 1 (n_dims n) prior (n_bias n) (map (np_scaleR c) mc) (n_phi n)
      H2 H3 H4' H5)
    as (Q & Q2 & V & QM & Eg & Gg & Sg & E1 & E2 & E3 & E4 & E5 & E6 & E7 & E8 & E8' & E9 & E10).
  assert (EU : update D n mc up c = finish (with_phi n V) (update_moments_and_cgf D (with_phi n V))).
  { unfold update. rewrite Hall. unfold update_distribution, phi_from_parents, prior_phi.
    rewrite H1. cbn [bind]. rewrite E1. cbn [bind]. rewrite E2. cbn [bind]. rewrite E3. reflexivity. }
  rewrite EU. destruct (HT V E8 E10) as (u & g & EM & SH & GB).
  unfold update_moments_and_cgf. cbn [n_obs n_phi with_phi]. rewrite EM. cbn [bind]. unfold set_moments_and_cgf.
  assert (CK : check_shape (with_phi n V) u true = Ok tt).
  { unfold check_shape. cbn [n_dims n_plates with_phi]. rewrite <- (Forall2_len _ _ _ _ _ SH), Nat.eqb_refl. cbn [negb].
    replace (forallb _ _) with true; [reflexivity|]. symmetry. clear -SH.
    induction SH as [|d a dims u E SH IH]; [reflexivity|]. cbn [combine forallb fst snd]. now rewrite E, full_shape, IH. }
  destruct (set_moments_checked (with_phi n V) u (np_not (n_obs n)) true (with_phi_shaped n V W)
     ltac:(apply not_broadcasts, (ws_obs n W)) CK) as (ys & Y1 & Y2).
  rewrite Y1. cbn [bind n_g with_u with_phi].
  destruct (broadcast_exists_of_upper [ash (np_not (n_obs n)); ash g; ash (n_g n)] (n_plates n)) as [J HJ].
  { intros x [<-|[<-|[<-|[]]]]; try assumption. apply not_broadcasts, (ws_obs n W). }
  unfold np_where. rewrite np_bshape_eq, HJ. cbn [bind finish]. eexists. reflexivity.
Qed.
End Total.

Lemma lift_total : forall F plates phi mask,
  (forall p, valid plates p -> exists r, fam_moments F (at_plate (fam_dims F) phi p) = Ok r) ->
  exists u g, lift_moments F plates phi mask = Ok (u, g) /\
    Forall2 (fun d a => ash a = (plates ++ d)%list) (fam_dims F) u /\ broadcasts_to (ash g) plates.
Proof.
  intros F plates phi mask H. unfold lift_moments. replace (forallb _ _) with true.
  - eexists. eexists. split; [reflexivity|]. split; [|apply broadcasts_to_refl].
    generalize (fun p => match fam_moments F (at_plate (fam_dims F) phi p) with Ok r => r | Err _ => ([], 0) end).
    intros G. apply Forall2_of_nth; [rewrite map_length, combine_length, seq_length; lia|].
    intros i d a Hd Ha. erewrite map_nth_error in Ha by (apply combine_seq_nth, Hd). injection Ha as <-. reflexivity.
  - symmetry. apply forallb_forall. intros p Hp. apply all_indices_valid in Hp. destruct (H p Hp) as [r ->]. reflexivity.
Qed.

Section Model.
Variables lg psi : R -> R.
Hypothesis HG : gamma_convex lg psi.
Hypothesis HB : log_beta_convex lg psi.
Variable M : model.
Let net := net_of lg psi M.
Let dom := fun i => kind_dom (md_kind M i).
Let fam i := efam_of lg psi (md_kind M i).

Lemma u_length : forall st i, model_ok lg psi M st -> (i < md_size M)%nat -> length (n_u (st i)) = length (n_dims (st i)).
Proof. intros st i OK Hi. symmetry. apply (Forall2_len _ _ _ _ _ (moments_fit _ (nk_shaped _ _ _ (mo_node _ _ _ _ OK i Hi)))). Qed.

Lemma parents_required : forall st j p k, model_ok lg psi M st -> (j < md_size M)%nat -> valid (n_plates (st j)) p ->
  ranges (nth k (e_pdims (fam j)) []) (required (md_kind M j) k)
    (nth k (at_plates (e_pdims (fam j)) (parent_moments net st j) p) []).
Proof.
  intros st j p k OK Hj Hp. destruct (nth_error (e_pdims (fam j)) k) as [pd|] eqn:Ek.
  - pose proof (mo_arity _ _ _ _ OK j Hj) as AR.
    destruct (nth_total _ _ _ (md_parents M j) k pd (eq_sym AR) Ek) as [i Hi].
    rewrite (nth_error_nth _ _ _ (at_plates_nth _ _ p k pd (n_u (st i)) Ek (parent_moments_nth net st j k i Hi))).
    rewrite (nth_error_nth _ _ _ Ek).
    destruct (mo_link _ _ _ _ OK j k i Hj Hi) as (Hi' & _ & MP & [L1 L2 _ _] & RC). fold (fam j) in L1.
    rewrite (nth_error_nth _ _ _ Ek) in L1. rewrite L1.
    apply (arrays_at_child (n_plates (st i)) (n_plates (st j))); try assumption.
    + intros c d a e Hd Ha He. destruct (md_kind M i) as [|N|N K| |K|ds] eqn:EK;
        try (apply (range_required _ _ _ _ _ MP); [rewrite <- EK in *; congruence|]; rewrite <- EK; now apply (mo_range _ _ _ _ OK i Hi' c d a e Hd Ha)).
      now apply (RC ds eq_refl c d a e).
    + apply moments_fit, (nk_shaped _ _ _ (mo_node _ _ _ _ OK i Hi')).
  - apply nth_error_None in Ek. rewrite nth_overflow by exact Ek. intros c d v Hd. destruct c; discriminate.
Qed.

Lemma model_child_cone : forall st j k i ys, model_ok lg psi M st -> (j < md_size M)%nat ->
  nth_error (md_parents M j) k = Some i -> child_message net st j k = Ok ys ->
  arrays_in (n_plates (st i)) (n_dims (st i)) (cone (md_kind M i)) ys.
Proof.
  intros st j k i ys OK Hj Hk E c d a e Hd Ha He.
  destruct (mo_link _ _ _ _ OK j k i Hj Hk) as (Hi & _ & MP & [L1 L2 L3 L4] & _). fold (fam j) in L1.
  pose proof (mo_node _ _ _ _ OK j Hj) as Nj. pose proof (model_net lg psi M st HG HB OK) as NO.
  unfold child_message in E. cbn [nt_node net net_of nn_fam nn_parents] in E. rewrite (nth_error_nth _ _ _ Hk) in E.
  fold (fam j) in E. set (f := fun p : env => _) in E. rewrite L1 in E.
  destruct (nth_total _ _ _ (lift_arrays (n_plates (st j)) (n_dims (st i)) f) c d ltac:(now rewrite lift_arrays_length) Hd) as [m Hm].
  pose proof (zipM_nth _ _ _ _ _ _ _ c d m a E Hd Hm Ha) as EM.
  destruct (lift_arrays_nth _ _ _ _ _ _ Hd Hm) as [Em Gm].
  apply (message_to_parent_cone (md_kind M i) c m _ _ _ _ _ _ _ Em L2 L3 (nk_mask _ _ _ Nj) EM); [|exact He].
  intros x Hx.
  set (p := plate_of (length d) x). set (v := fun l => if (l <? length d)%nat then x l else 0%nat).
  assert (Hp : valid (n_plates (st j)) p).
  { intros l. specialize (Hx (l + length d)%nat). rewrite ax_app in Hx.
    replace (l + length d <? length d)%nat with false in Hx by (symmetry; apply Nat.ltb_ge; lia).
    now replace (l + length d - length d)%nat with l in Hx by lia. }
  assert (Hv : valid d v).
  { intros l. unfold v. specialize (Hx l). rewrite ax_app in Hx. destruct (Nat.ltb_spec l (length d)); [exact Hx|].
    rewrite ax_overflow by lia. lia. }
  replace x with (join (length d) p v).
  2:{ apply functional_extensionality. intros l. unfold join, p, v, plate_of. destruct (Nat.ltb_spec l (length d)); [reflexivity|]. f_equal. lia. }
  rewrite (Gm p v Hp Hv). change (cone (md_kind M i) c (entry (f p) c v)).
  assert (R : ranges (n_dims (st i)) (cone (md_kind M i)) (f p)).
  { rewrite <- L1. unfold f, fam. apply message_cone.
    - exact MP.
    - rewrite <- (mo_arity _ _ _ _ OK j Hj). apply nth_error_Some. congruence.
    - apply at_plate_length. rewrite (u_length st j OK Hj). f_equal. apply (nk_dims _ _ _ Nj).
    - apply (moments_of_parents net dom st j p NO Hj).
    - apply (arrays_at (n_plates (st j))); [|rewrite (u_length st j OK Hj); f_equal; apply (nk_dims _ _ _ Nj)|exact Hp].
      rewrite <- (nk_dims _ _ _ Nj). exact (mo_range _ _ _ _ OK j Hj).
    - intros k'. apply (parents_required st j p k' OK Hj Hp). }
  apply (R c d v Hd Hv).
Qed.

Lemma add_cone : forall kd plates dims A B C, zipM np_add A B = Ok C -> fits plates dims A -> fits plates dims B ->
  arrays_in plates dims (cone kd) A -> arrays_in plates dims (cone kd) B -> arrays_in plates dims (cone kd) C.
Proof.
  intros kd plates dims A B C E FA FB HA HC c d a e Hd Hc He.
  destruct (nth_total _ _ _ A c d (Forall2_len _ _ _ _ _ FA) Hd) as [x Hx].
  destruct (nth_total _ _ _ B c d (Forall2_len _ _ _ _ _ FB) Hd) as [y Hy].
  pose proof (zipM_nth _ _ _ _ _ _ _ c x y a E Hx Hy Hc) as EM.
  destruct (map2_exists _ _ _ Rplus x y _ (Forall2_to_nth _ _ _ _ _ FA c d x Hd Hx) (Forall2_to_nth _ _ _ _ _ FB c d y Hd Hy))
    as (z & E1 & _ & _ & G). unfold np_add in EM. rewrite E1 in EM. injection EM as <-. rewrite G.
  apply cone_add; [now apply (HA c d x)|now apply (HC c d y)].
Qed.

Lemma model_add_cone : forall st i l acc m, model_ok lg psi M st ->
  (forall jk, In jk l -> (fst jk < md_size M)%nat /\ nth_error (md_parents M (fst jk)) (snd jk) = Some i) ->
  fits (n_plates (st i)) (n_dims (st i)) acc -> arrays_in (n_plates (st i)) (n_dims (st i)) (cone (md_kind M i)) acc ->
  add_messages net st l acc = Ok m -> arrays_in (n_plates (st i)) (n_dims (st i)) (cone (md_kind M i)) m.
Proof.
  intros st i l. induction l as [|[j k] l IH]; intros acc m OK H FA CA E; cbn [add_messages] in E.
  - injection E as <-. exact CA.
  - destruct (H (j, k) (or_introl eq_refl)) as [Hj Hk]. cbn [fst snd] in Hj, Hk.
    destruct (child_message_ok net dom st j k i (model_net lg psi M st HG HB OK) Hj Hk) as (ys & E1 & Fy & _).
    rewrite E1 in E. cbn [bind] in E. destruct (add_fits _ _ _ _ FA Fy) as (acc' & E2 & F2). rewrite E2 in E. cbn [bind] in E.
    apply (IH acc' m OK (fun jk J => H jk (or_intror J)) F2); [|exact E].
    apply (add_cone _ _ _ _ _ _ E2 FA Fy CA). now apply (model_child_cone st j k).
Qed.

Lemma model_messages_cone : forall st i m, model_ok lg psi M st -> message_from_children net st i = Ok m ->
  arrays_in (n_plates (st i)) (n_dims (st i)) (cone (md_kind M i)) m.
Proof.
  intros st i m OK E. apply (model_add_cone st i _ _ m OK (children_of_spec net i)) in E; [exact E| |].
  - clear. induction (n_dims (st i)) as [|d dims IH]; constructor; [|exact IH]. cbn [ash]. split; [rewrite app_length; lia|].
    intros k. rewrite ax_app. destruct (Nat.ltb_spec k (length d)); [now right|left; now apply ax_overflow].
  - intros c d a e Hd Ha He. rewrite (map_nth_error _ _ _ Hd) in Ha. injection Ha as <-. apply cone_zero.
Qed.

Lemma prior_ranges : forall st i, model_ok lg psi M st -> (i < md_size M)%nat ->
  arrays_in (n_plates (st i)) (n_dims (st i)) (strict (md_kind M i))
    (lift_arrays (n_plates (st i)) (fam_dims (e_fam (fam i)))
       (fun p => e_phi (fam i) (at_plates (e_pdims (fam i)) (parent_moments net st i) p))).
Proof.
  intros st i OK Hi c d a x Hd Ha Hx. pose proof (mo_node _ _ _ _ OK i Hi) as Ni. fold (fam i) in Ni.
  rewrite (nk_dims _ _ _ Ni) in Hd. destruct (lift_arrays_nth _ _ _ _ _ _ Hd Ha) as [_ G].
  set (p := plate_of (length d) x). set (v := fun l => if (l <? length d)%nat then x l else 0%nat).
  assert (Hp : valid (n_plates (st i)) p).
  { intros l. specialize (Hx (l + length d)%nat). rewrite ax_app in Hx.
    replace (l + length d <? length d)%nat with false in Hx by (symmetry; apply Nat.ltb_ge; lia).
    now replace (l + length d - length d)%nat with l in Hx by lia. }
  assert (Hv : valid d v).
  { intros l. unfold v. specialize (Hx l). rewrite ax_app in Hx. destruct (Nat.ltb_spec l (length d)); [exact Hx|].
    rewrite ax_overflow by lia. lia. }
  replace x with (join (length d) p v).
  2:{ apply functional_extensionality. intros l. unfold join, p, v, plate_of. destruct (Nat.ltb_spec l (length d)); [reflexivity|]. f_equal. lia. }
  rewrite (G p v Hp Hv). change (strict (md_kind M i) c (entry (e_phi (fam i) (at_plates (e_pdims (fam i)) (parent_moments net st i) p)) c v)).
  assert (Q : ranges (fam_dims (e_fam (fam i))) (strict (md_kind M i)) (e_phi (fam i) (at_plates (e_pdims (fam i)) (parent_moments net st i) p))).
  { unfold fam. apply prior_strict.
    - apply (moments_of_parents net dom st i p (model_net lg psi M st HG HB OK) Hi).
    - intros k'. now apply parents_required. }
  now apply (Q c d v).
Qed.

Lemma model_step : forall st i, model_ok lg psi M st -> (i < md_size M)%nat ->
  exists st', vb_update1 net st i = Ok st' /\ model_ok lg psi M st' /\
    (np_all (n_obs (st i)) = true \/
     proper_at (e_fam (fam i)) (dom i) (n_plates (st i)) (n_phi (st' i))).
Proof.
  intros st i OK Hi. pose proof (model_net lg psi M st HG HB OK) as NO. fold net in NO.
  pose proof (mo_node _ _ _ _ OK i Hi) as N. fold (fam i) in N. fold dom in NO.
  destruct (message_from_children_ok net dom st i NO) as (m & Em & Fm & _).
  pose proof (model_messages_cone st i m OK Em) as Cm.
  unfold vb_update1. rewrite Em. cbn [bind].
  set (D := dist_of net st i). set (ups := parent_moments net st i).
  destruct (np_all (n_obs (st i))) eqn:Hobs.
  { unfold update. rewrite Hobs. exists (set_node st i (st i)). split; [reflexivity|].
    replace (set_node st i (st i)) with st; [split; [exact OK|now left]|]. apply functional_extensionality. intros j.
    unfold set_node. now destruct (Nat.eqb_spec j i) as [->|]. }
  assert (NC : forall dims, md_kind M i <> KConstant dims).
  { intros dims E. pose proof (mo_constant _ _ _ _ OK i dims Hi E). congruence. }
  set (prior := lift_arrays (n_plates (st i)) (fam_dims (e_fam (fam i))) (fun p => e_phi (fam i) (at_plates (e_pdims (fam i)) ups p))).
  pose proof (node_shaped (fam i) (dom i) (st i) ups N) as B. fold prior in B.
  assert (SSn : step_shaped D (st i) m ups prior).
  { constructor; [reflexivity|apply (bs_prior _ _ _ B)| |exact Fm|apply (nk_phi _ _ _ N)].
    pose proof (nk_bias _ _ _ N) as NB. unfold no_bias in NB. revert NB. generalize (n_dims (st i)) (n_bias (st i)). clear.
    intros l b H. induction H as [|d x l b [E _] H IH]; constructor; [rewrite E; apply broadcasts_to_nil|exact IH]. }
  pose proof (prior_ranges st i OK Hi) as PR. fold ups prior in PR.
  assert (RV : forall V, fits (n_plates (st i)) (n_dims (st i)) V ->
     all6 (fun d a b m q w => forall e, bget w e = (n_ann (st i) * (bget a e + bget b e + bget m e))%R)
      (n_dims (st i)) prior (n_bias (st i)) (map (np_scaleR 1) m) (n_phi (st i)) V ->
     forall p, valid (n_plates (st i)) p ->
     kind_dom (md_kind M i) (at_plate (fam_dims (e_fam (fam i))) V p) /\
     exists u g, fam_moments (e_fam (fam i)) (at_plate (fam_dims (e_fam (fam i))) V p) = Ok (u, g) /\
       ranges (fam_dims (e_fam (fam i))) (moment_range (md_kind M i)) u).
  { intros V FV A6 p Hp. apply moments_total; [apply (mo_kind _ _ _ _ OK i Hi)|exact NC| |]; fold (fam i).
    - apply at_plate_length. rewrite <- (nk_dims _ _ _ N). symmetry. apply (Forall2_len _ _ _ _ _ FV).
    - rewrite <- (nk_dims _ _ _ N). apply (arrays_at (n_plates (st i))); [|symmetry; apply (Forall2_len _ _ _ _ _ FV)|exact Hp].
      intros c d w e Hd Hw He.
      destruct (nth_total _ _ _ prior c d (Forall2_len _ _ _ _ _ (bs_prior _ _ _ B)) Hd) as [a Ha].
      destruct (nth_total _ _ _ (n_bias (st i)) c d (Forall2_len _ _ _ _ _ (nk_bias _ _ _ N)) Hd) as [b Hb].
      destruct (nth_total _ _ _ m c d (Forall2_len _ _ _ _ _ Fm) Hd) as [y Hy].
      destruct (nth_total _ _ _ (n_phi (st i)) c d (Forall2_len _ _ _ _ _ (nk_phi _ _ _ N)) Hd) as [q Hq].
      rewrite (all6_nth _ _ _ _ _ _ _ A6 c d a b (np_scaleR 1 y) q w Hd Ha Hb (map_nth_error _ _ _ Hy) Hq Hw e).
      destruct (Forall2_to_nth _ _ _ _ _ (nk_bias _ _ _ N) c d b Hd Hb) as [_ Zb]. rewrite Zb, Rplus_0_r, bget_scaleR, Rmult_1_l.
      apply strict_add; [apply (nk_ann _ _ _ N)|now apply (PR c d a e)|now apply (Cm c d y e)]. }
  destruct (update_total D (st i) m ups prior 1 (nk_shaped _ _ _ N) SSn Hobs (nk_g _ _ _ N)) as [n' EU].
  { intros V FV A6. rewrite (nk_dims _ _ _ N). apply (lift_total (e_fam (fam i))). intros p Hp.
    destruct (RV V FV A6 p Hp) as (_ & u & g & E & _). exists (u, g). exact E. }
  rewrite EU. exists (set_node st i n'). split; [reflexivity|].
  assert (HS : vb_update1 net st i = Ok (set_node st i n')).
  { unfold vb_update1. rewrite Em. cbn [bind]. fold D ups. now rewrite EU. }
  destruct (update_shape D (st i) m ups prior 1 n' (nk_shaped _ _ _ N) SSn Hobs EU)
    as (V & u & g & ys & gg & En & FV & LIN & EM & MX & EG & W').
  assert (PP : proper_at (e_fam (fam i)) (dom i) (n_plates (st i)) (n_phi (set_node st i n' i))).
  { rewrite set_node_same, En. cbn [n_phi with_g with_u with_phi]. intros p Hp. apply (RV V FV LIN p Hp). }
  split; [|right; exact PP].
  destruct (update_step net dom st i _ NO Hi HS (or_intror PP)) as [NO' _].
  assert (Qs : n_plates n' = n_plates (st i) /\ n_dims n' = n_dims (st i) /\ n_mult n' = n_mult (st i) /\
    n_mask n' = n_mask (st i) /\ n_obs n' = n_obs (st i) /\ n_u n' = ys) by (rewrite En; now repeat split).
  destruct Qs as (Q1 & Q2 & Q3 & Q4 & Q5 & Q6).
  assert (SN : forall j, n_plates (set_node st i n' j) = n_plates (st j) /\ n_dims (set_node st i n' j) = n_dims (st j) /\
    n_mult (set_node st i n' j) = n_mult (st j) /\ n_mask (set_node st i n' j) = n_mask (st j) /\ n_obs (set_node st i n' j) = n_obs (st j)).
  { intros j. destruct (Nat.eq_dec j i) as [->|Ne]; [rewrite set_node_same|rewrite set_node_other by exact Ne]; now repeat split. }
  destruct OK as [K1 K2 K3 K4 K5 K6 K7]. constructor; try assumption.
  - intros j Hj. apply (no_node _ _ _ NO' j Hj).
  - intros j ds Hj E. destruct (SN j) as (_ & _ & _ & _ & ->). now apply (K3 j ds).
  - intros j Hj. destruct (Nat.eq_dec j i) as [->|Ne]; [|rewrite set_node_other by exact Ne; now apply K4].
    rewrite set_node_same. intros c d a e Hd Ha He. rewrite Q1 in He. rewrite Q2 in Hd. rewrite Q6 in Ha.
    destruct (mixed_nth _ _ _ _ _ _ MX) as [(L1 & L2 & L3) NT].
    destruct (nth_total _ _ _ u c d (eq_sym L1) Hd) as [w Hw].
    destruct (nth_total _ _ _ (n_u (st i)) c d (eq_sym L2) Hd) as [b Hb].
    rewrite (NT c d w b a Hd Hw Hb Ha e He). destruct (bget (np_not (n_obs (st i))) _); [|now apply (K4 i Hi c d b e)].
    set (p := plate_of (length d) e). set (v := fun l => if (l <? length d)%nat then e l else 0%nat).
    assert (Hp : valid (n_plates (st i)) p).
    { intros l. specialize (He (l + length d)%nat). rewrite ax_app in He.
      replace (l + length d <? length d)%nat with false in He by (symmetry; apply Nat.ltb_ge; lia).
      now replace (l + length d - length d)%nat with l in He by lia. }
    assert (Hv : valid d v).
    { intros l. unfold v. specialize (He l). rewrite ax_app in He. destruct (Nat.ltb_spec l (length d)); [exact He|].
      rewrite ax_overflow by lia. lia. }
    replace e with (join (length d) p v).
    2:{ apply functional_extensionality. intros l. unfold join, p, v, plate_of. destruct (Nat.ltb_spec l (length d)); [reflexivity|]. f_equal. lia. }
    destruct (lift_ok _ _ _ _ _ _ EM) as [_ LO]. destruct (LO p Hp) as (us & E1 & _ & Gu).
    change (nn_fam (nt_node net i)) with (fam i) in E1, Gu.
    rewrite (nk_dims _ _ _ N) in Hd. destruct (Gu c d Hd) as (w' & Hw' & Gv). rewrite Hw in Hw'. injection Hw' as <-. rewrite (Gv v Hv).
    destruct (RV V FV LIN p Hp) as (_ & u2 & g2 & E2 & R2). rewrite E1 in E2. injection E2 as <- <-.
    apply (R2 c d v Hd Hv).
  - intros j k x Hj Hk. destruct (K7 j k x Hj Hk) as (A1 & A2 & A3 & [L1 L2 L3 L4] & A5).
    destruct (SN j) as (J1 & J2 & J3 & J4 & J5). destruct (SN x) as (X1 & X2 & X3 & X4 & X5).
    split; [exact A1|]. split; [exact A2|]. split; [exact A3|]. split.
    + constructor; [now rewrite X2|now rewrite X1, J1|now rewrite X3, J3|now rewrite J1, J4, X4].
    + intros ds E. destruct (Nat.eq_dec x i) as [->|Ne]; [exfalso; now apply (NC ds)|]. rewrite set_node_other by exact Ne. now apply (A5 ds).
Qed.

Lemma model_run : forall l st, model_ok lg psi M st -> (forall i, In i l -> (i < md_size M)%nat) ->
  exists st', vb_updates net st l = Ok st' /\ model_ok lg psi M st' /\ stays_proper net dom st l.
Proof.
  induction l as [|i l IH]; intros st OK Hl.
  - exists st. split; [reflexivity|]. split; [exact OK|exact I].
  - destruct (model_step st i OK (Hl i (or_introl eq_refl))) as (st1 & E1 & OK1 & P1).
    destruct (IH st1 OK1 (fun j J => Hl j (or_intror J))) as (st' & E2 & OK2 & SP).
    exists st'. cbn [vb_updates]. rewrite E1. cbn [bind]. split; [exact E2|]. split; [exact OK2|].
    cbn [stays_proper]. intros s Hs. rewrite E1 in Hs. injection Hs as <-. split; [exact P1|exact SP].
Qed.
End Model.

(** C25: in a model made of Poisson, binomial, categorical/multinomial, gamma and
    Dirichlet nodes with conjugate parents or constants, with plates, masks and
    partial observations, VB.update never raises, keeps the model well-formed and
    never decreases the lower bound, for every schedule of updates. *)
Theorem C25_models : forall lg psi M st schedule nan, gamma_convex lg psi -> log_beta_convex lg psi ->
  model_ok lg psi M st -> (forall i, In i schedule -> (i < md_size M)%nat) ->
  exists st' L L',
    vb_updates (net_of lg psi M) st schedule = Ok st' /\ model_ok lg psi M st' /\
    compute_lowerbound (net_of lg psi M) nan st = Ok L /\
    compute_lowerbound (net_of lg psi M) nan st' = Ok L' /\ L <= L'.
Proof.
  intros lg psi M st l nan HG HB OK Hl. destruct (model_run lg psi HG HB M l st OK Hl) as (st' & E & OK' & SP).
  destruct (C25_network (net_of lg psi M) _ st l st' nan (model_net lg psi M st HG HB OK) Hl SP E) as (L & L' & E1 & E2 & LE).
  exists st', L, L'. split; [exact E|]. split; [exact OK'|]. split; [exact E1|]. split; [exact E2|exact LE].
Qed.
Print Assumptions C25_models.

(** A Poisson regression with one rate and two counts, the second one missing: a gamma
    prior with shape 3 and rate 2 (constants), started at gamma(1, 1). *)
Definition counts_model : model := Model 4
  (fun i => match i with 0 | 1 => KConstant [[]; []] | 2 => KGamma | _ => KPoisson end)%nat
  (fun i => match i with 2 => [0; 1] | 3 => [2] | _ => [] end)%nat.
Definition counts_state (lg psi : R -> R) : nstate := fun i =>
  let c x : arr R := Arr [] (fun _ => x) in
  let b x : arr bool := Arr [] (fun _ => x) in
  match i with
  | O => EF [] [[]; []] [c 3; c (lg 3)] [c 0; c 0] (c 0) (c 0) (b true) (b true) [c 0; c 0] 1 []
  | S O => EF [] [[]; []] [c 2; c (ln 2)] [c 0; c 0] (c 0) (c 0) (b true) (b true) [c 0; c 0] 1 []
  | S (S O) => EF [] [[]; []] [c 1; c (psi 1)] [c (-1); c 1] (c (- lg 1)) (c 0) (b false) (b true) [c 0; c 0] 1 []
  | _ => EF [2%nat] [[]] [Arr [2%nat] (fun e => if (e 0 =? 0)%nat then 4 else 1)] [Arr [2%nat] (fun _ => 0)] (c (-1))
           (c (- lg 5)) (Arr [2%nat] (fun e => (e 0 =? 0)%nat)) (Arr [2%nat] (fun e => (e 0 =? 0)%nat)) [c 0] 1 []
  end.

Ltac node_shape := match goal with
  | |- broadcasts_to ?s ?s => apply broadcasts_to_refl
  | |- broadcasts_to [] _ => apply broadcasts_to_nil
  | |- moment_array _ _ _ => split; [reflexivity|split; [apply broadcasts_to_refl|intros k Hk; cbn in Hk; lia]]
  | |- well_shaped _ => constructor; cbn
  | |- fits _ _ _ => unfold fits; cbn
  | |- no_bias _ => unfold no_bias; cbn
  | |- Forall2 _ _ _ => constructor
  | |- _ /\ _ => split; [reflexivity|intros; reflexivity]
  end.

Example C25_counts : forall lg psi, model_ok lg psi counts_model (counts_state lg psi).
Proof.
  intros lg psi.
  assert (I4 : forall P : nat -> Prop, P 0%nat -> P 1%nat -> P 2%nat -> P 3%nat -> forall i, (i < md_size counts_model)%nat -> P i).
  { intros P P0 P1 P2 P3 i Hi. destruct i as [|[|[|[|]]]]; try assumption. cbn in Hi. lia. }
  constructor.
  - apply I4; exact I.
  - apply I4; (constructor; cbn; try lra; try reflexivity; repeat node_shape). all: try (now left). all: try (cbn; apply broadcasts_to_refl). all: right; split.
    + exists [Arr [] (fun _ => 1 / - -1); Arr [] (fun _ => psi 1 - ln (- -1))], (Arr [] (fun _ => 1 * ln (- -1) - lg 1)).
      split; [|split].
      * cbn. unfold lift_moments. cbn. unfold gamma_moments. cbn. destruct (Rle_dec (- -1) 0) as [L|L]; [lra|]. cbn.
        destruct (Rle_dec (- -1) 0) as [L'|L']; [lra|]. reflexivity.
      * split; [reflexivity|]. split; [reflexivity|]. replace (- -1) with 1 by ring. rewrite ln_1.
        intros [|[|[|i]]] d a b Hd Ha Hb e He _; try discriminate; cbn in Ha, Hb; injection Ha as <-; injection Hb as <-; cbn; lra.
      * intros p _ _. cbn. replace (- -1) with 1 by ring. rewrite ln_1. lra.
    + intros p _. cbn. lra.
    + exists [Arr [2%nat] (fun _ => exp 0)], (Arr [2%nat] (fun _ => - exp 0)).
      split; [|split].
      * reflexivity.
      * split; [reflexivity|]. split; [reflexivity|]. rewrite exp_0.
        intros [|[|i]] d a b Hd Ha Hb e He Ho; try discriminate; cbn in Ha, Hb; injection Ha as <-; injection Hb as <-. cbn in Hd.
        injection Hd as <-. cbn in Ho. unfold plate_of, clip in Ho. cbn in Ho. unfold bget, clip. cbn.
        now destruct (e 0%nat).
      * intros p _ _. cbn. rewrite exp_0. lra.
    + intros p _. exact I.
  - intros i ds Hi. revert ds. apply (I4 (fun i => forall ds, md_kind counts_model i = KConstant ds -> np_all (n_obs (counts_state lg psi i)) = true)); [| | | |exact Hi]; intros ds E; try discriminate; reflexivity.
  - apply I4; intros [|[|[|c]]] d a e Hd Ha He; try discriminate; cbn in Ha; injection Ha as <-; cbn; try exact I; try lra.
    unfold bget. cbn. destruct (_ =? _)%nat; lra.
  - apply I4; reflexivity.
  - apply I4; cbn; repeat constructor; cbn; intuition discriminate.
  - intros j k i Hj. revert k i. pattern j. apply I4; [| | | |exact Hj]; intros [|[|k]] i Hk; cbn in Hk; try discriminate; try (destruct k; discriminate); injection Hk as <-;
      (split; [cbn; lia|]); (split; [discriminate|]); (split; [exact I|]); split.
    + constructor; cbn; try reflexivity; try apply broadcasts_to_refl.
    + intros ds _ [|[|[|c]]] d a e Hd Ha He; try discriminate; cbn in Ha; injection Ha as <-; cbn; try exact I; lra.
    + constructor; cbn; try reflexivity; try apply broadcasts_to_refl.
    + intros ds _ [|[|[|c]]] d a e Hd Ha He; try discriminate; cbn in Ha; injection Ha as <-; cbn; try exact I; lra.
    + constructor; cbn; try reflexivity; try apply broadcasts_to_nil.
    + intros ds E. discriminate.
Qed.
