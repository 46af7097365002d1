(** C24: the families of Families.v and Markov.v satisfy Gibbs' inequality as
    distribution objects on arrays, so updates of their nodes maximise the bound
    (PUpdate.v). *)
From Coq Require Import List Arith ZArith Lia Bool Reals Lra FunctionalExtensionality.
From Verif Require Import Base Shapes SpecShapes ShapesLemmas NumPy MiscArray TensorLemmas
  EinsumLemmas SumMultiplyLemmas SpecArray PlateSumLemmas PlateSum2Lemmas MessageLemmas
  ShapeOpsLemmas DiagLemmas ExpFam SpecExpFam ExpFamLemmas ExpFamBound ExpFamGrad PExpFam SpecUpdate
  UpdateLemmas ExtReal Families SpecFamilies FamiliesLemmas FamiliesLemmas2 PFamilies2
  Markov SpecMarkov MarkovLemmas MarkovLemmas2 PMarkov FamilyDist SpecFamilyDist PUpdate.
Import ListNotations.
Open Scope nat_scope.

Definition inner (nd : nat) (e : env) : env := fun k => if k <? nd then e k else 0.
Lemma inner_join : forall d p v, valid d v -> inner (length d) (join (length d) p v) = v.
Proof.
  intros d p v Hv. apply functional_extensionality. intros k. unfold inner, join.
  destruct (Nat.ltb_spec k (length d)); [reflexivity|]. specialize (Hv k). rewrite ax_overflow in Hv by lia. lia.
Qed.

Lemma at_plate_length : forall dims phi p, length phi = length dims -> length (at_plate dims phi p) = length dims.
Proof. intros. unfold at_plate. rewrite map_length, combine_length. lia. Qed.

Lemma lift_ok : forall F plates phi mask u g, lift_moments F plates phi mask = Ok (u, g) ->
  ash g = plates /\
  forall p, valid plates p -> exists us, fam_moments F (at_plate (fam_dims F) phi p) = Ok (us, bget g p) /\
    length u = length (fam_dims F) /\
    forall i d, nth_error (fam_dims F) i = Some d -> exists a, nth_error u i = Some a /\
      forall v, valid d v -> bget a (join (length d) p v) = nth i us (fun _ => 0%R) v.
Proof.
  intros F plates phi mask u g H. unfold lift_moments in H.
  destruct (forallb _ _) eqn:A; [|discriminate]. injection H as <- <-. split; [reflexivity|].
  intros p Hp. rewrite forallb_forall in A. specialize (A p (all_indices_complete _ _ Hp)).
  destruct (fam_moments F (at_plate (fam_dims F) phi p)) as [[us g]|] eqn:E; [|discriminate].
  exists us. split; [|split].
  - f_equal. f_equal. unfold bget. cbn [ash aget]. rewrite clip_valid_id by exact Hp. now rewrite E.
  - rewrite map_length, combine_length, seq_length. lia.
  - intros i d Hd. eexists. split.
    + apply map_nth_error with (d := (i, d)). clear -Hd.
      enough (G : forall m, nth_error (combine (seq m (length (fam_dims F))) (fam_dims F)) i = Some (m + i, d)) by apply G.
      revert i Hd. induction (fam_dims F) as [|d0 l IH]; intros [|i] Hd m; try discriminate; cbn in *.
      * injection Hd as ->. now rewrite Nat.add_0_r.
      * rewrite (IH i Hd). f_equal. f_equal. lia.
    + intros v Hv. unfold bget. cbn [ash aget fst snd].
      rewrite clip_valid_id by (apply join_valid; assumption).
      replace (fun k => join (length d) p v (k + length d)) with p by (symmetry; apply join_plate).
      rewrite E. cbn [fst]. f_equal. now apply inner_join.
Qed.

Lemma dot_fdot : forall dims phi u us p, length phi = length dims -> length u = length dims ->
  length us = length dims ->
  (forall i d a, nth_error dims i = Some d -> nth_error u i = Some a ->
      forall v, valid d v -> bget a (join (length d) p v) = nth i us (fun _ => 0%R) v) ->
  dot_at dims phi u p = fdot dims (at_plate dims phi p) us.
Proof.
  induction dims as [|d dims IH]; intros [|a phi] [|x u] [|y us] p L1 L2 L3 H; try discriminate; [reflexivity|].
  cbn [dot_at]. unfold at_plate. cbn [combine map fst snd fdot]. f_equal.
  - apply total_ext. intros v Hv. f_equal. apply (H 0 d x eq_refl eq_refl v Hv).
  - apply IH; try (cbn in *; lia). intros i d' a' Hd Ha. apply (H (S i) d' a' Hd Ha).
Qed.

Lemma lift_gibbs : forall pm val (D : dist pm val) F dom plates, d_moments D = lift_moments F plates ->
  fam_gibbs F dom -> gibbs D plates (fam_dims F) (proper_at F dom plates).
Proof.
  intros pm val D F dom plates ED G phi phi' mask u g u' g' F1 F2 P1 P2 E1 E2. rewrite ED in E1, E2.
  destruct (lift_ok _ _ _ _ _ _ E1) as [S1 H1]. destruct (lift_ok _ _ _ _ _ _ E2) as [S2 H2].
  split; [rewrite S1; apply broadcasts_to_refl|]. intros p Hp _.
  destruct (H1 p Hp) as (us & M1 & L1 & N1). destruct (H2 p Hp) as (us' & M2 & L2 & N2).
  assert (Lf : length phi = length (fam_dims F)) by (symmetry; apply (Forall2_len _ _ _ _ _ F1)).
  assert (Lf' : length phi' = length (fam_dims F)) by (symmetry; apply (Forall2_len _ _ _ _ _ F2)).
  destruct (G _ _ _ _ _ _ (at_plate_length _ _ p Lf) (at_plate_length _ _ p Lf') (P1 p Hp) (P2 p Hp) M1 M2) as [Lu KL].
  rewrite !(dot_fdot _ _ u us p); try assumption.
  - intros i d a Hd Ha v Hv. destruct (N1 i d Hd) as (a' & Ha' & Q). rewrite Ha in Ha'. injection Ha' as <-. now apply Q.
  - intros i d a Hd Ha v Hv. destruct (N1 i d Hd) as (a' & Ha' & Q). rewrite Ha in Ha'. injection Ha' as <-. now apply Q.
Qed.

Lemma lift_strict : forall pm val (D : dist pm val) F dom plates, d_moments D = lift_moments F plates ->
  fam_gibbs F dom -> fam_strict F dom -> strict_gibbs D plates (fam_dims F) (proper_at F dom plates).
Proof.
  intros pm val D F dom plates ED G ST phi phi' mask u g u' g' F1 F2 P1 P2 E1 E2 p Hp _ Z. rewrite ED in E1, E2.
  destruct (lift_ok _ _ _ _ _ _ E1) as [S1 H1]. destruct (lift_ok _ _ _ _ _ _ E2) as [S2 H2].
  destruct (H1 p Hp) as (us & M1 & L1 & N1). destruct (H2 p Hp) as (us' & M2 & L2 & N2).
  assert (Lf : length phi = length (fam_dims F)) by (symmetry; apply (Forall2_len _ _ _ _ _ F1)).
  assert (Lf' : length phi' = length (fam_dims F)) by (symmetry; apply (Forall2_len _ _ _ _ _ F2)).
  destruct (G _ _ _ _ _ _ (at_plate_length _ _ p Lf) (at_plate_length _ _ p Lf') (P1 p Hp) (P2 p Hp) M1 M2) as [Lu _].
  rewrite !(dot_fdot _ _ u us p) in Z; try assumption.
  2,3: intros i d a Hd Ha v Hv; destruct (N1 i d Hd) as (a' & Ha' & Q); rewrite Ha in Ha'; injection Ha' as <-; now apply Q.
  destruct (ST _ _ _ _ _ _ (at_plate_length _ _ p Lf) (at_plate_length _ _ p Lf') (P1 p Hp) (P2 p Hp) M1 M2 Z) as (_ & _ & EQ).
  intros i d a b Hd Ha Hb v Hv. destruct (N1 i d Hd) as (a' & Ha' & Q). rewrite Ha in Ha'. injection Ha' as <-.
  destruct (N2 i d Hd) as (b' & Hb' & Q'). rewrite Hb in Hb'. injection Hb' as <-.
  rewrite Q, Q' by exact Hv. now apply (EQ i d v).
Qed.

Lemma total_0d : forall F, total [] F = F env0.
Proof. intros F. unfold total, all_indices. cbn. lra. Qed.
Lemma total_1d : forall K F, total [K] F = rsum K (fun i => F (upd env0 0 i)).
Proof. intros K F. rewrite total_iter. reflexivity. Qed.
Lemma total_3d : forall a b c F, total [a; b; c] F =
  rsum a (fun n => rsum b (fun i => rsum c (fun j => F (upd (upd (upd env0 2 n) 1 i) 0 j)))).
Proof.
  intros a b c F. rewrite total_iter. cbn [length seq map]. unfold itersum. cbn [fold_right fst snd].
  change (ax [a; b; c] 0) with c. change (ax [a; b; c] 1) with b. change (ax [a; b; c] 2) with a. unfold sumax.
  rewrite rsum_swap. rewrite (rsum_ext b _ (fun i => rsum a (fun n => rsum c (fun j =>
     F (upd (upd (upd env0 0 j) 1 i) 2 n))))) by (intros; apply rsum_swap).
  rewrite rsum_swap. apply rsum_ext. intros n _. apply rsum_ext. intros i _. apply rsum_ext. intros j _.
  f_equal. apply functional_extensionality. intros k. unfold upd.
  destruct (Nat.eqb_spec k 2), (Nat.eqb_spec k 1), (Nat.eqb_spec k 0); try reflexivity; lia.
Qed.

(** ** Gibbs' inequality for the families *)
Open Scope R_scope.

Definition anything {A} (_ : A) : Prop := True.

Lemma rsum_eq_pointwise : forall K f g, (forall i, (i < K)%nat -> f i <= g i) -> rsum K f = rsum K g ->
  forall i, (i < K)%nat -> f i = g i.
Proof.
  induction K as [|K IH]; intros f g H E i Hi; [lia|]. cbn in E.
  assert (A : rsum K f <= rsum K g) by (apply rsum_le; intros; apply H; lia).
  assert (B : f K <= g K) by (apply H; lia).
  destruct (Nat.eq_dec i K) as [->|N]; [lra|]. apply IH; [intros; apply H; lia|lra|lia].
Qed.

Lemma ln_tangent_eq : forall x, 0 < x -> ln x = x - 1 -> x = 1.
Proof.
  intros x Hx E. destruct (Req_dec (ln x) 0) as [Z|N]; [lra|].
  pose proof (exp_ineq1 (ln x) N) as H. rewrite exp_ln in H by exact Hx. lra.
Qed.

(** Equality in Gibbs' inequality for the softmax: the same probabilities. *)
Lemma softmax_strict : forall K phi phi', (0 < K)%nat ->
  ln (sumexp K phi') = ln (sumexp K phi) + rsum K (fun i => (phi' i - phi i) * (exp (phi i) / sumexp K phi)) ->
  forall i, (i < K)%nat -> exp (phi i) / sumexp K phi = exp (phi' i) / sumexp K phi'.
Proof.
  intros K phi phi' HK E. pose proof (sumexp_pos K phi HK) as P. pose proof (sumexp_pos K phi' HK) as P'.
  set (w := fun i => exp (phi i) / sumexp K phi) in *. set (w' := fun i => exp (phi' i) / sumexp K phi').
  assert (Hw : forall i, 0 < w i) by (intros; apply Rdiv_lt_0_compat; [apply exp_pos|exact P]).
  assert (Hw' : forall i, 0 < w' i) by (intros; apply Rdiv_lt_0_compat; [apply exp_pos|exact P']).
  assert (S1 : rsum K w = 1) by (unfold w, Rdiv; rewrite rsum_scal_r; fold (sumexp K phi); field; lra).
  assert (S1' : rsum K w' = 1) by (unfold w', Rdiv; rewrite rsum_scal_r; fold (sumexp K phi'); field; lra).
  assert (LR : forall i, ln (w' i / w i) = (phi' i - phi i) - (ln (sumexp K phi') - ln (sumexp K phi))).
  { intros i. rewrite ln_div by auto. unfold w, w'. rewrite !ln_div by (auto using exp_pos). rewrite !ln_exp. ring. }
  assert (EQ : forall i, (i < K)%nat -> w i * ln (w' i / w i) = w' i - w i).
  { apply rsum_eq_pointwise.
    - intros i _. pose proof (ln_tangent (w' i / w i) ltac:(apply Rdiv_lt_0_compat; auto)) as T.
      replace (w' i - w i) with (w i * (w' i / w i - 1)) by (field; apply Rgt_not_eq, Hw).
      apply Rmult_le_compat_l; [left; apply Hw|exact T].
    - rewrite rsum_minus, S1, S1'.
      rewrite (rsum_ext K _ (fun i => (phi' i - phi i) * w i + w i * - (ln (sumexp K phi') - ln (sumexp K phi))))
        by (intros; rewrite LR; ring).
      rewrite rsum_plus, rsum_scal_r, S1. unfold w at 1. rewrite E. ring. }
  intros i Hi. change (w i = w' i). specialize (EQ i Hi).
  assert (Z : w' i / w i = 1).
  { apply ln_tangent_eq; [apply Rdiv_lt_0_compat; auto|].
    apply (Rmult_eq_reg_l (w i)); [|apply Rgt_not_eq, Hw]. rewrite EQ. field. apply Rgt_not_eq, Hw. }
  apply (Rmult_eq_compat_r (w i)) in Z. unfold Rdiv in Z. rewrite Rmult_assoc, Rinv_l in Z by (apply Rgt_not_eq, Hw). lra.
Qed.

Ltac list1 phi := destruct phi as [|?p [|? ?]]; try discriminate.
Ltac list2 phi := destruct phi as [|?p [|?q [|? ?]]]; try discriminate.

Lemma poisson_fam_gibbs : fam_gibbs poisson_family anything.
Proof.
  intros phi phi' u g u' g' L L' _ _ E E'. list1 phi. list1 phi'. cbn in E, E'.
    injection E as <- <-. injection E' as <- <-. split; [reflexivity|]. cbn [fam_dims poisson_family fdot].
    rewrite !total_0d. pose proof (exp_tangent (p env0) (p0 env0)). lra.
Qed.

Theorem C24_poisson_node : forall pm val (D : dist pm val) plates,
  d_moments D = lift_moments poisson_family plates ->
  gibbs D plates [[]] anything /\ strict_gibbs D plates [[]] anything.
Proof.
  pose proof poisson_fam_gibbs as G.
  assert (ST : fam_strict poisson_family anything).
  { intros phi phi' u g u' g' L L' _ _ E E' Z. list1 phi. list1 phi'. cbn in E, E'.
    injection E as <- <-. injection E' as <- <-. split; [reflexivity|]. split; [reflexivity|].
    cbn [fam_dims poisson_family fdot] in Z |- *. rewrite !total_0d in Z.
    destruct (C24_poisson (p0 env0) 0 (p env0) 1) as [_ U]. unfold poisson_moments, node_bound in U.
    rewrite Rplus_0_r in U. specialize (U ltac:(lra)).
    intros [|[|i]] d v Hd _; try discriminate. cbn. now rewrite U. }
  intros pm val D plates ED. split.
  - intros phi phi' mask u g u' g' F1 F2 _ _. now apply (lift_gibbs _ _ D _ _ plates ED G).
  - intros phi phi' mask u g u' g' F1 F2 _ _. now apply (lift_strict _ _ D _ _ plates ED G ST).
Qed.
Print Assumptions C24_poisson_node.

Lemma multinomial_fam_pair : forall N K, 0 < N -> (0 < K)%nat -> forall phi phi' u g u' g', length phi = 1%nat -> length phi' = 1%nat ->
    fam_moments (multinomial_family N K) phi = Ok (u, g) -> fam_moments (multinomial_family N K) phi' = Ok (u', g') ->
    exists a b, length u = 1%nat /\ length u' = 1%nat /\
      (forall v, (v 0 < K)%nat -> nth 0 u (fun _ => 0) v = N * (exp (a (v 0%nat)) / sumexp K a)) /\
      (forall v, (v 0 < K)%nat -> nth 0 u' (fun _ => 0) v = N * (exp (b (v 0%nat)) / sumexp K b)) /\
      fdot [[K]] phi u - fdot [[K]] phi' u + g - g' =
      N * ln (sumexp K b) - (N * ln (sumexp K a) + rsum K (fun i => (b i - a i) * (N * (exp (a i) / sumexp K a)))).
Proof.
  intros N K HN HK. intros phi phi' u g u' g' L L' E E'. list1 phi. list1 phi'. exists (as_vec p), (as_vec p0).
    cbn [fam_moments multinomial_family] in E, E'.
    destruct (multinomial_moments_ok N K (as_vec p) HK) as [Q1 Q2].
    destruct (multinomial_moments_ok N K (as_vec p0) HK) as [P1 P2].
    destruct (multinomial_moments N K (as_vec p)) as [w gw]. destruct (multinomial_moments N K (as_vec p0)) as [w' gw'].
    cbn [fst snd] in *. injection E as <- <-. injection E' as <- <-. split; [reflexivity|]. split; [reflexivity|].
    split; [intros v Hv; apply Q1|]. split; [intros v Hv; apply P1|].
    cbn [fdot]. rewrite !total_1d. rewrite Q2, P2.
    rewrite (rsum_ext K (fun i => p (upd env0 0 i) * of_vec w (upd env0 0 i)) (fun i => as_vec p i * (N * (exp (as_vec p i) / sumexp K (as_vec p)))))
      by (intros i Hi; unfold of_vec; now rewrite Q1).
    rewrite (rsum_ext K (fun i => p0 (upd env0 0 i) * of_vec w (upd env0 0 i)) (fun i => as_vec p0 i * (N * (exp (as_vec p i) / sumexp K (as_vec p)))))
      by (intros i Hi; unfold of_vec; now rewrite Q1).
    rewrite (rsum_ext K (fun i => (as_vec p0 i - as_vec p i) * (N * (exp (as_vec p i) / sumexp K (as_vec p))))
      (fun i => as_vec p0 i * (N * (exp (as_vec p i) / sumexp K (as_vec p))) - as_vec p i * (N * (exp (as_vec p i) / sumexp K (as_vec p))))) by (intros; ring).
    rewrite rsum_minus. ring.
Qed.
Lemma multinomial_fam_gibbs : forall N K, 0 < N -> (0 < K)%nat -> fam_gibbs (multinomial_family N K) anything.
Proof.
  intros N K HN HK. pose proof (multinomial_fam_pair N K HN HK) as EX. intros phi phi' u g u' g' L L' _ _ E E'. destruct (EX _ _ _ _ _ _ L L' E E') as (a & b & Lu & _ & _ & _ & X).
    split; [exact Lu|]. cbn [fam_dims multinomial_family]. rewrite X.
    pose proof (softmax_gibbs N K a b ltac:(lra) HK). lra.
Qed.

Theorem C24_multinomial_node : forall pm val (D : dist pm val) plates N K, 0 < N -> (0 < K)%nat ->
  d_moments D = lift_moments (multinomial_family N K) plates ->
  gibbs D plates [[K]] anything /\ strict_gibbs D plates [[K]] anything.
Proof.
  intros pm val D plates N K HN HK ED.
  pose proof (multinomial_fam_pair N K HN HK) as EX. pose proof (multinomial_fam_gibbs N K HN HK) as G.
  assert (ST : fam_strict (multinomial_family N K) anything).
  { intros phi phi' u g u' g' L L' _ _ E E' Z. destruct (EX _ _ _ _ _ _ L L' E E') as (a & b & Lu & Lu' & U1 & U2 & X).
    split; [exact Lu|]. split; [exact Lu'|]. cbn [fam_dims multinomial_family] in Z. rewrite X in Z.
    intros [|[|i]] d v Hd Hv; try discriminate. injection Hd as <-.
    assert (Hv0 : (v 0 < K)%nat) by apply (Hv 0%nat). rewrite U1, U2 by exact Hv0. f_equal.
    apply softmax_strict; try assumption.
    rewrite (rsum_ext K _ (fun i => N * ((b i - a i) * (exp (a i) / sumexp K a)))) in Z by (intros; ring).
    rewrite rsum_scal in Z. apply (Rmult_eq_reg_l N); lra. }
  split.
  - intros phi phi' mask u g u' g' F1 F2 _ _. now apply (lift_gibbs _ _ D _ _ plates ED G).
  - intros phi phi' mask u g u' g' F1 F2 _ _. now apply (lift_strict _ _ D _ _ plates ED G ST).
Qed.
Print Assumptions C24_multinomial_node.

Lemma binomial_fam_gibbs : forall N, 0 < N -> fam_gibbs (binomial_family N) anything.
Proof.
  intros N HN. intros phi phi' u g u' g' L L' _ _ E E'. list1 phi. list1 phi'.
    cbn [fam_moments binomial_family binomial_moments] in E, E'.
    injection E as <- <-. injection E' as <- <-. split; [reflexivity|]. cbn [fam_dims binomial_family fdot].
    rewrite !total_0d. pose proof (binomial_gibbs N (p env0) (p0 env0) ltac:(lra)). lra.
Qed.

Theorem C24_binomial_node : forall pm val (D : dist pm val) plates N, 0 < N ->
  d_moments D = lift_moments (binomial_family N) plates ->
  gibbs D plates [[]] anything /\ strict_gibbs D plates [[]] anything.
Proof.
  intros pm val D plates N HN ED.
  pose proof (binomial_fam_gibbs N HN) as G.
  assert (ST : fam_strict (binomial_family N) anything).
  { intros phi phi' u g u' g' L L' _ _ E E' Z. list1 phi. list1 phi'.
    cbn [fam_moments binomial_family binomial_moments] in E, E'.
    injection E as <- <-. injection E' as <- <-. split; [reflexivity|]. split; [reflexivity|].
    cbn [fam_dims binomial_family fdot] in Z |- *. rewrite !total_0d in Z.
    intros [|[|i]] d v Hd _; try discriminate. cbn [nth].
    pose proof (softmax_strict 2 (fun i => match i with O => p env0 | _ => 0 end)
                (fun i => match i with O => p0 env0 | _ => 0 end) ltac:(lia)) as H.
    unfold sumexp in H. cbn [rsum] in H. rewrite exp_0 in H.
    replace (0 + exp (p env0) + 1) with (1 + exp (p env0)) in H by ring.
    replace (0 + exp (p0 env0) + 1) with (1 + exp (p0 env0)) in H by ring.
    assert (R1 : forall x, 1 / (1 + exp (- x)) = exp x / (1 + exp x)).
    { intros x. rewrite exp_Ropp. pose proof (exp_pos x). field. lra. }
    assert (EQ : exp (p env0) / (1 + exp (p env0)) = exp (p0 env0) / (1 + exp (p0 env0))).
    { refine (H _ 0%nat ltac:(lia)). apply (Rmult_eq_reg_l N); [|lra]. rewrite <- R1. unfold Rdiv in *. lra. }
    rewrite <- !R1 in EQ. unfold Rdiv in EQ |- *. rewrite !Rmult_1_l in EQ. now rewrite EQ. }
  split.
  - intros phi phi' mask u g u' g' F1 F2 _ _. now apply (lift_gibbs _ _ D _ _ plates ED G).
  - intros phi phi' mask u g u' g' F1 F2 _ _. now apply (lift_strict _ _ D _ _ plates ED G ST).
Qed.
Print Assumptions C24_binomial_node.

(** The gamma distribution: the shape parameter has to be positive (the rate is
    checked by the code). *)
Definition positive_shape (phi : list (env -> R)) : Prop :=
  match phi with [_; q] => 0 < q env0 | _ => False end.
(** Strict versions of the facts on the special functions. *)
Definition gamma_strictly_convex (lg psi : R -> R) : Prop :=
  forall a a', 0 < a -> 0 < a' -> a <> a' ->
    lg a' - a' * ln a' + a' > lg a - a * ln a + a + (a' - a) * (psi a - ln a).

Lemma gamma_fam_pair : forall lg psi, gamma_convex lg psi -> forall phi phi' u g u' g', length phi = 2%nat -> length phi' = 2%nat ->
    positive_shape phi -> positive_shape phi' ->
    fam_moments (gamma_family lg psi) phi = Ok (u, g) -> fam_moments (gamma_family lg psi) phi' = Ok (u', g') ->
    exists a b a' b', 0 < a /\ 0 < b /\ 0 < a' /\ 0 < b' /\ u = [fun _ => a / b; fun _ => psi a - ln b] /\
      u' = [fun _ => a' / b'; fun _ => psi a' - ln b'] /\
      fdot [[]; []] phi u - fdot [[]; []] phi' u + g - g' =
      lg a' - a' * ln b' - (lg a - a * ln b + (- b' - - b) * (a / b) + (a' - a) * (psi a - ln b)).
Proof.
  intros lg psi HC. intros phi phi' u g u' g' L L' PS PS' E E'. list2 phi. list2 phi'.
    cbn [fam_moments gamma_family] in E, E'. unfold gamma_moments in E, E'. cbn [fst snd positive_shape] in *.
    destruct (Rle_dec (- p env0) 0); [discriminate|]. destruct (Rle_dec (- p0 env0) 0); [discriminate|].
    cbn [bind fst snd] in E, E'. injection E as <- <-. injection E' as <- <-.
    exists (q env0), (- p env0), (q0 env0), (- p0 env0). repeat split; try lra.
    cbn [fdot]. rewrite !total_0d. lra.
Qed.
Lemma gamma_fam_gibbs : forall lg psi, gamma_convex lg psi -> fam_gibbs (gamma_family lg psi) positive_shape.
Proof.
  intros lg psi HC. pose proof (gamma_fam_pair lg psi HC) as EX. intros phi phi' u g u' g' L L' P P' E E'.
    destruct (EX _ _ _ _ _ _ L L' P P' E E') as (a & b & a' & b' & Ha & Hb & Ha' & Hb' & -> & -> & X).
    split; [reflexivity|]. cbn [fam_dims gamma_family]. rewrite X.
    pose proof (gamma_gibbs lg psi a b a' b' HC Ha Hb Ha' Hb'). lra.
Qed.

Theorem C24_gamma_node : forall pm val (D : dist pm val) plates lg psi, gamma_convex lg psi ->
  d_moments D = lift_moments (gamma_family lg psi) plates ->
  gibbs D plates [[]; []] (proper_at (gamma_family lg psi) positive_shape plates) /\
  (gamma_strictly_convex lg psi ->
   strict_gibbs D plates [[]; []] (proper_at (gamma_family lg psi) positive_shape plates)).
Proof.
  intros pm val D plates lg psi HC ED.
  pose proof (gamma_fam_pair lg psi HC) as EX. pose proof (gamma_fam_gibbs lg psi HC) as G.
  split; [now apply (lift_gibbs _ _ D (gamma_family lg psi) _ plates ED G)|]. intros HS.
  assert (ST : fam_strict (gamma_family lg psi) positive_shape).
  { intros phi phi' u g u' g' L L' P P' E E' Z.
    destruct (EX _ _ _ _ _ _ L L' P P' E E') as (a & b & a' & b' & Ha & Hb & Ha' & Hb' & -> & -> & X).
    split; [reflexivity|]. split; [reflexivity|]. cbn [fam_dims gamma_family] in Z. rewrite X in Z. clear X.
    assert (P1 : 0 < a * b') by now apply Rmult_lt_0_compat.
    assert (P2 : 0 < a' * b) by now apply Rmult_lt_0_compat.
    assert (Pr : 0 < (a * b') / (a' * b)) by now apply Rdiv_lt_0_compat.
    pose proof (ln_tangent _ Pr) as T. pose proof (ln_tangent_eq _ Pr) as TE. rewrite ln_div, !ln_mult in T, TE by assumption.
    assert (T2 : a' * (ln a + ln b' - (ln a' + ln b)) <= a' * (a * b' / (a' * b) - 1)).
    { apply Rmult_le_compat_l; lra. }
    assert (TQ : a' * (a * b' / (a' * b) - 1) = b' * (a / b) - a') by (field; lra).
    assert (TB : (- b' - - b) * (a / b) = a - b' * (a / b)) by (field; lra).
    assert (AA : a = a').
    { destruct (Req_dec a a') as [|N]; [assumption|]. pose proof (HS a a' Ha Ha' N). lra. }
    subst a'. assert (BB : a * b' / (a * b) = 1).
    { apply TE. apply (Rmult_eq_reg_l a); [|lra]. lra. }
    assert (b' = b).
    { replace (a * b' / (a * b)) with (b' / b) in BB by (field; lra).
      apply (Rmult_eq_compat_r b) in BB. unfold Rdiv in BB. rewrite Rmult_assoc, Rinv_l in BB by lra. lra. }
    subst b'. reflexivity. }
  now apply (lift_strict _ _ D (gamma_family lg psi) _ plates ED G ST).
Qed.
Print Assumptions C24_gamma_node.

Definition log_beta_strictly_convex (lg psi : R -> R) : Prop :=
  forall a b a' b', 0 < a -> 0 < b -> 0 < a' -> 0 < b' -> (a <> a' \/ b <> b') ->
    lg a' + lg b' - lg (a' + b') >
    lg a + lg b - lg (a + b) + (a' - a) * (psi a - psi (a + b)) + (b' - b) * (psi b - psi (a + b)).

Lemma dirichlet_strict : forall lg psi, log_beta_convex lg psi -> log_beta_strictly_convex lg psi ->
  forall K al al', (2 <= K)%nat ->
  (forall i, (i < K)%nat -> 0 < al i) -> (forall i, (i < K)%nat -> 0 < al' i) ->
  rsum K (fun i => lg (al' i)) - lg (rsum K al') =
  rsum K (fun i => lg (al i)) - lg (rsum K al) +
    rsum K (fun i => (al' i - al i) * (psi (al i) - psi (rsum K al))) ->
  forall i, (i < K)%nat -> al i = al' i.
Proof.
  intros lg psi HC HS K. induction K as [|K IH]; intros al al' HK Ha Ha' E; [lia|].
  pose proof (dirichlet_gibbs lg psi HC K al al' ltac:(lia) ltac:(intros; apply Ha; lia) ltac:(intros; apply Ha'; lia)) as G.
  assert (PS : 0 < rsum K al) by (apply rsum_pos; [lia|intros; apply Ha; lia]).
  assert (PS' : 0 < rsum K al') by (apply rsum_pos; [lia|intros; apply Ha'; lia]).
  pose proof (HC (rsum K al) (al K) (rsum K al') (al' K) PS (Ha K ltac:(lia)) PS' (Ha' K ltac:(lia))) as H.
  pose proof (HS (rsum K al) (al K) (rsum K al') (al' K) PS (Ha K ltac:(lia)) PS' (Ha' K ltac:(lia))) as H'.
  specialize (IH al al'). cbn [rsum] in E. set (S := rsum K al) in *. set (S' := rsum K al') in *.
  rewrite (rsum_ext K (fun i => (al' i - al i) * (psi (al i) - psi (S + al K)))
      (fun i => (al' i - al i) * (psi (al i) - psi S) + (al' i - al i) * (psi S - psi (S + al K)))) in E by (intros; ring).
  rewrite rsum_plus, rsum_scal_r, rsum_minus in E. fold S S' in E.
  assert (EQ : S = S' /\ al K = al' K).
  { destruct (Req_dec S S') as [A|A]; [destruct (Req_dec (al K) (al' K)) as [B|B]; [now split|]|];
      exfalso; [specialize (H' (or_intror B))|specialize (H' (or_introl A))]; lra. }
  destruct EQ as [ES EK]. intros i Hi. destruct (Nat.eq_dec i K) as [->|N]; [exact EK|].
  destruct (Nat.eq_dec K 1) as [->|N1].
  - unfold S, S' in ES. cbn in ES. assert (i = 0%nat) by lia. subst i. lra.
  - apply IH; try lia; [intros; apply Ha; lia|intros; apply Ha'; lia|lra].
Qed.

Lemma dirichlet_fam_pair : forall lg psi K, (0 < K)%nat -> log_beta_convex lg psi -> forall phi phi' u g u' g', length phi = 1%nat -> length phi' = 1%nat ->
    fam_moments (dirichlet_family lg psi K) phi = Ok (u, g) -> fam_moments (dirichlet_family lg psi K) phi' = Ok (u', g') ->
    exists a b, (forall i, (i < K)%nat -> 0 < a i) /\ (forall i, (i < K)%nat -> 0 < b i) /\
      u = [of_vec (fun i => psi (a i) - psi (rsum K a))] /\ u' = [of_vec (fun i => psi (b i) - psi (rsum K b))] /\
      fdot [[K]] phi u - fdot [[K]] phi' u + g - g' =
      rsum K (fun i => lg (b i)) - lg (rsum K b) -
      (rsum K (fun i => lg (a i)) - lg (rsum K a) + rsum K (fun i => (b i - a i) * (psi (a i) - psi (rsum K a)))).
Proof.
  intros lg psi K HK HC. intros phi phi' u g u' g' L L' E E'. list1 phi. list1 phi'. exists (as_vec p), (as_vec p0).
    cbn [fam_moments dirichlet_family] in E, E'. unfold dirichlet_moments in E, E'.
    destruct (any_le0 K (as_vec p)) eqn:A1; [discriminate|]. destruct (any_le0 K (as_vec p0)) eqn:A2; [discriminate|].
    cbn [bind] in E, E'. injection E as <- <-. injection E' as <- <-.
    split; [now apply any_le0_false|]. split; [now apply any_le0_false|]. split; [reflexivity|]. split; [reflexivity|].
    cbn [fdot]. rewrite !total_1d. unfold of_vec.
    rewrite (rsum_ext K (fun i => (as_vec p0 i - as_vec p i) * (psi (as_vec p i) - psi (rsum K (as_vec p))))
      (fun i => as_vec p0 i * (psi (as_vec p i) - psi (rsum K (as_vec p))) - as_vec p i * (psi (as_vec p i) - psi (rsum K (as_vec p)))))
      by (intros; ring).
    rewrite rsum_minus. unfold as_vec, upd. cbn [Nat.eqb]. ring.
Qed.
Lemma dirichlet_fam_gibbs : forall lg psi K, (0 < K)%nat -> log_beta_convex lg psi -> fam_gibbs (dirichlet_family lg psi K) anything.
Proof.
  intros lg psi K HK HC. pose proof (dirichlet_fam_pair lg psi K HK HC) as EX. intros phi phi' u g u' g' L L' _ _ E E'.
    destruct (EX _ _ _ _ _ _ L L' E E') as (a & b & Ha & Hb & -> & -> & X).
    split; [reflexivity|]. cbn [fam_dims dirichlet_family]. rewrite X.
    pose proof (dirichlet_gibbs lg psi HC K a b HK Ha Hb). lra.
Qed.

Theorem C24_dirichlet_node : forall pm val (D : dist pm val) plates lg psi K, (0 < K)%nat -> log_beta_convex lg psi ->
  d_moments D = lift_moments (dirichlet_family lg psi K) plates ->
  gibbs D plates [[K]] anything /\
  (log_beta_strictly_convex lg psi -> strict_gibbs D plates [[K]] anything).
Proof.
  intros pm val D plates lg psi K HK HC ED.
  pose proof (dirichlet_fam_pair lg psi K HK HC) as EX. pose proof (dirichlet_fam_gibbs lg psi K HK HC) as G.
  split.
  { intros phi phi' mask u g u' g' F1 F2 _ _. now apply (lift_gibbs _ _ D _ _ plates ED G). }
  intros HS.
  assert (ST : fam_strict (dirichlet_family lg psi K) anything).
  { intros phi phi' u g u' g' L L' _ _ E E' Z.
    destruct (EX _ _ _ _ _ _ L L' E E') as (a & b & Ha & Hb & -> & -> & X).
    split; [reflexivity|]. split; [reflexivity|]. cbn [fam_dims dirichlet_family] in Z. rewrite X in Z.
    intros [|[|i]] d v Hd Hv; try discriminate. injection Hd as <-. cbn [nth]. unfold of_vec.
    assert (Hv0 : (v 0 < K)%nat) by apply (Hv 0%nat).
    destruct (Nat.eq_dec K 1) as [->|N].
    - cbn. assert (v 0%nat = 0%nat) by lia. rewrite H, !Rplus_0_l. ring.
    - assert (EQ : forall i, (i < K)%nat -> a i = b i) by (apply (dirichlet_strict lg psi HC HS); try assumption; [lia|lra]).
      rewrite (rsum_ext K a b EQ), (EQ _ Hv0). reflexivity. }
  intros phi phi' mask u g u' g' F1 F2 _ _. now apply (lift_strict _ _ D _ _ plates ED G ST).
Qed.
Print Assumptions C24_dirichlet_node.

Lemma markov_gibbs : forall N K, (0 < K)%nat -> (2 <= N)%nat -> fam_gibbs (markov_family N K) anything.
Proof.
  intros N K HK HN.
  intros phi phi' u g u' g' L L' _ _ E E'. list2 phi. list2 phi'. cbn [fam_moments markov_family] in E, E'.
    set (a0 := fun i => p (upd env0 0 i)) in *. set (a1 := fun n i j => q (upd (upd (upd env0 2 n) 1 i) 0 j)) in *.
    set (b0 := fun i => p0 (upd env0 0 i)) in *. set (b1 := fun n i j => q0 (upd (upd (upd env0 2 n) 1 i) 0 j)) in *.
    pose proof (C24_markov_chain K N b0 b1 (fun _ => 0) (fun _ _ _ => 0) a0 a1 0 HK HN) as C.
    cbv zeta beta in C.
    assert (E0 : forall i, b0 i + 0 = b0 i) by (intros; ring).
    assert (E1 : forall n i j, b1 n i j + 0 = b1 n i j) by (intros; ring).
    replace (fun i => Fin (b0 i + 0)) with (fun i => Fin (b0 i)) in C by (apply functional_extensionality; intros; now rewrite E0).
    replace (fun n i j => Fin (b1 n i j + 0)) with (fun n i j => Fin (b1 n i j)) in C
      by (apply functional_extensionality; intros; apply functional_extensionality; intros; apply functional_extensionality; intros; now rewrite E1).
    replace (fun i => b0 i + 0) with b0 in C by (apply functional_extensionality; intros; now rewrite E0).
    replace (fun n i j => b1 n i j + 0) with b1 in C
      by (apply functional_extensionality; intros; apply functional_extensionality; intros; apply functional_extensionality; intros; now rewrite E1).
    change (fun i => Fin (p (upd env0 0 i))) with (fun i => Fin (a0 i)) in E.
    change (fun n i j => Fin (q (upd (upd (upd env0 2 n) 1 i) 0 j))) with (fun n i j => Fin (a1 n i j)) in E.
    change (fun i => Fin (p0 (upd env0 0 i))) with (fun i => Fin (b0 i)) in E'.
    change (fun n i j => Fin (q0 (upd (upd (upd env0 2 n) 1 i) 0 j))) with (fun n i j => Fin (b1 n i j)) in E'.
    destruct (cmc_moments_and_cgf N K (fun i => Fin (a0 i)) (fun n i j => Fin (a1 n i j))) as [r|]; [|discriminate].
    destruct (cmc_moments_and_cgf N K (fun i => Fin (b0 i)) (fun n i j => Fin (b1 n i j))) as [r'|]; [|discriminate].
    unfold bind in E, E'.
    assert (OI : forall A (x y : A), Ok x = Ok y -> x = y) by (intros A x y X; now injection X).
    apply OI, pair_equal_spec in E. destruct E as [<- <-]. apply OI, pair_equal_spec in E'. destruct E' as [<- <-]. split; [reflexivity|].
    assert (Z0 : forall z zz, chain_dot K (N - 1) (fun _ => 0) (fun _ _ _ => 0) z zz = 0).
    { intros z zz. unfold chain_dot. rewrite (rsum_ext K _ (fun _ => 0)) by (intros; ring). rewrite rsum_0.
      rewrite (rsum_ext (N - 1) _ (fun _ => 0)); [rewrite rsum_0; ring|]. intros n _.
      rewrite (rsum_ext K _ (fun _ => 0)); [apply rsum_0|]. intros i _.
      rewrite (rsum_ext K _ (fun _ => 0)) by (intros; ring). apply rsum_0. }
    assert (FD : forall x y z zz, fdot [[K]; [(N - 1)%nat; K; K]] [x; y]
        [fun v => chain_u0 (Ok z) (v 0%nat); fun v => chain_u1 (Ok zz) (v 2%nat) (v 1%nat) (v 0%nat)] =
       chain_dot K (N - 1) (fun i => x (upd env0 0 i)) (fun n i j => y (upd (upd (upd env0 2 n) 1 i) 0 j))
         (chain_u0 (Ok z)) (chain_u1 (Ok zz))).
    { intros x y z zz. cbn [fdot]. rewrite total_1d, total_3d. unfold chain_dot, upd. cbn [Nat.eqb]. ring. }
    cbn [fam_dims markov_family]. rewrite !FD. fold a0 a1 b0 b1. unfold node_bound in C. rewrite !Z0 in C. lra.
Qed.

Theorem C24_markov_chain_node : forall pm val (D : dist pm val) plates N K, (0 < K)%nat -> (2 <= N)%nat ->
  d_moments D = lift_moments (markov_family N K) plates ->
  gibbs D plates [[K]; [N - 1; K; K]%nat] anything.
Proof.
  intros pm val D plates N K HK HN ED.
  pose proof (markov_gibbs N K HK HN) as G.
  intros phi phi' mask u g u' g' F1 F2 _ _. now apply (lift_gibbs _ _ D _ _ plates ED G).
Qed.
Print Assumptions C24_markov_chain_node.

(** ** A Poisson node with two plates, the first observed as 7, three copies of it
    (plates multiplier), with a message from its children. *)
Close Scope R_scope.
Definition poisson_lifted : dist (arr R * arr R) (arr R) := Dist _ _
  (d_phi poisson_ex) (d_cgf poisson_ex) (lift_moments poisson_family [2])
  (d_fixed poisson_ex) (d_fixed_moments poisson_ex).
Definition poisson_node : efnode :=
  EF [2] [[]] [vec2 7 1] [vec2 0 0] (vec2 0 (-1)) (scalar 0%R) (mask2 true false) (scalar true)
     [scalar 0%R] 1%R [3].
Lemma valid2 : forall e, valid [2] e -> e = at_index [0] \/ e = at_index [1].
Proof.
  intros e H. assert (e 0 = 0 \/ e 0 = 1) as [Q|Q] by (specialize (H 0); cbn in H; lia); [left|right];
    (apply functional_extensionality; intros [|k]; [exact Q|specialize (H (S k)); rewrite ax_overflow in H by (cbn; lia);
     unfold at_index; cbn; destruct k; lia]).
Qed.

Example C24_update_example :
  step_shaped poisson_lifted poisson_node [vec2 1 2] (vec2 3 5, vec2 2 4) [vec2 2 4] /\
  d_cgf poisson_lifted (vec2 3 5, vec2 2 4) = Ok (np_map Ropp (vec2 3 5)) /\
  bound_shaped poisson_node [vec2 2 4] (np_map Ropp (vec2 3 5)) /\ no_bias poisson_node /\
  (0 < n_ann poisson_node)%R /\ gibbs poisson_lifted [2] [[]] anything /\
  candidate poisson_lifted anything poisson_node poisson_node /\
  exists n', update poisson_lifted poisson_node [vec2 1 2] (vec2 3 5, vec2 2 4) 1%R = (n', Ok tt) /\
    match n_u n' with [u] => bget u (at_index [0]) = 7%R /\ bget u (at_index [1]) = exp 6 | _ => False end.
Proof.
  assert (W : well_shaped poisson_node).
  { constructor; [|apply broadcasts_to_refl]. constructor; [|constructor].
    split; [reflexivity|]. split; [apply broadcasts_to_refl|]. intros k Hk. cbn in Hk. lia. }
  assert (FQ : Forall2 (fun d a => broadcasts_to (ash a) ([2] ++ d)) [[]] [vec2 0 0]).
  { constructor; [apply broadcasts_to_refl|constructor]. }
  split; [|split; [reflexivity|split; [|split; [|split; [cbn; lra|split; [|split]]]]]].
  - constructor; cbn [n_dims n_bias n_phi n_plates poisson_node]; [reflexivity|..];
      (constructor; [|constructor]); cbn [ash scalar vec2 app];
      first [apply broadcasts_to_refl|apply broadcasts_to_nil].
  - constructor; try exact W; cbn [n_dims n_phi n_plates n_g n_f n_mask poisson_node];
      try first [exact FQ|apply broadcasts_to_refl|apply broadcasts_to_nil].
    constructor; [apply broadcasts_to_refl|constructor].
  - constructor; [|constructor]. now split.
  - now apply C24_poisson_node.
  - constructor; try reflexivity; try exact I.
    + split; [reflexivity|]. split; [reflexivity|]. intros i d a b _ Ha Hb. rewrite Ha in Hb. now injection Hb as ->.
    + exact FQ.
    + eexists. eexists. split; [reflexivity|]. split.
      * split; [reflexivity|]. split; [reflexivity|]. intros [|[|i]] d a b Hd Ha Hb e He Ho; try discriminate.
        injection Ha as <-. injection Hb as <-. injection Hd as <-. cbn [app n_plates poisson_node] in He.
        destruct (valid2 e He) as [->| ->]; [discriminate Ho|].
        cbv -[Rplus exp Rmult Ropp IZR]. apply exp_0.
      * intros p Hp Ho. destruct (valid2 p Hp) as [->| ->]; [discriminate Ho|].
        cbv -[Rplus exp Rmult Ropp IZR]. now rewrite exp_0.
  - eexists. split; [cbv -[Rplus exp Rmult Ropp IZR]; reflexivity|].
    cbv -[Rplus exp Rmult Ropp IZR]. split; [reflexivity|]. f_equal. ring.
Qed.

Open Scope R_scope.
Example C24_strictly_convex : gamma_strictly_convex (fun x => 2 * (x * ln x - x))%R (fun x => 2 * ln x)%R /\
  log_beta_strictly_convex (fun x => - ln x)%R (fun x => - / x)%R /\
  log_beta_convex (fun x => - ln x)%R (fun x => - / x)%R.
Proof.
  assert (ST : forall x, 0 < x -> x <> 1 -> ln x < x - 1).
  { intros x Hx N. destruct (ln_tangent x Hx) as [|E]; [assumption|]. exfalso. now apply N, ln_tangent_eq. }
  assert (LB : forall a b a' b', 0 < a -> 0 < b -> 0 < a' -> 0 < b' ->
    let x := a' / a in let y := b' / b in let w := a / (a + b) in
    (- ln a' + - ln b' - - ln (a' + b')) - (- ln a + - ln b - - ln (a + b) +
      (a' - a) * (- / a - - / (a + b)) + (b' - b) * (- / b - - / (a + b)))
    >= (1 - w) * (x - 1 - ln x) + w * (y - 1 - ln y) /\ 0 < w < 1 /\ 0 < x /\ 0 < y).
  { intros a b a' b' Ha Hb Ha' Hb' x y w.
    assert (Px : 0 < x) by now apply Rdiv_lt_0_compat. assert (Py : 0 < y) by now apply Rdiv_lt_0_compat.
    assert (Pw : 0 < w) by (apply Rdiv_lt_0_compat; lra).
    assert (Pw' : 0 < 1 - w) by (replace (1 - w) with (b / (a + b)) by (unfold w; field; lra); apply Rdiv_lt_0_compat; lra).
    set (z := w * x + (1 - w) * y).
    assert (Pz : 0 < z) by (unfold z; pose proof (Rmult_lt_0_compat _ _ Pw Px); pose proof (Rmult_lt_0_compat _ _ Pw' Py); lra).
    assert (Ez : z = (a' + b') / (a + b)) by (unfold z, w, x, y; field; lra).
    pose proof (ln_tangent (x / z) ltac:(now apply Rdiv_lt_0_compat)) as T1.
    pose proof (ln_tangent (y / z) ltac:(now apply Rdiv_lt_0_compat)) as T2.
    rewrite ln_div in T1, T2 by assumption.
    assert (AG : w * ln x + (1 - w) * ln y <= ln z).
    { assert (w * (ln x - ln z) <= w * (x / z - 1)) by (apply Rmult_le_compat_l; lra).
      assert ((1 - w) * (ln y - ln z) <= (1 - w) * (y / z - 1)) by (apply Rmult_le_compat_l; lra).
      assert (w * (x / z - 1) + (1 - w) * (y / z - 1) = 0) by (unfold z in *; field; lra). lra. }
    assert (Lz : ln z = ln (a' + b') - ln (a + b)) by (rewrite Ez; apply ln_div; lra).
    assert (Lx : ln x = ln a' - ln a) by (apply ln_div; lra).
    assert (Ly : ln y = ln b' - ln b) by (apply ln_div; lra).
    split; [|lra].
    replace ((a' - a) * (- / a - - / (a + b))) with (- ((1 - w) * (x - 1))) by (unfold w, x; field; lra).
    replace ((b' - b) * (- / b - - / (a + b))) with (- (w * (y - 1))) by (unfold w, y; field; lra). lra. }
  split; [|split].
  - intros a a' Ha Ha' N. pose proof (ST (a / a') ltac:(now apply Rdiv_lt_0_compat)) as H.
    assert (Q : a / a' <> 1).
    { intros E. apply N. apply (Rmult_eq_compat_r a') in E. unfold Rdiv in E. rewrite Rmult_assoc, Rinv_l in E by lra. lra. }
    specialize (H Q). rewrite ln_div in H by assumption.
    assert (a' * (ln a - ln a') < a' * (a / a' - 1)) by (apply Rmult_lt_compat_l; lra).
    replace (a' * (a / a' - 1)) with (a - a') in H0 by (field; lra). lra.
  - intros a b a' b' Ha Hb Ha' Hb' N. destruct (LB a b a' b' Ha Hb Ha' Hb') as (H & Hw & Hx & Hy).
    set (x := a' / a) in *. set (y := b' / b) in *. set (w := a / (a + b)) in *.
    assert (NN : x <> 1 \/ y <> 1).
    { destruct N as [N|N]; [left|right]; intros E; apply N; unfold x, y in E; unfold Rdiv in E.
      - apply (Rmult_eq_compat_r a) in E. rewrite Rmult_assoc, Rinv_l in E by lra. lra.
      - apply (Rmult_eq_compat_r b) in E. rewrite Rmult_assoc, Rinv_l in E by lra. lra. }
    pose proof (ln_tangent x Hx) as Tx. pose proof (ln_tangent y Hy) as Ty.
    destruct NN as [NN|NN].
    + pose proof (ST x Hx NN). assert (0 < (1 - w) * (x - 1 - ln x)) by (apply Rmult_lt_0_compat; lra).
      assert (0 <= w * (y - 1 - ln y)) by (apply Rmult_le_pos; lra). lra.
    + pose proof (ST y Hy NN). assert (0 < w * (y - 1 - ln y)) by (apply Rmult_lt_0_compat; lra).
      assert (0 <= (1 - w) * (x - 1 - ln x)) by (apply Rmult_le_pos; lra). lra.
  - intros a b a' b' Ha Hb Ha' Hb'. destruct (LB a b a' b' Ha Hb Ha' Hb') as (H & Hw & Hx & Hy).
    pose proof (ln_tangent _ Hx) as Tx. pose proof (ln_tangent _ Hy) as Ty.
    set (x := a' / a) in *. set (y := b' / b) in *. set (w := a / (a + b)) in *.
    assert (0 <= w * (y - 1 - ln y)) by (apply Rmult_le_pos; lra).
    assert (0 <= (1 - w) * (x - 1 - ln x)) by (apply Rmult_le_pos; lra). lra.
Qed.
