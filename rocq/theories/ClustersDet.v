(** Lemmas for C25: parameters whose last plate axis is the clusters of a mixture. *)
From Coq Require Import List Arith ZArith Lia Bool Reals Lra FunctionalExtensionality.
From Verif Require Import Base Shapes SpecShapes ShapesLemmas NumPy MiscArray TensorLemmas
  EinsumLemmas SumMultiplyLemmas SpecArray PlateSumLemmas PlateSum2Lemmas MessageLemmas
  ShapeOpsLemmas DiagLemmas ExpFam SpecExpFam ExpFamLemmas ExpFamBound ExpFamGrad PExpFam SpecUpdate
  UpdateLemmas PUpdate Families SpecFamilies FamiliesLemmas FamiliesLemmas2 PFamilies2 FamilyDist SpecFamilyDist PFamilyDist Network SpecNetwork NetworkLemmas NetworkLemmas2
  PNetwork MarkovLemmas FamilyNet SpecFamilyNet PFamilyNet Dot SpecDot DetNet SpecDetNet DetNetLemmas DetNetLemmas2
  Linalg MatBridge SpecLinalg LinalgLemmas Gaussian SpecGaussian GaussLemmas GaussAlg PGaussian PGaussian2 GaussGibbs GaussianDist PGaussianDist
  GaussNet SpecGaussNet PlateDet GaussTypes GaussNodes GaussNodes2 GaussNodes3 GaussNodes4 GaussNodes5 GaussNodes7 MixtureNet MixtureFam.
Import ListNotations.
Import ListNotations.
Open Scope R_scope.

Lemma at_plate_clusters : forall K dims k (u : list (arr R)) p,
  cluster dims k (at_plate (map (cons K) dims) u p) = at_plate dims u (join 1 p (upd env0 0 k)).
Proof.
  intros K dims k. unfold cluster, at_plate. induction dims as [|d dims IH]; intros [|a u] p; cbn [map combine fst snd]; try reflexivity.
  f_equal; [|apply IH]. apply functional_extensionality. intros v. f_equal. apply functional_extensionality. intros j.
  unfold join. cbn [length]. destruct (Nat.ltb_spec j (length d)) as [L|L].
  - destruct (Nat.ltb_spec j (S (length d))); [reflexivity|lia].
  - destruct (Nat.ltb_spec j (S (length d))) as [L'|L'].
    + replace (j - length d)%nat with 0%nat by lia. reflexivity.
    + destruct (Nat.ltb_spec (j - length d) 1); [lia|]. f_equal. lia.
Qed.
Lemma clusters_split : forall K ps e, valid (ps ++ [K]) e ->
  exists p k, e = join 1 p (upd env0 0 k) /\ valid ps p /\ (k < K)%nat.
Proof.
  intros K ps e He. exists (fun k => e (S k)), (e 0%nat). split; [|split].
  - apply functional_extensionality. intros [|k]; [reflexivity|]. unfold join. cbn. now rewrite Nat.sub_0_r.
  - intros k. specialize (He (S k)). rewrite ax_app in He. cbn in He. rewrite Nat.sub_0_r in He. exact He.
  - specialize (He 0%nat). rewrite ax_app in He. exact He.
Qed.

Section Clusters.
Variable ty : nat -> mtype.
Variable at_ : nat -> place.
Variables K j i : nat.
Variable t : mtype.
Hypothesis Tj : ty j = MClusters K t.
Hypothesis Ti : ty i = t.
Hypothesis Dj : pl_dims (at_ j) = map (cons K) (mt_dims t).
Hypothesis Di : pl_dims (at_ i) = mt_dims t.
Hypothesis HM : broadcasts_to (ash (pl_mask (at_ j))) (pl_plates (at_ j)).
Hypothesis HL : elements_link K (at_ j) (at_ i).

Let ps := pl_plates (at_ j).
Let dims := mt_dims t.
Let dims' := map (cons K) dims.
Let F (u : list (arr R)) := lift_arrays ps dims' (fun p => at_plate dims' u p).

Lemma clusters_get : forall u p, valid ps p ->
  entries dims' (fun c v => coef (at_plate dims' (F u) p) c v = coef (at_plate dims' u p) c v).
Proof. intros u p Hp c d v Hd Hv. exact (lift_coef ps dims' _ p c d v Hp Hd Hv). Qed.

Lemma clusters_pair : forall m u, length m = length dims -> length u = length dims ->
  pairing (at_ j) m (F u) =
  (lprod (map INR (pl_mult (at_ j))) * total (ps ++ [K]) (fun e => if bget (add_trailing_axes (pl_mask (at_ j)) 1) e then
     dot_at dims (lift_arrays (ps ++ [K]) dims (fun e => at_plate dims m e)) u e else 0)).
Proof.
  intros m u Lm Lu. unfold pairing. f_equal. rewrite total_app. apply total_ext. intros p Hp.
  rewrite total_1d. cbn [length]. destruct (bget (pl_mask (at_ j)) p) eqn:Ek.
  - assert (LF : length (F u) = length dims') by apply lift_arrays_length.
    assert (Lm' : length m = length dims') by (unfold dims'; now rewrite map_length).
    assert (Lu' : length u = length dims') by (unfold dims'; now rewrite map_length).
    rewrite Dj. fold dims. fold dims'. rewrite dot_coef by assumption.
    rewrite (fdot_coef _ _ _ (at_plate dims' u p)).
    2:{ now rewrite !at_plate_length. }
    2:{ now apply clusters_get. }
    unfold dims' at 1. rewrite fdot_clusters. apply rsum_ext. intros k Hk. rewrite trailing_get, Ek.
    unfold dims'. rewrite !at_plate_clusters. symmetry. apply lift_dot; [|now apply at_plate_length|exact Lu].
    exact (join_valid ps [K] p _ Hp (valid_vec K k Hk)).
  - symmetry. rewrite (rsum_ext K _ (fun _ => 0)); [rewrite rsum_const_c; ring|]. intros k _. now rewrite trailing_get, Ek.
Qed.

Lemma clusters_typed : forall need, det_typed (tys ty) at_ need (clusters_fn ps K dims) j [i].
Proof.
  intros need. destruct HL as [L1 L2 L3 L4].
  assert (LU : forall us, Forall2 (fun i u => moments_in (at_ i) (t_mom (tys ty) i) u) [i] us ->
    exists u, us = [u] /\ moments_in (at_ i) (mt_mom t) u /\ length u = length dims).
  { intros us H. inversion H as [|i0 u0 l0 us0 M H0 Ei Eu]. inversion H0. exists u0. split; [congruence|].
    cbn [t_mom tys] in M. rewrite Ti in M. split; [exact M|].
    pose proof (Forall2_len _ _ _ _ _ (proj1 M)) as E. rewrite Di in E. now rewrite <- E. }
  constructor.
  - intros us H. destruct (LU us H) as (u & -> & M & Lu). cbn [df_moments clusters_fn]. eexists. split; [reflexivity|].
    fold dims'. fold (F u). split; [rewrite Dj; apply lift_variable|]. intros p Hp. cbn [t_mom tys]. rewrite Tj, Dj.
    apply (mt_values (MClusters K t) (at_plate dims' u p)).
    + cbn [mt_mom]. intros k Hk. unfold dims', dims. rewrite at_plate_clusters.
      assert (ON : on_values (pl_dims (at_ i)) (mt_mom t)) by (rewrite Di; apply mt_values).
      pose proof (moments_in_child _ _ _ _ (join 1 p (upd env0 0 k)) M ON L1 (join_valid ps [K] p _ Hp (valid_vec K k Hk))) as Z.
      now rewrite Di in Z.
    + apply at_plate_length. apply lift_arrays_length.
    + now apply clusters_get.
  - intros k i' us m Hk _ H Mm Vm _. destruct k as [|[|k]]; try discriminate. injection Hk as <-.
    destruct (LU us H) as (u & -> & M & Lu). cbn [df_message clusters_fn]. fold ps.
    pose proof (trailing_shape (pl_mask (at_ j)) ps K HM) as B1.
    assert (MI : forall e, valid (ps ++ [K]) e -> bget (add_trailing_axes (pl_mask (at_ j)) 1) e = true -> bget (pl_mask (at_ i)) e = true).
    { intros e He. destruct (clusters_split K ps e He) as (p & k & -> & Hp & Hk). rewrite trailing_get. apply L3; [exact Hp|now apply valid_vec]. }
    assert (Lm : length m = length dims).
    { rewrite <- (Forall2_len _ _ _ _ _ Vm), Dj. apply map_length. }
    destruct (messages_adjoint (add_trailing_axes (pl_mask (at_ j)) 1) (pl_mask (at_ i)) (ps ++ [K]) (pl_mult (at_ j)) (pl_mult (at_ i))
      (pl_plates (at_ i)) (pl_dims (at_ i)) (lift_arrays (ps ++ [K]) (pl_dims (at_ i)) (fun e => at_plate (pl_dims (at_ i)) m e)) L1 L2 B1 L4 MI)
      as (ys & E & Fy & G).
    { apply Forall2_of_nth; [now rewrite lift_arrays_length|]. intros x d a Hd Ha.
      now destruct (lift_arrays_nth _ _ _ _ _ _ Hd Ha). }
    exists ys. split; [exact E|]. split; [|split].
    2:{ pose proof (lifted_silent _ _ _ _ _ _ _ _ _ L1 L2 B1 L4 MI E Fy (pl_mult (at_ i))) as S. now destruct (at_ i). }
    + split; [exact Fy|]. intros p Hp.
      assert (CO : SpecDetNet.cone (pl_dims (at_ i)) (t_msg (tys ty) i)).
      { cbn [t_msg tys]. rewrite Ti, Di. apply mt_cone. }
      apply (lifted_message_in _ _ _ _ _ _ _ _ _ L1 L2 B1 CO E Fy); [|exact Hp]. clear p Hp.
      intros e He. cbn [t_msg tys]. rewrite Ti, Di. destruct (clusters_split K ps e He) as (p & k & -> & Hp & Hk).
      destruct Mm as [_ Mm]. specialize (Mm p Hp). cbn [t_msg tys] in Mm. rewrite Tj, Dj in Mm. cbn [mt_msg] in Mm.
      specialize (Mm k Hk). now rewrite at_plate_clusters in Mm.
    + intros us' x x' H' _ Ex Ex'. destruct (LU us' H') as (u' & -> & M' & Lu'). cbn [df_moments clusters_fn] in Ex, Ex'.
      injection Ex as <-. injection Ex' as <-. fold dims'. fold (F u). fold (F u').
      assert (KK : forall w, moments_in (at_ i) (mt_mom t) w -> length w = length dims -> pairing (at_ j) m (F w) = pairing (at_ i) ys w).
      { intros w [Vw _] Lw. rewrite (clusters_pair m w Lm Lw). unfold pairing at 1. rewrite (G w (variable_fits _ _ _ Vw)). now rewrite Di. }
      cbn [nth]. now rewrite !KK.
Qed.
End Clusters.
