(** C25: a factor model with SumMultiply as an example for C25_gaussian_models. *)
From Coq Require Import List Arith ZArith Lia Bool Reals Lra FunctionalExtensionality.
From Verif Require Import Base Shapes SpecShapes ShapesLemmas NumPy MiscArray TensorLemmas
  SpecArray PlateSumLemmas ShapeOpsLemmas ExpFam SpecExpFam SpecUpdate Families SpecFamilies FamilyDist SpecFamilyDist Network SpecNetwork
  NetworkLemmas MarkovLemmas PFamilyDist PFamilyNet Dot SpecDot DetNet SpecDetNet DotNet Gaussian GaussianDist PGaussianDist GaussNet GaussModel SpecGaussNet SpecGaussModel GaussTypes GaussNodes GaussNodes5 PGaussNet.
Import ListNotations.
Open Scope R_scope.

(** Y ~ GaussianARD(Add(SumMultiply(',,d->', X, W, c), B), 2), observed, with plates (2, 3);
    X, B ~ GaussianARD(0, 1, plates=(3,)), W ~ GaussianARD(0, 1, plates=(2, 1)), c = (1, 3). *)
Definition factor_parents : list (shape * pkind) := [([], KGaussian); ([], KGaussian); ([2%nat], KDelta)].
Definition factor_keys : list (list nat) := [[]; []; [7%nat]].
Definition factor_node : sm_node := match sm_init [7%nat] factor_parents factor_keys [] with Ok g => g | Err _ => SM [] [] 0 [] false [] end.
Definition factor_model : gmodel := GModel 14
  (fun i => let c x : arr R := Arr [] (fun _ => x) in
     match i with
     | 0 => NConstant [c 0%R; c 0%R] | 1 => NToGaussianGamma [] | 2 => NConstant [c 1%R; c (ln 1)]
     | 3 => NWithPrecision [] | 4 => NGaussianARD0 | 5 => NGaussianARD0
     | 6 => NConstant [Arr [2%nat] (fun e => if (e 0 =? 0)%nat then 1%R else 3%R)]
     | 7 => NSumMultiply factor_parents factor_node
     | 8 => NGaussianARD0 | 9 => NAdd [[]; []] []
     | 10 => NToGaussianGamma [] | 11 => NConstant [c 2%R; c (ln 2)] | 12 => NWithPrecision [] | 13 => NGaussianARD0
     | _ => NConstant [] end)%nat
  (fun i => match i with 1 => [0] | 3 => [1; 2] | 4 => [3] | 5 => [3] | 7 => [4; 5; 6] | 8 => [3] | 9 => [7; 8] | 10 => [9] | 12 => [10; 11] | 13 => [12] | _ => [] end)%nat
  (fun i => match i with 4 | 8 => [3] | 5 => [2; 1] | 7 | 9 | 10 | 12 | 13 => [2; 3] | _ => [] end)%nat.
Definition factor_types (i : nat) : mtype :=
  match i with
  | 0 | 4 | 5 | 7 | 8 | 9 | 13 => MGaussian []
  | 2 | 11 => MGamma
  | 6 => MFixed [2]
  | _ => MGaussianGamma []
  end%nat.
Definition factor_state : nstate := fun i =>
  let c x : arr R := Arr [] (fun _ => x) in
  let b x : arr bool := Arr [] (fun _ => x) in
  match i with
  | 4 | 8 => EF [3%nat] [[]; []] [Arr [3%nat] (fun _ => 0%R); Arr [3%nat] (fun _ => 1%R)] [c 0%R; c (-0.5)%R] (c 0%R) (c 0%R) (b false) (b true) [c 0%R; c 0%R] 1%R []
  | 5 => EF [2; 1]%nat [[]; []] [Arr [2; 1]%nat (fun _ => 0%R); Arr [2; 1]%nat (fun _ => 1%R)] [c 0%R; c (-0.5)%R] (c 0%R) (c 0%R) (b false) (b true) [c 0%R; c 0%R] 1%R []
  | 13 => EF [2; 3]%nat [[]; []] [Arr [2; 3]%nat (fun e => INR (e 0 + e 1)%nat); Arr [2; 3]%nat (fun e => (INR (e 0 + e 1)%nat * INR (e 0 + e 1)%nat)%R)]
            [c 0%R; c (-0.5)%R] (c 0%R) (c 0%R) (b true) (b true) [c 0%R; c 0%R] 1%R []
  | _ => EF (gm_plates factor_model i) (mt_dims (factor_types i)) [] [] (c 0%R) (c 0%R) (b false) (b true) [] 1%R []
  end%nat.

Lemma unit_normal : mt_mom (MGaussian []) [fun _ => 0; fun _ => 1].
Proof.
  exists [(0.5, fun _ => 1); (0.5, fun _ => -1)]. split; [|split].
  - split; [repeat constructor; cbn; lra|cbn; lra].
  - intros v Hv. unfold avg, coef. cbn. lra.
  - intros v w Hv Hw. unfold avg, coef. cbn. lra.
Qed.
Lemma unit_par : mt_par (MGaussian []) [fun _ => 0; fun _ => -0.5].
Proof.
  split; [intros v w _ _; reflexivity|]. intros f (v & Hv & Nz). unfold quad. rewrite !total_0d. unfold coef. cbn.
  assert (v = env0). { apply functional_extensionality. intros k. specialize (Hv k). rewrite ax_overflow in Hv by (cbn; lia). unfold env0. lia. }
  subst v. assert (0 < f env0 * f env0) by (destruct (Rdichotomy _ _ Nz); nra). nra.
Qed.

Lemma unit_node : forall plates, plates = [3%nat] \/ plates = [2; 1]%nat \/ plates = [2%nat] -> let c x : arr R := Arr [] (fun _ => x) in
  node_ok ard0_efam (mt_par (MGaussian [])) (EF plates [[]; []] [Arr plates (fun _ => 0); Arr plates (fun _ => 1)] [c 0; c (-0.5)] (c 0) (c 0) (Arr [] (fun _ => false)) (Arr [] (fun _ => true)) [c 0; c 0] 1 []).
Proof.
  intros plates HP c.
  assert (LM : lift_moments (e_fam ard0_efam) plates [c 0; c (-0.5)] (Arr [] (fun _ => true)) =
    Ok ([Arr plates (fun _ => - 0 / (2 * -0.5)); Arr plates (fun _ => (- 0 / (2 * -0.5)) ^ 2 - 1 / (2 * -0.5))], Arr plates (fun _ => -0.5 * (- 0 / (2 * -0.5)) * 0 + 0.5 * ln (-2 * -0.5)))).
  { destruct HP as [-> | [-> | ->]]; cbn; unfold lift_moments; cbn; unfold ard0_moments; cbn; destruct (Rle_dec (-2 * -0.5) 0) as [L|L]; try lra; cbn;
      destruct (Rle_dec (-2 * -0.5) 0) as [L'|L']; try lra; reflexivity. }
  assert (MA : forall f, moment_array plates [] (Arr plates f)).
  { intros f. split; [cbn; lia|]. rewrite app_nil_r. split; [apply broadcasts_to_refl|]. intros k Hk. cbn in Hk. lia. }
  constructor; cbn; try lra; try reflexivity; try (constructor; cbn; [repeat (constructor; [apply MA|]); constructor|apply broadcasts_to_nil]); repeat node_shape.
  all: try (cbn; apply broadcasts_to_nil). right. split.
  - eexists _, _. split; [exact LM|]. split.
    + split; [reflexivity|]. split; [reflexivity|].
      intros [|[|[|i]]] d a b Hd Ha Hb e He _; try discriminate; cbn in Ha, Hb; injection Ha as <-; injection Hb as <-; cbn; try field; lra.
    + intros p _ _. cbn. replace (-2 * -0.5) with 1 by lra. rewrite ln_1. lra.
  - intros p _. exact unit_par.
Qed.

Example C25_factor : forall lg psi, gmodel_ok lg psi factor_types factor_model factor_state.
Proof.
  intros lg psi.
  assert (I14 : forall P : nat -> Prop, P 0%nat -> P 1%nat -> P 2%nat -> P 3%nat -> P 4%nat -> P 5%nat -> P 6%nat -> P 7%nat ->
    P 8%nat -> P 9%nat -> P 10%nat -> P 11%nat -> P 12%nat -> P 13%nat -> forall i, (i < gm_size factor_model)%nat -> P i).
  { intros P ? ? ? ? ? ? ? ? ? ? ? ? ? ? i Hi. cbn in Hi. do 14 (destruct i as [|i]; [assumption|]). lia. }
  constructor.
  - intros j i Hj. pattern j. apply I14; [..|exact Hj]; cbn; intuition lia.
  - intros i F j k k' v v' Ei Hj. pattern j.
    assert (Hi : i = 4%nat \/ i = 5%nat \/ i = 8%nat \/ i = 13%nat).
    { cbn in Ei. do 14 (destruct i as [|i]; [try discriminate; auto|]). discriminate. }
    apply I14; [..|exact Hj]; intros Hk Hk' C C'; cbn in Hk, Hk';
      destruct k as [|[|[|k]]], k' as [|[|[|k']]]; try reflexivity; try discriminate;
      try (destruct k; discriminate); try (destruct k'; discriminate);
      injection Hk as <-; injection Hk' as <-; exfalso;
      destruct Hi as [-> | [-> | [-> | ->]]]; cone_inv.
  - apply I14; cbn; try constructor.
    + apply (ty_multiply [7%nat] factor_keys [] factor_parents factor_node [MGaussian []; MGaussian []; MFixed [2%nat]]).
      * split; [repeat constructor; intros []|]. intros k. cbn. tauto.
      * reflexivity.
      * repeat constructor.
    + reflexivity.
  - apply I14; reflexivity.
  - apply I14; reflexivity.
  - apply I14; cbn; apply broadcasts_to_nil.
  - intros j k i Hj. revert k i. pattern j. apply I14; [..|exact Hj]; intros [|[|[|k]]] i Hk; cbn in Hk; try discriminate;
      try (destruct k; discriminate); injection Hk as <-; cbn; (split; [|split; [apply broadcasts_to_nil|reflexivity]]);
      try apply broadcasts_to_nil; try apply broadcasts_to_refl.
    + split; [cbn; lia|]. intros k. destruct k as [|[|k]]; [now (left + right)|now (left + right)|left; apply ax_overflow; cbn; lia].
    + split; [cbn; lia|]. intros k. destruct k as [|[|k]]; [now (left + right)|now (left + right)|left; apply ax_overflow; cbn; lia].
    + split; [cbn; lia|]. intros k. destruct k as [|[|k]]; [now (left + right)|now (left + right)|left; apply ax_overflow; cbn; lia].
  - intros j nodes g i s Hj. pattern j. apply I14; [..|exact Hj]; try discriminate. intros _ Hi _. cbn in Hi.
    destruct Hi as [<- | [<- | [<- | []]]]; reflexivity.
  - intros j u Hj. pattern j. apply I14; [..|exact Hj]; intros E; try discriminate; injection E as <-; split.
    1,3,5,7: repeat constructor; cbn; try lia; try apply broadcasts_to_refl; intros; lia.
    + intros p Hp. pose proof (point_moments 0) as H. cbn in H. rewrite Rmult_0_l in H. exact H.
    + intros p Hp. cbn. unfold coef. cbn. lra.
    + intros p Hp. exact I.
    + intros p Hp. cbn. unfold coef. cbn. lra.
  - intros j F Hj. pattern j. apply I14; [..|exact Hj]; intros E; try discriminate; injection E as <-; (split; [|split; [split|]]).
    + apply unit_node. now left.
    + cbn. repeat constructor; cbn; try lia; try apply broadcasts_to_refl; intros; lia.
    + intros p Hp. exact unit_normal.
    + cbn. split; [lra|exact I].
    + apply unit_node. right. now left.
    + cbn. repeat constructor; cbn; try lia; try apply broadcasts_to_refl; intros; lia.
    + intros p Hp. exact unit_normal.
    + cbn. split; [lra|exact I].
    + apply unit_node. now left.
    + cbn. repeat constructor; cbn; try lia; try apply broadcasts_to_refl; intros; lia.
    + intros p Hp. exact unit_normal.
    + cbn. split; [lra|exact I].
    + constructor; cbn; try lra; try reflexivity; repeat node_shape. all: try (now left). all: cbn; try apply broadcasts_to_nil.
    + cbn. repeat constructor; cbn; try lia; try apply broadcasts_to_refl; intros; lia.
    + intros p Hp. cbn. exact (point_moments _).
    + cbn. split; [lra|exact I].
Qed.
(** The kind of a ConcatGaussian of vectors of lengths 2 and 3. *)
Example C25_concat_kind : node_typed (NConcatGaussian [[2%nat]; [3%nat]] [0; 2; 5]%nat) (MGaussian [5%nat]) [MGaussian [2%nat]; MGaussian [3%nat]].
Proof. apply (ty_concat [[2%nat]; [3%nat]] 5%nat [0; 2; 5]%nat); [discriminate|reflexivity]. Qed.
