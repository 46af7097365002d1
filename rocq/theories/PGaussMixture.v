(** C25: a Gaussian mixture model as an example for C25_gaussian_models. *)
From Coq Require Import List Arith ZArith Lia Bool Reals Lra FunctionalExtensionality.
From Verif Require Import Base Shapes SpecShapes ShapesLemmas NumPy MiscArray TensorLemmas
  SpecArray PlateSumLemmas ShapeOpsLemmas ExpFam SpecExpFam SpecUpdate Families SpecFamilies FamilyDist SpecFamilyDist Network SpecNetwork
  NetworkLemmas MarkovLemmas PFamilyDist FamilyNet PFamilyNet Dot SpecDot DetNet SpecDetNet DotNet Gaussian GaussianDist PGaussianDist GaussNet MixtureNet GaussModel SpecGaussNet SpecGaussModel GaussTypes GaussNodes GaussNodes5 PGaussNet PGaussFactor.
Import ListNotations.
Open Scope R_scope.

(** Y ~ Mixture(Z, GaussianARD, mu, 1), observed, with plates (3,); mu ~ GaussianARD(0, 1, plates=(2,)),
    Z ~ Categorical(p, plates=(3,)), p ~ Dirichlet((1, 2)). *)
Definition mixture_model : gmodel := GModel 12
  (fun i => let c x : arr R := Arr [] (fun _ => x) in
     match i with
     | 0 => NConstant [c 0%R; c 0%R] | 1 => NToGaussianGamma [] | 2 => NConstant [c 1%R; c (ln 1)]
     | 3 => NWithPrecision [] | 4 => NGaussianARD0 | 5 => NToGaussianGamma [] | 6 => NWithPrecision []
     | 7 => NClusters 2 [[]; []; []; []]
     | 8 => NConstant [Arr [2%nat] (fun e => if (e 0 =? 0)%nat then 1%R else 2%R); c 0%R] | 9 => NDirichlet 2 | 10 => NCategorical 2
     | 11 => NMixture 2 NGaussianARD0
     | _ => NConstant [] end)%nat
  (fun i => match i with 1 => [0] | 3 => [1; 2] | 4 => [3] | 5 => [4] | 6 => [5; 2] | 7 => [6] | 9 => [8] | 10 => [9] | 11 => [10; 7] | _ => [] end)%nat
  (fun i => match i with 4 | 5 | 6 => [2] | 7 | 10 | 11 => [3] | _ => [] end)%nat.
Definition mixture_types (i : nat) : mtype :=
  match i with
  | 0 | 4 | 11 => MGaussian []
  | 2 => MGamma
  | 7 => MClusters 2 (MGaussianGamma [])
  | 8 => MConcentration 2
  | 9 => MLogProb 2
  | 10 => MCategory 2
  | _ => MGaussianGamma []
  end%nat.
Definition mixture_state (lg psi : R -> R) : nstate := fun i =>
  let c x : arr R := Arr [] (fun _ => x) in
  let b x : arr bool := Arr [] (fun _ => x) in
  match i with
  | 4 => EF [2%nat] [[]; []] [Arr [2%nat] (fun _ => 0%R); Arr [2%nat] (fun _ => 1%R)] [c 0%R; c (-0.5)%R] (c 0%R) (c 0%R) (b false) (b true) [c 0%R; c 0%R] 1%R []
  | 9 => EF [] [[2%nat]] [Arr [2%nat] (fun _ => (psi 1 - psi 2)%R)] [Arr [2%nat] (fun _ => 1%R)] (c (lg 2 - (lg 1 + lg 1))%R) (c 0%R) (b false) (b true) [c 0%R] 1%R []
  | 10 => EF [3%nat] [[2%nat]] [Arr [3; 2]%nat (fun _ => 0.5%R)] [Arr [2%nat] (fun _ => 0%R)] (c (- ln 2)%R) (c 0%R) (b false) (b true) [c 0%R] 1%R []
  | 11 => EF [3]%nat [[]; []] [Arr [3]%nat (fun e => INR (e 0)); Arr [3]%nat (fun e => (INR (e 0%nat) * INR (e 0%nat))%R)]
            [c 0%R; c (-0.5)%R] (c 0%R) (c 0%R) (b true) (b true) [c 0%R; c 0%R] 1%R []
  | _ => EF (gm_plates mixture_model i) (mt_dims (mixture_types i)) [] [] (c 0%R) (c 0%R) (b false) (b true) [] 1%R []
  end%nat.

Lemma dirichlet_node_ok : forall lg psi, node_ok (dirichlet_efam lg psi 2) (mt_par (MLogProb 2)) (mixture_state lg psi 9%nat).
Proof.
  intros lg psi. constructor; cbn; try lra; try reflexivity; repeat node_shape. all: cbn; try apply broadcasts_to_nil; try apply broadcasts_to_refl.
  { split; [cbn; lia|]. split; [apply broadcasts_to_refl|]. intros k Hk. cbn in Hk. destruct k as [|k]; [reflexivity|lia]. }
  right. split.
  - exists [Arr [2%nat] (fun _ => psi 1 - psi (0 + 1 + 1))], (Arr [] (fun _ => lg (0 + 1 + 1) - (0 + lg 1 + lg 1))). split; [|split].
    + cbn. unfold lift_moments. cbn. unfold dirichlet_moments, any_le0. cbn. unfold as_vec, of_vec. cbn.
      destruct (Rle_dec 1 0) as [L|L]; [lra|]. reflexivity.
    + split; [reflexivity|]. split; [reflexivity|]. replace (0 + 1 + 1) with 2 by lra.
      intros [|[|i]] d a b Hd Ha Hb e He _; try discriminate; cbn in Ha, Hb; injection Ha as <-; injection Hb as <-; reflexivity.
    + intros p _ _. cbn. replace (0 + 1 + 1) with 2 by lra. lra.
  - intros p _ v Hv. cbn. unfold coef. cbn. lra.
Qed.
Lemma categorical_node_ok : forall lg psi, node_ok (multinomial_efam 1 2) (mt_par (MCategory 2)) (mixture_state lg psi 10%nat).
Proof.
  intros lg psi. constructor; cbn; try lra; try reflexivity; repeat node_shape. all: cbn; try apply broadcasts_to_nil; try apply broadcasts_to_refl.
  { split; [cbn; lia|]. split; [apply broadcasts_to_refl|]. intros k Hk. cbn in Hk. destruct k as [|k]; [reflexivity|lia]. }
  { split; [cbn; lia|]. intros [|[|k]]; [now (left + right)|now (left + right)|left; apply ax_overflow; cbn; lia]. }
  right. split; [|intros p _; exact I].
  eexists _, _. split; [reflexivity|]. split; [split; [reflexivity|split; [reflexivity|]]|].
  - intros [|[|i]] d a b Hd Ha Hb e He _; try discriminate; cbn in Ha, Hb; injection Ha as <-; injection Hb as <-. cbn.
    unfold of_vec, as_vec, bget, at_plate. cbn. unfold as_vec, bget, at_plate. cbn.
    match goal with |- context [exp ?x] => pose proof (exp_pos x) end. replace 0.5 with (1 / 2) by lra. field. lra.
  - intros p _ _. cbn. unfold logsumexpv. cbn. unfold as_vec, at_plate, bget. cbn. unfold Rmax. destruct (Rle_dec 0 0); rewrite Rminus_0_r, exp_0; replace (0 + 1 + 1) with 2 by lra; lra.
Qed.

Example C25_mixture : forall lg psi, gmodel_ok lg psi mixture_types mixture_model (mixture_state lg psi).
Proof.
  intros lg psi.
  assert (I12 : forall P : nat -> Prop, P 0%nat -> P 1%nat -> P 2%nat -> P 3%nat -> P 4%nat -> P 5%nat -> P 6%nat -> P 7%nat ->
    P 8%nat -> P 9%nat -> P 10%nat -> P 11%nat -> forall i, (i < gm_size mixture_model)%nat -> P i).
  { intros P ? ? ? ? ? ? ? ? ? ? ? ? i Hi. cbn in Hi. do 12 (destruct i as [|i]; [assumption|]). lia. }
  constructor.
  - intros j i Hj. pattern j. apply I12; [..|exact Hj]; cbn; intuition lia.
  - intros i F j k k' v v' Ei Hj. pattern j.
    assert (Hi : i = 4%nat \/ i = 9%nat \/ i = 10%nat \/ i = 11%nat).
    { cbn in Ei. do 12 (destruct i as [|i]; [try discriminate; auto|]). discriminate. }
    apply I12; [..|exact Hj]; intros Hk Hk' C C'; cbn in Hk, Hk';
      destruct k as [|[|[|k]]], k' as [|[|[|k']]]; try reflexivity; try discriminate;
      try (destruct k; discriminate); try (destruct k'; discriminate);
      injection Hk as <-; injection Hk' as <-; exfalso;
      destruct Hi as [-> | [-> | [-> | ->]]]; cone_inv.
  - apply I12; cbn; try constructor; try lia.
    + exact (ty_clusters 2 (MGaussianGamma [])).
    + exact (ty_mixture 2 NGaussianARD0 (MGaussian []) [MGaussianGamma []] I ty_ard0).
  - apply I12; reflexivity.
  - apply I12; reflexivity.
  - apply I12; cbn; apply broadcasts_to_nil.
  - intros j k i Hj. revert k i. pattern j. apply I12; [..|exact Hj]; intros [|[|[|k]]] i Hk; cbn in Hk; try discriminate;
      try (destruct k; discriminate); injection Hk as <-; cbn; (split; [|split; [apply broadcasts_to_nil|reflexivity]]);
      try apply broadcasts_to_nil; try apply broadcasts_to_refl.
    split; [cbn; lia|]. intros k. destruct k as [|[|k]]; [now (left + right)|now (left + right)|left; apply ax_overflow; cbn; lia].
  - intros j nodes g i s Hj. pattern j. apply I12; [..|exact Hj]; discriminate.
  - intros j u Hj. pattern j. apply I12; [..|exact Hj]; intros E; try discriminate; injection E as <-; split.
    1,3,5: repeat constructor; cbn; try lia; try apply broadcasts_to_refl; intros; lia.
    + intros p Hp. pose proof (point_moments 0) as H. cbn in H. rewrite Rmult_0_l in H. exact H.
    + intros p Hp. cbn. unfold coef. cbn. lra.
    + intros p Hp v Hv. cbn. unfold coef, bget. cbn. destruct (_ =? _)%nat; lra.
  - intros j F Hj. pattern j. apply I12; [..|exact Hj]; intros E; try discriminate; injection E as <-; (split; [|split; [split|]]).
    + apply unit_node. auto.
    + cbn. repeat constructor; cbn; try lia; try apply broadcasts_to_refl; intros; lia.
    + intros p Hp. exact unit_normal.
    + cbn. split; [lra|exact I].
    + exact (dirichlet_node_ok lg psi).
    + cbn. repeat constructor; cbn; try lia; try apply broadcasts_to_refl; intros; lia.
    + intros p Hp. exact I.
    + cbn. split; [lra|exact I].
    + exact (categorical_node_ok lg psi).
    + constructor; [|constructor]. split; [cbn; lia|]. split; [|apply broadcasts_to_refl]. intros k Hk. cbn in Hk. destruct k as [|k]; [reflexivity|lia].
    + intros p Hp. split; [intros v Hv; cbn; unfold coef; cbn; lra|]. cbn. unfold coef. cbn. lra.
    + cbn. split; [lra|exact I].
    + constructor; cbn; try lra; try reflexivity; repeat node_shape. all: try (now left). all: cbn; try apply broadcasts_to_nil.
    + cbn. repeat constructor; cbn; try lia; try apply broadcasts_to_refl; intros; lia.
    + intros p Hp. cbn. exact (point_moments _).
    + cbn. split; [lra|exact I].
Qed.
