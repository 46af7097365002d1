(** C25: a linear state-space model with inputs as an example for C25_gaussian_models. *)
From Coq Require Import List Arith ZArith Lia Bool Reals Lra FunctionalExtensionality.
From Verif Require Import Base Shapes SpecShapes ShapesLemmas NumPy MiscArray TensorLemmas
  SpecArray PlateSumLemmas ShapeOpsLemmas ExpFam SpecExpFam ExpFamLemmas SpecUpdate Families SpecFamilies FamiliesLemmas FamilyDist SpecFamilyDist Network SpecNetwork
  NetworkLemmas NetworkLemmas2 DetNetLemmas MarkovLemmas BlockLemmas PFamilyDist FamilyNet PFamilyNet Dot SpecDot DetNet SpecDetNet DotNet Linalg MatBridge SpecLinalg Gaussian GaussianDist PGaussianDist
  BlockBanded GaussMarkov GaussMarkovDist PGaussMarkov GaussNet MixtureNet PathNet GaussModel SpecGaussNet SpecGaussModel PlateDet GaussTypes GaussNodes GaussNodes2 GaussNodes3 GaussNodes4 GaussNodes5 GaussNodes6 GaussNodes7 PathFam PGaussNet PGaussFactor PGaussHidden.
Import ListNotations.
Open Scope R_scope.

(** Four states of two numbers, with one input signal: X ~ GaussianMarkovChain(0, I, A, 1,
    inputs=[[0], [1], [2]]), A ~ GaussianARD(0, 1, shape=(3,), plates=(2,)), and observed
    Y ~ Gaussian(X, I).  A and X start at the parameters of [fresh]. *)
Definition eye (v : env) : R := if (v 1 =? v 0)%nat then 1 else 0.
Definition half_eye (v : env) : R := if (v 1 =? v 0)%nat then -0.5 else 0.
Definition lssm_model (junk : rows * blocks * blocks) : gmodel := GModel 21
  (fun i => let c x : arr R := Arr [] (fun _ => x) in
     match i with
     | 0 => NConstant [Arr [2] (fun _ => 0%R); Arr [2; 2] (fun _ => 0%R)] | 1 => NToGaussianGamma [2]
     | 2 => NConstant [Arr [2; 2] eye; c 0%R] | 3 => NWithWishart 2
     | 4 => NConstant [c 0%R; c 0%R] | 5 => NToGaussianGamma [] | 6 => NConstant [c 1%R; c (ln 1)] | 7 => NWithPrecision []
     | 8 => NElements 3 | 9 => NGaussianARD 3 | 10 => NToGaussianGamma [3] | 11 => NWithPrecision [3]
     | 12 => NClusters 2 [[3]; [3; 3]; []; []] | 13 => NClusters 3 [[2; 3]; [2; 3; 3]; [2]; [2]]
     | 14 => NConstant [Arr [3; 1] (fun e => INR (e 1)); Arr [3; 1; 1] (fun e => (INR (e 2%nat) * INR (e 2%nat))%R)]
     | 15 => NClusters 3 [[1]; [1; 1]]
     | 16 => NGaussianMarkovChain junk 4 2 (Some 1) | 17 => NGaussianStates 4 2
     | 18 => NToGaussianGamma [2] | 19 => NWithWishart 2 | 20 => NGaussian 2
     | _ => NConstant [] end)%nat
  (fun i => match i with 1 => [0] | 3 => [1; 2] | 5 => [4] | 7 => [5; 6] | 8 => [7] | 9 => [8] | 10 => [9] | 11 => [10; 6] | 12 => [11] | 13 => [12]
     | 15 => [14] | 16 => [3; 13; 15] | 17 => [16] | 18 => [17] | 19 => [18; 2] | 20 => [19] | _ => [] end)%nat
  (fun i => match i with 8 | 9 | 10 | 11 => [2] | 14 => [3] | 17 | 18 | 19 | 20 => [4] | _ => [] end)%nat.
Definition lssm_types (i : nat) : mtype :=
  match i with
  | 0 | 17 | 20 => MGaussian [2] | 1 | 18 => MGaussianGamma [2] | 2 => MWishart 2 | 3 | 19 => MGaussianWishart 2
  | 4 => MGaussian [] | 6 => MGamma | 8 => MElements 3 | 9 => MGaussian [3] | 10 | 11 => MGaussianGamma [3]
  | 12 => MClusters 2 (MGaussianGamma [3]) | 13 => MClusters 3 (MClusters 2 (MGaussianGamma [3]))
  | 14 => MGaussian [1] | 15 => MClusters 3 (MGaussian [1]) | 16 => MPath 4 2
  | _ => MGaussianGamma []
  end%nat.
Definition lssm_state (junk : rows * blocks * blocks) : nstate := fun i =>
  let c x : arr R := Arr [] (fun _ => x) in
  let b x : arr bool := Arr [] (fun _ => x) in
  match i with
  | 9 => fresh (ard_efam 3) [2] [fun _ => 0%R; half_eye]
  | 16 => fresh (path_efam junk 4 2 (Some 1)) [] [fun _ => 0%R; half_eye; fun _ => 0%R]
  | 20 => EF [4] [[2]; [2; 2]] [Arr [4; 2] (fun e => INR (e 0 + e 1)%nat); Arr [4; 2; 2] (fun e => (INR (e 0 + e 2)%nat * INR (e 1 + e 2)%nat)%R)]
            [Arr [2] (fun _ => 0%R); Arr [2; 2] half_eye] (c 0%R) (c 0%R) (b true) (b true) [c 0%R; c 0%R] 1%R []
  | _ => EF (gm_plates (lssm_model junk) i) (mt_dims (lssm_types i)) [] [] (c 0%R) (c 0%R) (b false) (b true) [] 1%R []
  end%nat.

Opaque fresh.
Section Example.
Variables lg psi : R -> R.
Hypothesis HG : gamma_convex lg psi.
Variable junk : rows * blocks * blocks.
Let M := lssm_model junk.
Let st := lssm_state junk.

Lemma half_form : forall D q x, (forall i j, (i < D)%nat -> (j < D)%nat -> q i j = if (i =? j)%nat then -0.5 else 0) ->
  bilinear D q x x = -0.5 * rsum D (fun i => x i * x i).
Proof.
  intros D q x H. unfold bilinear. rewrite <- rsum_scal. apply rsum_ext. intros i Hi.
  rewrite (rsum_ext D _ (fun j => if (j =? i)%nat then -0.5 * (x i * x i) else 0)).
  - now apply (rsum_single D i (fun _ => -0.5 * (x i * x i))).
  - intros j Hj. rewrite H by assumption. rewrite Nat.eqb_sym. destruct (Nat.eqb_spec j i) as [->|]; ring.
Qed.
Lemma half_sym : forall D (q : mat), (forall i j, (i < D)%nat -> (j < D)%nat -> q i j = if (i =? j)%nat then -0.5 else 0) -> symmetric D q.
Proof. intros D q H i j Hi Hj. rewrite !H by assumption. now rewrite Nat.eqb_sym. Qed.

Lemma eye_posdef : posdef 2 (fun i j => if (i =? j)%nat then 1 else 0).
Proof.
  split; [intros i j _ _; now rewrite Nat.eqb_sym|]. intros x (i & Hi & Nx). unfold bilinear. cbn [rsum Nat.eqb].
  assert (0 < x i * x i) by (destruct (Rdichotomy _ _ Nx); nra).
  pose proof (Rle_0_sqr (x 0%nat)). pose proof (Rle_0_sqr (x 1%nat)). unfold Rsqr in *.
  destruct i as [|[|i]]; [lra|lra|lia].
Qed.

Lemma lssm_fresh : forall i, In i [9; 16]%nat -> exists F,
  gnode_kind lg psi (gm_plates M i) (gm_node M i) = KStoch F /\
  let n := st i in let t := lssm_types i in
  node_ok F (mt_par t) n /\ moments_in (place_of n) (mt_mom t) (n_u n) /\
  n_plates n = gm_plates M i /\ n_dims n = mt_dims t /\ n_mult n = [] /\ n_mask n = Arr [] (fun _ => true) /\ n_ann n = 1.
Proof.
  intros i [<- | [<- | []]]; eexists; (split; [reflexivity|]); cbv zeta; cbn [st lssm_state lssm_types].
  - apply (fresh_ok _ (MGaussian [3%nat]) _ _ _ (ard_typed 3)); [reflexivity|]. intros p Hp. cbn [fam_dims e_fam ard_efam].
    set (x := at_plate _ _ p).
    assert (H : forall i j, (i < 3)%nat -> (j < 3)%nat -> as_mat (coef x 1) i j = if (i =? j)%nat then -0.5 else 0).
    { intros i j Hi Hj. unfold as_mat, x. cbn [mt_dims app length].
      rewrite (lift_coef [2%nat] [[3]; [3; 3]]%nat _ p 1%nat [3; 3]%nat _ Hp eq_refl (valid_mat 3 i j Hi Hj)). reflexivity. }
    split; [apply msym_vec; now apply half_sym|]. intros f (v & Hv & Nz). rewrite quad_vec, (half_form 3 _ _ H).
    assert (0 < rsum 3 (fun i => as_vec f i * as_vec f i)); [|lra].
    destruct (vec_index 3 v Hv) as [Ev Hi]. rewrite Ev in Nz. unfold as_vec.
    apply Rlt_le_trans with (f (upd env0 0 (v 0%nat)) * f (upd env0 0 (v 0%nat))); [destruct (Rdichotomy _ _ Nz); nra|].
    set (k := v 0%nat) in *. assert (EK : k = 0%nat \/ k = 1%nat \/ k = 2%nat) by lia. cbn [rsum].
    pose proof (Rle_0_sqr (f (upd env0 0 0%nat))). pose proof (Rle_0_sqr (f (upd env0 0 1%nat))). pose proof (Rle_0_sqr (f (upd env0 0 2%nat))). unfold Rsqr in *.
    destruct EK as [-> | [-> | ->]]; lra.
  - apply (fresh_ok _ (MPath 4 2) _ _ _ (path_typed junk 4 2 (Some 1%nat) ltac:(lia) ltac:(lia))); [reflexivity|]. intros p Hp. cbn [fam_dims e_fam path_efam chain_family].
    set (x := at_plate _ _ p).
    assert (H : forall n i j, (n < 4)%nat -> (i < 2)%nat -> (j < 2)%nat -> as_blocks (coef x 1) n i j = if (i =? j)%nat then -0.5 else 0).
    { intros n i j Hn Hi Hj. unfold as_blocks, x. cbn [mt_dims app length].
      rewrite (lift_coef [] [[4; 2]; [4; 2; 2]; [3; 2; 2]]%nat _ p 1%nat [4; 2; 2]%nat _ Hp eq_refl (valid_blocks 4 2 2 n i j Hn Hi Hj)). reflexivity. }
    assert (Z : forall n i j, (n < 3)%nat -> (i < 2)%nat -> (j < 2)%nat -> as_blocks (coef x 2) n i j = 0).
    { intros n i j Hn Hi Hj. unfold as_blocks, x. cbn [mt_dims app length].
      rewrite (lift_coef [] [[4; 2]; [4; 2; 2]; [3; 2; 2]]%nat _ p 2%nat [3; 2; 2]%nat _ Hp eq_refl (valid_blocks 3 2 2 n i j Hn Hi Hj)). reflexivity. }
    split; [intros n Hn; apply half_sym; intros; now apply H|]. intros y (n & i & Hn & Hi & Nz).
    unfold path_form. rewrite (rsum_ext 4 _ (fun n => -0.5 * rsum 2 (fun i => y n i * y n i))) by (intros k Hk; apply half_form; intros; now apply H).
    rewrite (rsum_ext (4 - 1) _ (fun n => 0 * 0)).
    2: { intros k Hk. unfold bilinear. rewrite (rsum_ext 2 _ (fun _ => 0 * 0)); [rewrite rsum_scal; ring|]. intros a Ha.
         rewrite (rsum_ext 2 _ (fun _ => 0 * 0)); [rewrite rsum_scal; ring|]. intros b Hb. rewrite Z by lia. ring. }
    rewrite !rsum_scal, Rmult_0_l, Rplus_0_r.
    assert (0 < rsum 4 (fun n => rsum 2 (fun i => y n i * y n i))); [|lra].
    apply Rlt_le_trans with (y n i * y n i); [destruct (Rdichotomy _ _ Nz); nra|].
    assert (SQ : forall a b, 0 <= y a b * y a b) by (intros; apply Rle_0_sqr). clear - Hn Hi SQ.
    do 4 (destruct n as [|n]; [do 2 (destruct i as [|i]; [cbn [rsum];
      pose proof (SQ 0 0)%nat; pose proof (SQ 0 1)%nat; pose proof (SQ 1 0)%nat; pose proof (SQ 1 1)%nat;
      pose proof (SQ 2 0)%nat; pose proof (SQ 2 1)%nat; pose proof (SQ 3 0)%nat; pose proof (SQ 3 1)%nat; lra|]); lia|]). lia.
Qed.

Lemma lssm_shape : forall i, (i < 21)%nat -> n_plates (st i) = gm_plates M i /\
  n_dims (st i) = mt_dims (lssm_types i) /\ n_mult (st i) = [] /\ n_mask (st i) = Arr [] (fun _ => true).
Proof.
  intros i Hi. destruct (in_dec Nat.eq_dec i [9; 16]%nat) as [X|X].
  - destruct (lssm_fresh i X) as (F & _ & _ & _ & A & B & C & D & _). now repeat split.
  - do 21 (destruct i as [|i]; [now repeat split|| (exfalso; apply X; cbn; tauto)|]). lia.
Qed.

Ltac solve_vars := repeat (apply Forall2_cons; [split; [cbn; lia|split; [cbn; intros k Hk; destruct k as [|[|[|k]]]; try reflexivity; lia|apply broadcasts_to_refl]]|]); apply Forall2_nil.

Example C25_state_space : gmodel_ok lg psi lssm_types M st.
Proof.
  assert (I21 : forall P : nat -> Prop, P 0%nat -> P 1%nat -> P 2%nat -> P 3%nat -> P 4%nat -> P 5%nat -> P 6%nat -> P 7%nat -> P 8%nat -> P 9%nat -> P 10%nat -> P 11%nat -> P 12%nat -> P 13%nat -> P 14%nat -> P 15%nat -> P 16%nat -> P 17%nat -> P 18%nat -> P 19%nat -> P 20%nat ->
    forall i, (i < gm_size M)%nat -> P i).
  { intros P ? ? ? ? ? ? ? ? ? ? ? ? ? ? ? ? ? ? ? ? ? i Hi. cbn in Hi. do 21 (destruct i as [|i]; [assumption|]). lia. }
  assert (OR : forall j i, (j < gm_size M)%nat -> In i (gm_parents M j) -> (i < j)%nat).
  { intros j i Hj. cbn in Hj. do 21 (destruct j as [|j]; [cbn; intuition lia|]). lia. }
  constructor.
  - exact OR.
  - intros i F j k k' v v' Ei Hj.
    assert (Hi : i = 9%nat \/ i = 16%nat \/ i = 20%nat).
    { cbn in Ei. do 21 (destruct i as [|i]; [try discriminate; tauto|]). discriminate. }
    cbn in Hj. do 21 (destruct j as [|j]; [
      intros Hk Hk' C C'; cbn in Hk, Hk';
      destruct k as [|[|[|[|k]]]], k' as [|[|[|[|k']]]]; try reflexivity; try discriminate;
      injection Hk as <-; injection Hk' as <-; exfalso;
      destruct Hi as [-> | [-> | ->]]; cone_inv |]). lia.
  - apply I21; cbn; try constructor; try lia.
    + exact (ty_clusters 2 (MGaussianGamma [3%nat])).
    + exact (ty_clusters 3 (MClusters 2 (MGaussianGamma [3%nat]))).
    + exact (ty_clusters 3 (MGaussian [1%nat])).
  - intros j Hj. apply (lssm_shape j Hj).
  - intros j Hj. apply (lssm_shape j Hj).
  - intros j Hj. destruct (lssm_shape j Hj) as (_ & _ & _ & ->). apply broadcasts_to_nil.
  - intros j k i Hj Hk. pose proof (OR j i Hj (nth_error_In _ _ Hk)) as Hi.
    destruct (lssm_shape j Hj) as (-> & _ & -> & ->). destruct (lssm_shape i) as (-> & _ & -> & ->); [cbn in Hj; lia|].
    split; [|split; [apply broadcasts_to_nil|reflexivity]]. clear Hi. revert k i Hk.
    pattern j. apply I21; [..|exact Hj]; intros [|[|[|[|k]]]] i Hk; cbn in Hk; try discriminate;
      try (destruct k; discriminate); injection Hk as <-; cbn;
      try apply broadcasts_to_nil; try apply broadcasts_to_refl.
    exists []. split; [reflexivity|apply broadcasts_to_refl].
  - intros j nodes g i s Hj. cbn in Hj. do 21 (destruct j as [|j]; [discriminate|]). lia.
  - intros j u Hj. pattern j. apply I21; [..|exact Hj]; intros E; try discriminate; injection E as <-; split.
    1,3,5,7,9: cbn; solve_vars.
    + intros p Hp. cbn. exists [(1, fun _ => 0)]. split; [split; [repeat constructor; cbn; lra|cbn; lra]|]. split; intros; unfold avg, coef, bget; cbn; lra.
    + intros p Hp. cbn. apply (posdef_ext 2 (fun i j => if (i =? j)%nat then 1 else 0)); [|exact eye_posdef].
      intros a b Ha Hb. destruct a as [|[|a]], b as [|[|b]]; try reflexivity; lia.
    + intros p Hp. pose proof (point_moments 0) as H. cbn in H. rewrite Rmult_0_l in H. exact H.
    + intros p Hp. cbn. unfold coef. cbn. lra.
    + intros p Hp. cbn. exists [(1, fun _ => INR (p 0%nat))]. split; [split; [repeat constructor; cbn; lra|cbn; lra]|].
      split; intros; unfold avg; cbn; lra.
  - intros j F Hj EF. destruct (in_dec Nat.eq_dec j [9; 16]%nat) as [X|X].
    + destruct (lssm_fresh j X) as (F' & E' & A & B & _ & _ & _ & _ & AN). rewrite E' in EF. injection EF as <-.
      split; [exact A|]. split; [exact B|]. rewrite AN.
      destruct X as [<- | [<- | []]]; cbn; split; try lra; exact I.
    + assert (j = 20%nat) as ->.
      { cbn in EF, Hj. do 21 (destruct j as [|j]; [try discriminate; try reflexivity; exfalso; apply X; cbn; tauto|]). lia. }
      injection EF as <-. split; [|split; [split|]].
      * constructor; cbn; try lra; try reflexivity; repeat node_shape. all: try (now left).
        1,2: split; [reflexivity|split; [apply broadcasts_to_refl|cbn; intros k Hk; destruct k as [|[|[|k]]]; try reflexivity; lia]].
        1,2: split; [cbn; lia|]; intros k; destruct k as [|[|k]]; [right; reflexivity|first [left; reflexivity|right; reflexivity]|left; apply ax_overflow; cbn; lia].
      * cbn. solve_vars.
      * intros p Hp. cbn. exists [(1, fun v => INR (v 0 + p 0)%nat)]. split; [split; [repeat constructor; cbn; lra|cbn; lra]|].
        split; [intros v Hv|intros v w Hv Hw]; unfold avg, coef; cbn; ring.
      * cbn. split; [lra|exact I].
Qed.
End Example.
