(** C25: a hidden Markov model as an example for C25_gaussian_models. *)
From Coq Require Import List Arith ZArith Lia Bool Reals Lra FunctionalExtensionality.
From Verif Require Import Base Shapes SpecShapes ShapesLemmas NumPy MiscArray TensorLemmas
  SpecArray PlateSumLemmas ShapeOpsLemmas ExpFam SpecExpFam ExpFamLemmas SpecUpdate Families SpecFamilies FamiliesLemmas FamilyDist SpecFamilyDist Network SpecNetwork
  NetworkLemmas NetworkLemmas2 DetNetLemmas MarkovLemmas PFamilyDist FamilyNet PFamilyNet Dot SpecDot DetNet SpecDetNet DotNet Gaussian GaussianDist PGaussianDist GaussNet MixtureNet GaussModel SpecGaussNet SpecGaussModel PlateDet GaussTypes GaussNodes GaussNodes2 GaussNodes3 GaussNodes4 GaussNodes5 GaussNodes6 GaussNodes7 MarkovNet MarkovFam PGaussNet PGaussFactor.
Import ListNotations.
Open Scope R_scope.

(** A node that has just been given natural parameters [phi]. *)
Definition fresh (F : efam) (plates : shape) (phi : list (env -> R)) : efnode :=
  let dims := fam_dims (e_fam F) in
  let ph := lift_arrays plates dims (fun _ => phi) in
  let c x : arr R := Arr [] (fun _ => x) in
  let node u g := EF plates dims u ph g (c 0) (Arr [] (fun _ => false)) (Arr [] (fun _ => true)) (map (fun _ => c 0) dims) 1 [] in
  match lift_moments (e_fam F) plates ph (np_not (Arr [] (fun _ => false))) with
  | Ok (u, g) => node u g
  | Err _ => node [] (c 0)
  end.

Lemma Forall2_weaken : forall A B (P Q : A -> B -> Prop) l m, (forall a b, P a b -> Q a b) -> Forall2 P l m -> Forall2 Q l m.
Proof. intros A B P Q l m H F. induction F; constructor; auto. Qed.
Lemma moment_of_shape : forall plates d (a : arr R), ash a = plates ++ d -> moment_array plates d a.
Proof.
  intros plates d a E. split; [rewrite E; apply app_length|]. split; [rewrite E; apply broadcasts_to_refl|].
  intros k Hk. rewrite E. unfold ax. rewrite rev_app_distr, app_nth1 by now rewrite rev_length. reflexivity.
Qed.

Lemma fresh_ok : forall F t ts plates phi, fam_typed F t ts -> length phi = length (mt_dims t) ->
  proper_at (e_fam F) (mt_par t) plates (lift_arrays plates (mt_dims t) (fun _ => phi)) ->
  let n := fresh F plates phi in
  node_ok F (mt_par t) n /\ moments_in (place_of n) (mt_mom t) (n_u n) /\
  n_plates n = plates /\ n_dims n = mt_dims t /\ n_mult n = [] /\ n_mask n = Arr [] (fun _ => true) /\ n_ann n = 1.
Proof.
  intros F t ts plates phi FT L PA. pose proof (ft_dims _ _ _ FT) as ED. unfold fresh. rewrite ED in *.
  set (ph := lift_arrays plates (mt_dims t) (fun _ => phi)) in *.
  assert (LP : forall p, length (at_plate (mt_dims t) ph p) = length (mt_dims t)).
  { intros p. apply at_plate_length. unfold ph. apply lift_arrays_length. }
  destruct (lift_total (e_fam F) plates ph (np_not (Arr [] (fun _ => false)))) as (u & g & E & SU & SG).
  { intros p Hp. rewrite ED. destruct (ft_mom _ _ _ FT _ (LP p) ltac:(specialize (PA p Hp); now rewrite ED in PA)) as (x & y & -> & _). now exists (x, y). }
  rewrite E. cbn zeta. rewrite ED in SU.
  assert (MA : Forall2 (moment_array plates) (mt_dims t) u) by (eapply Forall2_weaken; [|exact SU]; intros d a; apply moment_of_shape).
  destruct (lift_ok _ _ _ _ _ _ E) as [EG LO]. rewrite ED in LO.
  split; [|split; [split|repeat split]].
  - constructor; cbn; try exact (eq_sym ED); try lra; try apply broadcasts_to_nil; try exact SG.
    + constructor; cbn; [exact MA|apply broadcasts_to_nil].
    + apply lift_arrays_fits.
    + unfold no_bias. cbn. clear. induction (mt_dims t); constructor; [now split|assumption].
    + right. split; [|exact PA]. exists u, g. cbn [n_phi n_obs n_plates n_dims n_g n_u]. split; [exact E|].
      assert (LU : length u = length (mt_dims t)) by (symmetry; apply (Forall2_len _ _ _ _ _ MA)).
      split; [|reflexivity]. split; [exact LU|]. split; [exact LU|]. intros. congruence.
  - cbn [place_of pl_plates pl_dims n_plates n_dims n_u]. eapply Forall2_weaken; [|exact MA]. intros d a (A1 & A2 & A3). split; [unfold ndim; lia|]. now split.
  - cbn [place_of pl_plates pl_dims n_plates n_dims n_u]. intros p Hp. destruct (LO p Hp) as (us & E1 & LU & H).
    destruct (ft_mom _ _ _ FT _ (LP p) ltac:(specialize (PA p Hp); now rewrite ED in PA)) as (x & y & E2 & Lx & Mx).
    rewrite E2 in E1. injection E1 as -> ->. apply (mt_values t us); [exact Mx|now apply at_plate_length|].
    intros c d v Hd Hv. destruct (H c d Hd) as (a & Ha & Ga). rewrite (coef_at _ _ _ _ _ _ _ Hd Ha), (Ga v Hv). reflexivity.
Qed.

(** A hidden Markov model with 3 time steps and 2 states: Y ~ Mixture(Z, GaussianARD, mu, 1),
    observed, with Z ~ CategoricalMarkovChain(p, A, states=3), mu ~ GaussianARD(0, 1, plates=(2,)),
    p ~ Dirichlet((1, 2)), A ~ Dirichlet((1, 2), plates=(2,)).  All start at the
    parameters of [fresh]. *)
Definition hmm_model : gmodel := GModel 16
  (fun i => let c x : arr R := Arr [] (fun _ => x) in
     match i with
     | 0 => NConstant [c 0%R; c 0%R] | 1 => NToGaussianGamma [] | 2 => NConstant [c 1%R; c (ln 1)]
     | 3 => NWithPrecision [] | 4 => NGaussianARD0 | 5 => NToGaussianGamma [] | 6 => NWithPrecision []
     | 7 => NClusters 2 [[]; []; []; []]
     | 8 => NConstant [Arr [2%nat] (fun e => if (e 0 =? 0)%nat then 1%R else 2%R); c 0%R] | 9 => NDirichlet 2 | 10 => NDirichlet 2
     | 11 => NClusters 2 [[2]] | 12 => NClusters 2 [[2; 2]] | 13 => NMarkovChain 3 2 | 14 => NStates 3 2
     | 15 => NMixture 2 NGaussianARD0
     | _ => NConstant [] end)%nat
  (fun i => match i with 1 => [0] | 3 => [1; 2] | 4 => [3] | 5 => [4] | 6 => [5; 2] | 7 => [6] | 9 => [8] | 10 => [8] | 11 => [10] | 12 => [11]
     | 13 => [9; 12] | 14 => [13] | 15 => [14; 7] | _ => [] end)%nat
  (fun i => match i with 4 | 5 | 6 | 10 | 11 => [2] | 7 | 14 | 15 => [3] | _ => [] end)%nat.
Definition hmm_types (i : nat) : mtype :=
  match i with
  | 0 | 4 | 15 => MGaussian []
  | 2 => MGamma
  | 7 => MClusters 2 (MGaussianGamma [])
  | 8 => MConcentration 2
  | 9 | 10 => MLogProb 2
  | 11 => MClusters 2 (MLogProb 2)
  | 12 => MClusters 2 (MClusters 2 (MLogProb 2))
  | 13 => MChain 3 2
  | 14 => MCategory 2
  | _ => MGaussianGamma []
  end%nat.
Definition hmm_state (lg psi : R -> R) : nstate := fun i =>
  let c x : arr R := Arr [] (fun _ => x) in
  let b x : arr bool := Arr [] (fun _ => x) in
  match i with
  | 4 => fresh ard0_efam [2] [fun _ => 0%R; fun _ => (-0.5)%R]
  | 9 => fresh (dirichlet_efam lg psi 2) [] [fun _ => 1%R]
  | 10 => fresh (dirichlet_efam lg psi 2) [2] [fun _ => 1%R]
  | 13 => fresh (markov_efam 3 2) [] [fun v => INR (v 0); fun v => INR (v 1)]
  | 15 => EF [3]%nat [[]; []] [Arr [3]%nat (fun e => INR (e 0)); Arr [3]%nat (fun e => (INR (e 0%nat) * INR (e 0%nat))%R)]
            [c 0%R; c (-0.5)%R] (c 0%R) (c 0%R) (b true) (b true) [c 0%R; c 0%R] 1%R []
  | _ => EF (gm_plates hmm_model i) (mt_dims (hmm_types i)) [] [] (c 0%R) (c 0%R) (b false) (b true) [] 1%R []
  end%nat.

Opaque fresh.
Section Example.
Variables lg psi : R -> R.
Hypothesis HG : gamma_convex lg psi.
Hypothesis HB : log_beta_convex lg psi.

Lemma hmm_fresh : forall i, In i [4; 9; 10; 13]%nat -> exists F,
  gnode_kind lg psi (gm_plates hmm_model i) (gm_node hmm_model i) = KStoch F /\
  let n := hmm_state lg psi i in let t := hmm_types i in
  node_ok F (mt_par t) n /\ moments_in (place_of n) (mt_mom t) (n_u n) /\
  n_plates n = gm_plates hmm_model i /\ n_dims n = mt_dims t /\ n_mult n = [] /\ n_mask n = Arr [] (fun _ => true) /\ n_ann n = 1.
Proof.
  intros i [<- | [<- | [<- | [<- | []]]]]; eexists; (split; [reflexivity|]); cbv zeta; cbn [hmm_state hmm_types].
  - apply (fresh_ok _ (MGaussian []) _ _ _ ard0_typed); [reflexivity|]. intros p Hp.
    split; [intros v w _ _; reflexivity|]. intros f (v & Hv & Nz). unfold quad. rewrite !total_0d. unfold coef. cbn.
    assert (v = env0). { apply functional_extensionality. intros k. specialize (Hv k). rewrite ax_overflow in Hv by (cbn; lia). unfold env0. lia. }
    subst v. assert (0 < f env0 * f env0) by (destruct (Rdichotomy _ _ Nz); nra). nra.
  - apply (fresh_ok _ (MLogProb 2) _ _ _ (dirichlet_typed lg psi HG HB 2 ltac:(lia))); [reflexivity|]. intros p Hp v Hv. cbn. unfold coef. cbn. lra.
  - apply (fresh_ok _ (MLogProb 2) _ _ _ (dirichlet_typed lg psi HG HB 2 ltac:(lia))); [reflexivity|]. intros p Hp v Hv. cbn. unfold coef. cbn. lra.
  - apply (fresh_ok _ (MChain 3 2) _ _ _ (markov_typed 3 2 ltac:(lia) ltac:(lia))); [reflexivity|]. intros p Hp. exact I.
Qed.

Lemma hmm_shape : forall i, (i < 16)%nat -> n_plates (hmm_state lg psi i) = gm_plates hmm_model i /\
  n_dims (hmm_state lg psi i) = mt_dims (hmm_types i) /\ n_mult (hmm_state lg psi i) = [] /\ n_mask (hmm_state lg psi i) = Arr [] (fun _ => true).
Proof.
  intros i Hi. destruct (in_dec Nat.eq_dec i [4; 9; 10; 13]%nat) as [X|X].
  - destruct (hmm_fresh i X) as (F & _ & _ & _ & A & B & C & D & _). now repeat split.
  - do 16 (destruct i as [|i]; [now repeat split|| (exfalso; apply X; cbn; tauto)|]). lia.
Qed.

Example C25_hidden_markov : gmodel_ok lg psi hmm_types hmm_model (hmm_state lg psi).
Proof.
  assert (I16 : forall P : nat -> Prop, P 0%nat -> P 1%nat -> P 2%nat -> P 3%nat -> P 4%nat -> P 5%nat -> P 6%nat -> P 7%nat ->
    P 8%nat -> P 9%nat -> P 10%nat -> P 11%nat -> P 12%nat -> P 13%nat -> P 14%nat -> P 15%nat -> forall i, (i < gm_size hmm_model)%nat -> P i).
  { intros P ? ? ? ? ? ? ? ? ? ? ? ? ? ? ? ? i Hi. cbn in Hi. do 16 (destruct i as [|i]; [assumption|]). lia. }
  assert (OR : forall j i, (j < gm_size hmm_model)%nat -> In i (gm_parents hmm_model j) -> (i < j)%nat).
  { intros j i Hj. pattern j. apply I16; [..|exact Hj]; cbn; intuition lia. }
  constructor.
  - exact OR.
  - intros i F j k k' v v' Ei Hj. pattern j.
    assert (Hi : i = 4%nat \/ i = 9%nat \/ i = 10%nat \/ i = 13%nat \/ i = 15%nat).
    { cbn in Ei. do 16 (destruct i as [|i]; [try discriminate; auto|]). all: try discriminate; tauto. }
    apply I16; [..|exact Hj]; intros Hk Hk' C C'; cbn in Hk, Hk';
      destruct k as [|[|[|k]]], k' as [|[|[|k']]]; try reflexivity; try discriminate;
      try (destruct k; discriminate); try (destruct k'; discriminate);
      injection Hk as <-; injection Hk' as <-; exfalso;
      destruct Hi as [-> | [-> | [-> | [-> | ->]]]]; cone_inv.
  - apply I16; cbn; try constructor; try lia.
    + exact (ty_clusters 2 (MGaussianGamma [])).
    + exact (ty_clusters 2 (MLogProb 2)).
    + exact (ty_clusters 2 (MClusters 2 (MLogProb 2))).
    + exact (ty_mixture 2 NGaussianARD0 (MGaussian []) [MGaussianGamma []] I ty_ard0).
  - intros j Hj. apply (hmm_shape j Hj).
  - intros j Hj. apply (hmm_shape j Hj).
  - intros j Hj. destruct (hmm_shape j Hj) as (_ & _ & _ & ->). apply broadcasts_to_nil.
  - intros j k i Hj Hk. pose proof (OR j i Hj (nth_error_In _ _ Hk)) as Hi.
    destruct (hmm_shape j Hj) as (-> & _ & -> & ->). destruct (hmm_shape i) as (-> & _ & -> & ->); [cbn in Hj; lia|].
    split; [|split; [apply broadcasts_to_nil|reflexivity]]. clear Hi. revert k i Hk.
    pattern j. apply I16; [..|exact Hj]; intros [|[|[|k]]] i Hk; cbn in Hk; try discriminate;
      try (destruct k; discriminate); injection Hk as <-; cbn; 
      try apply broadcasts_to_nil; try apply broadcasts_to_refl.
    1,2: split; [cbn; lia|]; intros k; destruct k as [|[|k]]; [now (left + right)|now (left + right)|left; apply ax_overflow; cbn; lia].
    exists []. split; [reflexivity|apply broadcasts_to_refl].
  - intros j nodes g i s Hj. pattern j. apply I16; [..|exact Hj]; discriminate.
  - intros j u Hj. pattern j. apply I16; [..|exact Hj]; intros E; try discriminate; injection E as <-; split.
    1,3,5: repeat constructor; cbn; try lia; try apply broadcasts_to_refl; intros; lia.
    + intros p Hp. pose proof (point_moments 0) as H. cbn in H. rewrite Rmult_0_l in H. exact H.
    + intros p Hp. cbn. unfold coef. cbn. lra.
    + intros p Hp v Hv. cbn. unfold coef, bget. cbn. destruct (_ =? _)%nat; lra.
  - intros j F Hj EF. destruct (in_dec Nat.eq_dec j [4; 9; 10; 13]%nat) as [X|X].
    + destruct (hmm_fresh j X) as (F' & E' & A & B & _ & _ & _ & _ & AN). rewrite E' in EF. injection EF as <-.
      split; [exact A|]. split; [exact B|]. rewrite AN.
      destruct X as [<- | [<- | [<- | [<- | []]]]]; cbn; split; try lra; exact I.
    + assert (j = 15%nat) as ->.
      { cbn in EF, Hj. do 16 (destruct j as [|j]; [try discriminate; try reflexivity; exfalso; apply X; cbn; tauto|]). lia. }
      injection EF as <-. split; [|split; [split|]].
      * constructor; cbn; try lra; try reflexivity; repeat node_shape. all: try (now left). all: cbn; try apply broadcasts_to_nil.
      * cbn. repeat constructor; cbn; try lia; try apply broadcasts_to_refl; intros; lia.
      * intros p Hp. cbn. exact (point_moments _).
      * cbn. split; [lra|exact I].
Qed.
End Example.
