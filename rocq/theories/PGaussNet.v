(** C25 for models with Gaussian variables: GaussianARD, Gaussian, GaussianGamma, Gamma,
    Wishart, the count families, mixtures and Markov chains, with the deterministic nodes
    between them. *)
From Coq Require Import List Arith ZArith Lia Bool Reals Lra FunctionalExtensionality.
From Verif Require Import Base Shapes SpecShapes ShapesLemmas NumPy MiscArray TensorLemmas
  EinsumLemmas SumMultiplyLemmas SpecArray PlateSumLemmas PlateSum2Lemmas MessageLemmas
  ShapeOpsLemmas DiagLemmas ExpFam SpecExpFam ExpFamLemmas ExpFamBound ExpFamGrad PExpFam SpecUpdate
  UpdateLemmas PUpdate Families SpecFamilies FamiliesLemmas FamiliesLemmas2 PFamilies2 FamilyDist SpecFamilyDist PFamilyDist Network SpecNetwork NetworkLemmas NetworkLemmas2
  PNetwork MarkovLemmas FamilyNet SpecFamilyNet PFamilyNet Dot SpecDot DetNet SpecDetNet DetNetLemmas DetNetLemmas2 PDetNet
  Linalg MatBridge SpecLinalg LinalgLemmas Gaussian SpecGaussian GaussLemmas GaussAlg PGaussian PGaussian2 GaussGibbs GaussianDist PGaussianDist
  GaussNet GaussModel SpecGaussNet SpecGaussModel PlateDet GaussTypes GaussNodes GaussNodes2 GaussNodes3 GaussNodes4 GaussNodes5 GaussNodes6 GaussNodes7 SumDet AddDet MixtureNet MixtureFam ClustersDet MarkovNet MarkovFam StatesDet PathNet PathFam PathDet.
Import ListNotations.
Open Scope R_scope.

Section Model.
Variables lg psi : R -> R.
Hypothesis HG : gamma_convex lg psi.
Hypothesis HB : log_beta_convex lg psi.

Lemma stoch_fam : forall n t ts plates F, node_typed n t ts -> gnode_kind lg psi plates n = KStoch F -> fam_typed F t ts.
Proof.
  intros n t ts plates F H. revert F. induction H; intros F E; cbn [gnode_kind] in E; try discriminate; try (injection E as <-).
  - exact (poisson_typed lg psi HG HB).
  - now apply (binomial_typed lg psi HG HB).
  - now apply (multinomial_typed lg psi HG HB).
  - now apply gamma_typed.
  - now apply (dirichlet_typed lg psi HG HB).
  - apply ard0_typed.
  - apply ard_typed.
  - apply gaussian_typed.
  - now apply gaussian_gamma_typed.
  - now apply wishart_typed.
  - now apply (categorical_typed lg psi).
  - destruct (gnode_kind lg psi plates n) as [F0|] eqn:E0; [|discriminate]. injection E as <-. apply mixture_typed. now apply IHnode_typed.
  - now apply markov_typed.
  - now apply path_typed.
Qed.
Lemma stochastic_kind : forall n plates, stochastic n -> exists F, gnode_kind lg psi plates n = KStoch F.
Proof.
  intros n plates. induction n; cbn [stochastic gnode_kind]; intros H; try contradiction; try (eexists; reflexivity).
  destruct (IHn H) as [F ->]. eexists. reflexivity.
Qed.

Lemma fixed_constant : forall n t ts, node_typed n t ts -> forall s, t = MFixed s -> (exists u, n = NConstant u) /\ ts = [].
Proof.
  intros n t ts H. induction H; intros s0 E; try discriminate; [split; [eexists|]; reflexivity|].
  destruct (IHnode_typed s0 E) as [[u ->] _]. contradiction.
Qed.
Lemma constant_typed : forall T at_ need u j, moments_in (at_ j) (t_mom T j) u -> det_typed T at_ need (constant_fn u) j [].
Proof.
  intros T at_ need u j H. constructor.
  - intros us _. exists u. now split.
  - intros [|k] i us m Hk; discriminate.
Qed.

Lemma join_no_axes : forall p v, join 0 p v = p.
Proof. intros p v. apply functional_extensionality. intros k. unfold join. cbn. now rewrite Nat.sub_0_r. Qed.
Lemma valid_nil : valid [] env0.
Proof. intros k. rewrite ax_overflow by (cbn; lia). unfold env0. lia. Qed.

Variable ty : nat -> mtype.
Variable M : gmodel.

(** The links of the nodes with the plates of their parents, and of those with more. *)
Definition plain (n : gnode) : Prop := extra_plates n = [] /\ match n with NStates _ _ | NGaussianStates _ _ => False | _ => True end.
Lemma plain_link : forall st j k i, gmodel_ok lg psi ty M st -> (j < gm_size M)%nat -> nth_error (gm_parents M j) k = Some i ->
  plain (gm_node M j) ->
  broadcasts_to (n_plates (st i)) (n_plates (st j)) /\ broadcasts_to (n_mult (st i)) (n_mult (st j)) /\
  forall p, valid (n_plates (st j)) p -> bget (n_mask (st j)) p = true -> bget (n_mask (st i)) p = true.
Proof.
  intros st j k i OK Hj Hk [EX NS]. destruct (gk_link _ _ _ _ _ OK j k i Hj Hk) as (L1 & L2 & L3).
  unfold plates_fit in L1. unfold parent_plate in L3. rewrite EX in *. rewrite app_nil_r in L1.
  assert (S0 : broadcasts_to (n_plates (st i)) (n_plates (st j)) /\ forall p, exists v, (match gm_node M j with NStates _ _ | NGaussianStates _ _ => False | _ => True end) /\ valid [] v /\ p = join 0 p v).
  { split; [destruct (gm_node M j); first [exact L1|contradiction]|]. intros p. exists env0. split; [exact NS|]. split; [apply valid_nil|]. now rewrite join_no_axes. }
  destruct S0 as [S1 S2]. split; [exact S1|]. split; [exact L2|]. intros p Hp Hm. apply (L3 p p Hp); [|exact Hm].
  destruct (S2 p) as (v & _ & Hv & Ep). destruct (gm_node M j); first [contradiction|exists v; now split].
Qed.
Lemma extra_link : forall st j k i, gmodel_ok lg psi ty M st -> (j < gm_size M)%nat -> nth_error (gm_parents M j) k = Some i ->
  match gm_node M j with NStates _ _ | NGaussianStates _ _ => False | _ => True end ->
  let extra := extra_plates (gm_node M j) in
  broadcasts_to (n_plates (st i)) (n_plates (st j) ++ extra) /\ broadcasts_to (n_mult (st i)) (n_mult (st j)) /\
  forall p v, valid (n_plates (st j)) p -> valid extra v -> bget (n_mask (st j)) p = true -> bget (n_mask (st i)) (join (length extra) p v) = true.
Proof.
  intros st j k i OK Hj Hk NS extra. destruct (gk_link _ _ _ _ _ OK j k i Hj Hk) as (L1 & L2 & L3). split; [|split; [exact L2|]].
  - unfold plates_fit in L1. unfold extra. destruct (gm_node M j); first [contradiction|exact L1].
  - intros p v Hp Hv Hm. apply (L3 p _ Hp); [|exact Hm]. unfold parent_plate, extra in *. destruct (gm_node M j); first [contradiction|exists v; now split].
Qed.

Lemma model_net : forall st, gmodel_ok lg psi ty M st -> dnet_ok (gm_net lg psi M) (tys ty) st.
Proof.
  intros st OK. constructor; cbn [gm_net dt_size dt_kind dt_parents].
  - apply (gk_order _ _ _ _ _ OK).
  - apply (gk_unique _ _ _ _ _ OK).
  - apply (gk_mask _ _ _ _ _ OK).
  - intros j Hj. rewrite (gk_dims _ _ _ _ _ OK j Hj). apply mt_cone.
  - intros j Hj. rewrite (gk_dims _ _ _ _ _ OK j Hj). apply mt_values.
  - intros j F Hj E. now destruct (gk_node _ _ _ _ _ OK j F Hj E).
  - intros j F Hj E. now destruct (gk_node _ _ _ _ _ OK j F Hj E) as (_ & H & _).
  - intros j F Hj E. destruct (gk_node _ _ _ _ _ OK j F Hj E) as (_ & _ & H).
    apply stoch_of_fam; [|exact H]. apply (stoch_fam _ _ _ _ _ (gk_types _ _ _ _ _ OK j Hj) E).
  - intros j F Hj E. pose proof (stoch_fam _ _ _ _ _ (gk_types _ _ _ _ _ OK j Hj) E) as FT.
    rewrite (ft_pdims _ _ _ FT). now rewrite !map_length.
  - intros j F k i Hj E Hk. pose proof (stoch_fam _ _ _ _ _ (gk_types _ _ _ _ _ OK j Hj) E) as FT.
    pose proof (gk_order _ _ _ _ _ OK j i Hj (nth_error_In _ _ Hk)) as Hi.
    destruct (plain_link st j k i OK Hj Hk) as (L1 & L2 & L3).
    { unfold plain. destruct (gm_node M j); try discriminate; now split. }
    constructor.
    + rewrite (ft_pdims _ _ _ FT), map_map, (gk_dims _ _ _ _ _ OK i) by lia.
      apply nth_error_nth. now apply map_nth_error with (f := fun x => mt_dims (ty x)).
    + exact L1.
    + exact L2.
    + exact L3.
  - intros j D Hj E.
    assert (PD : forall P, plate_kinds P (ty j) (map ty (gm_parents M j)) -> plain (gm_node M j) ->
      det_typed (tys ty) (fun i => place_of (st i)) (live (gm_net lg psi M)) (plate_det P (gm_plates M j)) j (gm_parents M j)).
    { intros P PK EX. rewrite <- (gk_plates _ _ _ _ _ OK j Hj).
      change (n_plates (st j)) with (pl_plates ((fun i => place_of (st i)) j)).
      apply plate_det_typed.
      - now apply plate_of_kinds.
      - cbn [place_of pl_dims]. rewrite (gk_dims _ _ _ _ _ OK j Hj). symmetry. apply (pk_dims _ _ _ PK).
      - apply (gk_mask _ _ _ _ _ OK j Hj).
      - cbn [place_of pl_dims]. rewrite (gk_dims _ _ _ _ _ OK j Hj). apply mt_values.
      - rewrite (pk_pdims _ _ _ PK), map_map. apply Forall2_of_nth; [now rewrite map_length|].
        intros k i d Hk Hd. rewrite (map_nth_error _ _ _ Hk) in Hd. injection Hd as <-.
        pose proof (gk_order _ _ _ _ _ OK j i Hj (nth_error_In _ _ Hk)) as Hi.
        destruct (plain_link st j k i OK Hj Hk EX) as (L1 & L2 & L3).
        cbn [place_of pl_dims]. rewrite (gk_dims _ _ _ _ _ OK i) by lia. split; [reflexivity|]. split; [|split].
        + constructor; cbn [place_of pl_plates pl_mult pl_mask]; try assumption.
          apply (gk_mask _ _ _ _ _ OK i). lia.
        + apply mt_values.
        + apply mt_cone. }
    pose proof (gk_types _ _ _ _ _ OK j Hj) as TY.
    assert (DL : plain (gm_node M j) -> forall i, In i (gm_parents M j) -> det_link (place_of (st j)) (place_of (st i))).
    { intros EX i Hi. destruct (In_nth_error _ _ Hi) as [k Hk]. destruct (plain_link st j k i OK Hj Hk EX) as (L1 & L2 & L3).
      pose proof (gk_order _ _ _ _ _ OK j i Hj Hi). constructor; cbn [place_of pl_plates pl_mult pl_mask]; try assumption.
      apply (gk_mask _ _ _ _ _ OK i). lia. }
    destruct (gm_node M j) eqn:EN; cbn [gnode_kind] in E; try discriminate.
    1-8: injection E as <-.
    + inversion TY as [u' t Eu Et Ep | | | | | | | | | | | | | | | | | | | | | | | |]. destruct (gm_parents M j); [|discriminate].
      apply constant_typed. now apply (gk_constant _ _ _ _ _ OK j u Hj).
    + inversion TY as [ | | | | | | | | | | |s' Es Et Ep | | | | | | | | | | | | |]. apply PD; [|now split].
      rewrite <- Ep, <- Et. apply to_gg_kinds.
    + inversion TY as [ | | | | | | | | | | | |s' Es Et Ep | | | | | | | | | | | |]. apply PD; [|now split].
      rewrite <- Ep, <- Et. apply wrap_gg_kinds.
    + inversion TY as [ | | | | | | | | | | | | |D' Es Et Ep | | | | | | | | | | |]. apply PD; [|now split].
      rewrite <- Ep, <- Et. apply wrap_gw_kinds.
    + inversion TY as [ | | | | | | | | | | | | | |D' Es Et Ep | | | | | | | | | |].
      destruct (gm_parents M j) as [|i [|? ?]] eqn:EP; try discriminate. cbn [map] in Ep. injection Ep as Ei.
      assert (Hi : (i < j)%nat) by (apply (gk_order _ _ _ _ _ OK j i Hj); rewrite EP; now left).
      assert (Hk : nth_error (gm_parents M j) 0 = Some i) by now rewrite EP.
      destruct (extra_link st j 0%nat i OK Hj Hk ltac:(now rewrite EN)) as (L1 & L2 & L3). rewrite EN in *. cbn [extra_plates] in *.
      rewrite <- (gk_plates _ _ _ _ _ OK j Hj).
      change (n_plates (st j)) with (pl_plates ((fun i => place_of (st i)) j)).
      apply elements_typed; cbn [place_of pl_dims pl_plates pl_mask]; try (symmetry; assumption).
      * rewrite (gk_dims _ _ _ _ _ OK j Hj), <- Et. reflexivity.
      * rewrite (gk_dims _ _ _ _ _ OK i), <- Ei by lia. reflexivity.
      * apply (gk_mask _ _ _ _ _ OK j Hj).
      * constructor; cbn [place_of pl_plates pl_mult pl_mask]; try assumption. apply (gk_mask _ _ _ _ _ OK i). lia.
    + inversion TY as [ | | | | | | | | | | | | | | |full keysets keys_out nodes' g' ts HF HI HK Es Et Ep| | | | | | | | |]. subst nodes' g' ts. symmetry in Et.
      assert (Hp : forall i, In i (gm_parents M j) -> (i < j)%nat) by (intros i Hi; now apply (gk_order _ _ _ _ _ OK j i Hj)).
      apply (sum_multiply_typed ty (fun i => place_of (st i)) _ j (gm_parents M j) full parents keysets keys_out g HF HI Et HK); cbn [place_of pl_dims pl_plates pl_mask pl_mult].
      * apply (gk_dims _ _ _ _ _ OK j Hj).
      * intros i Hi. apply (gk_dims _ _ _ _ _ OK i). specialize (Hp i Hi). lia.
      * apply (gk_mask _ _ _ _ _ OK j Hj).
      * intros i Hi. apply DL; [now split|exact Hi].
      * intros i s Hi Ei. exact (gk_multiply _ _ _ _ _ OK j _ _ i s Hj EN Hi Ei).
      * intros i s Hi Ei (v & F & Ev & CF). specialize (Hp i Hi). pose proof (gk_types _ _ _ _ _ OK i ltac:(lia)) as TI.
        destruct (fixed_constant _ _ _ TI s Ei) as [[u' Eu] Ep']. apply map_eq_nil in Ep'.
        inversion CF as [Ev'|w D' w' Ew Hw CF' Ew']; subst.
        { cbn [gm_net dt_kind] in Ev. rewrite Eu in Ev. discriminate. }
        { cbn [gm_net dt_parents] in Hw. rewrite Ep' in Hw. destruct Hw. }
    + inversion TY as [ | | | | | | | | | | | | | | | |dimss s' HI Es Et Ep| | | | | | | |]. symmetry in Et, Ep.
      apply (add_typed ty (fun i => place_of (st i)) _ j (gm_parents M j) _ _ HI Et Ep); cbn [place_of pl_dims pl_plates pl_mask pl_mult].
      * apply (gk_dims _ _ _ _ _ OK j Hj).
      * intros i Hi. apply (gk_dims _ _ _ _ _ OK i). pose proof (gk_order _ _ _ _ _ OK j i Hj Hi). lia.
      * apply (gk_mask _ _ _ _ _ OK j Hj).
      * intros i Hi. apply DL; [now split|exact Hi].
    + inversion TY as [ | | | | | | | | | | | | | | | | |dimss n r' HN HI Es Et Ep| | | | | | |]. symmetry in Et, Ep.
      apply (concat_typed ty (fun i => place_of (st i)) _ j (gm_parents M j) _ _ _ HN HI Et Ep); cbn [place_of pl_dims pl_plates pl_mask pl_mult].
      * apply (gk_dims _ _ _ _ _ OK j Hj).
      * intros i Hi. apply (gk_dims _ _ _ _ _ OK i). pose proof (gk_order _ _ _ _ _ OK j i Hj Hi). lia.
      * apply (gk_mask _ _ _ _ _ OK j Hj).
      * intros i Hi. apply DL; [now split|exact Hi].
    + exfalso. assert (ST : stochastic g) by now inversion TY. destruct (stochastic_kind g (gm_plates M j) ST) as [F0 E0]. rewrite E0 in E. discriminate.
    + injection E as <-.
      inversion TY as [ | | | | | | | | | | | | | | | | | | | | K' t' Es Et Ep| | | |]. clear Es.
      destruct (gm_parents M j) as [|i [|? ?]] eqn:EP; try discriminate. cbn [map] in Ep. injection Ep as Ei.
      assert (Hi : (i < j)%nat) by (apply (gk_order _ _ _ _ _ OK j i Hj); rewrite EP; now left).
      assert (Hk : nth_error (gm_parents M j) 0 = Some i) by now rewrite EP.
      destruct (extra_link st j 0%nat i OK Hj Hk ltac:(now rewrite EN)) as (L1 & L2 & L3). rewrite EN in *. cbn [extra_plates] in *.
      rewrite <- (gk_plates _ _ _ _ _ OK j Hj).
      change (n_plates (st j)) with (pl_plates ((fun i => place_of (st i)) j)).
      apply clusters_typed; cbn [place_of pl_dims pl_plates pl_mask]; try (symmetry; assumption).
      * rewrite (gk_dims _ _ _ _ _ OK j Hj), <- Et. reflexivity.
      * rewrite (gk_dims _ _ _ _ _ OK i), <- Ei by lia. reflexivity.
      * apply (gk_mask _ _ _ _ _ OK j Hj).
      * constructor; cbn [place_of pl_plates pl_mult pl_mask]; try assumption. apply (gk_mask _ _ _ _ _ OK i). lia.
    + injection E as <-.
      inversion TY as [ | | | | | | | | | | | | | | | | | | | | | |N' K' HN Es Et Ep | |].
      destruct (gm_parents M j) as [|i [|? ?]] eqn:EP; try discriminate. cbn [map] in Ep. injection Ep as Ei.
      assert (Hi : (i < j)%nat) by (apply (gk_order _ _ _ _ _ OK j i Hj); rewrite EP; now left).
      assert (Hk : nth_error (gm_parents M j) 0 = Some i) by now rewrite EP.
      destruct (gk_link _ _ _ _ _ OK j 0%nat i Hj Hk) as (L1 & L2 & L3). rewrite EN in *. cbn [plates_fit parent_plate] in *.
      destruct L1 as (P & L0 & L1).
      rewrite <- (gk_plates _ _ _ _ _ OK j Hj).
      change (n_plates (st j)) with (pl_plates ((fun i => place_of (st i)) j)).
      apply states_typed with (P := P); cbn [place_of pl_dims pl_plates pl_mask]; try (symmetry; assumption); try assumption.
      * rewrite (gk_dims _ _ _ _ _ OK j Hj), <- Et. reflexivity.
      * rewrite (gk_dims _ _ _ _ _ OK i), <- Ei by lia. reflexivity.
      * apply (gk_mask _ _ _ _ _ OK j Hj).
      * constructor; cbn [place_of pl_plates pl_mult pl_mask]; try assumption; [|apply (gk_mask _ _ _ _ _ OK i); lia].
        intros e He Hm. now apply (L3 e).
    + injection E as <-.
      inversion TY as [ | | | | | | | | | | | | | | | | | | | | | | | |N' K' HN Es Et Ep].
      destruct (gm_parents M j) as [|i [|? ?]] eqn:EP; try discriminate. cbn [map] in Ep. injection Ep as Ei.
      assert (Hi : (i < j)%nat) by (apply (gk_order _ _ _ _ _ OK j i Hj); rewrite EP; now left).
      assert (Hk : nth_error (gm_parents M j) 0 = Some i) by now rewrite EP.
      destruct (gk_link _ _ _ _ _ OK j 0%nat i Hj Hk) as (L1 & L2 & L3). rewrite EN in *. cbn [plates_fit parent_plate] in *.
      destruct L1 as (P & L0 & L1).
      rewrite <- (gk_plates _ _ _ _ _ OK j Hj).
      change (n_plates (st j)) with (pl_plates ((fun i => place_of (st i)) j)).
      apply path_states_typed with (P := P); cbn [place_of pl_dims pl_plates pl_mask]; try (symmetry; assumption); try assumption.
      * rewrite (gk_dims _ _ _ _ _ OK j Hj), <- Et. reflexivity.
      * rewrite (gk_dims _ _ _ _ _ OK i), <- Ei by lia. reflexivity.
      * apply (gk_mask _ _ _ _ _ OK j Hj).
      * constructor; cbn [place_of pl_plates pl_mult pl_mask]; try assumption; [|apply (gk_mask _ _ _ _ _ OK i); lia].
        intros e He Hm. now apply (L3 e).
Qed.
End Model.

(** For every model made of these nodes, every initial state and all schedules of updates:
    no update raises, and the lower bound after any further updates is at least the lower
    bound before them. *)
Theorem C25_gaussian_models : forall lg psi ty M st first further nan,
  gamma_convex lg psi -> log_beta_convex lg psi -> gmodel_ok lg psi ty M st ->
  (forall i, In i (first ++ further) -> (i < gm_size M)%nat /\ stochastic (gm_node M i)) ->
  let net := gm_net lg psi M in
  exists st1 st2 L1 L2,
    dn_updates net st first = Ok st1 /\ dn_updates net st1 further = Ok st2 /\
    dn_lowerbound net nan st1 = Ok L1 /\ dn_lowerbound net nan st2 = Ok L2 /\ L1 <= L2.
Proof.
  intros lg psi ty M st l1 l2 nan HG HB OK Hl net.
  assert (SK : forall i, In i (l1 ++ l2) -> (i < dt_size net)%nat /\ exists F, dt_kind net i = KStoch F).
  { intros i Hi. destruct (Hl i Hi) as [A B]. split; [exact A|]. unfold net. cbn [gm_net dt_kind].
    exact (stochastic_kind lg psi _ _ B). }
  destruct (C25_deterministic net (tys ty) st l1 nan (model_net lg psi HG HB ty M st OK)
    (fun i Hi => SK i (in_or_app _ _ _ (or_introl Hi)))) as (st1 & _ & L1 & E1 & OK1 & _ & B1 & _).
  destruct (C25_deterministic net (tys ty) st1 l2 nan OK1
    (fun i Hi => SK i (in_or_app _ _ _ (or_intror Hi)))) as (st2 & L1' & L2 & E2 & _ & B1' & B2 & LE).
  rewrite B1 in B1'. injection B1' as <-. exists st1, st2, L1, L2. repeat split; assumption.
Qed.
Print Assumptions C25_gaussian_models.

(** Three observations of a Gaussian variable with unknown mean and unknown precision:
    Y ~ GaussianARD(mu, tau, plates=(3,)), mu ~ GaussianARD(0, 0.1), tau ~ Gamma(2, 3), started
    at mu ~ N(0, 1), tau ~ gamma(1, 1). *)
Definition normal_model : gmodel := GModel 11
  (fun i => let c x : arr R := Arr [] (fun _ => x) in
     match i with
     | 0 => NConstant [c 0%R; c 0%R] | 1 => NToGaussianGamma [] | 2 => NConstant [c 0.1%R; c (ln 0.1)]
     | 3 => NWithPrecision [] | 4 => NGaussianARD0
     | 5 => NConstant [c 2%R; c 0%R] | 6 => NConstant [c 3%R; c (ln 3)] | 7 => NGamma
     | 8 => NToGaussianGamma [] | 9 => NWithPrecision [] | 10 => NGaussianARD0
     | _ => NConstant [] end)%nat
  (fun i => match i with 1 => [0] | 3 => [1; 2] | 4 => [3] | 7 => [5; 6] | 8 => [4] | 9 => [8; 7] | 10 => [9] | _ => [] end)%nat
  (fun i => match i with 10 => [3] | _ => [] end)%nat.
Definition normal_types (i : nat) : mtype :=
  match i with
  | 0 | 4 | 10 => MGaussian []
  | 2 | 6 | 7 => MGamma
  | 5 => MShape
  | _ => MGaussianGamma []
  end%nat.
Definition normal_state (lg psi : R -> R) : nstate := fun i =>
  let c x : arr R := Arr [] (fun _ => x) in
  let b x : arr bool := Arr [] (fun _ => x) in
  match i with
  | 4 => EF [] [[]; []] [c 0%R; c 1%R] [c 0%R; c (-0.5)%R] (c 0%R) (c 0%R) (b false) (b true) [c 0%R; c 0%R] 1%R []
  | 7 => EF [] [[]; []] [c 1%R; c (psi 1)%R] [c (-1)%R; c 1%R] (c (- lg 1)%R) (c 0%R) (b false) (b true) [c 0%R; c 0%R] 1%R []
  | 10 => EF [3%nat] [[]; []] [Arr [3%nat] (fun e => INR (e 0%nat)); Arr [3%nat] (fun e => (INR (e 0%nat) * INR (e 0%nat))%R)]
            [c 0%R; c (-0.5)%R] (c 0%R) (c 0%R) (b true) (b true) [c 0%R; c 0%R] 1%R []
  | _ => EF [] (mt_dims (normal_types i)) [] [] (c 0%R) (c 0%R) (b false) (b true) [] 1%R []
  end%nat.

Ltac cone_inv := repeat (match goal with
  | X : computed_from _ _ _ |- _ => inversion X; clear X; subst
  end; cbn in *; try discriminate;
  repeat match goal with X : _ \/ _ |- _ => destruct X | X : False |- _ => destruct X end; subst; cbn in *; try discriminate).

Lemma point_moments : forall x, mt_mom (MGaussian []) [fun _ => x; fun _ => x * x].
Proof.
  intros x. exists [(1, fun _ => x)]. split; [|split].
  - split; [repeat constructor; cbn; lra|cbn; lra].
  - intros v Hv. unfold avg, coef. cbn. lra.
  - intros v w Hv Hw. unfold avg, coef. cbn. lra.
Qed.

Example C25_normal : forall lg psi, gmodel_ok lg psi normal_types normal_model (normal_state lg psi).
Proof.
  intros lg psi.
  assert (I11 : forall P : nat -> Prop, P 0%nat -> P 1%nat -> P 2%nat -> P 3%nat -> P 4%nat -> P 5%nat -> P 6%nat -> P 7%nat ->
    P 8%nat -> P 9%nat -> P 10%nat -> forall i, (i < gm_size normal_model)%nat -> P i).
  { intros P ? ? ? ? ? ? ? ? ? ? ? i Hi. cbn in Hi. do 11 (destruct i as [|i]; [assumption|]). lia. }
  constructor.
  - intros j i Hj. pattern j. apply I11; [..|exact Hj]; cbn; intuition lia.
  - intros i F j k k' v v' Ei Hj. pattern j.
    assert (Hi : i = 4%nat \/ i = 7%nat \/ i = 10%nat).
    { cbn in Ei. do 11 (destruct i as [|i]; [try discriminate; auto|]). discriminate. }
    apply I11; [..|exact Hj]; intros Hk Hk' C C'; cbn in Hk, Hk';
      destruct k as [|[|k]], k' as [|[|k']]; try reflexivity; try discriminate;
      try (destruct k; discriminate); try (destruct k'; discriminate);
      injection Hk as <-; injection Hk' as <-; exfalso;
      destruct Hi as [-> | [-> | ->]]; cone_inv.
  - apply I11; cbn; constructor.
  - apply I11; reflexivity.
  - apply I11; reflexivity.
  - apply I11; cbn; apply broadcasts_to_nil.
  - intros j k i Hj. revert k i. pattern j. apply I11; [..|exact Hj]; intros [|[|k]] i Hk; cbn in Hk; try discriminate;
      try (destruct k; discriminate); injection Hk as <-; cbn; (split; [apply broadcasts_to_nil|]); (split; [apply broadcasts_to_nil|]); reflexivity.
  - intros j nodes g i s Hj. pattern j. apply I11; [..|exact Hj]; discriminate.
  - intros j u Hj. pattern j. apply I11; [..|exact Hj]; intros E; try discriminate; injection E as <-; split.
    1,3,5,7: repeat constructor; cbn; try lia; try apply broadcasts_to_refl; intros; lia.
    + intros p Hp. pose proof (point_moments 0) as H. cbn in H. rewrite Rmult_0_l in H. exact H.
    + intros p Hp. cbn. unfold coef. cbn. lra.
    + intros p Hp. cbn. unfold coef. cbn. lra.
    + intros p Hp. cbn. unfold coef. cbn. lra.
  - intros j F Hj. pattern j. apply I11; [..|exact Hj]; intros E; try discriminate; injection E as <-; (split; [|split; [split|]]).
    + constructor; cbn; try lra; try reflexivity; repeat node_shape. all: try (cbn; apply broadcasts_to_refl). right. split.
      * exists [Arr [] (fun _ => - 0 / (2 * -0.5)); Arr [] (fun _ => (- 0 / (2 * -0.5)) ^ 2 - 1 / (2 * -0.5))], (Arr [] (fun _ => -0.5 * (- 0 / (2 * -0.5)) * 0 + 0.5 * ln (-2 * -0.5))).
        split; [|split].
        { cbn. unfold lift_moments. cbn. unfold ard0_moments. cbn. destruct (Rle_dec (-2 * -0.5) 0) as [L|L]; [lra|]. cbn.
          destruct (Rle_dec (-2 * -0.5) 0) as [L'|L']; [lra|]. reflexivity. }
        { split; [reflexivity|]. split; [reflexivity|].
          intros [|[|[|i]]] d a b Hd Ha Hb e He _; try discriminate; cbn in Ha, Hb; injection Ha as <-; injection Hb as <-; cbn; try field; lra. }
        { intros p _ _. cbn. replace (-2 * -0.5) with 1 by lra. rewrite ln_1. lra. }
      * intros p _. change (mt_par (MGaussian []) [fun _ => 0; fun _ => -0.5]). split; [intros v w _ _; reflexivity|]. intros f (v & Hv & Nz). unfold quad. rewrite !total_0d. unfold coef. cbn.
        assert (v = env0). { apply functional_extensionality. intros k. specialize (Hv k). rewrite ax_overflow in Hv by (cbn; lia). unfold env0. lia. }
        subst v. assert (0 < f env0 * f env0) by (destruct (Rdichotomy _ _ Nz); nra). nra.
    + cbn. repeat constructor; cbn; try lia; try apply broadcasts_to_refl; intros; lia.
    + intros p Hp. cbn. exists [(0.5, fun _ => 1); (0.5, fun _ => -1)]. split; [|split].
      * split; [repeat constructor; cbn; lra|cbn; lra].
      * intros v Hv. unfold avg, coef. cbn. lra.
      * intros v w Hv Hw. unfold avg, coef. cbn. lra.
    + cbn. split; [lra|exact I].
    + constructor; cbn; try lra; try reflexivity; repeat node_shape. all: try (cbn; apply broadcasts_to_refl). right. split.
      * exists [Arr [] (fun _ => 1 / - -1); Arr [] (fun _ => psi 1 - ln (- -1))], (Arr [] (fun _ => 1 * ln (- -1) - lg 1)).
        split; [|split].
        { cbn. unfold lift_moments. cbn. unfold gamma_moments. cbn. destruct (Rle_dec (- -1) 0) as [L|L]; [lra|]. cbn.
          destruct (Rle_dec (- -1) 0) as [L'|L']; [lra|]. reflexivity. }
        { split; [reflexivity|]. split; [reflexivity|]. replace (- -1) with 1 by ring. rewrite ln_1.
          intros [|[|[|i]]] d a b Hd Ha Hb e He _; try discriminate; cbn in Ha, Hb; injection Ha as <-; injection Hb as <-; cbn; lra. }
        { intros p _ _. cbn. replace (- -1) with 1 by ring. rewrite ln_1. lra. }
      * intros p _. cbn. unfold coef. cbn. lra.
    + cbn. repeat constructor; cbn; try lia; try apply broadcasts_to_refl; intros; lia.
    + intros p Hp. cbn. unfold coef. cbn. lra.
    + cbn. split; [lra|exact I].
    + constructor; cbn; try lra; try reflexivity; repeat node_shape. all: try (now left). all: cbn; try apply broadcasts_to_nil.
    + cbn. repeat constructor; cbn; try lia; try apply broadcasts_to_refl; intros; lia.
    + intros p Hp. cbn. exact (point_moments _).
    + cbn. split; [lra|exact I].
Qed.
Example C25_normal_net : forall lg psi, gamma_convex lg psi -> log_beta_convex lg psi ->
  dnet_ok (gm_net lg psi normal_model) (tys normal_types) (normal_state lg psi).
Proof. intros lg psi HG HB. apply model_net; [exact HG|exact HB|apply C25_normal]. Qed.
