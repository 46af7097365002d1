(** Specification of well-formed models with Gaussian variables. *)
From Coq Require Import List Arith ZArith Bool Reals.
From Verif Require Import Base Shapes SpecShapes NumPy MiscArray SpecArray Families Linalg SpecLinalg Gaussian
  FamilyDist GaussianDist ExpFam SpecExpFam SpecUpdate SpecFamilyDist Network SpecNetwork FamilyNet
  Dot SpecDot DetNet SpecDetNet AddNode GaussNet PathNet GaussModel SpecGaussNet.
Import ListNotations.
Open Scope R_scope.

(** The moments of a parent of SumMultiply: a constant array or a Gaussian variable. *)
Definition kind_type (nd : shape * pkind) (t : mtype) : Prop :=
  match snd nd with
  | KDelta => t = MFixed (fst nd)
  | KGaussian => t = MGaussian (fst nd)
  | KGaussianGamma => False
  end.

(** The nodes that are variables. *)
Fixpoint stochastic (n : gnode) : Prop :=
  match n with
  | NConstant _ | NToGaussianGamma _ | NWithPrecision _ | NWithWishart _ | NElements _ | NSumMultiply _ _ | NAdd _ _ | NConcatGaussian _ _ | NClusters _ _ | NStates _ _ | NGaussianStates _ _ => False
  | NMixture _ n => stochastic n
  | _ => True
  end.

(** The inputs of a Gaussian Markov chain: K numbers for every transition. *)
Definition input_types (N : nat) (inputs : option nat) : list mtype :=
  match inputs with None => [] | Some K => [MClusters (N - 1) (MGaussian [K])] end.

(** The moments of the nodes and of their parents. *)
Inductive node_typed : gnode -> mtype -> list mtype -> Prop :=
| ty_constant : forall u t, node_typed (NConstant u) t []
| ty_poisson : node_typed NPoisson (MCounts [] None) [MGamma]
| ty_binomial : forall N, 0 < N -> node_typed (NBinomial N) (MCounts [] (Some N)) [MLogProb 2]
| ty_multinomial : forall N K, 0 < N -> (0 < K)%nat -> node_typed (NMultinomial N K) (MCounts [K] None) [MLogProb K]
| ty_gamma : node_typed NGamma MGamma [MShape; MGamma]
| ty_dirichlet : forall K, (0 < K)%nat -> node_typed (NDirichlet K) (MLogProb K) [MConcentration K]
| ty_ard0 : node_typed NGaussianARD0 (MGaussian []) [MGaussianGamma []]
| ty_ard : forall D, node_typed (NGaussianARD D) (MGaussian [D]) [MElements D]
| ty_gaussian : forall D, node_typed (NGaussian D) (MGaussian [D]) [MGaussianWishart D]
| ty_gaussian_gamma : forall D, node_typed (NGaussianGamma D) (MGaussianGamma [D]) [MGaussianWishart D; MShape; MGamma]
| ty_wishart : forall D, node_typed (NWishart D) (MWishart D) [MDegrees D; MWishart D]
| ty_to_gg : forall s, node_typed (NToGaussianGamma s) (MGaussianGamma s) [MGaussian s]
| ty_precision : forall s, node_typed (NWithPrecision s) (MGaussianGamma s) [MGaussianGamma s; MGamma]
| ty_with_wishart : forall D, node_typed (NWithWishart D) (MGaussianWishart D) [MGaussianGamma [D]; MWishart D]
| ty_elements : forall D, node_typed (NElements D) (MElements D) [MGaussianGamma []]
| ty_multiply : forall full keysets keys_out nodes g ts, enumerates full keysets ->
    sm_init full nodes keysets keys_out = Ok g -> Forall2 kind_type nodes ts ->
    node_typed (NSumMultiply nodes g) (MGaussian (sm_shape g)) ts
| ty_add : forall dimss s, add_init dimss = Ok s -> node_typed (NAdd dimss s) (MGaussian s) (map MGaussian dimss)
| ty_concat : forall dimss n r, dimss <> [] -> concat_init dimss = Ok (n, r) ->
    node_typed (NConcatGaussian dimss r) (MGaussian [n]) (map MGaussian dimss)
| ty_categorical : forall K, (0 < K)%nat -> node_typed (NCategorical K) (MCategory K) [MLogProb K]
| ty_mixture : forall K n t ts, stochastic n -> node_typed n t ts ->
    node_typed (NMixture K n) t (MCategory K :: map (MClusters K) ts)
| ty_clusters : forall K t, node_typed (NClusters K (mt_dims t)) (MClusters K t) [t]
| ty_chain : forall N K, (2 <= N)%nat -> (0 < K)%nat ->
    node_typed (NMarkovChain N K) (MChain N K) [MLogProb K; MClusters (N - 1) (MClusters K (MLogProb K))]
| ty_states : forall N K, (0 < N)%nat -> node_typed (NStates N K) (MCategory K) [MChain N K]
| ty_path : forall junk N D inputs, (1 <= N)%nat -> (1 <= D)%nat ->
    node_typed (NGaussianMarkovChain junk N D inputs) (MPath N D)
      (MGaussianWishart D :: MClusters (N - 1) (MClusters D (MGaussianGamma [row_len D inputs])) :: input_types N inputs)
| ty_path_states : forall N D, (0 < N)%nat -> node_typed (NGaussianStates N D) (MGaussian [D]) [MPath N D].

(** The part of the variable of a node that is plates for its parents. *)
Definition extra_plates (n : gnode) : shape := match n with NElements D => [D] | NClusters K _ => [K] | _ => [] end.

(** The plates of a parent fit those of the node; NStates and NGaussianStates make plates of
    the time steps of their parent. *)
Definition plates_fit (n : gnode) (pj pi : shape) : Prop :=
  match n with
  | NStates N _ | NGaussianStates N _ => exists P, pj = P ++ [N] /\ broadcasts_to pi P
  | _ => broadcasts_to pi (pj ++ extra_plates n)
  end.
(** Plate [p] of the node uses plate [q] of the parent. *)
Definition parent_plate (n : gnode) (p q : env) : Prop :=
  match n with
  | NStates _ _ | NGaussianStates _ _ => q = (fun k => p (S k))
  | _ => exists v, valid (extra_plates n) v /\ q = join (length (extra_plates n)) p v
  end.

(** A model whose nodes have kinds [ty], in a state [st] that construction, observations and
    updates can reach. *)
Record gmodel_ok (lg psi : R -> R) (ty : nat -> mtype) (M : gmodel) (st : nstate) : Prop := GModelOk {
  (* the graph: nodes are constructed after their parents, and no variable reaches a node
     through two of its parents *)
  gk_order : forall j i, (j < gm_size M)%nat -> In i (gm_parents M j) -> (i < j)%nat;
  gk_unique : forall i F j k k' v v', dt_kind (gm_net lg psi M) i = KStoch F -> (j < gm_size M)%nat ->
    nth_error (gm_parents M j) k = Some v -> nth_error (gm_parents M j) k' = Some v' ->
    computed_from (gm_net lg psi M) i v -> computed_from (gm_net lg psi M) i v' -> k = k';
  (* the kinds and the shapes *)
  gk_types : forall j, (j < gm_size M)%nat -> node_typed (gm_node M j) (ty j) (map ty (gm_parents M j));
  gk_plates : forall j, (j < gm_size M)%nat -> n_plates (st j) = gm_plates M j;
  gk_dims : forall j, (j < gm_size M)%nat -> n_dims (st j) = mt_dims (ty j);
  gk_mask : forall j, (j < gm_size M)%nat -> broadcasts_to (ash (n_mask (st j))) (n_plates (st j));
  gk_link : forall j k i, (j < gm_size M)%nat -> nth_error (gm_parents M j) k = Some i ->
    plates_fit (gm_node M j) (n_plates (st j)) (n_plates (st i)) /\
    broadcasts_to (n_mult (st i)) (n_mult (st j)) /\
    forall p q, valid (n_plates (st j)) p -> parent_plate (gm_node M j) p q ->
      bget (n_mask (st j)) p = true -> bget (n_mask (st i)) q = true;
  (* SumMultiply takes no account of plate multipliers (C46_plates_multiplier_refuted) *)
  gk_multiply : forall j nodes g i s, (j < gm_size M)%nat -> gm_node M j = NSumMultiply nodes g ->
    In i (gm_parents M j) -> ty i = MGaussian s -> n_mult (st i) = n_mult (st j);
  (* constants have possible moments *)
  gk_constant : forall j u, (j < gm_size M)%nat -> gm_node M j = NConstant u ->
    moments_in (place_of (st j)) (mt_mom (ty j)) u;
  (* stochastic nodes have possible moments, which are those of their natural parameters
     where they are not observed *)
  gk_node : forall j F, (j < gm_size M)%nat -> gnode_kind lg psi (gm_plates M j) (gm_node M j) = KStoch F ->
    node_ok F (mt_par (ty j)) (st j) /\ moments_in (place_of (st j)) (mt_mom (ty j)) (n_u (st j)) /\
    ann_ok (ty j) (n_ann (st j)) }.
