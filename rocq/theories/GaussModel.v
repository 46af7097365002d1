(** Networks of the library's nodes with Gaussian variables (DetNet.v).  No proofs here. *)
From Coq Require Import List Arith ZArith Bool Reals.
From Verif Require Import Base Shapes SpecShapes NumPy MiscArray SpecArray ExpFam Families Linalg Gaussian
  FamilyDist GaussianDist BlockBanded Network FamilyNet Dot DetNet DotNet AddNode AddNet GaussNet MixtureNet MarkovNet PathNet.
Import ListNotations.

(** The nodes.  The constructors of GaussianARD (gaussian.py 1559-1774), Gaussian (1346-1556)
    and GaussianGamma (1777-1998) put the converters NToGaussianGamma, NWithPrecision and
    NWithWishart between the node and the parents of the user; NElements stands for the
    plates_to_parent of a GaussianARD with ndim = 1 and NClusters for that of a Mixture.  The
    rows of the transition matrices of a CategoricalMarkovChain are a parent with plates
    (..., N-1, K) (categorical_markov_chain.py 236-253); here two NClusters take off one of
    these axes each, with the same sums.  So are the rows of the dynamics matrices of a
    GaussianMarkovChain, a parent with plates (..., N-1, D), and the inputs, with plates
    (..., N-1) (gaussian_markov_chain.py 660-682). *)
Inductive gnode :=
| NConstant (u : list (arr R))      (* constant.py 13-60 *)
| NPoisson                          (* poisson.py *)
| NBinomial (N : R)                 (* binomial.py *)
| NMultinomial (N : R) (K : nat)    (* multinomial.py *)
| NGamma                            (* gamma.py *)
| NDirichlet (K : nat)              (* dirichlet.py *)
| NGaussianARD0                     (* gaussian.py 1559-1774, shape () *)
| NGaussianARD (D : nat)            (* shape (D,) *)
| NGaussian (D : nat)               (* gaussian.py 1346-1556 *)
| NGaussianGamma (D : nat)          (* gaussian.py 1777-1998 *)
| NWishart (D : nat)                (* wishart.py 228-304 *)
| NToGaussianGamma (s : shape)      (* gaussian.py 2226-2272 *)
| NWithPrecision (s : shape)        (* gaussian.py 2299-2371 *)
| NWithWishart (D : nat)            (* gaussian.py 2374-2531 *)
| NElements (D : nat)               (* gaussian.py 635-648 *)
| NSumMultiply (parents : list (shape * pkind)) (g : sm_node)  (* dot.py 22-633 *)
| NAdd (parents : list shape) (s : shape)   (* add.py 16-154 *)
| NConcatGaussian (parents : list shape) (r : list nat)  (* concat_gaussian.py 11-116 *)
| NCategorical (K : nat)            (* categorical.py *)
| NMixture (K : nat) (n : gnode)    (* mixture.py; n: the mixed distribution *)
| NClusters (K : nat) (dims : list shape)   (* mixture.py 303-342 *)
| NMarkovChain (N K : nat)          (* categorical_markov_chain.py 128-300 *)
| NStates (N K : nat)               (* categorical_markov_chain.py 345-438 *)
| NGaussianMarkovChain (junk : rows * blocks * blocks) (N D : nat) (inputs : option nat)
                                    (* gaussian_markov_chain.py 270-1142; junk: what np.empty returns *)
| NGaussianStates (N D : nat).      (* gaussian_markov_chain.py 1988-2095 *)

(** [lg], [psi]: scipy.special.gammaln and digamma; [plates]: the plates of the node. *)
Fixpoint gnode_kind (lg psi : R -> R) (plates : shape) (n : gnode) : dkind :=
  match n with
  | NConstant u => KDet (constant_fn u)
  | NPoisson => KStoch poisson_efam
  | NBinomial N => KStoch (binomial_efam N)
  | NMultinomial N K => KStoch (multinomial_efam N K)
  | NGamma => KStoch (gamma_efam lg psi)
  | NDirichlet K => KStoch (dirichlet_efam lg psi K)
  | NGaussianARD0 => KStoch ard0_efam
  | NGaussianARD D => KStoch (ard_efam D)
  | NGaussian D => KStoch (gaussian_efam D)
  | NGaussianGamma D => KStoch (gaussian_gamma_efam lg psi D)
  | NWishart D => KStoch (wishart_efam lg psi D)
  | NToGaussianGamma s => KDet (plate_det (to_gg_fn s) plates)
  | NWithPrecision s => KDet (plate_det (wrap_gg_fn s) plates)
  | NWithWishart D => KDet (plate_det (wrap_gw_fn D) plates)
  | NElements D => KDet (elements_fn plates D)
  | NSumMultiply parents g => KDet (sm_det parents g)
  | NAdd parents s => KDet (add_det parents s)
  | NConcatGaussian parents r => KDet (concat_det parents r)
  | NCategorical K => KStoch (multinomial_efam 1 K)
  | NMixture K n => match gnode_kind lg psi plates n with
                    | KStoch F => KStoch (mixture_efam K F)
                    | KDet D => KDet D
                    end
  | NClusters K dims => KDet (clusters_fn plates K dims)
  | NMarkovChain N K => KStoch (markov_efam N K)
  | NStates N K => KDet (states_fn plates N K)
  | NGaussianMarkovChain junk N D inputs => KStoch (path_efam junk N D inputs)
  | NGaussianStates N D => KDet (path_states_fn plates N D)
  end.

Record gmodel := GModel {
  gm_size : nat;
  gm_node : nat -> gnode;
  gm_parents : nat -> list nat;
  gm_plates : nat -> shape }.
Definition gm_net (lg psi : R -> R) (M : gmodel) : dnet :=
  DNet (gm_size M) (fun j => gnode_kind lg psi (gm_plates M j) (gm_node M j)) (gm_parents M).
