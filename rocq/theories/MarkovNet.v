(** Categorical Markov chains (categorical_markov_chain.py) for networks (DetNet.v): the
    functions of Markov.v and FamilyDist.v as a distribution and a deterministic node.
    No proofs here. *)
From Coq Require Import List Arith ZArith Bool Reals.
From Verif Require Import Base Shapes SpecShapes NumPy MiscArray SpecArray ExpFam Families Markov
  FamilyDist Network FamilyNet DetNet.
Import ListNotations.
Open Scope R_scope.

(** categorical_markov_chain.py 80-196: CategoricalMarkovChainDistribution with [N] states and
    [K] categories; the parents are <log p0> and <log P>.  compute_message_to_parent 95-104,
    compute_phi_from_parents 119-125, compute_cgf_from_parents 137-141.  The time axis and the
    rows of P are plates of the parent in the code (plates_to_parent 149-162,
    compute_weights_to_parent 106-117); here they are two variable axes of its moments (see
    [clusters_fn]). *)
Definition markov_efam (N K : nat) : efam := EFam (markov_family N K) [[[K]]; [[N - 1; K; K]%nat]]
  (fun ups => match ups with
     | [[p0]; [P]] => [p0; fun v => P v * 1]
     | _ => [zero0; zero0] end)
  (fun _ => 0)
  (fun k x _ => match k, x with
     | O, [z0; zz] => [z0]
     | S O, [z0; zz] => [zz]
     | _, _ => [zero0] end).

(** 409-419: _compute_weights_to_parent: np.sum(weights, axis=-1), read as a mask (node.py
    503, 646: compared with zero, np.where).  A mask without axes keeps its value. *)
Definition any_last (m : arr bool) : arr bool :=
  match ash m with
  | [] => m
  | s => Arr (removelast s) (fun p =>
           existsb (fun n => aget m (join 1 p (upd env0 0 n))) (seq 0 (ax s 0)))
  end.

(** 362-436: CategoricalMarkovChainToCategorical.  The plates of the node are those of the
    chain and the time axis (421-434).  _compute_moments 379-399, _compute_message_to_parent
    401-407, for one plate in Markov.v.  Simplification: the moments and the messages are
    written out on all plates. *)
Definition states_fn (plates : shape) (N K : nat) : detfn := DetFn
  (fun us => match us with
     | [u] => Ok (lift_arrays plates [[K]] (fun e =>
                match at_plate [[K]; [N - 1; K; K]%nat] u (fun k => e (S k)) with
                | [z0; zz] => [fun v => cmc_to_categorical K (fun i => z0 (upd env0 0 i))
                     (fun n i j => zz (upd (upd (upd env0 2 n) 1 i) 0 j)) (e 0%nat) (v 0%nat)]
                | _ => [zero0] end))
     | _ => Err ValueError end)
  (fun n par _ m _ =>
     zipM (fun d a => message_to_parent a (any_last (pl_mask n)) (removelast (pl_plates n))
                        (pl_mult n) (pl_mult par) (pl_plates par) d)
       (pl_dims par)
       (lift_arrays (removelast (pl_plates n)) (pl_dims par) (fun p =>
          let y := cmc_to_categorical_message (fun t k =>
                     nth 0 (at_plate [[K]] m (join 1 p (upd env0 0 t))) zero0 (upd env0 0 k)) in
          [fun v => fst y (v 0%nat); fun v => snd y (v 2%nat) (v 1%nat) (v 0%nat)]))).
