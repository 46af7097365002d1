(** Gaussian Markov chains (gaussian_markov_chain.py) for networks (DetNet.v): the functions
    of GaussMarkov.v as a distribution, and the states of a chain as a deterministic node.
    No proofs here. *)
From Coq Require Import List Arith ZArith Bool Reals.
From Verif Require Import Base Shapes SpecShapes NumPy MiscArray SpecArray ExpFam Families Linalg Gaussian
  FamilyDist GaussianDist BlockBanded GaussMarkov GaussMarkovDist Network FamilyNet DetNet MarkovNet.
Import ListNotations.
Open Scope R_scope.

(** The number of input signals and the length of the rows of (A, B). *)
Definition in_len (inputs : option nat) : nat := match inputs with None => 0%nat | Some K => K end.
Definition row_len (D : nat) (inputs : option nat) : nat := match inputs with None => D | Some K => (D + K)%nat end.

(** The moments of the parents of one plate of the node.  Axis 0 of an index is the last one. *)
Definition part (u : list (env -> R)) (k : nat) : env -> R := nth k u zero0.
Definition path_mL (u : list (env -> R)) : mL_moments :=
  (as_vec (part u 0), part u 1 env0, as_mat (part u 2), part u 3 env0).
Definition path_A (N D : nat) (u : list (env -> R)) : A_moments :=
  (as_blocks (part u 0),
   (fun n d i j => part u 1 (upd (upd (upd (upd env0 3 n) 2 d) 1 i) 0 j)),
   as_rows (part u 2),
   T2 (N - 1) D (as_rows (part u 3))).
Definition path_in (inputs : option nat) (u : list (env -> R)) : option in_moments :=
  match inputs with None => None | Some _ => Some (as_rows (part u 0), as_blocks (part u 1)) end.

(** gaussian_markov_chain.py 270-706: GaussianMarkovChainDistribution with [N] states of
    length [D], with or without input signals; the parents are (mu, Lambda), (A, nu) and the
    inputs.  compute_message_to_parent 440-526, compute_phi_from_parents 541-621,
    compute_cgf_from_parents 623-657.  The axes of time and of the rows of A are plates of the
    parents in the code (plates_to_parent 660-682, compute_weights_to_parent 529-538); here
    they are variable axes of their moments (see [clusters_fn]), which are therefore written
    out: the log of nu has the shape (N-1, D) (C21_gmc_nu_shape_refuted is about other
    shapes).  [junk] is what np.empty returns. *)
Definition path_efam (junk : rows * blocks * blocks) (N D : nat) (inputs : option nat) : efam :=
  EFam (chain_family junk N D)
  ([[D]; []; [D; D]; []]
   :: [[N - 1; D; row_len D inputs]; [N - 1; D; row_len D inputs; row_len D inputs]; [N - 1; D]; [N - 1; D]]%nat
   :: match inputs with None => [] | Some K => [[[N - 1; K]; [N - 1; K; K]]%nat] end)
  (fun ups =>
     let '(p0, p1, p2) := gmc_phi N D (in_len inputs) (path_mL (nth 0 ups [])) (path_A N D (nth 1 ups []))
                            (path_in inputs (nth 2 ups [])) in
     [of_rows p0; of_blocks p1; of_blocks p2])
  (fun ups =>
     match gmc_cgf N D (in_len inputs) (path_mL (nth 0 ups [])) (path_A N D (nth 1 ups []))
             (match path_in inputs (nth 2 ups []) with None => None | Some z => Some (z, [N - 1]%nat) end) with
     | Ok g => g
     | Err _ => 0
     end)
  (fun k x ups =>
     let u := (as_rows (part x 0), as_blocks (part x 1), as_blocks (part x 2)) in
     match k with
     | O => let '(m0, m1, m2, m3) := gmc_message_mL u in [of_vec m0; fun _ => m1; of_mat m2; fun _ => m3]
     | S O =>
         let m := gmc_message_A D u (path_in inputs (nth 2 ups [])) in
         [(fun v => fst (fst (fst (m (v 2%nat) (v 1%nat)))) (v 0%nat));
          (fun v => snd (fst (fst (m (v 3%nat) (v 2%nat)))) (v 1%nat) (v 0%nat));
          (fun v => snd (fst (m (v 1%nat) (v 0%nat))));
          (fun v => snd (m (v 1%nat) (v 0%nat)))]
     | _ =>
         let m := gmc_message_in D u (path_A N D (nth 1 ups [])) in
         [(fun v => fst (m (v 1%nat)) (v 0%nat)); (fun v => snd (m (v 2%nat)) (v 1%nat) (v 0%nat))]
     end).

(** 1988-2095: _MarkovChainToGaussian.  The plates of the node are those of the chain and the
    time axis (2005-2032).  _compute_moments 2034-2050, _compute_weights_to_parent 2053-2057
    (as in [any_last]), _compute_message_to_parent 2060-2095: the third message is None, which
    adds nothing (node.py 621-622, 679-680); here it is zero.  Simplification: the moments and
    the messages are written out on all plates. *)
Definition path_states_fn (plates : shape) (N D : nat) : detfn := DetFn
  (fun us => match us with
     | [u] => Ok (lift_arrays plates [[D]; [D; D]] (fun e =>
                let x := at_plate [[N; D]; [N; D; D]; [N - 1; D; D]%nat] u (fun k => e (S k)) in
                [fun v => as_rows (part x 0) (e 0%nat) (v 0%nat);
                 fun v => as_blocks (part x 1) (e 0%nat) (v 1%nat) (v 0%nat)]))
     | _ => Err ValueError end)
  (fun n par _ m _ =>
     zipM (fun d a => message_to_parent a (any_last (pl_mask n)) (removelast (pl_plates n))
                        (pl_mult n) (pl_mult par) (pl_plates par) d)
       (pl_dims par)
       (lift_arrays (removelast (pl_plates n)) (pl_dims par) (fun p =>
          let y t := at_plate [[D]; [D; D]] m (join 1 p (upd env0 0 t)) in
          [fun v => as_vec (part (y (v 1%nat)) 0) (v 0%nat);
           fun v => as_mat (part (y (v 2%nat)) 1) (v 1%nat) (v 0%nat);
           zero0]))).
