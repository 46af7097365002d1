(** Model of VB.update on a network of exponential-family nodes: messages from
    the parents, messages from the children, updates of the nodes one by one and
    the lower bound.  No proofs here.

    The nodes of the network are stochastic nodes whose parents are stochastic
    nodes: deterministic nodes are not part of it. *)
From Coq Require Import List Arith ZArith Bool Reals.
From Verif Require Import Base Shapes SpecShapes NumPy MiscArray SpecArray ExpFam FamilyDist.
Import ListNotations.
Open Scope nat_scope.

(** A distribution with its connections to the parents, per plate:
    compute_phi_from_parents, compute_cgf_from_parents, compute_message_to_parent
    (index, own moments, moments of the other parents).  [e_pdims]: the dims of
    the moments of each parent. *)
Record efam := EFam {
  e_fam : family;
  e_pdims : list (list shape);
  e_phi : list (list (env -> R)) -> list (env -> R);
  e_cgf : list (list (env -> R)) -> R;
  e_message : nat -> list (env -> R) -> list (list (env -> R)) -> list (env -> R) }.

Record netnode := NN { nn_fam : efam; nn_parents : list nat }.
Record network := Net { nt_size : nat; nt_node : nat -> netnode }.
Definition nstate := nat -> efnode.

(** node.py 690-694: _message_from_parents(exclude=index): None for the excluded one. *)
Definition exclude {A} (k : nat) (l : list (list A)) : list (list A) :=
  map (fun ju => if fst ju =? k then [] else snd ju) (combine (seq 0 (length l)) l).

(** node.py 528-568, 690-694: the moments of the parents. *)
Definition parent_moments (net : network) (st : nstate) (i : nat) : list (list (arr R)) :=
  map (fun j => n_u (st j)) (nn_parents (nt_node net i)).

(** The moments of the parents at plate [p] of the node. *)
Definition at_plates (pdims : list (list shape)) (ups : list (list (arr R))) (p : env)
  : list (list (env -> R)) :=
  map (fun du => at_plate (fst du) (snd du) p) (combine pdims ups).

(** Arrays from a function of the plate. *)
Definition lift_arrays (plates : shape) (dims : list shape) (f : env -> list (env -> R))
  : list (arr R) :=
  map (fun id => Arr (plates ++ snd id) (fun e =>
         nth (fst id) (f (fun k => e (k + length (snd id)))) (fun _ => 0%R)
             (fun k => if k <? length (snd id) then e k else 0)))
      (combine (seq 0 (length dims)) dims).

(** The distribution object of a node with the given plates.  Observing is not
    part of this model: it has happened before. *)
Definition net_dist (F : efam) (plates : shape) : dist (list (list (arr R))) unit :=
  Dist _ _
    (fun ups => Ok (lift_arrays plates (fam_dims (e_fam F))
                      (fun p => e_phi F (at_plates (e_pdims F) ups p))))
    (fun ups => Ok (Arr plates (fun p => e_cgf F (at_plates (e_pdims F) ups p))))
    (lift_moments (e_fam F) plates)
    (fun _ _ => Err NotImplementedError)
    (fun _ => Err NotImplementedError).
Definition dist_of (net : network) (st : nstate) (i : nat) :=
  net_dist (nn_fam (nt_node net i)) (n_plates (st i)).

(** node.py 570-655 with expfamily.py: the message of node [j] to its parent
    number [k]. *)
Definition child_message (net : network) (st : nstate) (j k : nat) : res (list (arr R)) :=
  let F := nn_fam (nt_node net j) in
  let n := st j in
  let par := st (nth k (nn_parents (nt_node net j)) 0) in
  let ms := lift_arrays (n_plates n) (nth k (e_pdims F) []) (fun p =>
              e_message F k (at_plate (fam_dims (e_fam F)) (n_u n) p)
                (exclude k (at_plates (e_pdims F) (parent_moments net st j) p))) in
  zipM (fun d m => message_to_parent m (n_mask n) (n_plates n) (n_mult n) (n_mult par)
                     (n_plates par) d)
       (n_dims par) ms.

(** The pairs (child, index) of a node. *)
Definition children_of (net : network) (i : nat) : list (nat * nat) :=
  flat_map (fun j => map (pair j)
      (filter (fun k => nth k (nn_parents (nt_node net j)) 0 =? i)
              (seq 0 (length (nn_parents (nt_node net j))))))
    (seq 0 (nt_size net)).

(** node.py 657-688: _message_from_children. *)
Fixpoint add_messages (net : network) (st : nstate) (l : list (nat * nat)) (acc : list (arr R))
  : res (list (arr R)) :=
  match l with
  | [] => Ok acc
  | (j, k) :: l' =>
      m <- child_message net st j k ;;
      acc <- zipM np_add acc m ;;
      add_messages net st l' acc
  end.
Definition message_from_children (net : network) (st : nstate) (i : nat) : res (list (arr R)) :=
  add_messages net st (children_of net i)
    (map (fun d => Arr d (fun _ => 0%R)) (n_dims (st i))).

Definition set_node (st : nstate) (i : nat) (n : efnode) : nstate :=
  fun j => if j =? i then n else st j.

(** stochastic.py 276-282: node.update() in the network. *)
Definition vb_update1 (net : network) (st : nstate) (i : nat) : res nstate :=
  m <- message_from_children net st i ;;
  match update (dist_of net st i) (st i) m (parent_moments net st i) 1%R with
  | (n', Ok _) => Ok (set_node st i n')
  | (_, Err e) => Err e
  end.

(** vmp.py 156-163: VB.update runs through the given nodes. *)
Fixpoint vb_updates (net : network) (st : nstate) (l : list nat) : res nstate :=
  match l with
  | [] => Ok st
  | i :: l' => st <- vb_update1 net st i ;; vb_updates net st l'
  end.

(** vmp.py 180-184: compute_lowerbound. *)
Fixpoint bound_sum (net : network) (nan : R) (st : nstate) (l : list nat) : res R :=
  match l with
  | [] => Ok 0%R
  | i :: l' =>
      x <- lower_bound_contribution (dist_of net st i) nan (st i) (parent_moments net st i) ;;
      r <- bound_sum net nan st l' ;;
      Ok (x + r)%R
  end.
Definition compute_lowerbound (net : network) (nan : R) (st : nstate) : res R :=
  bound_sum net nan st (seq 0 (nt_size net)).
