(** Model of VB.update on a network of exponential-family and deterministic nodes: the
    moments of a deterministic node are computed from its parents when they are asked
    for, and its message to a parent from the messages of its own children.  No proofs
    here.

    Simplifications: the shape checks of _message_to_child, which can only raise, are
    left out; the children of a node are visited in the order of their numbers (the code
    keeps them in a set); a deterministic node without stochastic descendants, which the
    code does not link to its parents, is not part of the network. *)
From Coq Require Import List Arith ZArith Bool Reals.
From Verif Require Import Base Shapes SpecShapes NumPy MiscArray SpecArray ExpFam FamilyDist Network.
Import ListNotations.
Open Scope nat_scope.

(** node.py: the attributes plates, dims, mask and plates_multiplier that every node has. *)
Record place := Place { pl_plates : shape; pl_dims : list shape; pl_mask : arr bool; pl_mult : shape }.
Definition place_of (n : efnode) : place := Place (n_plates n) (n_dims n) (n_mask n) (n_mult n).

(** A deterministic node: _compute_moments, and _message_to_parent as a function of the
    node, the parent, the index of the parent, the message from the children and the
    moments of the other parents (an empty list stands for None). *)
Record detfn := DetFn {
  df_moments : list (list (arr R)) -> res (list (arr R));
  df_message : place -> place -> nat -> list (arr R) -> list (list (arr R)) -> res (list (arr R)) }.

Inductive dkind := KStoch (F : efam) | KDet (D : detfn).
Record dnet := DNet { dt_size : nat; dt_kind : nat -> dkind; dt_parents : nat -> list nat }.

(** stochastic.py 172-175 and deterministic.py 62-64, node.py 690-694: get_moments.  The
    recursion ends because the parents of a node exist before it; [fuel] is Python's
    recursion limit. *)
Fixpoint dn_moments (net : dnet) (st : nstate) (fuel i : nat) : res (list (arr R)) :=
  match fuel with
  | 0 => Err RuntimeError
  | S fuel =>
      match dt_kind net i with
      | KStoch _ => Ok (n_u (st i))
      | KDet D => us <- mapM (dn_moments net st fuel) (dt_parents net i) ;; df_moments D us
      end
  end.

(** node.py 690-694: _message_from_parents(exclude). *)
Definition from_parents (net : dnet) (st : nstate) (j : nat) : res (list (list (arr R))) :=
  mapM (dn_moments net st (dt_size net)) (dt_parents net j).
Definition from_other_parents (net : dnet) (st : nstate) (j k : nat) : res (list (list (arr R))) :=
  mapM (fun xi => if fst xi =? k then Ok [] else dn_moments net st (dt_size net) (snd xi))
       (combine (seq 0 (length (dt_parents net j))) (dt_parents net j)).

(** node.py 570-655 with expfamily.py: the message of the stochastic node [j] to its
    parent number [k]; [ups]: the moments of the other parents. *)
Definition stoch_message (F : efam) (n par : efnode) (k : nat) (ups : list (list (arr R)))
  : res (list (arr R)) :=
  zipM (fun d m => message_to_parent m (n_mask n) (n_plates n) (n_mult n) (n_mult par)
                     (n_plates par) d)
       (n_dims par)
       (lift_arrays (n_plates n) (nth k (e_pdims F) []) (fun p =>
          e_message F k (at_plate (fam_dims (e_fam F)) (n_u n) p) (at_plates (e_pdims F) ups p))).

(** The pairs (child, index) of a node. *)
Definition dchildren (net : dnet) (i : nat) : list (nat * nat) :=
  flat_map (fun j => map (pair j)
      (filter (fun k => nth k (dt_parents net j) 0 =? i) (seq 0 (length (dt_parents net j)))))
    (seq 0 (dt_size net)).

(** node.py 570-688 and deterministic.py 66-83: _message_from_children. *)
Fixpoint from_children (net : dnet) (st : nstate) (fuel i : nat) : res (list (arr R)) :=
  match fuel with
  | 0 => Err RuntimeError
  | S fuel =>
      foldM (fun acc jk =>
               let '(j, k) := (jk : nat * nat) in
               ups <- from_other_parents net st j k ;;
               m <- match dt_kind net j with
                    | KStoch F => stoch_message F (st j) (st i) k ups
                    | KDet D => mc <- from_children net st fuel j ;; df_message D (place_of (st j)) (place_of (st i)) k mc ups
                    end ;;
               zipM np_add acc m)
            (map (fun d => Arr d (fun _ => 0%R)) (n_dims (st i))) (dchildren net i)
  end.

(** stochastic.py 276-282: node.update(). *)
Definition dn_update1 (net : dnet) (st : nstate) (i : nat) : res nstate :=
  match dt_kind net i with
  | KDet _ => Err AttributeError
  | KStoch F =>
      m <- from_children net st (dt_size net) i ;;
      ups <- from_parents net st i ;;
      match update (net_dist F (n_plates (st i))) (st i) m ups 1%R with
      | (n', Ok _) => Ok (set_node st i n')
      | (_, Err e) => Err e
      end
  end.
(** vmp.py 156-163 *)
Fixpoint dn_updates (net : dnet) (st : nstate) (l : list nat) : res nstate :=
  match l with
  | [] => Ok st
  | i :: l' => st <- dn_update1 net st i ;; dn_updates net st l'
  end.

(** vmp.py 180-184 and deterministic.py 133-136: compute_lowerbound. *)
Fixpoint dn_bound_sum (net : dnet) (nan : R) (st : nstate) (l : list nat) : res R :=
  match l with
  | [] => Ok 0%R
  | i :: l' =>
      x <- match dt_kind net i with
           | KDet _ => Ok 0%R
           | KStoch F => ups <- from_parents net st i ;;
                         lower_bound_contribution (net_dist F (n_plates (st i))) nan (st i) ups
           end ;;
      r <- dn_bound_sum net nan st l' ;;
      Ok (x + r)%R
  end.
Definition dn_lowerbound (net : dnet) (nan : R) (st : nstate) : res R :=
  dn_bound_sum net nan st (seq 0 (dt_size net)).

(** constant.py: a Constant has moments and no parents. *)
Definition constant_fn (u : list (arr R)) : detfn :=
  DetFn (fun _ => Ok u) (fun _ _ _ _ _ => Err IndexError).
