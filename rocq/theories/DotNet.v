(** SumMultiply (dot.py) as a node of a network (DetNet.v).  No proofs here. *)
From Coq Require Import List Arith ZArith Bool Reals.
From Verif Require Import Base Shapes SpecShapes NumPy MiscArray SpecArray ExpFam FamilyDist Network Dot DetNet.
Import ListNotations.
Open Scope nat_scope.

(** dot.py 325-424, 460-480: the lists of arrays that a parent sends, read as the moments of
    its kind.  An empty list stands for None, the parent that gets the message: its moments
    are not read (dot.py 452-455). *)
Definition to_pmom (nd : shape * pkind) (u : list (arr R)) : res pmom :=
  match u, snd nd with
  | [], _ => Ok (MGaussian (Arr (fst nd) (fun _ => 0%R)) (Arr (fst nd ++ fst nd) (fun _ => 0%R)))
  | [x], KDelta => Ok (MDelta x)
  | [x; xx], KGaussian => Ok (MGaussian x xx)
  | [x; xx; a; la], KGaussianGamma => Ok (MGaussianGamma x xx a la)
  | _, _ => Err IndexError
  end.

(** dot.py 325-633: _compute_moments and _message_to_parent of a SumMultiply with parents
    [nodes] and keys [g].  Simplification: the message of the children is written out on all
    plates of the node first; the code keeps unit axes where all children's messages are
    equal, with the same sums (C46_messages). *)
Definition sm_det (nodes : list (shape * pkind)) (g : sm_node) : detfn :=
  DetFn
    (fun us => pm <- zipM to_pmom nodes us ;; sm_moments g pm)
    (fun n par k m us =>
       pm <- zipM to_pmom nodes us ;;
       sm_message g k pm (lift_arrays (pl_plates n) (pl_dims n) (fun p => at_plate (pl_dims n) m p)) (pl_mask n)
         (nth k (map fst nodes) []) (pl_plates par) (pl_plates n)).
