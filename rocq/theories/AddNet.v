(** Add (add.py) and ConcatGaussian (concat_gaussian.py) as nodes of a network (DetNet.v).
    No proofs here. *)
From Coq Require Import List Arith ZArith Bool Reals.
From Verif Require Import Base Shapes SpecShapes NumPy MiscArray SpecArray ExpFam FamilyDist Network DetNet AddNode.
Import ListNotations.
Open Scope nat_scope.

(** add.py 97-154, concat_gaussian.py 74-116: the list of arrays that a parent with a variable
    of shape [d] sends.  An empty list stands for None, the parent that gets the message: its
    moments are not read (add.py 131-137, concat_gaussian.py 106-112). *)
Definition to_gmom (d : shape) (u : list (arr R)) : res gmom :=
  match u with
  | [x; xx] => Ok (x, xx)
  | [] => Ok (Arr d (fun _ => 0%R), Arr (d ++ d) (fun _ => 0%R))
  | _ => Err IndexError
  end.

(** deterministic.py 82-108 and node.py 448-489 with the node's _compute_moments [mf] and
    _compute_message_to_parent [sf]; [dimss]: the shapes of the parents' variables.
    Simplification: the messages are written out on all plates of the node, before [sf] and
    before the sum over plates; the code keeps unit axes where all plates are equal. *)
Definition gauss_det (dimss : list shape) (mf : list gmom -> res gmom)
           (sf : nat -> gmom -> list gmom -> res gmom) : detfn :=
  DetFn
    (fun us =>
       gs <- zipM to_gmom dimss us ;;
       '(x, xx) <- mf gs ;;
       Ok [x; xx])
    (fun n par k m us =>
       gs <- zipM to_gmom dimss us ;;
       gm <- to_gmom [] (lift_arrays (pl_plates n) (pl_dims n) (fun p => at_plate (pl_dims n) m p)) ;;
       '(y, yy) <- sf k gm gs ;;
       zipM (fun d a => message_to_parent a (pl_mask n) (pl_plates n) (pl_mult n) (pl_mult par) (pl_plates par) d)
         (pl_dims par)
         (lift_arrays (pl_plates n) (pl_dims par) (fun p => at_plate (pl_dims par) [y; yy] p))).

(** Add of parents with shapes [dimss]; [s] is the shape that add_init returns. *)
Definition add_det (dimss : list shape) (s : shape) : detfn :=
  gauss_det dimss (add_moments (length s)) (add_message (length s)).
(** ConcatGaussian; [r] are the slices that concat_init returns. *)
Definition concat_det (dimss : list shape) (r : list nat) : detfn :=
  gauss_det dimss concat_moments (concat_message r).
