(** Model of the questions a VB object answers about its lower bound and of the user data it
    stores (inference/vmp/vmp.py).  No proofs here. *)
From Coq Require Import String List Arith Bool Reals.
From Verif Require Import Base NumPy Engine.
Import ListNotations.

Section Queries.
Variable contribution : nat -> world -> res xr.         (* node.lower_bound_contribution() *)

(** VB.compute_lowerbound_terms, vmp.py 186-190: a dictionary, so a node that is given twice has
    one entry. *)
Definition compute_lowerbound_terms (nodes : list nat) : ST vb (list (nat * xr)) :=
  fun s => (s, mapM (fun n => c <- contribution n (v_world s) ;; Ok (n, c))
                    (match nodes with [] => v_model s | _ => unique nodes end)).
End Queries.

(** VB.get_iteration_by_nodes, vmp.py 233-234 *)
Definition get_iteration_by_nodes : ST vb (list (nat * list xr)) := gets v_l.

(** VB.load_user_data, vmp.py 295-306: a missing file raises OSError, a file without the group
    'user_data' KeyError; the loop over the items assigns to [user_data['key']], and no variable
    user_data exists (NameError).  It returns None. *)
Definition is_user_item (p : path) : bool := match p with PUser _ => true | _ => false end.
Definition load_user_data (d : disk) (filename : string) : res unit :=
  match files d filename with
  | None => Err OSError
  | Some f => match flookup f PUserGroup with
              | None => Err KeyError
              | Some _ => if existsb (fun q => is_user_item (fst q)) f then Err NameError else Ok tt
              end
  end.
