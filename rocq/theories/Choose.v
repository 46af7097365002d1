(** Model of Choose (nodes/gate.py 219-253): a Gate over the concatenation of the nodes,
    each with a new last plate axis.  No proofs here. *)
From Coq Require Import List Arith ZArith Bool Reals.
From Verif Require Import Base Shapes SpecShapes NumPy MiscArray AddAxis PlateNodes TakeConcat Gate.
Import ListNotations.
Open Scope nat_scope.

(** What the constructors of the nodes made by Choose compute: the slices of every node and
    the plates it has then, the lengths of the blocks, the plates of the concatenation and
    those of the gate. *)
Record choice := Choice { ch_slices : list (list idx * shape); ch_lengths : list nat;
                          ch_cat : shape; ch_plates : shape }.

(** gate.py 251: node[..., None] for a node with plates [P] (node.py 887-1021). *)
Definition new_last_plate (P : shape) : res (list idx * shape) :=
  sl <- slice_init P [IEll; INew] ;; q <- slice_plates sl P ;; Ok (sl, q).

(** gate.py 244-253.  [cats] and [zp] are the number of categories and the plates of the
    node z; [Ps] the plates of the nodes.  244-250: the conversion of z (categorical.py
    64-70).  252: Concatenate (concatenate.py 30-76); without parents it raises ValueError;
    its plates are those of the parents broadcast together (node.py: Node.__init__).
    253: Gate.  Nodes of different kinds are not modelled here. *)
Definition choose_init (cats : nat) (zp : shape) (Ps : list shape) : res choice :=
  if negb (cats =? length Ps) then Err ValueError
  else
    ss <- mapM new_last_plate Ps ;;
    match ss with
    | [] => Err ValueError
    | _ =>
        let lens := map (fun s => ax (snd s) 0) ss in
        ps <- mapM (fun s => cat_plates_from 0 lens (snd s)) ss ;;
        cp <- broadcasted_shape ps ;;
        _ <- gate_init 0 cp [cats] ;;
        gp <- gate_plates_from 1 0 cp ;;
        pl <- broadcasted_shape [zp; gp] ;;
        Ok (Choice ss lens cp pl)
    end.

(** The moments of the concatenation, one array of moments with variable axes [d]; [us] are
    the moments of the nodes. *)
Definition choose_combined (c : choice) (d : shape) (Ps : list shape) (us : list (arr R)) : res (arr R) :=
  xs <- mapM (fun t => let '(s, (P, u)) := t in slice_moments (fst s) (length P) d u)
          (combine (ch_slices c) (combine Ps us)) ;;
  cat_moments 0 (length d) (ch_lengths c) xs.
(** The moments of the chosen node; [z] is the moment of the categorical node. *)
Definition choose_moments (c : choice) (d : shape) (Ps : list shape) (us : list (arr R)) (z : arr R) : res (arr R) :=
  x <- choose_combined c d Ps us ;; gate_moments 0 (length d) z x.

(** The message to node [i] with plates [P]: through the gate, the concatenation and the
    slice.  The sum over the plates that a parent does not have (node.py: _message_to_parent)
    is left out, so this is for nodes that have all the plates. *)
Definition choose_message (c : choice) (d : shape) (i : nat) (P : shape) (z m : arr R) : res (arr R) :=
  mx <- gate_message_x 0 (length d) z m ;;
  mi <- cat_message 0 (length d) (ch_lengths c) i mx ;;
  match nth_error (ch_slices c) i with
  | Some s => reverse_indexing (fst s) mi P d
  | None => Err IndexError
  end.
(** The mask that node [i] gets, as zeros and ones; [w] is the mask of the result. *)
Definition choose_weights (c : choice) (i : nat) (P : shape) (w : arr R) : res (arr R) :=
  wx <- gate_weights 1 0 w ;;
  wi <- cat_weights 0 (ch_lengths c) i wx ;;
  match nth_error (ch_slices c) i with
  | Some s => reverse_indexing (fst s) wi P []
  | None => Err IndexError
  end.
