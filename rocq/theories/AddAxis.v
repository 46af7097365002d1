(** Model of AddPlateAxis (nodes/node.py 1174-1265), the node made by
    Node.add_plate_axis(to_plate).  [a] is abs(to_plate) - 1: the place of the new
    axis counted from the end of the new plates.  No proofs here. *)
From Coq Require Import List Arith Bool Reals.
From Verif Require Import Base Shapes SpecShapes NumPy MiscArray.
Import ListNotations.
Open Scope nat_scope.

(** list.insert(i, x): past the end it appends. *)
Definition py_insert {A} (i : nat) (x : A) (l : list A) : list A := firstn i l ++ x :: skipn i l.
(** list.pop(-1-k): IndexError if there is no such item. *)
Definition py_pop {A} (k : nat) (l : list A) : res (list A) :=
  if k <? length l then Ok (firstn (length l - 1 - k) l ++ skipn (length l - k) l) else Err IndexError.

(** node.py 1183-1189: the check of the constructor ([plates] of the parent). *)
Definition add_axis_init (a : nat) (plates : shape) : res unit :=
  if length plates + 1 <? a + 1 then Err ValueError else Ok tt.
(** node.py 1203-1206: _plates_to_parent; [plates] of the node. *)
Definition add_axis_plates_to (a : nat) (plates : shape) : res shape := py_pop a plates.
(** node.py 1209-1212: _plates_from_parent; [plates] of the parent.  The position is
    len(plates) - to_plate + 1 with to_plate = -(a+1). *)
Definition add_axis_plates_from (a : nat) (plates : shape) : shape :=
  py_insert (length plates + (a + 1) + 1) 1 plates.
(** node.py 1215-1221: _compute_weights_to_parent; the name sh_weights is never assigned. *)
Definition add_axis_weights {A} (a : nat) (w : arr A) : res (arr A) :=
  if a + 1 <=? ndim w then Err NameError else Ok w.
(** node.py 1224-1238: _compute_message_to_parent for one message array, [nd] variable axes. *)
Definition add_axis_message (a nd : nat) (m : arr R) : res (arr R) :=
  if a + 1 + nd <=? ndim m
  then s <- py_pop (a + nd) (ash m) ;; np_reshape m s
  else Ok m.
(** node.py 1240-1263: _compute_moments for one moment array. *)
Definition add_axis_moments (a nd : nat) (u : arr R) : res (arr R) :=
  if (a + 1) + nd <? ndim u + 1   (* axis > 0 *)
  then np_reshape u (py_insert (ndim u + 1 - (a + 1) - nd) 1 (ash u))
  else Ok u.
