(** Model of the diagonal helpers of bayespy/utils/misc.py.  No proofs here. *)
From Coq Require Import List Arith ZArith Lia Bool Reals.
From Verif Require Import Base Shapes SpecShapes NumPy MiscArray.
Import ListNotations.
Open Scope nat_scope.

(** np.identity(N) *)
Definition np_identity (n : nat) : arr R :=
  Arr [n; n] (fun e => if e 0 =? e 1 then 1%R else 0%R).

(** misc.identity, utils/misc.py 478-479. *)
Definition identity (s : shape) : res (arr R) :=
  np_reshape (np_identity (fold_left Nat.mul s 1)) (s ++ s).

(** misc.add_axes, utils/misc.py 1040-1043, with [axis] a position counted from
    the front. *)
Definition add_axes {A} (x : arr A) (num axis : nat) : arr A :=
  Nat.iter num (fun y => expand_at y (ndim y - axis)) x.

(** X.shape[-n:] for n > 0 and X.shape[-m:-n]. *)
Definition last_dims (s : shape) (n : nat) : shape := skipn (length s - n) s.
Definition mid_dims (s : shape) (m n : nat) : shape :=
  firstn (length s - n - (length s - m)) (skipn (length s - m) s).

(** list equality of shapes *)
Fixpoint shape_eqb (s t : shape) : bool :=
  match s, t with
  | [], [] => true
  | a :: s, b :: t => (a =? b) && shape_eqb s t
  | _, _ => false
  end.

(** misc.make_diag, utils/misc.py 1160-1204. *)
Definition make_diag (X : arr R) (ndim_ ndim_from : Z) : res (arr R) :=
  if (ndim_ <? 0)%Z then Err ValueError
  else if (ndim_from <? 0)%Z then Err ValueError
  else if (ndim_ <? ndim_from)%Z then Err ValueError
  else if (ndim_ =? 0)%Z then Ok X
  else
    let n := Z.to_nat ndim_ in
    let f := Z.to_nat ndim_from in
    if ndim X <? 2 * f then Err ValueError
    else if (0 <? f) && negb (shape_eqb (last_dims (ash X) f) (mid_dims (ash X) (2 * f) f))
    then Err ValueError
    else if n =? f then Ok X
    else
      X <- atleast_nd X (n + f) ;;
      I <- identity (if 0 <? f then mid_dims (ash X) (f + n) f else last_dims (ash X) n) ;;
      np_multiply I (add_axes X (n - f) (ndim X - f)).

(** misc.get_diag, utils/misc.py 1207-1250.  The slices axes[a:b] of the range
    0..ndim(X)-ndim+ndim_to-1 are consecutive ranges. *)
Definition get_diag (X : arr R) (ndim_ ndim_to : Z) : res (arr R) :=
  if (ndim_ <? 0)%Z then Err ValueError
  else if (ndim_to <? 0)%Z then Err ValueError
  else if (ndim_ <? ndim_to)%Z then Err ValueError
  else if (ndim_ =? 0)%Z then Ok X
  else
    let n := Z.to_nat ndim_ in
    let t := Z.to_nat ndim_to in
    if ndim X <? 2 * n then Err ValueError
    else if negb (shape_eqb (last_dims (ash X) n) (mid_dims (ash X) (2 * n) n))
    then Err ValueError
    else if n =? t then Ok X
    else
      let n_plate_axes := ndim X - 2 * n in
      let n_diag_axes := n - t in
      let axes_plates := seq 0 n_plate_axes in
      let axes_diag := seq n_plate_axes n_diag_axes in
      let axes_dims1 := seq (n_plate_axes + n_diag_axes) t in
      let axes_dims2 := seq (n_plate_axes + n_diag_axes + t) t in
      let axes_input := axes_plates ++ axes_diag ++ axes_dims1 ++ axes_diag ++ axes_dims2 in
      let axes_output := axes_plates ++ axes_diag ++ axes_dims1 ++ axes_dims2 in
      einsum [(X, axes_input)] axes_output.
