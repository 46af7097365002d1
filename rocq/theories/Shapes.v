(** Model of the shape functions of bayespy/utils/misc.py and of
    Node._total_plates.  Shapes are Python tuples of non-negative integers, in
    Python order.  No proofs here. *)
From Coq Require Import List Arith ZArith Lia Bool.
From Verif Require Import Base.
Import ListNotations.

Notation shape := (list nat) (only parsing).

(** [back s k] is Python's [s[-1-k]]: [None] is an IndexError (guarded against
    in the code by a length test). *)
Definition back (s : shape) (k : nat) : option nat := nth_error (rev s) k.

(** [range(-n, 0)] written with [k = -1-i]: n-1, ..., 1, 0. *)
Definition back_range (n : nat) : list nat := rev (seq 0 n).

(** misc.py 1003-1005: [dim = 0; for a in shapes: dim = max(dim, len(a))]. *)
Definition max_rank (shapes : list shape) : nat :=
  fold_left (fun dim a => Nat.max dim (length a)) shapes 0.

(** misc.py 1009-1013: body of the inner loop of broadcasted_shape on axis
    [i = -1-k]. *)
Definition bc_step (k : nat) (s : nat) (a : shape) : res nat :=
  match back a k with
  | None => Ok s                                   (* -i <= len(a) is false *)
  | Some d =>
      if s =? 1 then Ok d
      else if negb (d =? 1) && negb (d =? s) then Err ValueError
      else Ok s
  end.

(** misc.py 995-1015: broadcasted_shape. *)
Definition broadcasted_shape (shapes : list shape) : res shape :=
  mapM (fun k => foldM (bc_step k) 1 shapes) (back_range (max_rank shapes)).

(** misc.py 1028-1037: is_shape_subset. *)
Definition is_shape_subset (sub full : shape) : bool :=
  if length full <? length sub then false
  else forallb
         (fun k => match back sub k, back full k with
                   | Some a, Some b => (a =? 1) || (a =? b)
                   | _, _ => false            (* IndexError: unreachable *)
                   end)
         (seq 0 (length sub)).

(** misc.py 793-796: the [mult] flag of broadcasting_multiplier for axis
    [j = -1-k]. *)
Definition all_unit_at (args : list shape) (k : nat) : bool :=
  forallb (fun a => match back a k with None => true | Some d => d =? 1 end)
          args.

(** misc.py 761-802: broadcasting_multiplier. *)
Definition broadcasting_multiplier (plates : shape) (args : list shape)
  : res nat :=
  _ <- iterM (fun a => _ <- broadcasted_shape [plates; a] ;; Ok tt) args ;;
  _ <- iterM (fun a => if is_shape_subset a plates then Ok tt
                       else Err ValueError) args ;;
  Ok (fold_left
        (fun r k => if all_unit_at args k
                    then match back plates k with
                         | Some d => r * d
                         | None => r           (* unreachable *)
                         end
                    else r)
        (back_range (length plates)) 1).

(** misc.py 1088-1100: axes_to_collapse.  The result lists the axes [j] as
    [k = -1-j]. *)
Definition axes_to_collapse (shape_x shape_to : shape) : res (list nat) :=
  foldM
    (fun s k =>
       match back shape_x k with
       | None => Ok s                          (* unreachable *)
       | Some x =>
           if x =? 1 then Ok s
           else match back shape_to k with
                | None => Ok (s ++ [k])
                | Some t => if t =? 1 then Ok (s ++ [k])
                            else if negb (t =? x) then Err PyException
                            else Ok s
                end
       end)
    [] (back_range (length shape_x)).

(** misc.py 723-736: make_equal_length.  ([max] of an empty argument list is a
    ValueError.) *)
Definition make_equal_length (shapes : list shape) : res (list shape) :=
  match shapes with
  | [] => Err ValueError
  | _ => let m := max_rank shapes in
         Ok (map (fun s => repeat 1 (m - length s) ++ s) shapes)
  end.

(** Python's [zip] of two tuples followed by an element-wise product. *)
Definition zip_mul (x y : shape) : shape :=
  map (fun p => fst p * snd p) (combine x y).

(** misc.py 706-721: multiply_shapes. *)
Definition multiply_shapes (shapes : list shape) : res shape :=
  ss <- make_equal_length shapes ;;
  match ss with
  | [] => Err TypeError                        (* reduce of empty sequence *)
  | s :: r => Ok (fold_left zip_mul r s)
  end.

(** node.py 335-357: Node._total_plates. *)
Definition total_plates (plates : option shape) (parent_plates : list shape)
  : res shape :=
  match plates with
  | None => match broadcasted_shape parent_plates with
            | Ok s => Ok s
            | Err ValueError => Err ValueError   (* except: raise again *)
            | Err e => Err e
            end
  | Some pl =>
      _ <- iterM (fun p => if is_shape_subset p pl then Ok tt
                           else Err ValueError) parent_plates ;;
      Ok pl
  end.

(** misc.py 969-992: safe_indices.  [np.fmin(inds, maxinds)] with
    [maxinds = shape - 1]; indices are non-negative here, integers because a
    zero-length axis gives -1. *)
Definition safe_indices (inds : list nat) (shp : shape) : list Z :=
  let m := Nat.min (length inds) (length shp) in
  if m =? 0 then []
  else map (fun p => Z.min (Z.of_nat (fst p)) (Z.of_nat (snd p) - 1))
           (combine (skipn (length inds - m) inds)
                    (skipn (length shp - m) shp)).
