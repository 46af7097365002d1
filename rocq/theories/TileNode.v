(** Model of the tile node (nodes/deterministic.py 156-318).  No proofs here. *)
From Coq Require Import List Arith ZArith Bool Reals.
From Verif Require Import Base Shapes SpecShapes NumPy MiscArray SpecArray TakeConcat.
Import ListNotations.
Open Scope nat_scope.

(** np.tile(a, reps) *)
Definition np_tile (a : arr R) (reps : shape) : arr R :=
  Arr (mkshape (Nat.max (ndim a) (length reps)) (fun k => ax (ash a) k * ax reps k))
      (fun e => bget a (fun k => e k mod ax (ash a) k)).

(** deterministic.py 190-194: _compute_plates_to_parent (tiles are positive, so // does
    not raise) *)
Definition tile_plates_to (tiles plates : shape) : res shape :=
  if length plates <? length tiles then Err IndexError
  else Ok (mkshape (length plates) (fun k => ax plates k / ax tiles k)).

(** deterministic.py 196-197: _compute_plates_from_parent *)
Definition tile_plates_from (tiles plates : shape) : res shape := multiply_shapes [plates; tiles].

(** The loops of 217-221 and 262-266: unit axes of the message are not tiled.  The results
    are the multiplier r, the tiles and the shape.  (The order of the factors of r does
    not matter.) *)
Definition tile_units (ti sh sm : shape) : nat * shape * shape :=
  let z := combine (combine ti sh) sm in
  (fold_right Nat.mul 1 (map (fun p : nat * nat * nat => let '(t, s, m) := p in if m =? 1 then t else 1) z),
   map (fun p : nat * nat * nat => let '(t, s, m) := p in if m =? 1 then 1 else t) z,
   map (fun p : nat * nat * nat => let '(t, s, m) := p in if m =? 1 then 1 else s) z).

(** 224-233 and 269-280: reshape to (tile, length, tile, length, ...) and sum over the
    tiles; Python's axes 0, 2, 4, ... *)
Definition interleave (ti sh : shape) : shape :=
  flat_map (fun p : nat * nat => [fst p; snd p]) (combine ti sh).
Definition tile_axes (n : nat) : list nat := map (fun j => n - 1 - 2 * j) (seq 0 (n / 2)).
Definition tile_sum (ti sh : shape) (m : arr R) : res (arr R) :=
  match combine ti sh with
  | [] => Err TypeError                        (* reduce of empty sequence *)
  | _ => let s := interleave ti sh in
         y <- np_reshape m s ;; Ok (np_sum y (tile_axes (length s)))
  end.

(** deterministic.py 200-239: _compute_weights_to_parent; a mask is used as 0 and 1;
    [plates] are the plates of the tile node, [np] is the number of the parent's plates. *)
Definition tile_weights (tiles plates : shape) (np : nat) (w : arr bool) : res (arr R) :=
  let m := np_map (fun b : bool => if b then 1%R else 0%R) w in
  p <- tile_plates_to tiles plates ;;
  l <- make_equal_length [p; tiles; ash m] ;;
  match l with
  | [sh; ti; sm] =>
      let '(_, ti, sh) := tile_units ti sh sm in
      y <- tile_sum ti sh m ;;
      squeeze_to_dim y np
  | _ => Err ValueError
  end.

(** deterministic.py 242-286: _compute_message_to_parent, one message with variable axes
    [d]. *)
Definition tile_message (tiles plates d : shape) (np : nat) (m : arr R) : res (arr R) :=
  p <- tile_plates_to tiles plates ;;
  l <- make_equal_length [tiles ++ repeat 1 (length d); p ++ d; ash m] ;;
  match l with
  | [ti; sh; sm] =>
      let '(r, ti, sh) := tile_units ti sh sm in
      y <- tile_sum ti sh m ;;
      squeeze_to_dim (np_scale r y) (np + length d)
  | _ => Err ValueError
  end.

(** deterministic.py 288-315: _compute_moments, one moment with [nd] variable axes. *)
Definition tile_moments (tiles : shape) (nd : nat) (u : arr R) : res (arr R) :=
  if 0 <? ndim u then
    let ti := tiles ++ repeat 1 nd in
    let ti := lastn (Nat.min (length ti) (ndim u)) ti in
    l <- make_equal_length [ti; ash u] ;;
    match l with
    | [ti; su] =>
        Ok (np_tile u (map (fun p : nat * nat => if 1 <? snd p then fst p else 1) (combine ti su)))
    | _ => Err ValueError
    end
  else Ok u.
