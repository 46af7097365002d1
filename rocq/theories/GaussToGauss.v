(** Model of GaussianToGaussian (gaussian.py 86-159), the moments converter that
    turns a Gaussian array into plates of smaller Gaussian arrays, and of the methods of
    NodeConverter (converters.py 9-53) that pass on to it.  No proofs here.
    An array of shape S (ndim_from axes) becomes arrays of the last ndim_to axes of S. *)
From Coq Require Import List Arith ZArith Lia Bool Reals.
From Verif Require Import Base Shapes NumPy MiscArray Diag ExpFam.
Import ListNotations.
Open Scope nat_scope.

(** gaussian.py 79-83: GaussianMoments.get_instance_converter; None: no conversion.
    86-108: the constructor.  A negative ndim_to makes the constructor return a value,
    which Python reports as TypeError. *)
Inductive conversion := NoConversion | ToPlates (t : nat).
Definition g2g_converter (S : shape) (ndim : option Z) : res conversion :=
  match ndim with
  | None => Ok NoConversion
  | Some k =>
      if (k =? Z.of_nat (length S))%Z then Ok NoConversion
      else if (k <? 0)%Z then Err TypeError
      else if (Z.of_nat (length S) <? k)%Z then Err ValueError
      else Ok (ToPlates (Z.to_nat k))
  end.
(** 103-106: the shape of the new moments; shape_from[-ndim_to:]. *)
Definition g2g_dims (S : shape) (t : nat) : shape := if t =? 0 then [] else last_dims S t.

(** 111-118: compute_moments. *)
Definition g2g_moments (S : shape) (t : nat) (u : arr R * arr R) : res (arr R * arr R) :=
  if t =? length S then Ok u
  else u1 <- get_diag (snd u) (Z.of_nat (length S)) (Z.of_nat t) ;; Ok (fst u, u1).

(** 121-128: compute_message_to_parent. *)
Definition g2g_message (S : shape) (t : nat) (m : arr R * arr R) : res (arr R * arr R) :=
  m0 <- np_multiply (fst m) (np_ones S) ;;
  d <- make_diag (snd m) (Z.of_nat (length S)) (Z.of_nat t) ;;
  I <- identity S ;;
  m1 <- np_multiply d I ;;
  Ok (m0, m1).

(** 131-139: compute_weights_to_parent; True counts as one in the product. *)
Definition g2g_weights (S : shape) (t : nat) (w : arr bool) : res (arr R) :=
  let diff := length S - t in
  let w := np_map (fun b : bool => if b then 1%R else 0%R) w in
  if diff =? 0 then Ok w
  else x <- np_multiply w (np_ones (firstn diff S)) ;; Ok (np_sum x (seq 0 diff)).

(** 142-144: plates_multiplier_from_parent.  147-151: plates_from_parent.
    154-158: plates_to_parent, plates[:-diff]. *)
Definition g2g_multiplier_from (S : shape) (t : nat) (mult : shape) : shape :=
  mult ++ repeat 1 (length S - t).
Definition g2g_plates_from (S : shape) (t : nat) (plates : shape) : shape :=
  if length S - t =? 0 then plates else plates ++ firstn (length S - t) S.
Definition g2g_plates_to (S : shape) (t : nat) (plates : shape) : shape :=
  if length S - t =? 0 then plates else firstn (length plates - (length S - t)) plates.
