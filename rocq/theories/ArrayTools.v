(** Model of helpers of bayespy/utils/misc.py that rearrange arrays: [flatten_axes] and
    [reshape_axes] (used for Gaussian variables with several axes), [nested_iterator] (the loops
    over plates of linalg.py), [zipper_merge] and [block_banded]. *)
From Coq Require Import List Arith Bool Reals.
From Verif Require Import Base Shapes SpecShapes NumPy.
Import ListNotations.
Open Scope R_scope.

(** misc.py 41-46: the axes of the array after the plates, cut in groups of [ndims] axes.  The code
    cuts at the cumulative sums of [ndims]. *)
Fixpoint groups (ndims : list nat) (s : shape) : list shape :=
  match ndims with [] => [] | n :: r => firstn n s :: groups r (skipn n s) end.

(** misc.py 33-47.  [np.prod] of an empty shape is the float 1.0 and [np.reshape] refuses float
    lengths (TypeError). *)
Definition flatten_axes {A} (X : arr A) (ndims : list nat) : res (arr A) :=
  if (ndim X <? list_sum ndims)%nat then Err ValueError else
  match ndims with
  | [] => Ok X
  | _ => let i := (ndim X - list_sum ndims)%nat in
         let gs := groups ndims (skipn i (ash X)) in
         if existsb (fun g => (length g =? 0)%nat) gs then Err TypeError
         else np_reshape X (firstn i (ash X) ++ map size gs)
  end.

(** misc.py 50-59.  Here a float 1.0 is only compared with the length of an axis. *)
Definition reshape_axes {A} (X : arr A) (shapes : list shape) : res (arr A) :=
  if (ndim X <? length shapes)%nat then Err ValueError else
  let i := (ndim X - length shapes)%nat in
  if list_eq_dec Nat.eq_dec (skipn i (ash X)) (map size shapes)
  then np_reshape X (firstn i (ash X) ++ concat shapes)
  else Err ValueError.

(** misc.py 1056-1058: [itertools.product] of the ranges, the last index running fastest.  The
    result is the list of what the iterator yields.  Negative lengths are not modelled. *)
Fixpoint nested_iterator (max_inds : list nat) : list (list nat) :=
  match max_inds with
  | [] => [[]]
  | n :: r => flat_map (fun i => map (cons i) (nested_iterator r)) (seq 0 n)
  end.

(** Python's [zip] of several lists: the first elements, the second elements, ... until some list
    is exhausted; nothing for no list. *)
Fixpoint heads {A} (ls : list (list A)) : option (list A * list (list A)) :=
  match ls with
  | [] => Some ([], [])
  | l :: r => match l, heads r with
              | x :: l', Some (hs, ts) => Some (x :: hs, l' :: ts)
              | _, _ => None
              end
  end.
Fixpoint zip_with {A} (l : list A) (ls : list (list A)) : list (list A) :=
  match l with
  | [] => []
  | x :: l' => match heads ls with Some (hs, ts) => (x :: hs) :: zip_with l' ts | None => [] end
  end.
Definition zip {A} (ls : list (list A)) : list (list A) :=
  match ls with [] => [] | l :: r => zip_with l r end.
(** misc.py 670-683 *)
Definition zipper_merge {A} (ls : list (list A)) : list A := fold_left (@app A) (zip ls) [].

(** np.atleast_2d *)
Definition atleast_2d (a : arr R) : arr R :=
  match ash a with
  | [] => Arr [1%nat; 1%nat] (fun e => bget a e)
  | [n] => Arr [1%nat; n] (fun e => bget a e)
  | _ => a
  end.

(** A matrix under construction, with its number of rows and columns. *)
Record matrix := Mat { m_rows : nat; m_cols : nat; m_get : nat -> nat -> R }.
Definition pos2 (r c : nat) : env := fun k => match k with O => c | 1%nat => r | _ => O end.
(** Python: the length of the slice r0:r1 of an axis of length n *)
Definition cut (n r : nat) : nat := Nat.min n r.
Definition stretches (n m : nat) : bool := (n =? m)%nat || (n =? 1)%nat.
(** A[r0:r1, c0:c1] = X for a two-dimensional X: the slices are cut at the ends of the axes, X
    must broadcast to the slice. *)
Definition set_slice (A : matrix) (r0 r1 c0 c1 : nat) (X : arr R) : res matrix :=
  let r1 := cut (m_rows A) r1 in
  let c1 := cut (m_cols A) c1 in
  if stretches (ax (ash X) 1) (r1 - r0) && stretches (ax (ash X) 0) (c1 - c0) then
    Ok (Mat (m_rows A) (m_cols A) (fun r c =>
      if ((r0 <=? r) && (r <? r1) && (c0 <=? c) && (c <? c1))%nat
      then bget X (pos2 (r - r0) (c - c0)) else m_get A r c))
  else Err ValueError.
Definition transposed (X : arr R) : arr R :=
  Arr [ax (ash X) 0; ax (ash X) 1] (fun e => bget X (pos2 (e 0%nat) (e 1%nat))).

(** misc.py 1314-1321: the size of the matrix *)
Fixpoint diagonal_size (D : list (arr R)) (M : nat) : res nat :=
  match D with
  | [] => Ok M
  | d :: r => if negb (ndim d =? 2)%nat then Err ValueError
              else if negb (ax (ash d) 1 =? ax (ash d) 0)%nat then Err ValueError
              else diagonal_size r (M + ax (ash d) 1)
  end.
(** misc.py 1323-1329 *)
Fixpoint check_bands (D B : list (arr R)) : res unit :=
  match B, D with
  | b :: B', d :: ((d' :: _) as D') =>
      if negb (ndim b =? 2)%nat then Err ValueError
      else if negb (ax (ash b) 1 =? ax (ash d) 0)%nat || negb (ax (ash b) 0 =? ax (ash d') 1)%nat
      then Err ValueError else check_bands D' B'
  | _, _ => Ok tt
  end.
(** misc.py 1331-1345, from row and column [k] on *)
Fixpoint fill (A : matrix) (k : nat) (D B : list (arr R)) : res matrix :=
  match B, D with
  | b :: B', d :: D' =>
      let d0 := ax (ash b) 1 in
      let d1 := ax (ash b) 0 in
      A <- set_slice A k (k + d0) k (k + d0) d ;;
      A <- set_slice A k (k + d0) (k + d0) (k + d0 + d1) b ;;
      A <- set_slice A (k + d0) (k + d0 + d1) k (k + d0) (transposed b) ;;
      fill A (k + d0) D' B'
  | [], _ => match rev D with
             | d :: _ => set_slice A k (m_rows A) k (m_cols A) d
             | [] => Err IndexError
             end
  | _, [] => Err IndexError
  end.
(** misc.py 1286-1347.  [len(B) != N-1] is written without the negative number. *)
Definition block_banded (D B : list (arr R)) : res matrix :=
  let D := map atleast_2d D in
  let B := map atleast_2d B in
  if negb (S (length B) =? length D)%nat then Err ValueError else
  M <- diagonal_size D 0 ;;
  _ <- check_bands D B ;;
  fill (Mat M M (fun _ _ => 0)) 0 D B.
