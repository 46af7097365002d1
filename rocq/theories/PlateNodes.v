(** Model of the deterministic nodes that rearrange plates: Slice and AddPlateAxis
    (nodes/node.py), Take (nodes/take.py), Concatenate (nodes/concatenate.py) and tile
    (nodes/deterministic.py), with the NumPy indexing they use.  No proofs here.

    Index expressions and indices are lists in Python order (first axis first). *)
From Coq Require Import List Arith ZArith Bool Reals.
From Verif Require Import Base Shapes SpecShapes NumPy MiscArray SpecArray.
Import ListNotations.
Open Scope nat_scope.

(** ** Python and NumPy primitives *)

(** One part of an index expression; [IOther] is any other object. *)
Inductive idx :=
| IInt (i : Z) | ISlice (start stop step : option Z) | INew | IEll | IOther.
Definition full_slice : idx := ISlice None None None.

(** slice.indices(length) *)
Definition slice_indices (start stop step : option Z) (n : nat) : res (Z * Z * Z) :=
  let len := Z.of_nat n in
  let st := match step with None => 1%Z | Some s => s end in
  if (st =? 0)%Z then Err ValueError
  else
    let neg := (st <? 0)%Z in
    let lower := if neg then (-1)%Z else 0%Z in
    let upper := if neg then (len - 1)%Z else len in
    let clamp (x : Z) := if (x <? 0)%Z then Z.max (x + len) lower else Z.min x upper in
    let a := match start with None => if neg then upper else lower | Some x => clamp x end in
    let b := match stop with None => if neg then lower else upper | Some x => clamp x end in
    Ok (a, b, st).

(** misc.py 286-290: ceildiv; Python's // rounds down, like Z.div. *)
Definition ceil_div (a b : Z) : Z := (- ((- a) / b))%Z.
(** node.py 863-866: slicelen of a normalised slice. *)
Definition slicelen (a b st : Z) : nat := Z.to_nat (Z.max 0 (ceil_div (b - a) st)).

(** The shape of a[ix] for an array of shape [s]. *)
Fixpoint getitem_shape (ix : list idx) (s : shape) : res shape :=
  match ix, s with
  | [], _ => Ok s
  | INew :: r, _ => q <- getitem_shape r s ;; Ok (1 :: q)
  | IInt i :: r, n :: s' =>
      if ((- Z.of_nat n <=? i) && (i <? Z.of_nat n))%Z then getitem_shape r s' else Err IndexError
  | ISlice x y z :: r, n :: s' =>
      '(a, b, st) <- slice_indices x y z n ;;
      q <- getitem_shape r s' ;; Ok (slicelen a b st :: q)
  | IInt _ :: _, [] | ISlice _ _ _ :: _, [] => Err IndexError
  | _, _ => Err TypeError
  end.
(** The element of [a] that element [e] of a[ix] is. *)
Fixpoint getitem_src (ix : list idx) (s : shape) (e : list nat) : list nat :=
  match ix, s, e with
  | INew :: r, _, _ :: e' => getitem_src r s e'
  | IInt i :: r, n :: s', _ =>
      Z.to_nat (if (i <? 0)%Z then i + Z.of_nat n else i)%Z :: getitem_src r s' e
  | ISlice x y z :: r, n :: s', q :: e' =>
      match slice_indices x y z n with
      | Ok (a, b, st) => Z.to_nat (a + st * Z.of_nat q)%Z :: getitem_src r s' e'
      | Err _ => []
      end
  | _, _, _ => e
  end.
(** The indices of an element in Python order. *)
Definition indices_of (n : nat) (e : env) : list nat := map e (back_range n).
(** a[ix] *)
Definition np_getitem (a : arr R) (ix : list idx) : res (arr R) :=
  s <- getitem_shape ix (ash a) ;;
  Ok (Arr s (fun e => bget a (at_index (getitem_src ix (ash a) (indices_of (length s) e))))).

(** The element of the left-hand side's selection that element [t] of [a] is. *)
Fixpoint getitem_inv (ix : list idx) (s : shape) (t : list nat) : option (list nat) :=
  match ix, s, t with
  | [], _, _ => Some t
  | INew :: r, _, _ => option_map (cons 0) (getitem_inv r s t)
  | IInt i :: r, n :: s', x :: t' =>
      if x =? Z.to_nat (if (i <? 0)%Z then i + Z.of_nat n else i)%Z then getitem_inv r s' t' else None
  | ISlice u v w :: r, n :: s', x :: t' =>
      match slice_indices u v w n with
      | Ok (a, b, st) =>
          let q := ((Z.of_nat x - a) / st)%Z in
          if ((a + st * q =? Z.of_nat x) && (0 <=? q) && (q <? Z.of_nat (slicelen a b st)))%Z
          then option_map (cons (Z.to_nat q)) (getitem_inv r s' t') else None
      | Err _ => None
      end
  | _, _, _ => None
  end.
(** a[ix] = v *)
Definition np_setitem (a : arr R) (ix : list idx) (v : arr R) : res (arr R) :=
  s <- getitem_shape ix (ash a) ;;
  if is_shape_subset (drop_units (ash v)) s then
    Ok (Arr (ash a) (fun t => match getitem_inv ix (ash a) (indices_of (ndim a) t) with
                              | Some q => bget v (at_index q) | None => bget a t end))
  else Err ValueError.

(** ** class Slice *)

(** node.py 890-918: the number of indexed axes and the place of the Ellipsis. *)
Fixpoint scan_slices (k : nat) (l : list idx) (ell : option nat) (num : nat)
  : res (list idx * nat * option nat) :=
  match l with
  | [] => Ok ([], num, ell)
  | IEll :: r =>
      match ell with
      | None => '(l', num', e') <- scan_slices (S k) r (Some k) num ;; Ok (IEll :: l', num', e')
      | Some _ => '(l', num', e') <- scan_slices (S k) r ell (S num) ;; Ok (full_slice :: l', num', e')
      end
  | INew :: r => '(l', num', e') <- scan_slices (S k) r ell num ;; Ok (INew :: l', num', e')
  | IOther :: _ => Err TypeError
  | s :: r => '(l', num', e') <- scan_slices (S k) r ell (S num) ;; Ok (s :: l', num', e')
  end.
(** node.py 920-938: one index per plate axis. *)
Definition expand_slices (np : nat) (l : list idx) : res (list idx) :=
  '(l, num, ell) <- scan_slices 0 l None 0 ;;
  if np <? num then Err IndexError
  else
    let pad := repeat full_slice (np - num) in
    Ok (match ell with
        | Some k => let l' := remove_at k l in firstn k l' ++ pad ++ skipn k l'
        | None => l ++ pad
        end).
(** node.py 940-980: integers non-negative, slices normalised. *)
Fixpoint normalise_slices (l : list idx) (plates : list nat) : res (list idx) :=
  match l, plates with
  | [], _ => Ok []
  | IInt i :: r, n :: p =>
      let i := (if (i <? 0)%Z then i + Z.of_nat n else i)%Z in
      if ((i <? 0) || (Z.of_nat n <=? i))%Z then Err IndexError
      else q <- normalise_slices r p ;; Ok (IInt i :: q)
  | ISlice x y z :: r, n :: p =>
      '(a, b, st) <- slice_indices x y z n ;;
      if slicelen a b st <=? 0 then Err IndexError
      else q <- normalise_slices r p ;; Ok (ISlice (Some a) (Some b) (Some st) :: q)
  | s :: r, _ =>
      match s with
      | INew => q <- normalise_slices r plates ;; Ok (INew :: q)
      | _ => Err IndexError
      end
  end.
(** node.py 887-987: Slice.__init__ for a parent with the given plates. *)
Definition slice_init (plates : list nat) (l : list idx) : res (list idx) :=
  l <- expand_slices (length plates) l ;; normalise_slices l plates.

(** node.py 992-1021: _plates_from_parent. *)
Fixpoint slice_plates_at (k : nat) (sl : list idx) (plates : list nat) : res (list nat) :=
  match sl with
  | [] => Ok plates
  | ISlice (Some a) (Some b) (Some st) :: r =>
      if slicelen a b st <=? 0 then Err IndexError
      else slice_plates_at (S k) r (firstn k plates ++ slicelen a b st :: skipn (S k) plates)
  | INew :: r => slice_plates_at (S k) r (firstn k plates ++ 1 :: skipn k plates)
  | IInt _ :: r => slice_plates_at k r (remove_at k plates)
  | _ :: _ => Err RuntimeError
  end.
Definition slice_plates (sl : list idx) (plates : list nat) : res (list nat) :=
  slice_plates_at 0 sl plates.

(** node.py 1120-1172: _compute_moments, one moment array; [j] is minus the code's j. *)
Fixpoint moment_slices (sl : list idx) (j : nat) (shp : shape) : list idx :=
  match sl with
  | [] => []
  | INew :: r => (if j <? length shp then [INew] else []) ++ moment_slices r j shp
  | s :: r =>
      (if j <=? length shp then
         if negb (ax shp (j - 1) =? 1) then [s]
         else match s with
              | ISlice _ _ _ => [ISlice (Some 0%Z) (Some 1%Z) (Some 1%Z)]
              | _ => [IInt 0]
              end
       else []) ++ moment_slices r (j - 1) shp
  end.
Definition slice_moments (sl : list idx) (np : nat) (d : shape) (u : arr R) : res (arr R) :=
  np_getitem u (moment_slices sl np (firstn (ndim u - length d) (ash u))).

(** node.py 1023-1086: __reverse_indexing.  The loop runs through the reversed slices
    and puts new entries in front; [i] and [j] are -1 minus the code's i and j. *)
Record rev_state := Rev { rv_i : nat; rv_j : nat; rv_child : list idx; rv_parent : list idx;
                          rv_plates : list nat }.
Fixpoint reverse_loop (sl : list idx) (m_plates plates : shape) : res rev_state :=
  match sl with
  | [] => Ok (Rev 0 0 [] [] [])
  | s :: r =>
      '(Rev i j cs ps mp) <- reverse_loop r m_plates plates ;;
      match s with
      | IInt z => Ok (Rev i (S j) cs (IInt z :: ps) (ax plates j :: mp))
      | INew => Ok (Rev (S i) j (if i <? length m_plates then IInt 0 :: cs else cs) ps mp)
      | ISlice (Some a) (Some b) (Some st) =>
          Ok (Rev (S i) (S j) (if i <? length m_plates then full_slice :: cs else cs) (s :: ps)
            ((if ((length m_plates <=? i) || (ax m_plates i =? 1)) && (slicelen a b st =? ax plates j)
              then 1 else ax plates j) :: mp))
      | _ => Err RuntimeError
      end
  end.
Definition reverse_indexing (sl : list idx) (m : arr R) (plates dims : shape) : res (arr R) :=
  st <- reverse_loop sl (firstn (ndim m - length dims) (ash m)) plates ;;
  let zeros := Arr (rv_plates st ++ dims) (fun _ => 0%R) in
  if (ndim zeros =? 0) && (ndim m =? 0) then Ok m
  else if ndim zeros =? 0 then np_getitem m (rv_child st)
  else if ndim m =? 0 then np_setitem zeros (rv_parent st) m
  else v <- np_getitem m (rv_child st) ;; np_setitem zeros (rv_parent st) v.
