(** Model of the array functions of bayespy/utils/misc.py and of the plate
    handling of messages in nodes/node.py.  No proofs here.

    Python axis numbers: a negative axis [-1-k] is written [k] ("from the
    end"). *)
From Coq Require Import List Arith ZArith Lia Bool Reals.
From Verif Require Import Base Shapes SpecShapes NumPy.
Import ListNotations.
Open Scope nat_scope.

(** The [axis] argument of sum_multiply. *)
Inductive axspec := AxNone | AxScalar (i : Z) | AxList (l : list Z).

Definition memZ (i : Z) (l : list Z) : bool := existsb (Z.eqb i) l.

(** Python's [sorted] on a list of integers. *)
Fixpoint insertZ (x : Z) (l : list Z) : list Z :=
  match l with
  | [] => [x]
  | y :: r => if (x <=? y)%Z then x :: l else y :: insertZ x r
  end.
Definition sortedZ (l : list Z) : list Z := fold_right insertZ [] l.

(** misc.py 851-884: the list [axes] of kept axes (Python positions). *)
Definition kept_positions (max_dim : nat) (axis : axspec) (sumaxis : bool)
  : res (list Z) :=
  let rng := map Z.of_nat (seq 0 max_dim) in
  let complement axis :=
    filter (fun i => negb (memZ i axis) &&
                     negb (memZ (- Z.of_nat max_dim + i) axis)) rng in
  if sumaxis then
    match axis with
    | AxNone => Ok []
    | AxScalar i => Ok (complement [i])
    | AxList l => Ok (complement l)
    end
  else
    match axis with
    | AxNone => Ok rng
    | AxScalar _ => Err TypeError      (* [for i in axis] over an int *)
    | AxList l => Ok (sortedZ (map (fun i => if (i >=? 0)%Z then i
                                             else (i + Z.of_nat max_dim)%Z) l))
    end.

(** misc.py 919-931: the target shape when keepdims=True; [shp] is
    np.shape(y), read at position [d]. *)
Fixpoint restore_shape (ks : list nat) (axes : list nat) (shp : shape)
  : res shape :=
  match ks with
  | [] => Ok []
  | k :: r =>
      if memb k axes
      then match shp with
           | [] => Err IndexError
           | x :: shp' => s <- restore_shape r axes shp' ;; Ok (x :: s)
           end
      else s <- restore_shape r axes shp ;; Ok (1 :: s)
  end.

(** misc.py 851-933: sum_multiply.  The [except] branch (all operands scalars,
    old NumPy) computes the same value as einsum here and is not modelled. *)
Definition sum_multiply (args : list (arr R)) (axis : axspec)
           (sumaxis keepdims : bool) : res (arr R) :=
  match args with
  | [] => Err ValueError
  | _ =>
      let max_dim := max_rank (map ash args) in
      axes <- kept_positions max_dim axis sumaxis ;;
      if existsb (fun i => (i <? 0)%Z || (i >=? Z.of_nat max_dim)%Z) axes
      then Err ValueError
      else
        let axes := map Z.to_nat axes in
        let pairs := map (fun a => (a, seq (max_dim - ndim a) (ndim a))) args in
        y <- einsum pairs axes ;;
        if keepdims
        then s <- restore_shape (seq 0 max_dim) axes (ash y) ;; np_reshape y s
        else Ok y
  end.

(** misc.py 935-945: sum_product. *)
Definition sum_product (args : list (arr R)) (axes_to_keep : option axspec)
           (axes_to_sum : axspec) (keepdims : bool) : res (arr R) :=
  match axes_to_keep with
  | Some ax => sum_multiply args ax false keepdims
  | None => sum_multiply args axes_to_sum true keepdims
  end.

(** misc.py 812-816: get_plates. *)
Definition get_plates (nd : nat) (s : shape) : shape := firstn (length s - nd) s.

(** misc.py 1083-1085: squeeze_to_dim ([range(n)] is empty for negative n). *)
Definition squeeze_to_dim {A} (x : arr A) (dim : nat) : res (arr A) :=
  np_squeeze x (seq dim (ndim x - dim)).

(** [ax = tuple([a-ndim for a in ax])] *)
Definition shift_axes (nd : nat) (l : list nat) : list nat :=
  map (fun k => k + nd) l.

(** A negative axis number [-1-k]. *)
Definition negax (k : nat) : Z := (- 1 - Z.of_nat k)%Z.

(** misc.py 824-832: the loop that sums every array over the axes the other
    arrays and the target do not have.  [before] are the plates of the arrays
    already visited ([plates_arrays] itself is not updated in the loop). *)
Fixpoint presum (nd : nat) (to_plates : shape) (before : list shape)
         (arrays : list (arr R)) : res (list (arr R)) :=
  match arrays with
  | [] => Ok []
  | a :: r =>
      let pa := get_plates nd (ash a) in
      let others := before ++ map (fun b => get_plates nd (ash b)) r in
      without <- broadcasted_shape (to_plates :: others) ;;
      axs <- axes_to_collapse pa without ;;
      let a' := match axs with
                | [] => a
                | _ => np_sum_keep a (shift_axes nd axs)
                end in
      rest <- presum nd to_plates (before ++ [pa]) r ;;
      Ok (a' :: rest)
  end.

(** [r * y] with an integer [r]. *)
Definition np_scale (r : nat) (y : arr R) : arr R := np_map (fun v => INR r * v)%R y.

(** misc.py 805-844: sum_multiply_to_plates. *)
Definition sum_multiply_to_plates (arrays : list (arr R)) (to_plates : shape)
           (from_plates : option shape) (nd : nat) : res (arr R) :=
  let plates_arrays := map (fun a => get_plates nd (ash a)) arrays in
  product_plates <- broadcasted_shape plates_arrays ;;
  r <- match from_plates with
       | None => Ok 1
       | Some fp => broadcasting_multiplier fp [product_plates; to_plates]
       end ;;
  arrays' <- presum nd to_plates [] arrays ;;
  product_plates' <- broadcasted_shape (map (fun a => get_plates nd (ash a)) arrays') ;;
  axs <- axes_to_collapse product_plates' to_plates ;;
  y <- match axs with
       | [] => np_reduce_multiply arrays'
       | _ => sum_multiply arrays' (AxList (map negax (shift_axes nd axs)))
                           true true
       end ;;
  y <- squeeze_to_dim y (length to_plates + nd) ;;
  Ok (np_scale r y).

(** misc.py 1068-1080: squeeze (remove leading unit axes). *)
Fixpoint drop_units (s : shape) : shape :=
  match s with
  | [] => []
  | d :: r => if d =? 1 then drop_units r else s
  end.
Definition squeeze {A} (x : arr A) : res (arr A) := np_reshape x (drop_units (ash x)).

(** misc.py 1040-1053: add_axes for leading / trailing axes. *)
Definition add_leading_axes {A} (x : arr A) (n : nat) : arr A :=
  Nat.iter n (fun y => expand_at y (ndim y)) x.
Definition add_trailing_axes {A} (x : arr A) (n : nat) : arr A :=
  Nat.iter n (fun y => expand_at y 0) x.

(** misc.py 298-302: atleast_nd. *)
Definition atleast_nd {A} (x : arr A) (d : nat) : res (arr A) :=
  if ndim x <? d then np_reshape x (repeat 1 (d - ndim x) ++ ash x) else Ok x.

(** misc.py 1102-1127: sum_to_shape. *)
Definition sum_to_shape (x : arr R) (s : shape) : res (arr R) :=
  (* axes = range(-ndim(X), -len(s)), all removed *)
  let y := np_sum x (seq (length s) (ndim x - length s)) in
  axs <- foldM
           (fun axs k =>
              (* s[i]: s may be longer than Y, never shorter *)
              match back s k with
              | None => Err IndexError
              | Some sk =>
                  if sk =? 1
                  then Ok (if 1 <? ax (ash y) k then axs ++ [k] else axs)
                  else if negb (ax (ash y) k =? sk) then Err ValueError
                       else Ok axs
              end)
           [] (back_range (ndim y)) ;;
  Ok (np_sum_keep y axs).

(** np.repeat(A, n, axis) for an axis of length one (the only use). *)
Definition np_repeat_unit {A} (a : arr A) (n k : nat) : arr A :=
  Arr (mkshape (ndim a) (fun j => if j =? k then n else ax (ash a) j))
      (fun e => bget a (upd e k 0)).

(** misc.py 1129-1144: repeat_to_shape.  The loop runs over the axes from the
    last one. *)
Definition repeat_to_shape {A} (a : arr A) (s : shape) : res (arr A) :=
  let t := ash a in
  if length s <? length t then Err PyException
  else
    let t := repeat 1 (length s - length t) ++ t in
    a <- np_reshape a t ;;
    foldM (fun a k =>
             if ax s k =? ax t k then Ok a
             else if negb (ax t k =? 1) then Err PyException
                  else Ok (np_repeat_unit a (ax s k) k))
          a (seq 0 (length s)).

(** ** moveaxis *)

(** Start/stop of a Python slice with step 1 or -1 on a sequence of length n
    (CPython's PySlice_AdjustIndices). *)
Definition adj_pos (n i : Z) : Z :=
  if (i <? 0)%Z then Z.max 0 (i + n) else Z.min i n.
Definition adj_neg (n i : Z) : Z :=
  if (i <? 0)%Z then Z.max (-1) (i + n) else Z.min i (n - 1).

(** misc.py 958-961: out-of-bounds test of moveaxis. *)
Definition bad_axis (n : Z) (i : Z) : bool :=
  ((i <? 0)%Z && (Z.abs i >? n)%Z) || ((i >=? 0)%Z && (i >=? n)%Z).

(** misc.py 967-970: the permutation given to np.transpose, as a function of
    the (non-negative) position p:
    [axes = arange(n); axes[f:t] += 1; axes[f:t:-1] -= 1; axes[t] = f]. *)
Definition moveaxis_axes (n f t p : Z) : Z :=
  let a := p in
  let a := if (adj_pos n f <=? p)%Z && (p <? adj_pos n t)%Z then (a + 1)%Z else a in
  let a := if (p <=? adj_neg n f)%Z && (adj_neg n t <? p)%Z then (a - 1)%Z else a in
  if (p =? (if (t <? 0)%Z then t + n else t))%Z then f else a.

(** Negative axis numbers are allowed by np.transpose. *)
Definition norm_axis (n i : Z) : Z := if (i <? 0)%Z then (i + n)%Z else i.

(** np.transpose(a, axes): axis p of the result is axis [perm p] of [a]
    (Python positions).  ValueError unless [perm] is a permutation. *)
Definition np_transpose {A} (a : arr A) (perm : nat -> nat) : res (arr A) :=
  let n := ndim a in
  let ps := map perm (seq 0 n) in
  if forallb (fun p => p <? n) ps && (length (nodup Nat.eq_dec ps) =? n)
  then Ok (Arr (map (fun p => ax (ash a) (n - 1 - perm p)) (seq 0 n))
               (fun e => bget a
                  (fun k => (* axis position n-1-k of a is perm p for one p *)
                     match index_of (n - 1 - k) ps with
                     | Some p => e (n - 1 - p)
                     | None => 0
                     end)))
  else Err ValueError.

(** misc.py 947-971: moveaxis. *)
Definition moveaxis {A} (a : arr A) (f t : Z) : res (arr A) :=
  let n := Z.of_nat (ndim a) in
  if bad_axis n f || bad_axis n t then Err ValueError
  else np_transpose a (fun p => Z.to_nat (norm_axis n (moveaxis_axes n f t (Z.of_nat p)))).

(** ** Message plates of nodes/node.py *)

(** node.py 594-655: the part of Node._message_to_parent that compacts one
    message array.  [m]: the message computed by the node, [mask]: the mask with
    respect to the parent, [plates_self]: plates with respect to the parent,
    [mult_self], [mult_parent]: plate multipliers, [parent_plates],
    [parent_dims]. *)
Definition message_to_parent (m : arr R) (mask : arr bool)
           (plates_self mult_self mult_parent parent_plates parent_dims : shape)
  : res (arr R) :=
  mask <- squeeze mask ;;
  r <- match broadcasting_multiplier mult_self [mult_parent] with
       | Ok r => Ok r
       | Err _ => Err ValueError          (* except: raise ValueError *)
       end ;;
  let nd := length parent_dims in
  from_shape <- (if 0 <? nd
                 then dims <- broadcasted_shape
                                [skipn (ndim m - nd) (ash m); parent_dims] ;;
                      Ok (plates_self ++ dims)
                 else Ok plates_self) ;;
  let to_shape := parent_plates ++ parent_dims in
  let mask_i := add_trailing_axes mask nd in
  x <- np_where0 mask_i m ;;
  y <- sum_multiply_to_plates [x] to_shape (Some from_shape) 0 ;;
  Ok (np_scale r y).

(** node.py 492-526: Node._mask_to_parent; [weights] is the value returned by
    _compute_weights_to_parent, already compared with zero. *)
Definition mask_to_parent (weights : arr bool) (plates_to_parent parent_plates : shape)
  : res (arr bool) :=
  if negb (is_shape_subset (ash weights) plates_to_parent) then Err ValueError
  else
    axs <- axes_to_collapse (ash weights) parent_plates ;;
    squeeze_to_dim (np_any_keep weights axs) (length parent_plates).

(** node.py 17-47: message_sum_multiply.  [r] multiplies the lengths of the
    summed axes that are plates of the parent (the test [j >= 0] is never true
    because axes_to_collapse returns negative axes). *)
Definition message_sum_multiply (plates_parent dims_parent : shape)
           (arrays : list (arr R)) : res (arr R) :=
  shape_full <- broadcasted_shape (map ash arrays) ;;
  let shape_parent := plates_parent ++ dims_parent in
  sum_axes <- axes_to_collapse shape_full shape_parent ;;
  let r := fold_left (fun r k => if length dims_parent <=? k
                                 then r * ax shape_full k else r) sum_axes 1 in
  m <- sum_multiply arrays (AxList (map negax sum_axes)) true true ;;
  squeeze_to_dim (np_map (fun v => v / INR r)%R m) (length shape_parent).

(** node.py 794-857: Node._compute_message. *)
Definition compute_message (arrays : list (arr R)) (plates_from plates_to : shape)
           (nd : nat) : res (arr R) :=
  if negb (is_shape_subset plates_to plates_from) then Err ValueError
  else
    arrays_shape <- broadcasted_shape (map ash arrays) ;;
    let arrays_plates := if nd =? 0 then arrays_shape
                         else firstn (length arrays_shape - nd) arrays_shape in
    let dims := if nd =? 0 then []
                else skipn (length arrays_shape - nd) arrays_shape in
    r <- broadcasting_multiplier plates_from [arrays_plates; plates_to] ;;
    shapes <- make_equal_length (map ash arrays) ;;
    arrays' <- mapM (fun p => np_reshape (fst p) (snd p)) (combine arrays shapes) ;;
    let nplates := length arrays_plates in
    let in_plate_keys := rev (seq 0 nplates) in
    let out_plate_keys :=
      filter (fun key => match back plates_to key with
                         | None => false
                         | Some d => negb (d =? 1)
                         end) in_plate_keys in
    let dim_keys := seq nplates nd in
    let in_keys := in_plate_keys ++ dim_keys in
    y <- einsum (map (fun a => (a, in_keys)) arrays') (out_plate_keys ++ dim_keys) ;;
    let y := np_scale r y in
    let nplates_result := Nat.min (length plates_to) (length arrays_plates) in
    let plates_result :=
      mkshape nplates_result (fun k => Nat.min (ax plates_to k) (ax arrays_plates k)) in
    np_reshape y (plates_result ++ dims).
