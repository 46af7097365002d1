(** Model of the Take (nodes/take.py) and Concatenate (nodes/concatenate.py) nodes, with
    the NumPy primitives and misc.put_simple they use.  No proofs here.

    A plate axis is [-(K+1)]; an array axis is then [K + len(dims)] from the end.  Dtypes
    are not modelled (index arrays are arrays of integers by type). *)
From Coq Require Import List Arith ZArith Bool Reals.
From Verif Require Import Base Shapes SpecShapes NumPy MiscArray SpecArray.
Import ListNotations.
Open Scope nat_scope.

(** ** Python and NumPy primitives *)

(** The last [K] items, and all but the last [K] (Python's l[-K:] and l[:-K], K > 0). *)
Definition lastn {A} (K : nat) (l : list A) : list A := skipn (length l - K) l.
Definition butlast {A} (K : nat) (l : list A) : list A := firstn (length l - K) l.

(** A Python index: negative ones count from the end. *)
Definition wrap (n : nat) (i : Z) : nat := Z.to_nat (if (i <? 0)%Z then i + Z.of_nat n else i)%Z.
Definition index_ok (n : nat) (i : Z) : bool := ((- Z.of_nat n <=? i) && (i <? Z.of_nat n))%Z.
Definition all_ok (n : nat) (ix : arr Z) : bool :=
  forallb (fun e => index_ok n (bget ix e)) (all_indices (ash ix)).

(** np.ones(s) *)
Definition np_ones (s : shape) : arr R := Arr s (fun _ => 1%R).
Definition np_zeros (s : shape) : arr R := Arr s (fun _ => 0%R).

(** np.take(a, ix, axis=-(K+1)): axis [K] is replaced by the axes of [ix]. *)
Definition take_src (K NI n : nat) (ix : arr Z) (e : env) : env :=
  fun k => if k <? K then e k
           else if k =? K then wrap n (bget ix (fun j => e (K + j))) else e (k + NI - 1).
Definition np_take (a : arr R) (ix : arr Z) (K : nat) : res (arr R) :=
  if K <? ndim a then
    let n := ax (ash a) K in
    let NI := ndim ix in
    if all_ok n ix
    then Ok (Arr (butlast (S K) (ash a) ++ ash ix ++ lastn K (ash a))
               (fun e => bget a (take_src K NI n ix e)))
    else Err IndexError
  else Err ValueError.

(** np.add.at(x, (slice(None),...) + (ix,) + (slice(None),)*K, y): every element of the
    broadcast [y] is added to the element of [x] it is for. *)
Definition put_src (K NI : nat) (t e : env) : env :=
  fun k => if k <? K then t k else if k <? K + NI then e (k - K) else t (S k - NI).
Definition np_add_at (x : arr R) (ix : arr Z) (K : nat) (y : arr R) : res (arr R) :=
  let n := ax (ash x) K in
  let NI := ndim ix in
  if all_ok n ix then
    if is_shape_subset (ash y) (butlast (S K) (ash x) ++ ash ix ++ lastn K (ash x))
    then Ok (Arr (ash x)
               (fun t => bget x t +
                  lsum (map (fun e => if wrap n (bget ix e) =? t K
                                      then bget y (put_src K NI t e) else 0) (all_indices (ash ix))))%R)
    else Err ValueError
  else Err IndexError.

(** ** misc.py 490-546: put with ufunc=np.add; axis = -(K+1) *)
Definition put (x : arr R) (ix : arr Z) (y : arr R) (K : nat) : res (arr R) :=
  if K <? ndim x then np_add_at x ix K y else Err ValueError.

(** ** misc.py 549-585: put_simple; axis = -(K+1), length given (as Take does) *)
Definition put_simple (y : arr R) (ix : arr Z) (K N : nat) : res (arr R) :=
  y <- atleast_nd y K ;;
  let s := ash y in
  let NI := ndim ix in
  let sx := if K + NI =? 0 then s ++ [N]
            else if K =? 0 then butlast NI s ++ [N]
            else butlast (K + NI) s ++ [N] ++ lastn K s in
  put (np_zeros sx) ix y K.

(** ** Take *)

(** take.py 45-65: __init__; the result is (K, original length). *)
Definition take_init (plates : shape) (plate_axis : Z) (ix : arr Z) : res (nat * nat) :=
  let n := Z.of_nat (length plates) in
  if ((- n <=? plate_axis) && (plate_axis <? n))%Z then
    if (0 <=? plate_axis)%Z then Err ValueError
    else let K := Z.to_nat (- plate_axis - 1) in
         let N := ax plates K in
         if all_ok N ix then Ok (K, N) else Err ValueError
  else Err IndexError.

(** take.py 68-77: _compute_moments, one moment with [nd] variable axes. *)
Definition take_moments (K N : nat) (ix : arr Z) (nd : nat) (u : arr R) : res (arr R) :=
  x <- np_multiply u (np_ones (N :: repeat 1 (K + nd))) ;;
  np_take x ix (K + nd).

(** take.py 80-91: _compute_message_to_parent, one message. *)
Definition take_message (K N : nat) (ix : arr Z) (nd : nat) (m : arr R) : res (arr R) :=
  put_simple m ix (K + nd) N.

(** take.py 94-101: _compute_weights_to_parent; a mask is used as 0 and 1. *)
Definition take_weights (K N : nat) (ix : arr Z) (w : arr bool) : res (arr R) :=
  put_simple (np_map (fun b : bool => if b then 1%R else 0%R) w) ix K N.

(** take.py 104-122: _compute_plates_to_parent *)
Definition take_plates_to (K N NI : nat) (plates : shape) : shape :=
  if K + NI =? 0 then plates ++ [N]
  else if K =? 0 then butlast NI plates ++ [N]
  else butlast (K + NI) plates ++ [N] ++ lastn K plates.

(** take.py 125-130: _compute_plates_from_parent *)
Definition take_plates_from (K : nat) (ix : arr Z) (parent_plates : shape) : shape :=
  let p := butlast (S K) parent_plates ++ ash ix in
  if K =? 0 then p else p ++ lastn K parent_plates.

(** ** Concatenate *)

(** a[..., lo:hi, ...] along axis [K], for lo <= hi (clamped to the length). *)
Definition set_axis (K n : nat) (s : shape) : shape :=
  mkshape (length s) (fun k => if k =? K then n else ax s k).
Definition cut {A} (a : arr A) (K lo hi : nat) : arr A :=
  let n := ax (ash a) K in
  Arr (set_axis K (Nat.min hi n - Nat.min lo n) (ash a))
      (fun e => bget a (upd e K (e K + Nat.min lo n))).

(** np.split(a, points, axis=-(K+1)) *)
Fixpoint cuts {A} (a : arr A) (K lo : nat) (points : list nat) : list (arr A) :=
  match points with
  | [] => [cut a K lo (ax (ash a) K)]
  | p :: r => cut a K lo p :: cuts a K p r
  end.
Definition np_split {A} (a : arr A) (points : list nat) (K : nat) : list (arr A) := cuts a K 0 points.
(** l[1] *)
Definition second {A} (l : list A) : res A :=
  match l with _ :: x :: _ => Ok x | _ => Err IndexError end.

(** np.concatenate(l, axis=-(K+1)) *)
Fixpoint cat_get {A} (l : list (arr A)) (K : nat) (e : env) (x : nat) (a0 : arr A) : A :=
  match l with
  | [] => bget a0 e
  | a :: r => if x <? ax (ash a) K then bget a (upd e K x)
              else cat_get r K e (x - ax (ash a) K) a0
  end.
Definition np_concatenate {A} (l : list (arr A)) (K : nat) : res (arr A) :=
  match l with
  | [] => Err ValueError
  | a :: _ =>
      if (K <? ndim a) &&
         forallb (fun b => if list_eq_dec Nat.eq_dec (set_axis K 0 (ash b)) (set_axis K 0 (ash a))
                           then true else false) l
      then Ok (Arr (set_axis K (list_sum (map (fun b => ax (ash b) K) l)) (ash a))
                   (fun e => cat_get l K e (e K) a))
      else Err ValueError
  end.

(** concatenate.py 70-74: the start of each parent's block; numpy.cumsum. *)
Fixpoint cumsum (acc : nat) (l : list nat) : list nat :=
  match l with [] => [] | x :: r => (acc + x) :: cumsum (acc + x) r end.
Definition cat_indices (lengths : list nat) : list nat := 0 :: cumsum 0 lengths.

(** concatenate.py 85-88: _compute_plates_to_parent; 91-96: _compute_plates_from_parent *)
Definition cat_plates_to (K : nat) (lengths : list nat) (index : nat) (plates : shape) : res shape :=
  if K <? length plates
  then match nth_error lengths index with
       | Some n => Ok (set_axis K n plates) | None => Err IndexError end
  else Err IndexError.
Definition cat_plates_from (K : nat) (lengths : list nat) (plates : shape) : res shape :=
  if K <? length plates then Ok (set_axis K (list_sum lengths) plates) else Err IndexError.

(** concatenate.py 108-116: _compute_weights_to_parent *)
Definition cat_weights {A} (K : nat) (lengths : list nat) (index : nat) (w : arr A) : res (arr A) :=
  let points := firstn 1 (skipn index (cat_indices lengths)) in
  if (S K <=? ndim w) && (1 <? ax (ash w) K) then second (np_split w points K) else Ok w.

(** concatenate.py 119-131: _compute_message_to_parent, one message. *)
Definition cat_message {A} (K nd : nat) (lengths : list nat) (index : nat) (m : arr A) : res (arr A) :=
  let points := firstn 2 (skipn index (cat_indices lengths)) in
  if (S (K + nd) <=? ndim m) && (1 <? ax (ash m) (K + nd))
  then second (np_split m points (K + nd)) else Ok m.

(** concatenate.py 134-166: _compute_moments, one moment. *)
Definition cat_moments (K nd : nat) (lengths : list nat) (us : list (arr R)) : res (arr R) :=
  let k := K + nd in
  bc <- broadcasted_shape
          (map (fun u => if S k <=? ndim u then set_axis k 1 (ash u) else ash u) us) ;;
  bcs <- mapM (fun n => broadcasted_shape [bc; n :: repeat 1 k]) lengths ;;
  xs <- mapM (fun p : arr R * shape => let '(u, s) := p in np_multiply u (np_ones s)) (combine us bcs) ;;
  np_concatenate xs k.
