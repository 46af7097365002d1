(** Model of bayespy/inference/vmp/nodes/add.py (Add) and concat_gaussian.py (ConcatGaussian)
    and of the array functions they use.  No proofs here.

    Simplifications: the moments of a parent are the pair (<x>, <xx'>) of arrays that
    _ensure_moments and _message_from_parents give; a parent is otherwise known by the shape
    of its variable, [dims[0]]. *)
From Coq Require Import List Arith ZArith Bool Reals.
From Verif Require Import Base Shapes SpecShapes NumPy MiscArray TakeConcat.
Import ListNotations.
Open Scope nat_scope.

(** ** utils/linalg.py *)

(** linalg.py 309-334: outer(A, B, ndim). *)
Definition la_outer (A B : arr R) (nd : nat) : res (arr R) :=
  if nd =? 0 then np_multiply A B
  else if ndim A <? nd then Err ValueError
  else if ndim B <? nd then Err ValueError
  else
    let p := length (ash B) - nd in
    A' <- np_reshape A (ash A ++ repeat 1 nd) ;;
    B' <- np_reshape B (firstn p (ash B) ++ repeat 1 nd ++ skipn p (ash B)) ;;
    np_multiply A' B'.

(** np.swapaxes(X, -1-i, -1-j); numpy's AxisError is a ValueError. *)
Definition swap (i j k : nat) : nat := if k =? i then j else if k =? j then i else k.
Definition np_swapaxes {A} (X : arr A) (i j : nat) : res (arr A) :=
  if (i <? ndim X) && (j <? ndim X)
  then Ok (Arr (mkshape (ndim X) (fun k => ax (ash X) (swap i j k)))
               (fun e => bget X (fun k => e (swap i j k))))
  else Err ValueError.

(** linalg.py 444-450: transpose(X, ndim). *)
Definition la_transpose {A} (X : arr A) (nd : nat) : res (arr A) :=
  foldM (fun X n => np_swapaxes X n (nd + n)) X (seq 0 nd).

(** misc.py 1040-1043: add_axes(X, num, axis=-1-axis): np.expand_dims checks the axis. *)
Definition add_axes_back {A} (X : arr A) (num axis : nat) : res (arr A) :=
  foldM (fun X (_ : nat) => if axis <=? ndim X then Ok (expand_at X axis) else Err ValueError)
        X (seq 0 num).

(** linalg.py 299-306 and 407-422: inner(A, b, ndim), mvdot(A, b, ndim). *)
Definition la_inner (args : list (arr R)) (nd : nat) : res (arr R) :=
  sum_product args None (AxList (map (fun i => (Z.of_nat i - Z.of_nat nd)%Z) (seq 0 nd))) false.
Definition la_mvdot (A b : arr R) (nd : nat) : res (arr R) :=
  b <- (if 0 <? nd then add_axes_back b nd nd else Ok b) ;;
  la_inner [A; b] nd.

(** functools.reduce(np.add, arrays): TypeError on an empty list. *)
Definition np_reduce_add (l : list (arr R)) : res (arr R) :=
  match l with
  | [] => Err TypeError
  | a :: r => foldM (np_map2 Rplus) a r
  end.

(** ** Add *)

(** The moments of one parent. *)
Definition gmom := (arr R * arr R)%type.

(** add.py 56-94: the constructor, from the shapes of the parents on (in dims, the second
    shape is the first one twice); the shape of the node. *)
Fixpoint same_dims (l : list shape) : bool :=
  match l with
  | a :: ((b :: _) as r) => (if list_eq_dec Nat.eq_dec a b then true else false) && same_dims r
  | _ => true
  end.
Definition add_init (dimss : list shape) : res shape :=
  if length dimss <? 2 then Err ValueError
  else if negb (same_dims dimss) then Err ValueError
  else match dimss with d :: _ => Ok d | [] => Err IndexError end.

(** The pairs (u_i, u_j), i < j, in the order of the two loops. *)
Fixpoint pairs_of {A} (l : list A) : list (A * A) :=
  match l with [] => [] | a :: r => map (pair a) r ++ pairs_of r end.

(** add.py 97-113: _compute_moments; [nd] = self.ndim. *)
Definition add_moments (nd : nat) (us : list gmom) : res gmom :=
  u0 <- np_reduce_add (map fst us) ;;
  u1 <- np_reduce_add (map snd us) ;;
  u1 <- foldM (fun u1 p =>
           xi_xj <- la_outer (fst (fst p)) (fst (snd p)) nd ;;
           xj_xi <- la_transpose xi_xj nd ;;
           u1 <- np_map2 Rplus u1 xi_xj ;;
           np_map2 Rplus u1 xj_xi) u1 (pairs_of us) ;;
  Ok (u0, u1).

(** add.py 116-154: _compute_message_to_parent. *)
Definition add_message (nd index : nat) (m : gmom) (us : list gmom) : res gmom :=
  let us := firstn index us ++ skipn (S index) us in
  s <- np_reduce_add (map fst us) ;;
  d <- la_mvdot (np_map (fun v => 2 * v)%R (snd m)) s nd ;;
  m0 <- np_map2 Rplus (fst m) d ;;
  Ok (m0, snd m).

(** ** ConcatGaussian *)

(** misc.py 1476-1513: broadcast(arrays, ignore_axis=[-1-k for k in ignore]): the shape has
    unit length at the ignored axes. *)
Definition broadcast_ignore (arrays : list (arr R)) (ignore : list nat) : res (list (arr R)) :=
  let cut_shapes := map (fun a => mkshape (ndim a) (fun k => if memb k ignore then 1 else ax (ash a) k)) arrays in
  full_shape <- broadcasted_shape cut_shapes ;;
  mapM (fun a => np_multiply (Arr full_shape (fun _ => 1%R)) a) arrays.

(** misc.py 1547-1558: concatenate(arrays, axis=-1). *)
Definition concatenate_last (arrays : list (arr R)) : res (arr R) :=
  l <- broadcast_ignore arrays [0] ;;
  np_concatenate l 0.

(** Y[..., i0:i1, j0:j1] = A: A must broadcast to the shape of the slice (numpy also
    accepts extra leading unit axes). *)
Definition set_block (Y : arr R) (i0 i1 j0 j1 : nat) (A : arr R) : res (arr R) :=
  if ndim Y <? 2 then Err IndexError
  else
    let s := ash (cut (cut Y 1 i0 i1) 0 j0 j1) in
    if is_shape_subset (ash A) s
    then Ok (Arr (ash Y) (fun e =>
           if (i0 <=? e 1) && (e 1 <? i1) && (j0 <=? e 0) && (e 0 <? j1)
           then bget A (upd (upd e 1 (e 1 - i0)) 0 (e 0 - j0))
           else bget Y e))
    else Err ValueError.

(** misc.py 1517-1544: block_diag. *)
Definition block_diag (arrays : list (arr R)) : res (arr R) :=
  arrays <- broadcast_ignore arrays [0; 1] ;;
  match arrays with
  | [] => Err IndexError
  | a :: _ =>
      let plates := firstn (ndim a - 2) (ash a) in
      let M := list_sum (map (fun x => ax (ash x) 1) arrays) in
      let N := list_sum (map (fun x => ax (ash x) 0) arrays) in
      '(Y, _, _) <- foldM (fun st x =>
          let '(Y, i_start, j_start) := st in
          let i_end := i_start + ax (ash x) 1 in
          let j_end := j_start + ax (ash x) 0 in
          Y <- set_block Y i_start i_end j_start j_end x ;;
          Ok (Y, i_end, j_end)) (Arr (plates ++ [M; N]) (fun _ => 0%R), 0, 0) arrays ;;
      Ok Y
  end.

(** concat_gaussian.py 52-71: the constructor: every parent must be a vector; slices. *)
Definition concat_init (dimss : list shape) : res (nat * list nat) :=
  if forallb (fun d => length d =? 1) dimss
  then let lens := map (fun d => ax d 0) dimss in Ok (list_sum lens, cat_indices lens)
  else Err ValueError.

(** concat_gaussian.py 74-97: _compute_moments.  The inner loop over the earlier nodes
    [done] and the outer loop over the nodes. *)
Definition concat_inner (i_start i_end : nat) (u : gmom) (done : list gmom) (xx : arr R)
  : res (arr R) :=
  '(xx, _) <- foldM (fun st v =>
      let '(xx, j_start) := (st : arr R * nat) in
      let j_end := j_start + ax (ash (fst v)) 0 in
      xm_xn <- la_outer (fst u) (fst v) 1 ;;
      xx <- set_block xx i_start i_end j_start j_end xm_xn ;;
      t <- np_swapaxes xm_xn 0 1 ;;
      xx <- set_block xx j_start j_end i_start i_end t ;;
      Ok (xx, j_end)) (xx, 0) done ;;
  Ok xx.
Fixpoint concat_outer (i_start : nat) (done us : list gmom) (xx : arr R) : res (arr R) :=
  match us with
  | [] => Ok xx
  | u :: r =>
      let i_end := i_start + ax (ash (fst u)) 0 in
      xx <- concat_inner i_start i_end u done xx ;;
      concat_outer i_end (done ++ [u]) r xx
  end.
Definition concat_moments (us : list gmom) : res gmom :=
  x <- concatenate_last (map fst us) ;;
  xx <- block_diag (map snd us) ;;
  let x_plates := firstn (ndim x - 1) (ash x) in
  xx <- np_multiply (Arr (x_plates ++ [1; 1]) (fun _ => 1%R)) xx ;;
  xx <- concat_outer 0 [] us xx ;;
  Ok (x, xx).

(** concat_gaussian.py 100-116: _compute_message_to_parent; [r] = self.slices.
    np.einsum('...ij,...j->...i', A, b) is la_mvdot A b 1: multiply, with broadcasting,
    and sum over the last axis. *)
Definition concat_message (r : list nat) (i : nat) (m : gmom) (us : list gmom) : res gmom :=
  let at_ k := match nth_error r k with Some x => Ok x | None => Err IndexError end in
  a <- at_ i ;; b <- at_ (S i) ;;
  let m0 := cut (fst m) 0 a b in
  let m1 := cut (cut (snd m) 1 a b) 0 a b in
  m0 <- foldM (fun m0 p =>
          let '(j, u) := (p : nat * gmom) in
          if j =? i then Ok m0
          else
            c <- at_ j ;; d <- at_ (S j) ;;
            t <- la_mvdot (cut (cut (snd m) 1 a b) 0 c d) (fst u) 1 ;;
            np_map2 Rplus m0 (np_map (fun v => 2 * v)%R t))
        m0 (combine (seq 0 (length us)) us) ;;
  Ok (m0, m1).
