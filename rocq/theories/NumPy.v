(** Meaning of the NumPy primitives used by the modelled code (trusted base).

    An array is a shape together with its elements.  An element is addressed by
    an index assignment [e : nat -> nat] where [e k] is the index along the axis
    that is [k] places from the END ([e 0] belongs to the last axis).  Numbering
    axes from the end is what NumPy's broadcasting rules do.  Elements are read
    through [bget], which implements broadcasting: along an axis of length one,
    and along missing leading axes, the index is ignored. *)
From Coq Require Import List Arith ZArith Lia Bool Reals.
From Verif Require Import Base Shapes SpecShapes.
Import ListNotations.
Open Scope R_scope.

Definition env := nat -> nat.
Definition env0 : env := fun _ => 0%nat.
Definition upd (e : env) (k x : nat) : env :=
  fun j => if (j =? k)%nat then x else e j.

Record arr (A : Type) := Arr { ash : shape; aget : env -> A }.
Arguments Arr {A} ash aget.
Arguments ash {A} a.
Arguments aget {A} a e.

(** Index assignment valid for a shape (zero on missing axes). *)
Definition valid (s : shape) (e : env) : Prop := forall k, (e k < ax s k)%nat.

(** Broadcasting: forget the index along unit (or missing) axes. *)
Definition clip (s : shape) (e : env) : env :=
  fun k => if (ax s k =? 1)%nat then 0%nat else e k.
Definition bget {A} (a : arr A) (e : env) : A := aget a (clip (ash a) e).

(** Same shape and same elements. *)
Definition arr_eq {A} (a b : arr A) : Prop :=
  ash a = ash b /\ forall e, valid (ash a) e -> bget a e = bget b e.

Definition ndim {A} (a : arr A) : nat := length (ash a).

(** ** Finite sums *)
Fixpoint rsum (n : nat) (f : nat -> R) : R :=
  match n with O => 0 | S m => rsum m f + f m end.

Definition lprod (l : list R) : R := fold_right Rmult 1 l.
Definition lsum (l : list R) : R := fold_right Rplus 0 l.

(** Sum along one axis (length [n]) of a function of index assignments. *)
Definition sumax (k n : nat) (F : env -> R) : env -> R :=
  fun e => rsum n (fun x => F (upd e k x)).

(** Sum along several axes, given as (axis, length) pairs. *)
Definition itersum (axes : list (nat * nat)) (F : env -> R) : env -> R :=
  fold_right (fun p G => sumax (fst p) (snd p) G) F axes.

(** ** Shapes *)

(** NumPy's rule for one axis: the lengths other than one must agree. *)
Definition bdim (ds : list nat) : res nat :=
  match filter (fun d => negb (d =? 1)%nat) ds with
  | [] => Ok 1%nat
  | d :: r => if forallb (fun x => (x =? d)%nat) r then Ok d else Err ValueError
  end.
Definition np_bshape (shapes : list shape) : res shape :=
  mapM (fun k => bdim (map (fun s => ax s k) shapes))
       (back_range (list_max (map (@length nat) shapes))).

(** Build a shape of rank [n] from the lengths counted from the end. *)
Definition mkshape (n : nat) (f : nat -> nat) : shape := map f (back_range n).

Definition memb (k : nat) (l : list nat) : bool := existsb (Nat.eqb k) l.

(** ** Elementwise operations *)
Definition scalar {A} (x : A) : arr A := Arr [] (fun _ => x).

Definition np_map {A B} (f : A -> B) (a : arr A) : arr B :=
  Arr (ash a) (fun e => f (bget a e)).

Definition np_map2 {A B C} (f : A -> B -> C) (a : arr A) (b : arr B)
  : res (arr C) :=
  s <- np_bshape [ash a; ash b] ;;
  Ok (Arr s (fun e => f (bget a e) (bget b e))).

Definition np_multiply : arr R -> arr R -> res (arr R) := np_map2 Rmult.

(** functools.reduce(np.multiply, arrays): TypeError on an empty list. *)
Definition np_reduce_multiply (l : list (arr R)) : res (arr R) :=
  match l with
  | [] => Err TypeError
  | a :: r => foldM np_multiply a r
  end.

(** np.where(cond, x, 0) *)
Definition np_where0 (c : arr bool) (x : arr R) : res (arr R) :=
  np_map2 (fun (b : bool) v => if b then v else 0) c x.

Definition np_logical_or : arr bool -> arr bool -> res (arr bool) :=
  np_map2 orb.

(** ** Reductions.  [axes] are numbered from the end. *)

Definition sum_axes_list (s : shape) (axes : list nat) : list (nat * nat) :=
  map (fun k => (k, ax s k))
      (filter (fun k => memb k axes) (seq 0 (length s))).

(** np.sum(a, axis=axes, keepdims=True) *)
Definition np_sum_keep (a : arr R) (axes : list nat) : arr R :=
  Arr (mkshape (ndim a) (fun k => if memb k axes then 1%nat else ax (ash a) k))
      (itersum (sum_axes_list (ash a) axes) (bget a)).

(** Axes that remain, smallest first. *)
Definition kept_axes (n : nat) (axes : list nat) : list nat :=
  filter (fun k => negb (memb k axes)) (seq 0 n).

(** Position of [k] in the list. *)
Fixpoint index_of (k : nat) (l : list nat) : option nat :=
  match l with
  | [] => None
  | x :: r => if (x =? k)%nat then Some 0%nat
              else option_map S (index_of k r)
  end.

(** The index assignment over names [names] (axis j of the result is the j-th
    name); zero for other names. *)
Definition assign (names : list nat) (e : env) : env :=
  fun k => match index_of k names with Some j => e j | None => 0%nat end.

(** Remove axes (numbered from the end) that have length one or were summed:
    the result's j-th axis is the j-th kept axis. *)
Definition drop_axes {A} (a : arr A) (axes : list nat) : arr A :=
  let kept := kept_axes (ndim a) axes in
  Arr (mkshape (length kept) (fun j => ax (ash a) (nth j kept 0%nat)))
      (fun e => bget a (assign kept e)).

(** np.sum(a, axis=axes): summed axes disappear. *)
Definition np_sum (a : arr R) (axes : list nat) : arr R :=
  drop_axes (np_sum_keep a axes) axes.

(** np.any over axes, keepdims=True *)
Fixpoint bany (n : nat) (f : nat -> bool) : bool :=
  match n with O => false | S m => bany m f || f m end.
Definition anyax (k n : nat) (F : env -> bool) : env -> bool :=
  fun e => bany n (fun x => F (upd e k x)).
Definition iterany (axes : list (nat * nat)) (F : env -> bool) : env -> bool :=
  fold_right (fun p G => anyax (fst p) (snd p) G) F axes.
Definition np_any_keep (a : arr bool) (axes : list nat) : arr bool :=
  Arr (mkshape (ndim a) (fun k => if memb k axes then 1%nat else ax (ash a) k))
      (iterany (sum_axes_list (ash a) axes) (bget a)).

(** ** Shape manipulation *)

(** np.squeeze(a, axis=axes): ValueError unless these axes have length one. *)
Definition np_squeeze {A} (a : arr A) (axes : list nat) : res (arr A) :=
  if forallb (fun k => (k <? ndim a)%nat && (ax (ash a) k =? 1)%nat) axes
  then Ok (drop_axes a axes) else Err ValueError.

(** Row-major strides, flat index and back. *)
Fixpoint stride (s : shape) (k : nat) : nat :=
  match k with O => 1%nat | S j => (stride s j * ax s j)%nat end.
Fixpoint ravel (s : shape) (n : nat) (e : env) : nat :=
  match n with O => 0%nat | S k => (ravel s k e + e k * stride s k)%nat end.
Definition unravel (s : shape) (i : nat) : env :=
  fun k => ((i / stride s k) mod ax s k)%nat.
Definition size (s : shape) : nat := stride s (length s).

(** np.reshape *)
Definition np_reshape {A} (a : arr A) (s : shape) : res (arr A) :=
  if (size (ash a) =? size s)%nat
  then Ok (Arr s (fun e => bget a (unravel (ash a) (ravel s (length s) e))))
  else Err ValueError.

(** np.expand_dims(a, axis): the new unit axis is at [k] from the end of the
    result. *)
Definition expand_at {A} (a : arr A) (k : nat) : arr A :=
  Arr (mkshape (S (ndim a))
         (fun j => if (j <? k)%nat then ax (ash a) j
                   else if (j =? k)%nat then 1%nat else ax (ash a) (j - 1)))
      (fun e => bget a (fun j => if (j <? k)%nat then e j else e (S j))).

(** ** einsum

    Operands are arrays with one label per axis (Python order); [out] lists the
    output labels (Python order).  Labels of equal name are broadcast against
    each other (a unit axis broadcasts).  All labels that are not in [out] are
    summed.  ValueError: wrong number of labels, clashing lengths, repeated or
    unknown output label.  (The limit on the number of labels is not
    modelled.) *)
Definition op_labels (ops : list (arr R * list nat)) : list nat :=
  nodup Nat.eq_dec (concat (map snd ops)).

Definition label_dims (ops : list (arr R * list nat)) (l : nat) : list nat :=
  concat (map (fun p => map snd (filter (fun q => (fst q =? l)%nat)
                                        (combine (snd p) (ash (fst p))))) ops).

Definition op_env (labels : list nat) (L : env) : env :=
  fun k => L (nth k (rev labels) 0%nat).

Definition einsum_term (ops : list (arr R * list nat)) (L : env) : R :=
  lprod (map (fun p => bget (fst p) (op_env (snd p) L)) ops).

Definition einsum (ops : list (arr R * list nat)) (out : list nat)
  : res (arr R) :=
  if forallb (fun p => (length (snd p) =? ndim (fst p))%nat) ops
     && forallb (fun l => memb l (op_labels ops)) out
     && (length (nodup Nat.eq_dec out) =? length out)%nat
  then
    sizes <- mapM (fun l => d <- bdim (label_dims ops l) ;; Ok (l, d))
                  (op_labels ops) ;;
    let size_of := fun l => match find (fun q => (fst q =? l)%nat) sizes with
                            | Some q => snd q
                            | None => 1%nat       (* unreachable *)
                            end in
    Ok (Arr (map size_of out)
            (fun e => itersum (filter (fun q => negb (memb (fst q) out)) sizes)
                              (einsum_term ops)
                              (assign (rev out) e)))
  else Err ValueError.
