(** Model of the graph layer: construction of nodes, parent/child links,
    propagation of masks and deletion (node.py, stochastic.py,
    deterministic.py, constant.py, concatenate.py).

    Node objects are numbered in the order in which they are created.  The set
    [children] of a node is a list without repetition; the order in which
    Python iterates over it is the order of the list, and every theorem holds
    for every order.  Names, plotters and plate multipliers are left out.
    Methods run in a state monad that keeps the changes made before an
    exception, as Python does. *)
From Coq Require Import List Arith ZArith Lia Bool.
From Verif Require Import Base Shapes NumPy MiscArray.
Import ListNotations.

(** The classes of nodes that behave differently in the graph layer:
    constant.py Constant, stochastic.py Stochastic, deterministic.py
    Deterministic, concatenate.py Concatenate (deterministic; allows dependent
    parents). *)
Inductive kind : Set := KConst | KStoch | KDet | KConcat.
Definition is_det (k : kind) : bool :=
  match k with KDet | KConcat => true | _ => false end.

(** How a node class treats plates: node.py 477-489 _compute_weights_to_parent
    (compared with zero, 501), _compute_plates_to_parent (379-381) and
    _compute_plates_from_parent (384-386). *)
Record nclass : Type := NClass {
  weights_to : nat -> arr bool -> res (arr bool);
  plates_to : nat -> shape -> res shape;
  plates_from : nat -> shape -> res shape }.

(** node.py 379-386, 477-489: the defaults of class Node. *)
Definition default_class : nclass :=
  NClass (fun _ w => Ok w) (fun _ p => Ok p) (fun _ p => Ok p).

(** The attributes of a node.  [built] is False when __init__ raised after the
    object was created, so the attributes plates, mask and children are
    missing. *)
Record gnode : Type := GNode {
  knd : kind; pars : list nat; kids : list (nat * nat); cls : nclass;
  pls : shape; obs : arr bool; msk : arr bool; built : bool }.

Record graph : Type := Graph { gsize : nat; gnodes : nat -> gnode }.

Definition blank : gnode :=
  GNode KConst [] [] default_class [] (scalar false) (scalar false) false.
Definition empty_graph : graph := Graph 0 (fun _ => blank).

Definition set_node (g : graph) (n : nat) (x : gnode) : graph :=
  Graph (gsize g) (fun k => if k =? n then x else gnodes g k).
Definition with_kids (x : gnode) (l : list (nat * nat)) : gnode :=
  GNode (knd x) (pars x) l (cls x) (pls x) (obs x) (msk x) (built x).
Definition with_msk (x : gnode) (m : arr bool) : gnode :=
  GNode (knd x) (pars x) (kids x) (cls x) (pls x) (obs x) m (built x).
Definition with_obs (x : gnode) (m : arr bool) : gnode :=
  GNode (knd x) (pars x) (kids x) (cls x) (pls x) m (msk x) (built x).

(** State and exceptions. *)
Definition G (A : Type) : Type := graph -> graph * res A.
Definition gret {A} (a : A) : G A := fun g => (g, Ok a).
Definition graise {A} (e : err) : G A := fun g => (g, Err e).
Definition gbind {A B} (m : G A) (f : A -> G B) : G B :=
  fun g => match m g with
           | (g', Ok a) => f a g'
           | (g', Err e) => (g', Err e)
           end.
Definition gseq (m : G unit) (k : G unit) : G unit := gbind m (fun _ => k).
Fixpoint giter {A} (f : A -> G unit) (l : list A) : G unit :=
  match l with
  | [] => gret tt
  | a :: r => gseq (f a) (giter f r)
  end.

(** enumerate(l) *)
Definition enum {A} (l : list A) : list (nat * A) := combine (seq 0 (length l)) l.

Definition pair_eqb (a b : nat * nat) : bool := (fst a =? fst b) && (snd a =? snd b).
Definition has (c : nat * nat) (l : list (nat * nat)) : bool := existsb (pair_eqb c) l.

(** stochastic.py 142-159, constant.py 41-57, deterministic.py 41-60,
    concatenate.py 80-84: _get_id_list.  The identifier of a stochastic node is
    its number.  [fuel] bounds the recursion; parents are older than their
    children. *)
Fixpoint id_list (fuel : nat) (g : graph) (n : nat) : list nat :=
  match fuel with
  | O => []
  | S f =>
      match knd (gnodes g n) with
      | KConst => []
      | KStoch => [n]
      | KDet => flat_map (id_list f g) (pars (gnodes g n))
      | KConcat => nodup Nat.eq_dec (flat_map (id_list f g) (pars (gnodes g n)))
      end
  end.
Definition get_id_list (g : graph) (n : nat) : list nat := id_list (S n) g n.

(** node.py 426-438 Node._add_child and deterministic.py 99-125
    Deterministic._add_child. *)
Fixpoint add_child (fuel : nat) (n : nat) (c : nat * nat) : G unit :=
  match fuel with
  | O => graise RuntimeError
  | S f => fun g =>
      let x := gnodes g n in
      let g1 := if has c (kids x) then g else set_node g n (with_kids x (kids x ++ [c])) in
      if is_det (knd x)
      then giter (fun ip => add_child f (snd ip) (n, fst ip)) (enum (pars x)) g1
      else (g1, Ok tt)
  end.

(** node.py 440-444 Node._remove_child and deterministic.py 127-143
    Deterministic._remove_child.  set.remove raises KeyError when the element
    is missing. *)
Fixpoint remove_child (fuel : nat) (n : nat) (c : nat * nat) : G unit :=
  match fuel with
  | O => graise RuntimeError
  | S f => fun g =>
      let x := gnodes g n in
      if negb (has c (kids x)) then (g, Err KeyError)
      else
        let l := filter (fun d => negb (pair_eqb c d)) (kids x) in
        let g1 := set_node g n (with_kids x l) in
        if is_det (knd x) && (length l =? 0)
        then giter (fun ip => remove_child f (snd ip) (n, fst ip)) (enum (pars x)) g1
        else (g1, Ok tt)
  end.

(** node.py 255-301 Node.__init__ with the arguments that matter here.
    [plates] is the keyword argument (deterministic.py 37-38: None for
    deterministic nodes, which also pass notify_parents=False). *)
Definition new_node (k : kind) (parents : list nat) (plates : option shape) (c : nclass)
  : G nat :=
  fun g =>
    let n := gsize g in
    let fresh b pl := GNode k parents [] c pl (scalar false) (scalar false) b in
    let ids := flat_map (get_id_list g) parents in
    if negb (match k with KConcat => true | _ => false end) &&
       negb (length ids =? length (nodup Nat.eq_dec ids))
    then (g, Err ValueError)
    else
      let g0 := set_node (Graph (S n) (gnodes g)) n (fresh false []) in
      gbind (if is_det k then gret tt
             else giter (fun ip => add_child (S n) (snd ip) (n, fst ip)) (enum parents))
        (fun _ g1 =>
           match (pp <- mapM (fun ip => plates_from c (fst ip) (pls (gnodes g1 (snd ip))))
                             (enum parents) ;;
                  total_plates (if is_det k then None else plates) pp) with
           | Ok pl => (set_node g1 n (fresh true pl), Ok n)
           | Err e => (g1, Err e)
           end) g0.

(** node.py 492-526: child._mask_to_parent(index); AttributeError when the child
    was not built. *)
Definition edge_mask (g : graph) (c : nat * nat) : res (arr bool) :=
  let x := gnodes g (fst c) in
  if negb (built x) then Err AttributeError
  else
    w <- weights_to (cls x) (snd c) (msk x) ;;
    pt <- plates_to (cls x) (snd c) (pls x) ;;
    match nth_error (pars x) (snd c) with
    | Some p => mask_to_parent w pt (pls (gnodes g p))
    | None => Err IndexError
    end.

(** node.py 457-475 Node._update_mask with node.py 452-455 Node._set_mask and
    stochastic.py 187-188 Stochastic._set_mask. *)
Fixpoint update_mask (fuel : nat) (n : nat) : G unit :=
  match fuel with
  | O => graise RuntimeError
  | S f => fun g =>
      let x := gnodes g n in
      match (m <- foldM (fun m c => w <- edge_mask g c ;; np_logical_or m w)
                        (scalar false) (kids x) ;;
             match knd x with
             | KStoch => np_logical_or m (obs x)
             | _ => Ok m
             end) with
      | Err e => (g, Err e)
      | Ok m =>
          let g1 := set_node g n (with_msk x m) in
          if negb (is_shape_subset (ash m) (pls x)) then (g1, Err ValueError)
          else giter (update_mask f) (pars x) g1
      end
  end.

(** expfamily.py 369-398 observe (lines 396-398: the mask is stored and
    propagated; the moments are modelled elsewhere) and stochastic.py 291-294
    unobserve.  Only stochastic nodes have these methods. *)
Definition set_observed (n : nat) (mask : arr bool) : G unit :=
  fun g =>
    match knd (gnodes g n) with
    | KStoch => update_mask (S n) n (set_node g n (with_obs (gnodes g n) mask))
    | _ => (g, Err AttributeError)
    end.
Definition observe (n : nat) (mask : arr bool) : G unit := set_observed n mask.
Definition unobserve (n : nat) : G unit := set_observed n (scalar false).

(** [for (child, _) in self.children: child.delete()]: the iterator of a set
    raises RuntimeError at the next step, also at the end, when the size of
    the set has changed since the loop started.  [l] holds the elements not yet
    visited and [size0] the size at the start. *)
Fixpoint kids_loop (body : nat -> G unit) (n size0 : nat) (l : list (nat * nat)) : G unit :=
  fun g =>
    if negb (length (kids (gnodes g n)) =? size0) then (g, Err RuntimeError)
    else match l with
         | [] => (g, Ok tt)
         | c :: r => gseq (body (fst c)) (kids_loop body n size0 r) g
         end.

(** node.py 699-706: Node.delete. *)
Fixpoint delete (fuel : nat) (n : nat) : G unit :=
  match fuel with
  | O => graise RuntimeError
  | S f =>
      gseq (fun g => giter (fun ip => remove_child (S n) (snd ip) (n, fst ip))
                           (enum (pars (gnodes g n))) g)
           (fun g => kids_loop (delete f) n (length (kids (gnodes g n))) (kids (gnodes g n)) g)
  end.
Definition delete_node (n : nat) : G unit := fun g => delete (S (gsize g - n)) n g.

(** What a user can do with the graph. *)
Inductive gop : Type :=
| New (k : kind) (parents : list nat) (plates : option shape) (c : nclass)
| Observe (n : nat) (mask : arr bool)
| Unobserve (n : nat)
| Delete (n : nat).

Definition run_gop (o : gop) : G unit :=
  match o with
  | New k ps pl c => gbind (new_node k ps pl c) (fun _ => gret tt)
  | Observe n m => observe n m
  | Unobserve n => unobserve n
  | Delete n => delete_node n
  end.
