(** Specification of the graph layer, in terms of the attributes of the nodes:
    kind, parents, children, plates, observed, mask. *)
From Coq Require Import List Arith Lia Bool.
From Verif Require Import Base Shapes SpecShapes NumPy MiscArray SpecArray Graph.
Import ListNotations.

Section Spec.
Variable g : graph.

(** The stochastic node [s] reaches [n] along deterministic nodes only: [n] is
    [s] itself, or a deterministic node one of whose parents is reached. *)
Inductive feeds : nat -> nat -> Prop :=
| feeds_self : forall s, knd (gnodes g s) = KStoch -> feeds s s
| feeds_step : forall s p n, is_det (knd (gnodes g n)) = true ->
    In p (pars (gnodes g n)) -> feeds s p -> feeds s n.

(** No stochastic node reaches two different positions of [parents]. *)
Definition independent (parents : list nat) : Prop :=
  ~ exists s i j p q, i <> j /\ nth_error parents i = Some p /\
                      nth_error parents j = Some q /\ feeds s p /\ feeds s q.

(** An existing, completely constructed node. *)
Definition exists_node (n : nat) : Prop := n < gsize g /\ built (gnodes g n) = true.

(** [X] is the [i]-th parent of [Y]. *)
Definition parent_of (X Y i : nat) : Prop := nth_error (pars (gnodes g Y)) i = Some X.

(** [X] knows that it is the [i]-th parent of [Y]. *)
Definition child_of (X Y i : nat) : Prop := In (Y, i) (kids (gnodes g X)).

(** What a user can call: arguments are existing nodes; a constant has no
    parents; only stochastic nodes are observed, with a mask that broadcasts to
    the plates. *)
Definition legal (o : gop) : Prop :=
  match o with
  | New k ps _ _ => (forall p, In p ps -> exists_node p) /\ (k = KConst -> ps = [])
  | Observe n m => exists_node n /\ knd (gnodes g n) = KStoch /\
                   broadcasts_to (ash m) (pls (gnodes g n))
  | Unobserve n => exists_node n /\ knd (gnodes g n) = KStoch
  | Delete n => exists_node n
  end.

(** [D m i c p]: plate [c] of node [m] depends on plate [p] of the [i]-th parent
    of [m].  A plate is active when it is observed or when an active plate of a
    child depends on it. *)
Variable D : nat -> nat -> env -> env -> Prop.
Inductive active : nat -> env -> Prop :=
| active_observed : forall n p, knd (gnodes g n) = KStoch ->
    bget (obs (gnodes g n)) p = true -> active n p
| active_descendant : forall n p m i c, exists_node m -> parent_of n m i ->
    valid (pls (gnodes g m)) c -> D m i c p -> active m c -> active n p.
End Spec.

(** The plates of a new node, from the plates of its parents. *)
Definition plates_result (g : graph) (k : kind) (parents : list nat) (plates : option shape)
           (c : nclass) : res shape :=
  pp <- mapM (fun ip => plates_from c (fst ip) (pls (gnodes g (snd ip)))) (enum parents) ;;
  total_plates (if is_det k then None else plates) pp.

(** Graphs produced by operations that do not raise; [del] lists the nodes that
    have been deleted. *)
Inductive history : list nat -> graph -> Prop :=
| history_start : history [] empty_graph
| history_step : forall del g o g', history del g -> legal g o ->
    run_gop o g = (g', Ok tt) ->
    history (match o with Delete n => n :: del | _ => del end) g'.

(** The node class [c] propagates masks according to [D]: for a node with the
    given plates and a mask that broadcasts to them, the mask sent to the [i]-th
    parent is True exactly at the parent's plates on which a plate with a True
    mask depends. *)
Definition faithful_edge (c : nclass) (plates : list nat) (i : nat) (parent_plates : list nat)
           (D : env -> env -> Prop) : Prop :=
  forall w : arr bool, broadcasts_to (ash w) plates ->
  exists w' pt y,
    weights_to c i w = Ok w' /\ plates_to c i plates = Ok pt /\
    mask_to_parent w' pt parent_plates = Ok y /\
    broadcasts_to (ash y) parent_plates /\
    forall t, valid parent_plates t ->
      (bget y t = true <-> exists e, valid plates e /\ D e t /\ bget w e = true).

Definition faithful (g : graph) (D : nat -> nat -> env -> env -> Prop) : Prop :=
  forall m i p, exists_node g m -> parent_of g p m i ->
    faithful_edge (cls (gnodes g m)) (pls (gnodes g m)) i (pls (gnodes g p)) (D m i).
