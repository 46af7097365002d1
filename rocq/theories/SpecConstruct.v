(** Specifications for constructors: when do parents fit a node. *)
From Coq Require Import List Arith.
From Verif Require Import Base Shapes SpecShapes Construct.
Import ListNotations.

(** What the moments of the parents look like. *)
Definition is_gaussian (p : par) (s : shape) : Prop := p_dims p = [s; s ++ s].
Definition is_wishart (p : par) (s : shape) : Prop := p_dims p = [s ++ s; []].
Definition is_scalar (p : par) : Prop := p_dims p = [[]; []].
Definition is_vector (p : par) (K : nat) : Prop := exists rest, p_dims p = [K] :: rest.

(** A node with plates [P] for parents: each parent comes with its plates and with the
    axes that the parent sees as its last plates (the message to it has the shape
    P ++ axes).  Its plates must broadcast to them. *)
Definition fits (parents : list (shape * shape)) (P : shape) : Prop :=
  forall p axes, In (p, axes) parents -> broadcasts_to p (P ++ axes).
(** The smallest plates that fit. *)
Definition least (parents : list (shape * shape)) (P : shape) : Prop :=
  fits parents P /\ forall T, fits parents T -> broadcasts_to P T.

(** The node has the given plates if they fit, otherwise the smallest ones that do; if
    there are none the constructor raises one of the exceptions [E]. *)
Definition correct (E : list err) (given : option shape) (parents : list (shape * shape)) (dims : list shape)
    (r : res node) : Prop :=
  match given with
  | Some P => (fits parents P -> r = Ok (P, dims)) /\ (~ fits parents P -> exists e, In e E /\ r = Err e)
  | None => (forall P, least parents P -> r = Ok (P, dims)) /\
            ((forall P, ~ fits parents P) -> exists e, In e E /\ r = Err e)
  end.

(** The last axes of p broadcast to s. *)
Definition ends_fit (p s : shape) : Prop := forall k, k < length s -> ax p k = 1 \/ ax p k = ax s k.

(** A mixture over the plate axis -1-c: the parents of the mixed distribution see the
    plates with the K clusters at that axis, the parent z sees them without. *)
Definition with_axis (c K : nat) (P : shape) : shape := firstn (length P - c) P ++ K :: skipn (length P - c) P.
Definition mixture_fits (c K : nat) (z : shape) (parents : list (shape * shape)) (P : shape) : Prop :=
  c <= length P /\ broadcasts_to z P /\ forall p axes, In (p, axes) parents -> broadcasts_to p (with_axis c K P ++ axes).

(** The moments of a chain of length M of vectors of length D. *)
Definition chain_shape (M D : nat) : list shape := [[M; D]; [M; D; D]; [M - 1; D; D]].
