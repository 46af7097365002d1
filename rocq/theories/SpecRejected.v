(** Specifications for calls that raise. *)
From Coq Require Import List Arith Reals.
From Verif Require Import Base Shapes SpecShapes NumPy ExpFam.
Import ListNotations.

(** A call that raises leaves the node as it was. *)
Definition atomic (n : efnode) (o : outcome) : Prop := forall e, snd o = Err e -> fst o = n.

(** A call that raises leaves everything but the natural parameters as it was. *)
Definition keeps_moments (n : efnode) (o : outcome) : Prop :=
  forall e, snd o = Err e ->
    n_plates (fst o) = n_plates n /\ n_dims (fst o) = n_dims n /\ n_u (fst o) = n_u n /\
    n_g (fst o) = n_g n /\ n_f (fst o) = n_f n /\ n_obs (fst o) = n_obs n /\
    n_mask (fst o) = n_mask n /\ n_bias (fst o) = n_bias n /\ n_ann (fst o) = n_ann n /\
    n_mult (fst o) = n_mult n.

(** Moments of the full shape, as observe wants them. *)
Definition full_moments (n : efnode) (u : list (arr R)) : Prop :=
  Forall2 (fun d a => ash a = n_plates n ++ d) (n_dims n) u.

(** Moments with the variable axes in full and any axes that broadcast to the
    plates before them. *)
Definition legal_moments (n : efnode) (u : list (arr R)) : Prop :=
  Forall2 (fun d a => exists lead, ash a = lead ++ d /\ broadcasts_to lead (n_plates n))
          (n_dims n) u.
