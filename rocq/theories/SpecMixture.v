(** What a mixture is, stated without the code.  The components have plates
    QL ++ [K] ++ QR, the mixture node QL ++ QR; an element of the components' plates is
    a ++ [k] ++ b. *)
From Coq Require Import List Arith Reals.
From Verif Require Import Base Shapes SpecShapes NumPy SpecArray SpecIndex TakeConcat Reindex.
Import ListNotations.
Open Scope nat_scope.

(** One array of sufficient statistics: its variable axes, the natural parameters of the
    components for it and the moments of the mixture node. *)
Record term := Term { t_dims : list nat; t_phi : arr R; t_u : arr R }.
Definition term_of (t : term) := (length (t_dims t), t_phi t, t_u t).
(** The variable axes are there in full. *)
Definition full_dims (d : list nat) (u : arr R) := length d <= ndim u /\ forall j, j < length d -> ax (ash u) j = ax d j.
Definition term_ok (QL : list nat) (K : nat) (QR : list nat) (t : term) : Prop :=
  broadcasts_to (ash (t_phi t)) (QL ++ K :: QR ++ t_dims t) /\
  broadcasts_to (ash (t_u t)) (QL ++ QR ++ t_dims t) /\ full_dims (t_dims t) (t_u t).

(** E[log p(x | theta_k)] at plate a ++ b, up to the base measure:
    g_k + sum_i <Phi_i of component k, u_i>. *)
Definition component_logpdf (g : arr R) (l : list term) (a : list nat) (k : nat) (b : list nat) : R :=
  (bget g (at_index (a ++ k :: b)) +
   lsum (map (fun i => lsum (map (fun v => bget (t_phi i) (at_index (a ++ k :: b ++ v)) * bget (t_u i) (at_index (a ++ b ++ v)))%R
                                 (lists (t_dims i)))) l))%R.
(** The probability that plate a ++ b belongs to cluster k. *)
Definition prob (z : arr R) (a b : list nat) (k : nat) : R := bget z (at_index ((a ++ b) ++ [k])).
(** [z]: probabilities of K clusters for the plates QL ++ QR. *)
Definition probs_ok (QL : list nat) (K : nat) (QR : list nat) (z : arr R) : Prop :=
  broadcasts_to (ash z) ((QL ++ QR) ++ [K]) /\ 1 <= ndim z /\ ax (ash z) 0 = K.
