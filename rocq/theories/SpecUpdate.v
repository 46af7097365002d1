(** Specification of "an update maximises the bound". *)
From Coq Require Import List Arith ZArith Bool Reals.
From Verif Require Import Base Shapes SpecShapes NumPy SpecArray ExpFam SpecExpFam.
Import ListNotations.
Open Scope nat_scope.

(** The inner product of two lists of parameter/moment arrays at plate [p]. *)
Fixpoint dot_at (dims : list shape) (a u : list (arr R)) (p : env) : R :=
  match dims, a, u with
  | d :: dims', x :: a', y :: u' =>
      (total d (fun v => bget x (join (length d) p v) * bget y (join (length d) p v))
       + dot_at dims' a' u' p)%R
  | _, _, _ => 0%R
  end.

(** What other nodes' contributions to the bound are as a function of the moments
    of this node, up to a constant: <m, u> summed over the plates that count. *)
Definition message_dot (n : efnode) (m : list (arr R)) : R :=
  (lprod (map INR (n_mult n)) *
   total (n_plates n) (fun p => if bget (n_mask n) p then dot_at (n_dims n) m (n_u n) p else 0))%R.

Definition fits (plates : shape) (dims : list shape) (phi : list (arr R)) : Prop :=
  Forall2 (fun d a => broadcasts_to (ash a) (plates ++ d)) dims phi.

(** The distribution object computes, in every plate, the moments and the
    log-normaliser of an exponential family: Gibbs' inequality
    KL(q || q') = <phi - phi', u> + g - g' >= 0.  [proper] are the natural
    parameters of the family (for instance a positive shape of a gamma). *)
Definition gibbs {pm val} (D : dist pm val) (plates : shape) (dims : list shape)
           (proper : list (arr R) -> Prop) : Prop :=
  forall phi phi' mask u g u' g', fits plates dims phi -> fits plates dims phi' ->
    proper phi -> proper phi' ->
    d_moments D phi mask = Ok (u, g) -> d_moments D phi' mask = Ok (u', g') ->
    broadcasts_to (ash g) plates /\
    forall p, valid plates p -> bget mask p = true ->
      (dot_at dims phi u p - dot_at dims phi' u p + bget g p - bget g' p >= 0)%R.

(** KL = 0 only when the moments are the same. *)
Definition strict_gibbs {pm val} (D : dist pm val) (plates : shape) (dims : list shape)
           (proper : list (arr R) -> Prop) : Prop :=
  forall phi phi' mask u g u' g', fits plates dims phi -> fits plates dims phi' ->
    proper phi -> proper phi' ->
    d_moments D phi mask = Ok (u, g) -> d_moments D phi' mask = Ok (u', g') ->
    forall p, valid plates p -> bget mask p = true ->
      (dot_at dims phi u p - dot_at dims phi' u p + bget g p - bget g' p = 0)%R ->
      forall i d a b, nth_error dims i = Some d -> nth_error u i = Some a -> nth_error u' i = Some b ->
        forall v, valid d v -> bget a (join (length d) p v) = bget b (join (length d) p v).

(** The moments and the log-normaliser that the node stores are those of its
    natural parameters (in the plates that are not observed). *)
Definition consistent {pm val} (D : dist pm val) (n : efnode) : Prop :=
  exists u g, d_moments D (n_phi n) (np_not (n_obs n)) = Ok (u, g) /\
    same_where (n_plates n) (n_dims n) (fun p => negb (bget (n_obs n) p)) u (n_u n) /\
    forall p, valid (n_plates n) p -> bget (n_obs n) p = false -> bget g p = bget (n_g n) p.

(** No bias on the natural parameters (the default). *)
Definition no_bias (n : efnode) : Prop :=
  Forall2 (fun _ b => ash b = [] /\ forall e, bget b e = 0%R) (n_dims n) (n_bias n).

(** [alt] is a state the node could be in: it has the same data, the same place
    in the model and the moments of some natural parameters. *)
Record candidate {pm val} (D : dist pm val) (proper : list (arr R) -> Prop) (n alt : efnode)
  : Prop := Cand {
  ca_plates : n_plates alt = n_plates n;
  ca_dims : n_dims alt = n_dims n;
  ca_f : n_f alt = n_f n;
  ca_obs : n_obs alt = n_obs n;
  ca_mask : n_mask alt = n_mask n;
  ca_ann : n_ann alt = n_ann n;
  ca_mult : n_mult alt = n_mult n;
  ca_data : same_where (n_plates n) (n_dims n) (bget (n_obs n)) (n_u alt) (n_u n);
  ca_phi : fits (n_plates n) (n_dims n) (n_phi alt);
  ca_proper : proper (n_phi alt);
  ca_consistent : consistent D alt }.
