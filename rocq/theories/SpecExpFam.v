(** Specifications for exponential-family nodes. *)
From Coq Require Import List Arith ZArith Lia Bool Reals.
From Verif Require Import Base Shapes SpecShapes NumPy MiscArray SpecArray ExpFam.
Import ListNotations.

(** The plate an element belongs to: [nd] trailing variable axes are dropped. *)
Definition plate_of (nd : nat) (e : env) : env := fun k => e (k + nd).

(** An array of the moments (or parameters) of a node with the given plates and
    dims: all axes are there, the variable axes have their full length. *)
Definition moment_array (plates d : shape) (a : arr R) : Prop :=
  length (ash a) = length plates + length d /\ broadcasts_to (ash a) (plates ++ d) /\
  forall k, k < length d -> ax (ash a) k = ax d k.

(** The shapes every node has after its construction. *)
Record well_shaped (n : efnode) : Prop := WS {
  ws_u : Forall2 (moment_array (n_plates n)) (n_dims n) (n_u n);
  ws_obs : broadcasts_to (ash (n_obs n)) (n_plates n) }.

(** Everything that changes the distribution of a node, except observe and
    unobserve.  The arguments that other nodes provide are arbitrary. *)
Inductive eop (pm val : Type) :=
| Update (m_children : list (arr R)) (u_parents : pm) (annealing : R)
| InitFromParents (u_parents : pm)
| InitFromValue (x : val) (big : R)
| SetParameters (x : list (arr R))
| GradientStep (m_children : list (arr R)) (u_parents : pm) (scale : R).
Arguments Update {pm val}. Arguments InitFromParents {pm val}. Arguments InitFromValue {pm val}.
Arguments SetParameters {pm val}. Arguments GradientStep {pm val}.

Definition run_eop {pm val} (D : dist pm val) (n : efnode) (o : eop pm val) : outcome :=
  match o with
  | Update m u a => update D n m u a
  | InitFromParents u => initialize_from_parent_moments D n u
  | InitFromValue x big => initialize_from_value D big n x
  | SetParameters x => set_parameters D n x
  | GradientStep m u s => gradient_step D n m u s
  end.

(** A history: operations that raise are included, the program goes on with
    whatever state they left. *)
Fixpoint run_eops {pm val} (D : dist pm val) (n : efnode) (l : list (eop pm val)) : efnode :=
  match l with
  | [] => n
  | o :: l' => run_eops D (fst (run_eop D n o)) l'
  end.

(** The contribution of one plate [p] to the lower bound: E[log p(x|parents)] -
    T E[log q(x)] where T is the temperature. *)
Definition sum_terms (F : shape -> arr R -> arr R -> arr R -> R) :=
  fix go (dims : list shape) (pp pq us : list (arr R)) : R :=
    match dims, pp, pq, us with
    | d :: dims', a :: pp', b :: pq', u :: us' => (F d a b u + go dims' pp' pq' us')%R
    | _, _, _, _ => 0%R
    end.
Definition plate_bound (n : efnode) (phi_p : list (arr R)) (cgf_p : arr R) (p : env) : R :=
  let T := (1 / n_ann n)%R in
  (bget cgf_p p + (if bget (n_obs n) p then bget (n_f n) p else - T * bget (n_g n) p)
   + sum_terms (fun d a b u =>
       total d (fun v => (bget a (join (length d) p v) -
          (if bget (n_obs n) p then 0 else T * bget b (join (length d) p v)))
          * bget u (join (length d) p v)))
       (n_dims n) phi_p (n_phi n) (n_u n))%R.

(** Two lists of moment (or parameter) arrays agree on the plates where [on] is
    true. *)
Definition same_where (plates : shape) (dims : list shape) (on : env -> bool)
           (us us' : list (arr R)) : Prop :=
  length us = length dims /\ length us' = length dims /\
  forall i d a b, nth_error dims i = Some d -> nth_error us i = Some a ->
    nth_error us' i = Some b ->
    forall e, valid (plates ++ d) e -> on (plate_of (length d) e) = true -> bget a e = bget b e.

(** A message that is computed plate by plate: the entries for plate [p] depend
    on the moments of plate [p] only ([nd] variable axes in the message). *)
Definition plate_local (plates : shape) (dims : list shape) (nd : nat)
           (message : list (arr R) -> res (arr R)) : Prop :=
  forall us us' m m' p, valid plates p -> message us = Ok m -> message us' = Ok m' ->
    same_where plates dims (fun q => forallb (fun k => q k =? p k) (seq 0 (length plates))) us us' ->
    forall v, bget m (join nd p v) = bget m' (join nd p v).

(** The distribution object looks at the entries of its parameters only, and
    returns arrays that fit the node. *)
Definition extensional {pm val} (D : dist pm val) (plates : shape) (dims : list shape) : Prop :=
  forall phi phi' mask u g,
    Forall2 (fun d a => broadcasts_to (ash a) (plates ++ d)) dims phi ->
    Forall2 (fun d a => broadcasts_to (ash a) (plates ++ d)) dims phi' ->
    same_where plates dims (fun _ => true) phi phi' ->
    d_moments D phi mask = Ok (u, g) ->
    exists u' g', d_moments D phi' mask = Ok (u', g') /\
      Forall2 (fun d a => broadcasts_to (ash a) (plates ++ d) /\ length d <= length (ash a) /\
                          forall k, k < length d -> ax (ash a) k = ax d k) dims u' /\
      broadcasts_to (ash g') plates /\
      same_where plates dims (fun _ => true) u u' /\
      forall p, valid plates p -> bget g p = bget g' p.
