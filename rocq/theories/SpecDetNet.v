(** Specification of networks with deterministic nodes: what the nodes must satisfy for
    VB.update to work and never to lower the bound. *)
From Coq Require Import List Arith ZArith Bool Reals.
From Verif Require Import Base Shapes SpecShapes NumPy MiscArray SpecArray ExpFam SpecExpFam
  SpecUpdate FamilyDist SpecFamilyDist Network SpecNetwork Dot SpecDot DetNet.
Import ListNotations.
Open Scope nat_scope.

(** Entry [v] of component [c] of the parameters (moments, messages) of one plate. *)
Definition coef (l : list (env -> R)) (c : nat) (v : env) : R := nth c l (fun _ => 0%R) v.
Definition entries (dims : list shape) (P : nat -> env -> Prop) : Prop :=
  forall c d v, nth_error dims c = Some d -> valid d v -> P c v.

(** Conditions on the messages of one plate that sums and multiples keep. *)
Record cone (dims : list shape) (P : list (env -> R) -> Prop) : Prop := Cone {
  co_zero : forall m, length m = length dims -> entries dims (fun c v => coef m c v = 0%R) -> P m;
  co_add : forall a b m, P a -> P b -> length m = length dims ->
    entries dims (fun c v => coef m c v = (coef a c v + coef b c v)%R) -> P m;
  co_scale : forall r a m, (0 <= r)%R -> P a -> length m = length dims ->
    entries dims (fun c v => coef m c v = (r * coef a c v)%R) -> P m }.
(** A condition on the values only. *)
Definition on_values (dims : list shape) (P : list (env -> R) -> Prop) : Prop :=
  forall a b, P a -> length b = length dims -> entries dims (fun c v => coef b c v = coef a c v) -> P b.

(** <m, u> summed over the plates of a node that count. *)
Definition pairing (n : place) (m u : list (arr R)) : R :=
  (lprod (map INR (pl_mult n)) *
   total (pl_plates n) (fun p => if bget (pl_mask n) p then dot_at (pl_dims n) m u p else 0))%R.

(** For every node, which moments it can have, which messages it can receive, and (for
    stochastic nodes) which natural parameters it can have; all for one plate. *)
Record types := Types {
  t_mom : nat -> list (env -> R) -> Prop;
  t_msg : nat -> list (env -> R) -> Prop;
  t_par : nat -> list (env -> R) -> Prop }.

(** Arrays of moments of node [n] that satisfy [P] in every plate, and messages. *)
Definition moments_in (n : place) (P : list (env -> R) -> Prop) (u : list (arr R)) : Prop :=
  Forall2 (variable_of (pl_plates n)) (pl_dims n) u /\
  forall p, valid (pl_plates n) p -> P (at_plate (pl_dims n) u p).
Definition messages_in (n : place) (P : list (env -> R) -> Prop) (m : list (arr R)) : Prop :=
  fits (pl_plates n) (pl_dims n) m /\
  forall p, valid (pl_plates n) p -> P (at_plate (pl_dims n) m p).

(** Nothing is sent to the plates of [n] that do not count. *)
Definition silent (n : place) (m : list (arr R)) : Prop :=
  forall p, valid (pl_plates n) p -> bget (pl_mask n) p = false ->
    entries (pl_dims n) (fun c v => coef (at_plate (pl_dims n) m p) c v = 0%R).

(** A stochastic node [j] with distribution [F], annealing [ann] and parents [ps]. *)
Definition parents_in (T : types) (F : efam) (ps : list nat) (ups : list (list (env -> R))) : Prop :=
  moments_of F ups /\ Forall2 (t_mom T) ps ups.
Record stoch_typed (T : types) (F : efam) (ann : R) (j : nat) (ps : list nat) : Prop := StochTyped {
  (* E[log p(x | parents)] is affine in the moments of every parent and the message is
     the coefficient *)
  sy_phi : forall ups, length (e_phi F ups) = length (fam_dims (e_fam F));
  sy_len : forall k x ups, k < length (e_pdims F) ->
    length (e_message F k x ups) = length (nth k (e_pdims F) []);
  sy_conj : forall k x ups ups', k < length (e_pdims F) -> parents_in T F ps ups -> parents_in T F ps ups' ->
    length x = length (fam_dims (e_fam F)) -> t_mom T j x -> exclude k ups = exclude k ups' ->
    let dims := fam_dims (e_fam F) in
    let pd := nth k (e_pdims F) [] in
    let m := e_message F k x (exclude k ups) in
    ((e_cgf F ups' + fdot dims (e_phi F ups') x) - (e_cgf F ups + fdot dims (e_phi F ups) x)
     = fdot pd m (nth k ups' []) - fdot pd m (nth k ups []))%R;
  (* the messages, the prior and the moments are of the right types *)
  sy_msg : forall k i x ups, nth_error ps k = Some i -> parents_in T F ps ups ->
    length x = length (fam_dims (e_fam F)) -> t_mom T j x ->
    t_msg T i (e_message F k x (exclude k ups));
  sy_prior : forall ups, parents_in T F ps ups -> t_par T j (e_phi F ups);
  sy_post : forall a b q, t_par T j a -> t_msg T j b ->
    length q = length (fam_dims (e_fam F)) ->
    entries (fam_dims (e_fam F)) (fun c v => coef q c v = (ann * (coef a c v + coef b c v))%R) ->
    t_par T j q;
  sy_mom : forall phi, length phi = length (fam_dims (e_fam F)) -> t_par T j phi ->
    exists u g, fam_moments (e_fam F) phi = Ok (u, g) /\ length u = length (fam_dims (e_fam F)) /\ t_mom T j u;
  (* Gibbs' inequality *)
  sy_gibbs : fam_gibbs (e_fam F) (t_par T j) }.

(** A deterministic node [j]: its moments exist and have the right type; for messages of
    the right type, the message to parent [k] holds the coefficients of that parent's
    moments in <message of the children, moments of the node>.  [need i]: messages to node
    [i] are needed. *)
Record det_typed (T : types) (at_ : nat -> place) (need : nat -> Prop) (D : detfn) (j : nat) (ps : list nat) : Prop := DetTyped {
  dy_mom : forall us, Forall2 (fun i u => moments_in (at_ i) (t_mom T i) u) ps us ->
    exists x, df_moments D us = Ok x /\ moments_in (at_ j) (t_mom T j) x;
  dy_msg : forall k i us m, nth_error ps k = Some i -> need i ->
    Forall2 (fun i u => moments_in (at_ i) (t_mom T i) u) ps us ->
    messages_in (at_ j) (t_msg T j) m -> Forall2 (variable_of (pl_plates (at_ j))) (pl_dims (at_ j)) m ->
    silent (at_ j) m ->
    exists y, df_message D (at_ j) (at_ i) k m (exclude k us) = Ok y /\ messages_in (at_ i) (t_msg T i) y /\
      silent (at_ i) y /\
      forall us' x x', Forall2 (fun i u => moments_in (at_ i) (t_mom T i) u) ps us' -> exclude k us' = exclude k us ->
        df_moments D us = Ok x -> df_moments D us' = Ok x' ->
        (pairing (at_ j) m x' - pairing (at_ j) m x =
         pairing (at_ i) y (nth k us' []) - pairing (at_ i) y (nth k us []))%R }.

(** Node [v] is node [i] or computed from it by deterministic nodes. *)
Inductive computed_from (net : dnet) (i : nat) : nat -> Prop :=
| cf_self : computed_from net i i
| cf_step : forall v D w, dt_kind net v = KDet D -> In w (dt_parents net v) ->
    computed_from net i w -> computed_from net i v.

(** Node [v] is a stochastic node or computed from one: only these receive messages. *)
Definition live (net : dnet) (v : nat) : Prop :=
  exists i F, dt_kind net i = KStoch F /\ computed_from net i v.

Record dnet_ok (net : dnet) (T : types) (st : nstate) : Prop := DnetOk {
  (* nodes are constructed after their parents *)
  do_order : forall j i, j < dt_size net -> In i (dt_parents net j) -> i < j;
  (* the parents of a node are independent *)
  do_unique : forall i F j k k' v v', dt_kind net i = KStoch F -> j < dt_size net ->
    nth_error (dt_parents net j) k = Some v -> nth_error (dt_parents net j) k' = Some v' ->
    computed_from net i v -> computed_from net i v' -> k = k';
  do_mask : forall j, j < dt_size net -> broadcasts_to (ash (n_mask (st j))) (n_plates (st j));
  do_cone : forall j, j < dt_size net -> cone (n_dims (st j)) (t_msg T j);
  do_values : forall j, j < dt_size net -> on_values (n_dims (st j)) (t_mom T j);
  (* stochastic nodes *)
  do_node : forall j F, j < dt_size net -> dt_kind net j = KStoch F -> node_ok F (t_par T j) (st j);
  do_mom : forall j F, j < dt_size net -> dt_kind net j = KStoch F ->
    moments_in (place_of (st j)) (t_mom T j) (n_u (st j));
  do_stoch : forall j F, j < dt_size net -> dt_kind net j = KStoch F -> stoch_typed T F (n_ann (st j)) j (dt_parents net j);
  do_arity : forall j F, j < dt_size net -> dt_kind net j = KStoch F ->
    length (e_pdims F) = length (dt_parents net j);
  do_link : forall j F k i, j < dt_size net -> dt_kind net j = KStoch F ->
    nth_error (dt_parents net j) k = Some i -> link_ok F (st j) (st i) k;
  (* deterministic nodes *)
  do_det : forall j D, j < dt_size net -> dt_kind net j = KDet D -> det_typed T (fun i => place_of (st i)) (live net) D j (dt_parents net j) }.
