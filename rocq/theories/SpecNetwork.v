(** Specification of networks whose nodes satisfy the single-update property. *)
From Coq Require Import List Arith ZArith Bool Reals.
From Verif Require Import Base Shapes SpecShapes NumPy MiscArray SpecArray ExpFam SpecExpFam
  SpecUpdate FamilyDist SpecFamilyDist Network.
Import ListNotations.
Open Scope nat_scope.

(** Moments of the parents: as many arrays for each as the family expects. *)
Definition moments_of (F : efam) (ups : list (list (env -> R))) : Prop :=
  Forall2 (fun pd u => length u = length pd) (e_pdims F) ups.

(** E[log p(x | parents)] is affine in the moments of every parent, and the
    message to the parent is the coefficient (C20 for the family). *)
Definition conjugate (F : efam) : Prop :=
  (forall ups, length (e_phi F ups) = length (fam_dims (e_fam F))) /\
  (forall k x ups, k < length (e_pdims F) -> length (e_message F k x ups) = length (nth k (e_pdims F) [])) /\
  forall k x ups ups', k < length (e_pdims F) ->
    moments_of F ups -> moments_of F ups' ->
    length x = length (fam_dims (e_fam F)) -> exclude k ups = exclude k ups' ->
    let dims := fam_dims (e_fam F) in
    let pd := nth k (e_pdims F) [] in
    let m := e_message F k x (exclude k ups) in
    ((e_cgf F ups' + fdot dims (e_phi F ups') x) - (e_cgf F ups + fdot dims (e_phi F ups) x)
     = fdot pd m (nth k ups' []) - fdot pd m (nth k ups []))%R.

(** A node that can be updated: the shapes of its arrays fit, its annealing is
    positive, it has no bias, and unless it is fully observed its moments are those
    of its natural parameters, which belong to the family ([dom]). *)
Record node_ok (F : efam) (dom : list (env -> R) -> Prop) (n : efnode) : Prop := NodeOk {
  nk_dims : n_dims n = fam_dims (e_fam F);
  nk_shaped : well_shaped n;
  nk_phi : fits (n_plates n) (n_dims n) (n_phi n);
  nk_g : broadcasts_to (ash (n_g n)) (n_plates n);
  nk_f : broadcasts_to (ash (n_f n)) (n_plates n);
  nk_mask : broadcasts_to (ash (n_mask n)) (n_plates n);
  nk_bias : no_bias n;
  nk_ann : (0 < n_ann n)%R;
  nk_state : np_all (n_obs n) = true \/
    (consistent (net_dist F (n_plates n)) n /\ proper_at (e_fam F) dom (n_plates n) (n_phi n)) }.

(** The connection of node [n] (family [F]) to its parent number [k]: plates and
    plate multipliers of the parent broadcast to those of the node, the moments are
    of the expected kind, and the parent's mask is set wherever the node needs it. *)
Record link_ok (F : efam) (n par : efnode) (k : nat) : Prop := LinkOk {
  lk_dims : nth k (e_pdims F) [] = n_dims par;
  lk_plates : broadcasts_to (n_plates par) (n_plates n);
  lk_mult : broadcasts_to (n_mult par) (n_mult n);
  lk_mask : forall i, valid (n_plates n) i -> bget (n_mask n) i = true ->
            bget (n_mask par) i = true }.

Record net_ok (net : network) (dom : nat -> list (env -> R) -> Prop) (st : nstate) : Prop := NetOk {
  no_node : forall i, i < nt_size net -> node_ok (nn_fam (nt_node net i)) (dom i) (st i);
  no_conjugate : forall i, i < nt_size net -> conjugate (nn_fam (nt_node net i));
  no_gibbs : forall i, i < nt_size net -> fam_gibbs (e_fam (nn_fam (nt_node net i))) (dom i);
  no_distinct : forall j, j < nt_size net -> NoDup (nn_parents (nt_node net j));
  no_pdims : forall j, j < nt_size net ->
    length (e_pdims (nn_fam (nt_node net j))) = length (nn_parents (nt_node net j));
  no_link : forall j k i, j < nt_size net -> nth_error (nn_parents (nt_node net j)) k = Some i ->
    i < nt_size net /\ i <> j /\ link_ok (nn_fam (nt_node net j)) (st j) (st i) k }.

(** The natural parameters that the updates [l] compute belong to the families (for
    families without constraints this is always so). *)
Fixpoint stays_proper (net : network) (dom : nat -> list (env -> R) -> Prop) (st : nstate)
         (l : list nat) : Prop :=
  match l with
  | [] => True
  | i :: l' => forall st', vb_update1 net st i = Ok st' ->
      (np_all (n_obs (st i)) = true \/
       proper_at (e_fam (nn_fam (nt_node net i))) (dom i) (n_plates (st i)) (n_phi (st' i))) /\
      stays_proper net dom st' l'
  end.
