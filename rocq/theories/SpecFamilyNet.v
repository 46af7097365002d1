(** Specification of models made of the nodes of FamilyNet.v. *)
From Coq Require Import List Arith ZArith Bool Reals.
From Verif Require Import Base Shapes SpecShapes NumPy MiscArray SpecArray ExpFam SpecExpFam
  SpecUpdate Families FamilyDist SpecFamilyDist Network SpecNetwork FamilyNet.
Import ListNotations.
Open Scope R_scope.

(** Which kinds of nodes a node of kind [kj] can have as its parent number [k]: the
    conjugate one or a constant. *)
Definition may_be_parent (kj : kind) (k : nat) (ki : kind) : Prop :=
  match kj, k, ki with
  | _, _, KConstant dims => True
  | KPoisson, O, KGamma => True
  | KGamma, S O, KGamma => True
  | KBinomial _, O, KDirichlet K => K = 2%nat
  | KMultinomial _ K, O, KDirichlet K' => K' = K
  | _, _, _ => False
  end.

(** The values of the moments (component [c]) of a node. *)
Definition moment_range (k : kind) (c : nat) (x : R) : Prop :=
  match k, c with
  | KPoisson, O => 0 <= x
  | KBinomial N, O => 0 <= x <= N
  | KMultinomial _ _, O => 0 <= x
  | KGamma, O => 0 < x
  | _, _ => True
  end.
(** What a node asks of the moments (component [c]) of its parent number [k]:
    positive shape, rate and concentration. *)
Definition required (kj : kind) (k c : nat) (x : R) : Prop :=
  match kj, k, c with
  | KGamma, O, O => 0 < x
  | KGamma, S O, O => 0 < x
  | KDirichlet _, O, O => 0 < x
  | _, _, _ => True
  end.

Definition all_entries (n : efnode) (P : nat -> R -> Prop) : Prop :=
  forall c d a e, nth_error (n_dims n) c = Some d -> nth_error (n_u n) c = Some a ->
    valid (n_plates n ++ d) e -> P c (bget a e).

Definition kind_ok (k : kind) : Prop :=
  match k with
  | KBinomial N => 0 < N
  | KMultinomial N K => 0 < N /\ (0 < K)%nat
  | KDirichlet K => (0 < K)%nat
  | _ => True
  end.

(** Natural parameters. *)
Definition kind_dom (k : kind) (phi : list (env -> R)) : Prop :=
  match k, phi with
  | KGamma, [_; q] => 0 < q env0
  | KGamma, _ => False
  | _, _ => True
  end.

(** A model in a state that can be reached: the plates fit, every node has an
    ancestor of the right kind, the observed data and the constants are in range, and
    what is not observed has the moments of its natural parameters. *)
Record model_ok (lg psi : R -> R) (M : model) (st : nstate) : Prop := ModelOk {
  mo_kind : forall i, (i < md_size M)%nat -> kind_ok (md_kind M i);
  mo_node : forall i, (i < md_size M)%nat ->
    node_ok (efam_of lg psi (md_kind M i)) (kind_dom (md_kind M i)) (st i);
  mo_constant : forall i dims, (i < md_size M)%nat -> md_kind M i = KConstant dims ->
    np_all (n_obs (st i)) = true;
  mo_range : forall i, (i < md_size M)%nat -> all_entries (st i) (moment_range (md_kind M i));
  mo_arity : forall j, (j < md_size M)%nat ->
    length (md_parents M j) = length (e_pdims (efam_of lg psi (md_kind M j)));
  mo_distinct : forall j, (j < md_size M)%nat -> NoDup (md_parents M j);
  mo_link : forall j k i, (j < md_size M)%nat -> nth_error (md_parents M j) k = Some i ->
    (i < md_size M)%nat /\ i <> j /\ may_be_parent (md_kind M j) k (md_kind M i) /\
    link_ok (efam_of lg psi (md_kind M j)) (st j) (st i) k /\
    (forall dims, md_kind M i = KConstant dims -> all_entries (st i) (required (md_kind M j) k)) }.
