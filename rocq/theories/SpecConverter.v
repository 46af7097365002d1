(** Specification of the converter search. *)
From Coq Require Import List Arith Lia Bool.
From Verif Require Import Base Converter.
Import ListNotations.

(** A class hierarchy: issubclass is reflexive and transitive and contains the
    direct base classes. *)
Definition well_formed (h : hierarchy) : Prop :=
  (forall c, issub h c c = true) /\
  (forall a b c, issub h a b = true -> issub h b c = true -> issub h a c = true) /\
  (forall c b, In b (bases h c) -> issub h c b = true).

(** [chain c ks d]: applying the converters [ks] in turn to moments of class [c]
    gives moments of class [d]; a converter registered for a class applies to
    its subclasses too. *)
Inductive chain (h : hierarchy) (r : registry) : nat -> list nat -> nat -> Prop :=
| chain_nil : forall c, chain h r c [] c
| chain_cons : forall c a t k ks d, issub h c a = true -> In (t, k) (converters h r a) ->
    chain h r t ks d -> chain h r c (k :: ks) d.

(** A conversion from [c] to [target] or a subclass of it. *)
Definition conversion (h : hierarchy) (r : registry) (c target : nat) (ks : list nat) : Prop :=
  exists d, chain h r c ks d /\ issub h d target = true.

(** Whatever an ancestor of a class can be converted to, the class itself or one
    of its direct bases can be converted to. *)
Definition inherited (h : hierarchy) (r : registry) : Prop :=
  forall c a t k, issub h c a = true -> In (t, k) (converters h r a) ->
  exists b k', (b = c \/ In b (bases h c)) /\ In (t, k') (converters h r b).

(** [U] lists all classes. *)
Definition classes (h : hierarchy) (r : registry) (U : list nat) : Prop :=
  (forall c b, In c U -> In b (bases h c) -> In b U) /\
  (forall c t k, In c U -> In (t, k) (converters h r c) -> In t U).
