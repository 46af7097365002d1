(** Specifications for families and networks of nodes. *)
From Coq Require Import List Arith ZArith Bool Reals.
From Verif Require Import Base Shapes SpecShapes NumPy MiscArray SpecArray ExpFam SpecExpFam
  SpecUpdate FamilyDist.
Import ListNotations.
Open Scope nat_scope.

(** The inner product of per-plate parameters and moments. *)
Fixpoint fdot (dims : list shape) (a u : list (env -> R)) : R :=
  match dims, a, u with
  | d :: dims', x :: a', y :: u' => (total d (fun v => x v * y v) + fdot dims' a' u')%R
  | _, _, _ => 0%R
  end.

Definition fam_gibbs (F : family) (dom : list (env -> R) -> Prop) : Prop :=
  forall phi phi' u g u' g', length phi = length (fam_dims F) -> length phi' = length (fam_dims F) ->
    dom phi -> dom phi' -> fam_moments F phi = Ok (u, g) -> fam_moments F phi' = Ok (u', g') ->
    length u = length (fam_dims F) /\
    (fdot (fam_dims F) phi u - fdot (fam_dims F) phi' u + g - g' >= 0)%R.
Definition fam_strict (F : family) (dom : list (env -> R) -> Prop) : Prop :=
  forall phi phi' u g u' g', length phi = length (fam_dims F) -> length phi' = length (fam_dims F) ->
    dom phi -> dom phi' -> fam_moments F phi = Ok (u, g) -> fam_moments F phi' = Ok (u', g') ->
    (fdot (fam_dims F) phi u - fdot (fam_dims F) phi' u + g - g' = 0)%R ->
    length u = length (fam_dims F) /\ length u' = length (fam_dims F) /\
    forall i d v, nth_error (fam_dims F) i = Some d -> valid d v ->
      nth i u (fun _ => 0%R) v = nth i u' (fun _ => 0%R) v.

(** The natural parameters of every plate belong to the family. *)
Definition proper_at (F : family) (dom : list (env -> R) -> Prop) (plates : shape)
           (phi : list (arr R)) : Prop :=
  forall p, valid plates p -> dom (at_plate (fam_dims F) phi p).

