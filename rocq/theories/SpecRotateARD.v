(** What the rotation of a GaussianARD node does to the lower bound. *)
From Coq Require Import List Arith ZArith Bool Reals.
From Verif Require Import Base Shapes SpecShapes NumPy MiscArray SpecArray SpecDot Families Linalg SpecLinalg Gaussian SpecGaussian MatBridge RotateARD.
Import ListNotations.
Open Scope R_scope.

(** X as a node of the model: its natural parameters and g in every plate, and the full
    parents of alpha (with the gamma function and the expected logarithm). *)
Record rot_model := RotModel {
  rm_nodes : ard_nodes ;
  rm_phi : env -> vec * mat ; rm_g : env -> R ;
  rm_logalpha : env -> R ;      (* <log alpha>, when alpha is not updated *)
  rm_ga0 : env -> R ;           (* gammaln(a0) *)
  rm_logb0 : env -> R }.        (* <log b0> *)

Section Spec.
Variables lg psi : R -> R.
Variable M : rot_model.
Let n := rm_nodes M.
Let P := rn_plates n.
Let D := rn_D n.

(** The moments of X in a plate, and those of mu (which is independent of alpha). *)
Definition x_mean (p : env) : vec := fun i => bget (rn_X n) (join 1 p (upd env0 0 i)).
Definition x_second (p : env) : mat := fun i j => bget (rn_XX n) (mat_at p i j).
Definition mu_mean (e : env) : R := bget (rn_alpha_mu n) e / bget (rn_alpha n) e.
Definition mu_second (e : env) : R := bget (rn_alpha_mu2 n) e / bget (rn_alpha n) e.

(** X in a plate after X.rotate(R, inv, logdet). *)
Definition rotated (Rm inv : mat) (logdet : R) (p : env) : (vec * mat) * (vec * mat) * R :=
  ard_rotate D Rm inv logdet (x_mean p, x_second p) (rm_phi M p) (rm_g M p).

(** <(x - mu)^2> of an element of X after the rotation. *)
Definition deviation (Rm inv : mat) (logdet : R) (e : env) : R :=
  let '(u, _, _) := rotated Rm inv logdet (outer_plate e) in
  snd u (e 0%nat) (e 0%nat) - 2 * fst u (e 0%nat) * mu_mean e + mu_second e.

(** The term of a plate of X in the lower bound when its parent has the moments [par]:
    <log p(X|parents)> - <log q(X)> of the exponential family. *)
Definition x_term (par : vec * vec * vec * vec) (u phi : vec * mat) (g : R) : R :=
  ard_cgf D par - g
  + (innerv D (fst (ard_phi par)) (fst u) + innerm D (snd (ard_phi par)) (snd u))
  - (innerv D (fst phi) (fst u) + innerm D (snd phi) (snd u)).
(** The moments of the parent of X in a plate, from those of alpha. *)
Definition parent_moments (alpha logalpha : env -> R) (p : env) : vec * vec * vec * vec :=
  let e i := join 1 p (upd env0 0 i) in
  ((fun i => alpha (e i) * mu_mean (e i)), (fun i => alpha (e i) * mu_second (e i)),
   (fun i => alpha (e i)), (fun i => logalpha (e i))).
(** The terms of all plates of X. *)
Definition X_bound (alpha logalpha : env -> R) (Rm inv : mat) (logdet : R) : R :=
  total P (fun p =>
    let '(u, phi, g) := rotated Rm inv logdet p in
    x_term (parent_moments alpha logalpha p) u phi g).

(** The gamma node alpha after its update: alpha.update() adds one half of every element of X
    that belongs to the plate to the shape, and one half of its deviation to the rate. *)
Definition new_a (a : gamma_alpha) (s : env) : R :=
  bget (ga_a0 a) s + 0.5 * fibre_sum (P ++ [D]) (ga_plates a) s (fun _ => 1).
Definition new_b (a : gamma_alpha) (Rm inv : mat) (logdet : R) (s : env) : R :=
  bget (ga_b0 a) s + 0.5 * fibre_sum (P ++ [D]) (ga_plates a) s (deviation Rm inv logdet).
Definition new_alpha (a : gamma_alpha) (Rm inv : mat) (logdet : R) (e : env) : R :=
  let s := clip (ga_plates a) e in new_a a s / new_b a Rm inv logdet s.
Definition new_logalpha (a : gamma_alpha) (Rm inv : mat) (logdet : R) (e : env) : R :=
  let s := clip (ga_plates a) e in psi (new_a a s) - ln (new_b a Rm inv logdet s).
(** The term of a plate of alpha with natural parameters [phi] = (-b, a). *)
Definition gamma_term (ua ub phi : R * R) : R :=
  match gamma_moments lg psi phi with
  | Ok (u, g) => gamma_cgf ua ub - g + (fst (gamma_phi ua ub) - fst phi) * fst u + (snd (gamma_phi ua ub) - snd phi) * snd u
  | Err _ => 0
  end.
Definition alpha_bound (a : gamma_alpha) (Rm inv : mat) (logdet : R) : R :=
  total (ga_plates a) (fun s =>
    gamma_term (bget (ga_a0 a) s, rm_ga0 M s) (bget (ga_b0 a) s, rm_logb0 M s)
               (- new_b a Rm inv logdet s, new_a a s)).

(** The lower-bound terms of X and of alpha after rotate(R): X is rotated and then alpha, if it
    was given, is updated. *)
Definition bound_terms (Rm inv : mat) (logdet : R) : R * R :=
  match rn_gamma n with
  | Some a => (X_bound (new_alpha a Rm inv logdet) (new_logalpha a Rm inv logdet) Rm inv logdet,
               alpha_bound a Rm inv logdet)
  | None => (X_bound (bget (rn_alpha n)) (rm_logalpha M) Rm inv logdet, 0)
  end.

(** The nodes fit together: X and its parent have the right shapes, no plate axis is empty,
    alpha is positive.  When alpha is updated, X is its only child (its rate only depends on
    X). *)
Record rot_ok : Prop := {
  ro_plates : forall k, (0 < ax P k)%nat ;
  ro_D : (0 < D)%nat ;
  ro_X : variable_of P [D] (rn_X n) ;
  ro_XX : variable_of P [D; D] (rn_XX n) ;
  ro_alpha : broadcasts_to (ash (rn_alpha n)) (P ++ [D]) /\ broadcasts_to (ash (rn_alpha_mu n)) (P ++ [D]) /\
             broadcasts_to (ash (rn_alpha_mu2 n)) (P ++ [D]) ;
  ro_positive : forall e, valid (P ++ [D]) e -> 0 < bget (rn_alpha n) e ;
  ro_shape : broadcasts_to (rn_shape n) (P ++ [D]) /\ broadcasts_to (ash (rn_alpha n)) (rn_shape n) ;
  ro_gamma : forall a, rn_gamma n = Some a ->
    broadcasts_to (ga_plates a) (P ++ [D]) /\
    broadcasts_to (ash (ga_phi1 a)) (ga_plates a) /\ broadcasts_to (ash (ga_a0 a)) (ga_plates a) /\
    broadcasts_to (ash (ga_b0 a)) (ga_plates a) }.
(** The shape parameter of alpha is that of an update: alpha has been updated before. *)
Definition shape_updated : Prop :=
  forall a, rn_gamma n = Some a -> forall s, valid (ga_plates a) s -> bget (ga_phi1 a) s = new_a a s.
(** The moments are those of distributions: <(v.x)^2> >= <v.x>^2 for every v, <mu^2> >= <mu>^2;
    and the prior of alpha has a positive rate. *)
Record proper : Prop := {
  pr_X : forall p, valid P p -> forall v : vec,
    (innerv D v (x_mean p)) ^ 2 <= rsum D (fun i => rsum D (fun j => v i * x_second p i j * v j)) ;
  pr_mu : forall e, valid (P ++ [D]) e -> (mu_mean e) ^ 2 <= mu_second e ;
  pr_b0 : forall a, rn_gamma n = Some a -> forall s, valid (ga_plates a) s -> 0 < bget (ga_b0 a) s }.
End Spec.

(** The objective of the rotation object at R, with log|det R| computed. *)
Definition objective (n : ard_nodes) (s : ard_stats) (Rm : mat) : R :=
  match ard_terms n s Rm (ln (Rabs (mdet (rn_D n) Rm))) with Ok (x, a) => x + a | Err _ => 0 end.
(** R with the element (i, j) replaced. *)
Definition set_entry (A : mat) (i j : nat) (t : R) : mat :=
  fun k l => if (Nat.eqb k i && Nat.eqb l j)%bool then t else A k l.
