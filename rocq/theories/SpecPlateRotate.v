(** What the rotation of a GaussianARD node and of its plates does to the lower bound. *)
From Coq Require Import List Arith Bool Reals.
From Verif Require Import Base NumPy Families Linalg MatBridge SpecLinalg Gaussian SpecGaussian BlockBanded GaussMarkov SpecGaussMarkov
  RotateARD SpecRotateARD RotateChain SpecRotateChain PlateRotate.
Import ListNotations.
Open Scope R_scope.

(** X as a node of the model: its natural parameters and g in every plate, and what else the
    lower bound depends on: <log alpha> when alpha is not updated, gammaln(a0) and <log b0>
    when it is. *)
Record plate_model := PlateModel {
  pm_nodes : plate_nodes ;
  pm_phi : nat -> vec * mat ; pm_g : nat -> R ;
  pm_logalpha : nat -> vec ; pm_ga0 : nat -> nat -> R ; pm_logb0 : nat -> nat -> R }.

Section Spec.
Variables lg psi : R -> R.
Variable m : plate_model.
Let n := pm_nodes m.
Let P := pn_P n.
Let M := pn_M n.

(** A plate of X after X.rotate(R, inv, logdet) and X.rotate_plates(Q): its moments, natural
    parameters and g. *)
Definition plate_rotated (Rm inv Q : mat) (logdet : R) (p : nat) : res ((vec * mat) * (vec * mat) * R) :=
  let row := fun k => ard_rotate M Rm inv logdet (pn_u n k) (pm_phi m k) (pm_g m k) in
  let u := fun k => fst (fst (row k)) in
  let phi := fun k => snd (fst (row k)) in
  '(u', g') <- rotate_plates P M Q u phi p ;;
  Ok (u', plates_phi P M Q u phi p, g').

(** <mu> and <mu^2> of an element, and <(x - mu)^2> for the moments [u] of X. *)
Definition mean_mu (p k : nat) : R := pn_alpha_mu n p k / pn_alpha n p k.
Definition second_mu (p k : nat) : R := pn_alpha_mu2 n p k / pn_alpha n p k.
Definition squared (u : vec * mat) (p k : nat) : R := snd u k k - 2 * fst u k * mean_mu p k + second_mu p k.

(** The element of alpha that the element k of X in plate p uses, and the sum over the elements
    of X that use the element (c, d) of alpha. *)
Definition row_of (p : nat) : nat := if pn_pa n then p else O.
Definition col_of (k : nat) : nat := if pn_da n then k else O.
Definition users (F : nat -> nat -> R) (c d : nat) : R :=
  rsum P (fun p => rsum M (fun k => if ((row_of p =? c) && (col_of k =? d))%nat then F p k else 0)).

(** The terms of X in the lower bound: <log p(X|mu, alpha)> - <log q(X)>. *)
Definition X_terms (alpha logalpha : nat -> nat -> R) (x : nat -> (vec * mat) * (vec * mat) * R) : R :=
  rsum P (fun p =>
    let '(u, phi, g) := x p in
    let par := ((fun k => alpha p k * mean_mu p k), (fun k => alpha p k * second_mu p k), (fun k => alpha p k), (fun k => logalpha p k)) in
    ard_cgf M par - g + (innerv M (fst (ard_phi par)) (fst u) + innerm M (snd (ard_phi par)) (snd u))
    - (innerv M (fst phi) (fst u) + innerm M (snd phi) (snd u))).
(** alpha after its update. *)
Definition updated_a (g : plate_gamma) (c d : nat) : R := at2 (pg_a0 g) c d + 0.5 * users (fun _ _ => 1) c d.
Definition updated_b (g : plate_gamma) (x : nat -> (vec * mat) * (vec * mat) * R) (c d : nat) : R :=
  at2 (pg_b0 g) c d + 0.5 * users (fun p k => squared (fst (fst (x p))) p k) c d.
Definition alpha_terms (g : plate_gamma) (x : nat -> (vec * mat) * (vec * mat) * R) : R :=
  rsum (if pn_pa n then P else 1%nat) (fun c => rsum (if pn_da n then M else 1%nat) (fun d =>
    gamma_term lg psi (at2 (pg_a0 g) c d, pm_ga0 m c d) (at2 (pg_b0 g) c d, pm_logb0 m c d)
               (- updated_b g x c d, updated_a g c d))).
(** The terms of X and of alpha after the rotation to [x] and the update of alpha. *)
Definition terms_after (x : nat -> (vec * mat) * (vec * mat) * R) : R * R :=
  match pn_gamma n with
  | Some g =>
      (X_terms (fun p k => updated_a g (row_of p) (col_of k) / updated_b g x (row_of p) (col_of k))
               (fun p k => psi (updated_a g (row_of p) (col_of k)) - ln (updated_b g x (row_of p) (col_of k))) x,
       alpha_terms g x)
  | None => (X_terms (pn_alpha n) (pm_logalpha m) x, 0)
  end.

(** The state of the nodes: q(X) is a normal distribution in every plate; <mu^2> >= <mu>^2; the
    rates of the prior of alpha are positive and phi[1] is that of an update; alpha does not
    vary along the axes that it does not have. *)
Record plates_fit : Prop := {
  pf_X : forall p, (p < P)%nat -> symmetric M (snd (pm_phi m p)) /\ ard_moments M (pm_phi m p) = Ok (pn_u n p, pm_g m p) ;
  pf_mu : forall p k, (p < P)%nat -> (k < M)%nat -> mean_mu p k ^ 2 <= second_mu p k ;
  pf_gamma : forall g, pn_gamma n = Some g -> forall c d, (c < if pn_pa n then P else 1)%nat -> (d < if pn_da n then M else 1)%nat ->
    0 < at2 (pg_b0 g) c d /\ pg_a g c d = updated_a g c d ;
  pf_alpha : pn_gamma n = None -> forall p k, (p < P)%nat -> (k < M)%nat -> pn_alpha n p k = pn_alpha n (row_of p) (col_of k) }.
End Spec.

(** The prior of alpha has one shape and one rate. *)
Definition one_prior (n : plate_nodes) : Prop :=
  forall g, pn_gamma n = Some g -> a2_r (pg_a0 g) = false /\ a2_c (pg_a0 g) = false /\ a2_r (pg_b0 g) = false /\ a2_c (pg_b0 g) = false.
(** Every column sum of Q is different from zero. *)
Definition sums_nonzero (P : nat) (Q : mat) : Prop := forall p, (p < P)%nat -> rsum P (fun i => Q i p) <> 0.
(** The objective. *)
Definition plate_objective (n : plate_nodes) (Rm Q : mat) (logdet : R) : R :=
  let '(x, a) := plate_terms n Rm Q logdet in x + a.
