(** The distribution objects of Families.v and Markov.v as array functions: what
    compute_moments_and_cgf does on the arrays of a node with plates.  NumPy
    applies the formulas to every plate; the model evaluates the per-plate formula
    at every plate of the node and returns full arrays (the code keeps axes of
    length one).  No proofs here. *)
From Coq Require Import List Arith ZArith Bool Reals.
From Verif Require Import Base NumPy SpecArray ExtReal Families Markov SpecMarkov.
Import ListNotations.
Open Scope nat_scope.

(** A family: the shapes of its parameters, and its per-plate
    compute_moments_and_cgf on parameters given as functions of the variable
    indices. *)
Record family := Fam {
  fam_dims : list (list nat);
  fam_moments : list (env -> R) -> res (list (env -> R) * R) }.

(** The parameters of plate [p]. *)
Definition at_plate (dims : list (list nat)) (phi : list (arr R)) (p : env) : list (env -> R) :=
  map (fun da => fun v => bget (snd da) (join (length (fst da)) p v)) (combine dims phi).

(** An exception at any plate is an exception of the whole call. *)
Definition lift_moments (F : family) (plates : list nat) (phi : list (arr R)) (mask : arr bool)
  : res (list (arr R) * arr R) :=
  if forallb (fun p => is_ok (fam_moments F (at_plate (fam_dims F) phi p))) (all_indices plates)
  then
    let at_ p := match fam_moments F (at_plate (fam_dims F) phi p) with
                 | Ok r => r | Err _ => ([], 0%R) end in
    Ok (map (fun id => Arr (plates ++ snd id) (fun e =>
               nth (fst id) (fst (at_ (fun k => e (k + length (snd id))%nat))) (fun _ => 0%R)
                   (fun k => if k <? length (snd id) then e k else 0)))
          (combine (seq 0 (length (fam_dims F))) (fam_dims F)),
        Arr plates (fun p => snd (at_ p)))
  else Err ValueError.

Definition as_vec (f : env -> R) : vec := fun i => f (upd env0 0 i).
Definition of_vec (u : vec) : env -> R := fun v => u (v 0%nat).

(** poisson.py 83-90 *)
Definition poisson_family : family := Fam [[]] (fun phi =>
  match phi with
  | [p] => let '(u, g) := poisson_moments (p env0) in Ok ([fun _ => u], g)
  | _ => Err IndexError end).
(** binomial.py 101-107 (Bernoulli: trials = 1) *)
Definition binomial_family (N : R) : family := Fam [[]] (fun phi =>
  match phi with
  | [p] => let '(u, g) := binomial_moments N (p env0) in Ok ([fun _ => u], g)
  | _ => Err IndexError end).
(** gamma.py 124-148 *)
Definition gamma_family (gammaln digamma : R -> R) : family := Fam [[]; []] (fun phi =>
  match phi with
  | [p; q] => '(u, g) <- gamma_moments gammaln digamma (p env0, q env0) ;;
              Ok ([fun _ => fst u; fun _ => snd u], g)
  | _ => Err IndexError end).
(** dirichlet.py 130-160 (Beta: K = 2) *)
Definition dirichlet_family (gammaln digamma : R -> R) (K : nat) : family := Fam [[K]] (fun phi =>
  match phi with
  | [p] => '(u, g) <- dirichlet_moments gammaln digamma K (as_vec p) ;; Ok ([of_vec u], g)
  | _ => Err IndexError end).
(** multinomial.py 101-120 (Categorical: trials = 1) *)
Definition multinomial_family (N : R) (K : nat) : family := Fam [[K]] (fun phi =>
  match phi with
  | [p] => let '(u, g) := multinomial_moments N K (as_vec p) in Ok ([of_vec u], g)
  | _ => Err IndexError end).
(** categorical_markov_chain.py 127-135: N states, K categories.  Axis 0 is the
    last one. *)
Definition markov_family (N K : nat) : family := Fam [[K]; [N - 1; K; K]] (fun phi =>
  match phi with
  | [p; q] =>
      r <- cmc_moments_and_cgf N K (fun i => Fin (p (upd env0 0 i)))
             (fun n i j => Fin (q (upd (upd (upd env0 2 n) 1 i) 0 j))) ;;
      Ok ([fun v => chain_u0 (Ok r) (v 0%nat);
           fun v => chain_u1 (Ok r) (v 2%nat) (v 1%nat) (v 0%nat)], chain_cgf (Ok r))
  | _ => Err IndexError end).
