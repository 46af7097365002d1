(** The distribution objects of Families.v with their parents, for networks
    (Network.v).  No proofs here. *)
From Coq Require Import List Arith ZArith Bool Reals.
From Verif Require Import Base NumPy SpecArray Families FamilyDist Network.
Import ListNotations.
Open Scope R_scope.

Definition zero0 : env -> R := fun _ => 0.

(** poisson.py 55-128; the parent is [<lambda>, <log lambda>]. *)
Definition poisson_efam : efam := EFam poisson_family [[[]; []]]
  (fun ups => match ups with
     | [[l; ll]] => [fun _ => poisson_phi (l env0, ll env0)] | _ => [zero0] end)
  (fun ups => match ups with [[l; ll]] => poisson_cgf (l env0, ll env0) | _ => 0 end)
  (fun _ x _ => match x with
     | [x0] => let m := poisson_message (x0 env0) in [fun _ => fst m; fun _ => snd m]
     | _ => [zero0; zero0] end).

(** binomial.py 61-134; the parent is [<log p, log(1-p)>]. *)
Definition binomial_efam (N : R) : efam := EFam (binomial_family N) [[[2%nat]]]
  (fun ups => match ups with [[p]] => [fun _ => binomial_phi (as_vec p)] | _ => [zero0] end)
  (fun ups => match ups with [[p]] => binomial_cgf N (as_vec p) | _ => 0 end)
  (fun _ x _ => match x with
     | [x0] => [of_vec (binomial_message N (x0 env0))] | _ => [zero0] end).

(** multinomial.py 62-213; the parent is [<log p>]. *)
Definition multinomial_efam (N : R) (K : nat) : efam := EFam (multinomial_family N K) [[[K]]]
  (fun ups => match ups with [[p]] => [of_vec (multinomial_phi (as_vec p))] | _ => [zero0] end)
  (fun ups => match ups with [[p]] => multinomial_cgf (as_vec p) | _ => 0 end)
  (fun _ x _ => match x with
     | [x0] => [of_vec (multinomial_message (as_vec x0))] | _ => [zero0] end).

(** gamma.py 90-211; the parents are [a, gammaln a] and [<b>, <log b>]. *)
Definition gamma_efam (lg psi : R -> R) : efam := EFam (gamma_family lg psi) [[[]; []]; [[]; []]]
  (fun ups => match ups with
     | [[a; ga]; [b; lb]] =>
         let p := gamma_phi (a env0, ga env0) (b env0, lb env0) in [fun _ => fst p; fun _ => snd p]
     | _ => [zero0; zero0] end)
  (fun ups => match ups with
     | [[a; ga]; [b; lb]] => gamma_cgf (a env0, ga env0) (b env0, lb env0) | _ => 0 end)
  (fun k x ups => match k, x, ups with
     | O, [x0; x1], [_; [b; lb]] =>
         let m := gamma_message_a (x0 env0, x1 env0) (b env0, lb env0) in
         [fun _ => fst m; fun _ => snd m]
     | S O, [x0; x1], [[a; ga]; _] =>
         let m := gamma_message_b (x0 env0, x1 env0) (a env0, ga env0) in
         [fun _ => fst m; fun _ => snd m]
     | _, _, _ => [zero0; zero0] end).

(** dirichlet.py 107-231; the parent is [alpha, gammaln(sum alpha) - sum gammaln alpha]. *)
Definition dirichlet_efam (lg psi : R -> R) (K : nat) : efam :=
  EFam (dirichlet_family lg psi K) [[[K]; []]]
  (fun ups => match ups with
     | [[al; z]] => [of_vec (dirichlet_phi (as_vec al, z env0))] | _ => [zero0] end)
  (fun ups => match ups with [[al; z]] => dirichlet_cgf (as_vec al, z env0) | _ => 0 end)
  (fun _ x _ => match x with
     | [x0] => let m := dirichlet_message (as_vec x0) in [of_vec (fst m); fun _ => snd m]
     | _ => [zero0; zero0] end).

(** constant.py: a Constant has moments and nothing else.  It is a fully observed
    node here that contributes 0 to the bound. *)
Definition constant_efam (dims : list (list nat)) : efam :=
  EFam (Fam dims (fun _ => Err NotImplementedError)) []
    (fun _ => map (fun _ => zero0) dims) (fun _ => 0) (fun _ _ _ => []).

(** Models made of these nodes. *)
Inductive kind :=
| KPoisson | KBinomial (N : R) | KMultinomial (N : R) (K : nat) | KGamma | KDirichlet (K : nat)
| KConstant (dims : list (list nat)).

Definition efam_of (lg psi : R -> R) (k : kind) : efam :=
  match k with
  | KPoisson => poisson_efam
  | KBinomial N => binomial_efam N
  | KMultinomial N K => multinomial_efam N K
  | KGamma => gamma_efam lg psi
  | KDirichlet K => dirichlet_efam lg psi K
  | KConstant dims => constant_efam dims
  end.

Record model := Model { md_size : nat; md_kind : nat -> kind; md_parents : nat -> list nat }.
Definition net_of (lg psi : R -> R) (M : model) : network :=
  Net (md_size M) (fun i => NN (efam_of lg psi (md_kind M i)) (md_parents M i)).
