(** Model of MultiMixture (nodes/mixture.py 548-569) and of the constructors it nests.
    No proofs here.  As in Construct.v only plates and dims are modelled; the thetas are
    nodes (an array becomes one with as many categories as the mixed axis is long, see
    ConstNode.v), and the mixed distribution is one with the default squeeze
    (stochastic.py 73-79), which only binomial and multinomial replace. *)
From Coq Require Import List Arith Bool.
From Verif Require Import Base Shapes SpecShapes AddAxis Construct.
Import ListNotations.
Open Scope nat_scope.

(** What a _constructor returns: the plates of the node, the plates that
    plates_from_parent of its distribution makes of those of each parent, and the dims. *)
Record con := Con { c_plates : shape; c_fronts : list shape; c_dims : list shape }.

(** mixture.py 436-486: Mixture._constructor with the cluster plate -1-c, when
    node_class._constructor has returned [inner]; 326-342: plates_from_parent. *)
Definition mixture_con (z : par) (c : nat) (given : option shape) (inner : con) : res con :=
  if length (c_plates inner) <? c + 1 then Err ValueError
  else
    let K := ax (c_plates inner) c in
    rest <- py_pop c (c_plates inner) ;;
    Kz <- dim00 z ;;
    if negb (Kz =? K) then Err ValueError
    else
      plates <- total_plates given [rest; p_plates z] ;;
      popped <- mapM (pop_plate c) (c_fronts inner) ;;
      Ok (Con plates (p_plates z :: popped) (c_dims inner)).
(** node.py 279-286: the check of Node.__init__. *)
Definition new_node (given : option shape) (c : con) : res node :=
  _ <- total_plates given (c_fronts c) ;; Ok (c_plates c, c_dims c).

(** The positional arguments of Mixture: a node, the class Mixture, or another class with
    its arguments, given by what its _constructor returns. *)
Inductive arg := ANode (z : par) | AMixture | ABase (b : res con).
(** Mixture._constructor( *args) *)
Fixpoint mixture_args (l : list arg) : res con :=
  match l with
  | ANode z :: AMixture :: rest => inner <- mixture_args rest ;; mixture_con z 0 None inner
  | ANode z :: ABase b :: [] => inner <- b ;; mixture_con z 0 None inner
  | _ => Err TypeError
  end.
(** Mixture( *args, plates=given) *)
Definition mixture_call (given : option shape) (l : list arg) : res node :=
  match l with
  | ANode z :: AMixture :: rest =>
      inner <- mixture_args rest ;; c <- mixture_con z 0 given inner ;; new_node given c
  | ANode z :: ABase b :: [] =>
      inner <- b ;; c <- mixture_con z 0 given inner ;; new_node given c
  | _ => Err TypeError
  end.

(** misc.py 670-683: zipper_merge of two lists, list(sum(zip(a, b), ())) *)
Definition zipper_merge {A} (a b : list A) : list A := flat_map (fun p => [fst p; snd p]) (combine a b).
(** theta[(Ellipsis,) + i*(None,)] *)
Definition trailing (i : nat) (z : par) : par := Par (p_plates z ++ repeat 1 i) (p_dims z).
Fixpoint enumerate_from {A} (i : nat) (l : list A) : list (nat * A) :=
  match l with [] => [] | x :: l => (i, x) :: enumerate_from (S i) l end.
(** mixture.py 548-569 *)
Definition multi_mixture (thetas : list par) (base : res con) (given : option shape) : res node :=
  let N := length thetas in
  let thetas := map (fun p => ANode (trailing (fst p) (snd p))) (enumerate_from 0 thetas) in
  let args := firstn 1 thetas ++ zipper_merge (repeat AMixture (N - 1)) (skipn 1 thetas) ++ [ABase base] in
  mixture_call given args.
