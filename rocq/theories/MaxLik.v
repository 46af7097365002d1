(** Model of the nodes of ml.py: parameters that are point estimates (MaximumLikelihood),
    deterministic functions of them (Function), and the converter that makes such a node
    usable where the moments of a Wishart variable are needed.  No proofs here.

    Simplifications: the value of a node is the flattened array, a function of the position
    (row-major); the size is kept beside it.  The plates of a child that are broadcast are
    summed before its message arrives (node.py 570-655, modelled in Message.v); the masks
    are all True, as Function and the converter send (ml.py 130-131, 237-238), and the
    child's own mask is in its message. *)
From Coq Require Import List Arith Bool Reals.
From Verif Require Import Base NumPy Families Linalg Gaussian.
Import ListNotations.
Open Scope R_scope.

(** wishart.py 55-74: WishartMoments.compute_fixed_moments with a gradient: the moments and
    the derivative with respect to the value. *)
Definition wishart_fixed_gradient (D : nat) (Lambda : mat) (gradient : mat * R)
  : res ((mat * R) * mat) :=
  L <- chol D Lambda ;;
  let u := (Lambda, chol_logdet D L) in
  let du := add_m (fst gradient) (scal_m (snd gradient) (chol_inv D L)) in
  Ok (u, du).

(** The moments a child asks for.  wishart.py 77-85: only WishartMoments has
    plates_from_shape and shape_from_plates. *)
Inductive wanted := WantsWishart | WantsOther.
(** ml.py 138-143, reached when the NodeConverter is created (converters.py 17, 36-45):
    plates_from_parent and plates_to_parent; any other moments raise AttributeError. *)
Definition delta_plates_from (w : wanted) (shape : list nat) : res (list nat) :=
  match w with
  | WantsWishart => Ok (firstn (length shape - 2) shape)
  | WantsOther => Err AttributeError
  end.
Definition delta_plates_to (w : wanted) (D : nat) (plates : list nat) : res (list nat) :=
  match w with WantsWishart => Ok (plates ++ [D] ++ [D]) | WantsOther => Err AttributeError end.

(** A child: the node it reads, its moments, the matrix size, the number of plates, and the
    message it sends for each plate (two arrays, for the moments Lambda and log|Lambda|). *)
Record consumer := Consumer {
  c_node : nat; c_dim : nat; c_plates : nat; c_m0 : nat -> mat; c_m1 : nat -> R }.
(** The matrix of plate q in an array of shape (plates, D, D). *)
Definition plate_matrix (D : nat) (v : vec) (q : nat) : mat := fun i j => v ((q * D + i) * D + j)%nat.
(** ml.py 120-121: DeltaInstanceConverter.compute_moments, plate q. *)
Definition delta_moments (c : consumer) (v : vec) (q : nat) : res (mat * R) :=
  wishartmoments_fixed (c_dim c) (plate_matrix (c_dim c) v q).
(** ml.py 124-127: compute_message_to_parent; the value of the result at each position. *)
Definition delta_message (c : consumer) (v : vec) : res vec :=
  let D := c_dim c in
  ds <- mapM (fun q => '(_, du) <- wishart_fixed_gradient D (plate_matrix D v q) (c_m0 c q, c_m1 c q) ;; Ok du)
             (seq 0 (c_plates c)) ;;
  Ok (fun e => nth (e / (D * D))%nat ds (fun _ _ => 0) ((e / D) mod D)%nat (e mod D)%nat).

(** ml.py 205-224: a Function node: the nodes it reads, the function, and one gradient
    function for each of them. *)
Record fnode := FNode {
  f_parents : list nat; f_size : nat;
  f_fun : list vec -> vec;
  f_grads : list (vec -> list vec -> vec) }.
(** A network: the sizes of the parameters (nodes 0, 1, ...), the functions (the nodes after
    them, each reading earlier nodes only) and the children. *)
Record mlnet := MLNet { n_params : list nat; n_funcs : list fnode; n_consumers : list consumer }.

Definition zero_v : vec := fun _ => 0.
Definition values_at (vs : list vec) (ks : list nat) : list vec := map (fun k => nth k vs zero_v) ks.
(** ml.py 168-169, 227-229: get_moments and _compute_moments of every node, in order. *)
Definition forward (net : mlnet) (theta : list vec) : list vec :=
  fold_left (fun vs f => vs ++ [f_fun f (values_at vs (f_parents f))]) (n_funcs net) theta.

(** node.py 657-688: _message_from_children for node k; ml.py 232-234:
    Function._compute_message_to_parent; a function that reads k several times is several
    children.  [fuel] bounds the depth of the recursion. *)
Fixpoint messages_from_children (fuel : nat) (net : mlnet) (vs : list vec) (k : nat) : res vec :=
  match fuel with
  | O => Err RuntimeError
  | S fuel =>
      cs <- mapM (fun c => if (c_node c =? k)%nat then delta_message c (nth k vs zero_v) else Ok zero_v)
                 (n_consumers net) ;;
      fs <- mapM (fun jf : nat * fnode => let (j, f) := jf in
               if existsb (Nat.eqb k) (f_parents f) then
                 m <- messages_from_children fuel net vs (length (n_params net) + j)%nat ;;
                 Ok (fun e => lsum (map (fun ig : nat * (vec -> list vec -> vec) => let (p, g) := ig in
                       if (p =? k)%nat then g m (values_at vs (f_parents f)) e else 0)
                     (combine (f_parents f) (f_grads f))))
               else Ok zero_v)
             (combine (seq 0 (length (n_funcs net))) (n_funcs net)) ;;
      Ok (fun e => lsum (map (fun v => v e) cs) + lsum (map (fun v => v e) fs))
  end.

(** ml.py 179-187: MaximumLikelihood.get_riemannian_gradient and get_gradient for parameter
    k at the parameters theta. *)
Definition ml_riemannian_gradient (net : mlnet) (theta : list vec) (k : nat) : res vec :=
  messages_from_children (S (length (n_params net) + length (n_funcs net))) net (forward net theta) k.
Definition ml_gradient (net : mlnet) (theta : list vec) (k : nat) : res vec :=
  rg <- ml_riemannian_gradient net theta k ;; Ok rg.

(** ml.py 172-176: lower_bound_contribution of a parameter of size n. *)
Definition ml_contribution (regularization : option (vec -> vec)) (n : nat) (x : vec) : R :=
  match regularization with None => 0 | Some r => - rsum n (r x) end.
(** ml.py 190-198: get_parameters and set_parameters. *)
Definition ml_get_parameters (x : vec) : list vec := [x].
Definition ml_set_parameters (x : list vec) : res vec :=
  match x with [v] => Ok v | _ => Err PyException end.
(** ml.py 201-202: what VB.update calls. *)
Definition ml_update (m : vec) : res vec := Err NotImplementedError.
