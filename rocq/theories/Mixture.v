(** Model of MixtureDistribution (nodes/mixture.py) and of the generic log-density of
    nodes/expfamily.py.  [c] is abs(cluster_plate) - 1: the cluster axis counted from the
    end of the plates of the mixed distribution; [nd] the number of variable axes of one
    array of parameters or moments.  The mixed ("raw") distribution enters through what it
    returns for the parameters' moments: its natural parameters [Phi], its
    log-normaliser [g], its message function [raw_message] and its map of weights
    [raw_weights].  The NaN warning (lines 231-244) is not modelled: there are no NaNs in
    the reals.  No proofs here. *)
From Coq Require Import List Arith ZArith Bool Reals.
From Verif Require Import Base Shapes SpecShapes NumPy MiscArray AddAxis Gate.
Import ListNotations.
Open Scope nat_scope.

(** np.where(a != 0, b, 0) *)
Definition where_nonzero (a b : arr R) : res (arr R) :=
  np_map2 (fun x y : R => if Req_EM_T x 0 then 0%R else y) a b.
(** np.expand_dims(a, -1-k): AxisError (a ValueError) when there are fewer than k axes. *)
Definition np_expand_dims {A} (a : arr A) (k : nat) : res (arr A) :=
  if k <=? ndim a then Ok (expand_at a k) else Err ValueError.

(** expfamily.py 45-61: compute_logpdf; [l]: number of variable axes, natural parameters and
    moments of each term. *)
Definition compute_logpdf (g f : arr R) (l : list (nat * arr R * arr R)) : res (arr R) :=
  L <- np_map2 Rplus g f ;;
  foldM (fun L (t : nat * arr R * arr R) =>
           let '(nd, phi, u) := t in
           w <- where_nonzero u phi ;;
           m <- np_multiply w u ;;
           if nd <=? ndim m then np_map2 Rplus L (np_sum m (seq 0 nd)) else Err ValueError)
        L l.

(** mixture.py 68-73 and 264-272: the log-normaliser with the cluster axis moved last. *)
Definition mixture_g (c : nat) (g : arr R) : res (arr R) :=
  if ndim g <? c + 1 then Ok (expand_at g 0) else moveaxis g (neg_axis c) (neg_axis 0).

(** mixture.py 175-244: compute_phi_from_parents, one array. *)
Definition mixture_phi (c nd : nat) (P Phi : arr R) : res (arr R) :=
  phi <- (if c + nd + 1 <=? ndim Phi then moveaxis Phi (neg_axis (c + nd)) (neg_axis 0)
          else Ok (expand_at Phi 0)) ;;
  p <- moveaxis (add_trailing_axes P nd) (neg_axis nd) (neg_axis 0) ;;
  phi <- where_nonzero p phi ;;
  sum_product [p; phi] None (AxScalar (-1)) false.

(** mixture.py 254-287: compute_cgf_from_parents. *)
Definition mixture_cgf (c : nat) (P g : arr R) : res (arr R) :=
  g1 <- mixture_g c g ;;
  sum_product [P; g1] None (AxScalar (-1)) false.

(** mixture.py 79-84: the moments with a unit cluster axis, when they reach that far. *)
Definition mixture_u (c nd : nat) (u : arr R) : res (arr R) :=
  if c + nd + 1 <=? ndim u then np_expand_dims u (c + nd) else Ok u.
(** mixture.py 53-106: the message to the cluster assignments; [l]: number of variable
    axes, natural parameters of the components and moments of the mixture node. *)
Definition mixture_message_z (c : nat) (g : arr R) (l : list (nat * arr R * arr R)) : res (arr R) :=
  g1 <- mixture_g c g ;;
  l1 <- mapM (fun t : nat * arr R * arr R => let '(nd, phi, u) := t in
                u1 <- mixture_u c nd u ;; Ok (nd, phi, u1)) l ;;
  L <- compute_logpdf g1 (scalar 0%R) l1 ;;
  moveaxis L (neg_axis c) (neg_axis 0).

(** mixture.py 108-155: the message to a parameter of the components; [us]: number of
    variable axes and moments of the mixture node, [nds]: number of variable axes of the
    arrays of the parent's moments. *)
Definition mixture_message_param (raw_message : list (arr R) -> res (list (arr R)))
           (raw_weights : arr R -> res (arr R)) (c : nat) (nds : list nat)
           (us : list (nat * arr R)) (z : arr R) : res (list (arr R)) :=
  u_self <- mapM (fun t : nat * arr R => np_expand_dims (snd t) (c + fst t)) us ;;
  m <- raw_message u_self ;;
  p <- atleast_nd z (c + 1) ;;
  p <- moveaxis p (neg_axis 0) (neg_axis c) ;;
  p <- raw_weights p ;;
  mapM (fun t : arr R * nat => np_multiply (fst t) (add_trailing_axes p (snd t))) (combine m nds).

(** mixture.py 158-172: compute_weights_to_parent; [raw] that of the mixed distribution. *)
Definition mixture_weights {A} (raw : arr A -> res (arr A)) (index c : nat) (w : arr A) : res (arr A) :=
  match index with
  | 0 => Ok w
  | _ => w <- (if c + 1 <=? ndim w then np_expand_dims w c else Ok w) ;; raw w
  end.
(** mixture.py 297-318: plates_to_parent (at least [c] plates: otherwise list.insert gets a
    negative position, which is not modelled). *)
Definition mixture_plates_to (raw : shape -> res shape) (index c K : nat) (plates : shape) : res shape :=
  match index with
  | 0 => Ok plates
  | _ => raw (py_insert (length plates - c) K plates)
  end.
(** mixture.py 321-341: plates_from_parent. *)
Definition mixture_plates_from (raw : shape -> res shape) (index c : nat) (plates : shape) : res shape :=
  match index with
  | 0 => Ok plates
  | _ => ps <- raw plates ;; if c + 1 <=? length ps then py_pop c ps else Ok ps
  end.

(** np.max over one axis, keepdims=True. *)
Fixpoint rmax (n : nat) (f : nat -> R) : R :=
  match n with 0 => 0%R | 1 => f 0 | S m => Rmax (rmax m f) (f m) end.
Definition np_max_keep (a : arr R) (k : nat) : res (arr R) :=
  if (ax (ash a) k =? 0) || (ndim a <=? k) then Err ValueError
  else Ok (Arr (mkshape (ndim a) (fun j => if j =? k then 1 else ax (ash a) j))
               (fun e => rmax (ax (ash a) k) (fun i => bget a (upd e k i)))).

(** mixture.py 491-544: integrated_logpdf_from_parents for index 0; [p]: cluster
    probabilities, [g]: log-normaliser of the components, [f]: the base measure at the
    value, [l]: number of variable axes, natural parameters of the components and
    sufficient statistics of the value. *)
Definition integrated_logpdf (c : nat) (p g f : arr R) (l : list (nat * arr R * arr R)) : res (arr R) :=
  f1 <- np_expand_dims f c ;;
  l1 <- mapM (fun t : nat * arr R * arr R => let '(nd, phi, u) := t in
                u1 <- np_expand_dims u (c + nd) ;; Ok (nd, phi, u1)) l ;;
  lpdf <- compute_logpdf g f1 l1 ;;
  mx <- np_max_keep lpdf c ;;
  d <- np_map2 Rminus lpdf mx ;;
  pdf <- moveaxis (np_map exp d) (neg_axis c) (neg_axis 0) ;;
  w <- np_multiply pdf p ;;
  if ndim w <=? c then Err ValueError
  else np_map2 (fun s m => (ln s + m)%R) (np_sum w [c]) (drop_axes mx [c]).
