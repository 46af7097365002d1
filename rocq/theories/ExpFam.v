(** Model of nodes/stochastic.py (class Stochastic) and nodes/expfamily.py (class
    ExponentialFamily): moments, natural parameters, observation, update, lower
    bound and gradient.  No proofs here.

    Numbers are real numbers: NaN and infinity are not represented (a NaN that
    the code stores is some real number here).  Rounding is not modelled. *)
From Coq Require Import List Arith ZArith Lia Bool Reals.
From Verif Require Import Base Shapes SpecShapes NumPy MiscArray.
Import ListNotations.
Open Scope nat_scope.

(** The distribution object of a node.  [pm]: the moments received from the
    parents, [val]: a value given to observe. *)
Record dist (pm val : Type) := Dist {
  d_phi : pm -> res (list (arr R));                       (** compute_phi_from_parents *)
  d_cgf : pm -> res (arr R);                              (** compute_cgf_from_parents *)
  d_moments : list (arr R) -> arr bool -> res (list (arr R) * arr R);
                                                          (** compute_moments_and_cgf *)
  d_fixed : val -> arr bool -> res (list (arr R) * arr R);(** compute_fixed_moments_and_f *)
  d_fixed_moments : val -> res (list (arr R)) }.          (** Moments.compute_fixed_moments *)
Arguments d_phi {pm val}. Arguments d_cgf {pm val}. Arguments d_moments {pm val}.
Arguments d_fixed {pm val}. Arguments d_fixed_moments {pm val}.

(** The state of a node: plates, dims, u, phi, g, f, observed, the mask, the
    phi_bias, the annealing and the plate multipliers. *)
Record efnode := EF {
  n_plates : shape; n_dims : list shape; n_u : list (arr R); n_phi : list (arr R);
  n_g : arr R; n_f : arr R; n_obs : arr bool; n_mask : arr bool;
  n_bias : list (arr R); n_ann : R; n_mult : shape }.

Definition with_u (n : efnode) u := EF (n_plates n) (n_dims n) u (n_phi n) (n_g n) (n_f n)
  (n_obs n) (n_mask n) (n_bias n) (n_ann n) (n_mult n).
Definition with_phi (n : efnode) p := EF (n_plates n) (n_dims n) (n_u n) p (n_g n) (n_f n)
  (n_obs n) (n_mask n) (n_bias n) (n_ann n) (n_mult n).
Definition with_g (n : efnode) g := EF (n_plates n) (n_dims n) (n_u n) (n_phi n) g (n_f n)
  (n_obs n) (n_mask n) (n_bias n) (n_ann n) (n_mult n).
Definition with_f (n : efnode) f := EF (n_plates n) (n_dims n) (n_u n) (n_phi n) (n_g n) f
  (n_obs n) (n_mask n) (n_bias n) (n_ann n) (n_mult n).
Definition with_observed (n : efnode) o := EF (n_plates n) (n_dims n) (n_u n) (n_phi n) (n_g n)
  (n_f n) o (n_mask n) (n_bias n) (n_ann n) (n_mult n).
Definition with_mask (n : efnode) m := EF (n_plates n) (n_dims n) (n_u n) (n_phi n) (n_g n)
  (n_f n) (n_obs n) m (n_bias n) (n_ann n) (n_mult n).

(** ** NumPy primitives *)

(** np.copyto(dst, src, where=mask) *)
Definition np_copyto {A} (dst src : arr A) (mask : arr bool) : res (arr A) :=
  if is_shape_subset (ash src) (ash dst) && is_shape_subset (ash mask) (ash dst)
  then Ok (Arr (ash dst) (fun e => if bget mask e then bget src e else bget dst e))
  else Err ValueError.

(** np.where(c, x, y) *)
Definition np_where {A} (c : arr bool) (x y : arr A) : res (arr A) :=
  s <- np_bshape [ash c; ash x; ash y] ;;
  Ok (Arr s (fun e => if bget c e then bget x e else bget y e)).

(** np.sum(a) over all axes *)
Definition total_sum (a : arr R) : R :=
  itersum (map (fun k => (k, ax (ash a) k)) (seq 0 (ndim a))) (bget a) env0.

(** np.all(a) *)
Definition np_all (a : arr bool) : bool :=
  negb (iterany (map (fun k => (k, ax (ash a) k)) (seq 0 (ndim a)))
                (fun e => negb (bget a e)) env0).

Definition np_add : arr R -> arr R -> res (arr R) := np_map2 Rplus.
Definition np_not (a : arr bool) : arr bool := np_map negb a.

(** Python's zip. *)
Fixpoint zipM {A B C} (f : A -> B -> res C) (l : list A) (m : list B) : res (list C) :=
  match l, m with
  | x :: l', y :: m' => z <- f x y ;; r <- zipM f l' m' ;; Ok (z :: r)
  | _, _ => Ok []
  end.

(** ** class Stochastic *)

(** stochastic.py 191-220: _check_shape. *)
Definition check_shape1 (plates dimsi sh : shape) (broadcast : bool) : bool :=
  let sh_true := plates ++ dimsi in
  let nd := length dimsi in
  if negb broadcast then if list_eq_dec Nat.eq_dec sh sh_true then true else false
  else if nd =? 0 then is_shape_subset sh sh_true
  else is_shape_subset (firstn (length sh - nd) sh) plates &&
       (if list_eq_dec Nat.eq_dec (skipn (length sh - nd) sh) dimsi then true else false).
Definition check_shape (n : efnode) (u : list (arr R)) (broadcast : bool) : res unit :=
  if negb (length u =? length (n_dims n)) then Err ValueError
  else if forallb (fun p => check_shape1 (n_plates n) (fst p) (ash (snd p)) broadcast)
                  (combine (n_dims n) u)
       then Ok tt else Err ValueError.

(** stochastic.py 229-272: the loop body of _set_moments for one moment array;
    [shape] is plates + dims.  Note that the array with added axes is [u[ind]],
    not [self.u[ind]] (line 256). *)
Definition set_moment (shp : shape) (nd : nat) (mask : arr bool) (cur new : arr R)
  : res (arr R) :=
  let u_mask := add_trailing_axes mask nd in
  sh <- broadcasted_shape [ash cur; ash new; ash u_mask] ;;
  cur <- repeat_to_shape cur sh ;;
  cur <- np_copyto cur new u_mask ;;
  if ndim cur <? length shp then Ok (add_leading_axes new (length shp - ndim cur))
  else if length shp <? ndim cur then Err RuntimeError
  else Ok cur.

Fixpoint set_moments_loop (plates : shape) (mask : arr bool) (dims : list shape)
         (us news : list (arr R)) : res (list (arr R)) :=
  match dims, us, news with
  | d :: dims', u :: us', w :: news' =>
      u' <- set_moment (plates ++ d) (length d) mask u w ;;
      r <- set_moments_loop plates mask dims' us' news' ;;
      Ok (u' :: r)
  | _, _, [] => Ok us
  | _, _, _ => Err IndexError
  end.

(** stochastic.py 223-273: _set_moments. *)
Definition set_moments (n : efnode) (u : list (arr R)) (mask : arr bool) (broadcast : bool)
  : res efnode :=
  _ <- check_shape n u broadcast ;;
  us <- set_moments_loop (n_plates n) mask (n_dims n) (n_u n) u ;;
  Ok (with_u n us).

(** ** class ExponentialFamily *)
Section Dist.
Context {pm val : Type}.
Variable D : dist pm val.

(** expfamily.py 252-257: _set_moments_and_cgf. *)
Definition set_moments_and_cgf (n : efnode) (u : list (arr R)) (g : arr R) (mask : arr bool)
  : res efnode :=
  n <- set_moments n u mask true ;;
  g' <- np_where mask g (n_g n) ;;
  Ok (with_g n g').

(** expfamily.py 215-250: the natural parameters from the parents, with the
    bias, the axes fixed up and the shape checked. *)
Definition fix_axes (plates dimsi : shape) (p : arr R) : res (arr R) :=
  let want := length plates + length dimsi in
  p <- (if ndim p <? want then Ok (add_leading_axes p (want - ndim p))
        else if want <? ndim p then np_reshape p (skipn (ndim p - want) (ash p))
        else Ok p) ;;
  if is_shape_subset (ash p) (plates ++ dimsi) then Ok p else Err ValueError.
Definition prior_phi (n : efnode) (u_parents : pm) : res (list (arr R)) :=
  a <- d_phi D u_parents ;;
  zipM np_add a (n_bias n).
Definition phi_from_parents (n : efnode) (u_parents : pm) : res (list (arr R)) :=
  p <- prior_phi n u_parents ;;
  zipM (fix_axes (n_plates n)) (n_dims n) p.

(** expfamily.py 356-367: _update_moments_and_cgf. *)
Definition update_moments_and_cgf (n : efnode) : res efnode :=
  let update_mask := np_not (n_obs n) in
  '(u, g) <- d_moments D (n_phi n) update_mask ;;
  set_moments_and_cgf n u g update_mask.

Definition np_scaleR (c : R) (y : arr R) : arr R := np_map (fun v => c * v)%R y.

(** The result of an operation that may raise after it has changed the node. *)
Definition outcome := (efnode * res unit)%type.
Definition finish (n : efnode) (r : res efnode) : outcome :=
  match r with Ok n' => (n', Ok tt) | Err e => (n, Err e) end.

(** expfamily.py 343-354: _update_distribution_and_lowerbound.  When the shape
    check of phi fails, self.phi has already been replaced; here it keeps its
    old value then. *)
Definition update_distribution (n : efnode) (m_children : list (arr R)) (u_parents : pm)
  : outcome :=
  match (p <- phi_from_parents n u_parents ;;
         zipM (fun p m => y <- np_add p m ;; Ok (np_scaleR (n_ann n) y)) p m_children) with
  | Err e => (n, Err e)
  | Ok phi => let n1 := with_phi n phi in finish n1 (update_moments_and_cgf n1)
  end.

(** stochastic.py 276-282: update. *)
Definition update (n : efnode) (m_children : list (arr R)) (u_parents : pm) (annealing : R)
  : outcome :=
  if np_all (n_obs n) then (n, Ok tt)
  else update_distribution n (map (np_scaleR annealing) m_children) u_parents.

(** expfamily.py 166-178: _initialize_from_parent_moments (used by
    initialize_from_prior and initialize_from_parameters). *)
Definition initialize_from_parent_moments (n : efnode) (u_parents : pm) : outcome :=
  if np_all (n_obs n) then (n, Ok tt)
  else
    match phi_from_parents n u_parents with
    | Err e => (n, Err e)
    | Ok phi => let n1 := with_phi n phi in finish n1 (update_moments_and_cgf n1)
    end.

(** expfamily.py 193-205: initialize_from_value (also initialize_from_random);
    [big] stands for np.inf.  The shape test of lines 197-204 is part of
    _check_shape. *)
Definition initialize_from_value (big : R) (n : efnode) (x : val) : outcome :=
  finish n (u <- d_fixed_moments D x ;;
            set_moments_and_cgf n u (scalar big) (np_not (n_obs n))).

(** expfamily.py 314-340: get_parameters, set_parameters. *)
Definition get_parameters (n : efnode) : list (arr R) := n_phi n.
Definition set_parameters (n : efnode) (x : list (arr R)) : outcome :=
  let n1 := with_phi n x in finish n1 (update_moments_and_cgf n1).

(** expfamily.py 369-398: observe; [children_mask] is the mask the children
    send.  _update_mask (node.py 457-475) checks the shape of the mask. *)
Definition observe (n : efnode) (children_mask : arr bool) (x : val) (mask : arr bool)
  : res efnode :=
  '(u, f) <- d_fixed D x mask ;;
  n <- set_moments n u mask false ;;
  f' <- np_where mask f (n_f n) ;;
  let n := with_observed (with_f n f') mask in
  m <- np_logical_or children_mask (n_obs n) ;;
  let n := with_mask n m in
  if is_shape_subset (ash m) (n_plates n) then Ok n else Err ValueError.

(** expfamily.py 260-280: get_riemannian_gradient. *)
Definition np_ones (s : shape) : arr R := Arr s (fun _ => 1%R).
Definition get_riemannian_gradient (n : efnode) (m_children : list (arr R)) (u_parents : pm)
  : res (list (arr R)) :=
  p <- prior_phi n u_parents ;;
  pm <- zipM (fun p m => y <- np_add p m ;; Ok (np_scaleR (n_ann n) y)) p m_children ;;
  d <- zipM (np_map2 Rminus) pm (n_phi n) ;;
  zipM (fun y di => np_multiply y (np_ones (n_plates n ++ di))) d (n_dims n).

(** vmp.py 432-440, 455-467: gradient_step for one node. *)
Definition gradient_step (n : efnode) (m_children : list (arr R)) (u_parents : pm) (scale : R)
  : outcome :=
  match (g <- get_riemannian_gradient n m_children u_parents ;;
         zipM (fun z1 z2 => np_add z1 (np_scaleR scale z2)) (get_parameters n) g) with
  | Err e => (n, Err e)
  | Ok p => set_parameters n p
  end.

(** expfamily.py 434-457: the term of one parameter array. *)
Definition bound_term (n : efnode) (T : R) (dimsi : shape) (phi_p phi_q u_q : arr R)
  : res (arr R) :=
  let latent := np_not (n_obs n) in
  let latent_i := add_trailing_axes
                    (add_leading_axes latent (length (n_plates n) - ndim latent))
                    (length dimsi) in
  phi_q <- np_where0 latent_i phi_q ;;
  diff <- np_map2 Rminus phi_p (np_scaleR T phi_q) ;;
  diff <- np_map2 (fun u d => if Req_EM_T u 0 then 0%R else d) u_q diff ;;
  z <- np_multiply diff u_q ;;
  Ok (np_sum z (seq 0 (length dimsi))).

Fixpoint bound_terms (n : efnode) (T : R) (dims : list shape) (pp pq us : list (arr R))
         (L : arr R) : res (arr R) :=
  match pp, pq, us, dims with
  | p :: pp', q :: pq', u :: us', d :: dims' =>
      z <- bound_term n T d p q u ;;
      L <- np_add L z ;;
      bound_terms n T dims' pp' pq' us' L
  | _, _, _, _ => Ok L
  end.

(** expfamily.py 400-466: lower_bound_contribution(ignore_masked=True); [nan]
    stands for np.nan.  The bias is not added to phi (line 418). *)
Definition lower_bound_contribution (nan : R) (n : efnode) (u_parents : pm) : res R :=
  let T := (1 / n_ann n)%R in
  phi <- d_phi D u_parents ;;
  L <- d_cgf D u_parents ;;
  let z := if np_all (n_obs n) then scalar nan
           else np_map (fun g => - T * g)%R (n_g n) in
  w <- np_where (n_obs n) (n_f n) z ;;
  L <- np_add L w ;;
  L <- bound_terms n T (n_dims n) phi (n_phi n) (n_u n) L ;;
  x <- np_where0 (n_mask n) L ;;
  r <- broadcasting_multiplier (n_plates n) [ash L; ash (n_mask n)] ;;
  Ok (total_sum x * INR r * lprod (map INR (n_mult n)))%R.
End Dist.
