(** Model of what a node is left with when one of its methods raises: observe,
    initialize_from_value, set_parameters, update and initialize_from_parameters of
    nodes/expfamily.py, _set_moments of nodes/stochastic.py, _update_mask of
    nodes/node.py and set_value of nodes/constant.py, assignment by assignment.
    ExpFam.v models the same methods by their results.  No proofs here.

    The state is the one of ExpFam.v.  An array that another object holds too may
    be written in place (np.copyto); only the node's own attributes are followed. *)
From Coq Require Import List Arith ZArith Lia Bool Reals.
From Verif Require Import Base Shapes SpecShapes NumPy MiscArray ExpFam.
Import ListNotations.
Open Scope nat_scope.

(** An expression whose evaluation assigns nothing: when it raises, the node is
    what it was. *)
Definition eval {A} (n : efnode) (r : res A) (k : A -> outcome) : outcome :=
  match r with Ok x => k x | Err e => (n, Err e) end.

(** The next statement. *)
Definition then_ (o : outcome) (k : efnode -> outcome) : outcome :=
  match o with (n, Ok _) => k n | (n, Err e) => (n, Err e) end.

(** stochastic.py 229-272: the loop body of _set_moments for one moment array:
    what self.u[ind] holds afterwards, and the exception. *)
Definition set_moment_steps (shp : shape) (nd : nat) (mask : arr bool) (cur new : arr R)
  : arr R * res unit :=
  let u_mask := add_trailing_axes mask nd in
  match broadcasted_shape [ash cur; ash new; ash u_mask] with
  | Err e => (cur, Err e)
  | Ok sh =>
      match repeat_to_shape cur sh with
      | Err e => (cur, Err e)
      | Ok cur =>
          match np_copyto cur new u_mask with
          | Err e => (cur, Err e)
          | Ok cur =>
              if ndim cur <? length shp
              then (add_leading_axes new (length shp - ndim cur), Ok tt)
              else if length shp <? ndim cur then (cur, Err RuntimeError)
              else (cur, Ok tt)
          end
      end
  end.

(** stochastic.py 229: the loop; the arrays before the one that raises have their
    new values. *)
Fixpoint set_moments_steps (plates : shape) (mask : arr bool) (dims : list shape)
         (us news : list (arr R)) : list (arr R) * res unit :=
  match dims, us, news with
  | d :: dims', u :: us', w :: news' =>
      match set_moment_steps (plates ++ d) (length d) mask u w with
      | (u1, Err e) => (u1 :: us', Err e)
      | (u1, Ok _) =>
          let '(r, o) := set_moments_steps plates mask dims' us' news' in (u1 :: r, o)
      end
  | _, _, [] => (us, Ok tt)
  | _, _, _ => (us, Err IndexError)
  end.

(** stochastic.py 223-273: _set_moments. *)
Definition set_moments_at (n : efnode) (u : list (arr R)) (mask : arr bool) (broadcast : bool)
  : outcome :=
  eval n (check_shape n u broadcast) (fun _ =>
  let '(us, o) := set_moments_steps (n_plates n) mask (n_dims n) (n_u n) u in
  (with_u n us, o)).

(** expfamily.py 215-227, 228-250: the axes of self.phi[i] are fixed one array
    after the other; the array that fails the test has been replaced. *)
Definition adjust_axes (want : nat) (p : arr R) : res (arr R) :=
  if ndim p <? want then Ok (add_leading_axes p (want - ndim p))
  else if want <? ndim p then np_reshape p (skipn (ndim p - want) (ash p))
  else Ok p.
Fixpoint fix_phi (plates : shape) (dims : list shape) (phi : list (arr R))
  : list (arr R) * res unit :=
  match phi, dims with
  | [], _ => ([], Ok tt)
  | _, [] => (phi, Err IndexError)
  | p :: phi', d :: dims' =>
      match adjust_axes (length plates + length d) p with
      | Err e => (p :: phi', Err e)
      | Ok p1 =>
          if is_shape_subset (ash p1) (plates ++ d)
          then let '(r, o) := fix_phi plates dims' phi' in (p1 :: r, o)
          else (p1 :: phi', Err ValueError)
      end
  end.

Section Dist.
Context {pm val : Type}.
Variable D : dist pm val.

(** expfamily.py 252-257: _set_moments_and_cgf. *)
Definition set_moments_and_cgf_at (n : efnode) (u : list (arr R)) (g : arr R) (mask : arr bool)
  : outcome :=
  then_ (set_moments_at n u mask true) (fun n =>
  eval n (np_where mask g (n_g n)) (fun g' => (with_g n g', Ok tt))).

(** expfamily.py 356-367: _update_moments_and_cgf. *)
Definition update_moments_and_cgf_at (n : efnode) : outcome :=
  let update_mask := np_not (n_obs n) in
  eval n (d_moments D (n_phi n) update_mask) (fun ug =>
  set_moments_and_cgf_at n (fst ug) (snd ug) update_mask).

(** expfamily.py 215-250: _update_phi_from_parents. *)
Definition update_phi_from_parents_at (n : efnode) (u_parents : pm) : outcome :=
  eval n (a <- d_phi D u_parents ;; zipM np_add a (n_bias n)) (fun phi =>
  let '(p, o) := fix_phi (n_plates n) (n_dims n) phi in (with_phi n p, o)).

(** expfamily.py 343-354: _update_distribution_and_lowerbound. *)
Definition update_distribution_at (n : efnode) (m_children : list (arr R)) (u_parents : pm)
  : outcome :=
  then_ (update_phi_from_parents_at n u_parents) (fun n =>
  eval n (zipM (fun p m => y <- np_add p m ;; Ok (np_scaleR (n_ann n) y)) (n_phi n) m_children)
  (fun phi => update_moments_and_cgf_at (with_phi n phi))).

(** stochastic.py 276-282: update. *)
Definition update_at (n : efnode) (m_children : list (arr R)) (u_parents : pm) (annealing : R)
  : outcome :=
  if np_all (n_obs n) then (n, Ok tt)
  else update_distribution_at n (map (np_scaleR annealing) m_children) u_parents.

(** expfamily.py 166-178: _initialize_from_parent_moments. *)
Definition initialize_from_parents_at (n : efnode) (u_parents : pm) : outcome :=
  if np_all (n_obs n) then (n, Ok tt)
  else then_ (update_phi_from_parents_at n u_parents) update_moments_and_cgf_at.

(** expfamily.py 331-341: set_parameters. *)
Definition set_parameters_at (n : efnode) (x : list (arr R)) : outcome :=
  update_moments_and_cgf_at (with_phi n x).

(** expfamily.py 197-204: the shape test of initialize_from_value.  The message has
    two %s fields and its arguments are the tuple np.shape(x): making it raises
    TypeError unless [x], whose shape is [xsh], has two axes. *)
Fixpoint value_shape_test (xsh : shape) (dims : list shape) (u : list (arr R)) : res unit :=
  match u, dims with
  | [], _ => Ok tt
  | _, [] => Err IndexError
  | w :: u', d :: dims' =>
      if (0 <? length d) &&
         negb (if list_eq_dec Nat.eq_dec (skipn (ndim w - length d) (ash w)) d then true else false)
      then if length xsh =? 2 then Err ValueError else Err TypeError
      else value_shape_test xsh dims' u'
  end.

(** expfamily.py 193-205: initialize_from_value; [big] stands for np.inf, [vshape]
    is np.shape on values. *)
Definition initialize_from_value_at (vshape : val -> shape) (big : R) (n : efnode) (x : val)
  : outcome :=
  eval n (d_fixed_moments D x) (fun u =>
  eval n (value_shape_test (vshape x) (n_dims n) u) (fun _ =>
  set_moments_and_cgf_at n u (scalar big) (np_not (n_obs n)))).

(** node.py 457-470, stochastic.py 187-188: _update_mask up to the loop over the
    parents; [children_mask] is the mask that the children send. *)
Definition update_mask_at (n : efnode) (children_mask : arr bool) : outcome :=
  eval n (np_logical_or children_mask (n_obs n)) (fun m =>
  let n := with_mask n m in
  if is_shape_subset (ash m) (n_plates n) then (n, Ok tt) else (n, Err ValueError)).

(** expfamily.py 369-398: observe. *)
Definition observe_at (n : efnode) (children_mask : arr bool) (x : val) (mask : arr bool)
  : outcome :=
  eval n (d_fixed D x mask) (fun uf =>
  then_ (set_moments_at n (fst uf) mask false) (fun n =>
  eval n (np_where mask (snd uf) (n_f n)) (fun f' =>
  update_mask_at (with_observed (with_f n f') mask) children_mask))).
End Dist.

(** constant.py 64-77: set_value of a constant with the given plates and dims, whose
    moments are [u]; [fixed] is compute_fixed_moments of its moments class. *)
Fixpoint constant_shapes (plates : shape) (dims : list shape) (u : list (arr R)) : res unit :=
  match dims, u with
  | [], _ => Ok tt
  | _, [] => Err IndexError
  | d :: dims', w :: u' =>
      if is_shape_subset (ash w) (plates ++ d) then constant_shapes plates dims' u'
      else Err ValueError
  end.
Definition constant_set_value {val} (fixed : val -> res (list (arr R))) (plates : shape)
  (dims : list shape) (u : list (arr R)) (x : val) : list (arr R) * res unit :=
  match fixed x with
  | Err e => (u, Err e)
  | Ok u' => (u', constant_shapes plates dims u')
  end.
