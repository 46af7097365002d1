(** Model of VB.optimize and VB.pattern_search (inference/vmp/vmp.py 470-662).  The model
    of nodes enters through the operations the two methods call: a state [St] of the
    nodes, parameter vectors [P].  Operations that can raise return the state they leave
    behind and whether they returned normally.  A lower bound is [None] when it is NaN.
    Printing, timing, callbacks and autosave are not modelled; [converged] stands for the
    convergence test of _end_iteration_step.  No proofs here. *)
From Coq Require Import List Arith Bool Reals.
From Verif Require Import Base.
Import ListNotations.
Open Scope R_scope.

Record ops (St P : Type) := Ops {
  (* vmp.py 384-391, 423-429: get_parameters / set_parameters of the optimised nodes *)
  o_get : St -> P; o_set : P -> St -> St * bool;
  (* vmp.py 394-420: Riemannian and Euclidian gradients of the optimised nodes *)
  o_grad : St -> P * P;
  (* the collapsed nodes *)
  o_getc : St -> P; o_setc : P -> St -> St * bool; o_updc : St -> St * bool;
  (* update of the optimised nodes, one after another *)
  o_upd : St -> St * bool;
  (* compute_lowerbound, vmp.py 180-184 *)
  o_bound : St -> option R;
  (* vmp.py 443-467: dot and add(x1, x2, scale) *)
  o_dot : P -> P -> R; o_add : P -> P -> R -> P }.
Arguments o_get {St P}. Arguments o_set {St P}. Arguments o_grad {St P}. Arguments o_getc {St P}.
Arguments o_setc {St P}. Arguments o_updc {St P}. Arguments o_upd {St P}. Arguments o_bound {St P}.
Arguments o_dot {St P}. Arguments o_add {St P}.

Inductive cg_method := Gradient | FletcherReeves | UnknownMethod.

Definition ltb (a b : R) : bool := if Rlt_dec a b then true else false.
Definition leb (a b : R) : bool := if Rle_dec a b then true else false.
(** np.allclose(a, b, rtol=1e-8): the default atol is 1e-8 too. *)
Definition allclose (a b : R) : bool := leb (Rabs (a - b)) (/ 100000000 + / 100000000 * Rabs b).

(** vmp.py 551-555: bound_decreased; [prev] is self.L[self.iter-1], [None] when iter = 0.
    Comparisons with NaN are false. *)
Definition bound_decreased (prev : option (option R)) (l : R) : bool :=
  match prev with
  | Some (Some l0) => ltb l l0 && negb (allclose l l0)
  | _ => false
  end.

Section Search.
  Context {St P : Type} (O : ops St P).

  (** The local variables of the loop: direction, "s is g2", step length, dd_prev. *)
  Record cg := Cg { c_s : P; c_isg2 : bool; c_scale : R; c_dd : R }.
  Definition halve (c : cg) : cg := Cg (c_s c) (c_isg2 c) (c_scale c / 2) (c_dd c).
  (** vmp.py 526-530 and 541-545: after a failure, halve the step if it was the gradient
      already, then reset to the gradient. *)
  Definition reset (g2 : P) (c : cg) : cg :=
    Cg g2 true (if c_isg2 c then c_scale c / 2 else c_scale c) 0.

  (** vmp.py 516-593: the loop "while not success", at most [fuel] rounds ([None]: still
      running).  Returns the new state, the new parameters, and the loop variables. *)
  Fixpoint search (fuel : nat) (prev : option (option R)) (p g2 : P) (c : cg) (s : St)
    : option (St * res (P * cg)) :=
    match fuel with
    | 0%nat => None
    | S fuel =>
        let p_new := o_add O p (c_s c) (c_scale c) in
        let '(s1, ok) := o_set O p_new s in
        if negb ok then search fuel prev p g2 (reset g2 c) s1
        else
          let cp := o_getc O s1 in
          let '(s2, ok) := o_updc O s1 in
          if negb ok then
            let '(s3, ok) := o_setc O cp s2 in
            if negb ok then Some (s3, Err PyException)
            else search fuel prev p g2 (reset g2 c) s3
          else
            let bad := match o_bound O s2 with None => true | Some l => bound_decreased prev l end in
            if bad then
              let '(s3, ok) := o_setc O cp s2 in
              if negb ok then Some (s3, Err PyException)
              else if c_isg2 c then search fuel prev p g2 (halve c) s3
              else if ltb (c_scale c) (/ 1024) then search fuel prev p g2 (Cg g2 true (c_scale c) 0) s3
              else search fuel prev p g2 (halve c) s3
            else Some (s2, Ok (p_new, c))
    end.

  (** vmp.py 470-605: the loop of optimize; [hist]: the recorded bounds self.L[:self.iter],
      the latest first; [c]: [None] before the first direction is computed.  [fuel] bounds
      each inner loop. *)
  Fixpoint optimize_loop (n fuel : nat) (m : cg_method) (riemannian : bool)
           (converged : list (option R) -> bool) (p : P) (dd : R) (scale : R) (c : option P)
           (hist : list (option R)) (s : St) : option (St * list (option R) * res unit) :=
    match n with
    | 0%nat => Some (s, hist, Ok tt)
    | S n =>
        let '(rg, g) := o_grad O s in
        let '(g1, g2) := match m with
                         | Gradient => if riemannian then (rg, rg) else (g, g)
                         | _ => if riemannian then (g, rg) else (g, g)
                         end in
        match m with
        | UnknownMethod => Some (s, hist, Err PyException)
        | _ =>
          let dd_curr := o_dot O g1 g2 in
          let b := match m with
                   | Gradient => 0
                   | _ => if Req_EM_T dd 0 then 0 else dd_curr / dd
                   end in
          let dd' := match m with Gradient => dd | _ => dd_curr end in
          (* if b: s = add(g2, s, scale=b) else: s = g2 *)
          let '(d, isg2) := if Req_EM_T b 0 then (g2, true)
                            else match c with Some s0 => (o_add O g2 s0 b, false) | None => (g2, true) end in
          match search fuel (hd_error hist) p g2 (Cg d isg2 scale dd') s with
          | None => None
          | Some (s', Err e) => Some (s', hist, Err e)
          | Some (s', Ok (p', c')) =>
              let hist' := o_bound O s' :: hist in
              if converged hist' then Some (s', hist', Ok tt)
              else optimize_loop n fuel m riemannian converged p' (c_dd c') (c_scale c' * sqrt 2) (Some (c_s c')) hist' s'
          end
        end
    end.
  (** vmp.py 470-484 *)
  Definition optimize (maxiter fuel : nat) (m : cg_method) (riemannian : bool)
             (converged : list (option R) -> bool) (hist : list (option R)) (s : St) :=
    optimize_loop maxiter fuel m riemannian converged (o_get O s) 0 1 None hist s.

  (** scipy.optimize.minimize_scalar(cost, ...): it asks for the cost at some points
      ([None]: infinite) and returns a point. *)
  Inductive strategy := Ask (alpha : R) (k : option R -> strategy) | Answer (x : R).

  (** vmp.py 638-648: cost.  A NaN bound is given to the strategy as an infinite cost. *)
  Definition cost (p1 dp : P) (alpha : R) (s : St) : St * res (option R) :=
    let '(s1, ok) := o_set O (o_add O p1 dp alpha) s in
    if negb ok then (s1, Ok None)
    else let '(s2, ok) := o_updc O s1 in
         if negb ok then (s2, Err PyException) else (s2, Ok (option_map Ropp (o_bound O s2))).
  Fixpoint minimize (t : strategy) (p1 dp : P) (s : St) : St * res R :=
    match t with
    | Answer x => (s, Ok x)
    | Ask a k => let '(s1, r) := cost p1 dp a s in
                 match r with Err e => (s1, Err e) | Ok v => minimize (k v) p1 dp s1 end
    end.
  (** vmp.py 608-662: pattern_search. *)
  Definition pattern_search (t : strategy) (s : St) : St * res unit :=
    let '(s1, ok) := o_upd O s in
    if negb ok then (s1, Err PyException) else
    let '(s2, ok) := o_updc O s1 in
    if negb ok then (s2, Err PyException) else
    let p0 := o_get O s2 in
    let '(s3, ok) := o_upd O s2 in
    if negb ok then (s3, Err PyException) else
    let p1 := o_get O s3 in
    let dp := o_add O p1 p0 (-1) in
    let '(s4, r) := minimize t p1 dp s3 in
    match r with
    | Err e => (s4, Err e)
    | Ok x =>
        let '(s5, ok) := o_set O (o_add O p1 dp x) s4 in
        if negb ok then (s5, Err PyException) else
        let '(s6, ok) := o_updc O s5 in
        if negb ok then (s6, Err PyException) else (s6, Ok tt)
    end.
End Search.
