(** Vocabulary for the properties of the inference engine. *)
From Coq Require Import String List Arith ZArith Lia Bool Reals.
From Verif Require Import Base NumPy Engine.
Import ListNotations.
Open Scope R_scope.

(** The bounds of the finished iterations, oldest first. *)
Definition history (s : vb) : list xr := firstn (v_iter s) (v_L s).

(** The relative change from [a] to [b] is a number below [tol]. *)
Definition settled (tol : R) (a b : xr) : Prop :=
  exists x y, a = Some x /\ b = Some y /\ (Rabs x + Rabs y) / 2 <> 0 /\
    (y - x) / ((Rabs x + Rabs y) / 2) < tol.

Section Spec.
Variable stochastic : nat -> bool.
Variable update_node : nat -> world -> world * res unit.
Variable contribution : nat -> world -> res xr.

(** Sum of the nodes' contributions, nan if one of them is. *)
Inductive sums_to (w : world) : list nat -> xr -> Prop :=
| st_nil : sums_to w [] (Some 0)
| st_snoc : forall ns n L c, sums_to w ns L -> contribution n w = Ok c ->
    sums_to w (ns ++ [n]) (xadd L c).

(** Updating the nodes of the list one after the other. *)
Inductive updated : list nat -> world -> world -> Prop :=
| up_nil : forall w, updated [] w w
| up_stochastic : forall n r w w' w'', stochastic n = true ->
    update_node n w = (w', Ok tt) -> updated r w' w'' -> updated (n :: r) w w''
| up_other : forall n r w w'', stochastic n = false ->
    updated r w w'' -> updated (n :: r) w w''.

(** Effect of the user's callback. *)
Definition called (cb : option callback) (w w' : world) : Prop :=
  match cb with None => w' = w | Some f => exists z, f w = (w', Ok z) end.

(** A run of iterations (update the nodes, call the callback) and the bounds
    after each of them. *)
Inductive iterated (model nodes : list nat) (cb : option callback)
  : world -> list xr -> world -> Prop :=
| it_nil : forall w, iterated model nodes cb w [] w
| it_cons : forall w w1 w2 w3 b bs,
    updated nodes w w1 -> called cb w1 w2 -> sums_to w2 model b ->
    iterated model nodes cb w2 bs w3 -> iterated model nodes cb w (b :: bs) w3.
End Spec.

(** The multiples of [k] among the [m] numbers following [i]. *)
Definition multiples (k : Z) (i m : nat) : list nat :=
  filter (fun j => (Z.of_nat j mod k =? 0)%Z) (seq (i + 1) m).

(** When an iteration counts as converged; [h] is the history, its own bound
    included. *)
Definition converges (ignore annealed : bool) (tol : R) (h : list xr) : Prop :=
  ignore = false /\ annealed = false /\
  exists h0 a b, h = h0 ++ [a; b] /\ settled tol a b.

(** What saving keeps of a node. *)
Definition same_state (a b : nstate) : Prop :=
  n_phi a = n_phi b /\ n_u a = n_u b /\ n_f a = n_f b /\ n_g a = n_g b /\
  n_observed a = n_observed b.

(** ** Using a VB object *)
Section Use.
Variable name_of : nat -> string.
Variable stochastic : nat -> bool.
Variable update_node : nat -> world -> world * res unit.
Variable contribution : nat -> world -> res xr.

(** Calls of the user.  [CWorld] stands for anything done directly with the
    nodes, [CDisk] for other programs changing files. *)
Inductive call :=
| CUpdate (nodes : list key) (repeat : option nat) (tol : option R) (bound : nat)
| CSave (nodes : list key) (filename : string)
| CSetAutosave (filename : string) (iterations : option Z) (nodes : option (list key))
| CSetCallback (cb : option callback)
| CSetAnnealing (a : R)
| CIgnoreBoundChecks (b : bool)
| CWorld (w : world)
| CDisk (d : disk).

Definition perform (c : call) : ST vb unit :=
  match c with
  | CUpdate nodes rep tol bound =>
      update name_of stochastic update_node contribution nodes rep tol bound
  | CSave nodes fn => save name_of stochastic nodes fn
  | CSetAutosave fn k nodes => set_autosave fn k nodes
  | CSetCallback cb => set_callback cb
  | CSetAnnealing a => set_annealing a
  | CIgnoreBoundChecks b => modify (fun s => set_ignore s b)
  | CWorld w => modify (fun s => set_world s w)
  | CDisk d => modify (fun s => set_disk s d)
  end.

(** From one state to another by calls, whether or not they raise. *)
Inductive used : vb -> vb -> Prop :=
| u_refl : forall s, used s s
| u_step : forall s s1 s2 c r, perform c s = (s1, r) -> used s1 s2 -> used s s2.

(** States of a VB object created by VB(...) and then used. *)
Definition reached (s : vb) : Prop :=
  exists nodes w tol fn tmp k ud cb d ck s0,
    vb_init name_of nodes w tol fn tmp k ud cb d ck = Ok s0 /\ used s0 s.
End Use.
