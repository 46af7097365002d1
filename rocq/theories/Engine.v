(** Model of the inference engine: bayespy/inference/vmp/vmp.py, class VB.

    Numbers are reals extended with nan ([None]); infinities and rounding are
    not modelled.  Methods run in a state monad that keeps the state when an
    exception is raised, as Python does.  Printing, plotting, tqdm, warnings
    and the HDF5 version check have no effect on the modelled state and are
    left out. *)
From Coq Require Import String List Arith ZArith Lia Bool Reals.
From Verif Require Import Base NumPy.
Import ListNotations.
Open Scope R_scope.

(** ** Floats with nan *)
Definition xr := option R.
Definition nan : xr := None.
Definition xlift2 (f : R -> R -> R) (a b : xr) : xr :=
  match a, b with Some x, Some y => Some (f x y) | _, _ => None end.
Definition xadd := xlift2 Rplus.
Definition xsub := xlift2 Rminus.
Definition xabs (a : xr) : xr := option_map Rabs a.
(** Division by zero gives nan or an infinity; only 0/0 can occur in the code
    modelled here (the divisor is the mean of absolute values of which the
    dividend is the difference), so nan. *)
Definition xdiv (a b : xr) : xr :=
  match a, b with
  | Some x, Some y => if Req_EM_T y 0 then None else Some (x / y)
  | _, _ => None
  end.
(** Comparisons with nan are False. *)
Definition xltb (a b : xr) : bool :=
  match a, b with
  | Some x, Some y => if Rlt_dec x y then true else false
  | _, _ => false
  end.

(** ** State with exceptions *)
Definition ST (S A : Type) := S -> S * res A.
Definition ret {S A} (a : A) : ST S A := fun s => (s, Ok a).
Definition raise {S A} (e : err) : ST S A := fun s => (s, Err e).
Definition sbind {S A B} (m : ST S A) (k : A -> ST S B) : ST S B :=
  fun s => match m s with
           | (s', Ok a) => k a s'
           | (s', Err e) => (s', Err e)
           end.
Notation "x <-- m ;;; k" := (sbind m (fun x => k))
  (at level 61, m at next level, right associativity).
Notation "m >>> k" := (sbind m (fun _ => k)) (at level 61, right associativity).
Definition gets {S A} (f : S -> A) : ST S A := fun s => (s, Ok (f s)).
Definition modify {S} (f : S -> S) : ST S unit := fun s => (f s, Ok tt).
Definition lift {S A} (m : res A) : ST S A := fun s => (s, m).
(** for x in l: body(x) *)
Fixpoint sfor {S A} (l : list A) (body : A -> ST S unit) : ST S unit :=
  match l with
  | [] => ret tt
  | a :: r => body a >>> sfor r body
  end.
Fixpoint smap {S A B} (l : list A) (body : A -> ST S B) : ST S (list B) :=
  match l with
  | [] => ret []
  | a :: r => b <-- body a ;;; bs <-- smap r body ;;; ret (b :: bs)
  end.

(** a[i] = x on a one-dimensional array: IndexError when out of bounds. *)
Fixpoint set_nth {A} (l : list A) (i : nat) (x : A) : res (list A) :=
  match l, i with
  | [], _ => Err IndexError
  | _ :: r, O => Ok (x :: r)
  | a :: r, S j => r' <- set_nth r j x ;; Ok (a :: r')
  end.
(** a[i] for a non-negative index *)
Definition get_nth {A} (l : list A) (i : nat) : res A :=
  match nth_error l i with Some x => Ok x | None => Err IndexError end.

(** ** Nodes as the engine sees them *)

(** State of one node: expfamily.py 113-130 (phi, g, f, annealing),
    stochastic.py 109-130 (u, observed), node.py (mask). *)
Record nstate := NS {
  n_phi : list (arr xr);
  n_u : list (arr xr);
  n_f : arr xr;
  n_g : arr xr;
  n_observed : arr bool;
  n_mask : arr bool;
  n_annealing : R
}.
Definition world := nat -> nstate.
Definition set_node (w : world) (i : nat) (n : nstate) : world :=
  fun j => if (j =? i)%nat then n else w j.

(** ** HDF5 files *)

(** Dataset names inside a node's group: 'phi%d' % i, 'f', 'g', 'u%d' % i,
    'observed'. *)
Inductive dname := DPhi (i : nat) | DF | DG | DU (i : nat) | DObserved.

(** Paths in the file.  Simplification: a node name containing '/' is not split
    into nested groups. *)
Inductive path :=
| PNodes | PNode (name : string) | PData (name : string) (d : dname)
| PL | PCputime | PIter | PConverged | PCallback
| PBounds | PBound (name : string)
| PUserGroup | PUser (key : string).

Inductive dval :=
| VGroup
| VReal (a : arr xr)
| VBool (a : arr bool)
| VVec (l : list xr)
| VNat (n : nat)
| VFlag (b : bool)
| VCb (c : list nat * list (list xr))
| VUser (v : list xr).

Definition file := list (path * dval).
Definition dname_eq_dec : forall a b : dname, {a = b} + {a <> b}.
Proof. decide equality; apply Nat.eq_dec. Defined.
Definition path_eq_dec : forall a b : path, {a = b} + {a <> b}.
Proof.
  decide equality; try apply string_dec; apply dname_eq_dec.
Defined.
Definition flookup (f : file) (p : path) : option dval :=
  match find (fun q => if path_eq_dec (fst q) p then true else false) f with
  | Some q => Some (snd q)
  | None => None
  end.

(** The disk: file name to content.  [crash] counts the file operations that
    still succeed before the process is killed ([None]: never killed).
    [opened] lists the files opened for writing so far, oldest first. *)
Record disk := Disk { files : string -> option file; crash : option nat;
                      opened : list string }.
Definition put_file (f : string -> option file) (name : string) (c : file)
  : string -> option file :=
  fun n => if string_dec n name then Some c else f n.

(** ** The VB object *)

Inductive key := KNode (i : nat) | KName (s : string).
(** Value a callback returns: shape and elements. *)
Definition cbval := (list nat * list xr)%type.
Definition callback := world -> world * res (option cbval).

Record vb := VB {
  v_world : world;
  v_model : list nat;                     (* self.model *)
  v_iter : nat;                           (* self.iter *)
  v_annealing_changed : bool;
  v_converged : bool;
  v_L : list xr;                          (* self.L *)
  v_cputime : list xr;
  v_l : list (nat * list xr);             (* self.l *)
  v_autosave_iterations : Z;
  v_autosave_nodes : option (list key);
  v_autosave_filename : string;
  v_callback : option callback;
  v_callback_output : option (list nat * list (list xr));
  v_tol : R;
  v_ignore_bound_checks : bool;
  v_user_data : option (list (string * list xr));
  v_disk : disk;
  v_clock : nat -> R                      (* values time.time() will return *)
}.

Definition set_world s w := VB w (v_model s) (v_iter s) (v_annealing_changed s) (v_converged s) (v_L s) (v_cputime s) (v_l s) (v_autosave_iterations s) (v_autosave_nodes s) (v_autosave_filename s) (v_callback s) (v_callback_output s) (v_tol s) (v_ignore_bound_checks s) (v_user_data s) (v_disk s) (v_clock s).
Definition set_iter s x := VB (v_world s) (v_model s) x (v_annealing_changed s) (v_converged s) (v_L s) (v_cputime s) (v_l s) (v_autosave_iterations s) (v_autosave_nodes s) (v_autosave_filename s) (v_callback s) (v_callback_output s) (v_tol s) (v_ignore_bound_checks s) (v_user_data s) (v_disk s) (v_clock s).
Definition set_annealing_changed s x := VB (v_world s) (v_model s) (v_iter s) x (v_converged s) (v_L s) (v_cputime s) (v_l s) (v_autosave_iterations s) (v_autosave_nodes s) (v_autosave_filename s) (v_callback s) (v_callback_output s) (v_tol s) (v_ignore_bound_checks s) (v_user_data s) (v_disk s) (v_clock s).
Definition set_converged s x := VB (v_world s) (v_model s) (v_iter s) (v_annealing_changed s) x (v_L s) (v_cputime s) (v_l s) (v_autosave_iterations s) (v_autosave_nodes s) (v_autosave_filename s) (v_callback s) (v_callback_output s) (v_tol s) (v_ignore_bound_checks s) (v_user_data s) (v_disk s) (v_clock s).
Definition set_L s x := VB (v_world s) (v_model s) (v_iter s) (v_annealing_changed s) (v_converged s) x (v_cputime s) (v_l s) (v_autosave_iterations s) (v_autosave_nodes s) (v_autosave_filename s) (v_callback s) (v_callback_output s) (v_tol s) (v_ignore_bound_checks s) (v_user_data s) (v_disk s) (v_clock s).
Definition set_cputime s x := VB (v_world s) (v_model s) (v_iter s) (v_annealing_changed s) (v_converged s) (v_L s) x (v_l s) (v_autosave_iterations s) (v_autosave_nodes s) (v_autosave_filename s) (v_callback s) (v_callback_output s) (v_tol s) (v_ignore_bound_checks s) (v_user_data s) (v_disk s) (v_clock s).
Definition set_l s x := VB (v_world s) (v_model s) (v_iter s) (v_annealing_changed s) (v_converged s) (v_L s) (v_cputime s) x (v_autosave_iterations s) (v_autosave_nodes s) (v_autosave_filename s) (v_callback s) (v_callback_output s) (v_tol s) (v_ignore_bound_checks s) (v_user_data s) (v_disk s) (v_clock s).
Definition set_autosave_fields s it nd fn := VB (v_world s) (v_model s) (v_iter s) (v_annealing_changed s) (v_converged s) (v_L s) (v_cputime s) (v_l s) it nd fn (v_callback s) (v_callback_output s) (v_tol s) (v_ignore_bound_checks s) (v_user_data s) (v_disk s) (v_clock s).
Definition set_callback_field s x := VB (v_world s) (v_model s) (v_iter s) (v_annealing_changed s) (v_converged s) (v_L s) (v_cputime s) (v_l s) (v_autosave_iterations s) (v_autosave_nodes s) (v_autosave_filename s) x (v_callback_output s) (v_tol s) (v_ignore_bound_checks s) (v_user_data s) (v_disk s) (v_clock s).
Definition set_callback_output s x := VB (v_world s) (v_model s) (v_iter s) (v_annealing_changed s) (v_converged s) (v_L s) (v_cputime s) (v_l s) (v_autosave_iterations s) (v_autosave_nodes s) (v_autosave_filename s) (v_callback s) x (v_tol s) (v_ignore_bound_checks s) (v_user_data s) (v_disk s) (v_clock s).
Definition set_ignore s x := VB (v_world s) (v_model s) (v_iter s) (v_annealing_changed s) (v_converged s) (v_L s) (v_cputime s) (v_l s) (v_autosave_iterations s) (v_autosave_nodes s) (v_autosave_filename s) (v_callback s) (v_callback_output s) (v_tol s) x (v_user_data s) (v_disk s) (v_clock s).
Definition set_disk s x := VB (v_world s) (v_model s) (v_iter s) (v_annealing_changed s) (v_converged s) (v_L s) (v_cputime s) (v_l s) (v_autosave_iterations s) (v_autosave_nodes s) (v_autosave_filename s) (v_callback s) (v_callback_output s) (v_tol s) (v_ignore_bound_checks s) (v_user_data s) x (v_clock s).
Definition set_clock s x := VB (v_world s) (v_model s) (v_iter s) (v_annealing_changed s) (v_converged s) (v_L s) (v_cputime s) (v_l s) (v_autosave_iterations s) (v_autosave_nodes s) (v_autosave_filename s) (v_callback s) (v_callback_output s) (v_tol s) (v_ignore_bound_checks s) (v_user_data s) (v_disk s) x.

(** misc.unique, utils/misc.py 445-451: drop later duplicates. *)
Fixpoint unique_from (seen l : list nat) : list nat :=
  match l with
  | [] => []
  | x :: r => if existsb (Nat.eqb x) seen then unique_from seen r
              else x :: unique_from (x :: seen) r
  end.
Definition unique (l : list nat) : list nat := unique_from [] l.

Section Engine.

(** What the engine uses of the nodes. *)
Variable name_of : nat -> string.                       (* node.name *)
Variable stochastic : nat -> bool.                      (* has update/_save/load *)
Variable update_node : nat -> world -> world * res unit. (* node.update() *)
Variable contribution : nat -> world -> res xr.         (* node.lower_bound_contribution() *)
Variable update_mask : nat -> world -> world.           (* node._update_mask() *)

(** VB.__init__, vmp.py 52-108.  [nodes]: the arguments, all of them nodes.
    Simplification: the automatic temporary file name is the argument
    [tmpname]. *)
Definition vb_init (nodes : list nat) (w : world) (tol : R)
    (autosave_filename tmpname : string) (autosave_iterations : Z)
    (user_data : option (list (string * list xr))) (cb : option callback)
    (d : disk) (clock : nat -> R) : res vb :=
  let model := unique nodes in
  let filename := if string_dec autosave_filename "" then tmpname
                  else autosave_filename in
  (* Check uniqueness of the node names *)
  let names := map name_of model in
  if negb (length names =? length model)%nat then Err PyException
  else Ok (VB w model 0 false false [] [] (map (fun n => (n, [])) model)
              autosave_iterations None filename cb None tol false user_data d clock).

(** VB.__getitem__, vmp.py 358-364.  The dictionary keeps the last node of
    every name. *)
Definition getitem (s : vb) (k : key) : res nat :=
  let by_name := fun nm =>
    match find (fun n => if string_dec (name_of n) nm then true else false)
               (rev (v_model s)) with
    | Some n => Ok n
    | None => Err KeyError
    end in
  match k with
  | KNode i => if existsb (Nat.eqb i) (v_model s) then Ok i else Err KeyError
  | KName nm => by_name nm
  end.

(** time.time() *)
Definition time : ST vb R :=
  fun s => (set_clock s (fun n => v_clock s (S n)), Ok (v_clock s 0%nat)).

(** VB.compute_lowerbound, vmp.py 180-184 *)
Definition compute_lowerbound : ST vb xr :=
  fun s => (s, foldM (fun L n => c <- contribution n (v_world s) ;; Ok (xadd L c))
                     (Some 0) (v_model s)).

(** self.l[node][i] = x *)
Definition set_term (l : list (nat * list xr)) (n i : nat) (x : xr)
  : res (list (nat * list xr)) :=
  mapM (fun p => if (fst p =? n)%nat
                 then v <- set_nth (snd p) i x ;; Ok (fst p, v) else Ok p) l.

(** VB.loglikelihood_lowerbound, vmp.py 192-199 *)
Definition loglikelihood_lowerbound : ST vb xr :=
  s0 <-- gets (fun s => s) ;;;
  (fix go (nodes : list nat) (L : xr) : ST vb xr :=
     match nodes with
     | [] => ret L
     | n :: r =>
       s <-- gets (fun s => s) ;;;
       lp <-- lift (contribution n (v_world s)) ;;;
       l' <-- lift (set_term (v_l s) n (v_iter s) lp) ;;;
       modify (fun s => set_l s l') >>> go r (xadd L lp)
     end) (v_model s0) (Some 0).

(** VB._append_iterations, vmp.py 682-690 *)
Definition append_iterations (iters : nat) : ST vb unit :=
  modify (fun s => set_L s (v_L s ++ repeat nan iters)) >>>
  modify (fun s => set_cputime s (v_cputime s ++ repeat nan iters)) >>>
  modify (fun s => set_l s (map (fun p => (fst p, snd p ++ repeat nan iters)) (v_l s))).

(** ** Saving *)

(** One file operation; the process may be killed before it. *)
Definition file_op (name : string) (f : option file -> res file) : ST vb unit :=
  fun s =>
    match crash (v_disk s) with
    | Some O => (s, Err Killed)
    | c =>
      let c' := match c with Some (S n) => Some n | x => x end in
      match f (files (v_disk s) name) with
      | Ok g => (set_disk s (Disk (put_file (files (v_disk s)) name g) c'
                                  (opened (v_disk s))), Ok tt)
      | Err e => (set_disk s (Disk (files (v_disk s)) c' (opened (v_disk s))), Err e)
      end
    end.
(** h5py.File(filename, 'w'): create or truncate. *)
Definition h5_open_w (name : string) : ST vb unit :=
  file_op name (fun _ => Ok []) >>>
  modify (fun s => set_disk s (Disk (files (v_disk s)) (crash (v_disk s))
                                    (opened (v_disk s) ++ [name]))).
(** create_group / create_dataset: ValueError when the name exists.
    misc.write_to_hdf5, utils/misc.py 456-469, re-raises it as ValueError. *)
Definition h5_create (name : string) (p : path) (v : dval) : ST vb unit :=
  file_op name (fun o =>
    match o with
    | None => Err ValueError
    | Some f => match flookup f p with
                | Some _ => Err ValueError
                | None => Ok (f ++ [(p, v)])
                end
    end).

Definition enumerate {A} (l : list A) : list (nat * A) := combine (seq 0 (length l)) l.

(** ExponentialFamily._save, expfamily.py 507-521, and Stochastic._save,
    stochastic.py 320-329 *)
Definition save_node (fname : string) (n : nat) : ST vb unit :=
  st <-- gets (fun s => v_world s n) ;;;
  sfor (enumerate (n_phi st))
       (fun p => h5_create fname (PData (name_of n) (DPhi (fst p))) (VReal (snd p))) >>>
  h5_create fname (PData (name_of n) DF) (VReal (n_f st)) >>>
  h5_create fname (PData (name_of n) DG) (VReal (n_g st)) >>>
  sfor (enumerate (n_u st))
       (fun p => h5_create fname (PData (name_of n) (DU (fst p))) (VReal (snd p))) >>>
  h5_create fname (PData (name_of n) DObserved) (VBool (n_observed st)).

(** self.l[node] *)
Definition term_of (s : vb) (n : nat) : res (list xr) :=
  match find (fun p => (fst p =? n)%nat) (v_l s) with
  | Some p => Ok (snd p)
  | None => Err KeyError
  end.

(** VB.save, vmp.py 237-292.  Closing the file in the finally block writes
    nothing more. *)
Definition save (nodes : list key) (filename : string) : ST vb unit :=
  ns <-- (match nodes with
          | [] => gets v_model
          | _ => s <-- gets (fun s => s) ;;; smap nodes (fun k => lift (getitem s k))
          end) ;;;
  auto <-- gets v_autosave_filename ;;;
  fname <-- (if string_dec filename ""
             then (if string_dec auto "" then raise PyException else ret auto)
             else ret filename) ;;;
  h5_open_w fname >>>
  h5_create fname PNodes VGroup >>>
  sfor ns (fun n =>
    if string_dec (name_of n) "" then raise PyException
    else if stochastic n
         then h5_create fname (PNode (name_of n)) VGroup >>> save_node fname n
         else ret tt) >>>
  s <-- gets (fun s => s) ;;;
  h5_create fname PL (VVec (v_L s)) >>>
  h5_create fname PCputime (VVec (v_cputime s)) >>>
  h5_create fname PIter (VNat (v_iter s)) >>>
  h5_create fname PConverged (VFlag (v_converged s)) >>>
  (match v_callback_output s with
   | Some c => h5_create fname PCallback (VCb c)
   | None => ret tt
   end) >>>
  h5_create fname PBounds VGroup >>>
  sfor ns (fun n => t <-- lift (term_of s n) ;;; h5_create fname (PBound (name_of n)) (VVec t)) >>>
  (match v_user_data s with
   | Some u => h5_create fname PUserGroup VGroup >>>
               sfor u (fun kv => h5_create fname (PUser (fst kv)) (VUser (snd kv)))
   | None => ret tt
   end).

(** ** Loading *)

Definition rd_real (f : file) (p : path) : res (arr xr) :=
  match flookup f p with Some (VReal a) => Ok a | Some _ => Err TypeError | None => Err KeyError end.
Definition rd_bool (f : file) (p : path) : res (arr bool) :=
  match flookup f p with Some (VBool a) => Ok a | Some _ => Err TypeError | None => Err KeyError end.
Definition rd_vec (f : file) (p : path) : res (list xr) :=
  match flookup f p with Some (VVec a) => Ok a | Some _ => Err TypeError | None => Err KeyError end.

(** Set element [i] of the list (i is in range in the callers). *)
Definition set_at {A} (l : list A) (i : nat) (x : A) : list A :=
  match set_nth l i x with Ok l' => l' | Err _ => l end.

Definition mod_node (n : nat) (f : nstate -> nstate) : ST vb unit :=
  modify (fun s => set_world s (set_node (v_world s) n (f (v_world s n)))).

(** np.any(old != new): compare element by element after broadcasting; arrays
    that do not broadcast are different. *)
Fixpoint any_diff_from (s : list nat) (n : nat) (d : env -> bool) (e : env) : bool :=
  match n with
  | O => d e
  | S k => bany (SpecShapes.ax s k) (fun x => any_diff_from s k d (upd e k x))
  end.
Definition any_differs (a b : arr bool) : bool :=
  match np_bshape [ash a; ash b] with
  | Ok s => any_diff_from s (length s) (fun e => xorb (bget a e) (bget b e)) env0
  | Err _ => true
  end.

(** ExponentialFamily._load, expfamily.py 524-535, and Stochastic._load,
    stochastic.py 341-354.  h5f['nodes'][name] itself raises KeyError when the
    group is missing. *)
Definition load_node (f : file) (n : nat) : ST vb unit :=
  let nm := name_of n in
  (match flookup f PNodes, flookup f (PNode nm) with
   | Some _, Some _ => ret tt
   | _, _ => raise KeyError
   end) >>>
  nphi <-- gets (fun s => length (n_phi (v_world s n))) ;;;
  sfor (seq 0 nphi) (fun i =>
    a <-- lift (rd_real f (PData nm (DPhi i))) ;;;
    mod_node n (fun st => NS (set_at (n_phi st) i a) (n_u st) (n_f st) (n_g st)
                             (n_observed st) (n_mask st) (n_annealing st))) >>>
  a <-- lift (rd_real f (PData nm DF)) ;;;
  mod_node n (fun st => NS (n_phi st) (n_u st) a (n_g st) (n_observed st) (n_mask st) (n_annealing st)) >>>
  a <-- lift (rd_real f (PData nm DG)) ;;;
  mod_node n (fun st => NS (n_phi st) (n_u st) (n_f st) a (n_observed st) (n_mask st) (n_annealing st)) >>>
  nu <-- gets (fun s => length (n_u (v_world s n))) ;;;
  sfor (seq 0 nu) (fun i =>
    a <-- lift (rd_real f (PData nm (DU i))) ;;;
    mod_node n (fun st => NS (n_phi st) (set_at (n_u st) i a) (n_f st) (n_g st)
                             (n_observed st) (n_mask st) (n_annealing st))) >>>
  old <-- gets (fun s => n_observed (v_world s n)) ;;;
  new <-- lift (rd_bool f (PData nm DObserved)) ;;;
  mod_node n (fun st => NS (n_phi st) (n_u st) (n_f st) (n_g st) new (n_mask st) (n_annealing st)) >>>
  if any_differs old new
  then modify (fun s => set_world s (update_mask n (v_world s)))
  else ret tt.

(** except KeyError: raise Exception(...) *)
Definition catch_key {S A} (m : ST S A) : ST S A :=
  fun s => match m s with (s', Err KeyError) => (s', Err PyException) | r => r end.

(** VB.load, vmp.py 309-356.  Opening a missing file raises OSError. *)
Definition load (nodes : list key) (filename : string) (nodes_only : bool) : ST vb unit :=
  auto <-- gets v_autosave_filename ;;;
  fname <-- (if string_dec filename ""
             then (if string_dec auto "" then raise PyException else ret auto)
             else ret filename) ;;;
  d <-- gets v_disk ;;;
  f <-- (match files d fname with Some f => ret f | None => raise OSError end) ;;;
  ns <-- (match nodes with
          | [] => gets v_model
          | _ => s <-- gets (fun s => s) ;;; smap nodes (fun k => lift (getitem s k))
          end) ;;;
  sfor ns (fun n =>
    if string_dec (name_of n) "" then raise PyException
    else if stochastic n then catch_key (load_node f n) else ret tt) >>>
  if nodes_only then ret tt
  else
    x <-- lift (rd_vec f PL) ;;; modify (fun s => set_L s x) >>>
    x <-- lift (rd_vec f PCputime) ;;; modify (fun s => set_cputime s x) >>>
    x <-- (match flookup f PIter with Some (VNat n) => ret n | Some _ => raise TypeError | None => raise KeyError end) ;;;
    modify (fun s => set_iter s x) >>>
    x <-- (match flookup f PConverged with Some (VFlag b) => ret b | Some _ => raise TypeError | None => raise KeyError end) ;;;
    modify (fun s => set_converged s x) >>>
    sfor ns (fun n =>
      u <-- (match flookup f PBounds with Some _ => ret tt | None => raise KeyError end) ;;;
      x <-- lift (rd_vec f (PBound (name_of n))) ;;;
      modify (fun s => set_l s (map (fun p => if (fst p =? n)%nat then (n, x) else p) (v_l s)))) >>>
    (match flookup f PCallback with
     | Some (VCb c) => modify (fun s => set_callback_output s (Some c))
     | Some _ => raise TypeError
     | None => ret tt
     end).

(** ** Iterations *)

(** np.concatenate((callback_output, z), axis=-1) *)
Definition append_callback (o : option (list nat * list (list xr))) (z : cbval)
  : res (list nat * list (list xr)) :=
  match o with
  | None => Ok (fst z, [snd z])
  | Some (sh, cols) => if list_eq_dec Nat.eq_dec sh (fst z)
                       then Ok (sh, cols ++ [snd z]) else Err ValueError
  end.

(** vmp.py 702-711: call the user's function. *)
Definition call_callback : ST vb unit :=
  cb <-- gets v_callback ;;;
  match cb with
  | None => ret tt
  | Some f =>
    fun s =>
      let '(w, r) := f (v_world s) in
      match r with
      | Err e => (set_world s w, Err e)
      | Ok None => (set_world s w, Ok tt)
      | Ok (Some z) =>
        match append_callback (v_callback_output s) z with
        | Ok o => (set_callback_output (set_world s w) (Some o), Ok tt)
        | Err e => (set_world s w, Err e)
        end
      end
  end.

(** VB._end_iteration_step, vmp.py 693-764 (bound_cpu_time is True in all
    calls) *)
Definition end_iteration_step (cputime : R) (tol : option R) : ST vb bool :=
  s <-- gets (fun s => s) ;;;
  (if (length (v_L s) <=? v_iter s)%nat then append_iterations 100 else ret tt) >>>
  call_callback >>>
  t <-- time ;;;
  L <-- loglikelihood_lowerbound ;;;
  t' <-- time ;;;
  s <-- gets (fun s => s) ;;;
  cs <-- lift (set_nth (v_cputime s) (v_iter s) (Some (cputime + (t' - t)))) ;;;
  modify (fun s => set_cputime s cs) >>>
  Ls <-- lift (set_nth (v_L s) (v_iter s) L) ;;;
  modify (fun s => set_L s Ls) >>>
  modify (fun s => set_converged s false) >>>
  s <-- gets (fun s => s) ;;;
  (if negb (v_ignore_bound_checks s) && negb (v_annealing_changed s)
      && (0 <? v_iter s)%nat
   then
     L0 <-- lift (get_nth (v_L s) (v_iter s - 1)) ;;;
     L1 <-- lift (get_nth (v_L s) (v_iter s)) ;;;
     let tol := match tol with None => v_tol s | Some x => x end in
     let div := xlift2 Rmult (Some (1/2)) (xadd (xabs L0) (xabs L1)) in
     if xltb (xdiv (xsub L1 L0) div) (Some tol)
     then modify (fun s => set_converged s true) else ret tt
   else ret tt) >>>
  (if (0 <? v_autosave_iterations s)%Z
      && (Z.of_nat (v_iter s + 1) mod v_autosave_iterations s =? 0)%Z
   then match v_autosave_nodes s with
        | Some ns => save ns (v_autosave_filename s)
        | None => save [] (v_autosave_filename s)
        end
   else ret tt) >>>
  modify (fun s => set_annealing_changed s false) >>>
  modify (fun s => set_iter s (v_iter s + 1)) >>>
  gets v_converged.

(** vmp.py 155-162: one pass over the nodes. *)
Definition update_nodes (nodes : list key) : ST vb unit :=
  sfor nodes (fun k =>
    s <-- gets (fun s => s) ;;;
    n <-- lift (getitem s k) ;;;
    if stochastic n
    then fun s => let '(w, r) := update_node n (v_world s) in (set_world s w, r)
    else ret tt).

(** The while loop of VB.update, vmp.py 151-172, with [i] iterations left. *)
Fixpoint update_loop (i : nat) (nodes : list key) (tol : option R) : ST vb unit :=
  match i with
  | O => ret tt
  | S j =>
    t <-- time ;;;
    update_nodes nodes >>>
    t' <-- time ;;;
    stop <-- end_iteration_step (t' - t) tol ;;;
    if stop then ret tt else update_loop j nodes tol
  end.

(** VB.update, vmp.py 132-172.  [repeat = None] loops until convergence; the
    model then takes the number of iterations after which it is interrupted
    from [bound] and reports it as [Interrupted]. *)
Definition update (nodes : list key) (repeat : option nat) (tol : option R) (bound : nat)
  : ST vb unit :=
  model <-- gets v_model ;;;
  let nodes := match nodes with [] => map KNode model | _ => nodes end in
  match repeat with
  | Some n => update_loop n nodes tol
  | None =>
    (fix go (i : nat) : ST vb unit :=
       match i with
       | O => raise Interrupted
       | S j =>
         t <-- time ;;;
         update_nodes nodes >>>
         t' <-- time ;;;
         stop <-- end_iteration_step (t' - t) tol ;;;
         if stop then ret tt else go j
       end) bound
  end.

(** VB.set_autosave, vmp.py 121-126 *)
Definition set_autosave (filename : string) (iterations : option Z) (nodes : option (list key))
  : ST vb unit :=
  modify (fun s => set_autosave_fields s
    (match iterations with Some k => k | None => v_autosave_iterations s end)
    nodes filename).

(** VB.set_callback, vmp.py 129-130 *)
Definition set_callback (cb : option callback) : ST vb unit :=
  modify (fun s => set_callback_field s cb).

(** VB.set_annealing, vmp.py 665-679 *)
Definition set_annealing (a : R) : ST vb unit :=
  s <-- gets (fun s => s) ;;;
  sfor (v_model s) (fun n => mod_node n (fun st =>
    NS (n_phi st) (n_u st) (n_f st) (n_g st) (n_observed st) (n_mask st) a)) >>>
  modify (fun s => set_annealing_changed s true) >>>
  modify (fun s => set_converged s false).

End Engine.
