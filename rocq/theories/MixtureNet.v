(** Mixture nodes (nodes/mixture.py) for networks (DetNet.v), mixed over the last plate axis of
    the parameters (cluster_plate = -1, the default).  The arrays of MixtureDistribution with
    any cluster axis are in Mixture.v; here are the functions of one plate of the mixture node,
    for which the clusters are an axis of the parameters' moments.  No proofs here. *)
From Coq Require Import List Arith ZArith Bool Reals.
From Verif Require Import Base Shapes SpecShapes NumPy MiscArray SpecArray ExpFam Families
  FamilyDist Network FamilyNet DetNet.
Import ListNotations.
Open Scope R_scope.

(** Cluster [k] of moments that have the clusters as their first axis. *)
Definition cluster (dims : list shape) (k : nat) (u : list (env -> R)) : list (env -> R) :=
  map (fun du v => snd du (join (length (fst du)) (upd env0 0 k) v)) (combine dims u).
Definition clusters (pdims : list (list shape)) (k : nat) (ups : list (list (env -> R)))
  : list (list (env -> R)) :=
  map (fun du => cluster (fst du) k (snd du)) (combine pdims ups).

(** np.where(a != 0, b, 0) *)
Definition where_at (a b : R) : R := if Req_EM_T a 0 then 0 else b.

(** expfamily.py 45-61: compute_logpdf with f = 0, one plate. *)
Definition plate_logpdf (dims : list shape) (g : R) (phi u : list (env -> R)) : R :=
  fold_left (fun L t => L + total (fst t) (fun v => where_at (snd (snd t) v) (fst (snd t) v) * snd (snd t) v))
    (combine dims (combine phi u)) g.

(** mixture.py 26-356: MixtureDistribution of the distribution [F] with [K] clusters.  The first
    parent is the cluster assignment; compute_phi_from_parents 180-248,
    compute_cgf_from_parents 258-293, compute_message_to_parent 53-160 (index 0: 60-106, the
    parameters: 108-160).  The moments of the node are those of [F] (251-255). *)
Definition mixture_efam (K : nat) (F : efam) : efam :=
  let dims := fam_dims (e_fam F) in
  EFam (e_fam F) ([[K]] :: map (map (cons K)) (e_pdims F))
  (fun ups => match ups with
     | [z] :: params =>
         map (fun c v => rsum K (fun k =>
                let p := z (upd env0 0 k) in
                p * where_at p (nth c (e_phi F (clusters (e_pdims F) k params)) zero0 v)))
             (seq 0 (length dims))
     | _ => map (fun _ => zero0) dims end)
  (fun ups => match ups with
     | [z] :: params => rsum K (fun k => z (upd env0 0 k) * e_cgf F (clusters (e_pdims F) k params))
     | _ => 0 end)
  (fun i x ups => match i, ups with
     | O, _ :: params =>
         [fun v => let ps := clusters (e_pdims F) (v 0%nat) params in
                   plate_logpdf dims (e_cgf F ps) (e_phi F ps) x]
     | O, [] => [zero0]
     | S i, [z] :: params =>
         map (fun cd v => let nd := length (snd cd) in let k := v nd in
                nth (fst cd) (e_message F i x (clusters (e_pdims F) k params)) zero0
                    (fun j => if (j <? nd)%nat then v j else 0%nat) * z (upd env0 0 k))
             (combine (seq 0 (length (nth i (e_pdims F) []))) (nth i (e_pdims F) []))
     | S i, _ => map (fun _ => zero0) (nth i (e_pdims F) []) end).

(** mixture.py 108-177 and 303-342: the cluster axis is the last plate axis of the parameters
    and an axis of the variable for the mixture: plates_to_parent appends K to the plates,
    compute_weights_to_parent an axis to the mask; the plate multiplier is passed on unchanged
    (node.py 389-406).  [dims]: the dims of the parameter's moments. *)
Definition clusters_fn (plates : shape) (K : nat) (dims : list shape) : detfn := DetFn
  (fun us => match us with
     | [u] => Ok (lift_arrays plates (map (cons K) dims) (fun p => at_plate (map (cons K) dims) u p))
     | _ => Err ValueError end)
  (fun n par _ m _ =>
     zipM (fun d a => message_to_parent a (add_trailing_axes (pl_mask n) 1) (pl_plates n ++ [K])
                        (pl_mult n) (pl_mult par) (pl_plates par) d)
       (pl_dims par)
       (lift_arrays (pl_plates n ++ [K]) (pl_dims par) (fun e => at_plate (pl_dims par) m e))).
