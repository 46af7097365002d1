(** The Gaussian-type distribution objects with their parents, and the deterministic nodes
    that join their moments, for networks (DetNet.v).  No proofs here. *)
From Coq Require Import List Arith ZArith Bool Reals.
From Verif Require Import Base Shapes SpecShapes NumPy MiscArray SpecArray ExpFam Families Linalg Gaussian
  FamilyDist GaussianDist Network FamilyNet DetNet.
Import ListNotations.
Open Scope R_scope.

(** ** Distributions *)

(** gaussian.py 576-741, ndim = 0; the parent is [<alpha mu>, <alpha mu^2>, <alpha>, <log alpha>]. *)
Definition ard0_efam : efam := EFam ard0_family [[[]; []; []; []]]
  (fun ups => match ups with
     | [[am; am2; a; la]] => [fun _ => 1 * am env0; fun _ => 1 * (-0.5 * a env0)]
     | _ => [zero0; zero0] end)
  (fun ups => match ups with
     | [[am; am2; a; la]] => -0.5 * (am2 env0 * 1) + 0.5 * (la env0 * 1) | _ => 0 end)
  (fun _ x _ => match x with
     | [x0; x1] => [fun _ => x0 env0; fun _ => -0.5 * 1; fun _ => -0.5 * x1 env0; fun _ => 0.5 * 1]
     | _ => [zero0; zero0; zero0; zero0] end).

(** gaussian.py 576-741, ndim = 1.  The elements of mu and alpha are plates of the parent in
    the code; here they are one variable axis of its moments (see [elements_fn]). *)
Definition ard_efam (D : nat) : efam := EFam (ard_family D) [[[D]; [D]; [D]; [D]]]
  (fun ups => match ups with
     | [[am; am2; a; la]] =>
         let p := ard_phi (as_vec am, as_vec am2, as_vec a, as_vec la) in [of_vec (fst p); of_mat (snd p)]
     | _ => [zero0; zero0] end)
  (fun ups => match ups with
     | [[am; am2; a; la]] => ard_cgf D (as_vec am, as_vec am2, as_vec a, as_vec la) | _ => 0 end)
  (fun _ x _ => match x with
     | [x0; x1] => let '(m0, m1, m2, m3) := ard_message (as_vec x0, as_mat x1) in
                   [of_vec m0; of_vec m1; of_vec m2; of_vec m3]
     | _ => [zero0; zero0; zero0; zero0] end).

(** gaussian.py 341-463; the parent is [<Lambda mu>, <mu Lambda mu>, <Lambda>, <logdet Lambda>]. *)
Definition gaussian_efam (D : nat) : efam := EFam (gaussian_family D) [[[D]; []; [D; D]; []]]
  (fun ups => match ups with
     | [[lm; q; l; ld]] =>
         let p := gaussian_phi (as_vec lm, q env0, as_mat l, ld env0) in [of_vec (fst p); of_mat (snd p)]
     | _ => [zero0; zero0] end)
  (fun ups => match ups with
     | [[lm; q; l; ld]] => gaussian_cgf (as_vec lm, q env0, as_mat l, ld env0) | _ => 0 end)
  (fun _ x _ => match x with
     | [x0; x1] => let '(m0, m1, m2, m3) := gaussian_message (as_vec x0, as_mat x1) in
                   [of_vec m0; fun _ => m1; of_mat m2; fun _ => m3]
     | _ => [zero0; zero0; zero0; zero0] end).

(** gaussian.py 1018-1097; the parents are the Gaussian-Wishart moments, [a, gammaln a] and
    [<b>, <log b>]. *)
Definition gaussian_gamma_efam (lg psi : R -> R) (D : nat) : efam :=
  EFam (gaussian_gamma_family lg psi D) [[[D]; []; [D; D]; []]; [[]; []]; [[]; []]]
  (fun ups => match ups with
     | [[lm; q; l; ld]; [a; ga]; [b; lb]] =>
         let '(p0, p1, p2, p3) := gg_phi (as_vec lm, q env0, as_mat l, ld env0)
           (a env0, ga env0) (b env0, lb env0) in
         [of_vec p0; of_mat p1; fun _ => p2; fun _ => p3]
     | _ => [zero0; zero0; zero0; zero0] end)
  (fun ups => match ups with
     | [[lm; q; l; ld]; [a; ga]; [b; lb]] =>
         gg_cgf (as_vec lm, q env0, as_mat l, ld env0) (a env0, ga env0) (b env0, lb env0)
     | _ => 0 end)
  (fun k x ups => match k, x, ups with
     | O, [x0; x1; x2; x3], _ =>
         let '(m0, m1, m2, m3) := gg_message_muLambda (as_vec x0, as_mat x1, x2 env0, x3 env0) in
         [of_vec m0; fun _ => m1; of_mat m2; fun _ => m3]
     | S O, [x0; x1; x2; x3], [_; _; [b; lb]] =>
         let m := gg_message_a (as_vec x0, as_mat x1, x2 env0, x3 env0) (b env0, lb env0) in
         [fun _ => fst m; fun _ => snd m]
     | S (S O), [x0; x1; x2; x3], [_; [a; ga]; _] =>
         let m := gg_message_b (as_vec x0, as_mat x1, x2 env0, x3 env0) (a env0, ga env0) in
         [fun _ => fst m; fun _ => snd m]
     | O, _, _ => [zero0; zero0; zero0; zero0]
     | _, _, _ => [zero0; zero0] end).

(** wishart.py 118-205; the parents are [n, multigammaln(n/2)] and [<V>, <logdet V>].  The code
    has no message to the degrees of freedom (NotImplementedError): that parent is a constant
    and never asks for one; what is given here for it is not used. *)
Definition wishart_efam (lg psi : R -> R) (k : nat) : efam :=
  EFam (wishart_family lg psi k) [[[]; []]; [[k; k]; []]]
  (fun ups => match ups with
     | [[n; gn]; [v; lv]] =>
         let p := wishart_phi (n env0, gn env0) (as_mat v, lv env0) in [of_mat (fst p); fun _ => snd p]
     | _ => [zero0; zero0] end)
  (fun ups => match ups with
     | [[n; gn]; [v; lv]] => wishart_cgf k (n env0, gn env0) (as_mat v, lv env0) | _ => 0 end)
  (fun i x ups => match i, x, ups with
     | O, [x0; x1], [_; [v; lv]] =>
         [fun _ => 0.5 * x1 env0 + 0.5 * lv env0 - 0.5 * INR k * ln 2; fun _ => -1]
     | S O, [x0; x1], [[n; gn]; _] =>
         let m := wishart_message_V (as_mat x0, x1 env0) (n env0, gn env0) in [of_mat (fst m); fun _ => snd m]
     | _, _, _ => [zero0; zero0] end).

(** ** Deterministic nodes that work plate by plate *)

(** deterministic.py 62-83 and node.py 570-655: _compute_moments and the message to a parent,
    from the functions for one plate.  Simplification: the moments are given for every plate;
    the code leaves broadcast axes as they are. *)
Record plate_fn := PlateFn {
  pf_dims : list shape;
  pf_pdims : list (list shape);
  pf_moments : list (list (env -> R)) -> list (env -> R);
  pf_message : nat -> list (env -> R) -> list (list (env -> R)) -> list (env -> R) }.
Definition plate_det (P : plate_fn) (plates : shape) : detfn := DetFn
  (fun us => Ok (lift_arrays plates (pf_dims P) (fun p => pf_moments P (at_plates (pf_pdims P) us p))))
  (fun n par k m us =>
     zipM (fun d a => message_to_parent a (pl_mask n) (pl_plates n) (pl_mult n) (pl_mult par) (pl_plates par) d)
       (pl_dims par)
       (lift_arrays (pl_plates n) (nth k (pf_pdims P) []) (fun p =>
          pf_message P k (at_plate (pl_dims n) m p) (at_plates (pf_pdims P) us p)))).

(** gaussian.py 2226-2272: GaussianToGaussianGamma, variables of shape [s]. *)
Definition to_gg_fn (s : shape) : plate_fn := PlateFn [s; s ++ s; []; []] [[s; s ++ s]]
  (fun ups => match ups with
     | [[x; xx]] => [x; xx; fun _ => 1; fun _ => 0] | _ => [zero0; zero0; zero0; zero0] end)
  (fun _ m _ => match m with [m0; m1; _; _] => [m0; m1] | _ => [zero0; zero0] end).

(** gaussian.py 2339-2371: WrapToGaussianGamma. *)
Definition wrap_gg_fn (s : shape) : plate_fn :=
  PlateFn [s; s ++ s; []; []] [[s; s ++ s; []; []]; [[]; []]]
  (fun ups => match ups with
     | [[tx; txx; t; lt]; [a; la]] =>
         [fun v => a env0 * tx v; fun v => a env0 * txx v; fun _ => t env0 * a env0; fun _ => lt env0 + la env0]
     | _ => [zero0; zero0; zero0; zero0] end)
  (fun k m ups => match k, m, ups with
     | O, [m0; m1; m2; m3], [_; [a; la]] =>
         [fun v => a env0 * m0 v; fun v => a env0 * m1 v; fun _ => m2 env0 * a env0; m3]
     | S O, [m0; m1; m2; m3], [[tx; txx; t; lt]; _] =>
         [fun _ => total s (fun v => m0 v * tx v) + total (s ++ s) (fun v => m1 v * txx v) + m2 env0 * t env0; m3]
     | O, _, _ => [zero0; zero0; zero0; zero0]
     | _, _, _ => [zero0; zero0] end).

(** gaussian.py 2438-2531: WrapToGaussianWishart. *)
Definition wrap_gw_fn (D : nat) : plate_fn :=
  PlateFn [[D]; []; [D; D]; []] [[[D]; [D; D]; []; []]; [[D; D]; []]]
  (fun ups => match ups with
     | [[tx; txx; t; lt]; [l; ld]] =>
         let '(u0, u1, u2, u3) := wrap_gw_moments D (as_vec tx, as_mat txx, t env0, lt env0) (as_mat l, ld env0) in
         [of_vec u0; fun _ => u1; of_mat u2; fun _ => u3]
     | _ => [zero0; zero0; zero0; zero0] end)
  (fun k m ups => match k, m, ups with
     | O, [m0; m1; m2; m3], [_; [l; ld]] =>
         let '(y0, y1, y2, y3) := wrap_gw_message_x D (as_vec m0, m1 env0, as_mat m2, m3 env0) (as_mat l, ld env0) in
         [of_vec y0; of_mat y1; fun _ => y2; fun _ => y3]
     | S O, [m0; m1; m2; m3], [[tx; txx; t; lt]; _] =>
         let y := wrap_gw_message_Lambda (as_vec m0, m1 env0, as_mat m2, m3 env0)
           (as_vec tx, as_mat txx, t env0, lt env0) in
         [of_mat (fst y); fun _ => snd y]
     | O, _, _ => [zero0; zero0; zero0; zero0]
     | _, _, _ => [zero0; zero0] end).

(** gaussian.py 576-648 and 665-700, ndim = 1: the elements of mu and alpha are plates of the
    parent.  compute_weights_to_parent adds an axis to the mask (635-648) and plates_to_parent
    adds the shape to the plates, so that the message of a plate and an element is a plate
    message; the plate multiplier is passed on unchanged (node.py 389-406). *)
Definition elements_fn (plates : shape) (D : nat) : detfn := DetFn
  (fun us => match us with
     | [u] => Ok (lift_arrays plates [[D]; [D]; [D]; [D]] (fun p =>
                    map (fun a v => bget a (join 1 p v)) u))
     | _ => Err ValueError end)
  (fun n par _ m _ =>
     zipM (fun d a => message_to_parent a (add_trailing_axes (pl_mask n) 1) (pl_plates n ++ [D])
                        (pl_mult n) (pl_mult par) (pl_plates par) d)
       (pl_dims par)
       (lift_arrays (pl_plates n ++ [D]) (pl_dims par) (fun e => map (fun a _ => bget a e) m))).
