(** Model of the marginal distributions of a GaussianGamma node (gaussian.py
    2010-2142) and of the Student-t helpers of utils/random.py.  No proofs here.

    Simplifications: as in Gaussian.v a vector is a function used at 0..D-1, numbers
    are real, logarithms of numbers that are not positive (nan in NumPy) are outside
    the theorems.  numpy.linalg.inv is a parameter.  Unless said otherwise the node
    has no plates. *)
From Coq Require Import List Arith ZArith Bool Reals String.
From Verif Require Import Base NumPy Families Linalg Gaussian RotateARD.
Import ListNotations.
Open Scope R_scope.

(** ** Attribute lookup *)

(** The names a GaussianGamma node has: names bound in the class bodies and
    attributes assigned by the methods.  node.py 223-857 (Node). *)
Definition node_names : list string :=
  (["__getitem__"; "__init__"; "__plates_multiplier"; "_add_child"; "_compute_message";
   "_compute_plates_from_parent"; "_compute_plates_multiplier_from_parent";
   "_compute_plates_to_parent"; "_compute_weights_to_parent"; "_ensure_moments";
   "_get_id_list"; "_get_pdf_nodes_conditioned_on_parents"; "_id_counter";
   "_mask_to_parent"; "_message_from_children"; "_message_from_parents";
   "_message_to_child"; "_message_to_parent"; "_moments"; "_parent_moments";
   "_plates_from_parent"; "_plates_multiplier_from_parent"; "_plates_to_parent";
   "_plotter"; "_remove_child"; "_set_mask"; "_total_plates"; "_update_mask";
   "add_plate_axis"; "broadcasting_multiplier"; "children"; "delete"; "dims";
   "get_mask"; "get_moments"; "get_pdf_nodes"; "get_shape"; "has_plotter"; "mask";
   "move_plates"; "name"; "parents"; "plates"; "plates_multiplier"; "plot";
   "set_plotter"])%string.
(** stochastic.py 83-376: Stochastic. *)
Definition stochastic_names : list string :=
  (["__init__"; "__str__"; "_check_shape"; "_compute_plates_from_parent";
   "_compute_plates_to_parent"; "_compute_weights_to_parent"; "_distribution";
   "_get_id_list"; "_get_message_and_mask_to_parent";
   "_get_pdf_nodes_conditioned_on_parents"; "_id"; "_load"; "_save"; "_set_mask";
   "_set_moments"; "_update_distribution_and_lowerbound"; "get_moments";
   "get_pdf_nodes"; "load"; "lowerbound"; "mask"; "ndims"; "observe"; "observed";
   "random"; "save"; "show"; "u"; "unobserve"; "update"])%string.
(** expfamily.py 94-542: ExponentialFamily. *)
Definition expfamily_names : list string :=
  (["__init__"; "_constructor"; "_decode_parameters"; "_distribution";
   "_initialize_from_parent_moments"; "_load"; "_phi_bias"; "_save";
   "_set_moments_and_cgf"; "_update_distribution_and_lowerbound";
   "_update_moments_and_cgf"; "_update_phi_from_parents"; "annealing"; "dims"; "f";
   "g"; "get_gradient"; "get_parameters"; "get_riemannian_gradient";
   "initialize_from_parameters"; "initialize_from_prior"; "initialize_from_random";
   "initialize_from_value"; "logpdf"; "lower_bound_contribution"; "observe";
   "observed"; "pdf"; "phi"; "random"; "set_parameters"])%string.
(** gaussian.py 1777-2142: GaussianGamma. *)
Definition gaussiangamma_names : list string :=
  (["_constructor"; "g"; "get_gaussian_location"; "get_gaussian_mean_and_variance";
   "get_marginal_logpdf"; "phi"; "plotmatrix"; "rotate"; "translate"; "u"])%string.
(** Attribute lookup along the method resolution order of the class; [value] is what
    an attribute that exists holds. *)
Definition getattr {A} (value : A) (name : string) : res A :=
  if existsb (String.eqb name)
       (gaussiangamma_names ++ expfamily_names ++ stochastic_names ++ node_names)
  then Ok value else Err AttributeError.

(** ** Helpers of utils/random.py *)

(** random.py 425-432: gaussian_gamma_to_t. *)
Definition gaussian_gamma_to_t (mu : vec) (Cov : mat) (a b : R) : vec * mat * R :=
  let alpha := a / b in
  let nu := 2 * a in
  (mu, (fun i j => Cov i j / alpha), nu).
Section Special.
Variable gammaln : R -> R.
(** random.py 435-442: t_logpdf. *)
Definition t_logpdf (z2 logdet_cov nu : R) (D : nat) : R :=
  gammaln ((nu + INR D) / 2) - gammaln (nu / 2) - 0.5 * INR D * ln (nu * PI)
  - 0.5 * logdet_cov - 0.5 * (nu + INR D) * ln (1 + z2 / nu).

(** ** GaussianGamma.get_gaussian_mean_and_variance: gaussian.py 2022-2045 *)

(** 2029-2045, after the test of self.ndim, for a node without plates. *)
Definition mean_variance_body (u phi : vec * mat * R * R) : res (vec * vec) :=
  let '(_, _, _, a) := phi in
  let '(tau_mu, u1, tau, _) := u in
  let nu := 2 * a in
  if Rle_dec nu 1 then Err ValueError
  else if Rle_dec nu 2 then Err ValueError
  else
    let mu := fun i => tau_mu i / tau in
    let var := fun i => get_diag u1 i - tau_mu i * mu i in
    let var := fun i => var i / tau in
    let var := fun i => nu / (nu - 2) * var i in
    Ok (mu, var).
(** The same for a node with one plate axis of length P: [u p] and [phi p] belong to
    plate p.  nu has the shape (P,) and var the shape (P, D), so that the product in
    2043 broadcasts the axis of the plates against the axis of the vector.  The
    result is the shape and the elements of the variance. *)
Definition mean_variance_plates (P D : nat) (u phi : nat -> vec * mat * R * R)
  : res (nat * nat * mat) :=
  let nu := fun p => 2 * (let '(_, _, _, a) := phi p in a) in
  if existsb (fun p => if Rle_dec (nu p) 1 then true else false) (seq 0 P) then Err ValueError
  else if existsb (fun p => if Rle_dec (nu p) 2 then true else false) (seq 0 P) then Err ValueError
  else
    let var := fun p i =>
      let '(tau_mu, u1, tau, _) := u p in
      (get_diag u1 i - tau_mu i * (tau_mu i / tau)) / tau in
    let factor := fun p => nu p / (nu p - 2) in
    if (P =? D)%nat then Ok (P, D, fun p i => factor i * var p i)
    else if (P =? 1)%nat then Ok (P, D, fun p i => factor O * var p i)
    else if (D =? 1)%nat then Ok (P, P, fun p i => factor i * var p O)
    else Err ValueError.
(** 2022-2027: with the test of self.ndim; [ndim] is what the attribute would hold. *)
Definition get_gaussian_mean_and_variance (ndim : nat) (u phi : vec * mat * R * R)
  : res (vec * vec) :=
  nd <- getattr ndim "ndim" ;;
  if negb (nd =? 1)%nat then Err NotImplementedError else mean_variance_body u phi.

(** ** GaussianGamma.get_marginal_logpdf: gaussian.py 2048-2142 *)

(** The function that is returned: of a vector with n elements or of a number. *)
Inductive logpdf := OfVector (n : nat) (f : vec -> R) | OfNumber (f : R -> R).

(** One index into an axis of length D, as numpy reads it. *)
Definition np_index (D : nat) (k : Z) : res nat :=
  if ((0 <=? k) && (k <? Z.of_nat D))%Z then Ok (Z.to_nat k)
  else if ((k <? 0) && (- Z.of_nat D <=? k))%Z then Ok (Z.to_nat (Z.of_nat D + k))
  else Err IndexError.
(** np.allclose of two matrices. *)
Definition allclose_m (D : nat) (A B : mat) : bool :=
  forallb (fun i => forallb (fun j => allclose (A i j) (B i j)) (seq 0 D)) (seq 0 D).

Section Inv.
(** numpy.linalg.inv of a D x D matrix. *)
Variable np_inv : nat -> mat -> res mat.

(** 2068-2142, after the test of self.ndim.  [gaussian] is a non-empty list (scipy
    refuses to factorise an empty matrix in some versions). *)
Definition marginal_body (D : nat) (u phi : vec * mat * R * R)
  (gaussian : option (list Z)) (gamma : bool) : res logpdf :=
  let '(u0, u1, tau, _) := u in
  let '(phi0, phi1, phi2, phi3) := phi in
  if (match gaussian with None => true | _ => false end) && negb gamma then Err ValueError
  else
    let mu := fun i => u0 i / tau in
    Cov <- np_inv D (scal_m (-2) phi1) ;;
    if negb (allclose_m D Cov (sub_m u1 (outerv u0 mu))) then Err PyException
    else
      let a := phi3 in
      let b := - phi2 - 0.5 * innerv D phi0 mu in
      match gaussian, gamma with
      | Some inds, false =>                                                (** 2083-2102 *)
          is <- mapM (np_index D) inds ;;
          let mu := fun i => mu (nth i is O) in
          let Cov := fun i j => Cov (nth i is O) (nth j is O) in
          let '(mu, Cov, nu) := gaussian_gamma_to_t mu Cov a b in
          let n := List.length inds in
          L <- chol n Cov ;;
          let logdet_Cov := chol_logdet n L in
          Ok (OfVector n (fun x =>
            let y := fun i => x i - mu i in
            let v := chol_solve n L y in
            let z2 := innerv n y v in
            t_logpdf z2 logdet_Cov nu n))
      | None, _ =>                                                         (** 2104-2113 *)
          Ok (OfNumber (fun x =>
            let logx := ln x in
            gamma_logpdf (b * x) logx (a * logx) (a * ln b) (gammaln a)))
      | Some inds, true =>                                                 (** 2114-2142 *)
          is <- mapM (np_index D) inds ;;
          let mu := fun i => mu (nth i is O) in
          let Cov := fun i j => Cov (nth i is O) (nth j is O) in
          let n := List.length inds in
          L <- chol n Cov ;;
          let logdet_Cov := chol_logdet n L in
          Ok (OfVector (n + 1) (fun x =>
            let tau := x n in
            let logtau := ln tau in
            let y := fun i => x i - mu i in
            let v := fun i => chol_solve n L y i * tau in
            let z2 := innerv n y v in
            gaussian_logpdf z2 0 0 (logdet_Cov + INR n * logtau) (INR n)
            + gamma_logpdf (b * tau) logtau (a * logtau) (a * ln b) (gammaln a)))
      end.
(** 2048-2066: with the test of self.ndim. *)
Definition get_marginal_logpdf (ndim D : nat) (u phi : vec * mat * R * R)
  (gaussian : option (list Z)) (gamma : bool) : res logpdf :=
  nd <- getattr ndim "ndim" ;;
  if negb (nd =? 1)%nat then Err NotImplementedError else marginal_body D u phi gaussian gamma.
End Inv.
End Special.
