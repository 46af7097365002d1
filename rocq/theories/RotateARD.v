(** Model of the bound that RotationOptimizer maximises, RotateGaussianARD in
    transformations.py, for variables that are vectors (ndim = 1, so that the rotation axis is
    the last one), without rotation of the plates (plate_axis = None) and without a subset.
    No proofs here.

    Simplifications: einsum with an ellipsis is written out with broadcasting of the axes of
    the ellipsis; moveaxis from the last axis to the last axis does nothing; the precision
    parent enters through its moments. *)
From Coq Require Import List Arith ZArith Bool Reals.
From Verif Require Import Base Shapes SpecShapes NumPy MiscArray SpecArray AddNode ExpFam Families Linalg.
Import ListNotations.
Open Scope R_scope.

(** What the rotation object reads from the nodes: X with its plates and its two moments, the
    first three moments of its parent (the joint moments of mu and alpha) and the shape of the
    third one, and the gamma node alpha when it was given: its plates, phi[1] and the first
    moments of its parents. *)
Record gamma_alpha := GammaAlpha { ga_plates : shape ; ga_phi1 : arr R ; ga_a0 : arr R ; ga_b0 : arr R }.
Record ard_nodes := ArdNodes {
  rn_plates : shape ; rn_D : nat ;
  rn_X : arr R ; rn_XX : arr R ;
  rn_alpha_mu : arr R ; rn_alpha_mu2 : arr R ; rn_alpha : arr R ; rn_shape : shape ;
  rn_gamma : option gamma_alpha }.

Definition np_ones (s : shape) : arr R := Arr s (fun _ => 1).

(** random.py 126-161, 163-183 *)
Definition gaussian_logpdf (yVy yVmu muVmu logdet_V D : R) : R :=
  -0.5 * yVy + yVmu - 0.5 * muVmu + 0.5 * logdet_V - 0.5 * D * ln (2 * PI).
Definition gaussian_entropy (logdet_V D : R) : R := -0.5 * logdet_V + 0.5 * D + 0.5 * D * ln (2 * PI).
Definition gamma_logpdf (bx logx a_logx a_logb gammaln_a : R) : R := a_logb - gammaln_a + a_logx - logx - bx.

(** transformations.py 358-374: sum_to_plates *)
Definition sum_to_plates (V : arr R) (plates_to : shape) (plates_from : option shape) (nd : nat) : res (arr R) :=
  let plates_V := get_plates nd (ash V) in
  let dims_V := skipn (length (ash V) - nd) (ash V) in
  r <- match plates_from with
       | None => Ok 1%nat
       | Some pf => broadcasting_multiplier pf [plates_V]
       end ;;
  y <- sum_to_shape V (plates_to ++ dims_V) ;;
  Ok (np_scale r y).

(** 530-534: safe_move_axis with axis = -1 *)
Definition safe_last (x : arr R) : arr R := if (1 <=? ndim x)%nat then x else expand_at x 0.
(** 535-550: the plates of alpha, with an axis for the rotated elements *)
Definition plates_alpha (n : ard_nodes) : shape :=
  let s := match rn_gamma n with Some a => ga_plates a | None => rn_shape n end in
  match s with [] => [1%nat] | _ => s end.
Definition outer_alpha (n : ard_nodes) : shape := removelast (plates_alpha n).

(** 554-561: sum_to_alpha *)
Definition sum_to_alpha (n : ard_nodes) (V : arr R) (nd : nat) : res (arr R) :=
  V' <- np_multiply V (np_ones (outer_alpha n ++ repeat 1%nat nd)) ;;
  sum_to_plates V' (outer_alpha n) (Some (rn_plates n)) nd.

(** 475-630: setup; the sums of <XX>, of <mu^2> and of <X><mu> *)
Record ard_stats := ArdStats { st_XX : arr R ; st_mu2 : arr R ; st_Xmu : arr R }.
Definition ard_setup (n : ard_nodes) : res ard_stats :=
  mu <- np_map2 Rdiv (rn_alpha_mu n) (rn_alpha n) ;;
  mu2 <- np_map2 Rdiv (rn_alpha_mu2 n) (rn_alpha n) ;;
  mu <- np_multiply mu (np_ones [rn_D n]) ;;
  mu2 <- np_multiply mu2 (np_ones [rn_D n]) ;;
  Xmu <- la_outer (rn_X n) mu 1 ;;
  XX <- sum_to_alpha n (rn_XX n) 2 ;;
  mu2 <- sum_to_alpha n mu2 1 ;;
  Xmu <- sum_to_alpha n Xmu 2 ;;
  Ok (ArdStats XX mu2 Xmu).

(** Element (i, j) of the matrix of a plate; axis 0 of an index is the last one. *)
Definition mat_at (p : env) (i j : nat) : env := join 2 p (upd (upd env0 1 i) 0 j).
Definition outer_plate (e : env) : env := fun k => e (S k).

(** 762-767: RXmu, RXX, RXXR and <(X-mu)(X-mu)>; the arrays of the gradient use RXX. *)
Definition rot_XX (D : nat) (Rm : mat) (XX : arr R) : arr R :=
  Arr (get_plates 2 (ash XX) ++ [D; D])
      (fun e => rsum D (fun k => Rm (e 1%nat) k * bget XX (mat_at (fun j => e (S (S j))) k (e 0%nat)))).
Definition rot_Xmu (D : nat) (Rm : mat) (Xmu : arr R) : arr R :=
  Arr (get_plates 2 (ash Xmu) ++ [D])
      (fun e => rsum D (fun k => Rm (e 0%nat) k * bget Xmu (mat_at (outer_plate e) k (e 0%nat)))).
Definition rot_XXR (D : nat) (Rm : mat) (RXX : arr R) : arr R :=
  Arr (get_plates 2 (ash RXX) ++ [D])
      (fun e => rsum D (fun k => bget RXX (mat_at (outer_plate e) (e 0%nat) k) * Rm (e 0%nat) k)).
Definition ard_deviation (D : nat) (Rm : mat) (s : ard_stats) : res (arr R) :=
  let RXXR := rot_XXR D Rm (rot_XX D Rm (st_XX s)) in
  d <- np_map2 (fun x y => x - 2 * y) RXXR (rot_Xmu D Rm (st_Xmu s)) ;;
  np_map2 Rplus d (st_mu2 s).

(** 796-800: sum_plates *)
Definition sum_plates (V : arr R) (plates : shape) : res R :=
  r <- broadcasting_multiplier plates [ash V] ;;
  Ok (INR r * total_sum V).

(** 774-787: q(alpha) given the deviations; b, alpha and log(alpha) without a constant *)
Definition ard_q (n : ard_nodes) (a : gamma_alpha) (dev : arr R) : res (arr R * arr R) :=
  y <- sum_to_plates dev (plates_alpha n) None 0 ;;
  b <- np_map2 (fun b0 y => b0 + 0.5 * y) (safe_last (ga_b0 a)) y ;;
  alpha <- np_map2 Rdiv (safe_last (ga_phi1 a)) b ;;
  Ok (b, alpha).

(** 693-853: the terms of the bound of X and of alpha (terms = True); 0 for alpha when it is
    not updated. *)
Definition ard_terms (n : ard_nodes) (s : ard_stats) (Rm : mat) (logdet : R) : res (R * R) :=
  let D := rn_D n in
  dev <- ard_deviation D Rm s ;;
  h <- sum_plates (scalar (logdet + 0)) (rn_plates n) ;;
  let logH_X := gaussian_entropy (-2 * h) 0 in
  match rn_gamma n with
  | Some a =>
      '(b, alpha) <- ard_q n a dev ;;
      let logalpha := np_map (fun x => - ln x) b in
      b0_alpha <- np_multiply (safe_last (ga_b0 a)) alpha ;;
      a0_logalpha <- np_multiply (safe_last (ga_a0 a)) logalpha ;;
      dev_alpha <- np_multiply dev alpha ;;
      q <- sum_plates dev_alpha (outer_alpha n ++ [D]) ;;
      l <- sum_plates logalpha (rn_plates n ++ [D]) ;;
      ba <- sum_plates b0_alpha (plates_alpha n) ;;
      al <- sum_plates a0_logalpha (plates_alpha n) ;;
      Ok (gaussian_logpdf q 0 0 l 0 + logH_X, gamma_logpdf ba 0 al 0 0 + 0)
  | None =>
      dev_alpha <- np_multiply dev (safe_last (rn_alpha n)) ;;
      q <- sum_plates dev_alpha (outer_alpha n ++ [D]) ;;
      l <- sum_plates (scalar 0) (rn_plates n ++ [D]) ;;
      Ok (gaussian_logpdf q 0 0 l 0 + logH_X, 0)
  end.

(** 863-870: sum_plates of the gradient; the result is a D x D matrix. *)
Definition sum_plates_mat (D : nat) (V : arr R) (plates : shape) : res mat :=
  r <- broadcasting_multiplier plates [get_plates 2 (ash V)] ;;
  y <- sum_multiply [V; np_ones [D; D]] (AxList [-1; -2]%Z) false false ;;
  Ok (fun i j => INR r * bget y (mat_at env0 i j)).

(** a[...,:,None] * V, einsum '...i,...ij->...ij' *)
Definition by_row (x V : arr R) : res (arr R) := np_multiply (expand_at x 0) V.

(** 872-960: the gradient with respect to R. *)
Definition ard_gradient (n : ard_nodes) (s : ard_stats) (Rm inv : mat) : res mat :=
  let D := rn_D n in
  dev <- ard_deviation D Rm s ;;
  let XmuT := Arr (get_plates 2 (ash (st_Xmu s)) ++ [D; D])
                  (fun e => bget (st_Xmu s) (mat_at (fun j => e (S (S j))) (e 0%nat) (e 1%nat))) in
  D_dev <- np_map2 (fun x y => 2 * x - 2 * y) (rot_XX D Rm (st_XX s)) XmuT ;;
  dh <- sum_plates_mat D (Arr [D; D] (fun e => inv (e 0%nat) (e 1%nat))) (rn_plates n) ;;
  let dlogH_X i j := gaussian_entropy (-2 * dh i j) 0 in
  match rn_gamma n with
  | Some a =>
      '(b, alpha) <- ard_q n a dev ;;
      y <- sum_to_plates dev (plates_alpha n) None 0 ;;
      let minus_1_b := np_map (fun x => -1 / x) b in
      Ddev_alpha <- by_row alpha D_dev ;;
      let D_b := np_map (fun x => 0.5 * x) D_dev in
      v1 <- by_row minus_1_b D_b ;;
      v2 <- by_row alpha v1 ;;
      dev_Dalpha <- by_row y v2 ;;
      D_b0_alpha <- by_row (safe_last (ga_b0 a)) v2 ;;
      D_logb <- by_row (np_map (fun x => 1 / x) b) D_b ;;
      let D_logalpha := np_map Ropp D_logb in
      D_a0_logalpha <- np_multiply (safe_last (ga_a0 a)) D_logalpha ;;
      D_dev_alpha <- np_map2 Rplus Ddev_alpha dev_Dalpha ;;
      q <- sum_plates_mat D D_dev_alpha (outer_alpha n) ;;
      l <- sum_plates_mat D D_logalpha (rn_plates n) ;;
      r <- broadcasting_multiplier [D] [skipn (length (plates_alpha n) - 1) (plates_alpha n)] ;;
      ba <- sum_plates_mat D D_b0_alpha (outer_alpha n) ;;
      al <- sum_plates_mat D D_a0_logalpha (outer_alpha n) ;;
      Ok (fun i j => gaussian_logpdf (q i j) 0 0 (l i j * INR r) 0 + gamma_logpdf (ba i j) 0 (al i j) 0 0
                     + dlogH_X i j + 0)
  | None =>
      Ddev_alpha <- by_row (safe_last (rn_alpha n)) D_dev ;;
      q <- sum_plates_mat D Ddev_alpha (outer_alpha n) ;;
      l <- sum_plates_mat D (scalar 0) (rn_plates n) ;;
      r <- broadcasting_multiplier [D] [skipn (length (plates_alpha n) - 1) (plates_alpha n)] ;;
      Ok (fun i j => gaussian_logpdf (q i j) 0 0 (l i j * INR r) 0 + 0 + dlogH_X i j + 0)
  end.

(** 1095-1100: bound, with the log-determinant and the inverse that RotationOptimizer passes *)
Definition ard_bound (n : ard_nodes) (s : ard_stats) (Rm : mat) (logdet : R) (inv : mat) : res (R * mat) :=
  '(x, a) <- ard_terms n s Rm logdet ;;
  g <- ard_gradient n s Rm inv ;;
  Ok (x + a, g).
