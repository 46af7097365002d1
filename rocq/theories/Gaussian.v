(** Model of the Gaussian-type distributions of gaussian.py and of wishart.py for
    one plate.  No proofs here.

    Simplifications: as in Families.v and Linalg.v the formulas are given for one
    plate, a vector is a function used at 0..D-1 and a matrix a function of two
    indices, numbers are real.  The axes of an array variable are taken as one
    axis (linalg.py flattens them before it factorises).  Truncation limits
    (observe_limits) are left out: the third-party package truncnorm computes
    them. *)
From Coq Require Import List Arith ZArith Bool Reals.
From Verif Require Import Base NumPy Families Linalg.
Import ListNotations.
Open Scope R_scope.

Definition scal_m (c : R) (A : mat) : mat := fun i j => c * A i j.
Definition scal_v (c : R) (b : vec) : vec := fun i => c * b i.
Definition add_m (A B : mat) : mat := fun i j => A i j + B i j.
Definition sub_m (A B : mat) : mat := fun i j => A i j - B i j.
Definition add_v (a b : vec) : vec := fun i => a i + b i.
(** linalg.inner(A, B, ndim=2): the sum over both axes. *)
Definition innerm (D : nat) (A B : mat) : R := rsum D (fun i => rsum D (fun j => A i j * B i j)).
(** misc.diag and misc.get_diag with ndim=1. *)
Definition diag (a : vec) : mat := fun i j => if i =? j then a i else 0.
Definition get_diag (A : mat) : vec := fun i => A i i.

(** ** Moments classes *)

(** gaussian.py 55-61: GaussianMoments.compute_fixed_moments. *)
Definition gaussianmoments_fixed (x : vec) : vec * mat := (x, outerv x x).
(** gaussian.py 182-203: GaussianGammaMoments.compute_fixed_moments. *)
Definition gaussiangammamoments_fixed (x : vec) (alpha : R) : vec * mat * R * R :=
  (scal_v alpha x, scal_m alpha (outerv x x), alpha, ln alpha).
(** gaussian.py 247-270: GaussianWishartMoments.compute_fixed_moments. *)
Definition gaussianwishartmoments_fixed (D : nat) (x : vec) (Lambda : mat)
  : res (vec * R * mat * R) :=
  ld <- logdet_cov D Lambda ;;
  Ok (mvdot D Lambda x,
      rsum D (fun i => rsum D (fun j => x i * Lambda i j * x j)),
      Lambda, ld).
(** wishart.py 55-63: WishartMoments.compute_fixed_moments. *)
Definition wishartmoments_fixed (D : nat) (Lambda : mat) : res (mat * R) :=
  L <- chol D Lambda ;; Ok (Lambda, chol_logdet D L).

(** ** Wrappers and the converter: gaussian.py *)

(** 2226-2272: GaussianToGaussianGamma. *)
Definition to_gg_moments (u : vec * mat) : vec * mat * R * R := (fst u, snd u, 1, 0).
Definition to_gg_message (m : vec * mat * R * R) : vec * mat :=
  let '(m0, m1, _, _) := m in (m0, m1).
(** 2339-2348: WrapToGaussianGamma._compute_moments. *)
Definition wrap_gg_moments (uX : vec * mat * R * R) (ua : R * R) : vec * mat * R * R :=
  let '(tau_x, tau_xx, tau, logtau) := uX in
  (scal_v (fst ua) tau_x, scal_m (fst ua) tau_xx, tau * fst ua, logtau + snd ua).
(** 2351-2371: WrapToGaussianGamma._compute_message_to_parent. *)
Definition wrap_gg_message_x (m : vec * mat * R * R) (ua : R * R) : vec * mat * R * R :=
  let '(m0, m1, m2, m3) := m in (scal_v (fst ua) m0, scal_m (fst ua) m1, m2 * fst ua, m3).
Definition wrap_gg_message_alpha (D : nat) (m uX : vec * mat * R * R) : R * R :=
  let '(m0, m1, m2, m3) := m in
  let '(tau_x, tau_xx, tau, logtau) := uX in
  (innerv D m0 tau_x + innerm D m1 tau_xx + m2 * tau, m3).
(** 2438-2459: WrapToGaussianWishart._compute_moments (Gaussian-gamma and Wishart). *)
Definition wrap_gw_moments (D : nat) (uX : vec * mat * R * R) (uL : mat * R)
  : vec * R * mat * R :=
  let '(alpha_x, alpha_xx, alpha, log_alpha) := uX in
  (mvdot D (fst uL) alpha_x, innerm D (fst uL) alpha_xx, scal_m alpha (fst uL),
   snd uL + INR D * log_alpha).
(** 2462-2531: WrapToGaussianWishart._compute_message_to_parent. *)
Definition wrap_gw_message_x (D : nat) (m : vec * R * mat * R) (uL : mat * R)
  : vec * mat * R * R :=
  let '(m0, m1, m2, m3) := m in
  (mvdot D (fst uL) m0, scal_m m1 (fst uL), innerm D (fst uL) m2, INR D * m3).
Definition wrap_gw_message_Lambda (m : vec * R * mat * R) (uX : vec * mat * R * R)
  : mat * R :=
  let '(m0, m1, m2, m3) := m in
  let '(alpha_x, alpha_xx, alpha, log_alpha) := uX in
  ((fun i j => 0.5 * outerv alpha_x m0 i j + 0.5 * outerv m0 alpha_x i j
               + alpha_xx i j * m1 + alpha * m2 i j), m3).

(** ** GaussianDistribution: gaussian.py 293-573.  [u] is the moment of the parent,
    (Lambda mu, mu Lambda mu, Lambda, logdet Lambda). *)

Definition gaussian_message (u : vec * mat) : vec * R * mat * R :=          (** 341-375 *)
  (fst u, -0.5, scal_m (-0.5) (snd u), 0.5).
Definition gaussian_phi (u : vec * R * mat * R) : vec * mat :=              (** 377-394 *)
  let '(Lmu, muLmu, L, ld) := u in (Lmu, scal_m (-0.5) L).
Definition gaussian_moments (D : nat) (phi : vec * mat) : res ((vec * mat) * R) :=  (** 397-446 *)
  L <- chol D (scal_m (-2) (snd phi)) ;;
  let Cov := chol_inv D L in
  let mu := chol_solve D L (fst phi) in
  let g := -0.5 * innerv D mu (fst phi) + 0.5 * chol_logdet D L in
  Ok ((mu, add_m Cov (outerv mu mu)), g).
Definition gaussian_cgf (u : vec * R * mat * R) : R :=                      (** 449-463 *)
  let '(Lmu, muLmu, L, ld) := u in -0.5 * muLmu + 0.5 * ld.
Definition gaussian_fixed (D : nat) (x : vec) : (vec * mat) * R :=          (** 466-486 *)
  ((x, outerv x x), - INR D / 2 * ln (2 * PI)).
Definition gaussian_gradient (D : nat) (g u : vec * mat) : vec * mat :=     (** 489-549 *)
  let x := fst u in
  let xx := snd u in
  let x_x := outerv x x in
  let Cov := sub_m xx x_x in
  let cov_g0 := mvdot D Cov (fst g) in
  let cov_g0_x := outerv cov_g0 x in
  let g1_x := mvdot D (snd g) x in
  (add_v cov_g0 (scal_v 2 (mvdot D Cov g1_x)),
   fun i j => cov_g0_x i j + transpose cov_g0_x i j
              + 2 * mmdot D xx (mmdot D (snd g) xx) i j - 2 * x_x i j * innerv D g1_x x).

(** ** GaussianARDDistribution: gaussian.py 576-889.  [u] is the moment of the
    parent, (alpha mu, alpha mu^2, alpha, log alpha) for every element. *)

Definition ard_message (u : vec * mat) : vec * vec * vec * vec :=           (** 609-637 *)
  (fst u, (fun _ => -0.5 * 1), (fun i => -0.5 * get_diag (snd u) i), (fun _ => 0.5 * 1)).
Definition ard_phi (u : vec * vec * vec * vec) : vec * mat :=               (** 649-670 *)
  let '(am, am2, a, la) := u in
  ((fun i => 1 * am i), diag (fun i => 1 * (-0.5 * a i))).
(** 672-706, ndim > 0 *)
Definition ard_moments (D : nat) (phi : vec * mat) : res ((vec * mat) * R) :=
  L <- chol D (scal_m (-2) (snd phi)) ;;
  let Cov := chol_inv D L in
  let u0 := chol_solve D L (fst phi) in
  let g := -0.5 * rsum D (fun i => u0 i * fst phi i) + 0.5 * chol_logdet D L in
  Ok ((u0, add_m (outerv u0 u0) Cov), g).
(** 672-679, ndim = 0; np.log of a number that is not positive gives nan or -inf,
    here an error. *)
Definition ard0_moments (phi : R * R) : res ((R * R) * R) :=
  let u0 := - fst phi / (2 * snd phi) in
  let u1 := u0 ^ 2 - 1 / (2 * snd phi) in
  if Rle_dec (-2 * snd phi) 0 then Err ValueError
  else Ok ((u0, u1), -0.5 * u0 * fst phi + 0.5 * ln (-2 * snd phi)).
Definition ard_cgf (D : nat) (u : vec * vec * vec * vec) : R :=             (** 709-732 *)
  let '(am, am2, a, la) := u in
  -0.5 * rsum D (fun i => am2 i * 1) + 0.5 * rsum D (fun i => la i * 1).
Definition ard_fixed (D : nat) (x : vec) : (vec * mat) * R :=               (** 734-741 *)
  ((x, outerv x x), - INR D / 2 * ln (2 * PI)).

Section Special.
Variables gammaln digamma : R -> R.

(** ** GaussianGammaDistribution: gaussian.py 892-1136 *)

Definition gg_message_muLambda (u : vec * mat * R * R) : vec * R * mat * R :=  (** 1018-1028 *)
  let '(x_tau, xx_tau, tau, logtau) := u in (x_tau, -0.5 * tau, scal_m (-0.5) xx_tau, 0.5).
Definition gg_message_a (u : vec * mat * R * R) (u_b : R * R) : R * R :=        (** 1029-1033 *)
  let '(x_tau, xx_tau, tau, logtau) := u in (logtau + snd u_b, -1).
Definition gg_message_b (u : vec * mat * R * R) (u_a : R * R) : R * R :=        (** 1034-1038 *)
  let '(x_tau, xx_tau, tau, logtau) := u in (- tau, fst u_a).
Definition gg_phi (u : vec * R * mat * R) (u_a u_b : R * R) : vec * mat * R * R :=  (** 1042-1055 *)
  let '(Lmu, muLmu, L, ld) := u in
  (Lmu, scal_m (-0.5) L, -0.5 * muLmu - fst u_b, fst u_a).
Definition gg_moments (D : nat) (phi : vec * mat * R * R)                      (** 1058-1085 *)
  : res ((vec * mat * R * R) * R) :=
  let '(phi0, phi1, phi2, phi3) := phi in
  L_V <- chol D (scal_m (-2) phi1) ;;
  let logdet_V := chol_logdet D L_V in
  let mu := chol_solve D L_V phi0 in
  let Cov := chol_inv D L_V in
  let a := phi3 in
  let b := - phi2 - 0.5 * innerv D mu phi0 in
  if Rle_dec b 0 then Err ValueError
  else
    let log_b := ln b in
    let u2 := a / b in
    let u3 := - log_b + digamma a in
    let u0 := scal_v u2 mu in
    let u1 := add_m Cov (scal_m u2 (outerv mu mu)) in
    let g := 0.5 * logdet_V + a * log_b - gammaln a in
    Ok ((u0, u1, u2, u3), g).
Definition gg_cgf (u : vec * R * mat * R) (u_a u_b : R * R) : R :=              (** 1088-1097 *)
  let '(Lmu, muLmu, L, ld) := u in 0.5 * ld + fst u_a * snd u_b - snd u_a.
Definition gg_fixed (D : nat) (x : vec) (alpha : R) : (vec * mat * R * R) * R :=  (** 1100-1117 *)
  ((scal_v alpha x, scal_m alpha (outerv x x), alpha, ln alpha),
   (INR D / 2 - 1) * ln alpha - INR D / 2 * ln (2 * PI)).

(** ** WishartDistribution: wishart.py 118-225 *)

(** scipy.special.multigammaln(a, d) and misc.py 1146-1151: multidigamma(a, d). *)
Definition multigammaln (a : R) (d : nat) : R :=
  INR d * (INR d - 1) * 0.25 * ln PI + rsum d (fun j => gammaln (a - 0.5 * INR j)).
Definition multidigamma (a : R) (d : nat) : R := rsum d (fun j => digamma (a - 0.5 * INR j)).
(** wishart.py 32-36: WishartPriorMoments.compute_fixed_moments. *)
Definition wishartprior_fixed (k : nat) (n : R) : R * R := (n, multigammaln (0.5 * n) k).
Definition wishart_message_V (u : mat * R) (u_n : R * R) : mat * R :=          (** 136-147 *)
  (scal_m (-0.5) (fst u), 0.5 * fst u_n).
Definition wishart_phi (u_n : R * R) (u_V : mat * R) : mat * R :=              (** 149-163 *)
  (scal_m (-0.5) (fst u_V), 0.5 * fst u_n).
Definition wishart_moments (k : nat) (phi : mat * R) : res ((mat * R) * R) :=  (** 165-188 *)
  U <- chol k (scal_m (-1) (fst phi)) ;;
  let ld := chol_logdet k U in
  Ok ((scal_m (snd phi) (chol_inv k U), - ld + multidigamma (snd phi) k),
      snd phi * ld - multigammaln (snd phi) k).
Definition wishart_cgf (k : nat) (u_n : R * R) (u_V : mat * R) : R :=          (** 190-205 *)
  0.5 * fst u_n * snd u_V - 0.5 * INR k * fst u_n * ln 2 - snd u_n.
Definition wishart_fixed (k : nat) (Lambda : mat) : res ((mat * R) * R) :=     (** 207-225 *)
  U <- chol k Lambda ;;
  let ld := chol_logdet k U in
  Ok ((Lambda, ld), - (INR k + 1) / 2 * ld).
End Special.

(** ** Translation and rotation of the posterior, per plate *)

(** gaussian.py 1288-1331: _GaussianTemplate.translate: new moments, natural
    parameters and g. *)
Definition gaussian_translate (D : nat) (b : vec) (u phi : vec * mat) (g : R)
  : (vec * mat) * (vec * mat) * R :=
  let x := fst u in
  let xb := outerv x b in
  let bx := transpose xb in
  let bb := outerv b b in
  let Lambda := scal_m (-2) (snd phi) in
  let Lambda_b := mvdot D Lambda b in
  let dg := -0.5 * (innerv D b Lambda_b + 2 * innerv D x Lambda_b) in
  ((add_v (fst u) b, add_m (add_m (add_m (snd u) xb) bx) bb),
   (add_v (fst phi) Lambda_b, snd phi), g + dg).
(** linalg.dot of three matrices, from left to right. *)
Definition dot3 (D : nat) (A B C : mat) : mat := mmdot D (mmdot D A B) C.
(** gaussian.py 1451-1494: Gaussian.rotate with Q=None; [invR] and [logdetR] are the
    inverse of R and log|det R|, either given or from numpy.linalg. *)
Definition gaussian_rotate (D : nat) (Rm invR : mat) (logdetR : R) (u phi : vec * mat) (g : R)
  : (vec * mat) * (vec * mat) * R :=
  ((mvdot D Rm (fst u), dot3 D Rm (snd u) (transpose Rm)),
   (mvdot D (transpose invR) (fst phi), dot3 D (transpose invR) (snd phi) invR),
   g - logdetR).
(** gaussian.py 2570-2673: rotate_mean and rotate_covariance for ndim=1, axis=-1. *)
Definition rotate_mean (D : nat) (mu : vec) (Rm : mat) : vec :=
  fun i => rsum D (fun j => Rm i j * mu j).
Definition left_rotate_covariance (D : nat) (Cov Rm : mat) : mat :=
  fun i j => rsum D (fun k => Rm i k * Cov k j).
Definition right_rotate_covariance (D : nat) (Cov Rm : mat) : mat :=
  fun i j => rsum D (fun k => Rm j k * Cov i k).
Definition rotate_covariance (D : nat) (Cov Rm : mat) : mat :=
  right_rotate_covariance D (left_rotate_covariance D Cov Rm) Rm.
(** gaussian.py 1693-1728: GaussianARD.rotate for ndim=1 (prod of the remaining axes
    is 1). *)
Definition ard_rotate (D : nat) (Rm invR : mat) (logdetR : R) (u phi : vec * mat) (g : R)
  : (vec * mat) * (vec * mat) * R :=
  ((rotate_mean D (fst u) Rm, rotate_covariance D (snd u) Rm),
   (rotate_mean D (fst phi) (transpose invR), rotate_covariance D (snd phi) (transpose invR)),
   g - logdetR).
(** gaussian.py 1850-1886: GaussianGamma.translate. *)
Definition gg_translate (D : nat) (b : vec) (u phi : vec * mat * R * R)
  : (vec * mat * R * R) * (vec * mat * R * R) :=
  let '(u0, u1, tau, logtau) := u in
  let '(phi0, phi1, phi2, phi3) := phi in
  let x := fun i => u0 i / tau in
  let xb := outerv x b in
  let bx := transpose xb in
  let bb := outerv b b in
  let Lambda := scal_m (-2) phi1 in
  let dtau := -0.5 * (rsum D (fun i => rsum D (fun j => Lambda i j * b i * b j))
                      + 2 * rsum D (fun i => rsum D (fun j => Lambda i j * b i * x j))) in
  ((add_v u0 (scal_v tau b), add_m u1 (scal_m tau (add_m (add_m xb bx) bb)), tau, logtau),
   (add_v phi0 (mvdot D Lambda b), phi1, phi2 + dtau, phi3)).
(** gaussian.py 1900-1930: GaussianGamma.rotate. *)
Definition gg_rotate (D : nat) (Rm invR : mat) (logdetR : R) (u phi : vec * mat * R * R) (g : R)
  : (vec * mat * R * R) * (vec * mat * R * R) * R :=
  let '(u0, u1, tau, logtau) := u in
  let '(phi0, phi1, phi2, phi3) := phi in
  ((rotate_mean D u0 Rm, rotate_covariance D u1 Rm, tau, logtau),
   (rotate_mean D phi0 (transpose invR), rotate_covariance D phi1 (transpose invR), phi2, phi3),
   g - logdetR).
(** gaussian.py 2010-2019: GaussianGamma.get_gaussian_location. *)
Definition gg_location (u : vec * mat * R * R) : vec :=
  let '(u0, u1, tau, logtau) := u in fun i => u0 i / tau.
