(** Model of gaussian_markov_chain.py: the moments class, the template distribution and
    GaussianMarkovChainDistribution, for one plate.  No proofs here.

    Simplifications: as in Gaussian.v, one plate; a chain of N states of length D; the
    moments of the parents (A, nu) are given for every transition n < N-1 and every row
    d < D, except that the array of log nu keeps its own shape, which the code
    inspects. *)
From Coq Require Import List Arith ZArith Bool Reals.
From Verif Require Import Base NumPy Families Linalg Gaussian BlockBanded.
Import ListNotations.
Open Scope R_scope.

Definition chain : Type := rows * blocks * blocks.

(** 45-49: GaussianMarkovChainMoments.compute_fixed_moments, and 126-136:
    compute_fixed_moments_and_f. *)
Definition gmcmoments_fixed (x : rows) : chain :=
  (x, (fun n => outerv (x n) (x n)), (fun n => outerv (x n) (x (S n)))).
Definition gmc_fixed (N D : nat) (x : rows) : chain * R :=
  (gmcmoments_fixed x, -0.5 * INR N * INR D * ln (2 * PI)).

(** 87-120: compute_moments_and_cgf.  [junk] is what np.empty returns inside
    block_banded_solve. *)
Definition gmc_moments (junk : rows * blocks * blocks) (N D : nat) (phi : chain) : res (chain * R) :=
  let '(phi0, phi1, phi2) := phi in
  let '(x0, V0, C0) := junk in
  let y := phi0 in
  let A := fun n => scal_m (-2) (phi1 n) in
  let B := fun n i j => - phi2 n i j in
  '(V, C, X, ldet) <- block_banded_solve N D (N, D, D) (N - 1, D, D)%nat A B y x0 V0 C0 ;;
  let u1 := fun n => add_m (V n) (outerv (X n) (X n)) in
  let u2 := fun n => add_m (C n) (outerv (X n) (X (S n))) in
  let g := -0.5 * rsum N (fun n => rsum D (fun i => X n i * phi0 n i)) + 0.5 * ldet in
  Ok ((X, u1, u2), g).

(** An array with one value for each transition and each row, like log nu, without the
    plates of the node: shape (), (d,) or (n, d). *)
Inductive tarray :=
| T0 (v : R)
| T1 (d : nat) (v : nat -> R)
| T2 (n d : nat) (v : nat -> nat -> R).
(** 243-262: _compute_cgf_for_gaussian_markov_chain; np.shape(())[-2] is an IndexError. *)
Definition gmc_cgf_core (mumu_Lambda logdet_Lambda : R) (logdet_nu : tarray) (N : nat) : res R :=
  let g0 := -0.5 * mumu_Lambda in
  let g1 := 0.5 * logdet_Lambda in
  g1 <- match logdet_nu with
        | T0 _ => Err IndexError
        | T1 d v => Ok (g1 + 0.5 * (INR N - 1) * rsum d v)
        | T2 n d v =>
            if (n =? 1)%nat then Ok (g1 + 0.5 * (INR N - 1) * rsum n (fun n => rsum d (v n)))
            else Ok (g1 + 0.5 * rsum n (fun n => rsum d (v n)))
        end ;;
  Ok (g0 + g1).

(** Moments of (mu, Lambda): (Lambda mu, mu Lambda mu, Lambda, log|Lambda|); of (A, nu):
    (nu A, nu A A, nu, log nu), where A has D + K columns; of the inputs: (z, zz). *)
Definition mL_moments : Type := vec * R * mat * R.
Definition A_moments : Type := (nat -> nat -> vec) * (nat -> nat -> mat) * (nat -> nat -> R) * tarray.
Definition in_moments : Type := rows * blocks.

(** The element (n, d) of such an array, by NumPy's broadcasting. *)
Definition tarray_at (l : tarray) (n d : nat) : R :=
  match l with
  | T0 v => v
  | T1 k v => v (if (k =? 1)%nat then O else d)
  | T2 m k v => v (if (m =? 1)%nat then O else n) (if (k =? 1)%nat then O else d)
  end.
(** gaussian.py 2339-2348: the moments of WrapToGaussianGamma(A, nu) in the constructor,
    for A with Gaussian moments [a] and nu with gamma moments [nu] and [lnu]; the
    converted A has log tau = 0, so that log nu keeps its shape. *)
Definition A_nu_moments (a : nat -> nat -> vec * mat) (nu lnu : tarray) : A_moments :=
  let w := fun n d => wrap_gg_moments (to_gg_moments (a n d)) (tarray_at nu n d, tarray_at lnu n d) in
  ((fun n d => let '(w0, _, _, _) := w n d in w0), (fun n d => let '(_, w1, _, _) := w n d in w1),
   (fun n d => let '(_, _, w2, _) := w n d in w2), lnu).

(** 531-621: compute_phi_from_parents. *)
Definition gmc_phi (N D K : nat) (u_mL : mL_moments) (u_A : A_moments) (u_in : option in_moments) : chain :=
  let '(Lambda_mu, _, Lambda, _) := u_mL in
  let '(nuA, nuAA, nu, _) := u_A in
  let nu_B := fun n d j => nuA n d (D + j)%nat in
  let nu_AB := fun n d i j => nuAA n d i (D + j)%nat in
  let phi0 := put (fun _ _ => 0) O Lambda_mu in
  let phi1 := put (fun _ _ _ => 0) O (scal_m (-0.5) Lambda) in
  let phi0 :=
    match u_in with
    | None => phi0
    | Some (z, _) =>
        let phi0 := fun n => match n with O => phi0 O
          | S p => if (S p <? N)%nat then fun i => phi0 (S p) i + rsum K (fun j => nu_B p i j * z p j) else phi0 n end in
        fun n => if (n <? N - 1)%nat then
          fun i => phi0 n i - rsum K (fun j => rsum D (fun d => nu_AB n d i j) * z n j) else phi0 n
    end in
  let phi1 := fun n => match n with O => phi1 O
    | S p => if (S p <? N)%nat then scal_m (-0.5) (diag (nu p)) else phi1 n end in
  let phi1 := fun n => if (n <? N - 1)%nat then
    fun i j => phi1 n i j + -0.5 * rsum D (fun d => nuAA n d i j) else phi1 n in
  let phi2 := fun n => transpose (nuA n) in
  (phi0, phi1, phi2).

(** 623-657: compute_cgf_from_parents.  [s] is the shape of g_inputs without the plates:
    () or (l,). *)
Definition gmc_cgf (N D K : nat) (u_mL : mL_moments) (u_A : A_moments) (u_in : option (in_moments * list nat)) : res R :=
  let '(_, muLmu, _, ld) := u_mL in
  let '(_, nuAA, _, lnu) := u_A in
  g <- gmc_cgf_core muLmu ld lnu N ;;
  match u_in with
  | None => Ok g
  | Some ((_, zz), s) =>
      let g_inputs := fun n => -0.5 * rsum K (fun i => rsum K (fun j =>
        zz n i j * rsum D (fun d => nuAA n d (D + i)%nat (D + j)%nat))) in
      let g_inputs := fun n =>
        match s with
        | [] => g_inputs n * (INR N - 1)
        | l :: _ => if (l =? 1)%nat then g_inputs n * (INR N - 1) else g_inputs n
        end in
      match s with
      | [] => Ok (g + g_inputs O)
      | l :: _ => Ok (g + rsum l g_inputs)
      end
  end.

(** 443-511: compute_message_to_parent.  Index 0: one message; index 1: one for each
    transition n and row d; index 2: one for each transition. *)
Definition gmc_message_mL (u : chain) : vec * R * mat * R :=
  let '(X, XX, _) := u in (X O, -0.5, scal_m (-0.5) (XX O), 0.5).
(** np.concatenate of two blocks, the first of length D. *)
Definition cat_v (D : nat) (a b : vec) : vec := fun i => if (i <? D)%nat then a i else b (i - D)%nat.
Definition gmc_message_A (D : nat) (u : chain) (u_in : option in_moments) (n d : nat) : vec * mat * R * R :=
  let '(X, XX, XpXn) := u in
  let m0 := fun i => XpXn n i d in
  let m1 := fun i j => -0.5 * XX n i j in
  let m2 := -0.5 * XX (S n) d d in
  let m3 := 0.5 in
  match u_in with
  | None => (m0, m1, m2, m3)
  | Some (z, zz) =>
      let m0_B := fun j => X (S n) d * z n j in
      let m1_BB := fun i j => -0.5 * zz n i j in
      let m1_AB := fun i j => -0.5 * X n i * z n j in
      let m0 := cat_v D m0 m0_B in
      let row1 := fun i => cat_v D (m1 i) (m1_AB i) in
      let row2 := fun i => cat_v D (transpose m1_AB i) (m1_BB i) in
      let m1 := fun i => if (i <? D)%nat then row1 i else row2 (i - D)%nat in
      (m0, m1, m2, m3)
  end.
Definition gmc_message_in (D : nat) (u : chain) (u_A : A_moments) (n : nat) : vec * mat :=
  let '(X, _, _) := u in
  let '(nuA, nuAA, _, _) := u_A in
  let Xn := X (S n) in
  let Xp := X n in
  ((fun k => rsum D (fun d => nuA n d (D + k)%nat * Xn d)
             - rsum D (fun i => rsum D (fun d => nuAA n d i (D + k)%nat) * Xp i)),
   (fun k l => -0.5 * rsum D (fun d => nuAA n d (D + k)%nat (D + l)%nat))).

(** 49-66 and 165-185: rotate, with inv = R^-1 and logdet = log|det R| given. *)
Definition gmc_rotate (N D : nat) (u phi : chain) (Rm inv : mat) (logdet : R) : chain * chain * R :=
  let '(u0, u1, u2) := u in
  let '(p0, p1, p2) := phi in
  (((fun n => mvdot D Rm (u0 n)), (fun n => dot3 D Rm (u1 n) (transpose Rm)), (fun n => dot3 D Rm (u2 n) (transpose Rm))),
   ((fun n => mvdot D (transpose inv) (p0 n)), (fun n => dot3 D (transpose inv) (p1 n) inv),
    (fun n => dot3 D (transpose inv) (p2 n) inv)),
   - INR N * logdet).
