(** Model of RotateGaussianMarkovChain in transformations.py (the part of its objective that
    belongs to the chain X), and of the rotation of its dynamics A.  No proofs here.

    Simplifications: one plate of X (its documentation says: no plates); the moments of A are
    given for every transition n < N-1 and every row d < D, whether or not A depends on the
    time; A has D columns for the state and K for the inputs. *)
From Coq Require Import List Arith Bool Reals.
From Verif Require Import Base NumPy Families Linalg Gaussian BlockBanded GaussMarkov RotateARD.
Import ListNotations.
Open Scope R_scope.

(** scipy.linalg.block_diag(A, I), the first block of size D. *)
Definition block_diag (D : nat) (A : mat) : mat := fun i j =>
  if (i <? D)%nat then if (j <? D)%nat then A i j else 0
  else if (j <? D)%nat then 0 else if (i =? j)%nat then 1 else 0.

(** 1245-1262: XpXn and XpXp, with the inputs U below and to the right of the states. *)
Definition ext_XpXn (D : nat) (u : chain) (u_in : option in_moments) (n : nat) : mat :=
  let '(X, _, XpXn) := u in
  match u_in with
  | None => XpXn n
  | Some (z, _) => fun i j => if (i <? D)%nat then XpXn n i j else z n (i - D)%nat * X (S n) j
  end.
Definition ext_XpXp (D : nat) (u : chain) (u_in : option in_moments) (n : nat) : mat :=
  let '(X, XnXn, _) := u in
  match u_in with
  | None => XnXn n
  | Some (z, zz) =>
      let UXp := fun i j => z n i * X n j in
      fun i j => if (i <? D)%nat
        then if (j <? D)%nat then XnXn n i j else transpose UXp i (j - D)%nat
        else if (j <? D)%nat then UXp (i - D)%nat j else zz n (i - D)%nat (j - D)%nat
  end.
Definition width (D K : nat) (u_in : option in_moments) : nat :=
  match u_in with None => D | Some _ => (D + K)%nat end.

(** What setup stores. *)
Record chain_stats := ChainStats {
  cs_X0X0 : mat ; cs_XnXn : mat ; cs_Lambda : mat ; cs_Lambda_mu_X0 : mat ;
  cs_A_XpXn : mat ; cs_A_XpXp_A : mat ; cs_CovA_XpXp : vec }.
(** 1238-1294: setup; 1191-1236: _computations_for_A_and_X, with A the mean and second moment
    of every row. *)
Definition chain_setup (N D K : nat) (u : chain) (u_mL : mL_moments) (A : nat -> nat -> vec * mat)
  (u_in : option in_moments) : chain_stats :=
  let '(X, XnXn, _) := u in
  let '(Lambda_mu, _, Lambda, _) := u_mL in
  let M := width D K u_in in
  let XpXn := ext_XpXn D u u_in in
  let XpXp := ext_XpXp D u u_in in
  let CovA := fun n d => sub_m (snd (A n d)) (outerv (fst (A n d)) (fst (A n d))) in
  ChainStats (XnXn O) (fun i j => rsum (N - 1) (fun n => XnXn (S n) i j)) Lambda (outerv Lambda_mu (X O))
    (fun i j => rsum (N - 1) (fun n => rsum M (fun k => fst (A n i) k * XpXn n k j)))
    (fun i j => rsum (N - 1) (fun n => rsum M (fun k => rsum M (fun l => fst (A n i) l * XpXp n l k) * fst (A n j) k)))
    (fun d => rsum (N - 1) (fun n => rsum M (fun i => rsum M (fun j => CovA n d i j * XpXp n i j)))).

(** 1298-1384: _compute_bound and its gradient. *)
Definition chain_bound (N D : nat) (s : chain_stats) (Rm : mat) (logdetR : R) : R :=
  let Lambda_R_X0X0 := dot3 D (cs_Lambda s) Rm (cs_X0X0 s) in
  let R_XnXn := mmdot D Rm (cs_XnXn s) in
  let RA_XpXp_A := mmdot D Rm (cs_A_XpXp_A s) in
  let sumr := fun k => rsum D (fun i => Rm i k) in
  let R_CovA_XpXp := fun k => sumr k * cs_CovA_XpXp s k in
  let M := INR N * 1 in
  let logH_X := gaussian_entropy (-2 * M * logdetR) 0 in
  let yy := tracedot D R_XnXn (transpose Rm) + tracedot D Lambda_R_X0X0 (transpose Rm) in
  let yz := tracedot D (mmdot D Rm (cs_A_XpXn s)) (transpose Rm) + tracedot D (cs_Lambda_mu_X0 s) (transpose Rm) in
  let zz := tracedot D RA_XpXp_A (transpose Rm) + rsum D (fun k => R_CovA_XpXp k * sumr k) in
  let logp_X := gaussian_logpdf yy yz zz 0 0 in
  logp_X + logH_X.
Definition chain_bound_gradient (N D : nat) (s : chain_stats) (Rm invR : mat) : mat :=
  let Lambda_R_X0X0 := dot3 D (cs_Lambda s) Rm (cs_X0X0 s) in
  let R_XnXn := mmdot D Rm (cs_XnXn s) in
  let RA_XpXp_A := mmdot D Rm (cs_A_XpXp_A s) in
  let sumr := fun k => rsum D (fun i => Rm i k) in
  let R_CovA_XpXp := fun k => sumr k * cs_CovA_XpXp s k in
  let M := INR N * 1 in
  let dlogH_X := fun i j => gaussian_entropy (-2 * M * transpose invR i j) 0 in
  let dyy := fun i j => 2 * (R_XnXn i j + Lambda_R_X0X0 i j) in
  let dyz := fun i j => mmdot D Rm (add_m (cs_A_XpXn s) (transpose (cs_A_XpXn s))) i j + cs_Lambda_mu_X0 s i j in
  let dzz := fun i j => 2 * (RA_XpXp_A i j + R_CovA_XpXp j) in
  fun i j => gaussian_logpdf (dyy i j) (dyz i j) (dzz i j) 0 0 + dlogH_X i j.

(** gaussian.py 1743-1774: GaussianARD.rotate_plates along a plate axis of length P, for
    vector variables of length M.  When sumQ is 0, sumQ**(-2) is inf and what follows is inf or
    nan; here that is an error. *)
Definition plates_phi (P M : nat) (Q : mat) (u phi : nat -> vec * mat) (i : nat) : vec * mat :=
  let u0 := fun l => rsum P (fun k => Q i k * fst (u k) l) in
  let sumQ := rsum P (fun k => Q k i) in
  let phi1 := scal_m (/ (sumQ * sumQ)) (snd (phi i)) in
  (scal_v (-2) (mvdot M phi1 u0), phi1).
Definition rotate_plates (P M : nat) (Q : mat) (u phi : nat -> vec * mat) (i : nat) : res ((vec * mat) * R) :=
  let sumQ := rsum P (fun k => Q k i) in
  if Req_EM_T sumQ 0 then Err PyException else ard_moments M (plates_phi P M Q u phi i).
(** 1173-1188 and 457-473: what rotate does to the rows of A in one transition: rotate with
    block_diag(inv.T, I), then rotate_plates with Q = R. *)
Definition rotate_dynamics (D M : nat) (Rm inv : mat) (u phi : nat -> vec * mat) (d : nat) : res ((vec * mat) * R) :=
  let row := fun k => ard_rotate M (block_diag D (transpose inv)) (block_diag D (transpose Rm)) 0 (u k) (phi k) 0 in
  rotate_plates D M Rm (fun k => fst (fst (row k))) (fun k => snd (fst (row k))) d.
