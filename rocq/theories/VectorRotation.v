(** Model of Gaussian.rotate on arrays (bayespy/inference/vmp/nodes/gaussian.py 1450-1494) with the
    rotation of the plates by Q, which it shares with Gaussian.rotate_matrix. *)
From Coq Require Import List Arith Bool Reals.
From Verif Require Import Base Shapes SpecShapes NumPy ArrayTools GaussArrays MatrixRotation.
Import ListNotations.
Open Scope R_scope.

(** gaussian.py 1474-1480 and 1516-1522: 'ik,kj->ij', 'd,dij->dij' and 'dij,dj->di'.  The letters
    leave no room for other plates: another number of axes is refused by np.einsum.  The result is
    phi[0] and phi[1]. *)
Definition rotate_by_plates (Q u0 phi1 : arr R) : res (arr R * arr R) :=
  if negb ((ndim Q =? 2) && (ndim u0 =? 2) && (ndim phi1 =? 3))%nat then Err ValueError else
  u0' <- ein_rotate 2 Q u0 ;;
  d <- bdim [ax (ash Q) 0; ax (ash phi1) 2] ;;
  let sumQ := column_sums Q in
  let phi1' := Arr [d; ax (ash phi1) 1; ax (ash phi1) 0]
                 (fun e => / (bget sumQ (fun _ => e 2%nat) * bget sumQ (fun _ => e 2%nat)) * bget phi1 e) in
  phi0 <- ein_rotate 1 (np_map (fun v => -2 * v) phi1') u0' ;;
  Ok (phi0, phi1').

(** gaussian.py 1482-1484: the rotation of phi[0] and phi[1] by R, whose inverse is [invR].
    [mvdot] of linalg.py with one axis is [ein_rotate 1]. *)
Definition rotate_by_matrix (phi0 phi1 invR : arr R) : res (arr R * arr R) :=
  r0 <- ein_rotate 1 (transposed invR) phi0 ;;
  a <- la_dot (transposed invR) phi1 ;;
  r1 <- la_dot a invR ;;
  Ok (r0, r1).

(** gaussian.py 1450-1494, the natural parameters; [nd] is self._moments.ndim.  With Q the moments are
    then computed from them as in any update. *)
Definition rotate_vector (nd : nat) (u0 phi0 phi1 invR : arr R) (Q : option (arr R)) : res (arr R * arr R) :=
  if negb (nd =? 1)%nat then Err NotImplementedError else
  phi <- match Q with Some q => rotate_by_plates q u0 phi1 | None => Ok (phi0, phi1) end ;;
  rotate_by_matrix (fst phi) (snd phi) invR.

(** gaussian.py 1496-1556, with Q. *)
Definition rotate_matrix_q (nd : nat) (u0 phi0 phi1 inv1 inv2 : arr R) (D1 D2 : nat) (Q : option (arr R)) : res (arr R * arr R) :=
  if negb (nd =? 1)%nat then Err NotImplementedError else
  phi <- match Q with Some q => rotate_by_plates q u0 phi1 | None => Ok (phi0, phi1) end ;;
  rotate_matrix nd (fst phi) (snd phi) inv1 inv2 D1 D2.
