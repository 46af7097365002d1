(** Model of Gaussian.rotate_matrix (bayespy/inference/vmp/nodes/gaussian.py 1496-1556): a vector
    variable is read as a matrix and rotated from both sides. *)
From Coq Require Import List Arith Bool Reals.
From Verif Require Import Base Shapes SpecShapes NumPy ArrayTools GaussArrays.
Import ListNotations.
Open Scope R_scope.

(** linalg.py 337-356: the product of the matrices in the last two axes, for every plate.  The loop
    over the plates and the plain [np.dot] without plates are one expression here.  Arrays with less
    than two axes are not modelled beyond the IndexError of np.shape(A)[-2]. *)
Definition la_dot (A B : arr R) : res (arr R) :=
  if ((ndim A <? 2) || (ndim B <? 2))%nat then Err IndexError else
  plates <- broadcasted_shape [but_last 2 (ash A); but_last 2 (ash B)] ;;
  if (ax (ash A) 0 =? ax (ash B) 1)%nat then
    Ok (Arr (plates ++ [ax (ash A) 1; ax (ash B) 0])
         (fun e => rsum (ax (ash A) 0) (fun k =>
            bget A (fun l => match l with O => k | S _ => e l end)
            * bget B (fun l => match l with S O => k | _ => e l end))))
  else Err ValueError.

(** gaussian.py 1496-1556 with Q=None; [nd] is self._moments.ndim, [D1] and [D2] the numbers of rows
    of R1 and R2, [inv1] and [inv2] their inverses, given or computed.  The result is phi[0] and
    phi[1]; the moments are then computed from them as in any update.  The four products
    '...ia,...abcd->...ibcd', '...ic,...abcd->...abid', '...ib,...abcd->...aicd' and
    '...id,...abcd->...abci' are [ein_rotate] of the fourth, second, third and last axis from the end
    (the inverses have no plates). *)
Definition rotate_matrix (nd : nat) (phi0 phi1 inv1 inv2 : arr R) (D1 D2 : nat) : res (arr R * arr R) :=
  if negb (nd =? 1)%nat then Err NotImplementedError else
  p0 <- np_reshape phi0 (but_last 1 (ash phi0) ++ [D1; D2]) ;;
  p1 <- np_reshape phi1 (but_last 2 (ash phi1) ++ [D1; D2; D1; D2]) ;;
  q0 <- la_dot (transposed inv1) p0 ;;
  q0 <- la_dot q0 inv2 ;;
  q1 <- ein_rotate 4 (transposed inv1) p1 ;;
  q1 <- ein_rotate 2 (transposed inv1) q1 ;;
  q1 <- ein_rotate 3 (transposed inv2) q1 ;;
  q1 <- ein_rotate 1 (transposed inv2) q1 ;;
  r0 <- np_reshape q0 (ash phi0) ;;
  r1 <- np_reshape q1 (ash phi1) ;;
  Ok (r0, r1).
