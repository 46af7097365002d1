(** Model of gaussian_markov_chain.py 930-1742: VaryingGaussianMarkovChainDistribution and
    SwitchingGaussianMarkovChainDistribution, for one plate.  Both inherit the moments, the
    normaliser and the fixed moments of the template ([gmc_moments], [gmc_fixed]).
    No proofs here.

    Simplifications: as in GaussMarkov.v, one plate; the weights S and the selections Z are
    given for every transition n < N-1 (NumPy broadcasts a time axis of length one); nu and
    log nu keep their own shapes, which the code inspects. *)
From Coq Require Import List Arith ZArith Bool Reals.
From Verif Require Import Base NumPy Families Linalg Gaussian BlockBanded GaussMarkov.
Import ListNotations.
Open Scope R_scope.

(** Moments of mu: (mu, mu mu'); of Lambda: (Lambda, log|Lambda|); of nu: (nu, log nu). *)
Definition mu_moments : Type := vec * mat.
Definition Lambda_moments : Type := mat * R.
Definition nu_moments : Type := tarray * tarray.

(** np.ndim(v) >= 2 and np.shape(v)[-2] > 1 *)
Definition time_dependent (v : tarray) : bool := match v with T2 m _ _ => (1 <? m)%nat | _ => false end.

(** The parts of compute_phi_from_parents that the two classes share (1083-1096, 1107-1119
    and 1631-1645, 1656-1657): [AvA n] is what the diagonal block n gets from the transition
    n, [vA n] the off-diagonal block. *)
Definition dynamic_phi (N D : nat) (u_mu : mu_moments) (u_Lambda : Lambda_moments) (v : tarray)
  (AvA vA : nat -> mat) : res chain :=
  let mu := fst u_mu in
  let Lambda := fst u_Lambda in
  let phi0 : rows := fun _ _ => 0 in
  let phi1 : blocks := fun _ _ _ => 0 in
  let phi0 := put phi0 O (mvdot D Lambda mu) in
  let phi1 := put phi1 O Lambda in
  let phi1 : blocks := fun n => match n with O => phi1 O | S p => if (S p <? N)%nat then diag (tarray_at v p) else phi1 n end in
  if time_dependent v then Err PyException else
  let phi1 : blocks := fun n => if (n <? N - 1)%nat then add_m (phi1 n) (AvA n) else phi1 n in
  let phi1 : blocks := fun n => scal_m (-0.5) (phi1 n) in
  Ok (phi0, phi1, vA).

(** 1124-1133 and 1666-1675: compute_cgf_from_parents *)
Definition dynamic_cgf (N D : nat) (u_mu : mu_moments) (u_Lambda : Lambda_moments) (u_v : nu_moments) : res R :=
  gmc_cgf_core (innerm D (fst u_Lambda) (snd u_mu)) (snd u_Lambda) (snd u_v) N.

(** ** VaryingGaussianMarkovChainDistribution *)
(** Moments of B: row d of the matrices is a variable with indices (i, k); of S: one
    variable of length K for each transition. *)
Definition B_moments : Type := (nat -> nat -> nat -> R) * (nat -> nat -> nat -> nat -> nat -> R).
Definition S_moments : Type := rows * blocks.

(** 1038-1122: compute_phi_from_parents.  einsum refuses an array v without axes. *)
Definition varying_phi (N D K : nat) (u_mu : mu_moments) (u_Lambda : Lambda_moments) (u_B : B_moments) (u_S : S_moments)
  (u_v : nu_moments) : res chain :=
  let '(B, BB) := u_B in
  let '(Sm, SS) := u_S in
  let v := fst u_v in
  let v_BB := fun n i k j l => rsum D (fun d => BB d i k j l * tarray_at v n d) in
  match v with
  | T0 _ => Err ValueError
  | _ =>
  dynamic_phi N D u_mu u_Lambda v
    (fun n i j => rsum K (fun k => rsum K (fun l => v_BB n i k j l * SS n k l)))
    (fun n i j => rsum K (fun k => B j i k * Sm n k * tarray_at v n j))
  end.

Inductive vmessage :=
| ToB (m0 : nat -> nat -> nat -> R) (m1 : nat -> nat -> nat -> nat -> nat -> R)
| ToS (m0 : rows) (m1 : blocks).
(** 936-1017: compute_message_to_parent.  ValueError: "Innovation noise is time dependent". *)
Definition varying_message (index N D K : nat) (u : chain) (u_B : B_moments) (u_S : S_moments) (u_v : nu_moments) : res vmessage :=
  let '(_, XnXn, XpXn) := u in
  let '(B, BB) := u_B in
  let '(Sm, SS) := u_S in
  let v := fst u_v in
  match index with
  | 0%nat => Err NotImplementedError
  | 1%nat => Err NotImplementedError
  | 2%nat =>
      let m0 := fun i j k => rsum (N - 1) (fun n => XpXn n j i * Sm n k * tarray_at v n i) in
      if time_dependent v then Err ValueError else
      let m1 := fun i k j l => rsum (N - 1) (fun n => XnXn n i j * SS n k l) in
      let m1 := fun d i k j l => -0.5 * (m1 i k j l * tarray_at v 0 d) in
      Ok (ToB m0 m1)
  | 3%nat =>
      let m0 := fun n k => rsum D (fun j => rsum D (fun i => XpXn n j i * B i j k * tarray_at v n i)) in
      if time_dependent v then Err ValueError else
      let m1 := fun i k j l => rsum D (fun d => BB d i k j l * tarray_at v 0 d) in
      let m1 := fun n k l => -0.5 * rsum D (fun i => rsum D (fun j => XnXn n i j * m1 i k j l)) in
      Ok (ToS m0 m1)
  | 4%nat => Err NotImplementedError
  | _ => Err NotImplementedError
  end.

(** ** SwitchingGaussianMarkovChainDistribution *)
(** Moments of B: row d of the matrix k is a variable of length D; of Z: the probabilities
    of the K matrices, for each transition. *)
Definition sB_moments : Type := (nat -> nat -> vec) * (nat -> nat -> mat).

(** 1583-1664: compute_phi_from_parents *)
Definition switching_phi (N D K : nat) (u_mu : mu_moments) (u_Lambda : Lambda_moments) (u_B : sB_moments) (Z : rows)
  (u_v : nu_moments) : res chain :=
  let '(B, BB) := u_B in
  let v := fst u_v in
  let v_BB := fun n k i j => rsum D (fun d => BB k d i j * tarray_at v n d) in
  dynamic_phi N D u_mu u_Lambda v
    (fun n i j => rsum K (fun k => v_BB n k i j * Z n k))
    (fun n i j => rsum K (fun k => B k j i * Z n k * tarray_at v n j)).

Inductive smessage :=
| ToDynamics (m0 : nat -> nat -> vec) (m1 : nat -> nat -> mat)
| ToSelection (m0 : rows).
(** 1464-1565: compute_message_to_parent.  misc.atleast_nd and np.squeeze leave the row of v
    that holds for all transitions; np.sum(logv, axis=-1) adds the entries that log nu has. *)
Definition row_sum (l : tarray) : R :=
  match l with T0 v => v | T1 k v => rsum k v | T2 _ k v => rsum k (v O) end.
Definition switching_message (index N D : nat) (u : chain) (u_B : sB_moments) (Z : rows) (u_v : nu_moments) : res smessage :=
  let '(_, XnXn, XpXn) := u in
  let '(B, BB) := u_B in
  let '(v, logv) := u_v in
  match index with
  | 0%nat => Err NotImplementedError
  | 1%nat => Err NotImplementedError
  | 2%nat =>
      if time_dependent v then Err ValueError else
      let v := tarray_at v 0 in
      let m0 := fun k i j => rsum (N - 1) (fun n => XpXn n j i * Z n k * v i) in
      let m1 := fun k i j => rsum (N - 1) (fun n => XnXn n i j * Z n k) in
      let m1 := fun k d i j => -0.5 * (m1 k i j * v d) in
      Ok (ToDynamics m0 m1)
  | 3%nat =>
      if time_dependent v then Err ValueError else
      if time_dependent logv then Err ValueError else
      let v := tarray_at v 0 in
      let XnXn_v := fun n => rsum D (fun i => XnXn (S n) i i * v i) in
      let XpXn_v_B := fun n k => rsum D (fun i => rsum D (fun l => XpXn n i l * v l * B k l i)) in
      let BvB := fun k i j => rsum D (fun d => BB k d i j * v d) in
      let XpXp_BvB := fun n k => rsum D (fun i => rsum D (fun j => XnXn n i j * BvB k i j)) in
      Ok (ToSelection (fun n k => -0.5 * XnXn_v n + XpXn_v_B n k - 0.5 * XpXp_BvB n k + 0.5 * row_sum logv
                                  - 0.5 * INR D * ln (2 * PI)))
  | 4%nat => Err NotImplementedError
  | _ => Err NotImplementedError
  end.

(** 1364-1388, 1409-1430 and 1899-1925, 1945-1965: the length of the chain that the constructors of
    VaryingGaussianMarkovChain and SwitchingGaussianMarkovChain find, and their checks of the
    plates of S (or Z) and of nu.  The other checks (dimensions of the parents) are not
    modelled. *)
Definition chain_length (nS nv : nat) (n : option nat) : res nat :=
  if negb (nv =? nS)%nat && negb (nv =? 1)%nat && negb (nS =? 1)%nat then Err PyException else
  let nS := Nat.max nv nS in
  match n with
  | None => if (nS =? 1)%nat then Err PyException else Ok (nS + 1)%nat
  | Some n => if negb (nS =? 1)%nat && negb (nS + 1 =? n)%nat then Err PyException else Ok n
  end.
(** The plates are given from the last one on: p[-1], p[-2], ... *)
Definition nu_time (p : list nat) : nat := match p with _ :: m :: _ => m | _ => 1%nat end.
Definition check_nu (D M : nat) (p : list nat) : res unit :=
  match p with
  | [] => Err PyException
  | d :: q => if negb (d =? D)%nat then Err PyException else
      match q with
      | m :: _ => if negb (m =? 1)%nat && negb (m =? M - 1)%nat then Err ValueError else Ok tt
      | [] => Ok tt
      end
  end.
Definition varying_length (D : nat) (S_plates nu_plates : list nat) (n : option nat) : res nat :=
  let nS := match S_plates with [] => 1%nat | m :: _ => m end in
  M <- chain_length nS (nu_time nu_plates) n ;;
  if match S_plates with [] => false | m :: _ => negb (m =? 1)%nat && negb (m =? M - 1)%nat end then Err ValueError else
  _ <- check_nu D M nu_plates ;;
  Ok M.
Definition switching_length (D : nat) (Z_plates nu_plates : list nat) (n : option nat) : res nat :=
  match Z_plates with
  | [] => Err ValueError
  | nZ :: _ =>
      M <- chain_length nZ (nu_time nu_plates) n ;;
      if negb (nZ =? M - 1)%nat then Err ValueError else
      _ <- check_nu D M nu_plates ;;
      Ok M
  end.
