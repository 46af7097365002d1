(** Model of the categorical Markov chain: random.alpha_beta_recursion and
    nodes/categorical_markov_chain.py, for one plate (the functions act on each
    plate separately; broadcasting between plates is not repeated here). *)
From Coq Require Import List Arith Bool Reals.
From Verif Require Import Base ExtReal Numeric.
Import ListNotations.

(** misc.logsumexp(v, axis=(-1,-2)), axis=-2 and axis=-1 of a D x D matrix,
    utils/misc.py 1366-1385. *)
Definition lse_both (D : nat) (v : nat -> nat -> ext) : res ext :=
  logsumexp (flat_map (fun i => map (v i) (seq 0 D)) (seq 0 D)).
Definition lse_first (D : nat) (v : nat -> nat -> ext) : res (list ext) :=
  mapM (fun j => logsumexp (map (fun i => v i j) (seq 0 D))) (seq 0 D).
Definition lse_last (D : nat) (v : nat -> nat -> ext) : res (list ext) :=
  mapM (fun i => logsumexp (map (v i) (seq 0 D))) (seq 0 D).
(** Entry of a computed row; [nan] is never read, the rows have D entries. *)
Definition ent (l : list ext) (i : nat) : ext := nth i l NaN.
Definition sum_both (D : nat) (v : nat -> nat -> ext) : ext :=
  esum (flat_map (fun i => map (v i) (seq 0 D)) (seq 0 D)).

(** utils/random.py 389-397: the forward loop, with the rows of logalpha from
    time [n] on; [steps] iterations are left.  [la] is row [n]. *)
Fixpoint forward (D : nat) (logP : nat -> nat -> nat -> ext) (steps n : nat)
    (la : list ext) (g : ext) : res (list (list ext) * ext) :=
  match steps with
  | O => Ok ([la], g)
  | S s =>
    let v := fun i j => eadd (ent la i) (logP n i j) in
    c <- lse_both D v ;;
    la' <- lse_first D (fun i j => esub (v i j) c) ;;
    ' (rows, g') <- forward D logP s (S n) la' (esub g c) ;;
    Ok (la :: rows, g')
  end.

(** utils/random.py 404-408: the backward loop; rows of logbeta from time [n] on. *)
Fixpoint backward (D : nat) (logP : nat -> nat -> nat -> ext) (steps n : nat) :
    res (list (list ext)) :=
  match steps with
  | O => Ok [repeat (Fin 0) D]
  | S s =>
    rows <- backward D logP s (S n) ;;
    let v := fun i j => eadd (ent (hd [] rows) j) (logP (S n) i j) in
    c <- lse_both D v ;;
    lb <- lse_last D (fun i j => esub (v i j) c) ;;
    Ok (lb :: rows)
  end.

(** utils/random.py 410-416: the pairwise table at one time. *)
Definition pair_table (D : nat) (la lb : list ext) (P : nat -> nat -> ext) : res (list (list ext)) :=
  let v := fun i j => eadd (eadd (ent la i) (ent lb j)) (P i j) in
  c <- lse_both D v ;;
  let z := fun i j => eexp (esub (v i j) c) in
  let s := sum_both D z in
  Ok (map (fun i => map (fun j => ediv (z i j) s) (seq 0 D)) (seq 0 D)).

(** utils/random.py 357-422: alpha_beta_recursion.  logp0 has shape (D,), logP has
    shape (N,D1,D2).  With N = 0 the assignment to logalpha[...,0,:] raises. *)
Definition alpha_beta_recursion (D N D1 D2 : nat) (logp0 : nat -> ext)
    (logP : nat -> nat -> nat -> ext) : res (list ext * list (list (list ext)) * ext) :=
  if negb ((D1 =? D)%nat && (D2 =? D)%nat) then Err ValueError
  else match N with
  | O => Err IndexError
  | S s =>
    ' (alphas, g) <- forward D logP s 0 (map logp0 (seq 0 D)) (Fin 0) ;;
    c <- lse_both D (fun i j => eadd (ent (nth s alphas []) i) (logP s i j)) ;;
    let g := esub g c in
    betas <- backward D logP s 0 ;;
    zz <- mapM (fun n => pair_table D (nth n alphas []) (nth n betas []) (logP n)) (seq 0 N) ;;
    let z0 := map esum (nth 0 zz []) in
    let z0 := map (fun x => ediv x (esum z0)) z0 in
    Ok (z0, zz, g)
  end.

Open Scope R_scope.

(** categorical_markov_chain.py 46-70: CategoricalMarkovChainMoments.compute_fixed_moments,
    for a chain [x] of states (one plate); values outside 0..categories-1 raise. *)
Definition cmc_fixed_moments (K : nat) (x : list nat) : res ((nat -> R) * (nat -> nat -> nat -> R)) :=
  if forallb (fun k => (k <? K)%nat) x
  then Ok ((fun i => if (nth 0 x 0 =? i)%nat then 1 else 0),
           (fun n i j => if ((nth n x 0 =? i)%nat && (nth (S n) x 0 =? j)%nat)%bool then 1 else 0))
  else Err ValueError.
(** categorical_markov_chain.py 143-147: compute_fixed_moments_and_f, which observe calls. *)
Definition cmc_fixed (K : nat) (x : list nat)
  : res (((nat -> R) * (nat -> nat -> nat -> R)) * R) := Err NotImplementedError.

(** 119-125: compute_phi_from_parents: phi1 = u_P[0] * ones((N-1,K,K)); [T] is the
    length of the time axis of u_P[0] (1 or N-1). *)
Definition cmc_phi (T : nat) (u_p0 : nat -> R) (u_P : nat -> nat -> nat -> R) :
    (nat -> R) * (nat -> nat -> nat -> R) :=
  (u_p0, fun n i j => u_P (if (T =? 1)%nat then O else n) i j * 1).

(** 95-104: compute_message_to_parent; 137-141: compute_cgf_from_parents. *)
Definition cmc_message0 (u : (nat -> R) * (nat -> nat -> nat -> R)) : nat -> R := fst u.
Definition cmc_message1 (u : (nat -> R) * (nat -> nat -> nat -> R)) : nat -> nat -> nat -> R := snd u.
Definition cmc_cgf_from_parents : R := 0.

(** 127-135: compute_moments_and_cgf: log-probabilities are the natural parameters. *)
Definition cmc_moments_and_cgf (N K : nat) (phi0 : nat -> ext) (phi1 : nat -> nat -> nat -> ext) :=
  alpha_beta_recursion K (N - 1) K K phi0 phi1.

(** 379-399: CategoricalMarkovChainToCategorical._compute_moments: the
    distribution of each of the N+1 states of a chain with N transitions. *)
Definition cmc_to_categorical (K : nat) (z0 : nat -> R) (zz : nat -> nat -> nat -> R)
    (n k : nat) : R :=
  match n with
  | O => z0 k
  | S n' => Verif.NumPy.rsum K (fun i => zz n' i k)
  end.
(** 401-407: _compute_message_to_parent. *)
Definition cmc_to_categorical_message (m : nat -> nat -> R) :
    (nat -> R) * (nat -> nat -> nat -> R) :=
  (m O, fun n i j => m (S n) j).
