(** Specification of Gaussian Markov chains. *)
From Coq Require Import List Arith Bool Reals.
From Verif Require Import Base NumPy Families SpecFamilies Linalg MatBridge SpecLinalg SpecGaussian Gaussian BlockBanded
  SpecBlock GaussMarkov.
Import ListNotations.
Open Scope R_scope.

(** <phi, u>, summed over the N states and the N-1 transitions. *)
Definition chain_dot (N D : nat) (p u : chain) : R :=
  let '(p0, p1, p2) := p in
  let '(u0, u1, u2) := u in
  rsum N (fun n => innerv D (p0 n) (u0 n)) + rsum N (fun n => innerm D (p1 n) (u1 n))
  + rsum (N - 1) (fun n => innerm D (p2 n) (u2 n)).

(** x_0 ~ N(mu, Lambda), x_{n+1} ~ N(A_n x_n + B_n z_n, diag(nu_n)); Lambda and nu are
    precisions. *)
Definition chain_pdf (N D K : nat) (mu : vec) (Lambda : mat) (A B : nat -> mat) (nu : nat -> vec) (z : nat -> vec)
  (x : nat -> vec) : R :=
  normal_pdf D mu Lambda (x O)
  * rprod (N - 1) (fun n =>
      normal_pdf D (fun i => mvdot D (A n) (x n) i + rsum K (fun j => B n i j * z n j)) (diag (nu n)) (x (S n))).

(** The shape of the array is (D,), (1, D) or (N-1, D). *)
Definition tarray_full (N D : nat) (l : tarray) : Prop :=
  match l with
  | T0 _ => False
  | T1 k _ => k = D
  | T2 m k _ => k = D /\ (m = 1%nat \/ m = (N - 1)%nat)
  end.

(** The normal distribution with natural parameters [phi] over all the states: mean and
    second moments of the blocks. *)
Definition chain_precision (D : nat) (phi : chain) : mat :=
  let '(_, p1, p2) := phi in tridiagonal D (fun n i j => -2 * p1 n i j) (fun n i j => - p2 n i j).
Definition chain_moments (N D : nat) (m : vec) (W : mat) (u : chain) : Prop :=
  let '(u0, u1, u2) := u in
  (forall n i, (n < N)%nat -> (i < D)%nat -> u0 n i = m (n * D + i)%nat) /\
  (forall n, (n < N)%nat -> meq D (u1 n) (fun i j => block D W n n i j + m (n * D + i)%nat * m (n * D + j)%nat)) /\
  (forall n, (S n < N)%nat -> meq D (u2 n) (fun i j => block D W n (S n) i j + m (n * D + i)%nat * m (S n * D + j)%nat)).
(** An elementwise function of an array, like np.log. *)
Definition tarray_map (f : R -> R) (l : tarray) : tarray :=
  match l with T0 v => T0 (f v) | T1 k v => T1 k (fun d => f (v d)) | T2 m k v => T2 m k (fun n d => f (v n d)) end.
(** Row d of the matrix (A_n, B_n). *)
Definition dyn_row (D : nat) (A B : nat -> mat) (n d : nat) : vec := cat_v D (A n d) (B n d).
(** p + t d *)
Definition chain_line (p d : chain) (t : R) : chain :=
  let '(p0, p1, p2) := p in
  let '(d0, d1, d2) := d in
  ((fun n i => p0 n i + t * d0 n i), (fun n i j => p1 n i j + t * d1 n i j), (fun n i j => p2 n i j + t * d2 n i j)).
(** The same arrays. *)
Definition chain_eq (N D : nat) (u v : chain) : Prop :=
  let '(u0, u1, u2) := u in
  let '(v0, v1, v2) := v in
  (forall n i, (n < N)%nat -> (i < D)%nat -> u0 n i = v0 n i) /\ (forall n, (n < N)%nat -> meq D (u1 n) (v1 n)) /\
  (forall n, (S n < N)%nat -> meq D (u2 n) (v2 n)).
