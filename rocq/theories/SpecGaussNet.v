(** Specification of models with Gaussian-type nodes: the kinds of moments, and which
    moments, messages and natural parameters of one plate are possible for each kind. *)
From Coq Require Import List Arith ZArith Bool Reals.
From Verif Require Import Base Shapes SpecShapes NumPy MiscArray SpecArray Families Linalg SpecLinalg Gaussian
  FamilyDist GaussianDist ExpFam SpecExpFam SpecUpdate SpecFamilyDist Network SpecNetwork FamilyNet Dot SpecDot
  DetNet SpecDetNet GaussNet MixtureNet BlockBanded GaussMarkovDist.
Import ListNotations.
Open Scope R_scope.

(** Finite probability distributions and expectations. *)
Definition probs {A} (l : list (R * A)) : Prop :=
  Forall (fun o => 0 <= fst o) l /\ lsum (map fst l) = 1.
Definition avg {A} (l : list (R * A)) (F : A -> R) : R := lsum (map (fun o => fst o * F (snd o)) l).

(** Matrices over the indices of a variable of shape [s]: [q] has the axes of [s] twice. *)
Definition msym (s : shape) (q : env -> R) : Prop :=
  forall v w, valid s v -> valid s w -> q (join (length s) v w) = q (join (length s) w v).
Definition quad (s : shape) (q f : env -> R) : R :=
  total s (fun v => total s (fun w => q (join (length s) v w) * f v * f w)).
Definition nonzero_on (s : shape) (f : env -> R) : Prop := exists v, valid s v /\ f v <> 0.

(** The quadratic form of a path x_0, ..., x_{N-1} of vectors with the blocks [q] on the
    diagonal and [r] between successive vectors. *)
Definition path_form (N D : nat) (q r : blocks) (x : rows) : R :=
  rsum N (fun n => bilinear D (q n) (x n) (x n)) + rsum (N - 1) (fun n => bilinear D (r n) (x n) (x (S n))).
Definition nonzero_path (N D : nat) (x : rows) : Prop := exists n i, (n < N)%nat /\ (i < D)%nat /\ x n i <> 0.

(** The kinds of moments: the Moments classes of the nodes. *)
Inductive mtype :=
| MGaussian (s : shape)       (* <x>, <x x'> for x of shape s *)
| MGaussianGamma (s : shape)  (* <tau x>, <tau x x'>, <tau>, <log tau> *)
| MElements (D : nat)         (* the same element by element, with <tau x^2> *)
| MGaussianWishart (D : nat)  (* <Lambda x>, <x' Lambda x>, <Lambda>, <logdet Lambda> *)
| MGamma                      (* <x>, <log x> *)
| MWishart (D : nat)          (* <Lambda>, <logdet Lambda> *)
| MShape                      (* a, gammaln a *)
| MDegrees (D : nat)          (* n, multigammaln(n/2) *)
| MLogProb (K : nat)          (* <log p> *)
| MConcentration (K : nat)    (* alpha, log-normaliser *)
| MCounts (dims : shape) (most : option R)    (* <x> with 0 <= x, perhaps x <= most *)
| MFixed (s : shape)          (* x, known *)
| MCategory (K : nat)         (* <x>, probabilities of K categories *)
| MChain (N K : nat)          (* the first state and the N - 1 transitions of a chain of categories *)
| MPath (N D : nat)           (* <x_n>, <x_n x_n'>, <x_n x_{n+1}'> for a path of N vectors of length D *)
| MClusters (K : nat) (t : mtype).  (* the moments of kind t of K clusters *)

Fixpoint mt_dims (t : mtype) : list shape :=
  match t with
  | MGaussian s => [s; s ++ s]
  | MGaussianGamma s => [s; s ++ s; []; []]
  | MElements D => [[D]; [D]; [D]; [D]]
  | MGaussianWishart D => [[D]; []; [D; D]; []]
  | MGamma => [[]; []]
  | MWishart D => [[D; D]; []]
  | MShape => [[]; []]
  | MDegrees _ => [[]; []]
  | MLogProb K => [[K]]
  | MConcentration K => [[K]; []]
  | MCounts d _ => [d]
  | MFixed s => [s]
  | MCategory K => [[K]]
  | MChain N K => [[K]; [N - 1; K; K]%nat]
  | MPath N D => [[N; D]; [N; D; D]; [N - 1; D; D]%nat]
  | MClusters K t => map (cons K) (mt_dims t)
  end.

(** Possible moments.  Gaussian: those of some distribution (here a finite one; every mean and
    second moment with a positive semidefinite covariance is that of a finite distribution). *)
Fixpoint mt_mom (t : mtype) (u : list (env -> R)) : Prop :=
  match t with
  | MGaussian s => exists l : list (R * (env -> R)), probs l /\
      (forall v, valid s v -> coef u 0 v = avg l (fun f => f v)) /\
      (forall v w, valid s v -> valid s w -> coef u 1 (join (length s) v w) = avg l (fun f => f v * f w))
  | MGaussianGamma s => exists l : list (R * (R * (env -> R))), probs l /\
      (forall o, In o l -> 0 < fst (snd o)) /\
      (forall v, valid s v -> coef u 0 v = avg l (fun o => fst o * snd o v)) /\
      (forall v w, valid s v -> valid s w -> coef u 1 (join (length s) v w) = avg l (fun o => fst o * (snd o v * snd o w))) /\
      coef u 2 env0 = avg l (fun o => fst o)
  | MElements D => forall v, valid [D] v ->
      0 < coef u 2 v /\ coef u 0 v * coef u 0 v <= coef u 2 v * coef u 1 v
  | MGaussianWishart D => posdef D (as_mat (coef u 2)) /\
      forall x, 2 * innerv D (as_vec (coef u 0)) x <= bilinear D (as_mat (coef u 2)) x x + coef u 1 env0
  | MGamma => 0 < coef u 0 env0
  | MWishart D => posdef D (as_mat (coef u 0))
  | MShape => 0 < coef u 0 env0
  | MDegrees D => 0 < coef u 0 env0 /\ INR D - 1 < coef u 0 env0
  | MLogProb _ => True
  | MConcentration K => forall v, valid [K] v -> 0 < coef u 0 v
  | MCounts d most => forall v, valid d v -> 0 <= coef u 0 v /\ match most with Some N => coef u 0 v <= N | None => True end
  | MFixed _ => True
  | MCategory K => (forall v, valid [K] v -> 0 <= coef u 0 v) /\ total [K] (coef u 0) = 1
  | MChain N K => (forall v, valid [K] v -> 0 <= coef u 0 v) /\ total [K] (coef u 0) = 1 /\
      (forall v, valid [N - 1; K; K]%nat v -> 0 <= coef u 1 v) /\
      forall n, (n < N - 1)%nat -> total [K; K] (fun v => coef u 1 (join 2 (upd env0 0 n) v)) = 1
  | MPath N D => exists l : list (R * rows), probs l /\
      (forall n i, (n < N)%nat -> (i < D)%nat -> as_rows (coef u 0) n i = avg l (fun x => x n i)) /\
      (forall n i j, (n < N)%nat -> (i < D)%nat -> (j < D)%nat -> as_blocks (coef u 1) n i j = avg l (fun x => x n i * x n j)) /\
      (forall n i j, (n < N - 1)%nat -> (i < D)%nat -> (j < D)%nat -> as_blocks (coef u 2) n i j = avg l (fun x => x n i * x (S n) j))
  | MClusters K t => forall k, (k < K)%nat -> mt_mom t (cluster (mt_dims t) k u)
  end.

(** Possible messages: bounded above as functions of the variable, with the right symmetry. *)
Fixpoint mt_msg (t : mtype) (m : list (env -> R)) : Prop :=
  match t with
  | MGaussian s => msym s (coef m 1) /\ forall f, quad s (coef m 1) f <= 0
  | MGaussianGamma s => msym s (coef m 1) /\ 0 <= coef m 3 env0 /\
      forall f, total s (fun v => coef m 0 v * f v) + quad s (coef m 1) f + coef m 2 env0 <= 0
  | MElements D => forall v, valid [D] v ->
      0 <= coef m 3 v /\ forall x, coef m 0 v * x + coef m 1 v * (x * x) + coef m 2 v <= 0
  | MGaussianWishart D => symmetric D (as_mat (coef m 2)) /\ 0 <= coef m 3 env0 /\
      forall x r, bilinear D (as_mat (coef m 2)) x x + r * innerv D (as_vec (coef m 0)) x + coef m 1 env0 * (r * r) <= 0
  | MGamma => coef m 0 env0 <= 0 /\ 0 <= coef m 1 env0
  | MWishart D => symmetric D (as_mat (coef m 0)) /\ (forall x, bilinear D (as_mat (coef m 0)) x x <= 0) /\ 0 <= coef m 1 env0
  | MLogProb K => forall v, valid [K] v -> 0 <= coef m 0 v
  | MPath N D => (forall n, (n < N)%nat -> symmetric D (as_blocks (coef m 1) n)) /\
      forall x, path_form N D (as_blocks (coef m 1)) (as_blocks (coef m 2)) x <= 0
  | MShape | MDegrees _ | MConcentration _ | MCounts _ _ | MFixed _ | MCategory _ | MChain _ _ => True
  | MClusters K t => forall k, (k < K)%nat -> mt_msg t (cluster (mt_dims t) k m)
  end.

(** Possible natural parameters: those of a proper distribution. *)
Definition mt_par (t : mtype) (phi : list (env -> R)) : Prop :=
  match t with
  | MGaussian s => msym s (coef phi 1) /\ forall f, nonzero_on s f -> quad s (coef phi 1) f < 0
  | MGaussianGamma s => msym s (coef phi 1) /\ (forall f, nonzero_on s f -> quad s (coef phi 1) f < 0) /\ 0 < coef phi 3 env0 /\
      exists eps, 0 < eps /\ forall f, total s (fun v => coef phi 0 v * f v) + quad s (coef phi 1) f + coef phi 2 env0 <= - eps
  | MGamma => coef phi 0 env0 < 0 /\ 0 < coef phi 1 env0
  | MWishart D => posdef D (scal_m (-1) (as_mat (coef phi 0))) /\ 0 < coef phi 1 env0 /\ INR D - 1 < 2 * coef phi 1 env0
  | MLogProb K => forall v, valid [K] v -> 0 < coef phi 0 v
  | MPath N D => (forall n, (n < N)%nat -> symmetric D (as_blocks (coef phi 1) n)) /\
      forall x, nonzero_path N D x -> path_form N D (as_blocks (coef phi 1)) (as_blocks (coef phi 2)) x < 0
  | _ => True
  end.

(** The factor that deterministic annealing puts on the natural parameters.  A Wishart
    distribution multiplied down can have too few degrees of freedom. *)
Definition ann_ok (t : mtype) (ann : R) : Prop :=
  0 < ann /\ match t with MWishart _ => 1 <= ann | _ => True end.
