(** A Gaussian Markov chain as one Gaussian over all its states. *)
From Coq Require Import List Arith Lia Bool Reals Lra.
From Verif Require Import Base NumPy Families TensorLemmas Linalg MatBridge SpecLinalg LinalgLemmas GaussAlg Gaussian GaussLemmas PGaussian PGaussian2
  BlockBanded SpecBlock BlockShift BlockLemmas PBlockBanded GaussMarkov SpecGaussMarkov.
Import ListNotations.
Open Scope R_scope.

Lemma rsum_flat : forall N D f, (1 <= D)%nat -> rsum (N * D) (fun p => f (p / D)%nat (p mod D)%nat) = rsum N (fun n => rsum D (f n)).
Proof.
  intros N D f HD. revert f. induction N as [|N IH]; intros f; [reflexivity|].
  change (S N * D)%nat with (D + N * D)%nat. rewrite rsum_app, rsum_S_l. f_equal.
  - apply rsum_ext. intros i Hi. now rewrite Nat.div_small, Nat.mod_small.
  - rewrite <- (IH (fun n => f (S n))). apply rsum_ext. intros i Hi. now rewrite div_add, mod_add.
Qed.
Lemma flat_index : forall D p, (1 <= D)%nat -> p = (p / D * D + p mod D)%nat.
Proof. intros D p HD. rewrite (Nat.div_mod p D) at 1 by lia. lia. Qed.
Lemma index_div : forall D n i, (i < D)%nat -> ((n * D + i) / D = n)%nat.
Proof. intros. rewrite Nat.add_comm, Nat.div_add, Nat.div_small by lia. reflexivity. Qed.
Lemma index_mod : forall D n i, (i < D)%nat -> ((n * D + i) mod D = i)%nat.
Proof. intros. rewrite Nat.add_comm, Nat.mod_add, Nat.mod_small by lia. reflexivity. Qed.
Lemma index_lt : forall N D n i, (n < N)%nat -> (i < D)%nat -> (n * D + i < N * D)%nat.
Proof. intros. nia. Qed.

Lemma tri_sum : forall M (a b c : nat -> R),
  rsum (S M) (fun n => rsum (S M) (fun m => if (m =? n)%nat then a n else if (m =? S n)%nat then b n else if (n =? S m)%nat then c m else 0))
  = rsum (S M) a + rsum M b + rsum M c.
Proof.
  induction M as [|M IH]; intros a b c; [cbn; lra|].
  set (g := fun n m => if (m =? n)%nat then a n else if (m =? S n)%nat then b n else if (n =? S m)%nat then c m else 0).
  change (rsum (S (S M)) (fun n => rsum (S (S M)) (g n)) = rsum (S (S M)) a + rsum (S M) b + rsum (S M) c).
  assert (L : forall k f, rsum (S k) f = rsum k f + f k) by reflexivity.
  rewrite (L (S M) (fun n => rsum (S (S M)) (g n))).
  rewrite (rsum_ext (S M) (fun n => rsum (S (S M)) (g n)) (fun n => rsum (S M) (g n) + g n (S M))) by reflexivity.
  rewrite rsum_plus. rewrite (IH a b c : rsum (S M) (fun n => rsum (S M) (g n)) = _).
  assert (G1 : rsum (S M) (fun n => g n (S M)) = b M).
  { rewrite L. rewrite (rsum_zero M). 2: { intros n Hn. unfold g. rewrite (proj2 (Nat.eqb_neq _ _)), (proj2 (Nat.eqb_neq _ _)), (proj2 (Nat.eqb_neq _ _)) by lia. reflexivity. }
    unfold g. rewrite (proj2 (Nat.eqb_neq (S M) M)) by lia. rewrite Nat.eqb_refl. lra. }
  assert (G2 : rsum (S (S M)) (g (S M)) = a (S M) + c M).
  { rewrite L, L, (rsum_zero M). 2: { intros m Hm. unfold g. rewrite (proj2 (Nat.eqb_neq _ _)), (proj2 (Nat.eqb_neq _ _)), (proj2 (Nat.eqb_neq _ _)) by lia. reflexivity. }
    unfold g. rewrite (proj2 (Nat.eqb_neq M (S M))), (proj2 (Nat.eqb_neq M (S (S M)))) by lia. rewrite !Nat.eqb_refl. lra. }
  rewrite G1, G2, (L (S M) a), (L M b), (L M c). lra.
Qed.

Definition flat_phi (D : nat) (p : chain) : vec * mat :=
  let '(p0, p1, p2) := p in (flat D p0, tridiagonal D p1 (fun n i j => / 2 * p2 n i j)).
Definition sub_phi (p : chain) (N D : nat) : Prop := let '(_, p1, _) := p in forall n, (n < N)%nat -> symmetric D (p1 n).

Lemma flat_prec : forall D p i j, scal_m (-2) (snd (flat_phi D p)) i j = chain_precision D p i j.
Proof.
  intros D [[p0 p1] p2] i j. unfold scal_m, chain_precision, tridiagonal, block_of. cbn. unfold tridiagonal, block_of.
  destruct (_ =? _)%nat; [reflexivity|]. destruct (_ =? _)%nat; [lra|]. destruct (_ =? _)%nat; lra.
Qed.
Lemma flat_sym : forall N D p, (1 <= D)%nat -> sub_phi p N D -> symmetric (N * D) (snd (flat_phi D p)).
Proof. intros N D [[p0 p1] p2] HD H. cbn. now apply tri_sym. Qed.

(** <phi, u> over the blocks. *)
Lemma flat_dot : forall N D p u0 u1 u2 m S, (1 <= N)%nat -> (1 <= D)%nat -> symmetric (N * D) S ->
  (forall n i, (n < N)%nat -> (i < D)%nat -> u0 n i = m (n * D + i)%nat) ->
  (forall n, (n < N)%nat -> meq D (u1 n) (block D S n n)) ->
  (forall n, (n + 1 < N)%nat -> meq D (u2 n) (block D S n (n + 1))) ->
  chain_dot N D p (u0, u1, u2) = innerv (N * D) (fst (flat_phi D p)) m + innerm (N * D) (snd (flat_phi D p)) S.
Proof.
  intros N D [[p0 p1] p2] u0 u1 u2 m S HN HD Sy H0 H1 H2. unfold chain_dot. cbn [flat_phi fst snd].
  assert (E0 : innerv (N * D) (flat D p0) m = rsum N (fun n => innerv D (p0 n) (u0 n))).
  { unfold innerv, flat. transitivity (rsum (N * D) (fun p => p0 (p / D)%nat (p mod D)%nat * m (p / D * D + p mod D)%nat)).
    { apply rsum_ext. intros p Hp. now rewrite <- flat_index. }
    rewrite (rsum_flat N D (fun n i => p0 n i * m (n * D + i)%nat) HD). apply rsum_ext. intros n Hn. apply rsum_ext. intros i Hi. now rewrite H0. }
  rewrite E0, Rplus_assoc. f_equal.
  set (b := fun n m => rsum D (fun i => rsum D (fun j => block_of p1 (fun n i j => / 2 * p2 n i j) n m i j * S (n * D + i)%nat (m * D + j)%nat))).
  assert (E1 : innerm (N * D) (tridiagonal D p1 (fun n i j => / 2 * p2 n i j)) S = rsum N (fun n => rsum N (b n))).
  { unfold innerm, tridiagonal.
    transitivity (rsum (N * D) (fun p => rsum N (fun m => rsum D (fun j =>
      block_of p1 (fun n i j => / 2 * p2 n i j) (p / D) m (p mod D) j * S (p / D * D + p mod D)%nat (m * D + j)%nat)))).
    { apply rsum_ext. intros p Hp. rewrite <- (rsum_flat N D (fun m j => block_of p1 (fun n i j => / 2 * p2 n i j) (p / D) m (p mod D) j * S (p / D * D + p mod D)%nat (m * D + j)%nat) HD).
      apply rsum_ext. intros q Hq. now rewrite <- !flat_index. }
    rewrite (rsum_flat N D (fun n i => rsum N (fun m => rsum D (fun j => block_of p1 (fun n i j => / 2 * p2 n i j) n m i j * S (n * D + i)%nat (m * D + j)%nat))) HD).
    apply rsum_ext. intros n Hn. rewrite rsum_swap. reflexivity. }
  rewrite E1. destruct N as [|M]; [lia|]. replace (Datatypes.S M - 1)%nat with M by lia.
  rewrite (rsum_ext (Datatypes.S M) (fun n => rsum (Datatypes.S M) (b n)) (fun n => rsum (Datatypes.S M) (fun m => if (m =? n)%nat then innerm D (p1 n) (u1 n)
    else if (m =? Datatypes.S n)%nat then / 2 * innerm D (p2 n) (u2 n) else if (n =? Datatypes.S m)%nat then / 2 * innerm D (p2 m) (u2 m) else 0))).
  - rewrite tri_sum, !rsum_scal. lra.
  - intros n Hn. apply rsum_ext. intros k Hk. unfold b, block_of.
    destruct (Nat.eqb_spec k n) as [->|Hne].
    { unfold innerm. apply rsum_ext. intros i Hi. apply rsum_ext. intros j Hj. now rewrite (H1 n Hn i j Hi Hj). }
    destruct (Nat.eqb_spec k (Datatypes.S n)) as [->|Hn1].
    { unfold innerm. rewrite <- rsum_scal. apply rsum_ext. intros i Hi. rewrite <- rsum_scal. apply rsum_ext. intros j Hj.
      rewrite (H2 n ltac:(lia) i j Hi Hj). unfold block. replace (n + 1)%nat with (Datatypes.S n) by lia. ring. }
    destruct (Nat.eqb_spec n (Datatypes.S k)) as [->|Hn2].
    { rewrite rsum_swap. unfold innerm. rewrite <- rsum_scal. apply rsum_ext. intros i Hi. rewrite <- rsum_scal. apply rsum_ext. intros j Hj.
      rewrite (H2 k ltac:(lia) i j Hi Hj). unfold block. replace (k + 1)%nat with (Datatypes.S k) by lia.
      rewrite (Sy (k * D + i)%nat (Datatypes.S k * D + j)%nat) by (apply index_lt; lia). ring. }
    apply rsum_zero. intros i Hi. apply rsum_zero. intros j Hj. ring.
Qed.

(** The moments of the chain are those of the Gaussian over all the states. *)
Lemma gmc_flat : forall junk N D phi, (1 <= N)%nat -> (1 <= D)%nat -> sub_phi phi N D ->
  (~ posdef (N * D) (chain_precision D phi) -> gmc_moments junk N D phi = Err PyException) /\
  (posdef (N * D) (chain_precision D phi) -> exists u0 u1 u2 g w,
     gmc_moments junk N D phi = Ok ((u0, u1, u2), g) /\
     gaussian_moments (N * D) (flat_phi D phi) = Ok (w, g) /\ symmetric (N * D) (snd w) /\
     (forall n i, (n < N)%nat -> (i < D)%nat -> u0 n i = fst w (n * D + i)%nat) /\
     (forall n, (n < N)%nat -> meq D (u1 n) (block D (snd w) n n)) /\
     (forall n, (n + 1 < N)%nat -> meq D (u2 n) (block D (snd w) n (n + 1)))).
Proof.
  intros [[x0 V0] C0] N D [[p0 p1] p2] HN HD Sy. cbn in Sy.
  destruct (C43_block_banded_solve N D (fun n => scal_m (-2) (p1 n)) (fun n i j => - p2 n i j) p0 x0 V0 C0 HN HD) as [H1 H2].
  { intros n Hn. now apply symmetric_scal, Sy. }
  change (tridiagonal D (fun n => scal_m (-2) (p1 n)) (fun n i j => - p2 n i j)) with (chain_precision D (p0, p1, p2)) in *.
  set (M := chain_precision D (p0, p1, p2)) in *. split.
  - intros P. unfold gmc_moments. now rewrite (H2 P).
  - intros P. destruct (H1 P) as (V & C & x & ld & W & E & HW & HV & HC & HX & Hd & Hl).
    set (phi := flat_phi D (p0, p1, p2)).
    assert (EM : meq (N * D) (scal_m (-2) (snd phi)) M) by (intros i j _ _; apply flat_prec).
    assert (EM' : meq (N * D) M (scal_m (-2) (snd phi))) by (intros i j _ _; symmetry; apply flat_prec).
    assert (P' : posdef (N * D) (scal_m (-2) (snd phi))) by now apply (posdef_ext _ M).
    destruct (posdef_chol _ _ P') as [U EU].
    assert (I := chol_inv_ok _ _ U (proj1 P') EU).
    assert (I' : is_inverse (N * D) M (chol_inv (N * D) U)) by now apply (inverse_ext _ _ M _ EM).
    assert (SI := inverse_symmetric (proj1 P') I).
    assert (EW : meq (N * D) W (chol_inv (N * D) U)) by (intros i j Hi Hj; exact (inverse_unique _ _ _ _ HW (proj1 I') i j Hi Hj)).
    set (mu := chol_solve (N * D) U (fst phi)).
    assert (Ex : veq (N * D) (flat D x) mu).
    { intros i Hi. unfold mu, chol_solve. rewrite (solve_inv _ _ U _ (proj1 P') EU i Hi).
      transitivity (mvdot (N * D) (mmdot (N * D) W M) (flat D x) i).
      - rewrite (mvdot_ext (N * D) _ identity _ (flat D x) (proj2 HW) (fun _ _ => eq_refl) i Hi). unfold mvdot, identity.
        rewrite (rsum_ext (N * D) _ (fun j => if (j =? i)%nat then flat D x i else 0)).
        { now rewrite (rsum_single (N * D) i (fun _ => flat D x i)) by exact Hi. }
        intros j Hj. rewrite Nat.eqb_sym. destruct (Nat.eqb_spec j i) as [->|]; ring.
      - rewrite <- (mvdot_assoc (N * D) W M _ i Hi). apply mvdot_ext; [exact EW|exact HX|exact Hi]. }
    assert (Ex' : forall n i, (n < N)%nat -> (i < D)%nat -> x n i = mu (n * D + i)%nat).
    { intros n i Hn Hi. rewrite <- Ex by now apply index_lt. unfold flat. now rewrite index_div, index_mod. }
    do 5 eexists. split; [|split; [|split; [|split; [|split]]]].
    + unfold gmc_moments. rewrite E. cbn [bind]. reflexivity.
    + unfold gaussian_moments. fold phi. unfold chol. rewrite EU. cbn [bind]. fold mu. f_equal. f_equal.
      rewrite (proj2 (chol_logdet_ok _ _ U (proj1 P') EU)), Hl, (mdet_ext EM). f_equal. f_equal.
      unfold innerv. cbn [fst phi flat_phi].
      rewrite <- (rsum_flat N D (fun n i => x n i * p0 n i) HD). apply rsum_ext. intros p Hp. rewrite <- Ex by exact Hp. reflexivity.
    + cbn [snd]. intros i j Hi Hj. unfold add_m, outerv. rewrite (SI i j Hi Hj). ring.
    + cbn [fst]. exact Ex'.
    + cbn [snd]. intros n Hn i j Hi Hj. unfold add_m, outerv, block. rewrite (HV n Hn i j Hi Hj). unfold block.
      rewrite (EW (n * D + i)%nat (n * D + j)%nat) by now apply index_lt. now rewrite !Ex'.
    + cbn [snd]. intros n Hn i j Hi Hj. unfold add_m, outerv, block. replace (n + 1)%nat with (S n) in * by lia. rewrite (HC n Hn i j Hi Hj). unfold block.
      rewrite (EW (n * D + i)%nat (S n * D + j)%nat) by (apply index_lt; lia). rewrite !Ex' by lia. reflexivity.
Qed.
