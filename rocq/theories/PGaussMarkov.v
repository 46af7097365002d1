(** C20, C21, C22 and C51 for Gaussian Markov chains. *)
From Coq Require Import List Arith Lia Bool Reals Lra.
From Verif Require Import Base NumPy Families SpecFamilies FamiliesLemmas TensorLemmas Linalg MatBridge SpecLinalg LinalgLemmas GaussAlg Gaussian SpecGaussian
  GaussLemmas PGaussian PGaussian2 SpecGradient PGaussianGrad
  BlockBanded SpecBlock BlockShift BlockLemmas PBlockBanded GaussMarkov SpecGaussMarkov GaussMarkovLemmas.
Import ListNotations.
Open Scope R_scope.

Lemma innerv_ext' : forall D a a' b, (forall i, (i < D)%nat -> a i = a' i) -> innerv D a b = innerv D a' b.
Proof. intros. apply rsum_ext. intros. now rewrite H. Qed.
Lemma innerm_ext' : forall D a a' b, meq D a a' -> innerm D a b = innerm D a' b.
Proof. intros. apply rsum_ext. intros i Hi. apply rsum_ext. intros j Hj. now rewrite H. Qed.
Lemma innerv_plus : forall D a b c, innerv D (fun i => a i + b i) c = innerv D a c + innerv D b c.
Proof. intros. unfold innerv. rewrite <- rsum_plus. apply rsum_ext. intros; ring. Qed.
Lemma innerv_minus : forall D a b c, innerv D (fun i => a i - b i) c = innerv D a c - innerv D b c.
Proof. intros. unfold innerv. rewrite <- rsum_minus. apply rsum_ext. intros; ring. Qed.
Lemma innerm_plus : forall D a b c, innerm D (fun i j => a i j + b i j) c = innerm D a c + innerm D b c.
Proof. intros. unfold innerm. rewrite <- rsum_plus. apply rsum_ext. intros. rewrite <- rsum_plus. apply rsum_ext. intros; ring. Qed.
Lemma innerv_0 : forall D c, innerv D (fun _ => 0) c = 0.
Proof. intros. apply rsum_zero. intros; ring. Qed.
Lemma innerm_0 : forall D c, innerm D (fun _ _ => 0) c = 0.
Proof. intros. apply rsum_zero. intros. apply rsum_zero. intros; ring. Qed.
Lemma innerm_diag : forall D a X, innerm D (diag a) X = rsum D (fun i => a i * X i i).
Proof.
  intros. unfold innerm. apply rsum_ext. intros i Hi. rewrite (rsum_ext D _ (fun j => if (j =? i)%nat then a i * X i i else 0)).
  - now apply (rsum_single D i (fun _ => a i * X i i)).
  - intros j Hj. unfold diag. rewrite Nat.eqb_sym. destruct (Nat.eqb_spec j i) as [->|]; ring.
Qed.

(** What the inputs and the transitions contribute to <phi, u>. *)
Definition t_in1 (D K : nat) (nuA : nat -> nat -> vec) (u_in : option in_moments) (u0 : rows) (n : nat) : R :=
  match u_in with None => 0 | Some (z, _) => innerv D (fun i => rsum K (fun j => nuA n i (D + j)%nat * z n j)) (u0 (S n)) end.
Definition t_in2 (D K : nat) (nuAA : nat -> nat -> mat) (u_in : option in_moments) (u0 : rows) (n : nat) : R :=
  match u_in with None => 0
  | Some (z, _) => innerv D (fun i => rsum K (fun j => rsum D (fun d => nuAA n d i (D + j)%nat) * z n j)) (u0 n) end.

Lemma sum_shift : forall M (f : nat -> R) (g : nat -> R), f O = 0 -> (forall n, (n < M)%nat -> f (S n) = g n) -> rsum (S M) f = rsum M g.
Proof. intros M f g H0 H. rewrite rsum_S_l, H0, Rplus_0_l. now apply rsum_ext. Qed.
Lemma sum_last : forall M (f : nat -> R) (g : nat -> R), f M = 0 -> (forall n, (n < M)%nat -> f n = g n) -> rsum (S M) f = rsum M g.
Proof. intros M f g H0 H. change (rsum (S M) f) with (rsum M f + f M). rewrite H0, Rplus_0_r. now apply rsum_ext. Qed.
Lemma sum_first : forall M (f : nat -> R), (forall n, (n < M)%nat -> f (S n) = 0) -> rsum (S M) f = f O.
Proof. intros M f H. rewrite rsum_S_l, (rsum_zero M) by exact H. lra. Qed.

Lemma phi_dot : forall N D K Lmu muLmu L ld nuA nuAA nu lnu u_in u0 u1 u2, (1 <= N)%nat ->
  chain_dot N D (gmc_phi N D K (Lmu, muLmu, L, ld) (nuA, nuAA, nu, lnu) u_in) (u0, u1, u2) =
  innerv D Lmu (u0 O) + -0.5 * innerm D L (u1 O) +
  (rsum (N - 1) (fun n => t_in1 D K nuA u_in u0 n) - rsum (N - 1) (fun n => t_in2 D K nuAA u_in u0 n)
   + rsum (N - 1) (fun n => -0.5 * rsum D (fun i => nu n i * u1 (S n) i i))
   + rsum (N - 1) (fun n => -0.5 * innerm D (fun i j => rsum D (fun d => nuAA n d i j)) (u1 n))
   + rsum (N - 1) (fun n => innerm D (transpose (nuA n)) (u2 n))).
Proof.
  intros N D K Lmu muLmu L ld nuA nuAA nu lnu u_in u0 u1 u2 HN. destruct N as [|M]; [lia|]. replace (S M - 1)%nat with M by lia.
  unfold chain_dot, gmc_phi. replace (S M - 1)%nat with M by lia.
  set (phi0 := match u_in with None => _ | Some (z, _) => _ end).
  match goal with |- ?a + rsum ?k (fun n => innerm D (@?f n) _) + ?b = ?c =>
    set (phi1 := f); change (a + rsum k (fun n => innerm D (phi1 n) (u1 n)) + b = c) end.
  assert (E0 : rsum (S M) (fun n => innerv D (phi0 n) (u0 n)) = innerv D Lmu (u0 O) + rsum M (fun n => t_in1 D K nuA u_in u0 n) - rsum M (fun n => t_in2 D K nuAA u_in u0 n)).
  { set (a0 := fun n => if (n =? 0)%nat then innerv D Lmu (u0 O) else 0).
    set (a1 := fun n => match n with O => 0 | S p => t_in1 D K nuA u_in u0 p end).
    set (a2 := fun n => if (n <? M)%nat then t_in2 D K nuAA u_in u0 n else 0).
    transitivity (rsum (S M) a0 + rsum (S M) a1 - rsum (S M) a2).
    - rewrite <- rsum_plus, <- rsum_minus. apply rsum_ext. intros n Hn. unfold a0, a1, a2, t_in1, t_in2, phi0. destruct u_in as [[z zz]|].
      + destruct n as [|n].
        * destruct (Nat.ltb_spec 0 M); [rewrite innerv_minus|]; unfold put; cbn [Nat.eqb]; change (fun i => Lmu i) with Lmu; lra.
        * rewrite (proj2 (Nat.ltb_lt (S n) (S M)) Hn). destruct (Nat.ltb_spec (S n) M); rewrite ?innerv_minus, ?innerv_plus; unfold put; cbn [Nat.eqb]; rewrite !innerv_0; lra.
      + unfold put. destruct n as [|n]; cbn [Nat.eqb]; rewrite ?innerv_0; destruct (_ <? _)%nat; lra.
    - f_equal; [f_equal|].
      + unfold a0. now rewrite (sum_first M).
      + now apply sum_shift.
      + apply sum_last; unfold a2; [now rewrite Nat.ltb_irrefl|]. intros n Hn. now rewrite (proj2 (Nat.ltb_lt n M) Hn). }
  assert (E1 : rsum (S M) (fun n => innerm D (phi1 n) (u1 n)) = -0.5 * innerm D L (u1 O) + rsum M (fun n => -0.5 * rsum D (fun i => nu n i * u1 (S n) i i))
     + rsum M (fun n => -0.5 * innerm D (fun i j => rsum D (fun d => nuAA n d i j)) (u1 n))).
  { set (a0 := fun n => if (n =? 0)%nat then -0.5 * innerm D L (u1 O) else 0).
    set (a1 := fun n => match n with O => 0 | S p => -0.5 * rsum D (fun i => nu p i * u1 (S p) i i) end).
    set (a2 := fun n => if (n <? M)%nat then -0.5 * innerm D (fun i j => rsum D (fun d => nuAA n d i j)) (u1 n) else 0).
    transitivity (rsum (S M) a0 + rsum (S M) a1 + rsum (S M) a2).
    - rewrite <- !rsum_plus. apply rsum_ext. intros n Hn. unfold a0, a1, a2, phi1. destruct n as [|n].
      + unfold put. cbn [Nat.eqb]. destruct (Nat.ltb_spec 0 M); rewrite ?innerm_plus, !innerm_scal_l; [|lra].
        change (fun i j => -0.5 * rsum D (fun d => nuAA O d i j)) with (scal_m (-0.5) (fun i j => rsum D (fun d => nuAA O d i j))).
        rewrite innerm_scal_l. lra.
      + rewrite (proj2 (Nat.ltb_lt (S n) (S M)) Hn). cbn [Nat.eqb]. destruct (Nat.ltb_spec (S n) M); rewrite ?innerm_plus, !innerm_scal_l, innerm_diag; [|lra].
        change (fun i j => -0.5 * rsum D (fun d => nuAA (S n) d i j)) with (scal_m (-0.5) (fun i j => rsum D (fun d => nuAA (S n) d i j))).
        rewrite innerm_scal_l. lra.
    - f_equal; [f_equal|].
      + unfold a0. now rewrite (sum_first M).
      + now apply sum_shift.
      + apply sum_last; unfold a2; [now rewrite Nat.ltb_irrefl|]. intros n Hn. now rewrite (proj2 (Nat.ltb_lt n M) Hn). }
  rewrite E0, E1. lra.
Qed.

(** The term of log nu, and of the inputs, in the log-normaliser. *)
Definition g_nu (N D : nat) (l : tarray) : R := rsum (N - 1) (fun n => rsum D (fun d => tarray_at l n d)).
Lemma rsum_id1 : forall k (v : nat -> R), rsum k (fun d => v (if (k =? 1)%nat then O else d)) = rsum k v.
Proof. intros k v. apply rsum_ext. intros d Hd. destruct (Nat.eqb_spec k 1) as [->|]; [|reflexivity]. f_equal. lia. Qed.
Lemma INR_pred : forall N, (1 <= N)%nat -> INR N - 1 = INR (N - 1).
Proof. intros N H. rewrite minus_INR by exact H. reflexivity. Qed.
Lemma cgf_core : forall a b l N D, (1 <= N)%nat -> tarray_full N D l ->
  gmc_cgf_core a b l N = Ok (-0.5 * a + (0.5 * b + 0.5 * g_nu N D l)).
Proof.
  intros a b l N D HN H. unfold gmc_cgf_core, g_nu. destruct l as [v|k v|m k v]; cbn in H; [contradiction| |].
  - subst k. cbn [bind tarray_at]. rewrite rsum_id1, rsum_const, <- INR_pred by exact HN. do 2 f_equal. ring.
  - destruct H as [-> H]. destruct (Nat.eqb_spec m 1) as [->|Hm].
    + cbn [bind rsum tarray_at Nat.eqb]. rewrite (rsum_id1 D (v O)), rsum_const, <- INR_pred by exact HN. do 2 f_equal. ring.
    + destruct H as [H| ->]; [contradiction|]. cbn [bind]. do 4 f_equal. apply rsum_ext. intros n Hn. cbn [tarray_at].
      rewrite (proj2 (Nat.eqb_neq _ _) Hm). now rewrite (rsum_id1 D (v n)).
Qed.
Definition g_in (N D K : nat) (nuAA : nat -> nat -> mat) (u_in : option in_moments) : R :=
  match u_in with None => 0
  | Some (_, zz) => rsum (N - 1) (fun n => -0.5 * rsum K (fun i => rsum K (fun j =>
        zz n i j * rsum D (fun d => nuAA n d (D + i)%nat (D + j)%nat)))) end.
(** g_inputs has the shape (N-1,), or (1,) or () when nothing in it depends on the time. *)
Definition in_shape (N D K : nat) (nuAA : nat -> nat -> mat) (u_in : option (in_moments * list nat)) : Prop :=
  match u_in with None => True
  | Some ((_, zz), s) => s = [(N - 1)%nat] \/ (s = [] \/ s = [1%nat]) /\
      forall n i j d, (n < N - 1)%nat -> (i < K)%nat -> (j < K)%nat -> (d < D)%nat ->
        zz n i j = zz O i j /\ nuAA n d (D + i)%nat (D + j)%nat = nuAA O d (D + i)%nat (D + j)%nat
  end.
Definition forget (u_in : option (in_moments * list nat)) : option in_moments := match u_in with None => None | Some (x, _) => Some x end.
Lemma gmc_cgf_eq : forall N D K Lmu muLmu L ld nuA nuAA nu lnu u_in, (1 <= N)%nat -> tarray_full N D lnu ->
  in_shape N D K nuAA u_in ->
  gmc_cgf N D K (Lmu, muLmu, L, ld) (nuA, nuAA, nu, lnu) u_in
  = Ok (-0.5 * muLmu + (0.5 * ld + 0.5 * g_nu N D lnu) + g_in N D K nuAA (forget u_in)).
Proof.
  intros N D K Lmu muLmu L ld nuA nuAA nu lnu u_in HN HL HS. unfold gmc_cgf. rewrite (cgf_core muLmu ld lnu N D HN HL). cbn [bind].
  destruct u_in as [[[z zz] s]|]; cbn [forget g_in]; [|now rewrite Rplus_0_r].
  set (g := fun n => -0.5 * rsum K _). cbn in HS.
  assert (C : (s = [] \/ s = [1%nat]) -> (forall n i j d, (n < N - 1)%nat -> (i < K)%nat -> (j < K)%nat -> (d < D)%nat ->
        zz n i j = zz O i j /\ nuAA n d (D + i)%nat (D + j)%nat = nuAA O d (D + i)%nat (D + j)%nat) -> rsum (N - 1) g = g O * (INR N - 1)).
  { intros _ H. rewrite (rsum_ext (N - 1) g (fun _ => g O)).
    - rewrite rsum_const, INR_pred by exact HN. ring.
    - intros n Hn. unfold g. f_equal. apply rsum_ext. intros i Hi. apply rsum_ext. intros j Hj.
      rewrite (rsum_ext D (fun d => nuAA n d (D + i)%nat (D + j)%nat) (fun d => nuAA O d (D + i)%nat (D + j)%nat)).
      + destruct D as [|D']; [cbn; ring|]. now rewrite (proj1 (H n i j O Hn Hi Hj ltac:(lia))).
      + intros d Hd. apply (H n i j d Hn Hi Hj Hd). }
  destruct HS as [->|[H1 H2]].
  - destruct (Nat.eqb_spec (N - 1) 1) as [E|E].
    + do 2 f_equal. apply rsum_ext. intros n Hn. rewrite INR_pred, E by exact HN. change (INR 1) with 1. unfold g. ring.
    + reflexivity.
  - rewrite (C H1 H2). destruct H1 as [-> | ->]; cbn [Nat.eqb]; [reflexivity|]. cbn [rsum]. f_equal. unfold g. lra.
Qed.

(** <message to (A, nu), moments of (A, nu)> for transition n and row d. *)
Definition cols (D K : nat) (u_in : option in_moments) : nat := match u_in with None => D | Some _ => (D + K)%nat end.
Definition dyn_pair (D K : nat) (u : chain) (u_in : option in_moments) (u_A : A_moments) (n d : nat) : R :=
  let '(m0, m1, m2, m3) := gmc_message_A D u u_in n d in
  let '(nuA, nuAA, nu, lnu) := u_A in
  innerv (cols D K u_in) m0 (nuA n d) + innerm (cols D K u_in) m1 (nuAA n d) + m2 * nu n d + m3 * tarray_at lnu n d.
Lemma cat_l : forall D a b i, (i < D)%nat -> cat_v D a b i = a i.
Proof. intros. unfold cat_v. now rewrite (proj2 (Nat.ltb_lt i D) H). Qed.
Lemma cat_r : forall D a b i, cat_v D a b (D + i)%nat = b i.
Proof. intros. unfold cat_v. rewrite (proj2 (Nat.ltb_ge (D + i) D)) by lia. f_equal. lia. Qed.

Lemma dyn_sum : forall D K u0 u1 u2 u_in nuA nuAA nu lnu n,
  (forall d, (d < D)%nat -> symmetric (cols D K u_in) (nuAA n d)) ->
  rsum D (dyn_pair D K (u0, u1, u2) u_in (nuA, nuAA, nu, lnu) n) =
  t_in1 D K nuA u_in u0 n - t_in2 D K nuAA u_in u0 n + -0.5 * rsum D (fun i => nu n i * u1 (S n) i i)
  + -0.5 * innerm D (fun i j => rsum D (fun d => nuAA n d i j)) (u1 n) + innerm D (transpose (nuA n)) (u2 n)
  + 0.5 * rsum D (tarray_at lnu n)
  + match u_in with None => 0 | Some (_, zz) => -0.5 * rsum K (fun i => rsum K (fun j =>
        zz n i j * rsum D (fun d => nuAA n d (D + i)%nat (D + j)%nat))) end.
Proof.
  intros D K u0 u1 u2 u_in nuA nuAA nu lnu n Sy.
  assert (P0 : rsum D (fun d => innerv D (fun i => u2 n i d) (nuA n d)) = innerm D (transpose (nuA n)) (u2 n)).
  { unfold innerv, innerm, transpose. rewrite rsum_swap. apply rsum_ext. intros i Hi. apply rsum_ext. intros; ring. }
  assert (P1 : rsum D (fun d => innerm D (fun i j => -0.5 * u1 n i j) (nuAA n d)) = -0.5 * innerm D (fun i j => rsum D (fun d => nuAA n d i j)) (u1 n)).
  { unfold innerm. rewrite rsum_swap, <- rsum_scal. apply rsum_ext. intros i Hi. rewrite rsum_swap, <- rsum_scal. apply rsum_ext. intros j Hj.
    rewrite <- rsum_scal_r, <- rsum_scal. apply rsum_ext. intros; ring. }
  assert (P2 : rsum D (fun d => -0.5 * u1 (S n) d d * nu n d) = -0.5 * rsum D (fun i => nu n i * u1 (S n) i i)).
  { rewrite <- rsum_scal. apply rsum_ext. intros; ring. }
  destruct u_in as [[z zz]|]; cbn [cols t_in1 t_in2] in *.
  - rewrite (rsum_ext D _ (fun d =>
      innerv D (fun i => u2 n i d) (nuA n d) + u0 (S n) d * rsum K (fun j => nuA n d (D + j)%nat * z n j)
      + innerm D (fun i j => -0.5 * u1 n i j) (nuAA n d) - rsum D (fun i => u0 n i * rsum K (fun j => nuAA n d i (D + j)%nat * z n j))
      + -0.5 * rsum K (fun i => rsum K (fun j => zz n i j * nuAA n d (D + i)%nat (D + j)%nat))
      + -0.5 * u1 (S n) d d * nu n d + 0.5 * tarray_at lnu n d)).
    + rewrite !rsum_plus, rsum_minus, !rsum_plus, P0, P1, P2, !rsum_scal.
      assert (Q1 : rsum D (fun d => u0 (S n) d * rsum K (fun j => nuA n d (D + j)%nat * z n j)) = innerv D (fun i => rsum K (fun j => nuA n i (D + j)%nat * z n j)) (u0 (S n))).
      { apply rsum_ext. intros; ring. }
      assert (Q2 : rsum D (fun d => rsum D (fun i => u0 n i * rsum K (fun j => nuAA n d i (D + j)%nat * z n j)))
        = innerv D (fun i => rsum K (fun j => rsum D (fun d => nuAA n d i (D + j)%nat) * z n j)) (u0 n)).
      { unfold innerv. rewrite rsum_swap. apply rsum_ext. intros i Hi. rewrite rsum_scal, Rmult_comm. f_equal. rewrite rsum_swap.
        apply rsum_ext. intros j Hj. now rewrite rsum_scal_r. }
      assert (Q3 : rsum D (fun d => rsum K (fun i => rsum K (fun j => zz n i j * nuAA n d (D + i)%nat (D + j)%nat)))
        = rsum K (fun i => rsum K (fun j => zz n i j * rsum D (fun d => nuAA n d (D + i)%nat (D + j)%nat)))).
      { rewrite rsum_swap. apply rsum_ext. intros i Hi. rewrite rsum_swap. apply rsum_ext. intros j Hj. now rewrite rsum_scal. }
      rewrite Q1, Q2, Q3. change (rsum D (fun x => tarray_at lnu n x)) with (rsum D (tarray_at lnu n)). lra.
    + intros d Hd. unfold dyn_pair, gmc_message_A, cols.
      assert (R0 : innerv (D + K) (cat_v D (fun i => u2 n i d) (fun j => u0 (S n) d * z n j)) (nuA n d)
        = innerv D (fun i => u2 n i d) (nuA n d) + u0 (S n) d * rsum K (fun j => nuA n d (D + j)%nat * z n j)).
      { unfold innerv. rewrite rsum_app. f_equal; [apply rsum_ext; intros i Hi; now rewrite cat_l|].
        rewrite <- rsum_scal. apply rsum_ext. intros j Hj. rewrite cat_r. ring. }
      set (row1 := fun i => cat_v D (fun j => -0.5 * u1 n i j) (fun j => -0.5 * u0 n i * z n j)).
      set (row2 := fun i => cat_v D (transpose (fun i j => -0.5 * u0 n i * z n j) i) (fun j => -0.5 * zz n i j)).
      assert (R1 : innerm (D + K) (fun i => if (i <? D)%nat then row1 i else row2 (i - D)%nat) (nuAA n d)
        = innerm D (fun i j => -0.5 * u1 n i j) (nuAA n d) - rsum D (fun i => u0 n i * rsum K (fun j => nuAA n d i (D + j)%nat * z n j))
          + -0.5 * rsum K (fun i => rsum K (fun j => zz n i j * nuAA n d (D + i)%nat (D + j)%nat))).
      { unfold innerm at 1. rewrite rsum_app.
        rewrite (rsum_ext D _ (fun i => rsum D (fun j => -0.5 * u1 n i j * nuAA n d i j) + -0.5 * (u0 n i * rsum K (fun j => nuAA n d i (D + j)%nat * z n j)))).
        2: { intros i Hi. rewrite (proj2 (Nat.ltb_lt i D) Hi), rsum_app. f_equal.
          - apply rsum_ext. intros j Hj. unfold row1. now rewrite cat_l.
          - rewrite <- !rsum_scal. apply rsum_ext. intros j Hj. unfold row1. rewrite cat_r. ring. }
        rewrite (rsum_ext K _ (fun i => -0.5 * rsum D (fun j => u0 n j * (nuAA n d j (D + i)%nat * z n i)) + -0.5 * rsum K (fun j => zz n i j * nuAA n d (D + i)%nat (D + j)%nat))).
        2: { intros i Hi. rewrite (proj2 (Nat.ltb_ge (D + i) D)) by lia. replace (D + i - D)%nat with i by lia. rewrite rsum_app. f_equal.
          - rewrite <- rsum_scal. apply rsum_ext. intros j Hj. unfold row2. rewrite cat_l by exact Hj. unfold transpose.
            rewrite (Sy d Hd (D + i)%nat j) by lia. ring.
          - rewrite <- !rsum_scal. apply rsum_ext. intros j Hj. unfold row2. rewrite cat_r. ring. }
        rewrite !rsum_plus, !rsum_scal. unfold innerm.
        assert (S1 : rsum K (fun i => rsum D (fun j => u0 n j * (nuAA n d j (D + i)%nat * z n i))) = rsum D (fun i => u0 n i * rsum K (fun j => nuAA n d i (D + j)%nat * z n j))).
        { rewrite rsum_swap. apply rsum_ext. intros i Hi. now rewrite rsum_scal. }
        rewrite S1. lra. }
      rewrite R0. match goal with |- context [innerm (D + K) ?m (nuAA n d)] => change m with (fun i => if (i <? D)%nat then row1 i else row2 (i - D)%nat) end. set (gg := innerm (D + K) (fun i => if (i <? D)%nat then row1 i else row2 (i - D)%nat) (nuAA n d)) in *. match goal with |- context [innerm (D + K) ?m (nuAA n d)] => change (innerm (D + K) m (nuAA n d)) with gg end. rewrite R1. ring.
  - rewrite (rsum_ext D _ (fun d => innerv D (fun i => u2 n i d) (nuA n d) + innerm D (fun i j => -0.5 * u1 n i j) (nuAA n d)
        + -0.5 * u1 (S n) d d * nu n d + 0.5 * tarray_at lnu n d)) by reflexivity.
    rewrite !rsum_plus, P0, P1, P2, rsum_scal. change (rsum D (fun x => tarray_at lnu n x)) with (rsum D (tarray_at lnu n)). lra.
Qed.

(** phi.u + g: the initial state and all the transitions. *)
Lemma gmc_total : forall N D K u0 u1 u2 Lmu muLmu L ld nuA nuAA nu lnu u_in, (1 <= N)%nat -> tarray_full N D lnu ->
  in_shape N D K nuAA u_in ->
  (forall n d, (n < N - 1)%nat -> (d < D)%nat -> symmetric (cols D K (forget u_in)) (nuAA n d)) ->
  exists g, gmc_cgf N D K (Lmu, muLmu, L, ld) (nuA, nuAA, nu, lnu) u_in = Ok g /\
  chain_dot N D (gmc_phi N D K (Lmu, muLmu, L, ld) (nuA, nuAA, nu, lnu) (forget u_in)) (u0, u1, u2) + g =
  innerv D (u0 O) Lmu + -0.5 * muLmu + innerm D (scal_m (-0.5) (u1 O)) L + 0.5 * ld
  + rsum (N - 1) (fun n => rsum D (dyn_pair D K (u0, u1, u2) (forget u_in) (nuA, nuAA, nu, lnu) n)).
Proof.
  intros N D K u0 u1 u2 Lmu muLmu L ld nuA nuAA nu lnu u_in HN HL HS Sy.
  rewrite (gmc_cgf_eq N D K Lmu muLmu L ld nuA nuAA nu lnu u_in HN HL HS). eexists. split; [reflexivity|].
  rewrite phi_dot by exact HN. erewrite (rsum_ext (N - 1) (fun n => rsum D _)).
  2: { intros n Hn. cbn beta. apply dyn_sum. intros d Hd. now apply Sy. }
  rewrite !rsum_plus, rsum_minus, innerm_scal_l, (innerm_comm D (u1 O)), (innerv_comm D (u0 O)). rewrite !rsum_scal. unfold g_nu, g_in.
  change (rsum (N - 1) (fun n => rsum D (fun d => tarray_at lnu n d))) with (rsum (N - 1) (fun n => rsum D (tarray_at lnu n))).
  change (rsum (N - 1) (fun n => t_in1 D K nuA (forget u_in) u0 n)) with (rsum (N - 1) (t_in1 D K nuA (forget u_in) u0)).
  change (rsum (N - 1) (fun n => t_in2 D K nuAA (forget u_in) u0 n)) with (rsum (N - 1) (t_in2 D K nuAA (forget u_in) u0)).
  destruct (forget u_in) as [[z zz]|]; [rewrite !rsum_scal; lra|]. change (t_in1 D K nuA None u0) with (fun _ : nat => 0). change (t_in2 D K nuAA None u0) with (fun _ : nat => 0). rewrite !rsum_0. lra.
Qed.

(** Message to (mu, Lambda).  The log-normaliser is defined when log nu has a full
    last axis (see C21_gmc_nu_axis_refuted). *)
Theorem C20_gmc_initial : forall N D K u f nuA nuAA nu lnu u_in, (1 <= N)%nat -> tarray_full N D lnu ->
  in_shape N D K nuAA u_in ->
  (forall n d, (n < N - 1)%nat -> (d < D)%nat -> symmetric (cols D K (forget u_in)) (nuAA n d)) ->
  exists rest, forall Lmu muLmu L ld, exists g,
  let u_mL := (Lmu, muLmu, L, ld) in
  gmc_cgf N D K u_mL (nuA, nuAA, nu, lnu) u_in = Ok g /\
  let '(m0, m1, m2, m3) := gmc_message_mL u in
  chain_dot N D (gmc_phi N D K u_mL (nuA, nuAA, nu, lnu) (forget u_in)) u + g + f
  = innerv D m0 Lmu + m1 * muLmu + innerm D m2 L + m3 * ld + rest.
Proof.
  intros N D K [[u0 u1] u2] f nuA nuAA nu lnu u_in HN HL HS Sy.
  exists (rsum (N - 1) (fun n => rsum D (dyn_pair D K (u0, u1, u2) (forget u_in) (nuA, nuAA, nu, lnu) n)) + f).
  intros Lmu muLmu L ld. destruct (gmc_total N D K u0 u1 u2 Lmu muLmu L ld nuA nuAA nu lnu u_in HN HL HS Sy) as [g [E H]].
  exists g. split; [exact E|]. cbn [gmc_message_mL]. rewrite H. ring.
Qed.
Print Assumptions C20_gmc_initial.

(** Messages to (A, nu): one for every transition and row.  The second moments of A are
    symmetric matrices. *)
Theorem C20_gmc_dynamics : forall N D K u f u_mL (u_in : option (in_moments * list nat)), (1 <= N)%nat ->
  exists rest, forall nuA nuAA nu lnu, tarray_full N D lnu -> in_shape N D K nuAA u_in ->
  (forall n d, (n < N - 1)%nat -> (d < D)%nat -> symmetric (cols D K (forget u_in)) (nuAA n d)) ->
  exists g,
  gmc_cgf N D K u_mL (nuA, nuAA, nu, lnu) u_in = Ok g /\
  chain_dot N D (gmc_phi N D K u_mL (nuA, nuAA, nu, lnu) (forget u_in)) u + g + f
  = rsum (N - 1) (fun n => rsum D (fun d =>
      let '(m0, m1, m2, m3) := gmc_message_A D u (forget u_in) n d in
      innerv (cols D K (forget u_in)) m0 (nuA n d) + innerm (cols D K (forget u_in)) m1 (nuAA n d)
      + m2 * nu n d + m3 * tarray_at lnu n d)) + rest.
Proof.
  intros N D K [[u0 u1] u2] f [[[Lmu muLmu] L] ld] u_in HN.
  exists (innerv D (u0 O) Lmu + -0.5 * muLmu + innerm D (scal_m (-0.5) (u1 O)) L + 0.5 * ld + f).
  intros nuA nuAA nu lnu HL HS Sy.
  destruct (gmc_total N D K u0 u1 u2 Lmu muLmu L ld nuA nuAA nu lnu u_in HN HL HS Sy) as [g [E H]].
  exists g. split; [exact E|]. rewrite H. unfold dyn_pair. ring.
Qed.
Print Assumptions C20_gmc_dynamics.

(** Messages to the inputs: one for every transition. *)
Theorem C20_gmc_inputs : forall N D K u f u_mL nuA nuAA nu lnu, (1 <= N)%nat -> tarray_full N D lnu ->
  exists rest, forall z zz s, in_shape N D K nuAA (Some ((z, zz), s)) -> exists g,
  gmc_cgf N D K u_mL (nuA, nuAA, nu, lnu) (Some ((z, zz), s)) = Ok g /\
  chain_dot N D (gmc_phi N D K u_mL (nuA, nuAA, nu, lnu) (Some (z, zz))) u + g + f
  = rsum (N - 1) (fun n => innerv K (fst (gmc_message_in D u (nuA, nuAA, nu, lnu) n)) (z n)
                         + innerm K (snd (gmc_message_in D u (nuA, nuAA, nu, lnu) n)) (zz n)) + rest.
Proof.
  intros N D K [[u0 u1] u2] f [[[Lmu muLmu] L] ld] nuA nuAA nu lnu HN HL.
  eexists. intros z zz s HS. rewrite (gmc_cgf_eq N D K Lmu muLmu L ld nuA nuAA nu lnu (Some ((z, zz), s)) HN HL HS).
  eexists. split; [reflexivity|]. rewrite phi_dot by exact HN. cbn [forget g_in gmc_message_in fst snd].
  rewrite rsum_plus.
  assert (A1 : rsum (N - 1) (fun n => t_in1 D K nuA (Some (z, zz)) u0 n) - rsum (N - 1) (fun n => t_in2 D K nuAA (Some (z, zz)) u0 n)
    = rsum (N - 1) (fun n => innerv K (fun k => rsum D (fun d => nuA n d (D + k)%nat * u0 (S n) d) - rsum D (fun i => rsum D (fun d => nuAA n d i (D + k)%nat) * u0 n i)) (z n))).
  { rewrite <- rsum_minus. apply rsum_ext. intros n Hn. cbn [t_in1 t_in2]. rewrite innerv_minus. unfold innerv. f_equal.
    - transitivity (rsum D (fun i => rsum K (fun j => nuA n i (D + j)%nat * z n j * u0 (S n) i))); [apply rsum_ext; intros; now rewrite rsum_scal_r|].
      rewrite rsum_swap. apply rsum_ext. intros k Hk. rewrite <- rsum_scal_r. apply rsum_ext. intros; ring.
    - transitivity (rsum D (fun i => rsum K (fun j => rsum D (fun d => nuAA n d i (D + j)%nat) * z n j * u0 n i))); [apply rsum_ext; intros; now rewrite rsum_scal_r|].
      rewrite rsum_swap. apply rsum_ext. intros k Hk. rewrite <- rsum_scal_r. apply rsum_ext. intros; ring. }
  rewrite A1.
  assert (A2 : rsum (N - 1) (fun n => -0.5 * rsum K (fun i => rsum K (fun j => zz n i j * rsum D (fun d => nuAA n d (D + i)%nat (D + j)%nat))))
    = rsum (N - 1) (fun n => innerm K (fun k l => -0.5 * rsum D (fun d => nuAA n d (D + k)%nat (D + l)%nat)) (zz n))).
  { apply rsum_ext. intros n Hn. unfold innerm. rewrite <- rsum_scal. apply rsum_ext. intros i Hi. rewrite <- rsum_scal. apply rsum_ext. intros; ring. }
  rewrite A2.
  match goal with |- ?a = _ => instantiate (1 := innerv D Lmu (u0 O) + -0.5 * innerm D L (u1 O) +
    (rsum (N - 1) (fun n => -0.5 * rsum D (fun i => nu n i * u1 (S n) i i))
     + rsum (N - 1) (fun n => -0.5 * innerm D (fun i j => rsum D (fun d => nuAA n d i j)) (u1 n))
     + rsum (N - 1) (fun n => innerm D (transpose (nuA n)) (u2 n))) + (-0.5 * muLmu + (0.5 * ld + 0.5 * g_nu N D lnu)) + f) end.
  ring.
Qed.
Print Assumptions C20_gmc_inputs.

(** ** C21 *)
Lemma mdet_diag : forall D a, (forall i, (i < D)%nat -> 0 < a i) -> 0 < mdet D (diag a) /\ ln (mdet D (diag a)) = rsum D (fun i => ln (a i)).
Proof.
  intros D a H. rewrite mdet_tri.
  - rewrite (rsum_ext D (fun i => ln (a i)) (fun i => ln (diag a i i))) by (intros; unfold diag; now rewrite Nat.eqb_refl).
    assert (P : forall i, (i < D)%nat -> 0 < diag a i i) by (intros; unfold diag; rewrite Nat.eqb_refl; auto).
    split; [now apply prodn_pos|now apply ln_prodn].
  - split; intros; unfold diag; [|rewrite Nat.eqb_refl; auto]. rewrite (proj2 (Nat.eqb_neq i j)) by lia. reflexivity.
Qed.
Lemma bilinear_diag : forall D a x, bilinear D (diag a) x x = rsum D (fun i => a i * x i ^ 2).
Proof.
  intros. unfold bilinear. apply rsum_ext. intros i Hi. rewrite (rsum_ext D _ (fun j => if (j =? i)%nat then a i * x i ^ 2 else 0)).
  - now apply (rsum_single D i (fun _ => a i * x i ^ 2)).
  - intros j Hj. unfold diag. rewrite Nat.eqb_sym. destruct (Nat.eqb_spec j i) as [->|]; ring.
Qed.

(** The moments of fixed parents. *)
Definition fixed_A (D : nat) (A B : nat -> mat) (nu : tarray) : A_moments :=
  A_nu_moments (fun n d => gaussianmoments_fixed (dyn_row D A B n d)) nu (tarray_map ln nu).
Lemma tarray_ln : forall nu n d, tarray_at (tarray_map ln nu) n d = ln (tarray_at nu n d).
Proof. intros [v|k v|m k v] n d; reflexivity. Qed.
Lemma tarray_ln_full : forall N D nu, tarray_full N D nu -> tarray_full N D (tarray_map ln nu).
Proof. intros N D [v|k v|m k v]; exact (fun H => H). Qed.
Definition fixed_in (z : rows) : in_moments := (z, fun n => outerv (z n) (z n)).

Lemma dyn_fixed : forall D K A B nu z x n d, (d < D)%nat ->
  dyn_pair D K (gmcmoments_fixed x) (Some (fixed_in z)) (fixed_A D A B nu) n d
  = -0.5 * tarray_at nu n d * (x (S n) d - (mvdot D (A n) (x n) d + rsum K (fun j => B n d j * z n j))) ^ 2 + 0.5 * ln (tarray_at nu n d).
Proof.
  intros D K A B nu z x n d Hd. unfold dyn_pair, gmcmoments_fixed, fixed_A, A_nu_moments, wrap_gg_moments, to_gg_moments, gaussianmoments_fixed, fixed_in, gmc_message_A, cols. cbn [fst snd]. rewrite tarray_ln.
  set (v := tarray_at nu n d). set (w := cat_v D (x n) (z n)). set (a := dyn_row D A B n d).
  set (r := mvdot D (A n) (x n) d + rsum K (fun j => B n d j * z n j)).
  assert (R : innerv (D + K) w a = r).
  { unfold innerv, r, mvdot. rewrite rsum_app. f_equal; apply rsum_ext; intros i Hi; unfold w, a, dyn_row; [rewrite !cat_l by exact Hi|rewrite !cat_r]; ring. }
  assert (M0 : forall m0, (forall i, (i < D + K)%nat -> m0 i = x (S n) d * w i) -> innerv (D + K) m0 (scal_v v a) = v * (x (S n) d * r)).
  { intros m0 H. rewrite <- R. unfold innerv. rewrite <- !rsum_scal. apply rsum_ext. intros i Hi. rewrite (H i Hi). unfold scal_v. ring. }
  assert (M1 : forall m1 : mat, (forall i j, (i < D + K)%nat -> (j < D + K)%nat -> m1 i j = -0.5 * (w i * w j)) -> innerm (D + K) m1 (scal_m v (outerv a a)) = -0.5 * v * (r * r)).
  { intros m1 H. rewrite <- R at 1. unfold innerm, innerv. rewrite <- rsum_scal_r, <- rsum_scal. apply rsum_ext. intros i Hi.
    rewrite <- R. unfold innerv. rewrite <- !rsum_scal. apply rsum_ext. intros j Hj. rewrite (H i j Hi Hj). unfold scal_m, outerv. ring. }
  rewrite M0, M1.
  - unfold outerv. cbn [pow]. ring_simplify. lra.
  - intros i j Hi Hj. unfold w. destruct (Nat.ltb_spec i D) as [Li|Li], (Nat.ltb_spec j D) as [Lj|Lj]; unfold cat_v, outerv, transpose;
      rewrite ?(proj2 (Nat.ltb_lt i D)), ?(proj2 (Nat.ltb_lt j D)), ?(proj2 (Nat.ltb_ge i D)), ?(proj2 (Nat.ltb_ge j D)) by assumption; ring.
  - intros i Hi. unfold w, cat_v, outerv. destruct (i <? D)%nat; ring.
Qed.

(** For fixed mu, Lambda, A, B, inputs z and noise precisions nu of shape (D,), (1, D)
    or (N-1, D). *)
Theorem C21_gaussian_markov_chain : forall N D K mu Lambda A B nu z x, (1 <= N)%nat -> posdef D Lambda ->
  tarray_full N D nu -> (forall n d, (n < N - 1)%nat -> (d < D)%nat -> 0 < tarray_at nu n d) ->
  exists u_Lambda g,
    wishartmoments_fixed D Lambda = Ok u_Lambda /\
    let u_mL := wrap_gw_moments D (to_gg_moments (gaussianmoments_fixed mu)) u_Lambda in
    let u_A := A_nu_moments (fun n d => gaussianmoments_fixed (dyn_row D A B n d)) nu (tarray_map ln nu) in
    let u_in := (z, fun n => outerv (z n) (z n)) in
    gmc_cgf N D K u_mL u_A (Some (u_in, [(N - 1)%nat])) = Ok g /\
    let '(u, f) := gmc_fixed N D x in
    chain_dot N D (gmc_phi N D K u_mL u_A (Some u_in)) u + g + f
    = ln (chain_pdf N D K mu Lambda A B (tarray_at nu) z x).
Proof.
  intros N D K mu L A B nu z x HN P HF Hnu. destruct (wishart_parent D L P) as [Hd E]. exists (L, ln (mdet D L)).
  set (u_mL := wrap_gw_moments D (to_gg_moments (gaussianmoments_fixed mu)) (L, ln (mdet D L))).
  destruct (gmc_total N D K x (fun n => outerv (x n) (x n)) (fun n => outerv (x n) (x (S n)))
    (mvdot D L mu) (innerm D L (outerv mu mu)) (scal_m 1 L) (ln (mdet D L) + INR D * 0)
    (fun n d => scal_v (tarray_at nu n d) (dyn_row D A B n d))
    (fun n d => scal_m (tarray_at nu n d) (outerv (dyn_row D A B n d) (dyn_row D A B n d))) (fun n d => 1 * tarray_at nu n d) (tarray_map ln nu)
    (Some (fixed_in z, [(N - 1)%nat])) HN (tarray_ln_full N D nu HF) (or_introl eq_refl)) as [g [Eg H]].
  { intros n d _ _ i j _ _. unfold scal_m, outerv. ring. }
  exists g. split; [exact E|]. split; [exact Eg|]. unfold gmc_fixed. cbn [forget] in H.
  change (chain_dot N D (gmc_phi N D K u_mL (fixed_A D A B nu) (Some (fixed_in z))) (gmcmoments_fixed x) + g + -0.5 * INR N * INR D * ln (2 * PI) = ln (chain_pdf N D K mu L A B (tarray_at nu) z x)).
  change (chain_dot N D (gmc_phi N D K u_mL (fixed_A D A B nu) (Some (fixed_in z))) (gmcmoments_fixed x) + g =
    innerv D (x O) (mvdot D L mu) + -0.5 * innerm D L (outerv mu mu) + innerm D (scal_m (-0.5) (outerv (x O) (x O))) (scal_m 1 L) + 0.5 * (ln (mdet D L) + INR D * 0)
    + rsum (N - 1) (fun n => rsum D (dyn_pair D K (gmcmoments_fixed x) (Some (fixed_in z)) (fixed_A D A B nu) n))) in H.
  rewrite H. clear H Eg. unfold chain_pdf.
  set (mean := fun n i => mvdot D (A n) (x n) i + rsum K (fun j => B n i j * z n j)).
  assert (Pn : forall n, (n < N - 1)%nat -> 0 < normal_pdf D (mean n) (diag (tarray_at nu n)) (x (S n))).
  { intros n Hn. unfold normal_pdf. apply Rmult_lt_0_compat; [|apply exp_pos]. apply sqrt_lt_R0. apply Rdiv_lt_0_compat.
    - apply mdet_diag. intros; now apply Hnu.
    - apply pow_lt. pose proof PI_RGT_0. lra. }
  destruct (ln_rprod (N - 1) (fun n => normal_pdf D (mean n) (diag (tarray_at nu n)) (x (S n))) Pn) as [Q1 Q2].
  assert (Pz : 0 < normal_pdf D mu L (x O)).
  { unfold normal_pdf. apply Rmult_lt_0_compat; [|apply exp_pos]. apply sqrt_lt_R0, Rdiv_lt_0_compat; [exact Hd|apply pow_lt; pose proof PI_RGT_0; lra]. }
  pose proof (ln_mult _ _ Pz Q1) as LM.
  match goal with |- _ = ?r => change r with (ln (normal_pdf D mu L (x O) * rprod (N - 1) (fun n => normal_pdf D (mean n) (diag (tarray_at nu n)) (x (S n))))) end.
  rewrite LM, Q2, ln_normal by exact Hd. rewrite bilinear_sub by apply P.
  rewrite scal_m_1, innerm_scal_l, (innerm_comm D (outerv _ _)), !innerm_outer, <- bilinear_mv.
  rewrite (rsum_ext (N - 1) (fun n => rsum D _) (fun n => ln (normal_pdf D (mean n) (diag (tarray_at nu n)) (x (S n))) + INR D / 2 * ln (2 * PI))).
  - rewrite rsum_plus, rsum_const, <- INR_pred by exact HN. lra.
  - intros n Hn. rewrite ln_normal by (apply mdet_diag; intros; now apply Hnu).
    rewrite (proj2 (mdet_diag D (tarray_at nu n) (fun i Hi => Hnu n i Hn Hi))), bilinear_diag.
    rewrite (rsum_ext D _ (fun d => -0.5 * (tarray_at nu n d * (sub_v (x (S n)) (mean n)) d ^ 2) + 0.5 * ln (tarray_at nu n d))).
    + rewrite rsum_plus, !rsum_scal. lra.
    + intros d Hd'. rewrite dyn_fixed by exact Hd'. unfold sub_v, mean. ring.
Qed.
Print Assumptions C21_gaussian_markov_chain.
