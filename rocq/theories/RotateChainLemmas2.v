(** The objective of the rotation of a Gaussian Markov chain. *)
From Coq Require Import List Arith Lia Bool Reals Lra.
From Verif Require Import Base NumPy TensorLemmas Families FamiliesLemmas FamiliesLemmas2 Linalg MatBridge SpecLinalg LinalgLemmas Gaussian SpecGaussian GaussLemmas GaussAlg
  PGaussian PGaussian2 GaussGibbs Rotation PRotation BlockBanded GaussMarkov SpecGaussMarkov GaussMarkovLemmas PGaussMarkov RotateARD RotateChain SpecRotateChain RotateChainLemmas.
Import ListNotations.
Open Scope R_scope.

(** ** The statistics of the rotated chain *)
Definition rot_u (D : nat) (Rm : mat) (u : chain) : chain :=
  let '(u0, u1, u2) := u in
  ((fun n => mvdot D Rm (u0 n)), (fun n => dot3 D Rm (u1 n) (transpose Rm)), (fun n => dot3 D Rm (u2 n) (transpose Rm))).
Lemma width_le : forall D K u_in, (D <= width D K u_in)%nat.
Proof. intros D K [[z zz]|]; cbn; lia. Qed.

Lemma ext_XpXn_rot : forall D K Rm u u_in n i j, (i < width D K u_in)%nat -> (j < D)%nat ->
  ext_XpXn D (rot_u D Rm u) u_in n i j =
  rsum D (fun l => Rm j l * mvdot (width D K u_in) (block_diag D Rm) (fun k => ext_XpXn D u u_in n k l) i).
Proof.
  intros D K Rm [[X XX] XpXn] u_in n i j Hi Hj. pose proof (width_le D K u_in) as HM.
  transitivity (rsum D (fun l => Rm j l * (if (i <? D)%nat then rsum D (fun k => Rm i k * ext_XpXn D (X, XX, XpXn) u_in n k l) else ext_XpXn D (X, XX, XpXn) u_in n i l))).
  2:{ apply rsum_ext. intros l Hl. f_equal. unfold mvdot. symmetry. now apply (block_row D _ Rm i (fun k => ext_XpXn D (X, XX, XpXn) u_in n k l)). }
  cbn [rot_u ext_XpXn]. destruct u_in as [[z zz]|]; cbn [width] in Hi.
  - destruct (Nat.ltb_spec i D) as [H|H].
    + unfold dot3, mmdot, transpose. apply rsum_ext. intros l Hl. rewrite Rmult_comm. f_equal. apply rsum_ext. intros k Hk.
      now rewrite (proj2 (Nat.ltb_lt k D) Hk).
    + unfold mvdot. rewrite <- rsum_scal. apply rsum_ext. intros; ring.
  - rewrite (proj2 (Nat.ltb_lt i D) Hi). unfold dot3, mmdot, transpose. apply rsum_ext. intros l Hl. rewrite Rmult_comm. reflexivity.
Qed.
Lemma ext_XpXp_rot : forall D K Rm u u_in n,
  meq (width D K u_in) (ext_XpXp D (rot_u D Rm u) u_in n)
    (dot3 (width D K u_in) (block_diag D Rm) (ext_XpXp D u u_in n) (transpose (block_diag D Rm))).
Proof.
  intros D K Rm [[X XX] XpXn] u_in n i j Hi Hj. pose proof (width_le D K u_in) as HM. set (M := width D K u_in) in *.
  transitivity (if (j <? D)%nat
    then rsum D (fun k => Rm j k * (if (i <? D)%nat then rsum D (fun l => Rm i l * ext_XpXp D (X, XX, XpXn) u_in n l k) else ext_XpXp D (X, XX, XpXn) u_in n i k))
    else if (i <? D)%nat then rsum D (fun l => Rm i l * ext_XpXp D (X, XX, XpXn) u_in n l j) else ext_XpXp D (X, XX, XpXn) u_in n i j).
  2:{ unfold dot3. unfold mmdot at 1, transpose.
      transitivity (rsum M (fun k => block_diag D Rm j k * mmdot M (block_diag D Rm) (ext_XpXp D (X, XX, XpXn) u_in n) i k)).
      2:{ apply rsum_ext. intros; ring. }
      rewrite (block_row D M Rm j (fun k => mmdot M (block_diag D Rm) (ext_XpXp D (X, XX, XpXn) u_in n) i k) HM Hj).
      assert (E : forall k, mmdot M (block_diag D Rm) (ext_XpXp D (X, XX, XpXn) u_in n) i k =
        if (i <? D)%nat then rsum D (fun l => Rm i l * ext_XpXp D (X, XX, XpXn) u_in n l k) else ext_XpXp D (X, XX, XpXn) u_in n i k).
      { intros k. exact (block_row D M Rm i (fun l => ext_XpXp D (X, XX, XpXn) u_in n l k) HM Hi). }
      destruct (j <? D)%nat; [apply rsum_ext; intros k Hk; now rewrite E|now rewrite E]. }
  cbn [rot_u ext_XpXp]. unfold M in *. destruct u_in as [[z zz]|]; cbn [width] in *.
  - unfold transpose. destruct (Nat.ltb_spec i D) as [H|H], (Nat.ltb_spec j D) as [J|J].
    + unfold dot3, mmdot. apply rsum_ext. intros k Hk. rewrite (proj2 (Nat.ltb_lt k D) Hk), Rmult_comm. f_equal. apply rsum_ext. intros l Hl. now rewrite (proj2 (Nat.ltb_lt l D) Hl).
    + unfold mvdot. rewrite <- rsum_scal. apply rsum_ext. intros l Hl. rewrite (proj2 (Nat.ltb_lt l D) Hl). ring.
    + unfold mvdot. rewrite <- rsum_scal. apply rsum_ext. intros l Hl. rewrite (proj2 (Nat.ltb_lt l D) Hl). ring.
    + reflexivity.
  - rewrite (proj2 (Nat.ltb_lt i D) Hi), (proj2 (Nat.ltb_lt j D) Hj). unfold dot3, mmdot, transpose. apply rsum_ext. intros k Hk. rewrite Rmult_comm. reflexivity.
Qed.

(** ** One row of one transition, for unit noise *)
Lemma dyn_pair_unit : forall D K u u_in a n d,
  dyn_pair D K u u_in (unit_noise D a) n d =
  innerv (width D K u_in) (fun i => ext_XpXn D u u_in n i d) (fst (a n d)) - 0.5 * innerm (width D K u_in) (ext_XpXp D u u_in n) (snd (a n d))
  - 0.5 * snd (fst u) (S n) d d.
Proof.
  intros D K [[X XX] XpXn] u_in a n d. unfold dyn_pair, unit_noise, A_nu_moments, gmc_message_A. cbn [wrap_gg_moments to_gg_moments fst snd tarray_at].
  assert (T1' : forall M p q (x : vec), veq M p q -> innerv M p (scal_v 1 x) = innerv M q x).
  { intros M p q x E. apply rsum_ext. intros i Hi. rewrite (E i Hi). unfold scal_v. ring. }
  assert (T2' : forall M p q (x : mat), meq M p (fun i j => -0.5 * q i j) -> innerm M p (scal_m 1 x) = -0.5 * innerm M q x).
  { intros M p q x E. unfold innerm. rewrite <- rsum_scal. apply rsum_ext. intros i Hi. rewrite <- rsum_scal. apply rsum_ext. intros j Hj. rewrite (E i j Hi Hj). unfold scal_m. ring. }
  destruct u_in as [[z zz]|]; cbn [cols width ext_XpXn ext_XpXp].
  - rewrite (T1' _ _ (fun i => if (i <? D)%nat then XpXn n i d else z n (i - D)%nat * X (S n) d)).
    2:{ intros i Hi. unfold cat_v. destruct (i <? D)%nat; [reflexivity|]. ring. }
    rewrite (T2' _ _ (fun i j => if (i <? D)%nat then if (j <? D)%nat then XX n i j else transpose (fun i j => z n i * X n j) i (j - D)%nat
       else if (j <? D)%nat then z n (i - D)%nat * X n j else zz n (i - D)%nat (j - D)%nat)).
    2:{ intros i j Hi Hj. unfold cat_v, transpose. destruct (i <? D)%nat, (j <? D)%nat; ring. }
    destruct (1 =? 1)%nat; destruct (D =? 1)%nat; lra.
  - rewrite (T1' _ _ (fun i => XpXn n i d)) by (intros ? ?; reflexivity). rewrite (T2' _ _ (XX n)) by (intros ? ? ? ?; reflexivity).
    destruct (D =? 1)%nat; lra.
Qed.

(** ** The rotated row against the rotated statistics *)
Lemma mv_cancel : forall M B Bi x, is_inverse M B Bi -> veq M (mvdot M Bi (mvdot M B x)) x.
Proof.
  intros M B Bi x [_ I] i Hi. unfold mvdot. transitivity (rsum M (fun k => mmdot M Bi B i k * x k)).
  - unfold mmdot. rewrite (rsum_ext M _ (fun j => rsum M (fun k => Bi i j * B j k * x k))).
    + rewrite rsum_swap. apply rsum_ext. intros k Hk. now rewrite rsum_scal_r.
    + intros j Hj. rewrite <- rsum_scal. apply rsum_ext. intros; ring.
  - rewrite (rsum_ext M _ (fun k => if (k =? i)%nat then x k else 0)).
    + exact (rsum_single M i x Hi).
    + intros k Hk. rewrite (I i k Hi Hk). unfold identity. rewrite (Nat.eqb_sym i k). destruct (k =? i)%nat; [apply Rmult_1_l|apply Rmult_0_l].
Qed.
Definition mixed (D : nat) (Rm : mat) (a : nat -> vec * mat) (d : nat) : vec := fun i => rsum D (fun k => Rm d k * fst (a k) i).
Lemma row_linear : forall D K Rm inv u u_in n a d x, is_inverse D Rm inv -> (d < D)%nat -> row_rotated D (width D K u_in) Rm inv a d x ->
  innerv (width D K u_in) (fun i => ext_XpXn D (rot_u D Rm u) u_in n i d) (fst x) =
  rsum (width D K u_in) (fun k => rsum D (fun l => Rm d l * ext_XpXn D u u_in n k l) * mixed D Rm a d k).
Proof.
  intros D K Rm inv u u_in n a d x I Hd [Hx _]. set (M := width D K u_in) in *. pose proof (width_le D K u_in) as HM. fold M in HM.
  pose proof (block_inverse D M Rm inv HM I) as IB.
  rewrite (innerv_ext M _ (mvdot M (block_diag D Rm) (fun k => rsum D (fun l => Rm d l * ext_XpXn D u u_in n k l))) _ (mvdot M (transpose (block_diag D inv)) (mixed D Rm a d))).
  - rewrite innerv_tr. unfold innerv. apply rsum_ext. intros k Hk. now rewrite (mv_cancel M _ _ _ IB k Hk).
  - intros i Hi. unfold M in Hi. rewrite (ext_XpXn_rot D K Rm u u_in n i d Hi Hd). fold M. unfold mvdot.
    rewrite (rsum_ext D _ (fun l => rsum M (fun k => block_diag D Rm i k * (Rm d l * ext_XpXn D u u_in n k l)))).
    + rewrite rsum_swap. apply rsum_ext. intros k Hk. now rewrite rsum_scal.
    + intros l Hl. rewrite <- rsum_scal. apply rsum_ext. intros; ring.
  - intros j Hj. rewrite (Hx j Hj). apply rotated_mean_eq.
Qed.
Lemma row_quadratic : forall D K Rm inv u u_in n a d x, is_inverse D Rm inv -> (d < D)%nat -> row_rotated D (width D K u_in) Rm inv a d x ->
  innerm (width D K u_in) (ext_XpXp D (rot_u D Rm u) u_in n) (snd x) =
  (rsum D (fun k => Rm k d)) ^ 2 * innerm (width D K u_in) (sub_m (snd (a d)) (outerv (fst (a d)) (fst (a d)))) (ext_XpXp D u u_in n)
  + rsum (width D K u_in) (fun k => rsum (width D K u_in) (fun l => mixed D Rm a d l * ext_XpXp D u u_in n l k) * mixed D Rm a d k).
Proof.
  intros D K Rm inv u u_in n a d x I Hd [_ Hx]. set (M := width D K u_in) in *. pose proof (width_le D K u_in) as HM. fold M in HM.
  pose proof (block_inverse D M Rm inv HM I) as IB. set (B := block_diag D Rm) in *. set (Bi := block_diag D inv) in *.
  set (s2 := (rsum D (fun k => Rm k d)) ^ 2). set (Cv := sub_m (snd (a d)) (outerv (fst (a d)) (fst (a d)))).
  set (P := ext_XpXp D u u_in n). set (Y := fun i j => s2 * Cv i j + outerv (mixed D Rm a d) (mixed D Rm a d) i j).
  assert (EX : meq M (snd x) (dot3 M (transpose Bi) Y Bi)).
  { intros i j Hi Hj. rewrite (Hx i j Hi Hj). unfold Y. rewrite dot3_add, dot3_scal, (dot3_outer M Bi (mixed D Rm a d) i j Hi Hj). unfold outerv at 1.
    f_equal; [apply rotated_cov_eq|f_equal; apply rotated_mean_eq]. }
  rewrite (GaussLemmas.innerm_ext M _ (dot3 M B P (transpose B)) _ _ (ext_XpXp_rot D K Rm u u_in n) EX). rewrite innerm_dot3.
  rewrite (GaussLemmas.innerm_ext M P P _ Y (fun _ _ _ _ => eq_refl)).
  2:{ exact (dot3_cancel M Y (transpose Bi) (transpose B) (inverse_tr (inverse_sym IB))). }
  unfold innerm, Y. rewrite <- rsum_scal. rewrite (rsum_swap M M (fun k l => mixed D Rm a d l * P l k)) || idtac.
  transitivity (rsum M (fun i => s2 * rsum M (fun j => Cv i j * P i j)) + rsum M (fun i => rsum M (fun j => mixed D Rm a d i * P i j * mixed D Rm a d j))).
  - rewrite <- rsum_plus. apply rsum_ext. intros i Hi. rewrite <- rsum_scal, <- rsum_plus. apply rsum_ext. intros j Hj. unfold outerv. ring.
  - f_equal. rewrite rsum_swap. apply rsum_ext. intros k Hk. now rewrite rsum_scal_r.
Qed.

(** ** Sums over the transitions and the rows *)
Lemma triple : forall N D M Rm (S : nat -> mat) (a : nat -> nat -> vec),
  rsum N (fun n => rsum D (fun d => rsum M (fun k => rsum D (fun l => Rm d l * S n k l) * rsum D (fun m => Rm d m * a n m k)))) =
  tracedot D (mmdot D Rm (fun i j => rsum N (fun n => rsum M (fun k => a n i k * S n k j)))) (transpose Rm).
Proof.
  intros. unfold tracedot, mmdot, transpose. rewrite rsum_swap. apply rsum_ext. intros d Hd.
  transitivity (rsum D (fun l => rsum N (fun n => rsum M (fun k => rsum D (fun m => Rm d m * a n m k) * S n k l)) * Rm d l)).
  - rewrite (rsum_ext D _ (fun l => rsum N (fun n => rsum M (fun k => rsum D (fun m => Rm d m * a n m k) * (Rm d l * S n k l))))).
    + symmetry. rewrite rsum_swap. apply rsum_ext. intros n Hn. rewrite rsum_swap. apply rsum_ext. intros k Hk. rewrite rsum_scal. ring.
    + intros l Hl. rewrite <- rsum_scal_r. apply rsum_ext. intros n Hn. rewrite <- rsum_scal_r. apply rsum_ext. intros; ring.
  - apply rsum_ext. intros l Hl. f_equal.
    rewrite (rsum_ext D _ (fun m => rsum N (fun n => rsum M (fun k => Rm d m * a n m k * S n k l)))).
    + symmetry. rewrite rsum_swap. apply rsum_ext. intros n Hn. rewrite rsum_swap. apply rsum_ext. intros k Hk. now rewrite rsum_scal_r.
    + intros m Hm. rewrite <- rsum_scal. apply rsum_ext. intros n Hn. rewrite <- rsum_scal. apply rsum_ext. intros; ring.
Qed.
Lemma diag_sum : forall N D Rm (U : nat -> mat),
  rsum N (fun n => rsum D (fun d => dot3 D Rm (U n) (transpose Rm) d d)) =
  tracedot D (mmdot D Rm (fun i j => rsum N (fun n => U n i j))) (transpose Rm).
Proof.
  intros. unfold tracedot, dot3, mmdot, transpose. rewrite rsum_swap. apply rsum_ext. intros d Hd. rewrite rsum_swap. apply rsum_ext. intros j Hj.
  rewrite rsum_scal_r. f_equal. rewrite rsum_swap. apply rsum_ext. intros k Hk. now rewrite rsum_scal.
Qed.
Lemma initial_quad : forall D L Rm X, symmetric D L ->
  innerm D (dot3 D Rm X (transpose Rm)) L = tracedot D (dot3 D L Rm X) (transpose Rm).
Proof.
  intros D L Rm X Sy. unfold innerm, tracedot, dot3.
  transitivity (rsum D (fun i => rsum D (fun k => L i k * mmdot D (mmdot D Rm X) (transpose Rm) k i))).
  - rewrite rsum_swap. apply rsum_ext. intros i Hi. apply rsum_ext. intros k Hk. rewrite (Sy k i Hk Hi). ring.
  - apply rsum_ext. intros i Hi. unfold transpose at 2. unfold mmdot at 1. unfold transpose.
    transitivity (rsum D (fun j => mmdot D L (mmdot D Rm X) i j * Rm i j)).
    + unfold mmdot at 2. rewrite (rsum_ext D (fun j => rsum D _ * Rm i j) (fun j => rsum D (fun k => L i k * (mmdot D Rm X k j * Rm i j)))).
      * rewrite rsum_swap. apply rsum_ext. intros k Hk. now rewrite rsum_scal.
      * intros j Hj. rewrite <- rsum_scal_r. apply rsum_ext. intros; ring.
    + apply rsum_ext. intros j Hj. f_equal. symmetry. unfold mmdot.
      rewrite (rsum_ext D _ (fun k => rsum D (fun k0 => L i k0 * (Rm k0 k * X k j)))).
      * rewrite rsum_swap. apply rsum_ext. intros k Hk. now rewrite rsum_scal.
      * intros k Hk. rewrite <- rsum_scal_r. apply rsum_ext. intros; ring.
Qed.
Lemma initial_linear : forall D Rm x l, innerv D (mvdot D Rm x) l = tracedot D (outerv l x) (transpose Rm).
Proof.
  intros. unfold innerv, mvdot, tracedot, outerv, transpose. apply rsum_ext. intros i Hi. rewrite <- rsum_scal_r. apply rsum_ext. intros; ring.
Qed.
(** <phi, u> does not change. *)
Lemma dot_invariant : forall N D Rm inv u phi l, is_inverse D Rm inv ->
  let '(u', phi', _) := gmc_rotate N D u phi Rm inv l in chain_dot N D phi' u' = chain_dot N D phi u.
Proof.
  intros N D Rm inv [[u0 u1] u2] [[p0 p1] p2] l I. cbn [gmc_rotate chain_dot].
  assert (V : forall p x, innerv D (mvdot D (transpose inv) p) (mvdot D Rm x) = innerv D p x).
  { intros p x. rewrite innerv_comm, innerv_tr, innerv_comm. apply innerv_ext; [intros ? ?; reflexivity|]. exact (mv_cancel D _ _ _ I). }
  assert (W : forall P X, innerm D (dot3 D (transpose inv) P inv) (dot3 D Rm X (transpose Rm)) = innerm D P X).
  { intros P X. change inv with (transpose (transpose inv)) at 2. rewrite innerm_dot3. apply GaussLemmas.innerm_ext; [intros ? ? ? ?; reflexivity|].
    change (transpose (transpose inv)) with inv. exact (dot3_cancel D X Rm inv I). }
  f_equal; [f_equal|]; apply rsum_ext; intros n Hn; [apply V|apply W|apply W].
Qed.
