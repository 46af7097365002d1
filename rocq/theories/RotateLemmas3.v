(** The terms of the rotation bound. *)
From Coq Require Import List Arith ZArith Lia Bool Reals Lra FunctionalExtensionality.
From Verif Require Import Base Shapes SpecShapes ShapesLemmas NumPy MiscArray TensorLemmas SpecArray PlateSumLemmas PlateSum2Lemmas
  PlateSum3Lemmas MessageLemmas ShapeOpsLemmas SpecDot ExpFam ExpFamLemmas ExpFamBound NetworkLemmas DetNetLemmas GateLemmas PGate DotPart AddNode LinalgLemmas2 ConcatLemmas3 MarkovLemmas
  Families Linalg SpecLinalg LinalgLemmas Gaussian SpecGaussian GaussLemmas PGaussian PGaussian2 PRotation RotateARD SpecRotateARD RotateLemmas RotateLemmas2.
Import ListNotations.
Open Scope nat_scope.

Lemma map2_full : forall (f : R -> R -> R) (a b : arr R) s, ash a = s -> broadcasts_to (ash b) s ->
  exists y, np_map2 f a b = Ok y /\ ash y = s /\ forall e, bget y e = f (bget a e) (bget b e).
Proof.
  intros f a b s Ha Hb. destruct (map2_upper _ _ _ f a b s) as (y & Ey & N & By & Gy); [rewrite Ha; apply broadcasts_to_refl|exact Hb|].
  exists y. split; [exact Ey|]. split; [|exact Gy]. destruct N as (N1 & _ & N3). specialize (N1 (ash a) (or_introl eq_refl)). rewrite Ha in N1.
  destruct By as [B1 B2]. apply shape_ext; [lia|]. intros k _. destruct (B2 k) as [E|E]; [|exact E].
  destruct (N3 k) as [K _]. destruct (K (ash a) (or_introl eq_refl)) as [Z|Z]; rewrite Ha in Z; congruence.
Qed.
Lemma map2_full_r : forall (f : R -> R -> R) (a b : arr R) s, ash b = s -> broadcasts_to (ash a) s ->
  exists y, np_map2 f a b = Ok y /\ ash y = s /\ forall e, bget y e = f (bget a e) (bget b e).
Proof.
  intros f a b s Hb Ha. destruct (map2_upper _ _ _ f a b s) as (y & Ey & N & By & Gy); [exact Ha|rewrite Hb; apply broadcasts_to_refl|].
  exists y. split; [exact Ey|]. split; [|exact Gy]. destruct N as (N1 & _ & N3). specialize (N1 (ash b) (or_intror (or_introl eq_refl))). rewrite Hb in N1.
  destruct By as [B1 B2]. apply shape_ext; [lia|]. intros k _. destruct (B2 k) as [E|E]; [|exact E].
  destruct (N3 k) as [K _]. destruct (K (ash b) (or_intror (or_introl eq_refl))) as [Z|Z]; rewrite Hb in Z; congruence.
Qed.
Lemma plates_app : forall q d, get_plates (length d) (q ++ d) = q.
Proof. intros q d. unfold get_plates. rewrite app_length. replace (length q + length d - length d) with (length q) by lia. rewrite firstn_app, firstn_all, Nat.sub_diag. cbn. apply app_nil_r. Qed.
Lemma plates_app2 : forall q a b, get_plates 2 (q ++ [a; b]) = q.
Proof. intros. apply (plates_app q [a; b]). Qed.
Lemma bget_at : forall s (f : env -> R) e, valid s e -> bget (Arr s f) e = f e.
Proof. intros s f e H. unfold bget. cbn. now rewrite clip_valid_id. Qed.
Lemma mat_at_eq : forall p i j k, mat_at p i j k = match k with 0 => j | 1 => i | S (S k) => p k end.
Proof. intros p i j [|[|k]]; unfold mat_at, join, upd, env0; cbn; try reflexivity. f_equal. lia. Qed.
Lemma mat_at_outer : forall p i j, (fun k => mat_at p i j (S (S k))) = p.
Proof. intros. apply functional_extensionality. intros k. apply mat_at_eq. Qed.

Section Terms.
Variable M : rot_model.
Let n := rm_nodes M.
Let P := rn_plates n.
Let D := rn_D n.
Let q := outer_alpha n.
Let PA := plates_alpha n.
Hypothesis OK : rot_ok M.
Let HP := ro_plates M OK.

Definition stats_of (s : ard_stats) : Prop :=
  ash (st_XX s) = q ++ [D; D] /\ ash (st_mu2 s) = q ++ [D] /\ ash (st_Xmu s) = q ++ [D; D] /\
  (forall t i j, valid q t -> i < D -> j < D -> bget (st_XX s) (mat_at t i j) = fibre_sum P q t (fun p => x_second M p i j)) /\
  (forall t i, valid q t -> i < D -> bget (st_mu2 s) (vec_at t i) = fibre_sum P q t (fun p => mu_second M (vec_at p i))) /\
  (forall t i j, valid q t -> i < D -> j < D ->
    bget (st_Xmu s) (mat_at t i j) = fibre_sum P q t (fun p => (x_mean M p i * mu_mean M (vec_at p j))%R)).

Lemma rot_XX_ok : forall s Rm, stats_of s -> ash (rot_XX D Rm (st_XX s)) = q ++ [D; D] /\
  forall t i j, valid q t -> i < D -> j < D ->
    bget (rot_XX D Rm (st_XX s)) (mat_at t i j) = rsum D (fun k => (Rm i k * fibre_sum P q t (fun p => x_second M p k j))%R).
Proof.
  intros s Rm (S1 & _ & _ & V1 & _). assert (E : ash (rot_XX D Rm (st_XX s)) = q ++ [D; D]) by (unfold rot_XX; cbn [ash]; now rewrite S1, plates_app2).
  split; [exact E|]. intros t i j Ht Hi Hj. unfold rot_XX. rewrite S1, plates_app2, bget_at by now apply valid_mat.
  apply rsum_ext. intros k Hk. rewrite mat_at_outer, !mat_at_eq. now rewrite V1.
Qed.

Lemma deviation_eq : forall Rm inv logdet p i, i < D ->
  deviation M Rm inv logdet (vec_at p i) =
  (rsum D (fun k => rsum D (fun l => Rm i l * x_second M p l k) * Rm i k)
   - 2 * rsum D (fun k => Rm i k * (x_mean M p k * mu_mean M (vec_at p i))) + mu_second M (vec_at p i))%R.
Proof.
  intros Rm inv logdet p i Hi. unfold deviation, rotated, ard_rotate. rewrite vec_at_outer, vec_at_0. cbn [fst snd].
  unfold rotate_mean, rotate_covariance, right_rotate_covariance, left_rotate_covariance. fold n D. f_equal. f_equal.
  - apply rsum_ext. intros; ring.
  - rewrite Rmult_assoc. f_equal. rewrite <- rsum_scal_r. apply rsum_ext. intros; ring.
Qed.

Lemma dev_ok : forall s Rm inv logdet, stats_of s -> exists dev, ard_deviation D Rm s = Ok dev /\ ash dev = q ++ [D] /\
  forall t i, valid q t -> i < D -> bget dev (vec_at t i) = fibre_sum P q t (fun p => deviation M Rm inv logdet (vec_at p i)).
Proof.
  intros s Rm inv logdet SO. destruct (rot_XX_ok s Rm SO) as [E1 V1]. destruct SO as (S1 & S2 & S3 & W1 & W2 & W3).
  assert (E2 : ash (rot_XXR D Rm (rot_XX D Rm (st_XX s))) = q ++ [D]) by (unfold rot_XXR; cbn [ash]; now rewrite E1, plates_app2).
  assert (E3 : ash (rot_Xmu D Rm (st_Xmu s)) = q ++ [D]) by (unfold rot_Xmu; cbn [ash]; now rewrite S3, plates_app2).
  unfold ard_deviation.
  destruct (map2_full (fun x y => x - 2 * y)%R (rot_XXR D Rm (rot_XX D Rm (st_XX s))) (rot_Xmu D Rm (st_Xmu s)) (q ++ [D]) E2) as (d & F1 & L1 & G1); [rewrite E3; apply broadcasts_to_refl|].
  rewrite F1. cbn [bind]. destruct (map2_full Rplus d (st_mu2 s) (q ++ [D]) L1) as (dev & F2 & L2 & G2); [rewrite S2; apply broadcasts_to_refl|].
  exists dev. split; [exact F2|]. split; [exact L2|]. intros t i Ht Hi. rewrite G2, G1, W2 by assumption.
  unfold rot_XXR, rot_Xmu. rewrite E1, S3, !plates_app2, !bget_at by now apply valid_vec. rewrite !vec_at_outer, !vec_at_0.
  rewrite (fibre_ext _ _ _ (fun p => deviation M Rm inv logdet (vec_at p i)) (fun p =>
    1 * (1 * rsum D (fun k => rsum D (fun l => Rm i l * x_second M p l k) * Rm i k)
   + (-2) * rsum D (fun k => Rm i k * (x_mean M p k * mu_mean M (vec_at p i)))) + 1 * mu_second M (vec_at p i))%R)
    by (intros p _; rewrite deviation_eq by exact Hi; ring).
  rewrite !fibre_lin, !fibre_rsum.
  rewrite (rsum_ext D (fun k => fibre_sum P q t (fun e => rsum D (fun l => Rm i l * x_second M e l k) * Rm i k)%R)
    (fun k => (bget (rot_XX D Rm (st_XX s)) (mat_at t i k) * Rm i k)%R)).
  rewrite (rsum_ext D (fun k => fibre_sum P q t (fun e => (Rm i k * (x_mean M e k * mu_mean M (vec_at e i)))%R))
    (fun k => (Rm i k * bget (st_Xmu s) (mat_at t k i))%R)).
  - ring.
  - intros k Hk. rewrite W3 by assumption. transitivity (fibre_sum P q t (fun e => Rm i k * (x_mean M e k * mu_mean M (vec_at e i)) + 0 * 0)%R).
    + apply fibre_ext. intros; ring.
    + rewrite (fibre_lin P q t (Rm i k) 0 (fun e => x_mean M e k * mu_mean M (vec_at e i))%R (fun _ => 0%R)). ring.
  - intros k Hk. rewrite V1 by assumption.
    transitivity (fibre_sum P q t (fun e => Rm i k * rsum D (fun l => Rm i l * x_second M e l k) + 0 * 0)%R).
    + apply fibre_ext. intros; ring.
    + rewrite (fibre_lin P q t (Rm i k) 0 (fun e => rsum D (fun l => Rm i l * x_second M e l k))%R (fun _ => 0%R)), fibre_rsum.
      rewrite Rmult_0_l, Rplus_0_r, Rmult_comm. f_equal. apply rsum_ext. intros l Hl.
      transitivity (fibre_sum P q t (fun e => Rm i l * x_second M e l k + 0 * 0)%R); [apply fibre_ext; intros; ring|].
      rewrite (fibre_lin P q t (Rm i l) 0 (fun e => x_second M e l k)%R (fun _ => 0%R)). ring.
Qed.

Lemma phi_u_invariant : forall Rm inv (u phi : vec * mat), is_inverse D Rm inv ->
  (innerv D (rotate_mean D (fst phi) (transpose inv)) (rotate_mean D (fst u) Rm)
   + innerm D (rotate_covariance D (snd phi) (transpose inv)) (rotate_covariance D (snd u) Rm)
   = innerv D (fst phi) (fst u) + innerm D (snd phi) (snd u))%R.
Proof.
  intros Rm inv [u0 u1] [p0 p1] I. cbn [fst snd]. f_equal.
  - unfold innerv, rotate_mean, transpose.
    transitivity (rsum D (fun j => rsum D (fun l => p0 j * u0 l * rsum D (fun i => inv j i * Rm i l))))%R.
    + rewrite (rsum_ext D _ (fun i => rsum D (fun j => rsum D (fun l => p0 j * u0 l * (inv j i * Rm i l)))))%R.
      2:{ intros i Hi. rewrite <- rsum_scal_r. apply rsum_ext. intros j Hj. rewrite <- rsum_scal. apply rsum_ext. intros; ring. }
      rewrite rsum_swap. apply rsum_ext. intros j Hj. rewrite rsum_swap. apply rsum_ext. intros l Hl. now rewrite rsum_scal.
    + apply rsum_ext. intros j Hj. rewrite (rsum_ext D _ (fun l => if l =? j then p0 j * u0 l else 0))%R.
      * rewrite (rsum_single D j (fun l => p0 j * u0 l)%R Hj). reflexivity.
      * intros l Hl. destruct I as [_ I]. specialize (I j l Hj Hl). unfold mmdot, identity in I. rewrite I, Nat.eqb_sym. destruct (l =? j); ring.
  - transitivity (innerm D (dot3 D (transpose inv) p1 (transpose (transpose inv))) (dot3 D Rm u1 (transpose Rm))).
    + unfold innerm. apply rsum_ext. intros i Hi. apply rsum_ext. intros j Hj.
      now rewrite (rotate_covariance_dot3 D p1 (transpose inv) i j Hi Hj), (rotate_covariance_dot3 D u1 Rm i j Hi Hj).
    + rewrite innerm_dot3. unfold innerm. apply rsum_ext. intros i Hi. apply rsum_ext. intros j Hj. f_equal.
      apply (dot3_cancel D u1 Rm inv I i j Hi Hj).
Qed.

(** The constant of the plate. *)
Definition plate_const (p : env) : R :=
  (- rm_g M p - (innerv D (fst (rm_phi M p)) (x_mean M p) + innerm D (snd (rm_phi M p)) (x_second M p)))%R.
Lemma x_term_eq : forall Rm inv logdet alpha logalpha p, is_inverse D Rm inv ->
  (let '(u, phi, g) := rotated M Rm inv logdet p in x_term M (parent_moments M alpha logalpha p) u phi g)
  = (plate_const p + logdet
     + rsum D (fun i => -0.5 * (alpha (vec_at p i) * deviation M Rm inv logdet (vec_at p i)) + 0.5 * logalpha (vec_at p i)))%R.
Proof.
  intros Rm inv logdet alpha logalpha p I. unfold rotated, ard_rotate, x_term. cbn [fst snd]. fold n D.
  pose proof (phi_u_invariant Rm inv (x_mean M p, x_second M p) (rm_phi M p) I) as PU. cbn [fst snd] in PU. rewrite PU. clear PU. unfold plate_const, parent_moments, ard_cgf, ard_phi. cbn [fst snd].
  set (U0 := rotate_mean D (x_mean M p) Rm). set (U1 := rotate_covariance D (x_second M p) Rm).
  replace (innerm D (diag (fun i => 1 * (-0.5 * alpha (join 1 p (upd env0 0 i))))) U1)%R with (rsum D (fun i => 1 * (-0.5 * alpha (vec_at p i)) * U1 i i))%R.
  2:{ unfold innerm. apply rsum_ext. intros i Hi. rewrite (rsum_ext D _ (fun j => if j =? i then 1 * (-0.5 * alpha (vec_at p i)) * U1 i j else 0))%R.
      - now rewrite (rsum_single D i (fun j => 1 * (-0.5 * alpha (vec_at p i)) * U1 i j)%R Hi).
      - intros j Hj. unfold diag. destruct (Nat.eqb_spec j i) as [->|N]; [now rewrite Nat.eqb_refl|]. destruct (Nat.eqb_spec i j); [congruence|ring]. }
  unfold innerv. change (fun i => join 1 p (upd env0 0 i)) with (vec_at p).
  transitivity (- rm_g M p + logdet - (innerv D (fst (rm_phi M p)) (x_mean M p) + innerm D (snd (rm_phi M p)) (x_second M p))
   + rsum D (fun i => -0.5 * (alpha (vec_at p i) * mu_second M (vec_at p i) * 1) + 0.5 * (logalpha (vec_at p i) * 1)
       + (1 * (alpha (vec_at p i) * mu_mean M (vec_at p i))) * U0 i + 1 * (-0.5 * alpha (vec_at p i)) * U1 i i))%R.
  - rewrite !rsum_plus, !rsum_scal. unfold innerv, vec_at. ring.
  - unfold innerv. match goal with |- (_ + rsum D ?f = _ + rsum D ?g)%R => rewrite (rsum_ext D f g) end.
    + ring.
    + intros i Hi. unfold deviation, rotated, ard_rotate. rewrite vec_at_outer, vec_at_0. cbn [fst snd]. fold n D. fold U0 U1.
      replace 0.5%R with (1/2)%R by lra. replace (-0.5)%R with (-(1/2))%R by lra. field.
Qed.
End Terms.
