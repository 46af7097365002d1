(** C73: dist_haversine is the distance along the sphere. *)
From Coq Require Import List Arith Lia Bool Reals Lra Psatz FunctionalExtensionality.
From Verif Require Import Base Shapes SpecShapes NumPy TensorLemmas SpecArrayTools PArrayTools GaussArrays PGaussArrays Haversine SpecHaversine.
Import ListNotations.
Open Scope R_scope.

Lemma at_map_h : forall (f : R -> R) a e, bget (np_map f a) e = f (bget a e).
Proof.
  intros f a e. unfold np_map. unfold bget at 1. cbn [ash aget]. f_equal. apply bget_ext. intros k _ N. unfold clip.
  destruct (Nat.eqb_spec (ax (ash a) k) 1); [contradiction|reflexivity].
Qed.

Lemma half_square : forall x, sin (x / 2) ^ 2 = (1 - cos x) / 2.
Proof.
  intros x. assert (E : cos x = 1 - 2 * sin (x / 2) * sin (x / 2)).
  { rewrite <- cos_2a_sin. f_equal. lra. }
  rewrite E. field.
Qed.

(** The angle of a right triangle with sides sqrt A and sqrt (1 - A). *)
Lemma arctan2_angle : forall A, 0 <= A <= 1 ->
  0 <= arctan2 (sqrt A) (sqrt (1 - A)) <= PI / 2 /\ cos (2 * arctan2 (sqrt A) (sqrt (1 - A))) = 1 - 2 * A.
Proof.
  intros A [H0 H1]. pose proof PI_RGT_0 as HP. unfold arctan2. destruct (Rlt_dec 0 (sqrt (1 - A))) as [S|S].
  - assert (P : 0 < 1 - A). { destruct (Rle_lt_or_eq_dec 0 (1 - A)) as [|E]; [lra|assumption|]. rewrite <- E, sqrt_0 in S. lra. }
    set (t := sqrt A / sqrt (1 - A)). assert (T : 0 <= t).
    { unfold t, Rdiv. apply Rmult_le_pos; [apply sqrt_pos|]. left. now apply Rinv_0_lt_compat. }
    assert (T2 : t * t = A / (1 - A)).
    { unfold t. replace (sqrt A / sqrt (1 - A) * (sqrt A / sqrt (1 - A))) with ((sqrt A * sqrt A) / (sqrt (1 - A) * sqrt (1 - A))) by (field; lra).
      rewrite !sqrt_sqrt by lra. reflexivity. }
    destruct (atan_bound t) as [B1 B2]. split.
    + split; [|lra]. destruct (Rle_lt_or_eq_dec 0 t T) as [L|<-]; [|rewrite atan_0; lra]. left. rewrite <- atan_0. now apply atan_increasing.
    + rewrite cos_2a_cos, cos_atan. unfold Rsqr. assert (Q : 0 < 1 + t * t) by nra.
      pose proof (sqrt_lt_R0 _ Q) as Q'. replace (2 * (1 / sqrt (1 + t * t)) * (1 / sqrt (1 + t * t)) - 1) with (2 / (sqrt (1 + t * t) * sqrt (1 + t * t)) - 1) by (field; lra).
      rewrite sqrt_sqrt by lra. rewrite T2. field. lra.
  - assert (E : A = 1). { destruct (Rle_lt_or_eq_dec A 1 H1) as [L|]; [|assumption]. elim S. apply sqrt_lt_R0. lra. }
    subst A. rewrite sqrt_1. destruct (Rlt_dec 0 1) as [_|N]; [|lra]. split; [lra|]. replace (2 * (PI / 2)) with PI by lra. rewrite cos_PI. lra.
Qed.

Lemma unit_vectors : forall a b c x y z, a * a + b * b + c * c = 1 -> x * x + y * y + z * z = 1 -> -1 <= a * x + b * y + c * z <= 1.
Proof.
  intros a b c x y z H K. split.
  - pose proof (Rle_0_sqr (a + x)). pose proof (Rle_0_sqr (b + y)). pose proof (Rle_0_sqr (c + z)). unfold Rsqr in *. lra.
  - pose proof (Rle_0_sqr (a - x)). pose proof (Rle_0_sqr (b - y)). pose proof (Rle_0_sqr (c - z)). unfold Rsqr in *. lra.
Qed.

Lemma unit_same : forall a b c x y z, a * a + b * b + c * c = 1 -> x * x + y * y + z * z = 1 ->
  (a * x + b * y + c * z = 1 <-> a = x /\ b = y /\ c = z).
Proof.
  intros a b c x y z H K. split.
  - intros E. assert (Q : Rsqr (a - x) + Rsqr (b - y) + Rsqr (c - z) = 0) by (unfold Rsqr; lra).
    pose proof (Rle_0_sqr (a - x)). pose proof (Rle_0_sqr (b - y)). pose proof (Rle_0_sqr (c - z)).
    repeat split; apply Rminus_diag_uniq, Rsqr_0_uniq; lra.
  - intros (-> & -> & ->). exact K.
Qed.

Lemma on_sphere : forall lat lon, sphere_x lat lon * sphere_x lat lon + sphere_y lat lon * sphere_y lat lon + sphere_z lat lon * sphere_z lat lon = 1.
Proof.
  intros lat lon. unfold sphere_x, sphere_y, sphere_z. pose proof (sin2_cos2 (degrees lat)) as S1. pose proof (sin2_cos2 (degrees lon)) as S2. unfold Rsqr in *.
  replace (cos (degrees lat) * cos (degrees lon) * (cos (degrees lat) * cos (degrees lon)) + cos (degrees lat) * sin (degrees lon) * (cos (degrees lat) * sin (degrees lon)) + sin (degrees lat) * sin (degrees lat))
    with (cos (degrees lat) * cos (degrees lat) * (sin (degrees lon) * sin (degrees lon) + cos (degrees lon) * cos (degrees lon)) + sin (degrees lat) * sin (degrees lat)) by ring.
  rewrite S2. lra.
Qed.

Lemma hav_angle : forall lat1 lon1 lat2 lon2,
  sphere_x lat1 lon1 * sphere_x lat2 lon2 + sphere_y lat1 lon1 * sphere_y lat2 lon2 + sphere_z lat1 lon1 * sphere_z lat2 lon2
  = 1 - 2 * hav (degrees lat1) (degrees lon1) (degrees lat2) (degrees lon2).
Proof. intros. unfold hav, sphere_x, sphere_y, sphere_z. rewrite !half_square, !cos_minus. field. Qed.

(** Both square roots are taken of numbers that are not negative, for all latitudes and longitudes. *)
Theorem C73_square_roots : forall lat1 lon1 lat2 lon2,
  0 <= hav (degrees lat1) (degrees lon1) (degrees lat2) (degrees lon2) <= 1.
Proof.
  intros lat1 lon1 lat2 lon2. pose proof (hav_angle lat1 lon1 lat2 lon2) as E.
  destruct (unit_vectors _ _ _ _ _ _ (on_sphere lat1 lon1) (on_sphere lat2 lon2)). lra.
Qed.

Lemma haversine_angle : forall radius lat1 lon1 lat2 lon2, exists a,
  haversine radius (degrees lat1) (degrees lon1) (degrees lat2) (degrees lon2) = radius * a /\ angle_between lat1 lon1 lat2 lon2 a.
Proof.
  intros r lat1 lon1 lat2 lon2. unfold haversine. destruct (arctan2_angle _ (C73_square_roots lat1 lon1 lat2 lon2)) as [C1 C2].
  eexists. split; [reflexivity|]. split; [lra|]. rewrite C2. symmetry. apply hav_angle.
Qed.

(** Element (i, j) is the radius times the angle between point i of c1 and point j of c2. *)
Theorem C73_distance : forall (lat1 lon1 lat2 lon2 : arr R) m n radius,
  ash lat1 = [m] -> ash lon1 = [m] -> ash lat2 = [n] -> ash lon2 = [n] ->
  ash (dist_haversine (lat1, lon1) (lat2, lon2) radius) = [m; n] /\
  forall i j, (i < m)%nat -> (j < n)%nat -> exists a,
    at_ (dist_haversine (lat1, lon1) (lat2, lon2) radius) [i; j] = radius * a /\
    angle_between (at_ lat1 [i]) (at_ lon1 [i]) (at_ lat2 [j]) (at_ lon2 [j]) a.
Proof.
  intros lat1 lon1 lat2 lon2 m n r H1 H2 H3 H4. unfold dist_haversine. cbn [fst snd]. split; [cbn [ash]; now rewrite H1, H3|]. intros i j Hi Hj.
  rewrite H1, H3. change (ax [m] 0) with m. change (ax [n] 0) with n.
  rewrite at_arr by (constructor; [exact Hi|constructor; [exact Hj|constructor]]). rewrite !at_map_h. cbn [pos rev app nth].
  assert (G : forall (a : arr R) k x, ash a = [k] -> bget a (fun _ => x) = at_ a [x]).
  { intros a k x H. unfold at_. apply bget_ext. intros q Hq _. rewrite H in Hq. cbn in Hq. assert (q = 0%nat) as -> by lia. reflexivity. }
  unfold pos. cbn [rev app nth]. rewrite (G lat1 m i H1), (G lon1 m i H2), (G lat2 n j H3), (G lon2 n j H4). apply haversine_angle.
Qed.

(** So it does not depend on the direction, is at most half of the circumference, and is zero exactly when
    the two are the same point. *)
Theorem C73_metric : forall (lat1 lon1 lat2 lon2 : arr R) m n radius,
  ash lat1 = [m] -> ash lon1 = [m] -> ash lat2 = [n] -> ash lon2 = [n] -> 0 < radius -> forall i j, (i < m)%nat -> (j < n)%nat ->
  let d := at_ (dist_haversine (lat1, lon1) (lat2, lon2) radius) [i; j] in
  d = at_ (dist_haversine (lat2, lon2) (lat1, lon1) radius) [j; i] /\ 0 <= d <= PI * radius /\
  (d = 0 <-> same_point (at_ lat1 [i]) (at_ lon1 [i]) (at_ lat2 [j]) (at_ lon2 [j])).
Proof.
  intros lat1 lon1 lat2 lon2 m n r H1 H2 H3 H4 Hr i j Hi Hj d. unfold d.
  destruct (proj2 (C73_distance lat1 lon1 lat2 lon2 m n r H1 H2 H3 H4) i j Hi Hj) as (a & -> & B & E).
  destruct (proj2 (C73_distance lat2 lon2 lat1 lon1 n m r H3 H4 H1 H2) j i Hj Hi) as (b & -> & B' & E').
  split; [|split].
  - f_equal. apply cos_inj; [exact B|exact B'|]. rewrite E, E'. ring.
  - nra.
  - pose proof (on_sphere (at_ lat1 [i]) (at_ lon1 [i])) as N1. pose proof (on_sphere (at_ lat2 [j]) (at_ lon2 [j])) as N2. unfold same_point.
    rewrite <- (unit_same _ _ _ _ _ _ N1 N2), <- E. split.
    + intros Z. assert (a = 0) as -> by nra. apply cos_0.
    + intros Z. assert (a = 0) as ->; [|ring]. apply cos_inj; [exact B|lra|]. now rewrite cos_0.
Qed.

(** From the north pole to a point of the equator: a quarter of a circle. *)
Example C73_case : at_ (dist_haversine (Arr [1%nat] (fun _ => 90), Arr [1%nat] (fun _ => 10)) (Arr [2%nat] (fun _ => 0), Arr [2%nat] (fun e => INR (e 0%nat))) 6372795) [0; 1]%nat
  = 6372795 * (PI / 2).
Proof.
  destruct (proj2 (C73_distance (Arr [1%nat] (fun _ => 90)) (Arr [1%nat] (fun _ => 10)) (Arr [2%nat] (fun _ => 0)) (Arr [2%nat] (fun e => INR (e 0%nat)))
    1%nat 2%nat 6372795 eq_refl eq_refl eq_refl eq_refl) 0%nat 1%nat) as (a & -> & B & E); [lia|lia|]. f_equal. pose proof PI_RGT_0.
  apply cos_inj; [exact B|lra|]. rewrite E, cos_PI2. unfold at_, bget. cbn [ash aget]. unfold sphere_x, sphere_y, sphere_z, degrees.
  replace (90 * PI / 180) with (PI / 2) by lra. replace (0 * PI / 180) with 0 by lra. rewrite cos_PI2, sin_0. ring.
Qed.

Print Assumptions C73_square_roots.
Print Assumptions C73_distance.
Print Assumptions C73_metric.
