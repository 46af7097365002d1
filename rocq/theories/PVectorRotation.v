(** C70: rotating the plates and the vectors of a Gaussian variable. *)
From Coq Require Import List Arith ZArith Lia Bool Reals Lra FunctionalExtensionality.
From Verif Require Import Base Shapes SpecShapes ShapesLemmas NumPy TensorLemmas PNumeric ArrayTools SpecArrayTools PArrayTools ExpFamBound
  GaussArrays PGaussArrays MatrixRotation PMatrixRotation VectorRotation.
Import ListNotations.
Open Scope R_scope.

Lemma at_map : forall (f : R -> R) (a : arr R) ix, at_ (np_map f a) ix = f (at_ a ix).
Proof. intros f a ix. unfold at_. apply bget_map. Qed.

(** A sum over a flattened axis. *)
Lemma rsum_split : forall a b f, rsum (a + b) f = rsum a f + rsum b (fun k => f (a + k)%nat).
Proof. intros a. induction b as [|b IH]; intros f; [rewrite Nat.add_0_r; cbn; ring|]. rewrite Nat.add_succ_r. cbn [rsum]. rewrite IH. ring. Qed.
Lemma rsum_flat : forall m n f, rsum m (fun a => rsum n (fun b => f (a * n + b)%nat)) = rsum (m * n) f.
Proof.
  induction m as [|m IH]; intros n f; [reflexivity|]. cbn [rsum]. rewrite IH. replace (S m * n)%nat with (m * n + n)%nat by (cbn; lia).
  now rewrite rsum_split.
Qed.

Theorem C70_plates : forall (Q u0 phi1 : arr R) n D, ash Q = [n; n] -> ash u0 = [n; D] -> ash phi1 = [n; D; D] ->
  exists phi0' phi1', rotate_by_plates Q u0 phi1 = Ok (phi0', phi1') /\ ash phi0' = [n; D] /\ ash phi1' = [n; D; D] /\
    forall m i, (m < n)%nat -> (i < D)%nat ->
      (forall j, (j < D)%nat -> at_ phi1' [m; i; j] = at_ phi1 [m; i; j] / (rsum n (fun k => at_ Q [k; m])) ^ 2) /\
      at_ phi0' [m; i] = rsum D (fun j => -2 * at_ phi1' [m; i; j] * rsum n (fun k => at_ Q [m; k] * at_ u0 [k; j])).
Proof.
  intros Q u0 phi1 n D HQ HU HF. unfold rotate_by_plates, ndim. rewrite HQ, HU, HF. cbn [length Nat.eqb andb negb].
  destruct (ein_plain Q u0 [] n n [D] HQ HU) as (u & EU & SU & VU). cbn [length app] in EU, SU, VU. rewrite EU. cbn [bind].
  change (ax [n; n] 0) with n. change (ax [n; D; D] 2) with n. rewrite bdim_same. cbn [bind].
  change (ax [n; D; D] 1) with D. change (ax [n; D; D] 0) with D.
  set (f := Arr [n; D; D] _).
  assert (VF : forall m i j, (m < n)%nat -> (i < D)%nat -> (j < D)%nat -> at_ f [m; i; j] = at_ phi1 [m; i; j] / (rsum n (fun k => at_ Q [k; m])) ^ 2).
  { intros m i j Hm Hi Hj. unfold f. rewrite at_arr by (constructor; [exact Hm|now apply inside2]).
    change (pos [m; i; j] 2%nat) with m.
    assert (X : bget (column_sums Q) (fun _ => m) = rsum n (fun k => at_ Q [k; m])).
    { rewrite <- (column_sum_at Q n n m HQ Hm). unfold at_. apply bget_ext. intros k Hk _. unfold column_sums in Hk. cbn in Hk.
      assert (k = 0%nat) as -> by lia. reflexivity. }
    rewrite X. unfold at_. fold (pos [m; i; j]). unfold Rdiv. cbn [pow]. rewrite Rmult_1_r. ring. }
  destruct (ein_ok (np_map (fun v => -2 * v) f) u [n] [n] [n] D D [] eq_refl SU (upper_broadcast _ _ (broadcasts_to_refl _))) as (y & EY & SY & VY).
  cbn [length app] in EY, SY. rewrite EY. cbn [bind]. exists y, f. split; [reflexivity|]. split; [exact SY|]. split; [reflexivity|].
  intros m i Hm Hi. split; [intros j Hj; now apply VF|].
  assert (I : inside [n] [m]) by (constructor; [exact Hm|constructor]).
  specialize (VY [m] i [] I Hi ltac:(constructor)). cbn [app] in VY. rewrite VY. apply rsum_ext. intros j Hj. rewrite at_map. f_equal.
  specialize (VU [] m [j] ltac:(constructor) Hm). cbn [app] in VU. apply VU. constructor; [exact Hj|constructor].
Qed.

Theorem C70_plates_axes : forall Q u0 phi1, ndim Q <> 2%nat \/ ndim u0 <> 2%nat \/ ndim phi1 <> 3%nat -> rotate_by_plates Q u0 phi1 = Err ValueError.
Proof.
  intros Q u0 phi1 H. unfold rotate_by_plates. destruct (Nat.eqb_spec (ndim Q) 2), (Nat.eqb_spec (ndim u0) 2), (Nat.eqb_spec (ndim phi1) 3); try reflexivity.
  destruct H as [H|[H|H]]; contradiction.
Qed.

Theorem C70_parameters : forall (phi0 phi1 invR : arr R) P0 P1 D, ash invR = [D; D] -> ash phi0 = P0 ++ [D] -> ash phi1 = P1 ++ [D; D] ->
  exists phi0' phi1', rotate_by_matrix phi0 phi1 invR = Ok (phi0', phi1') /\ ash phi0' = ash phi0 /\ ash phi1' = ash phi1 /\
    (forall p i, inside P0 p -> (i < D)%nat -> at_ phi0' (p ++ [i]) = rsum D (fun a => at_ invR [a; i] * at_ phi0 (p ++ [a]))) /\
    (forall p i k, inside P1 p -> (i < D)%nat -> (k < D)%nat ->
       at_ phi1' (p ++ [i; k]) = rsum D (fun a => rsum D (fun c => at_ invR [a; i] * at_ phi1 (p ++ [a; c]) * at_ invR [c; k]))).
Proof.
  intros phi0 phi1 invR P0 P1 D HR HF HG. unfold rotate_by_matrix. destruct (transposed_ok invR D D HR) as [T W].
  destruct (ein_plain (transposed invR) phi0 P0 D D [] T HF) as (r0 & E0 & S0 & V0). cbn [length] in E0. rewrite E0. cbn [bind].
  destruct (dot_ok (transposed invR) phi1 [] P1 P1 D D D T HG (nil_broadcast P1)) as (a & -> & Sa & Va). cbn [bind].
  destruct (dot_ok a invR P1 [] P1 D D D Sa HR (nil_broadcast_r P1)) as (b & -> & Sb & Vb). cbn [bind].
  exists r0, b. split; [reflexivity|]. split; [now rewrite HF|]. split; [now rewrite HG|]. split.
  - intros p i Hp Hi. rewrite V0 by (try assumption; constructor). apply rsum_ext. intros c Hc. now rewrite W.
  - intros p i k Hp Hi Hk. rewrite Vb by assumption. rewrite rsum_swap. apply rsum_ext. intros c Hc.
    rewrite Va by assumption. rewrite <- rsum_scal_r. apply rsum_ext. intros t Ht.
    rewrite (at_matrix _ _ _ p i t T), (at_matrix _ _ _ p c k HR), W by assumption. ring.
Qed.

Lemma rotated_apply1 : forall (phi0 phi1 Rm invR phi0' phi1' : arr R) P D,
  ash invR = [D; D] -> ash phi0 = P ++ [D] -> ash phi1 = P ++ [D; D] -> undoes D invR Rm ->
  rotate_by_matrix phi0 phi1 invR = Ok (phi0', phi1') ->
  forall p (m : nat -> R), inside P p ->
  forall i, (i < D)%nat -> rsum D (fun k => -2 * at_ phi1' (p ++ [i; k]) * rsum D (fun g => at_ Rm [k; g] * m g)) =
    rsum D (fun a => at_ invR [a; i] * rsum D (fun c => -2 * at_ phi1 (p ++ [a; c]) * m c)).
Proof.
  intros phi0 phi1 Rm invR phi0' phi1' P D HR HF HG HU E p m Hp i Hi.
  destruct (C70_parameters phi0 phi1 invR P P D HR HF HG) as (x & y & E' & _ & _ & V0 & V1). rewrite E' in E. injection E as -> ->.
  assert (U : forall c, (c < D)%nat -> rsum D (fun k => at_ invR [c; k] * rsum D (fun g => at_ Rm [k; g] * m g)) = m c).
  { intros c Hc. rewrite (rsum_ext D _ (fun k => rsum D (fun g => at_ invR [c; k] * at_ Rm [k; g] * m g))).
    2:{ intros k Hk. rewrite <- rsum_scal. apply rsum_ext. intros. ring. }
    rewrite rsum_swap. rewrite (rsum_ext D _ (fun g => if (g =? c)%nat then m g else 0)); [now apply rsum_single|].
    intros g Hg. rewrite rsum_scal_r, HU by assumption. rewrite (Nat.eqb_sym c g). destruct (g =? c)%nat; ring. }
  transitivity (rsum D (fun k => rsum D (fun a => rsum D (fun c => at_ invR [a; i] * (-2 * at_ phi1 (p ++ [a; c]) * (at_ invR [c; k] * rsum D (fun g => at_ Rm [k; g] * m g))))))).
  { apply rsum_ext. intros k Hk. rewrite V1 by assumption. rewrite Rmult_comm, <- Rmult_assoc, <- rsum_scal. apply rsum_ext. intros a Ha.
    rewrite <- rsum_scal. apply rsum_ext. intros c Hc. ring. }
  rewrite rsum_swap. apply rsum_ext. intros a Ha. rewrite rsum_swap. rewrite <- rsum_scal. apply rsum_ext. intros c Hc.
  rewrite !rsum_scal. now rewrite U.
Qed.

(** If m is the mean before the rotation (the solution of (-2 phi1) m = phi0), then R m is the mean
    after it. *)
Lemma rotated_mean : forall (phi0 phi1 Rm invR phi0' phi1' : arr R) P D,
  ash invR = [D; D] -> ash phi0 = P ++ [D] -> ash phi1 = P ++ [D; D] -> undoes D invR Rm ->
  rotate_by_matrix phi0 phi1 invR = Ok (phi0', phi1') ->
  forall p (m : nat -> R), inside P p ->
  (forall a, (a < D)%nat -> rsum D (fun c => -2 * at_ phi1 (p ++ [a; c]) * m c) = at_ phi0 (p ++ [a])) ->
  forall i, (i < D)%nat -> rsum D (fun k => -2 * at_ phi1' (p ++ [i; k]) * rsum D (fun g => at_ Rm [k; g] * m g)) = at_ phi0' (p ++ [i]).
Proof.
  intros phi0 phi1 Rm invR phi0' phi1' P D HR HF HG HU E p m Hp HM i Hi.
  destruct (C70_parameters phi0 phi1 invR P P D HR HF HG) as (x & y & E' & _ & _ & V0 & _). rewrite E' in E. injection E as -> ->.
  rewrite (rotated_apply1 phi0 phi1 Rm invR phi0' phi1' P D HR HF HG HU E' p m Hp i Hi), V0 by assumption.
  apply rsum_ext. intros a Ha. f_equal. now apply HM.
Qed.

Theorem C70_mean : forall (u0 phi0 phi1 Rm invR phi0' phi1' : arr R) P D,
  ash invR = [D; D] -> ash phi0 = P ++ [D] -> ash phi1 = P ++ [D; D] -> undoes D invR Rm ->
  rotate_vector 1 u0 phi0 phi1 invR None = Ok (phi0', phi1') ->
  forall p (m : nat -> R), inside P p ->
  (forall a, (a < D)%nat -> rsum D (fun c => -2 * at_ phi1 (p ++ [a; c]) * m c) = at_ phi0 (p ++ [a])) ->
  forall i, (i < D)%nat -> rsum D (fun k => -2 * at_ phi1' (p ++ [i; k]) * rsum D (fun g => at_ Rm [k; g] * m g)) = at_ phi0' (p ++ [i]).
Proof. intros u0 phi0 phi1 Rm invR phi0' phi1' P D HR HF HG HU E. exact (rotated_mean phi0 phi1 Rm invR phi0' phi1' P D HR HF HG HU E). Qed.

(** If C is the covariance before the rotation (the inverse of -2 phi1), then R C R' is the covariance
    after it. *)
Theorem C70_covariance : forall (u0 phi0 phi1 Rm invR phi0' phi1' : arr R) P D,
  ash invR = [D; D] -> ash phi0 = P ++ [D] -> ash phi1 = P ++ [D; D] -> undoes D invR Rm -> undoes D Rm invR ->
  rotate_vector 1 u0 phi0 phi1 invR None = Ok (phi0', phi1') ->
  forall p (C : nat -> nat -> R), inside P p ->
  (forall a b, (a < D)%nat -> (b < D)%nat -> rsum D (fun c => -2 * at_ phi1 (p ++ [a; c]) * C c b) = if (a =? b)%nat then 1 else 0) ->
  forall i m, (i < D)%nat -> (m < D)%nat ->
    rsum D (fun k => -2 * at_ phi1' (p ++ [i; k]) * rsum D (fun g => at_ Rm [k; g] * rsum D (fun h => C g h * at_ Rm [m; h]))) =
    if (i =? m)%nat then 1 else 0.
Proof.
  intros u0 phi0 phi1 Rm invR phi0' phi1' P D HR HF HG HU HU' E p C Hp HC i m Hi Hm.
  rewrite (rotated_apply1 phi0 phi1 Rm invR phi0' phi1' P D HR HF HG HU E p (fun g => rsum D (fun h => C g h * at_ Rm [m; h])) Hp i Hi).
  rewrite (rsum_ext D _ (fun a => at_ Rm [m; a] * at_ invR [a; i])).
  { rewrite HU' by assumption. now rewrite (Nat.eqb_sym m i). }
  intros a Ha. rewrite Rmult_comm. f_equal.
  rewrite (rsum_ext D _ (fun c => rsum D (fun h => -2 * at_ phi1 (p ++ [a; c]) * C c h * at_ Rm [m; h]))).
  2:{ intros c Hc. rewrite <- rsum_scal. apply rsum_ext. intros. ring. }
  rewrite rsum_swap. rewrite (rsum_ext D _ (fun h => if (h =? a)%nat then at_ Rm [m; h] else 0)); [now apply rsum_single|].
  intros h Hh. rewrite rsum_scal_r, HC by assumption. rewrite (Nat.eqb_sym a h). destruct (h =? a)%nat; ring.
Qed.

(** With Q the mean of plate m after the rotation is R times the combination of the means of all
    plates with row m of Q. *)
Theorem C70_mean_plates : forall (Q u0 phi0 phi1 Rm invR : arr R) n D,
  ash Q = [n; n] -> ash invR = [D; D] -> ash u0 = [n; D] -> ash phi1 = [n; D; D] -> undoes D invR Rm ->
  exists phi0' phi1', rotate_vector 1 u0 phi0 phi1 invR (Some Q) = Ok (phi0', phi1') /\
  forall m i, (m < n)%nat -> (i < D)%nat ->
    rsum D (fun k => -2 * at_ phi1' [m; i; k] * rsum D (fun g => at_ Rm [k; g] * rsum n (fun l => at_ Q [m; l] * at_ u0 [l; g]))) = at_ phi0' [m; i].
Proof.
  intros Q u0 phi0 phi1 Rm invR n D HQ HR HU HF HI. unfold rotate_vector. cbn [Nat.eqb negb].
  destruct (C70_plates Q u0 phi1 n D HQ HU HF) as (a & b & -> & Sa & Sb & V). cbn [bind fst snd].
  destruct (C70_parameters a b invR [n] [n] D HR Sa Sb) as (x & y & E & _ & _ & _ & _). exists x, y. split; [exact E|]. intros m i Hm Hi.
  apply (rotated_mean a b Rm invR x y [n] D HR Sa Sb HI E [m] (fun g => rsum n (fun l => at_ Q [m; l] * at_ u0 [l; g]))); [constructor; [exact Hm|constructor]| |exact Hi].
  intros c Hc. symmetry. exact (proj2 (V m c Hm Hc)).
Qed.

Theorem C70_matrix_mean_plates : forall (Q u0 phi0 phi1 R1 R2 inv1 inv2 : arr R) n D1 D2,
  ash Q = [n; n] -> ash inv1 = [D1; D1] -> ash inv2 = [D2; D2] -> ash u0 = [n; D1 * D2]%nat -> ash phi1 = [n; D1 * D2; D1 * D2]%nat ->
  undoes D1 inv1 R1 -> undoes D2 inv2 R2 ->
  exists phi0' phi1', rotate_matrix_q 1 u0 phi0 phi1 inv1 inv2 D1 D2 (Some Q) = Ok (phi0', phi1') /\
  forall m i j, (m < n)%nat -> (i < D1)%nat -> (j < D2)%nat ->
    rsum D1 (fun k => rsum D2 (fun l => -2 * at_ phi1' [m; i * D2 + j; k * D2 + l]%nat *
       rsum D1 (fun g => rsum D2 (fun h => at_ R1 [k; g] * rsum n (fun t => at_ Q [m; t] * at_ u0 [t; g * D2 + h]%nat) * at_ R2 [l; h])))) =
    at_ phi0' [m; i * D2 + j]%nat.
Proof.
  intros Q u0 phi0 phi1 R1 R2 inv1 inv2 n D1 D2 HQ H1 H2 HU HF I1 I2. unfold rotate_matrix_q. cbn [Nat.eqb negb].
  destruct (C70_plates Q u0 phi1 n (D1 * D2) HQ HU HF) as (a & b & -> & Sa & Sb & V). cbn [bind fst snd].
  destruct (C69_parameters a b inv1 inv2 [n] [n] D1 D2 H1 H2 Sa Sb) as (x & y & E & _). exists x, y. split; [exact E|]. intros m i j Hm Hi Hj.
  apply (C69_mean a b R1 R2 inv1 inv2 x y [n] D1 D2 H1 H2 Sa Sb I1 I2 E [m] (fun g h => rsum n (fun t => at_ Q [m; t] * at_ u0 [t; g * D2 + h]%nat)));
    [constructor; [exact Hm|constructor]| |exact Hi|exact Hj].
  intros c d Hc Hd. destruct (V m (c * D2 + d)%nat Hm (flat_lt _ _ _ _ Hc Hd)) as [_ V0]. cbn [app]. rewrite V0.
  exact (rsum_flat D1 D2 (fun t => -2 * at_ b [m; (c * D2 + d)%nat; t] * rsum n (fun k => at_ Q [m; k] * at_ u0 [k; t]))).
Qed.

Theorem C70_only_vectors : forall nd u0 phi0 phi1 i1 i2 D1 D2 Q, nd <> 1%nat ->
  rotate_vector nd u0 phi0 phi1 i1 Q = Err NotImplementedError /\ rotate_matrix_q nd u0 phi0 phi1 i1 i2 D1 D2 Q = Err NotImplementedError.
Proof. intros nd u0 phi0 phi1 i1 i2 D1 D2 Q H. unfold rotate_vector, rotate_matrix_q. destruct (Nat.eqb_spec nd 1); [contradiction|split; reflexivity]. Qed.

(** Two plates of vectors of length two, with [shear] for the plates and [shear1] for the vectors. *)
Definition prec2 : arr R := Arr [2; 2; 2]%nat (fun e => if (e 0 =? e 1)%nat then - (1 / 2) else 0).

Example C70_case : undoes 2 shear1_inv shear1 /\
  (exists a b, rotate_by_plates shear (ramp [2; 2]%nat) prec2 = Ok (a, b) /\ at_ b [1; 0; 0]%nat = - (1 / 50) /\ at_ a [1; 0]%nat = 6 / 25) /\
  (exists a b, rotate_vector 1 (ramp [2; 2]%nat) (ramp [2; 2]%nat) prec2 shear1_inv (Some shear) = Ok (a, b)) /\
  (exists a b, rotate_matrix_q 1 (ramp [2; 2]%nat) (ramp [2; 2]%nat) prec2 shear1_inv half 2 1 (Some shear) = Ok (a, b)).
Proof.
  split; [exact (proj1 C69_case)|]. split; [|split].
  - destruct (C70_plates shear (ramp [2; 2]%nat) prec2 2 2 eq_refl eq_refl eq_refl) as (a & b & E & _ & _ & V). exists a, b. split; [exact E|].
    destruct (V 1%nat 0%nat ltac:(lia) ltac:(lia)) as [V1 V0]. cbn [rsum] in V0.
    assert (W : forall i j, (i < 2)%nat -> (j < 2)%nat -> at_ shear [i; j] = if (j =? 0)%nat then 1 else if (i =? 1)%nat then 3 else 2).
    { intros i j Hi Hj. unfold shear. rewrite at_arr by now apply inside2. reflexivity. }
    assert (P0 : at_ b [1; 0; 0]%nat = - (1 / 50)).
    { rewrite V1 by lia. cbn [rsum]. rewrite !W by lia. unfold prec2. rewrite at_arr by (constructor; [lia|apply inside2; lia]). cbn. field. }
    assert (P1 : at_ b [1; 0; 1]%nat = 0).
    { rewrite V1 by lia. cbn [rsum]. rewrite !W by lia. unfold prec2. rewrite at_arr by (constructor; [lia|apply inside2; lia]). cbn. field. }
    split; [exact P0|]. rewrite V0, P0, P1, !W by lia. unfold ramp. rewrite !at_arr by (apply inside2; lia). cbn. lra.
  - destruct (C70_mean_plates shear (ramp [2; 2]%nat) (ramp [2; 2]%nat) prec2 shear1 shear1_inv 2 2 eq_refl eq_refl eq_refl eq_refl (proj1 C69_case)) as (a & b & E & _). now exists a, b.
  - destruct (C70_matrix_mean_plates shear (ramp [2; 2]%nat) (ramp [2; 2]%nat) prec2 shear1 two shear1_inv half 2 2 1 eq_refl eq_refl eq_refl eq_refl eq_refl (proj1 C69_case) (proj1 (proj2 C69_case))) as (a & b & E & _). now exists a, b.
Qed.

Print Assumptions C70_plates.
Print Assumptions C70_plates_axes.
Print Assumptions C70_parameters.
Print Assumptions C70_mean.
Print Assumptions C70_mean_plates.
Print Assumptions C70_matrix_mean_plates.
Print Assumptions C70_only_vectors.
Print Assumptions C70_covariance.
