(** Lemmas for C25: the distributions of GaussNet.v have the kinds of SpecGaussNet.v. *)
From Coq Require Import List Arith ZArith Lia Bool Reals Lra FunctionalExtensionality.
From Verif Require Import Base Shapes SpecShapes ShapesLemmas NumPy MiscArray TensorLemmas
  EinsumLemmas SumMultiplyLemmas SpecArray PlateSumLemmas PlateSum2Lemmas MessageLemmas
  ShapeOpsLemmas DiagLemmas ExpFam SpecExpFam ExpFamLemmas ExpFamBound ExpFamGrad PExpFam SpecUpdate
  UpdateLemmas PUpdate Families SpecFamilies FamilyDist SpecFamilyDist PFamilyDist Network SpecNetwork NetworkLemmas NetworkLemmas2
  PNetwork FamilyNet PFamilyNet Dot SpecDot DetNet SpecDetNet DetNetLemmas DetNetLemmas2
  Linalg MatBridge SpecLinalg LinalgLemmas Gaussian SpecGaussian GaussLemmas GaussAlg PGaussian PGaussian2 GaussGibbs GaussianDist PGaussianDist
  GaussNet SpecGaussNet PlateDet GaussTypes.
Import ListNotations.
Open Scope R_scope.

Lemma total_2d_inner : forall D a b, total [D; D] (fun v => a v * b v) = innerm D (as_mat a) (as_mat b).
Proof. intros. apply total_2d. Qed.

(** ** Linear functions of moments are expectations *)
Section Moments.
Variable s : shape.
Variable u : list (env -> R).
Variable l : list (R * (R * (env -> R))).
Hypothesis E0 : forall v, valid s v -> coef u 0 v = avg l (fun o => fst o * snd o v).
Hypothesis E1 : forall v w, valid s v -> valid s w -> coef u 1 (join (length s) v w) = avg l (fun o => fst o * (snd o v * snd o w)).

Lemma mean_lin : forall f, total s (fun v => coef u 0 v * f v) = avg l (fun o => fst o * total s (fun v => snd o v * f v)).
Proof.
  intros f. rewrite (total_ext s _ (fun v => avg l (fun o => fst o * (snd o v * f v)))).
  - rewrite avg_total. apply avg_ext. intros o _. now rewrite total_cmul.
  - intros v Hv. rewrite E0 by exact Hv. rewrite Rmult_comm, <- avg_cmul. apply avg_ext. intros; ring.
Qed.
Lemma second_lin : forall m, total (s ++ s) (fun v => m v * coef u 1 v) = avg l (fun o => fst o * quad s m (snd o)).
Proof.
  intros m. rewrite total_app. rewrite (total_ext s _ (fun v => avg l (fun o => fst o * total s (fun w => m (join (length s) v w) * snd o v * snd o w)))).
  - rewrite avg_total. apply avg_ext. intros o _. unfold quad. now rewrite total_cmul.
  - intros v Hv. rewrite (total_ext s _ (fun w => avg l (fun o => fst o * (m (join (length s) v w) * snd o v * snd o w)))).
    + rewrite avg_total. apply avg_ext. intros o _. now rewrite total_cmul.
    + intros w Hw. rewrite E1 by assumption. rewrite <- avg_cmul. apply avg_ext. intros; ring.
Qed.
Lemma second_quad : forall f, quad s (coef u 1) f = avg l (fun o => fst o * (total s (fun v => snd o v * f v) * total s (fun v => snd o v * f v))).
Proof.
  intros f. unfold quad. rewrite (total_ext s _ (fun v => avg l (fun o => fst o * (snd o v * f v * total s (fun w => snd o w * f w))))).
  - rewrite avg_total. apply avg_ext. intros o _. rewrite total_cmul. f_equal.
    rewrite (total_ext s _ (fun v => total s (fun w => snd (snd o) w * f w) * (snd (snd o) v * f v))) by (intros; ring). now rewrite total_cmul.
  - intros v Hv. rewrite (total_ext s _ (fun w => avg l (fun o => fst o * (snd o v * f v) * (snd o w * f w)))).
    + rewrite avg_total. apply avg_ext. intros o _. rewrite total_cmul. ring.
    + intros w Hw. rewrite E1 by assumption. rewrite (Rmult_comm _ (f v)), Rmult_assoc, (Rmult_comm _ (f w)), <- !avg_cmul.
      apply avg_ext. intros; ring.
Qed.
Lemma second_sym : msym s (coef u 1).
Proof. intros v w Hv Hw. rewrite !E1 by assumption. apply avg_ext. intros; ring. Qed.
End Moments.

(** Gaussian moments are Gaussian-gamma moments with tau = 1. *)
Definition unit_scale (l : list (R * (env -> R))) : list (R * (R * (env -> R))) := map (fun o => (fst o, (1, snd o))) l.
Lemma avg_unit : forall l F, avg (unit_scale l) F = avg l (fun f => F (1, f)).
Proof. intros l F. unfold avg, unit_scale. now rewrite map_map. Qed.
Lemma probs_unit : forall l, probs l -> probs (unit_scale l).
Proof.
  intros l [P S]. split.
  - unfold unit_scale. apply Forall_map. exact P.
  - unfold unit_scale. now rewrite map_map.
Qed.
Lemma gaussian_unit : forall s u, mt_mom (MGaussian s) u -> exists l, probs l /\ (forall o, In o l -> fst (snd o) = 1) /\
  (forall v, valid s v -> coef u 0 v = avg l (fun o => fst o * snd o v)) /\
  (forall v w, valid s v -> valid s w -> coef u 1 (join (length s) v w) = avg l (fun o => fst o * (snd o v * snd o w))).
Proof.
  intros s u (l & P & E0 & E1). exists (unit_scale l). split; [now apply probs_unit|]. split; [|split].
  - intros o Ho. unfold unit_scale in Ho. apply in_map_iff in Ho as (x & <- & _). reflexivity.
  - intros v Hv. rewrite avg_unit. cbn. rewrite E0 by exact Hv. apply avg_ext. intros; ring.
  - intros v w Hv Hw. rewrite avg_unit. cbn. rewrite E1 by assumption. apply avg_ext. intros; ring.
Qed.

(** ** Mean and covariance of a finite distribution *)
Definition spread (n : nat) (t : R) (mu : env -> R) (g : nat -> env -> R) : list (R * (R * (env -> R))) :=
  flat_map (fun k => let c := sqrt (INR (S n) / t) in
    [(/ (2 * INR (S n)), (t, fun v => mu v + c * g k v)); (/ (2 * INR (S n)), (t, fun v => mu v - c * g k v))]) (seq 0 (S n)).
Lemma lsum_app : forall a b, lsum (a ++ b) = lsum a + lsum b.
Proof. intros a b. unfold lsum. induction a as [|x a IH]; cbn; [ring|]. rewrite IH. ring. Qed.
Lemma lsum_seq : forall n F, lsum (map F (seq 0 n)) = rsum n F.
Proof.
  induction n as [|n IH]; intros F; [reflexivity|]. rewrite seq_S, map_app, lsum_app, IH. cbn. unfold lsum. cbn. ring.
Qed.
Lemma avg_spread : forall n t mu g F, avg (spread n t mu g) F =
  rsum (S n) (fun k => / (2 * INR (S n)) * (F (t, fun v => mu v + sqrt (INR (S n) / t) * g k v)) +
                       / (2 * INR (S n)) * (F (t, fun v => mu v - sqrt (INR (S n) / t) * g k v))).
Proof.
  intros n t mu g F. rewrite <- lsum_seq. unfold avg, spread. generalize (seq 0 (S n)) as ks. intros ks.
  induction ks as [|k ks IH]; [reflexivity|]. cbn [flat_map]. rewrite map_app, lsum_app, IH. unfold lsum. cbn [map fold_right fst snd]. ring.
Qed.
Lemma rsum_const_c : forall n c, rsum n (fun _ => c) = INR n * c.
Proof. induction n as [|n IH]; intros c; cbn [rsum]; [cbn; ring|]. rewrite IH, S_INR. ring. Qed.
Lemma spread_ok : forall n t mu g, 0 < t ->
  probs (spread n t mu g) /\ (forall o, In o (spread n t mu g) -> fst (snd o) = t) /\
  (forall v, avg (spread n t mu g) (fun o => fst o * snd o v) = t * mu v) /\
  (forall v w, avg (spread n t mu g) (fun o => fst o * (snd o v * snd o w)) = t * (mu v * mu w) + rsum (S n) (fun k => g k v * g k w)).
Proof.
  intros n t mu g Ht. assert (N : 0 < INR (S n)) by (apply lt_0_INR; lia).
  assert (NZ : 0 <= INR (S n) / t) by (left; now apply Rdiv_lt_0_compat).
  split; [|split; [|split]].
  - split.
    + apply Forall_forall. intros o Ho. unfold spread in Ho. apply in_flat_map in Ho as (k & _ & Ho).
      assert (0 <= / (2 * INR (S n))) by (left; apply Rinv_0_lt_compat; lra).
      destruct Ho as [<-|[<-|[]]]; exact H.
    + transitivity (avg (spread n t mu g) (fun _ => 1)); [unfold avg; f_equal; apply map_ext; intros; ring|].
      rewrite avg_spread. rewrite (rsum_ext (S n) _ (fun _ => / INR (S n))) by (intros; field; lra). rewrite rsum_const_c. field. lra.
  - intros o Ho. unfold spread in Ho. apply in_flat_map in Ho as (k & _ & Ho). destruct Ho as [<-|[<-|[]]]; reflexivity.
  - intros v. rewrite avg_spread. cbn [fst snd]. rewrite (rsum_ext (S n) _ (fun _ => / INR (S n) * (t * mu v))) by (intros; field; lra).
    rewrite rsum_const_c. field. lra.
  - intros v w. rewrite avg_spread. cbn [fst snd].
    rewrite (rsum_ext (S n) _ (fun k => / INR (S n) * (t * (mu v * mu w)) + g k v * g k w)).
    + rewrite rsum_plus, rsum_const_c. field_simplify; [|lra]. reflexivity.
    + intros k _. transitivity (/ INR (S n) * (t * (mu v * mu w)) + / INR (S n) * t * (sqrt (INR (S n) / t) * sqrt (INR (S n) / t)) * (g k v * g k w)).
      * field. lra.
      * rewrite sqrt_sqrt by exact NZ. field. lra.
Qed.

(** Every mean and positive definite covariance. *)
Lemma realisable : forall D t (mu : vec) (V : mat), 0 < t -> posdef D V ->
  exists l : list (R * (R * (env -> R))), probs l /\ (forall o, In o l -> fst (snd o) = t) /\
    (forall v, valid [D] v -> avg l (fun o => fst o * snd o v) = t * mu (v 0%nat)) /\
    (forall v w, valid [D] v -> valid [D] w -> avg l (fun o => fst o * (snd o v * snd o w)) = t * (mu (v 0%nat) * mu (w 0%nat)) + V (v 0%nat) (w 0%nat)).
Proof.
  intros D t mu V Ht PV. destruct (posdef_chol D V PV) as [U EU]. pose proof (cho_factor_prod D V U (proj1 PV) EU) as EP.
  destruct (spread_ok D t (of_vec mu) (fun k v => if (k <? D)%nat then U k (v 0%nat) else 0) Ht) as (S1 & S2 & S3 & S4).
  eexists. split; [exact S1|]. split; [exact S2|]. split; [intros v _; apply S3|].
  intros v w Hv Hw. rewrite S4. f_equal. destruct (vec_index D v Hv) as [_ Hi]. destruct (vec_index D w Hw) as [_ Hj].
  cbn [rsum]. rewrite Nat.ltb_irrefl. rewrite <- (EP _ _ Hi Hj). unfold mmdot, transpose.
  rewrite Rmult_0_l, Rplus_0_r. apply rsum_ext. intros k Hk. apply Nat.ltb_lt in Hk. now rewrite Hk.
Qed.
Lemma posdef_inverse : forall D A V, posdef D A -> is_inverse D A V -> posdef D V.
Proof.
  intros D A V [S P] I. split; [now apply (@inverse_symmetric D A V)|].
  intros x Nx. pose proof (proj1 I) as I1. set (y := mvdot D V x).
  assert (EY : veq D (mvdot D A y) x).
  { intros i Hi. unfold y. rewrite (mvdot_assoc D A V x i Hi). rewrite (mvdot_ext D _ identity x x I1 (fun _ _ => eq_refl) i Hi). now apply mvdot_id. }
  assert (Ny : nonzero D y).
  { destruct (Classical_Prop.classic (nonzero D y)) as [H|H]; [exact H|]. exfalso. destruct Nx as (i & Hi & Nx). apply Nx. rewrite <- (EY i Hi).
    unfold mvdot. rewrite (rsum_ext D _ (fun _ => 0 * 0)); [rewrite rsum_scal; ring|]. intros j Hj.
    destruct (Req_dec (y j) 0) as [Z|Z]; [rewrite Z; ring|]. exfalso. apply H. now exists j. }
  specialize (P y Ny). rewrite bilinear_mv in P. rewrite (innerv_ext D y y _ x (fun _ _ => eq_refl) EY) in P.
  rewrite bilinear_mv, innerv_comm. exact P.
Qed.
