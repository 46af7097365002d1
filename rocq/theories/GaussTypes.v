(** Lemmas for C25: the kinds of moments of SpecGaussNet.v. *)
From Coq Require Import List Arith ZArith Lia Bool Reals Lra FunctionalExtensionality.
From Verif Require Import Base Shapes SpecShapes ShapesLemmas NumPy MiscArray TensorLemmas
  EinsumLemmas SumMultiplyLemmas SpecArray PlateSumLemmas PlateSum2Lemmas MessageLemmas
  ShapeOpsLemmas DiagLemmas ExpFam SpecExpFam ExpFamLemmas ExpFamBound ExpFamGrad PExpFam SpecUpdate
  UpdateLemmas PUpdate Families SpecFamilies FamilyDist SpecFamilyDist PFamilyDist Network SpecNetwork NetworkLemmas NetworkLemmas2
  PNetwork FamilyNet PFamilyNet Dot SpecDot DetNet SpecDetNet DetNetLemmas DetNetLemmas2
  Linalg MatBridge SpecLinalg LinalgLemmas Gaussian SpecGaussian GaussLemmas PGaussian PGaussian2 GaussianDist PGaussianDist
  GaussNet MixtureNet BlockBanded GaussMarkovDist SpecGaussNet PlateDet.
Import ListNotations.
Open Scope R_scope.

Lemma valid_vec : forall D i, (i < D)%nat -> valid [D] (upd env0 0 i).
Proof. intros D i H [|k]; [exact H|]. rewrite ax_overflow by (cbn; lia). unfold upd, env0. cbn. lia. Qed.
Lemma valid_mat : forall D i j, (i < D)%nat -> (j < D)%nat -> valid [D; D] (upd (upd env0 1 i) 0 j).
Proof. intros D i j H H' [|[|k]]; [exact H'|exact H|]. rewrite ax_overflow by (cbn; lia). unfold upd, env0. cbn. lia. Qed.
Lemma valid_env0 : valid [] env0.
Proof. intros i. rewrite ax_overflow by (cbn; lia). unfold env0. lia. Qed.
Lemma join_vec : forall i j, join 1 (upd env0 0 i) (upd env0 0 j) = upd (upd env0 1 i) 0 j.
Proof. intros i j. apply functional_extensionality. intros [|[|k]]; reflexivity. Qed.
Lemma join_0 : forall p v, join 0 p v = p.
Proof. intros p v. apply functional_extensionality. intros k. unfold join. cbn. now rewrite Nat.sub_0_r. Qed.
Lemma vec_index : forall D v, valid [D] v -> v = upd env0 0 (v 0%nat) /\ (v 0%nat < D)%nat.
Proof.
  intros D v H. split; [|exact (H 0%nat)]. apply functional_extensionality. intros [|k]; [reflexivity|].
  specialize (H (S k)). rewrite ax_overflow in H by (cbn; lia). unfold upd. cbn. unfold env0. lia.
Qed.

Lemma total_lin2 : forall s c d F G, total s (fun e => c * F e + d * G e) = c * total s F + d * total s G.
Proof. intros. rewrite total_lin. f_equal. rewrite (total_ext s _ (fun e => d * G e + 0)) by (intros; ring). rewrite total_lin, (total_zero s (fun _ => 0)) by reflexivity. ring. Qed.
Lemma total_add : forall s F G, total s (fun e => F e + G e) = total s F + total s G.
Proof. intros. rewrite (total_ext s _ (fun e => 1 * F e + 1 * G e)) by (intros; ring). rewrite total_lin2. ring. Qed.
Lemma total_cmul : forall s c F, total s (fun e => c * F e) = c * total s F.
Proof. intros. rewrite (total_ext s _ (fun e => c * F e + 0 * F e)) by (intros; ring). rewrite total_lin2. ring. Qed.

(** ** Quadratic forms *)
Lemma quad_ext : forall s q q' f, (forall v w, valid s v -> valid s w -> q (join (length s) v w) = q' (join (length s) v w)) ->
  quad s q f = quad s q' f.
Proof. intros s q q' f H. unfold quad. apply total_ext. intros v Hv. apply total_ext. intros w Hw. now rewrite H. Qed.
Lemma quad_lin2 : forall s c d q r t f,
  (forall v w, valid s v -> valid s w -> q (join (length s) v w) = c * r (join (length s) v w) + d * t (join (length s) v w)) ->
  quad s q f = c * quad s r f + d * quad s t f.
Proof.
  intros s c d q r t f H. unfold quad. rewrite <- total_lin2. apply total_ext. intros v Hv.
  rewrite <- total_lin2. apply total_ext. intros w Hw. rewrite H by assumption. ring.
Qed.
Lemma quad_vec : forall D q f, quad [D] q f = bilinear D (as_mat q) (as_vec f) (as_vec f).
Proof.
  intros D q f. unfold quad, bilinear. rewrite total_1d. apply rsum_ext. intros i _. rewrite total_1d. apply rsum_ext. intros j _.
  cbn [length]. rewrite join_vec. unfold as_mat, as_vec. ring.
Qed.
Lemma quad_scalar : forall q f, quad [] q f = q env0 * f env0 * f env0.
Proof. intros. unfold quad. rewrite !total_0d. cbn [length]. now rewrite join_0. Qed.
Lemma msym_vec : forall D q, msym [D] q <-> symmetric D (as_mat q).
Proof.
  intros D q. split.
  - intros H i j Hi Hj. unfold as_mat. rewrite <- !join_vec. apply (H (upd env0 0 i) (upd env0 0 j)); now apply valid_vec.
  - intros H v w Hv Hw. destruct (vec_index D v Hv) as [-> Hi]. destruct (vec_index D w Hw) as [-> Hj]. cbn [length]. rewrite !join_vec.
    now apply H.
Qed.
Lemma msym_scalar : forall q, msym [] q.
Proof. intros q v w Hv Hw. cbn [length]. rewrite !join_0. now rewrite (valid_0d v Hv), (valid_0d w Hw). Qed.
Lemma as_of_vec : forall x, as_vec (of_vec x) = x.
Proof. reflexivity. Qed.
Lemma negdef_vec : forall D q, (msym [D] q /\ forall f, nonzero_on [D] f -> quad [D] q f < 0) <-> posdef D (scal_m (-2) (as_mat q)).
Proof.
  intros D q. split.
  - intros [S H]. split; [apply symmetric_scal, msym_vec, S|]. intros x [i [Hi Nx]]. rewrite bilinear_scal.
    specialize (H (of_vec x)). rewrite quad_vec, as_of_vec in H. assert (nonzero_on [D] (of_vec x)).
    { exists (upd env0 0 i). split; [now apply valid_vec|exact Nx]. } specialize (H H0). lra.
  - intros [S H]. split.
    + apply msym_vec. intros i j Hi Hj. specialize (S i j Hi Hj). unfold scal_m in S. lra.
    + intros f [v [Hv Nf]]. destruct (vec_index D v Hv) as [E Hi]. rewrite quad_vec.
      assert (N : nonzero D (as_vec f)) by (exists (v 0%nat); split; [exact Hi|unfold as_vec; now rewrite <- E]).
      specialize (H _ N). rewrite bilinear_scal in H. lra.
Qed.
Lemma innerv_1d : forall D m f, total [D] (fun v => m v * f v) = innerv D (as_vec m) (as_vec f).
Proof. intros. apply total_1d. Qed.

(** ** Expectations *)
Section Avg.
Context {A : Type}.
Implicit Types l : list (R * A).
Lemma avg_lin2 : forall l c d F G, avg l (fun o => c * F o + d * G o) = c * avg l F + d * avg l G.
Proof. intros l c d F G. unfold avg, lsum. induction l as [|o l IH]; cbn; [ring|]. cbn in IH. rewrite IH. ring. Qed.
Lemma avg_ext : forall l F G, (forall o, In o l -> F (snd o) = G (snd o)) -> avg l F = avg l G.
Proof.
  intros l F G H. unfold avg, lsum. induction l as [|o l IH]; cbn; [reflexivity|]. rewrite H by now left.
  f_equal. apply IH. intros; apply H; now right.
Qed.
Lemma avg_const : forall l c, probs l -> avg l (fun _ => c) = c.
Proof.
  intros l c [_ H]. unfold avg. rewrite (map_ext _ (fun o => c * fst o)) by (intros; ring). transitivity (c * lsum (map fst l)); [|rewrite H; ring].
  clear H. unfold lsum. induction l as [|o l IH]; cbn; [ring|]. rewrite IH. ring.
Qed.
Lemma avg_le : forall l F G, probs l -> (forall o, In o l -> F (snd o) <= G (snd o)) -> avg l F <= avg l G.
Proof.
  intros l F G [P _]. unfold avg, lsum. induction P as [|o l Po P IH]; intros H; cbn; [lra|]. apply Rplus_le_compat.
  - apply Rmult_le_compat_l; [exact Po|apply H; now left].
  - apply IH. intros; apply H; now right.
Qed.
Lemma avg_pos : forall l F, probs l -> (forall o, In o l -> 0 < F (snd o)) -> 0 < avg l F.
Proof.
  intros l F [P S] H. unfold avg. assert (G : (0 <= lsum (map (fun o => fst o * F (snd o)) l)) /\ (0 < lsum (map fst l) -> 0 < lsum (map (fun o => fst o * F (snd o)) l))).
  { clear S. unfold lsum. induction P as [|o l Po P IH]; cbn; [lra|]. destruct IH as [I1 I2]; [intros; apply H; now right|].
    specialize (H o (or_introl eq_refl)). assert (0 <= fst o * F (snd o)) by (apply Rmult_le_pos; lra). split; [lra|]. intros X.
    destruct (Rle_lt_or_eq_dec _ _ Po) as [Q|Q]; [|rewrite <- Q in *; assert (0 < fold_right Rplus 0 (map fst l)) by lra; specialize (I2 H1); lra].
    assert (0 < fst o * F (snd o)) by now apply Rmult_lt_0_compat. lra. }
  apply G. rewrite S. lra.
Qed.
Lemma avg_total : forall s l (F : env -> A -> R), total s (fun v => avg l (F v)) = avg l (fun o => total s (fun v => F v o)).
Proof.
  intros s l F. unfold total. induction (all_indices s) as [|e es IH].
  - unfold lsum at 1. cbn. symmetry. rewrite (avg_ext l _ (fun o => 0 * 0 + 0 * 0)) by (intros; unfold lsum; cbn; ring).
    rewrite (avg_lin2 l 0 0 (fun _ => 0) (fun _ => 0)). ring.
  - unfold lsum in *. cbn [map fold_right]. rewrite IH.
    rewrite (avg_ext l (fun o => F e o + fold_right Rplus 0 (map (fun v => F v o) es)) (fun o => 1 * F e o + 1 * fold_right Rplus 0 (map (fun v => F v o) es)))
      by (intros; ring). rewrite avg_lin2. ring.
Qed.
Lemma avg_cmul : forall l c F, avg l (fun o => c * F o) = c * avg l F.
Proof. intros. rewrite (avg_ext l _ (fun o => c * F o + 0 * F o)) by (intros; ring). rewrite avg_lin2. ring. Qed.
(** Jensen. *)
Lemma avg_square : forall l t F, probs l -> (forall o, In o l -> 0 < t (snd o)) ->
  avg l (fun o => t o * F o) * avg l (fun o => t o * F o) <= avg l t * avg l (fun o => t o * (F o * F o)).
Proof.
  intros l t F P Ht. pose proof (avg_pos l t P Ht) as Pt. set (m := avg l (fun o => t o * F o)) in *.
  assert (H : 0 <= avg l (fun o => t o * ((F o - m / avg l t) * (F o - m / avg l t)))).
  { rewrite <- (avg_const l 0 P). apply avg_le; [exact P|]. intros o Ho. apply Rmult_le_pos; [left; now apply Ht|apply Rle_0_sqr]. }
  rewrite (avg_ext l _ (fun o => 1 * (t o * (F o * F o)) + 1 * ((-2 * (m / avg l t)) * (t o * F o) + (m / avg l t) * (m / avg l t) * t o))) in H by (intros; ring).
  rewrite !avg_lin2 in H. fold m in H. set (S := avg l (fun o => t o * (F o * F o))) in *. set (w := avg l t) in *.
  assert (E : m / w * w = m) by (unfold Rdiv; rewrite Rmult_assoc, Rinv_l by lra; ring).
  set (r := m / w) in *. rewrite <- E in *. nra.
Qed.
End Avg.

(** ** Messages add up, and conditions on values *)
Lemma coef_entries : forall dims (m m' : list (env -> R)), entries dims (fun c v => coef m c v = coef m' c v) ->
  forall c d v, nth_error dims c = Some d -> valid d v -> coef m c v = coef m' c v.
Proof. intros dims m m' H. exact H. Qed.

Lemma lin_vec : forall D a b m (c d : R), (forall v, valid [D] v -> m v = c * a v + d * b v) ->
  forall x, innerv D (as_vec m) x = c * innerv D (as_vec a) x + d * innerv D (as_vec b) x.
Proof.
  intros D a b m c d H x. unfold innerv. rewrite <- !rsum_scal, <- rsum_plus. apply rsum_ext. intros i Hi. unfold as_vec.
  rewrite H by now apply valid_vec. ring.
Qed.
Lemma lin_mat : forall D a b m (c d : R), (forall v, valid [D; D] v -> m v = c * a v + d * b v) ->
  forall x, bilinear D (as_mat m) x x = c * bilinear D (as_mat a) x x + d * bilinear D (as_mat b) x x.
Proof.
  intros D a b m c d H x. unfold bilinear. rewrite <- !rsum_scal, <- rsum_plus. apply rsum_ext. intros i Hi.
  rewrite <- !rsum_scal, <- rsum_plus. apply rsum_ext. intros j Hj. unfold as_mat.
  rewrite H by now apply valid_mat. ring.
Qed.
Lemma lin_sym : forall D a b m (c d : R), (forall v, valid [D; D] v -> m v = c * a v + d * b v) ->
  symmetric D (as_mat a) -> symmetric D (as_mat b) -> symmetric D (as_mat m).
Proof.
  intros D a b m c d H Sa Sb i j Hi Hj. unfold as_mat. rewrite !H by now apply valid_mat.
  specialize (Sa i j Hi Hj). specialize (Sb i j Hi Hj). unfold as_mat in *. now rewrite Sa, Sb.
Qed.
Lemma lin_msym : forall s a b m (c d : R), (forall v, valid (s ++ s) v -> m v = c * a v + d * b v) ->
  msym s a -> msym s b -> msym s m.
Proof.
  intros s a b m c d H Sa Sb v w Hv Hw. rewrite !H by now apply join_valid. now rewrite (Sa v w), (Sb v w).
Qed.
Lemma lin_quad : forall s a b m (c d : R), (forall v, valid (s ++ s) v -> m v = c * a v + d * b v) ->
  forall f, quad s m f = c * quad s a f + d * quad s b f.
Proof. intros s a b m c d H f. apply quad_lin2. intros v w Hv Hw. apply H. now apply join_valid. Qed.
Lemma lin_total : forall s a b m (c d : R), (forall v, valid s v -> m v = c * a v + d * b v) ->
  forall f, total s (fun v => m v * f v) = c * total s (fun v => a v * f v) + d * total s (fun v => b v * f v).
Proof. intros s a b m c d H f. rewrite <- total_lin2. apply total_ext. intros v Hv. rewrite H by exact Hv. ring. Qed.

(** ** Paths *)
Lemma valid_rows : forall N D n i, (n < N)%nat -> (i < D)%nat -> valid [N; D] (upd (upd env0 1 n) 0 i).
Proof. intros N D n i H H' [|[|k]]; [exact H'|exact H|]. rewrite ax_overflow by (cbn; lia). unfold upd, env0. cbn. lia. Qed.
Lemma valid_blocks : forall N D E n i j, (n < N)%nat -> (i < D)%nat -> (j < E)%nat -> valid [N; D; E] (upd (upd (upd env0 2 n) 1 i) 0 j).
Proof. intros N D E n i j H H' H2 [|[|[|k]]]; [exact H2|exact H'|exact H|]. rewrite ax_overflow by (cbn; lia). unfold upd, env0. cbn. lia. Qed.
Lemma lin_block : forall N D a b m (c d : R), (forall v, valid [N; D; D] v -> m v = c * a v + d * b v) ->
  forall n, (n < N)%nat -> forall x y, bilinear D (as_blocks m n) x y = c * bilinear D (as_blocks a n) x y + d * bilinear D (as_blocks b n) x y.
Proof.
  intros N D a b m c d H n Hn x y. unfold bilinear. rewrite <- !rsum_scal, <- rsum_plus. apply rsum_ext. intros i Hi.
  rewrite <- !rsum_scal, <- rsum_plus. apply rsum_ext. intros j Hj. unfold as_blocks.
  rewrite H by now apply valid_blocks. ring.
Qed.
Lemma lin_path : forall N D a a' b b' m m' (c d : R), (forall v, valid [N; D; D] v -> m v = c * a v + d * b v) ->
  (forall v, valid [N - 1; D; D]%nat v -> m' v = c * a' v + d * b' v) ->
  forall x, path_form N D (as_blocks m) (as_blocks m') x =
    c * path_form N D (as_blocks a) (as_blocks a') x + d * path_form N D (as_blocks b) (as_blocks b') x.
Proof.
  intros N D a a' b b' m m' c d H H' x. unfold path_form.
  rewrite (rsum_ext N _ (fun n => c * bilinear D (as_blocks a n) (x n) (x n) + d * bilinear D (as_blocks b n) (x n) (x n))) by (intros n Hn; now apply (lin_block N)).
  rewrite (rsum_ext (N - 1) (fun n => bilinear D (as_blocks m' n) (x n) (x (S n))) (fun n => c * bilinear D (as_blocks a' n) (x n) (x (S n)) + d * bilinear D (as_blocks b' n) (x n) (x (S n)))) by (intros n Hn; now apply (lin_block (N - 1))).
  rewrite !rsum_plus, !rsum_scal. ring.
Qed.
Lemma lin_block_sym : forall N D a b m (c d : R), (forall v, valid [N; D; D] v -> m v = c * a v + d * b v) ->
  forall n, (n < N)%nat -> symmetric D (as_blocks a n) -> symmetric D (as_blocks b n) -> symmetric D (as_blocks m n).
Proof.
  intros N D a b m c d H n Hn Sa Sb i j Hi Hj. unfold as_blocks. rewrite !H by now apply valid_blocks.
  specialize (Sa i j Hi Hj). specialize (Sb i j Hi Hj). unfold as_blocks in *. now rewrite Sa, Sb.
Qed.

(** ** Clusters *)
Lemma cluster_coef : forall dims k u c d v, nth_error dims c = Some d ->
  coef (cluster dims k u) c v = coef u c (join (length d) (upd env0 0 k) v).
Proof.
  induction dims as [|x dims IH]; intros k [|y u] [|c] d v H; try discriminate; try reflexivity.
  - cbn in H. injection H as <-. reflexivity.
  - exact (IH k u c d v H).
Qed.
Lemma cluster_nil : forall dims k, cluster dims k [] = [].
Proof. intros [|d dims] k; reflexivity. Qed.
Lemma cluster_length : forall dims k u, length u = length dims -> length (cluster dims k u) = length dims.
Proof. intros. unfold cluster. rewrite map_length, combine_length. lia. Qed.
Lemma cluster_valid : forall K d k v, (k < K)%nat -> valid d v -> valid (K :: d) (join (length d) (upd env0 0 k) v).
Proof. intros K d k v Hk Hv. exact (join_valid [K] d _ _ (valid_vec K k Hk) Hv). Qed.
Lemma cluster_entries : forall K dims k (P : nat -> env -> Prop), (k < K)%nat -> entries (map (cons K) dims) P ->
  forall c d v, nth_error dims c = Some d -> valid d v -> P c (join (length d) (upd env0 0 k) v).
Proof.
  intros K dims k P Hk H c d v Hd Hv. apply (H c (K :: d)); [now apply map_nth_error|now apply cluster_valid].
Qed.

(** Nonnegative combinations of messages are messages. *)
Lemma msg_lin : forall t (a b m : list (env -> R)) c d, 0 <= c -> 0 <= d -> mt_msg t a -> mt_msg t b ->
  entries (mt_dims t) (fun k v => coef m k v = c * coef a k v + d * coef b k v) -> mt_msg t m.
Proof.
  induction t as [s|s|D|D| |D| |D|K|K|dm most|s|K|N K|N D|K t IH]; intros a b m c d Hc Hd Ha Hb H; unfold entries in H; cbn [mt_dims mt_msg] in *; try exact I.
  - pose proof (fun v Hv => H 1%nat (s ++ s) v eq_refl Hv) as H1. destruct Ha as [Sa Qa], Hb as [Sb Qb]. split.
    + exact (lin_msym s _ _ _ c d H1 Sa Sb).
    + intros f. rewrite (lin_quad s _ _ _ c d H1). specialize (Qa f). specialize (Qb f). nra.
  - pose proof (fun v Hv => H 0%nat s v eq_refl Hv) as H0. pose proof (fun v Hv => H 1%nat (s ++ s) v eq_refl Hv) as H1.
    pose proof (H 2%nat [] env0 eq_refl valid_env0) as H2. pose proof (H 3%nat [] env0 eq_refl valid_env0) as H3. cbv beta in H2, H3.
    destruct Ha as (Sa & La & Qa), Hb as (Sb & Lb & Qb). split; [exact (lin_msym s _ _ _ c d H1 Sa Sb)|]. split; [rewrite H3; nra|].
    intros f. rewrite (lin_quad s _ _ _ c d H1), (lin_total s _ _ _ c d H0), H2. specialize (Qa f). specialize (Qb f). nra.
  - intros v Hv. destruct (Ha v Hv) as [A1 A2]. destruct (Hb v Hv) as [B1 B2].
    pose proof (H 0%nat _ v eq_refl Hv) as H0. pose proof (H 1%nat _ v eq_refl Hv) as H1.
    pose proof (H 2%nat _ v eq_refl Hv) as H2. pose proof (H 3%nat _ v eq_refl Hv) as H3. cbv beta in *.
    rewrite H0, H1, H2, H3. split; [nra|]. intros x. specialize (A2 x). specialize (B2 x). nra.
  - pose proof (fun v Hv => H 0%nat [D] v eq_refl Hv) as H0. pose proof (fun v Hv => H 2%nat [D; D] v eq_refl Hv) as H2.
    pose proof (H 1%nat [] env0 eq_refl valid_env0) as H1. pose proof (H 3%nat [] env0 eq_refl valid_env0) as H3. cbv beta in H1, H3.
    destruct Ha as (Sa & La & Qa), Hb as (Sb & Lb & Qb). split; [exact (lin_sym D _ _ _ c d H2 Sa Sb)|]. split; [rewrite H3; nra|].
    intros x r. rewrite (lin_mat D _ _ _ c d H2), (lin_vec D _ _ _ c d H0), H1. specialize (Qa x r). specialize (Qb x r). nra.
  - pose proof (H 0%nat [] env0 eq_refl valid_env0) as H0. pose proof (H 1%nat [] env0 eq_refl valid_env0) as H1. cbv beta in *.
    rewrite H0, H1. split; nra.
  - pose proof (fun v Hv => H 0%nat [D; D] v eq_refl Hv) as H0. pose proof (H 1%nat [] env0 eq_refl valid_env0) as H1. cbv beta in H1.
    destruct Ha as (Sa & Qa & La), Hb as (Sb & Qb & Lb). split; [exact (lin_sym D _ _ _ c d H0 Sa Sb)|]. split; [|rewrite H1; nra].
    intros x. rewrite (lin_mat D _ _ _ c d H0). specialize (Qa x). specialize (Qb x). nra.
  - intros v Hv. rewrite (H 0%nat [K] v eq_refl Hv). specialize (Ha v Hv). specialize (Hb v Hv). nra.
  - destruct Ha as [Sa Qa], Hb as [Sb Qb]. split.
    + intros n Hn. exact (lin_block_sym N D _ _ _ c d (fun v Hv => H 1%nat _ v eq_refl Hv) n Hn (Sa n Hn) (Sb n Hn)).
    + intros x. rewrite (lin_path N D _ _ _ _ _ _ c d (fun v Hv => H 1%nat _ v eq_refl Hv) (fun v Hv => H 2%nat _ v eq_refl Hv)).
      specialize (Qa x). specialize (Qb x). nra.
  - intros k Hk. apply (IH _ _ _ c d Hc Hd (Ha k Hk) (Hb k Hk)). intros i s v Hs Hv.
    rewrite !(cluster_coef _ k _ i s v Hs). exact (cluster_entries K _ k _ Hk H i s v Hs Hv).
Qed.
Lemma msg_zero : forall t, mt_msg t [].
Proof.
  intros t. assert (Z : forall c v, coef [] c v = 0) by (intros [|c] v; reflexivity).
  assert (ZV : forall D c x, innerv D (as_vec (coef [] c)) x = 0).
  { intros D c x. unfold innerv. rewrite (rsum_ext D _ (fun _ => 0 * 0)) by (intros; unfold as_vec; rewrite Z; ring). rewrite rsum_scal. ring. }
  assert (ZM : forall D c x, bilinear D (as_mat (coef [] c)) x x = 0).
  { intros D c x. unfold bilinear. rewrite (rsum_ext D _ (fun _ => 0 * 0)); [rewrite rsum_scal; ring|]. intros i _.
    rewrite (rsum_ext D _ (fun _ => 0 * 0)) by (intros; unfold as_mat; rewrite Z; ring). rewrite rsum_scal. ring. }
  assert (ZS : forall D c, symmetric D (as_mat (coef [] c))) by (intros D c i j _ _; unfold as_mat; now rewrite !Z).
  assert (ZT : forall s c f, total s (fun v => coef [] c v * f v) = 0) by (intros; apply total_zero; intros; rewrite Z; ring).
  assert (ZQ : forall s c f, quad s (coef [] c) f = 0) by (intros; unfold quad; apply total_zero; intros; apply total_zero; intros; rewrite Z; ring).
  assert (ZY : forall s c, msym s (coef [] c)) by (intros s c v w _ _; now rewrite !Z).
  induction t as [s|s|D|D| |D| |D|K|K|dm most|s|K|N K|N D|K t IH]; cbn [mt_msg]; try exact I.
  - split; [apply ZY|]. intros f. rewrite ZQ. lra.
  - split; [apply ZY|]. rewrite !Z. split; [lra|]. intros f. rewrite ZT, ZQ. lra.
  - intros v _. rewrite !Z. split; [lra|]. intros x. lra.
  - split; [apply ZS|]. rewrite !Z. split; [lra|]. intros x r. rewrite ZM, ZV. lra.
  - rewrite !Z. lra.
  - split; [apply ZS|]. split; [|rewrite Z; lra]. intros x. rewrite ZM. lra.
  - intros v _. rewrite Z. lra.
  - assert (ZB : forall c n x y, bilinear D (as_blocks (coef [] c) n) x y = 0).
    { intros c n x y. unfold bilinear. rewrite (rsum_ext D _ (fun _ => 0 * 0)); [rewrite rsum_scal; ring|]. intros i _.
      rewrite (rsum_ext D _ (fun _ => 0 * 0)) by (intros; unfold as_blocks; rewrite Z; ring). rewrite rsum_scal. ring. }
    split; [intros n _ i j _ _; unfold as_blocks; now rewrite !Z|]. intros x. unfold path_form.
    rewrite (rsum_ext N _ (fun _ => 0 * 0)) by (intros; rewrite ZB; ring).
    rewrite (rsum_ext (N - 1) _ (fun _ => 0 * 0)) by (intros; rewrite ZB; ring). rewrite !rsum_scal. lra.
  - intros k _. now rewrite cluster_nil.
Qed.

Lemma mt_cone : forall t, SpecDetNet.cone (mt_dims t) (mt_msg t).
Proof.
  intros t. constructor.
  - intros m L H. apply (msg_lin t [] [] m 0 0); try lra; try apply msg_zero.
    intros c d v Hd Hv. rewrite (H c d v Hd Hv). ring.
  - intros a b m Ha Hb L H. apply (msg_lin t a b m 1 1); try lra; try assumption.
    intros c d v Hd Hv. rewrite (H c d v Hd Hv). ring.
  - intros r a m Hr Ha L H. apply (msg_lin t a [] m r 0); try lra; try assumption; try apply msg_zero.
    intros c d v Hd Hv. rewrite (H c d v Hd Hv). ring.
Qed.

Lemma mt_values : forall t, on_values (mt_dims t) (mt_mom t).
Proof.
  induction t as [s|s|D|D| |D| |D|K|K|dm most|s|K|N K|N D|K t IH]; intros a b Ha L H; unfold entries in H; cbn [mt_dims mt_mom] in *; try exact I.
  - destruct Ha as (l & P & E0 & E1). exists l. split; [exact P|]. split.
    + intros v Hv. rewrite (H 0%nat s v eq_refl Hv). now apply E0.
    + intros v w Hv Hw. rewrite (H 1%nat (s ++ s) _ eq_refl (join_valid _ _ _ _ Hv Hw)). now apply E1.
  - destruct Ha as (l & P & Pt & E0 & E1 & E2). exists l. split; [exact P|]. split; [exact Pt|]. split; [|split].
    + intros v Hv. rewrite (H 0%nat s v eq_refl Hv). now apply E0.
    + intros v w Hv Hw. rewrite (H 1%nat (s ++ s) _ eq_refl (join_valid _ _ _ _ Hv Hw)). now apply E1.
    + rewrite (H 2%nat [] env0 eq_refl valid_env0). exact E2.
  - intros v Hv. rewrite (H 0%nat [D] v eq_refl Hv), (H 1%nat [D] v eq_refl Hv), (H 2%nat [D] v eq_refl Hv). now apply Ha.
  - pose proof (fun v Hv => H 0%nat [D] v eq_refl Hv) as H0. pose proof (fun v Hv => H 2%nat [D; D] v eq_refl Hv) as H2.
    rewrite (H 1%nat [] env0 eq_refl valid_env0). destruct Ha as [PD Q].
    assert (M : meq D (as_mat (coef a 2)) (as_mat (coef b 2))) by (intros i j Hi Hj; unfold as_mat; symmetry; apply H2; now apply valid_mat).
    split; [now apply (posdef_ext D (as_mat (coef a 2)))|]. intros x. specialize (Q x).
    rewrite <- (bilinear_ext D _ _ x x x x M (veq_refl _ _) (veq_refl _ _)).
    rewrite (innerv_ext D (as_vec (coef b 0)) (as_vec (coef a 0)) x x); [exact Q| |apply veq_refl].
    intros i Hi. apply H0. now apply valid_vec.
  - rewrite (H 0%nat [] env0 eq_refl valid_env0). exact Ha.
  - pose proof (fun v Hv => H 0%nat [D; D] v eq_refl Hv) as H2. apply (posdef_ext D (as_mat (coef a 0))); [|exact Ha].
    intros i j Hi Hj; unfold as_mat; symmetry; apply H2; now apply valid_mat.
  - rewrite (H 0%nat [] env0 eq_refl valid_env0). exact Ha.
  - rewrite (H 0%nat [] env0 eq_refl valid_env0). exact Ha.
  - intros v Hv. rewrite (H 0%nat [K] v eq_refl Hv). now apply Ha.
  - intros v Hv. rewrite (H 0%nat dm v eq_refl Hv). now apply Ha.
  - destruct Ha as [A S]. split.
    + intros v Hv. rewrite (H 0%nat [K] v eq_refl Hv). now apply A.
    + rewrite <- S. apply total_ext. intros v Hv. exact (H 0%nat [K] v eq_refl Hv).
  - destruct Ha as (A & S & A1 & S1). split; [|split; [|split]].
    + intros v Hv. rewrite (H 0%nat [K] v eq_refl Hv). now apply A.
    + rewrite <- S. apply total_ext. intros v Hv. exact (H 0%nat [K] v eq_refl Hv).
    + intros v Hv. rewrite (H 1%nat _ v eq_refl Hv). now apply A1.
    + intros n Hn. rewrite <- (S1 n Hn). apply total_ext. intros v Hv. apply (H 1%nat _ _ eq_refl).
      exact (join_valid [(N - 1)%nat] [K; K] _ v (valid_vec _ n Hn) Hv).
  - destruct Ha as (l & P & E0 & E1 & E2). exists l. split; [exact P|]. split; [|split].
    + intros n i Hn Hi. unfold as_rows. rewrite (H 0%nat [N; D] _ eq_refl) by now apply valid_rows. now apply E0.
    + intros n i j Hn Hi Hj. unfold as_blocks. rewrite (H 1%nat [N; D; D] _ eq_refl) by now apply valid_blocks. now apply E1.
    + intros n i j Hn Hi Hj. unfold as_blocks. rewrite (H 2%nat [N - 1; D; D]%nat _ eq_refl) by now apply valid_blocks. now apply E2.
  - intros k Hk. apply (IH _ _ (Ha k Hk)).
    + apply cluster_length. rewrite L. apply map_length.
    + intros i s v Hs Hv. rewrite !(cluster_coef _ k _ i s v Hs). exact (cluster_entries K _ k _ Hk H i s v Hs Hv).
Qed.
