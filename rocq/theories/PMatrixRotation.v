(** C69: rotating a vector variable as a matrix. *)
From Coq Require Import List Arith ZArith Lia Bool Reals Lra FunctionalExtensionality.
From Verif Require Import Base Shapes SpecShapes ShapesLemmas NumPy TensorLemmas PNumeric ArrayTools SpecArrayTools PArrayTools
  GaussArrays PGaussArrays MatrixRotation.
Import ListNotations.
Open Scope nat_scope.

Lemma transposed_ok : forall X p q, ash X = [p; q] -> ash (transposed X) = [q; p] /\
  forall i j, i < q -> j < p -> at_ (transposed X) [i; j] = at_ X [j; i].
Proof.
  intros X p q H. split; [unfold transposed; cbn [ash]; rewrite H; reflexivity|].
  intros i j Hi Hj. rewrite !pos2_list. now apply (transposed_at X p q).
Qed.

Lemma nil_broadcast_r : forall s, numpy_broadcast [s; []] s.
Proof.
  intros s. destruct (nil_broadcast s) as (A & B & C). split; [|split].
  - intros a [<- | [<- | []]]; [apply A; right; now left|apply A; now left].
  - destruct B as [B|(a & Ha & L)]; [now left|right]. exists s. split; [now left|reflexivity].
  - intros k. split; [intros a [<- | [<- | []]]; [now right|left; unfold ax; destruct k; reflexivity]|].
    right. exists s. split; [now left|reflexivity].
Qed.

Lemma dot_ok : forall (A B : arr R) PA PB P m n k, ash A = PA ++ [m; n] -> ash B = PB ++ [n; k] -> numpy_broadcast [PA; PB] P ->
  exists y, la_dot A B = Ok y /\ ash y = P ++ [m; k] /\
    forall p i j, inside P p -> i < m -> j < k -> at_ y (p ++ [i; j]) = rsum n (fun l => at_ A (p ++ [i; l]) * at_ B (p ++ [l; j]))%R.
Proof.
  intros A B PA PB P m n k HA HB HP. unfold la_dot, ndim. rewrite HA, HB, !app_length. cbn [length].
  destruct (Nat.ltb_spec (length PA + 2) 2); [lia|]. destruct (Nat.ltb_spec (length PB + 2) 2); [lia|]. cbn [orb].
  pose proof (proj1 (last_app PA [m; n])) as LA. pose proof (proj1 (last_app PB [n; k])) as LB. cbn [length] in LA, LB. rewrite LA, LB. rewrite (proj2 (broadcasted_shape_ok _ _) HP). cbn [bind].
  assert (X : forall Q a b, ax (Q ++ [a; b]) 0 = b /\ ax (Q ++ [a; b]) 1 = a) by (intros; unfold ax; rewrite rev_app_distr; split; reflexivity).
  rewrite (proj1 (X PA m n)), (proj2 (X PA m n)), (proj1 (X PB n k)), (proj2 (X PB n k)), Nat.eqb_refl.
  eexists. split; [reflexivity|]. split; [reflexivity|]. intros p i j Hp Hi Hj.
  rewrite at_arr by (apply inside_app; [exact Hp|constructor; [exact Hi|constructor; [exact Hj|constructor]]]).
  apply rsum_ext. intros l Hl. unfold at_. f_equal; f_equal; apply functional_extensionality; intros t; unfold pos; rewrite !rev_app_distr; destruct t as [|[|t]]; reflexivity.
Qed.

Lemma inside2 : forall a b i j, i < a -> j < b -> inside [a; b] [i; j].
Proof. intros a b i j Hi Hj. constructor; [exact Hi|]. constructor; [exact Hj|constructor]. Qed.
Lemma flat_lt : forall a b i j, i < a -> j < b -> i * b + j < a * b.
Proof. intros. nia. Qed.

Lemma flat_inside : forall a b i j, i < a -> j < b -> inside [a * b] [i * b + j].
Proof. intros. constructor; [now apply flat_lt|constructor]. Qed.

Theorem C69_parameters : forall (phi0 phi1 inv1 inv2 : arr R) P0 P1 D1 D2,
  ash inv1 = [D1; D1] -> ash inv2 = [D2; D2] -> ash phi0 = P0 ++ [D1 * D2] -> ash phi1 = P1 ++ [D1 * D2; D1 * D2] ->
  exists phi0' phi1', rotate_matrix 1 phi0 phi1 inv1 inv2 D1 D2 = Ok (phi0', phi1') /\
    ash phi0' = ash phi0 /\ ash phi1' = ash phi1 /\
    (forall p i j, inside P0 p -> i < D1 -> j < D2 ->
       at_ phi0' (p ++ [i * D2 + j]) =
       rsum D1 (fun a => rsum D2 (fun b => (at_ inv1 [a; i] * at_ inv2 [b; j] * at_ phi0 (p ++ [a * D2 + b]%nat))%R))) /\
    (forall p i j k l, inside P1 p -> i < D1 -> j < D2 -> k < D1 -> l < D2 ->
       at_ phi1' (p ++ [i * D2 + j; k * D2 + l]) =
       rsum D1 (fun a => rsum D2 (fun b => rsum D1 (fun c => rsum D2 (fun d =>
         (at_ inv1 [a; i] * at_ inv2 [b; j] * at_ phi1 (p ++ [a * D2 + b; c * D2 + d]%nat) * (at_ inv1 [c; k] * at_ inv2 [d; l]))%R))))).
Proof.
  intros phi0 phi1 inv1 inv2 P0 P1 D1 D2 H1 H2 HF HG. unfold rotate_matrix. cbn [Nat.eqb negb].
  assert (L0 : but_last 1 (ash phi0) = P0) by (rewrite HF; apply (last_app P0 [D1 * D2])).
  assert (L1 : but_last 2 (ash phi1) = P1) by (rewrite HG; apply (last_app P1 [D1 * D2; D1 * D2])). rewrite L0, L1.
  destruct (reshape_some _ phi0 (P0 ++ [D1; D2])) as (p0 & E0 & S0); [rewrite HF, !count_app; cbn; lia|].
  destruct (reshape_some _ phi1 (P1 ++ [D1; D2; D1; D2])) as (p1 & E1 & S1); [rewrite HG, !count_app; cbn; nia|].
  rewrite E0, E1. cbn [bind].
  destruct (transposed_ok inv1 D1 D1 H1) as [T1 W1]. destruct (transposed_ok inv2 D2 D2 H2) as [T2 W2].
  destruct (dot_ok (transposed inv1) p0 [] P0 P0 D1 D1 D2 T1 S0 (nil_broadcast P0)) as (q0 & -> & Sq0 & Vq0). cbn [bind].
  destruct (dot_ok q0 inv2 P0 [] P0 D1 D2 D2 Sq0 H2) as (q0' & -> & Sq0' & Vq0'). { apply nil_broadcast_r. } cbn [bind].
  destruct (ein_plain (transposed inv1) p1 P1 D1 D1 [D2; D1; D2] T1 S1) as (a1 & Ea1 & Sa1 & Va1). cbn [length] in Ea1. rewrite Ea1. cbn [bind].
  destruct (ein_plain (transposed inv1) a1 (P1 ++ [D1; D2]) D1 D1 [D2] T1) as (a2 & Ea2 & Sa2 & Va2); [rewrite Sa1; assoc|]. cbn [length] in Ea2. rewrite Ea2. cbn [bind].
  destruct (ein_plain (transposed inv2) a2 (P1 ++ [D1]) D2 D2 [D1; D2] T2) as (a3 & Ea3 & Sa3 & Va3); [rewrite Sa2; assoc|]. cbn [length] in Ea3. rewrite Ea3. cbn [bind].
  destruct (ein_plain (transposed inv2) a3 (P1 ++ [D1; D2; D1]) D2 D2 [] T2) as (a4 & Ea4 & Sa4 & Va4); [rewrite Sa3; assoc|]. cbn [length] in Ea4. rewrite Ea4. cbn [bind].
  destruct (reshape_some _ q0' (ash phi0)) as (r0 & Er0 & Sr0); [rewrite HF, Sq0', !count_app; cbn; lia|].
  destruct (reshape_some _ a4 (ash phi1)) as (r1 & Er1 & Sr1); [rewrite HG, Sa4, <- app_assoc, !count_app; cbn; nia|].
  rewrite Er0. cbn [bind]. rewrite Er1. cbn [bind]. exists r0, r1. split; [reflexivity|]. split; [exact Sr0|]. split; [exact Sr1|].
  assert (F0 : forall p i j, inside P0 p -> i < D1 -> j < D2 -> at_ p0 (p ++ [i; j]) = at_ phi0 (p ++ [i * D2 + j])).
  { intros p i j Hp Hi Hj. apply (reshape_at _ phi0 p0 _ _ _ E0).
    - rewrite HF. apply inside_app; [exact Hp|now apply flat_inside].
    - apply inside_app; [exact Hp|now apply inside2].
    - apply inside_length in Hp. rewrite HF, !place_app by exact Hp. cbn. lia. }
  assert (F1 : forall p i j k l, inside P1 p -> i < D1 -> j < D2 -> k < D1 -> l < D2 ->
    at_ p1 (p ++ [i; j; k; l]) = at_ phi1 (p ++ [i * D2 + j; k * D2 + l])).
  { intros p i j k l Hp Hi Hj Hk Hl. apply (reshape_at _ phi1 p1 _ _ _ E1).
    - rewrite HG. apply inside_app; [exact Hp|now apply inside2; apply flat_lt].
    - apply inside_app; [exact Hp|]. constructor; [exact Hi|]. constructor; [exact Hj|]. now apply inside2.
    - apply inside_length in Hp. rewrite HG, !place_app by exact Hp. cbn. nia. }
  split.
  - intros p i j Hp Hi Hj. transitivity (at_ q0' (p ++ [i; j])).
    { apply (reshape_at _ q0' r0 _ _ _ Er0).
      - rewrite Sq0'. apply inside_app; [exact Hp|now apply inside2].
      - rewrite HF. apply inside_app; [exact Hp|now apply flat_inside].
      - apply inside_length in Hp. rewrite Sq0', HF, !place_app by exact Hp. cbn. lia. }
    rewrite Vq0' by assumption. rewrite rsum_swap.
    rewrite (rsum_ext D2 _ (fun b => rsum D1 (fun a => (at_ inv1 [a; i] * at_ inv2 [b; j] * at_ phi0 (p ++ [a * D2 + b]%nat))%R))%R); [reflexivity|].
    intros b Hb. rewrite Vq0 by assumption. rewrite <- rsum_scal_r. apply rsum_ext. intros a Ha.
    rewrite (at_matrix _ _ _ p i a T1), (at_matrix _ _ _ p b j H2), W1, F0 by assumption. ring.
  - intros p i j k l Hp Hi Hj Hk Hl. transitivity (at_ a4 (p ++ [i; j; k; l])).
    { apply (reshape_at _ a4 r1 _ _ _ Er1).
      - rewrite Sa4. rewrite <- app_assoc. apply inside_app; [exact Hp|]. constructor; [exact Hi|]. constructor; [exact Hj|]. now apply inside2.
      - rewrite HG. apply inside_app; [exact Hp|now apply inside2; apply flat_lt].
      - apply inside_length in Hp. rewrite Sa4, HG, <- app_assoc, !place_app by exact Hp. cbn. nia. }
    assert (IN : forall (s t : list nat) x y, inside s t -> x < y -> inside (s ++ [y]) (t ++ [x])) by (intros; apply inside_app; [assumption|constructor; [assumption|constructor]]).
    assert (A4 : forall x, at_ a4 (p ++ [i; j; k; x]) = at_ a4 ((p ++ [i; j; k]) ++ [x])) by (intros; f_equal; assoc).
    rewrite A4, Va4; [|apply inside_app; [exact Hp|constructor; [exact Hi|now apply inside2]]|exact Hl|constructor].
    rewrite (rsum_ext D2 _ (fun d => rsum D2 (fun b => rsum D1 (fun c => rsum D1 (fun a =>
       (at_ inv1 [a; i] * at_ inv2 [b; j] * at_ phi1 (p ++ [a * D2 + b; c * D2 + d]%nat) * (at_ inv1 [c; k] * at_ inv2 [d; l]))%R))))%R).
    + (* reorder the sums *)
      symmetry. rewrite (rsum_ext D1 _ (fun a => rsum D2 (fun d => rsum D2 (fun b => rsum D1 (fun c => 
        (at_ inv1 [a; i] * at_ inv2 [b; j] * at_ phi1 (p ++ [a * D2 + b; c * D2 + d]%nat) * (at_ inv1 [c; k] * at_ inv2 [d; l]))%R))))%R).
      2:{ intros a Ha. rewrite (rsum_swap D2 D2). apply rsum_ext. intros b Hb. apply rsum_swap. }
      rewrite rsum_swap. apply rsum_ext. intros d Hd. rewrite rsum_swap. apply rsum_ext. intros b Hb. apply rsum_swap.
    + intros d Hd. rewrite W2 by assumption.
      replace ((p ++ [i; j; k]) ++ [d]) with ((p ++ [i]) ++ [j; k; d]) by (assoc).
      rewrite Va3; [|apply IN; assumption|exact Hj|now apply inside2]. rewrite <- rsum_scal. apply rsum_ext. intros b Hb. rewrite W2 by assumption.
      replace ((p ++ [i]) ++ [b; k; d]) with ((p ++ [i; b]) ++ [k; d]) by (assoc).
      rewrite Va2; [|apply inside_app; [exact Hp|now apply inside2]|exact Hk|constructor; [exact Hd|constructor]].
      rewrite <- Rmult_assoc, <- rsum_scal. apply rsum_ext. intros c Hc. rewrite W1 by assumption.
      replace ((p ++ [i; b]) ++ [c; d]) with (p ++ [i; b; c; d]) by (assoc).
      rewrite Va1; [|exact Hp|exact Hi|constructor; [exact Hb|now apply inside2]].
      rewrite <- Rmult_assoc, <- rsum_scal. apply rsum_ext. intros a Ha. rewrite W1, F1 by assumption. ring.
Qed.

Theorem C69_only_vectors : forall nd (phi0 phi1 inv1 inv2 : arr R) D1 D2, nd <> 1 ->
  rotate_matrix nd phi0 phi1 inv1 inv2 D1 D2 = Err NotImplementedError.
Proof. intros nd phi0 phi1 inv1 inv2 D1 D2 H. unfold rotate_matrix. destruct (Nat.eqb_spec nd 1); [contradiction|reflexivity]. Qed.

(** ** Sums over the positions of a matrix *)
Open Scope R_scope.
Definition sum2 (m n : nat) (f : nat -> nat -> R) : R := rsum m (fun a => rsum n (f a)).
Lemma sum2_ext : forall m n f g, (forall a b, (a < m)%nat -> (b < n)%nat -> f a b = g a b) -> sum2 m n f = sum2 m n g.
Proof. intros m n f g H. apply rsum_ext. intros a Ha. apply rsum_ext. auto. Qed.
Lemma sum2_scal : forall m n c f, sum2 m n (fun a b => c * f a b) = c * sum2 m n f.
Proof. intros m n c f. unfold sum2. rewrite <- rsum_scal. apply rsum_ext. intros a Ha. apply rsum_scal. Qed.
Lemma sum2_swap : forall m n f, sum2 m n (fun a b => sum2 m n (fun c d => f a b c d)) = sum2 m n (fun c d => sum2 m n (fun a b => f a b c d)).
Proof.
  intros m n f. unfold sum2.
  transitivity (rsum m (fun a => rsum m (fun c => rsum n (fun b => rsum n (fun d => f a b c d))))).
  { apply rsum_ext. intros a Ha. apply rsum_swap. }
  rewrite rsum_swap. apply rsum_ext. intros c Hc.
  transitivity (rsum m (fun a => rsum n (fun d => rsum n (fun b => f a b c d)))).
  { apply rsum_ext. intros a Ha. apply rsum_swap. }
  apply rsum_swap.
Qed.
Lemma sum2_prod : forall m n f g, sum2 m n (fun a b => f a * g b) = rsum m f * rsum n g.
Proof. intros m n f g. unfold sum2. rewrite <- rsum_scal_r. apply rsum_ext. intros a Ha. now rewrite rsum_scal. Qed.

(** [B] is a left inverse of [A]. *)
Definition undoes (n : nat) (B A : arr R) : Prop := forall i j, (i < n)%nat -> (j < n)%nat ->
  rsum n (fun k => at_ B [i; k] * at_ A [k; j]) = if (i =? j)%nat then 1 else 0.

Lemma unrotate : forall D1 D2 (R1 R2 inv1 inv2 : arr R) M c d, undoes D1 inv1 R1 -> undoes D2 inv2 R2 -> (c < D1)%nat -> (d < D2)%nat ->
  sum2 D1 D2 (fun k l => at_ inv1 [c; k] * at_ inv2 [d; l] * sum2 D1 D2 (fun g h => at_ R1 [k; g] * M g h * at_ R2 [l; h])) = M c d.
Proof.
  intros D1 D2 R1 R2 inv1 inv2 M c d H1 H2 Hc Hd.
  rewrite (sum2_ext _ _ _ (fun k l => sum2 D1 D2 (fun g h => at_ inv1 [c; k] * at_ inv2 [d; l] * (at_ R1 [k; g] * M g h * at_ R2 [l; h])))).
  2:{ intros k l Hk Hl. now rewrite sum2_scal. }
  rewrite sum2_swap.
  rewrite (sum2_ext _ _ _ (fun g h => if (g =? c)%nat then (if (h =? d)%nat then M g h else 0) else 0)).
  - unfold sum2. rewrite (rsum_ext D1 _ (fun g => if (g =? c)%nat then rsum D2 (fun h => if (h =? d)%nat then M g h else 0) else 0)).
    2:{ intros g Hg. destruct (g =? c)%nat; [reflexivity|apply rsum_0]. }
    rewrite (rsum_single D1 c (fun g => rsum D2 (fun h => if (h =? d)%nat then M g h else 0)) Hc).
    apply (rsum_single D2 d (fun h => M c h) Hd).
  - intros g h Hg Hh.
    rewrite (sum2_ext _ _ _ (fun k l => M g h * ((at_ inv1 [c; k] * at_ R1 [k; g]) * (at_ inv2 [d; l] * at_ R2 [l; h])))) by (intros; ring).
    rewrite sum2_scal, sum2_prod, H1, H2 by assumption. rewrite (Nat.eqb_sym c g), (Nat.eqb_sym d h).
    destruct (g =? c)%nat, (h =? d)%nat; ring.
Qed.

(** The new precision applied to a rotated matrix is the rotated result of the old precision. *)
Lemma rotated_apply : forall (phi0 phi1 R1 R2 inv1 inv2 phi0' phi1' : arr R) P D1 D2,
  ash inv1 = [D1; D1] -> ash inv2 = [D2; D2] -> ash phi0 = P ++ [D1 * D2]%nat -> ash phi1 = P ++ [D1 * D2; D1 * D2]%nat ->
  undoes D1 inv1 R1 -> undoes D2 inv2 R2 ->
  rotate_matrix 1 phi0 phi1 inv1 inv2 D1 D2 = Ok (phi0', phi1') ->
  forall p (M : nat -> nat -> R), inside P p ->
  forall i j, (i < D1)%nat -> (j < D2)%nat ->
     sum2 D1 D2 (fun k l => -2 * at_ phi1' (p ++ [i * D2 + j; k * D2 + l]%nat) *
        sum2 D1 D2 (fun g h => at_ R1 [k; g] * M g h * at_ R2 [l; h])) =
     sum2 D1 D2 (fun a b => at_ inv1 [a; i] * at_ inv2 [b; j] * sum2 D1 D2 (fun c d => -2 * at_ phi1 (p ++ [a * D2 + b; c * D2 + d]%nat) * M c d)).
Proof.
  intros phi0 phi1 R1 R2 inv1 inv2 phi0' phi1' P D1 D2 S1 S2 HF HG H1 H2 E p M Hp i j Hi Hj.
  destruct (C69_parameters phi0 phi1 inv1 inv2 P P D1 D2 S1 S2 HF HG) as (a0 & a1 & E' & _ & _ & V0 & V1).
  rewrite E' in E. injection E as -> ->.
  set (K := fun a b => at_ inv1 [a; i] * at_ inv2 [b; j]).
  set (F := fun a b c d => at_ phi1 (p ++ [a * D2 + b; c * D2 + d]%nat)).
  set (N := fun k l => sum2 D1 D2 (fun g h => at_ R1 [k; g] * M g h * at_ R2 [l; h])).
  transitivity (sum2 D1 D2 (fun k l => sum2 D1 D2 (fun a b => sum2 D1 D2 (fun c d => K a b * (-2 * F a b c d * (at_ inv1 [c; k] * at_ inv2 [d; l] * N k l)))))).
  { apply sum2_ext. intros k l Hk Hl. rewrite V1 by assumption. fold (N k l).
    change (-2 * sum2 D1 D2 (fun a b => sum2 D1 D2 (fun c d => K a b * F a b c d * (at_ inv1 [c; k] * at_ inv2 [d; l]))) * N k l =
      sum2 D1 D2 (fun a b => sum2 D1 D2 (fun c d => K a b * (-2 * F a b c d * (at_ inv1 [c; k] * at_ inv2 [d; l] * N k l))))).
    rewrite Rmult_comm, <- Rmult_assoc, <- sum2_scal. apply sum2_ext. intros a b Ha Hb. rewrite <- sum2_scal. apply sum2_ext. intros c d Hc Hd. ring. }
  rewrite sum2_swap. apply sum2_ext. intros a b Ha Hb. rewrite sum2_swap.
  change (sum2 D1 D2 (fun c d => sum2 D1 D2 (fun k l => K a b * (-2 * F a b c d * (at_ inv1 [c; k] * at_ inv2 [d; l] * N k l)))) =
    K a b * sum2 D1 D2 (fun c d => -2 * F a b c d * M c d)).
  rewrite <- sum2_scal. apply sum2_ext. intros c d Hc Hd. rewrite sum2_scal. f_equal. rewrite sum2_scal. f_equal.
  exact (unrotate D1 D2 R1 R2 inv1 inv2 M c d H1 H2 Hc Hd).
Qed.

(** If M is the mean of the variable, read as a matrix, before the rotation (the solution of
    (-2 phi1) m = phi0), then R1 M R2' is the mean after it. *)
Theorem C69_mean : forall (phi0 phi1 R1 R2 inv1 inv2 phi0' phi1' : arr R) P D1 D2,
  ash inv1 = [D1; D1] -> ash inv2 = [D2; D2] -> ash phi0 = P ++ [D1 * D2]%nat -> ash phi1 = P ++ [D1 * D2; D1 * D2]%nat ->
  undoes D1 inv1 R1 -> undoes D2 inv2 R2 ->
  rotate_matrix 1 phi0 phi1 inv1 inv2 D1 D2 = Ok (phi0', phi1') ->
  forall p (M : nat -> nat -> R), inside P p ->
  (forall a b, (a < D1)%nat -> (b < D2)%nat ->
     rsum D1 (fun c => rsum D2 (fun d => -2 * at_ phi1 (p ++ [a * D2 + b; c * D2 + d]%nat) * M c d)) = at_ phi0 (p ++ [a * D2 + b]%nat)) ->
  forall i j, (i < D1)%nat -> (j < D2)%nat ->
     rsum D1 (fun k => rsum D2 (fun l => -2 * at_ phi1' (p ++ [i * D2 + j; k * D2 + l]%nat) *
        rsum D1 (fun g => rsum D2 (fun h => at_ R1 [k; g] * M g h * at_ R2 [l; h])))) = at_ phi0' (p ++ [i * D2 + j]%nat).
Proof.
  intros phi0 phi1 R1 R2 inv1 inv2 phi0' phi1' P D1 D2 S1 S2 HF HG H1 H2 E p M Hp HM i j Hi Hj.
  destruct (C69_parameters phi0 phi1 inv1 inv2 P P D1 D2 S1 S2 HF HG) as (a0 & a1 & E' & _ & _ & V0 & _).
  rewrite E' in E. injection E as -> ->. rewrite V0 by assumption.
  etransitivity; [exact (rotated_apply phi0 phi1 R1 R2 inv1 inv2 _ _ P D1 D2 S1 S2 HF HG H1 H2 E' p M Hp i j Hi Hj)|].
  apply sum2_ext. intros a b Ha Hb. f_equal. exact (HM a b Ha Hb).
Qed.

(** If C is the covariance before the rotation (the inverse of -2 phi1), then the covariance after it
    is that of R1 X R2'. *)
Theorem C69_covariance : forall (phi0 phi1 R1 R2 inv1 inv2 phi0' phi1' : arr R) P D1 D2,
  ash inv1 = [D1; D1] -> ash inv2 = [D2; D2] -> ash phi0 = P ++ [D1 * D2]%nat -> ash phi1 = P ++ [D1 * D2; D1 * D2]%nat ->
  undoes D1 inv1 R1 -> undoes D2 inv2 R2 -> undoes D1 R1 inv1 -> undoes D2 R2 inv2 ->
  rotate_matrix 1 phi0 phi1 inv1 inv2 D1 D2 = Ok (phi0', phi1') ->
  forall p (C : nat -> nat -> nat -> nat -> R), inside P p ->
  (forall a b m n, (a < D1)%nat -> (b < D2)%nat -> (m < D1)%nat -> (n < D2)%nat ->
     rsum D1 (fun c => rsum D2 (fun d => -2 * at_ phi1 (p ++ [a * D2 + b; c * D2 + d]%nat) * C c d m n)) =
     if ((a =? m) && (b =? n))%nat then 1 else 0) ->
  forall i j m n, (i < D1)%nat -> (j < D2)%nat -> (m < D1)%nat -> (n < D2)%nat ->
     rsum D1 (fun k => rsum D2 (fun l => -2 * at_ phi1' (p ++ [i * D2 + j; k * D2 + l]%nat) *
        rsum D1 (fun g => rsum D2 (fun h => at_ R1 [k; g] *
          rsum D1 (fun g' => rsum D2 (fun h' => at_ R1 [m; g'] * at_ R2 [n; h'] * C g h g' h')) * at_ R2 [l; h])))) =
     if ((i =? m) && (j =? n))%nat then 1 else 0.
Proof.
  intros phi0 phi1 R1 R2 inv1 inv2 phi0' phi1' P D1 D2 S1 S2 HF HG H1 H2 H3 H4 E p C Hp HC i j m n Hi Hj Hm Hn.
  etransitivity; [exact (rotated_apply phi0 phi1 R1 R2 inv1 inv2 _ _ P D1 D2 S1 S2 HF HG H1 H2 E p
    (fun g h => sum2 D1 D2 (fun g' h' => at_ R1 [m; g'] * at_ R2 [n; h'] * C g h g' h')) Hp i j Hi Hj)|].
  transitivity (sum2 D1 D2 (fun a b => (at_ R1 [m; a] * at_ inv1 [a; i]) * (at_ R2 [n; b] * at_ inv2 [b; j]))).
  - apply sum2_ext. intros a b Ha Hb.
    rewrite (sum2_ext _ _ _ (fun c d => sum2 D1 D2 (fun g' h' => at_ R1 [m; g'] * at_ R2 [n; h'] * (-2 * at_ phi1 (p ++ [a * D2 + b; c * D2 + d]%nat) * C c d g' h')))).
    2:{ intros c d Hc Hd. rewrite <- sum2_scal. apply sum2_ext. intros. ring. }
    rewrite sum2_swap.
    rewrite (sum2_ext _ _ _ (fun g' h' => if (g' =? a)%nat then (if (h' =? b)%nat then at_ R1 [m; g'] * at_ R2 [n; h'] else 0) else 0)).
    + unfold sum2. rewrite (rsum_ext D1 _ (fun g => if (g =? a)%nat then rsum D2 (fun h => if (h =? b)%nat then at_ R1 [m; g] * at_ R2 [n; h] else 0) else 0)).
      2:{ intros g Hg. destruct (g =? a)%nat; [reflexivity|apply rsum_0]. }
      rewrite (rsum_single D1 a (fun g => rsum D2 (fun h => if (h =? b)%nat then at_ R1 [m; g] * at_ R2 [n; h] else 0)) Ha).
      rewrite (rsum_single D2 b (fun h => at_ R1 [m; a] * at_ R2 [n; h]) Hb). ring.
    + intros g h Hg Hh. rewrite sum2_scal. unfold sum2. rewrite HC by assumption. rewrite (Nat.eqb_sym a g), (Nat.eqb_sym b h).
      destruct (g =? a)%nat, (h =? b)%nat; cbn [andb]; ring.
  - rewrite sum2_prod, H3, H4 by assumption. rewrite (Nat.eqb_sym m i), (Nat.eqb_sym n j).
    destruct (i =? m)%nat, (j =? n)%nat; cbn [andb]; ring.
Qed.

(** A vector of length 2*1 on three plates, doubled and sheared. *)
Definition shear1 : arr R := Arr [2; 2]%nat (fun e => if (e 0 =? e 1)%nat then 1 else if (e 0 =? 1)%nat then 3 else 0).
Definition shear1_inv : arr R := Arr [2; 2]%nat (fun e => if (e 0 =? e 1)%nat then 1 else if (e 0 =? 1)%nat then -3 else 0).
Definition two : arr R := Arr [1; 1]%nat (fun _ => 2).
Definition half : arr R := Arr [1; 1]%nat (fun _ => / 2).
Definition loc : arr R := Arr [3; 2]%nat (fun e => INR (e 0%nat + e 1%nat)).
Definition prec : arr R := Arr [3; 2; 2]%nat (fun e => if (e 0 =? e 1)%nat then - (1 / 2) else 0).

Example C69_case : undoes 2 shear1_inv shear1 /\ undoes 1 half two /\ undoes 2 shear1 shear1_inv /\ undoes 1 two half /\
  exists a b, rotate_matrix 1 loc prec shear1_inv half 2 1 = Ok (a, b) /\ at_ a [2; 1]%nat = - 3 / 2 /\ at_ b [0; 1; 1]%nat = - (10 / 8).
Proof.
  assert (V : forall i j, (i < 2)%nat -> (j < 2)%nat -> at_ shear1_inv [i; j] = (if (j =? i)%nat then 1 else if (j =? 1)%nat then -3 else 0) /\
     at_ shear1 [i; j] = (if (j =? i)%nat then 1 else if (j =? 1)%nat then 3 else 0)).
  { intros i j Hi Hj. unfold shear1_inv, shear1. rewrite !at_arr by now apply inside2. split; reflexivity. }
  assert (H : at_ half [0; 0]%nat = / 2) by (unfold half; rewrite at_arr; [reflexivity|apply inside2; lia]).
  assert (T : at_ two [0; 0]%nat = 2) by (unfold two; rewrite at_arr; [reflexivity|apply inside2; lia]).
  split; [|split; [|split; [|split]]].
  - intros i j Hi Hj. cbn [rsum].
    destruct (V i 0%nat Hi) as [-> _]; [lia|]. destruct (V i 1%nat Hi) as [-> _]; [lia|].
    destruct (V 0%nat j) as [_ ->]; [lia|exact Hj|]. destruct (V 1%nat j) as [_ ->]; [lia|exact Hj|].
    destruct i as [|[|i]]; [| |lia]; destruct j as [|[|j]]; try lia; cbn; lra.
  - intros i j Hi Hj. assert (i = 0%nat) as -> by lia. assert (j = 0%nat) as -> by lia. cbn [rsum Nat.eqb]. rewrite H, T. lra.
  - intros i j Hi Hj. cbn [rsum].
    destruct (V i 0%nat Hi) as [_ ->]; [lia|]. destruct (V i 1%nat Hi) as [_ ->]; [lia|].
    destruct (V 0%nat j) as [-> _]; [lia|exact Hj|]. destruct (V 1%nat j) as [-> _]; [lia|exact Hj|].
    destruct i as [|[|i]]; [| |lia]; destruct j as [|[|j]]; try lia; cbn; lra.
  - intros i j Hi Hj. assert (i = 0%nat) as -> by lia. assert (j = 0%nat) as -> by lia. cbn [rsum Nat.eqb]. rewrite H, T. lra.
  - destruct (C69_parameters loc prec shear1_inv half [3%nat] [3%nat] 2 1 eq_refl eq_refl eq_refl eq_refl) as (a & b & E & _ & _ & V0 & V1).
    exists a, b. split; [exact E|].
    assert (I : forall m, (m < 3)%nat -> inside [3%nat] [m]) by (intros; constructor; [assumption|constructor]).
    split.
    + specialize (V0 [2%nat] 1%nat 0%nat (I 2%nat ltac:(lia)) ltac:(lia) ltac:(lia)). cbn [app Nat.mul Nat.add] in V0. rewrite V0. cbn [rsum Nat.mul Nat.add].
      rewrite H. destruct (V 0%nat 1%nat) as [-> _]; [lia|lia|]. destruct (V 1%nat 1%nat) as [-> _]; [lia|lia|].
      unfold loc. rewrite !at_arr by (apply inside2; lia). cbn. lra.
    + specialize (V1 [0%nat] 1%nat 0%nat 1%nat 0%nat (I 0%nat ltac:(lia)) ltac:(lia) ltac:(lia) ltac:(lia) ltac:(lia)). cbn [app Nat.mul Nat.add] in V1. rewrite V1. cbn [rsum Nat.mul Nat.add].
      rewrite H. destruct (V 0%nat 1%nat) as [-> _]; [lia|lia|]. destruct (V 1%nat 1%nat) as [-> _]; [lia|lia|].
      unfold prec. rewrite !at_arr by (constructor; [lia|apply inside2; lia]). cbn. lra.
Qed.

Print Assumptions C69_parameters.
Print Assumptions C69_only_vectors.
Print Assumptions C69_mean.
Print Assumptions C69_covariance.
