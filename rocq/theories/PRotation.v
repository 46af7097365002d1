(** C45: rotating both factors. *)
From Coq Require Import List Arith Lia Bool Reals Lra FunctionalExtensionality.
From Verif Require Import Base NumPy TensorLemmas MarkovLemmas Families SpecFamilies FamiliesLemmas
  Linalg MatBridge SpecLinalg LinalgLemmas Gaussian SpecGaussian GaussLemmas GaussAlg PGaussian PGaussian2 Rotation.
Import ListNotations.
Open Scope R_scope.

Definition moments_of (k : block_kind) : nat -> vec * mat -> res ((vec * mat) * R) :=
  match k with RotGaussian => gaussian_moments | RotGaussianARD => ard_moments end.
(** The moments and g stored for a plate are those of its natural parameters. *)
Definition plate_ok (k : block_kind) (D : nat) (s : gstate) : Prop :=
  symmetric D (snd (g_phi s)) /\ recomputed D (moments_of k D) (g_phi s) (g_u s) (g_g s).

(** First and second moment of the inner product of two independent Gaussians. *)
Definition dot_mean (D : nat) (s1 s2 : gstate) : R := innerv D (fst (g_u s1)) (fst (g_u s2)).
Definition dot_second (D : nat) (s1 s2 : gstate) : R := tracedot D (snd (g_u s1)) (transpose (snd (g_u s2))).

Lemma innerm_dot3 : forall D S A B, innerm D (dot3 D S A (transpose S)) B = innerm D A (dot3 D (transpose S) B S).
Proof.
  intros D S A B. unfold innerm, dot3, mmdot, transpose.
  transitivity (rsum D (fun i => rsum D (fun j => rsum D (fun k => rsum D (fun l => S i l * A l k * S j k * B i j))))).
  { apply rsum_ext. intros i Hi. apply rsum_ext. intros j Hj. rewrite <- rsum_scal_r. apply rsum_ext. intros k Hk.
    rewrite <- rsum_scal_r, <- rsum_scal_r. apply rsum_ext. intros; ring. }
  transitivity (rsum D (fun l => rsum D (fun k => rsum D (fun j => rsum D (fun i => S i l * A l k * S j k * B i j))))).
  2:{ apply rsum_ext. intros l Hl. apply rsum_ext. intros k Hk. rewrite <- rsum_scal. apply rsum_ext. intros j Hj.
      rewrite <- rsum_scal_r, <- rsum_scal. apply rsum_ext. intros; ring. }
  rewrite (rsum_ext D _ (fun i => rsum D (fun l => rsum D (fun k => rsum D (fun j => S i l * A l k * S j k * B i j))))).
  2:{ intros i Hi. rewrite (rsum_ext D _ (fun j => rsum D (fun l => rsum D (fun k => S i l * A l k * S j k * B i j)))) by (intros; apply rsum_swap).
      rewrite rsum_swap. apply rsum_ext. intros l Hl. apply rsum_swap. }
  rewrite rsum_swap. apply rsum_ext. intros l Hl. rewrite rsum_swap. apply rsum_ext. intros k Hk. apply rsum_swap.
Qed.
Lemma dot3_cancel : forall D A Q S, is_inverse D Q S -> meq D (dot3 D S (dot3 D Q A (transpose Q)) (transpose S)) A.
Proof.
  intros D A Q S [_ I] i j Hi Hj. unfold dot3.
  assert (ID : meq D (mmdot D (transpose Q) (transpose S)) identity).
  { intros a b Ha Hb. transitivity (mmdot D S Q b a).
    - unfold mmdot, transpose. apply rsum_ext. intros; ring.
    - rewrite (I b a Hb Ha). unfold identity. now rewrite Nat.eqb_sym. }
  rewrite (@meq_assoc D S (mmdot D (mmdot D Q A) (transpose Q)) (transpose S) i j Hi Hj).
  assert (E1 : meq D (mmdot D (mmdot D (mmdot D Q A) (transpose Q)) (transpose S)) (mmdot D Q A)).
  { intros a b Ha Hb. rewrite (@meq_assoc D (mmdot D Q A) (transpose Q) (transpose S) a b Ha Hb).
    rewrite (mmdot_ext D (mmdot D Q A) (mmdot D Q A) _ identity (fun _ _ _ _ => eq_refl) ID a b Ha Hb). now apply mmdot_id_r. }
  rewrite (mmdot_ext D S S _ (mmdot D Q A) (fun _ _ _ _ => eq_refl) E1 i j Hi Hj).
  rewrite <- (@meq_assoc D S Q A i j Hi Hj).
  rewrite (mmdot_ext D _ identity A A I (fun _ _ _ _ => eq_refl) i j Hi Hj). now apply mmdot_id_l.
Qed.

Lemma rotate_rec : forall D Rm invR (phi u : vec * mat) g, symmetric D (snd phi) -> is_inverse D Rm invR ->
  recomputed D (gaussian_moments D) phi u g ->
  let '(u', phi', g') := gaussian_rotate D Rm invR (ln (Rabs (mdet D Rm))) u phi g in
  recomputed D (gaussian_moments D) phi' u' g'.
Proof.
  intros D Rm invR phi u g Sy I ([m S] & H & E0 & E1). cbn [fst snd] in *.
  pose proof (rotate_ok D Rm invR phi (m, S) g S Sy I H (fun _ _ _ _ => eq_refl)) as T.
  unfold gaussian_rotate in *. cbn [fst snd] in *. destruct T as (u' & G & F0 & F1). cbn [fst snd] in *.
  exists u'. split; [exact G|]. cbn [fst snd]. split.
  - intros i Hi. rewrite (F0 i Hi). apply mvdot_ext; [intros ? ? ? ?; reflexivity|exact E0|exact Hi].
  - intros i j Hi Hj. rewrite (F1 i j Hi Hj). apply dot3_ext; assumption.
Qed.
Lemma gaussian_ard_rec : forall D phi u g, recomputed D (ard_moments D) phi u g -> recomputed D (gaussian_moments D) phi u g.
Proof.
  intros D phi u g ([m S] & H & E0 & E1). destruct (gaussian_ard D phi _ g H) as (S' & H' & ES). cbn [fst snd] in *.
  exists (m, S'). cbn [fst snd]. split; [exact H'|]. split; [exact E0|]. intros i j Hi Hj. rewrite (ES i j Hi Hj). now apply E1.
Qed.

(** What a rotated plate is, whichever of the two node types. *)
Lemma rotate_plate_ok : forall k D Rm invR s, is_inverse D Rm invR -> plate_ok k D s ->
  let s' := rotate_plate k D Rm invR (ln (Rabs (mdet D Rm))) s in
  plate_ok k D s' /\ veq D (fst (g_u s')) (mvdot D Rm (fst (g_u s))) /\
  meq D (snd (g_u s')) (dot3 D Rm (snd (g_u s)) (transpose Rm)) /\
  g_g s' = g_g s - ln (Rabs (mdet D Rm)).
Proof.
  intros k D Rm invR [u phi g] I [Sy H]. cbn [g_u g_phi g_g] in *. destruct k; cbn [rotate_plate g_u g_phi g_g] in *.
  - pose proof (rotate_rec D Rm invR phi u g Sy I H) as T. unfold gaussian_rotate in *. cbn [fst snd g_u g_phi g_g] in *.
    split; [split; [now apply congr_symmetric|exact T]|]. repeat split; intros ? **; reflexivity.
  - pose proof (rotate_rec D Rm invR phi u g Sy I (gaussian_ard_rec D phi u g H)) as T.
    unfold gaussian_rotate, ard_rotate in *. cbn [fst snd g_u g_phi g_g] in *.
    assert (MC : meq D (dot3 D (transpose invR) (snd phi) invR) (rotate_covariance D (snd phi) (transpose invR))).
    { intros i j Hi Hj. symmetry. exact (rotate_covariance_dot3 D (snd phi) (transpose invR) i j Hi Hj). }
    pose proof (@congr_symmetric D (snd phi) invR Sy) as Sy'.
    apply (gm_ext D (mvdot D (transpose invR) (fst phi), dot3 D (transpose invR) (snd phi) invR)
      (rotate_mean D (fst phi) (transpose invR), rotate_covariance D (snd phi) (transpose invR)) _ _ Sy' (fun _ _ => eq_refl) MC) in T.
    split; [split|].
    + exact (symmetric_ext D _ _ MC Sy').
    + destruct T as (u' & G & F0 & F1). cbn [fst snd g_phi g_u] in *. apply ard_gaussian. exists u'. split; [exact G|].
      split; [exact F0|]. intros i j Hi Hj. rewrite (F1 i j Hi Hj). symmetry. apply (rotate_covariance_dot3 D (snd u) Rm i j Hi Hj).
    + split; [intros ? ?; reflexivity|]. split; [|reflexivity]. exact (rotate_covariance_dot3 D (snd u) Rm).
Qed.

Lemma inverse_logdet : forall D Rm invR, is_inverse D Rm invR ->
  - ln (Rabs (mdet D Rm)) = ln (Rabs (mdet D (transpose invR))).
Proof.
  intros D Rm invR I. pose proof (inverse_det I) as E. rewrite mdet_tr.
  assert (N : mdet D Rm <> 0) by (intros Z; rewrite Z in E; lra).
  assert (N' : mdet D invR = / mdet D Rm) by (rewrite <- (Rmult_1_r (/ _)), <- E; field; exact N).
  rewrite N', Rabs_inv, ln_Rinv; [reflexivity|]. now apply Rabs_pos_lt.
Qed.

(** For every pair of plates the mean and the second moment of the inner product are
    unchanged, the two changes of g cancel, and the moments stored are still those of
    the natural parameters stored. *)
Theorem C45_rotation : forall np_inv np_logdet minimize D b1 b2 b1' b2',
  (forall A V, np_inv A = Ok V -> is_inverse D A V) ->
  (forall A, np_logdet A = ln (Rabs (mdet D A))) ->
  (forall s, In s (b_plates b1) -> plate_ok (b_kind b1) D s) ->
  (forall s, In s (b_plates b2) -> plate_ok (b_kind b2) D s) ->
  rotation_optimizer np_inv np_logdet minimize D b1 b2 = Ok (b1', b2') ->
  length (b_plates b1') = length (b_plates b1) /\ length (b_plates b2') = length (b_plates b2) /\
  forall i j s1 s2, nth_error (b_plates b1) i = Some s1 -> nth_error (b_plates b2) j = Some s2 ->
    exists s1' s2', nth_error (b_plates b1') i = Some s1' /\ nth_error (b_plates b2') j = Some s2' /\
      plate_ok (b_kind b1') D s1' /\ plate_ok (b_kind b2') D s2' /\
      dot_mean D s1' s2' = dot_mean D s1 s2 /\ dot_second D s1' s2' = dot_second D s1 s2 /\
      g_g s1' + g_g s2' = g_g s1 + g_g s2.
Proof.
  intros np_inv np_logdet minimize D b1 b2 b1' b2' HI HL P1 P2 H. unfold rotation_optimizer in H.
  destruct (rotation_cost _ _ _ _ _ identity); [|discriminate]. cbn [bind] in H.
  destruct (minimize _ _) as [Rm|]; [|discriminate]. cbn [bind] in H.
  destruct (rotation_cost _ _ _ _ _ Rm); [|discriminate]. cbn [bind] in H.
  destruct (np_inv Rm) as [invR|] eqn:EI; [|discriminate]. cbn [bind] in H. injection H as <- <-.
  apply HI in EI as I. assert (I2 : is_inverse D (transpose invR) (transpose Rm)) by (apply inverse_tr, inverse_sym, I).
  unfold rotate_block. cbn [b_plates b_kind]. rewrite !map_length. split; [reflexivity|]. split; [reflexivity|].
  intros i j s1 s2 H1 H2. do 2 eexists. split; [apply map_nth_error, H1|]. split; [apply map_nth_error, H2|].
  apply nth_error_In in H1. apply nth_error_In in H2. rewrite HL.
  rewrite (inverse_logdet D Rm invR I).
  destruct (rotate_plate_ok (b_kind b1) D Rm invR s1 I (P1 s1 H1)) as (Q1 & M1 & C1 & G1).
  destruct (rotate_plate_ok (b_kind b2) D (transpose invR) (transpose Rm) s2 I2 (P2 s2 H2)) as (Q2 & M2 & C2 & G2).
  split; [exact Q1|]. split; [exact Q2|]. split; [|split].
  - unfold dot_mean. rewrite (innerv_ext D _ _ _ _ M1 M2), innerv_tr. apply innerv_ext; [|intros ? ?; reflexivity].
    intros k Hk. rewrite (mvdot_assoc D invR Rm _ k Hk). transitivity (mvdot D identity (fst (g_u s1)) k); [|now apply mvdot_id].
    apply mvdot_ext; [apply I|intros ? ?; reflexivity|exact Hk].
  - unfold dot_second. change (fun A B => tracedot D A (transpose B)) with (fun A B => innerm D A B).
    change (innerm D (snd (g_u (rotate_plate (b_kind b1) D Rm invR (ln (Rabs (mdet D Rm))) s1)))
                     (snd (g_u (rotate_plate (b_kind b2) D (transpose invR) (transpose Rm) (ln (Rabs (mdet D (transpose invR)))) s2)))
            = innerm D (snd (g_u s1)) (snd (g_u s2))).
    rewrite (innerm_ext D _ _ _ _ C1 C2), innerm_dot3. apply innerm_ext; [intros ? ? ? ?; reflexivity|].
    exact (dot3_cancel D (snd (g_u s2)) (transpose invR) (transpose Rm) I2).
  - rewrite G1, G2, <- (inverse_logdet D Rm invR I). ring.
Qed.
Print Assumptions C45_rotation.

(** A RotateGaussian block always raises NameError: its bound reads an undefined name. *)
Theorem C45_rotate_gaussian_raises : forall np_inv np_logdet minimize D b1 b2,
  b_kind b1 = RotGaussian -> (exists V, np_inv identity = Ok V) ->
  rotation_optimizer np_inv np_logdet minimize D b1 b2 = Err NameError.
Proof.
  intros np_inv np_logdet minimize D b1 b2 K [V E]. unfold rotation_optimizer, rotation_cost, block_bound. rewrite E, K. reflexivity.
Qed.
Print Assumptions C45_rotate_gaussian_raises.

(** A concrete case: two correlated plane Gaussians, the optimiser returns a shear. *)
Definition ex_block (u : vec * mat) (g : R) : block :=
  Block RotGaussianARD [GState u ex_phi g] (fun _ _ _ => Ok (0, fun _ _ => 0)).
Definition ex_inv (A : mat) : res mat :=
  match ClassicalEpsilon.excluded_middle_informative (exists V, is_inverse 2 A V) with
  | left H => Ok (proj1_sig (ClassicalEpsilon.constructive_indefinite_description _ H))
  | right _ => Err ValueError
  end.
Example ex_rotation : exists u g,
  plate_ok RotGaussianARD 2 (GState u ex_phi g) /\
  (forall A V, ex_inv A = Ok V -> is_inverse 2 A V) /\
  exists b, rotation_optimizer ex_inv (fun A => ln (Rabs (mdet 2 A))) (fun _ _ => Ok ex_R) 2 (ex_block u g) (ex_block u g) = Ok b.
Proof.
  destruct ex_state as (Sy & _ & u & g & _ & H). exists u, g. split; [|split].
  - split; [exact Sy|]. exists u. split; [exact H|]. split; [intros ? ?|intros ? ? ? ?]; reflexivity.
  - intros A V. unfold ex_inv. destruct (ClassicalEpsilon.excluded_middle_informative _) as [E|]; [|discriminate].
    destruct (ClassicalEpsilon.constructive_indefinite_description _ E) as [W HW]. cbn. now injection 1 as <-.
  - unfold rotation_optimizer, rotation_cost, ex_inv, block_bound. cbn [ex_block b_kind b_bound].
    destruct (ClassicalEpsilon.excluded_middle_informative (exists V, is_inverse 2 identity V)) as [E|N].
    2:{ exfalso. apply N. exists identity. split; apply mmdot_id_l. }
    cbn [bind].
    destruct (ClassicalEpsilon.excluded_middle_informative (exists V, is_inverse 2 ex_R V)) as [E'|N].
    2:{ exfalso. apply N. exists ex_invR. exact ex_inverse. }
    cbn [bind]. eexists. reflexivity.
Qed.
