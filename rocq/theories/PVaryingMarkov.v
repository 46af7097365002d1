(** C20 and C21 for VaryingGaussianMarkovChain and SwitchingGaussianMarkovChain. *)
From Coq Require Import List Arith Bool Reals Lia Lra Setoid Morphisms.
From Verif Require Import Base NumPy Families SpecFamilies FamiliesLemmas TensorLemmas Linalg MatBridge SpecLinalg LinalgLemmas GaussAlg Gaussian SpecGaussian
  GaussLemmas PGaussian PGaussian2
  BlockBanded BlockLemmas GaussMarkov SpecGaussMarkov GaussMarkovLemmas PGaussMarkov VaryingMarkov.
Import ListNotations.
Open Scope R_scope.

(** <phi, u> of the two classes. *)
Definition dyn_value (N D : nat) (mu : vec) (L : mat) (v : tarray) (AvA vA : nat -> mat) (u : chain) : R :=
  let '(u0, u1, u2) := u in
  innerv D (mvdot D L mu) (u0 O) + -0.5 * innerm D L (u1 O)
  + rsum (N - 1) (fun n => -0.5 * rsum D (fun i => tarray_at v n i * u1 (S n) i i))
  + rsum (N - 1) (fun n => -0.5 * innerm D (AvA n) (u1 n))
  + rsum (N - 1) (fun n => innerm D (vA n) (u2 n)).

Lemma dyn_dot : forall N D u_mu u_L v AvA vA u, (1 <= N)%nat -> time_dependent v = false ->
  exists phi, dynamic_phi N D u_mu u_L v AvA vA = Ok phi /\
  chain_dot N D phi u = dyn_value N D (fst u_mu) (fst u_L) v AvA vA u.
Proof.
  intros N D [mu mumu] [L ld] v AvA vA [[u0 u1] u2] HN HT. unfold dynamic_phi. rewrite HT. eexists. split; [reflexivity|].
  destruct N as [|M]; [lia|]. unfold chain_dot, dyn_value. cbn [fst snd]. replace (S M - 1)%nat with M by lia.
  match goal with |- rsum (S M) ?f + _ + _ = _ =>
    rewrite (sum_first M f) by (intros n Hn; unfold put; cbn; apply innerv_0);
    change (f O) with (innerv D (mvdot D L mu) (u0 O)) end.
  set (a := fun n => match n with O => -0.5 * innerm D L (u1 O) | S p => -0.5 * rsum D (fun i => tarray_at v p i * u1 (S p) i i) end).
  set (b := fun n => if (n <? M)%nat then -0.5 * innerm D (AvA n) (u1 n) else 0).
  rewrite (rsum_ext (S M) (fun n => innerm D _ (u1 n)) (fun n => a n + b n)).
  - rewrite rsum_plus, (rsum_S_l M a), (sum_last M b (fun n => -0.5 * innerm D (AvA n) (u1 n))).
    + change (a O) with (-0.5 * innerm D L (u1 O)).
      change (rsum M (fun i => a (S i))) with (rsum M (fun n => -0.5 * rsum D (fun i => tarray_at v n i * u1 (S n) i i))). unfold put; cbn [Nat.eqb]. ring.
    + unfold b. now rewrite Nat.ltb_irrefl.
    + intros n Hn. unfold b. now rewrite (proj2 (Nat.ltb_lt n M) Hn).
  - intros n Hn. cbv beta. rewrite innerm_scal_l. unfold a, b.
    assert (P : forall p, (p < M)%nat -> (S p <? S M)%nat = true) by (intros; apply Nat.ltb_lt; lia).
    destruct (n <? M)%nat; [unfold add_m; rewrite innerm_plus|]; (destruct n as [|p]; [unfold put; cbn [Nat.eqb]|rewrite P by lia; rewrite innerm_diag]); ring.
Qed.

(** Sums of products in any order. *)
Global Instance rsum_proper : Proper (eq ==> pointwise_relation nat eq ==> eq) rsum.
Proof. intros n ? <- f g H. apply rsum_ext. intros i _. apply H. Qed.
Ltac push := repeat (setoid_rewrite <- rsum_scal || setoid_rewrite <- rsum_scal_r).
Lemma pull3 : forall A B C (f : nat -> nat -> nat -> R),
  rsum A (fun a => rsum B (fun b => rsum C (fun c => f a b c))) = rsum C (fun c => rsum A (fun a => rsum B (fun b => f a b c))).
Proof. intros. rewrite (rsum_ext A _ (fun a => rsum C (fun c => rsum B (fun b => f a b c)))) by (intros; apply rsum_swap). apply rsum_swap. Qed.
Lemma pull4 : forall A B C D (f : nat -> nat -> nat -> nat -> R),
  rsum A (fun a => rsum B (fun b => rsum C (fun c => rsum D (fun d => f a b c d)))) =
  rsum D (fun d => rsum A (fun a => rsum B (fun b => rsum C (fun c => f a b c d)))).
Proof. intros. rewrite (rsum_ext A _ (fun a => rsum D (fun d => rsum B (fun b => rsum C (fun c => f a b c d))))) by (intros; apply pull3). apply rsum_swap. Qed.
Lemma pull5 : forall A B C D E (f : nat -> nat -> nat -> nat -> nat -> R),
  rsum A (fun a => rsum B (fun b => rsum C (fun c => rsum D (fun d => rsum E (fun e => f a b c d e))))) =
  rsum E (fun e => rsum A (fun a => rsum B (fun b => rsum C (fun c => rsum D (fun d => f a b c d e))))).
Proof. intros. rewrite (rsum_ext A _ (fun a => rsum E (fun e => rsum B (fun b => rsum C (fun c => rsum D (fun d => f a b c d e)))))) by (intros; apply pull4). apply rsum_swap. Qed.
Lemma pull6 : forall A B C D E F (f : nat -> nat -> nat -> nat -> nat -> nat -> R),
  rsum A (fun a => rsum B (fun b => rsum C (fun c => rsum D (fun d => rsum E (fun e => rsum F (fun g => f a b c d e g)))))) =
  rsum F (fun g => rsum A (fun a => rsum B (fun b => rsum C (fun c => rsum D (fun d => rsum E (fun e => f a b c d e g)))))).
Proof. intros. rewrite (rsum_ext A _ (fun a => rsum F (fun g => rsum B (fun b => rsum C (fun c => rsum D (fun d => rsum E (fun e => f a b c d e g))))))) by (intros; apply pull5). apply rsum_swap. Qed.

Lemma rsum2_plus : forall A B (f g : nat -> nat -> R),
  rsum A (fun a => rsum B (fun b => f a b + g a b)) = rsum A (fun a => rsum B (fun b => f a b)) + rsum A (fun a => rsum B (fun b => g a b)).
Proof. intros. rewrite <- rsum_plus. apply rsum_ext. intros. apply rsum_plus. Qed.
(** The moments of nu: arrays of shape (D,) or (1, D), with the same values for all
    transitions. *)
Definition constant_nu (N D : nat) (u_v : nu_moments) : Prop :=
  tarray_full N D (fst u_v) /\ tarray_full N D (snd u_v) /\
  time_dependent (fst u_v) = false /\ time_dependent (snd u_v) = false.
Lemma not_dep : forall N D v n d, tarray_full N D v -> time_dependent v = false -> (n < N - 1)%nat -> tarray_at v n d = tarray_at v 0 d.
Proof.
  intros N D [x|k w|m k w] n d H T Hn; try reflexivity. unfold tarray_full in H; unfold time_dependent in T. apply Nat.ltb_ge in T.
  assert (m = 1)%nat as -> by (destruct H as [_ [H|H]]; lia). reflexivity.
Qed.

(** ** C20, VaryingGaussianMarkovChain *)
(** The message to B: one for every row d of the dynamics. *)
Theorem C20_varying_B : forall N D K u f u_mu u_Lambda u_S u_v, (1 <= N)%nat -> constant_nu N D u_v ->
  exists rest, forall B BB, exists phi g m0 m1,
  varying_phi N D K u_mu u_Lambda (B, BB) u_S u_v = Ok phi /\ dynamic_cgf N D u_mu u_Lambda u_v = Ok g /\
  varying_message 2 N D K u (B, BB) u_S u_v = Ok (ToB m0 m1) /\
  chain_dot N D phi u + g + f
  = rsum D (fun d => rsum D (fun i => rsum K (fun k => m0 d i k * B d i k))
                   + rsum D (fun i => rsum K (fun k => rsum D (fun j => rsum K (fun l => m1 d i k j l * BB d i k j l))))) + rest.
Proof.
  intros N D K [[u0 u1] u2] f u_mu u_L [Sm SS] [v lv] HN [F1 [F2 [T1 T2]]]. cbn [fst snd] in *.
  eexists. intros B BB. unfold varying_phi, dynamic_cgf, varying_message. cbn [fst snd].
  destruct (dyn_dot N D u_mu u_L v
    (fun n i j => rsum K (fun k => rsum K (fun l => rsum D (fun d => BB d i k j l * tarray_at v n d) * SS n k l)))
    (fun n i j => rsum K (fun k => B j i k * Sm n k * tarray_at v n j)) (u0, u1, u2) HN T1) as [phi [E H]].
  rewrite (cgf_core _ _ lv N D HN F2), T1. do 4 eexists.
  split; [destruct v; [destruct F1|exact E|exact E]|]. split; [reflexivity|]. split; [reflexivity|].
  rewrite H. unfold dyn_value.
  assert (A1 : rsum (N - 1) (fun n => innerm D (fun i j => rsum K (fun k => B j i k * Sm n k * tarray_at v n j)) (u2 n))
    = rsum D (fun d => rsum D (fun i => rsum K (fun k => rsum (N - 1) (fun n => u2 n i d * Sm n k * tarray_at v n d) * B d i k)))).
  { unfold innerm. push. rewrite pull3. apply rsum_ext. intros d Hd. rewrite rsum_swap. apply rsum_ext. intros i Hi. rewrite rsum_swap.
    apply rsum_ext. intros k Hk. apply rsum_ext. intros; ring. }
  assert (A2 : rsum (N - 1) (fun n => -0.5 * innerm D (fun i j => rsum K (fun k => rsum K (fun l => rsum D (fun d => BB d i k j l * tarray_at v n d) * SS n k l))) (u1 n))
    = rsum D (fun d => rsum D (fun i => rsum K (fun k => rsum D (fun j => rsum K (fun l => -0.5 * (rsum (N - 1) (fun n => u1 n i j * SS n k l) * tarray_at v 0 d) * BB d i k j l)))))).
  { unfold innerm. push. rewrite pull6. apply rsum_ext. intros d Hd. symmetry. rewrite pull5. apply rsum_ext. intros n Hn. apply rsum_ext. intros i Hi. rewrite rsum_swap.
    apply rsum_ext. intros j Hj. apply rsum_ext. intros k Hk. apply rsum_ext. intros l Hl. rewrite (not_dep N D v n d) by assumption. ring. }
  rewrite A1, A2, rsum_plus.
  match goal with |- _ = ?a + ?b + ?r => instantiate (1 := innerv D (mvdot D (fst u_L) (fst u_mu)) (u0 O) + -0.5 * innerm D (fst u_L) (u1 O)
     + rsum (N - 1) (fun n => -0.5 * rsum D (fun i => tarray_at v n i * u1 (S n) i i))
     + (-0.5 * innerm D (fst u_L) (snd u_mu) + (0.5 * snd u_L + 0.5 * g_nu N D lv)) + f) end.
  ring.
Qed.
Print Assumptions C20_varying_B.

(** The message to S: one for every transition n. *)
Theorem C20_varying_S : forall N D K u f u_mu u_Lambda u_B u_v, (1 <= N)%nat -> constant_nu N D u_v ->
  exists rest, forall Sm SS, exists phi g m0 m1,
  varying_phi N D K u_mu u_Lambda u_B (Sm, SS) u_v = Ok phi /\ dynamic_cgf N D u_mu u_Lambda u_v = Ok g /\
  varying_message 3 N D K u u_B (Sm, SS) u_v = Ok (ToS m0 m1) /\
  chain_dot N D phi u + g + f
  = rsum (N - 1) (fun n => innerv K (m0 n) (Sm n) + innerm K (m1 n) (SS n)) + rest.
Proof.
  intros N D K [[u0 u1] u2] f u_mu u_L [B BB] [v lv] HN [F1 [F2 [T1 T2]]]. cbn [fst snd] in *.
  eexists. intros Sm SS. unfold varying_phi, dynamic_cgf, varying_message. cbn [fst snd].
  destruct (dyn_dot N D u_mu u_L v
    (fun n i j => rsum K (fun k => rsum K (fun l => rsum D (fun d => BB d i k j l * tarray_at v n d) * SS n k l)))
    (fun n i j => rsum K (fun k => B j i k * Sm n k * tarray_at v n j)) (u0, u1, u2) HN T1) as [phi [E H]].
  rewrite (cgf_core _ _ lv N D HN F2), T1. do 4 eexists.
  split; [destruct v; [destruct F1|exact E|exact E]|]. split; [reflexivity|]. split; [reflexivity|].
  rewrite H. unfold dyn_value. rewrite rsum_plus.
  assert (A1 : rsum (N - 1) (fun n => innerm D (fun i j => rsum K (fun k => B j i k * Sm n k * tarray_at v n j)) (u2 n))
    = rsum (N - 1) (fun n => innerv K (fun k => rsum D (fun j => rsum D (fun i => u2 n j i * B i j k * tarray_at v n i))) (Sm n))).
  { unfold innerm, innerv. push. apply rsum_ext. intros n Hn. rewrite pull3. apply rsum_ext. intros k Hk.
    apply rsum_ext. intros j Hj. apply rsum_ext. intros; ring. }
  assert (A2 : rsum (N - 1) (fun n => -0.5 * innerm D (fun i j => rsum K (fun k => rsum K (fun l => rsum D (fun d => BB d i k j l * tarray_at v n d) * SS n k l))) (u1 n))
    = rsum (N - 1) (fun n => innerm K (fun k l => -0.5 * rsum D (fun i => rsum D (fun j => u1 n i j * rsum D (fun d => BB d i k j l * tarray_at v 0 d)))) (SS n))).
  { unfold innerm. push. apply rsum_ext. intros n Hn.
    transitivity (rsum K (fun k => rsum D (fun i => rsum D (fun j => rsum K (fun l => rsum D (fun d => -0.5 * (u1 n i j * (BB d i k j l * tarray_at v 0 d)) * SS n k l)))))).
    - rewrite (rsum_ext D _ (fun i => rsum K (fun k => rsum D (fun j => rsum K (fun l => rsum D (fun d => -0.5 * (u1 n i j * (BB d i k j l * tarray_at v 0 d)) * SS n k l)))))); [apply rsum_swap|].
      intros i Hi. rewrite rsum_swap. repeat (apply rsum_ext; intros ? ?). rewrite (not_dep N D v n) by assumption. ring.
    - apply rsum_ext. intros k Hk. rewrite pull3. reflexivity. }
  rewrite A1, A2.
  match goal with |- _ = ?a + ?b + ?r => instantiate (1 := innerv D (mvdot D (fst u_L) (fst u_mu)) (u0 O) + -0.5 * innerm D (fst u_L) (u1 O)
     + rsum (N - 1) (fun n => -0.5 * rsum D (fun i => tarray_at v n i * u1 (S n) i i))
     + (-0.5 * innerm D (fst u_L) (snd u_mu) + (0.5 * snd u_L + 0.5 * g_nu N D lv)) + f) end.
  ring.
Qed.
Print Assumptions C20_varying_S.

(** ** C20, SwitchingGaussianMarkovChain *)
(** The message to B: one for every matrix k and row d. *)
Theorem C20_switching_B : forall N D K u f u_mu u_Lambda Z u_v, (1 <= N)%nat -> constant_nu N D u_v ->
  exists rest, forall B BB, exists phi g m0 m1,
  switching_phi N D K u_mu u_Lambda (B, BB) Z u_v = Ok phi /\ dynamic_cgf N D u_mu u_Lambda u_v = Ok g /\
  switching_message 2 N D u (B, BB) Z u_v = Ok (ToDynamics m0 m1) /\
  chain_dot N D phi u + g + f
  = rsum K (fun k => rsum D (fun d => innerv D (m0 k d) (B k d) + innerm D (m1 k d) (BB k d))) + rest.
Proof.
  intros N D K [[u0 u1] u2] f u_mu u_L Z [v lv] HN [F1 [F2 [T1 T2]]]. cbn [fst snd] in *.
  eexists. intros B BB. unfold switching_phi, dynamic_cgf, switching_message. cbn [fst snd].
  destruct (dyn_dot N D u_mu u_L v
    (fun n i j => rsum K (fun k => rsum D (fun d => BB k d i j * tarray_at v n d) * Z n k))
    (fun n i j => rsum K (fun k => B k j i * Z n k * tarray_at v n j)) (u0, u1, u2) HN T1) as [phi [E H]].
  rewrite (cgf_core _ _ lv N D HN F2), T1. do 4 eexists.
  split; [exact E|]. split; [reflexivity|]. split; [reflexivity|].
  rewrite H. unfold dyn_value.
  assert (A1 : rsum (N - 1) (fun n => innerm D (fun i j => rsum K (fun k => B k j i * Z n k * tarray_at v n j)) (u2 n))
    = rsum K (fun k => rsum D (fun d => innerv D (fun j => rsum (N - 1) (fun n => u2 n j d * Z n k * tarray_at v 0 d)) (B k d)))).
  { unfold innerm, innerv. push. rewrite pull4. apply rsum_ext. intros k Hk. rewrite pull3. apply rsum_ext. intros d Hd.
    rewrite rsum_swap. apply rsum_ext. intros j Hj. apply rsum_ext. intros n Hn. rewrite (not_dep N D v n) by assumption. ring. }
  assert (A2 : rsum (N - 1) (fun n => -0.5 * innerm D (fun i j => rsum K (fun k => rsum D (fun d => BB k d i j * tarray_at v n d) * Z n k)) (u1 n))
    = rsum K (fun k => rsum D (fun d => innerm D (fun i j => -0.5 * (rsum (N - 1) (fun n => u1 n i j * Z n k) * tarray_at v 0 d)) (BB k d)))).
  { unfold innerm. push.
    transitivity (rsum K (fun k => rsum (N - 1) (fun n => rsum D (fun i => rsum D (fun j => rsum D (fun d => -0.5 * (u1 n i j * Z n k * tarray_at v 0 d) * BB k d i j)))))).
    - symmetry. rewrite rsum_swap. apply rsum_ext. intros n Hn. symmetry. rewrite pull3. apply rsum_ext. intros k Hk.
      repeat (apply rsum_ext; intros ? ?). rewrite (not_dep N D v n) by assumption. ring.
    - apply rsum_ext. intros k Hk. rewrite pull4. apply rsum_ext. intros d Hd. rewrite <- pull3. repeat (apply rsum_ext; intros ? ?). ring. }
  rewrite A1, A2.
  rewrite rsum2_plus.
  match goal with |- _ = ?a + ?b + ?r => instantiate (1 := innerv D (mvdot D (fst u_L) (fst u_mu)) (u0 O) + -0.5 * innerm D (fst u_L) (u1 O)
     + rsum (N - 1) (fun n => -0.5 * rsum D (fun i => tarray_at v n i * u1 (S n) i i))
     + (-0.5 * innerm D (fst u_L) (snd u_mu) + (0.5 * snd u_L + 0.5 * g_nu N D lv)) + f) end.
  ring.
Qed.
Print Assumptions C20_switching_B.

(** The message to Z, for selections whose probabilities sum to one.  [rest] is what the
    initial state contributes when f is the one of [gmc_fixed]. *)
Lemma row_sum_at : forall N D l n, tarray_full N D l -> time_dependent l = false -> (n < N - 1)%nat ->
  row_sum l = rsum D (fun d => tarray_at l n d).
Proof.
  intros N D l n H T Hn. rewrite (rsum_ext D _ (tarray_at l 0)) by (intros; now apply (not_dep N D)).
  destruct l as [x|k w|m k w]; cbn in H; [destruct H|subst k; cbn [row_sum tarray_at]; now rewrite <- rsum_id1|].
  destruct H as [-> _]. cbn [row_sum tarray_at]. transitivity (rsum D (fun d => w O (if (D =? 1)%nat then O else d))); [now rewrite (rsum_id1 D (w O))|].
  apply rsum_ext. intros. unfold tarray_at. destruct (m =? 1)%nat; reflexivity.
Qed.
Theorem C20_switching_Z : forall N D K u f u_mu u_Lambda u_B u_v, (1 <= N)%nat -> constant_nu N D u_v ->
  exists rest, forall Z, (forall n, (n < N - 1)%nat -> rsum K (Z n) = 1) -> exists phi g m0,
  switching_phi N D K u_mu u_Lambda u_B Z u_v = Ok phi /\ dynamic_cgf N D u_mu u_Lambda u_v = Ok g /\
  switching_message 3 N D u u_B Z u_v = Ok (ToSelection m0) /\
  chain_dot N D phi u + g + f = rsum (N - 1) (fun n => innerv K (m0 n) (Z n)) + rest.
Proof.
  intros N D K [[u0 u1] u2] f u_mu u_L [B BB] [v lv] HN [F1 [F2 [T1 T2]]]. cbn [fst snd] in *.
  eexists. intros Z HZ. unfold switching_phi, dynamic_cgf, switching_message. cbn [fst snd].
  destruct (dyn_dot N D u_mu u_L v
    (fun n i j => rsum K (fun k => rsum D (fun d => BB k d i j * tarray_at v n d) * Z n k))
    (fun n i j => rsum K (fun k => B k j i * Z n k * tarray_at v n j)) (u0, u1, u2) HN T1) as [phi [E H]].
  rewrite (cgf_core _ _ lv N D HN F2), T1, T2. do 3 eexists.
  split; [exact E|]. split; [reflexivity|]. split; [reflexivity|].
  rewrite H. unfold dyn_value.
  assert (A1 : rsum (N - 1) (fun n => innerm D (fun i j => rsum K (fun k => B k j i * Z n k * tarray_at v n j)) (u2 n))
    = rsum (N - 1) (fun n => innerv K (fun k => rsum D (fun i => rsum D (fun l => u2 n i l * tarray_at v 0 l * B k l i))) (Z n))).
  { unfold innerm, innerv. push. apply rsum_ext. intros n Hn. rewrite pull3. repeat (apply rsum_ext; intros ? ?). rewrite (not_dep N D v n) by assumption. ring. }
  assert (A2 : rsum (N - 1) (fun n => -0.5 * innerm D (fun i j => rsum K (fun k => rsum D (fun d => BB k d i j * tarray_at v n d) * Z n k)) (u1 n))
    = rsum (N - 1) (fun n => innerv K (fun k => - (0.5 * rsum D (fun i => rsum D (fun j => u1 n i j * rsum D (fun d => BB k d i j * tarray_at v 0 d))))) (Z n))).
  { apply rsum_ext. intros n Hn. transitivity (innerv K (fun k => (-0.5) * rsum D (fun i => rsum D (fun j => u1 n i j * rsum D (fun d => BB k d i j * tarray_at v 0 d)))) (Z n)).
    - unfold innerm, innerv. push. rewrite pull3. repeat (apply rsum_ext; intros ? ?). rewrite (not_dep N D v n) by assumption. ring.
    - unfold innerv. apply rsum_ext. intros k Hk. lra. }
  assert (A3 : rsum (N - 1) (fun n => -0.5 * rsum D (fun i => tarray_at v n i * u1 (S n) i i)) + 0.5 * g_nu N D lv - INR (N - 1) * (0.5 * INR D * ln (2 * PI))
    = rsum (N - 1) (fun n => innerv K (fun k => -0.5 * rsum D (fun i => u1 (S n) i i * tarray_at v 0 i) + 0.5 * row_sum lv - 0.5 * INR D * ln (2 * PI)) (Z n))).
  { unfold g_nu, innerv. rewrite <- (rsum_const (N - 1)), <- rsum_scal, <- rsum_plus, <- rsum_minus. apply rsum_ext. intros n Hn.
    rewrite rsum_scal, (HZ n Hn), (row_sum_at N D lv n) by assumption.
    rewrite (rsum_ext D (fun i => tarray_at v n i * _) (fun i => u1 (S n) i i * tarray_at v 0 i)); [ring|]. intros i Hi. rewrite (not_dep N D v n) by assumption. ring. }
  rewrite A1, A2.
  match goal with |- _ = rsum (N - 1) ?F + _ => transitivity (rsum (N - 1) (fun n => 
      innerv K (fun k => -0.5 * rsum D (fun i => u1 (S n) i i * tarray_at v 0 i) + 0.5 * row_sum lv - 0.5 * INR D * ln (2 * PI)) (Z n)
      + innerv K (fun k => rsum D (fun i => rsum D (fun l => u2 n i l * tarray_at v 0 l * B k l i))) (Z n)
      + innerv K (fun k => - (0.5 * rsum D (fun i => rsum D (fun j => u1 n i j * rsum D (fun d => BB k d i j * tarray_at v 0 d))))) (Z n)) +
      (innerv D (mvdot D (fst u_L) (fst u_mu)) (u0 O) + -0.5 * innerm D (fst u_L) (u1 O)
       + (-0.5 * innerm D (fst u_L) (snd u_mu) + 0.5 * snd u_L) + (INR (N - 1) * (0.5 * INR D * ln (2 * PI)) + f))) end.
  - rewrite !rsum_plus, <- A3. ring.
  - f_equal. apply rsum_ext. intros n Hn. rewrite <- !innerv_plus. unfold innerv. apply rsum_ext. intros k Hk. ring.
Qed.
Print Assumptions C20_switching_Z.

(** ** C21 *)
(** Fixed dynamics A n, however the class computes them. *)
Lemma dyn_pdf : forall N D mu L A nu AvA vA x, (1 <= N)%nat -> posdef D L ->
  tarray_full N D nu -> time_dependent nu = false -> (forall n d, (n < N - 1)%nat -> (d < D)%nat -> 0 < tarray_at nu n d) ->
  (forall n i j, (n < N - 1)%nat -> (i < D)%nat -> (j < D)%nat -> AvA n i j = rsum D (fun d => tarray_at nu n d * (A n d i * A n d j))) ->
  (forall n i j, (n < N - 1)%nat -> (i < D)%nat -> (j < D)%nat -> vA n i j = tarray_at nu n j * A n j i) ->
  exists u_L phi g, wishartmoments_fixed D L = Ok u_L /\
    dynamic_phi N D (gaussianmoments_fixed mu) u_L nu AvA vA = Ok phi /\
    dynamic_cgf N D (gaussianmoments_fixed mu) u_L (nu, tarray_map ln nu) = Ok g /\
    let '(u, f) := gmc_fixed N D x in
    chain_dot N D phi u + g + f = ln (chain_pdf N D 0 mu L A (fun _ _ _ => 0) (tarray_at nu) (fun _ _ => 0) x).
Proof.
  intros N D mu L A nu AvA vA x HN P HF HT Hp HA Hv.
  destruct (C21_gaussian_markov_chain N D 0 mu L A (fun _ _ _ => 0) nu (fun _ _ => 0) x HN P HF Hp) as (u_L & g & E & Eg & H).
  pose proof (proj2 (wishart_parent D L P)) as E'. rewrite E in E'. injection E' as ->.
  exists (L, ln (mdet D L)).
  destruct (dyn_dot N D (gaussianmoments_fixed mu) (L, ln (mdet D L)) nu AvA vA (gmcmoments_fixed x) HN HT) as [phi [Ep Hd]].
  exists phi. eexists. split; [exact E|]. split; [exact Ep|].
  split; [exact (cgf_core _ _ (tarray_map ln nu) N D HN (tarray_ln_full N D nu HF))|].
  unfold gmc_fixed in *. rewrite Hd. rewrite <- H. clear Hd H E Ep.
  set (row := dyn_row D A (fun _ _ _ => 0)).
  set (u_mL := (mvdot D L mu, innerm D L (outerv mu mu), scal_m 1 L, ln (mdet D L) + INR D * 0)).
  set (e := fun n d => scal_v (tarray_at nu n d) (row n d)). set (ee := fun n d => scal_m (tarray_at nu n d) (outerv (row n d) (row n d))).
  set (w := fun n d => 1 * tarray_at nu n d). set (z := fixed_in (fun _ _ => 0)).
  change (gmc_cgf N D 0 u_mL (e, ee, w, tarray_map ln nu) (Some (z, [(N - 1)%nat])) = Ok g) in Eg.
  match goal with |- _ = chain_dot N D ?p ?u + _ + _ => change p with (gmc_phi N D 0 u_mL (e, ee, w, tarray_map ln nu) (Some z)) end.
  unfold u_mL in *. rewrite (gmc_cgf_eq N D 0 _ _ _ _ e ee w _ (Some (z, [(N - 1)%nat])) HN (tarray_ln_full N D nu HF) (or_introl eq_refl)) in Eg.
  injection Eg as <-. unfold gmcmoments_fixed. rewrite phi_dot by exact HN. unfold dyn_value. cbn [forget g_in t_in1 t_in2 rsum fst snd].
  rewrite !scal_m_1.
  change (fst (gaussianmoments_fixed mu)) with mu. change (snd (gaussianmoments_fixed mu)) with (outerv mu mu).
  unfold z, fixed_in, w.
  rewrite (rsum_zero (N - 1) (fun n => innerv D (fun _ => 0) (x (S n)))) by (intros; apply innerv_0).
  rewrite (rsum_zero (N - 1) (fun n => innerv D (fun _ => 0) (x n))) by (intros; apply innerv_0).
  rewrite (rsum_zero (N - 1) (fun _ => -0.5 * 0)) by (intros; lra).
  rewrite (rsum_ext (N - 1) (fun n => innerm D (vA n) _) (fun n => innerm D (transpose (e n)) (outerv (x n) (x (S n))))).
  2: { intros n Hn. apply innerm_ext'. intros i j Hi Hj. rewrite (Hv n i j Hn Hi Hj). unfold e, transpose, scal_v, row, dyn_row. now rewrite cat_l. }
  rewrite (rsum_ext (N - 1) (fun n => -0.5 * innerm D (AvA n) _)
    (fun n => -0.5 * innerm D (fun i j => rsum D (fun d => ee n d i j)) (outerv (x n) (x n)))).
  2: { intros n Hn. f_equal. apply innerm_ext'. intros i j Hi Hj. rewrite (HA n i j Hn Hi Hj). apply rsum_ext. intros d Hd. unfold ee, scal_m, outerv, row, dyn_row. now rewrite !cat_l. }
  rewrite (rsum_ext (N - 1) (fun n => -0.5 * rsum D (fun i => 1 * _ * _)) (fun n => -0.5 * rsum D (fun i => tarray_at nu n i * outerv (x (S n)) (x (S n)) i i))).
  2: { intros n Hn. f_equal. apply rsum_ext. intros; ring. }
  ring.
Qed.

(** x_0 ~ N(mu, Lambda), x_{n+1} ~ N(A_n x_n, diag(nu)) with A_n = sum_k s_nk B_k; row d and
    column i of B_k is B d i k. *)
Theorem C21_varying : forall N D K mu Lambda B Sm nu x, (1 <= N)%nat -> posdef D Lambda ->
  tarray_full N D nu -> time_dependent nu = false -> (forall n d, (n < N - 1)%nat -> (d < D)%nat -> 0 < tarray_at nu n d) ->
  exists u_Lambda phi g,
    wishartmoments_fixed D Lambda = Ok u_Lambda /\
    let u_mu := gaussianmoments_fixed mu in
    let u_B := (B, fun d i k j l => B d i k * B d j l) in
    let u_S := (Sm, fun n => outerv (Sm n) (Sm n)) in
    let u_nu := (nu, tarray_map ln nu) in
    varying_phi N D K u_mu u_Lambda u_B u_S u_nu = Ok phi /\ dynamic_cgf N D u_mu u_Lambda u_nu = Ok g /\
    let '(u, f) := gmc_fixed N D x in
    chain_dot N D phi u + g + f
    = ln (chain_pdf N D 0 mu Lambda (fun n d i => rsum K (fun k => Sm n k * B d i k)) (fun _ _ _ => 0) (tarray_at nu) (fun _ _ => 0) x).
Proof.
  intros N D K mu L B Sm nu x HN P HF HT Hp.
  destruct (dyn_pdf N D mu L (fun n d i => rsum K (fun k => Sm n k * B d i k)) nu
    (fun n i j => rsum K (fun k => rsum K (fun l => rsum D (fun d => B d i k * B d j l * tarray_at nu n d) * outerv (Sm n) (Sm n) k l)))
    (fun n i j => rsum K (fun k => B j i k * Sm n k * tarray_at nu n j)) x HN P HF HT Hp) as (u_L & phi & g & E1 & E2 & E3 & H).
  - intros n i j Hn Hi Hj. unfold outerv. push. rewrite pull3. apply rsum_ext. intros d Hd. rewrite rsum_swap.
    apply rsum_ext. intros k Hk. apply rsum_ext. intros; ring.
  - intros n i j Hn Hi Hj. rewrite <- rsum_scal. apply rsum_ext. intros; ring.
  - exists u_L, phi, g. split; [exact E1|]. cbv zeta. split; [|now split].
    unfold varying_phi. cbn [fst snd]. destruct nu; [destruct HF|exact E2|exact E2].
Qed.
Print Assumptions C21_varying.

(** A_n = B_{z_n}: row d and column i of B_k is B k d i. *)
Theorem C21_switching : forall N D K mu Lambda B (z : nat -> nat) nu x, (1 <= N)%nat -> posdef D Lambda ->
  tarray_full N D nu -> time_dependent nu = false -> (forall n d, (n < N - 1)%nat -> (d < D)%nat -> 0 < tarray_at nu n d) ->
  (forall n, (n < N - 1)%nat -> (z n < K)%nat) ->
  exists u_Lambda phi g,
    wishartmoments_fixed D Lambda = Ok u_Lambda /\
    let u_mu := gaussianmoments_fixed mu in
    let u_B := (B, fun k d => outerv (B k d) (B k d)) in
    let u_Z := fun n k => if (k =? z n)%nat then 1 else 0 in
    let u_nu := (nu, tarray_map ln nu) in
    switching_phi N D K u_mu u_Lambda u_B u_Z u_nu = Ok phi /\ dynamic_cgf N D u_mu u_Lambda u_nu = Ok g /\
    let '(u, f) := gmc_fixed N D x in
    chain_dot N D phi u + g + f = ln (chain_pdf N D 0 mu Lambda (fun n => B (z n)) (fun _ _ _ => 0) (tarray_at nu) (fun _ _ => 0) x).
Proof.
  intros N D K mu L B z nu x HN P HF HT Hp Hz.
  assert (One : forall n (f : nat -> R), (n < N - 1)%nat -> rsum K (fun k => f k * (if (k =? z n)%nat then 1 else 0)) = f (z n)).
  { intros n f Hn. rewrite (rsum_ext K _ (fun k => if (k =? z n)%nat then f k else 0)); [|intros k _; destruct (k =? z n)%nat; ring].
    apply (rsum_single K (z n) f). now apply Hz. }
  destruct (dyn_pdf N D mu L (fun n => B (z n)) nu
    (fun n i j => rsum K (fun k => rsum D (fun d => outerv (B k d) (B k d) i j * tarray_at nu n d) * (if (k =? z n)%nat then 1 else 0)))
    (fun n i j => rsum K (fun k => B k j i * (if (k =? z n)%nat then 1 else 0) * tarray_at nu n j)) x HN P HF HT Hp) as (u_L & phi & g & E1 & E2 & E3 & H).
  - intros n i j Hn Hi Hj. rewrite (One n (fun k => rsum D (fun d => outerv (B k d) (B k d) i j * tarray_at nu n d)) Hn). apply rsum_ext. intros; unfold outerv; ring.
  - intros n i j Hn Hi Hj. rewrite <- (One n (fun k => tarray_at nu n j * B k j i) Hn). apply rsum_ext. intros; ring.
  - exists u_L, phi, g. split; [exact E1|]. cbv zeta. split; [exact E2|now split].
Qed.
Print Assumptions C21_switching.

(** The message to the selection is the log-density of the transition under each matrix. *)
Theorem C21_switching_selection : forall N D B Z nu x, tarray_full N D nu -> time_dependent nu = false ->
  (forall n d, (n < N - 1)%nat -> (d < D)%nat -> 0 < tarray_at nu n d) ->
  exists m0, switching_message 3 N D (gmcmoments_fixed x) (B, fun k d => outerv (B k d) (B k d)) Z (nu, tarray_map ln nu) = Ok (ToSelection m0) /\
  forall n k, (n < N - 1)%nat -> m0 n k = ln (normal_pdf D (mvdot D (B k) (x n)) (diag (tarray_at nu n)) (x (S n))).
Proof.
  intros N D B Z nu x HF HT Hp. unfold switching_message, gmcmoments_fixed. rewrite HT.
  assert (T' : time_dependent (tarray_map ln nu) = false) by (destruct nu; exact HT). rewrite T'.
  eexists. split; [reflexivity|]. intros n k Hn. cbv beta.
  rewrite ln_normal by (apply mdet_diag; intros; now apply Hp).
  rewrite (proj2 (mdet_diag D (tarray_at nu n) (fun i Hi => Hp n i Hn Hi))), bilinear_diag.
  rewrite (row_sum_at N D (tarray_map ln nu) n (tarray_ln_full N D nu HF) T' Hn).
  rewrite (rsum_ext D (fun d => tarray_at (tarray_map ln nu) n d) (fun d => ln (tarray_at nu n d))) by (intros; apply tarray_ln).
  set (m := mvdot D (B k) (x n)).
  assert (Q1 : rsum D (fun i => rsum D (fun l => outerv (x n) (x (S n)) i l * tarray_at nu 0 l * B k l i)) = rsum D (fun d => tarray_at nu n d * x (S n) d * m d)).
  { rewrite rsum_swap. apply rsum_ext. intros d Hd. unfold m, mvdot. rewrite <- rsum_scal. apply rsum_ext. intros i Hi. rewrite (not_dep N D nu n d) by assumption. unfold outerv. ring. }
  assert (Q2 : rsum D (fun i => rsum D (fun j => outerv (x n) (x n) i j * rsum D (fun d => outerv (B k d) (B k d) i j * tarray_at nu 0 d))) = rsum D (fun d => tarray_at nu n d * m d * m d)).
  { push. rewrite pull3. apply rsum_ext. intros d Hd. unfold m, mvdot. push. apply rsum_ext. intros i Hi. apply rsum_ext. intros j Hj.
    rewrite (not_dep N D nu n d) by assumption. unfold outerv. ring. }
  assert (Q3 : rsum D (fun i => outerv (x (S n)) (x (S n)) i i * tarray_at nu 0 i) = rsum D (fun d => tarray_at nu n d * x (S n) d * x (S n) d)).
  { apply rsum_ext. intros d Hd. rewrite (not_dep N D nu n d) by assumption. unfold outerv. ring. }
  assert (Q4 : rsum D (fun i => tarray_at nu n i * sub_v (x (S n)) m i ^ 2)
    = rsum D (fun d => tarray_at nu n d * x (S n) d * x (S n) d) - 2 * rsum D (fun d => tarray_at nu n d * x (S n) d * m d) + rsum D (fun d => tarray_at nu n d * m d * m d)).
  { rewrite <- rsum_scal, <- rsum_minus, <- rsum_plus. apply rsum_ext. intros d Hd. unfold sub_v. ring. }
  rewrite Q1, Q2, Q3, Q4. lra.
Qed.
Print Assumptions C21_switching_selection.

(** ** Violations *)
(** Both classes have no message for mu, Lambda and nu: with a variable there instead of a
    constant, inference raises NotImplementedError. *)
Theorem C20_dynamic_chain_parents_refuted : forall N D K u u_B u_S u_sB Z u_v index, In index [0; 1; 4]%nat ->
  varying_message index N D K u u_B u_S u_v = Err NotImplementedError /\
  switching_message index N D u u_sB Z u_v = Err NotImplementedError.
Proof. intros N D K [[u0 u1] u2] [B BB] [Sm SS] [sB sBB] Z [v lv] index [<-|[<-|[<-|[]]]]; split; reflexivity. Qed.
Print Assumptions C20_dynamic_chain_parents_refuted.

(** The constructors accept innovation precisions that depend on the time (plates (N-1, D),
    as documented), but then the natural parameters cannot be computed, nor the messages. *)
Theorem C21_dynamic_chain_time_dependent_refuted : forall D m w lw, (1 < m)%nat ->
  let plates := [D; m] in
  varying_length D [m] plates None = Ok (m + 1)%nat /\ switching_length D [m] plates None = Ok (m + 1)%nat /\
  (forall K u_mu u_Lambda u_B u_S, varying_phi (m + 1) D K u_mu u_Lambda u_B u_S (T2 m D w, lw) = Err PyException) /\
  (forall K u_mu u_Lambda u_B Z, switching_phi (m + 1) D K u_mu u_Lambda u_B Z (T2 m D w, lw) = Err PyException) /\
  (forall K u u_B u_S index, In index [2; 3]%nat -> varying_message index (m + 1) D K u u_B u_S (T2 m D w, lw) = Err ValueError) /\
  (forall u u_B Z index, In index [2; 3]%nat -> switching_message index (m + 1) D u u_B Z (T2 m D w, lw) = Err ValueError).
Proof.
  intros D m w lw Hm. assert (T : (1 <? m)%nat = true) by now apply Nat.ltb_lt.
  assert (N1 : (m =? 1)%nat = false) by (apply Nat.eqb_neq; lia). assert (N2 : (m + 1 - 1)%nat = m) by lia.
  cbv zeta. unfold varying_length, switching_length, chain_length, nu_time, check_nu. rewrite !Nat.max_id, !Nat.eqb_refl, N1. cbn [negb andb bind].
  rewrite !N2, !Nat.eqb_refl. cbn [negb andb bind].
  split; [reflexivity|]. split; [reflexivity|]. repeat split.
  - intros K u_mu u_L [B BB] [Sm SS]. unfold varying_phi, dynamic_phi, time_dependent. cbn [fst snd]. now rewrite T.
  - intros K u_mu u_L [B BB] Z. unfold switching_phi, dynamic_phi, time_dependent. cbn [fst snd]. now rewrite T.
  - intros K [[u0 u1] u2] [B BB] [Sm SS] index [<-|[<-|[]]]; unfold varying_message, time_dependent; cbn [fst snd]; now rewrite T.
  - intros [[u0 u1] u2] [B BB] Z index [<-|[<-|[]]]; unfold switching_message, time_dependent; cbn [fst snd]; now rewrite T.
Qed.
Print Assumptions C21_dynamic_chain_time_dependent_refuted.

(** ** The hypotheses can be met *)
(** A chain of three states of length two, with two matrices. *)
Example constant_nu_case : constant_nu 3 2 (T1 2 (fun d => INR d + 1), tarray_map ln (T1 2 (fun d => INR d + 1))).
Proof. repeat split; reflexivity. Qed.
Example C21_varying_case : exists u_Lambda phi g,
    wishartmoments_fixed 2 ex_A = Ok u_Lambda /\
    let B := fun d i k => INR (d + 2 * i + 3 * k) in
    let Sm := fun n k => INR n - INR k in
    let nu := T2 1 2 (fun _ d => INR d + 1) in
    varying_phi 3 2 2 (gaussianmoments_fixed (fun i => INR i)) u_Lambda (B, fun d i k j l => B d i k * B d j l)
      (Sm, fun n => outerv (Sm n) (Sm n)) (nu, tarray_map ln nu) = Ok phi /\
    dynamic_cgf 3 2 (gaussianmoments_fixed (fun i => INR i)) u_Lambda (nu, tarray_map ln nu) = Ok g /\
    forall x, exists r, chain_dot 3 2 phi (fst (gmc_fixed 3 2 x)) + g + snd (gmc_fixed 3 2 x) = r.
Proof.
  destruct (C21_varying 3 2 2 (fun i => INR i) ex_A (fun d i k => INR (d + 2 * i + 3 * k)) (fun n k => INR n - INR k)
    (T2 1 2 (fun _ d => INR d + 1)) (fun _ _ => 0)) as (u_L & phi & g & E1 & E2 & E3 & _); [lia|exact ex_posdef|repeat split; now left|reflexivity| |].
  - intros n d _ _. cbn [tarray_at Nat.eqb]. pose proof (pos_INR d). lra.
  - exists u_L, phi, g. split; [exact E1|]. split; [exact E2|]. split; [exact E3|]. intros x. now eexists.
Qed.
Example C21_switching_case : exists m0,
  switching_message 3 3 2 (gmcmoments_fixed (fun n i => INR (n + i))) ((fun k d i => INR (k + d * i)), fun k d => outerv (fun i => INR (k + d * i)) (fun i => INR (k + d * i)))
    (fun _ _ => 1 / 2) (T1 2 (fun d => INR d + 1), tarray_map ln (T1 2 (fun d => INR d + 1))) = Ok (ToSelection m0) /\
  m0 1%nat 1%nat = ln (normal_pdf 2 (mvdot 2 (fun d i => INR (1 + d * i)) (fun i => INR (1 + i))) (diag (fun d => INR d + 1)) (fun i => INR (2 + i))).
Proof.
  destruct (C21_switching_selection 3 2 (fun k d i => INR (k + d * i)) (fun _ _ => 1 / 2) (T1 2 (fun d => INR d + 1)) (fun n i => INR (n + i))) as (m0 & E & H);
    [reflexivity|reflexivity| |].
  - intros n d _ _. cbn [tarray_at Nat.eqb]. pose proof (pos_INR d). lra.
  - exists m0. split; [exact E|]. rewrite H by lia. reflexivity.
Qed.
