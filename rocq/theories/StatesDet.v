(** Lemmas for C25: the states of a categorical Markov chain as a node. *)
From Coq Require Import List Arith ZArith Lia Bool Reals Lra FunctionalExtensionality.
From Verif Require Import Base Shapes SpecShapes ShapesLemmas NumPy MiscArray TensorLemmas
  EinsumLemmas SumMultiplyLemmas SpecArray PlateSumLemmas PlateSum2Lemmas MessageLemmas
  ShapeOpsLemmas DiagLemmas ExpFam SpecExpFam ExpFamLemmas ExpFamBound ExpFamGrad PExpFam SpecUpdate
  UpdateLemmas PUpdate Families SpecFamilies FamiliesLemmas FamiliesLemmas2 PFamilies2 FamilyDist SpecFamilyDist PFamilyDist Network SpecNetwork NetworkLemmas NetworkLemmas2
  PNetwork MarkovLemmas FamilyNet SpecFamilyNet PFamilyNet Dot SpecDot DetNet SpecDetNet DetNetLemmas DetNetLemmas2
  Linalg MatBridge SpecLinalg LinalgLemmas Gaussian SpecGaussian GaussLemmas GaussAlg PGaussian PGaussian2 GaussGibbs GaussianDist PGaussianDist
  ExtReal Markov SpecMarkov MarkovLemmas2 PMarkov MarkovNet GaussNet MixtureNet SpecGaussNet PlateDet GaussTypes GaussNodes GaussNodes2 GaussNodes3 GaussNodes4 GaussNodes5 GaussNodes7 ClustersDet MarkovFam.
Import ListNotations.
Open Scope R_scope.

(** ** The mask of the chain *)
Lemma any_last_cases : forall m, (ash m = [] /\ any_last m = m) \/ exists s x, ash m = s ++ [x] /\
  any_last m = Arr s (fun p => existsb (fun n => aget m (join 1 p (upd env0 0 n))) (seq 0 x)).
Proof.
  intros m. destruct (list_eq_dec Nat.eq_dec (ash m) []) as [E|E].
  - left. split; [exact E|]. unfold any_last. now rewrite E.
  - right. destruct (exists_last E) as (s & x & E'). exists s, x. split; [exact E'|]. unfold any_last. rewrite E'.
    destruct (s ++ [x]) as [|y t] eqn:Es; [destruct s; discriminate|]. rewrite <- Es, removelast_last.
    replace (ax (s ++ [x]) 0) with x by now rewrite ax_app. reflexivity.
Qed.
Lemma any_last_shape : forall m P N, broadcasts_to (ash m) (P ++ [N]) -> broadcasts_to (ash (any_last m)) P.
Proof.
  intros m P N [L H]. destruct (any_last_cases m) as [[E ->]|(s & x & E & ->)]; [rewrite E; apply broadcasts_to_nil|].
  cbn [ash]. rewrite E in *. split; [rewrite !app_length in L; cbn in L; lia|].
  intros k. specialize (H (S k)). rewrite !ax_app in H. cbn in H. rewrite !Nat.sub_0_r in H. exact H.
Qed.
Lemma clip_last : forall s x p n, clip (s ++ [x]) (join 1 p (upd env0 0 n)) = join 1 (clip s p) (upd env0 0 (if (x =? 1)%nat then 0%nat else n)).
Proof.
  intros s x p n. apply functional_extensionality. intros [|k]; unfold clip, join; rewrite ax_app; cbn; [now destruct (x =? 1)%nat|].
  now rewrite !Nat.sub_0_r.
Qed.
Lemma any_last_get : forall m P N p, (0 < N)%nat -> broadcasts_to (ash m) (P ++ [N]) ->
  bget (any_last m) p = true <-> exists n, (n < N)%nat /\ bget m (join 1 p (upd env0 0 n)) = true.
Proof.
  intros m P N p HN [L H]. destruct (any_last_cases m) as [[E ->]|(s & x & E & ->)].
  - assert (X : forall e e', bget m e = bget m e').
    { intros e e'. unfold bget. rewrite E. f_equal. apply functional_extensionality. intros k. unfold clip. now rewrite !ax_overflow by (cbn; lia). }
    split; [intros T; exists 0%nat; split; [exact HN|now rewrite (X _ p)]|]. intros (n & _ & T). now rewrite (X p (join 1 p (upd env0 0 n))).
  - unfold bget. cbn [ash aget]. rewrite existsb_exists. setoid_rewrite in_seq. rewrite E. setoid_rewrite clip_last.
    pose proof (H 0%nat) as H0. rewrite E, !ax_app in H0. cbn in H0.
    destruct (Nat.eqb_spec x 1) as [->|Nx].
    + split; [intros (n & Hn & T); exists 0%nat; replace n with 0%nat in T by lia; split; [exact HN|exact T]|].
      intros (n & _ & T). exists 0%nat. split; [lia|exact T].
    + destruct H0 as [->|H0]; [congruence|]. unfold ax in H0. cbn in H0. subst x. split; intros (n & Hn & T); exists n; (split; [lia|exact T]).
Qed.

(** ** The node *)
Record states_link (P : shape) (N : nat) (n par : place) : Prop := StatesLink {
  sl_plates : pl_plates n = P ++ [N];
  sl_parent : broadcasts_to (pl_plates par) P;
  sl_mult : broadcasts_to (pl_mult par) (pl_mult n);
  sl_mask : forall e, valid (pl_plates n) e -> bget (pl_mask n) e = true -> bget (pl_mask par) (fun k => e (S k)) = true;
  sl_shape : broadcasts_to (ash (pl_mask par)) (pl_plates par) }.

Section States.
Variable ty : nat -> mtype.
Variable at_ : nat -> place.
Variables N K j i : nat.
Variable P : shape.
Hypothesis HN : (0 < N)%nat.
Hypothesis Tj : ty j = MCategory K.
Hypothesis Ti : ty i = MChain N K.
Hypothesis Dj : pl_dims (at_ j) = [[K]].
Hypothesis Di : pl_dims (at_ i) = [[K]; [N - 1; K; K]%nat].
Hypothesis HM : broadcasts_to (ash (pl_mask (at_ j))) (pl_plates (at_ j)).
Hypothesis HL : states_link P N (at_ j) (at_ i).

Let cd : list shape := [[K]; [N - 1; K; K]%nat].
Let z0 (u : list (arr R)) p i := coef (at_plate cd u p) 0 (upd env0 0 i).
Let zz (u : list (arr R)) p n i j := coef (at_plate cd u p) 1 (upd (upd (upd env0 2 n) 1 i) 0 j).
Let Fp (u : list (arr R)) (e : env) : list (env -> R) :=
  match at_plate cd u (fun k => e (S k)) with
  | [z0; zz] => [fun v => cmc_to_categorical K (fun i => z0 (upd env0 0 i))
       (fun n i j => zz (upd (upd (upd env0 2 n) 1 i) 0 j)) (e 0%nat) (v 0%nat)]
  | _ => [zero0] end.
Let F (u : list (arr R)) := lift_arrays (pl_plates (at_ j)) [[K]] (Fp u).
Let M (m : list (arr R)) p t k := nth 0 (at_plate [[K]] m (join 1 p (upd env0 0 t))) zero0 (upd env0 0 k).
Let f (m : list (arr R)) (p : env) : list (env -> R) :=
  let y := cmc_to_categorical_message (M m p) in
  [fun v => fst y (v 0%nat); fun v => snd y (v 2%nat) (v 1%nat) (v 0%nat)].

Lemma states_get : forall u p n k, length u = 2%nat -> valid P p -> (n < N)%nat -> (k < K)%nat ->
  coef (at_plate [[K]] (F u) (join 1 p (upd env0 0 n))) 0 (upd env0 0 k) = cmc_to_categorical K (z0 u p) (zz u p) n k.
Proof.
  intros u p n k Lu Hp Hn Hk. unfold F. rewrite (sl_plates _ _ _ _ HL).
  rewrite (lift_coef _ [[K]] _ _ 0%nat [K] _ (join_valid P [N] p _ Hp (valid_vec N n Hn)) eq_refl (valid_vec K k Hk)).
  unfold Fp. change (length [N]) with 1%nat. replace (fun k0 => join 1 p (upd env0 0 n) (S k0)) with p.
  2:{ apply functional_extensionality. intros x. unfold join. cbn. now rewrite Nat.sub_0_r. }
  pose proof (at_plate_length cd u p ltac:(exact Lu)) as L. unfold z0, zz. destruct (at_plate cd u p) as [|a [|b [|? ?]]]; try discriminate. reflexivity.
Qed.

Lemma states_pair : forall m u, length m = 1%nat -> length u = 2%nat -> silent (at_ j) m ->
  pairing (at_ j) m (F u) =
  (lprod (map INR (pl_mult (at_ j))) * total P (fun p => if bget (any_last (pl_mask (at_ j))) p then
     dot_at cd (lift_arrays P cd (f m)) u p else 0)).
Proof.
  intros m u Lm Lu SI. unfold pairing. f_equal. rewrite (sl_plates _ _ _ _ HL), total_app, Dj. apply total_ext. intros p Hp.
  assert (E : total [N] (fun v => if bget (pl_mask (at_ j)) (join (length [N]) p v) then dot_at [[K]] m (F u) (join (length [N]) p v) else 0) =
    rsum N (fun n => rsum K (fun k => M m p n k * cmc_to_categorical K (z0 u p) (zz u p) n k))).
  { rewrite total_1d. apply rsum_ext. intros n Hn. cbn [length].
    assert (G : dot_at [[K]] m (F u) (join 1 p (upd env0 0 n)) = rsum K (fun k => M m p n k * cmc_to_categorical K (z0 u p) (zz u p) n k)).
    { rewrite dot_coef by (try exact Lm; apply lift_arrays_length). 
      pose proof (at_plate_length [[K]] m (join 1 p (upd env0 0 n)) Lm) as L1.
      pose proof (at_plate_length [[K]] (F u) (join 1 p (upd env0 0 n)) ltac:(apply lift_arrays_length)) as L2.
      transitivity (rsum K (fun k => M m p n k * coef (at_plate [[K]] (F u) (join 1 p (upd env0 0 n))) 0 (upd env0 0 k))).
      - unfold M. destruct (at_plate [[K]] m _) as [|a [|? ?]]; try discriminate. destruct (at_plate [[K]] (F u) _) as [|b [|? ?]]; try discriminate.
        cbn [fdot]. rewrite total_1d. cbn [nth]. unfold coef. cbn [nth]. ring.
      - apply rsum_ext. intros k Hk. now rewrite states_get. }
    destruct (bget (pl_mask (at_ j)) (join 1 p (upd env0 0 n))) eqn:Eb; [exact G|].
    symmetry. rewrite <- (rsum_0 K). apply rsum_ext. intros k Hk.
    pose proof (SI (join 1 p (upd env0 0 n))) as Z. rewrite (sl_plates _ _ _ _ HL), Dj in Z.
    specialize (Z (join_valid P [N] p _ Hp (valid_vec N n Hn)) Eb 0%nat [K] (upd env0 0 k) eq_refl (valid_vec K k Hk)).
    unfold M. unfold coef in Z. unfold zero0. rewrite Z. ring. }
  rewrite E. clear E.
  assert (G : dot_at cd (lift_arrays P cd (f m)) u p = rsum N (fun n => rsum K (fun k => M m p n k * cmc_to_categorical K (z0 u p) (zz u p) n k))).
  { replace N with (S (N - 1)) at 1 by lia. rewrite C42_states_message.
    rewrite lift_dot by (try exact Hp; try exact Lu; reflexivity). unfold z0, zz, f.
    pose proof (at_plate_length cd u p ltac:(exact Lu)) as L. destruct (at_plate cd u p) as [|a [|b [|? ?]]]; try discriminate.
    unfold cd. cbn [fdot]. rewrite total_1d, total_3d. unfold chain_dot, upd. cbn [Nat.eqb]. unfold coef. cbn [nth]. ring. }
  destruct (bget (any_last (pl_mask (at_ j))) p) eqn:Ea; [now rewrite G|].
  rewrite <- (rsum_0 N). apply rsum_ext. intros n Hn. rewrite <- (rsum_0 K). apply rsum_ext. intros k Hk.
  destruct (bget (pl_mask (at_ j)) (join 1 p (upd env0 0 n))) eqn:Eb.
  { assert (T : bget (any_last (pl_mask (at_ j))) p = true).
    { apply (any_last_get _ P N); [exact HN|rewrite <- (sl_plates _ _ _ _ HL); exact HM|]. now exists n. }
    congruence. }
  pose proof (SI (join 1 p (upd env0 0 n))) as Z. rewrite (sl_plates _ _ _ _ HL), Dj in Z.
  specialize (Z (join_valid P [N] p _ Hp (valid_vec N n Hn)) Eb 0%nat [K] (upd env0 0 k) eq_refl (valid_vec K k Hk)).
  unfold M. unfold coef in Z. unfold zero0. rewrite Z. ring.
Qed.

Lemma states_typed : forall need, det_typed (tys ty) at_ need (states_fn (pl_plates (at_ j)) N K) j [i].
Proof.
  intros need. pose proof HL as [L0 L1 L2 L3 L4].
  assert (LU : forall us, Forall2 (fun i u => moments_in (at_ i) (t_mom (tys ty) i) u) [i] us ->
    exists u, us = [u] /\ moments_in (at_ i) (mt_mom (MChain N K)) u /\ length u = 2%nat).
  { intros us H. inversion H as [|i0 u0 l0 us0 MM H0 Ei Eu]. inversion H0. exists u0. split; [congruence|].
    cbn [t_mom tys] in MM. rewrite Ti in MM. split; [exact MM|].
    pose proof (Forall2_len _ _ _ _ _ (proj1 MM)) as E. rewrite Di in E. now rewrite <- E. }
  constructor.
  - intros us H. destruct (LU us H) as (u & -> & MM & Lu). cbn [df_moments states_fn]. eexists. split; [reflexivity|].
    fold cd. change (moments_in (at_ j) (t_mom (tys ty) j) (F u)). split; [rewrite Dj; apply lift_variable|].
    intros e He. cbn [t_mom tys]. rewrite Tj, Dj. rewrite L0 in He. destruct (clusters_split N P e He) as (p & n & -> & Hp & Hn).
    assert (ON : on_values (pl_dims (at_ i)) (mt_mom (MChain N K))) by (rewrite Di; apply mt_values).
    pose proof (moments_in_child _ _ _ _ p MM ON L1 Hp) as (A0 & S0 & A1 & S1). rewrite Di in A0, S0, A1, S1. fold cd in A0, S0, A1, S1.
    split.
    + intros v Hv. destruct (vec_index K v Hv) as [-> Hk]. rewrite states_get by assumption.
      destruct n as [|n]; cbn [cmc_to_categorical]; [apply A0; now apply valid_vec|].
      apply rsum_nonneg. intros x Hx. apply A1. unfold zz. intros k. destruct k as [|[|[|[|k]]]]; unfold ax, upd, env0; cbn; try lia. exact Hk.
    + rewrite total_1d. rewrite (rsum_ext K _ (fun k => cmc_to_categorical K (z0 u p) (zz u p) n k)) by (intros; now apply states_get).
      destruct n as [|n]; cbn [cmc_to_categorical]; [rewrite <- S0; symmetry; apply total_1d|].
      rewrite rsum_swap. rewrite <- (S1 n ltac:(lia)), total_2d. apply rsum_ext. intros x _. apply rsum_ext. intros y _.
      unfold zz. now rewrite slice_index.
  - intros k i' us m Hk _ H Mm Vm SI. destruct k as [|[|k]]; try discriminate. injection Hk as <-.
    destruct (LU us H) as (u & -> & MM & Lu). cbn [df_message states_fn]. rewrite L0, removelast_last.
    assert (B1 : broadcasts_to (ash (any_last (pl_mask (at_ j)))) P) by (apply (any_last_shape _ P N); rewrite <- L0; exact HM).
    assert (MI : forall e, valid P e -> bget (any_last (pl_mask (at_ j))) e = true -> bget (pl_mask (at_ i)) e = true).
    { intros e He T. apply (any_last_get _ P N) in T; [|exact HN|rewrite <- L0; exact HM]. destruct T as (n & Hn & T).
      rewrite L0 in L3. pose proof (L3 _ (join_valid P [N] e _ He (valid_vec N n Hn)) T) as X.
      replace (fun k => join (length [N]) e (upd env0 0 n) (S k)) with e in X; [exact X|].
      apply functional_extensionality. intros x. unfold join. cbn. now rewrite Nat.sub_0_r. }
    assert (Lm : length m = 1%nat) by (rewrite <- (Forall2_len _ _ _ _ _ Vm), Dj; reflexivity).
    destruct (messages_adjoint (any_last (pl_mask (at_ j))) (pl_mask (at_ i)) P (pl_mult (at_ j)) (pl_mult (at_ i))
      (pl_plates (at_ i)) (pl_dims (at_ i)) (lift_arrays P (pl_dims (at_ i)) (f m)) L1 L2 B1 L4 MI)
      as (ys & E & Fy & G).
    { apply Forall2_of_nth; [now rewrite lift_arrays_length|]. intros x d a Hd Ha.
      now destruct (lift_arrays_nth _ _ _ _ _ _ Hd Ha). }
    exists ys. split; [exact E|]. split; [|split].
    2:{ pose proof (lifted_silent _ _ _ _ _ _ _ _ _ L1 L2 B1 L4 MI E Fy (pl_mult (at_ i))) as S. now destruct (at_ i). }
    + split; [exact Fy|]. intros p Hp. cbn [t_msg tys]. rewrite Ti. exact I.
    + intros us' x x' H' _ Ex Ex'. destruct (LU us' H') as (u' & -> & M' & Lu'). cbn [df_moments states_fn] in Ex, Ex'.
      injection Ex as <-. injection Ex' as <-. rewrite <- L0. change (pairing (at_ j) m (F u') - pairing (at_ j) m (F u) = pairing (at_ i) ys (nth 0 [u'] []) - pairing (at_ i) ys (nth 0 [u] [])).
      assert (KK : forall w, moments_in (at_ i) (mt_mom (MChain N K)) w -> length w = 2%nat -> pairing (at_ j) m (F w) = pairing (at_ i) ys w).
      { intros w [Vw _] Lw. rewrite (states_pair m w Lm Lw SI). unfold pairing. rewrite (G w (variable_fits _ _ _ Vw)). now rewrite Di. }
      cbn [nth]. now rewrite !KK.
Qed.
End States.
