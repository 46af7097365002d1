(** Lemmas for C25: the states of a Gaussian Markov chain as a node. *)
From Coq Require Import List Arith ZArith Lia Bool Reals Lra FunctionalExtensionality.
From Verif Require Import Base Shapes SpecShapes ShapesLemmas NumPy MiscArray TensorLemmas
  EinsumLemmas SumMultiplyLemmas SpecArray PlateSumLemmas PlateSum2Lemmas MessageLemmas
  ShapeOpsLemmas DiagLemmas ExpFam SpecExpFam ExpFamLemmas ExpFamBound ExpFamGrad PExpFam SpecUpdate
  UpdateLemmas PUpdate Families SpecFamilies FamiliesLemmas FamiliesLemmas2 PFamilies2 FamilyDist SpecFamilyDist PFamilyDist Network SpecNetwork NetworkLemmas NetworkLemmas2
  PNetwork MarkovLemmas FamilyNet SpecFamilyNet PFamilyNet Dot SpecDot DetNet SpecDetNet DetNetLemmas DetNetLemmas2
  Linalg MatBridge SpecLinalg LinalgLemmas Gaussian SpecGaussian GaussLemmas GaussAlg PGaussian PGaussian2 GaussGibbs GaussianDist PGaussianDist
  ExtReal Markov SpecMarkov MarkovLemmas2 PMarkov MarkovNet GaussNet MixtureNet SpecGaussNet PlateDet GaussTypes GaussNodes GaussNodes2 GaussNodes3 GaussNodes4 GaussNodes5 GaussNodes7 ClustersDet BlockBanded GaussMarkov GaussMarkovDist PathNet StatesDet.
From Verif Require BlockLemmas.
Import ListNotations.
Open Scope R_scope.

Section PathStates.
Variable ty : nat -> mtype.
Variable at_ : nat -> place.
Variables N D j i : nat.
Variable P : shape.
Hypothesis HN : (0 < N)%nat.
Hypothesis Tj : ty j = MGaussian [D].
Hypothesis Ti : ty i = MPath N D.
Hypothesis Dj : pl_dims (at_ j) = [[D]; [D; D]].
Hypothesis Di : pl_dims (at_ i) = [[N; D]; [N; D; D]; [N - 1; D; D]%nat].
Hypothesis HM : broadcasts_to (ash (pl_mask (at_ j))) (pl_plates (at_ j)).
Hypothesis HL : states_link P N (at_ j) (at_ i).

Let cd : list shape := [[N; D]; [N; D; D]; [N - 1; D; D]%nat].
Let X (u : list (arr R)) p := as_rows (part (at_plate cd u p) 0).
Let XX (u : list (arr R)) p := as_blocks (part (at_plate cd u p) 1).
Let Fp (u : list (arr R)) (e : env) : list (env -> R) :=
  let x := at_plate cd u (fun k => e (S k)) in
  [fun v => as_rows (part x 0) (e 0%nat) (v 0%nat); fun v => as_blocks (part x 1) (e 0%nat) (v 1%nat) (v 0%nat)].
Let F (u : list (arr R)) := lift_arrays (pl_plates (at_ j)) [[D]; [D; D]] (Fp u).
Let Y (m : list (arr R)) p t := at_plate [[D]; [D; D]] m (join 1 p (upd env0 0 t)).
Let f (m : list (arr R)) (p : env) : list (env -> R) :=
  let y t := at_plate [[D]; [D; D]] m (join 1 p (upd env0 0 t)) in
  [fun v => as_vec (part (y (v 1%nat)) 0) (v 0%nat); fun v => as_mat (part (y (v 2%nat)) 1) (v 1%nat) (v 0%nat); zero0].

Lemma pstates_split : forall p n, (fun k0 => join 1 p (upd env0 0 n) (S k0)) = p.
Proof. intros p n. apply functional_extensionality. intros x. unfold join. cbn. now rewrite Nat.sub_0_r. Qed.
Lemma pstates_vec : forall u p n k, valid P p -> (n < N)%nat -> (k < D)%nat ->
  coef (at_plate [[D]; [D; D]] (F u) (join 1 p (upd env0 0 n))) 0 (upd env0 0 k) = X u p n k.
Proof.
  intros u p n k Hp Hn Hk. unfold F. rewrite (sl_plates _ _ _ _ HL).
  rewrite (lift_coef _ [[D]; [D; D]] _ _ 0%nat [D] _ (join_valid P [N] p _ Hp (valid_vec N n Hn)) eq_refl (valid_vec D k Hk)).
  unfold Fp. change (length [N]) with 1%nat. rewrite pstates_split. reflexivity.
Qed.
Lemma pstates_mat : forall u p n k l, valid P p -> (n < N)%nat -> (k < D)%nat -> (l < D)%nat ->
  coef (at_plate [[D]; [D; D]] (F u) (join 1 p (upd env0 0 n))) 1 (upd (upd env0 1 k) 0 l) = XX u p n k l.
Proof.
  intros u p n k l Hp Hn Hk Hl. unfold F. rewrite (sl_plates _ _ _ _ HL).
  rewrite (lift_coef _ [[D]; [D; D]] _ _ 1%nat [D; D] _ (join_valid P [N] p _ Hp (valid_vec N n Hn)) eq_refl (valid_mat D k l Hk Hl)).
  unfold Fp. change (length [N]) with 1%nat. rewrite pstates_split. reflexivity.
Qed.
Let G (m u : list (arr R)) p n : R := innerv D (as_vec (part (Y m p n) 0)) (X u p n) + innerm D (as_mat (part (Y m p n) 1)) (XX u p n).
Lemma pstates_silent : forall m u p n, silent (at_ j) m -> valid P p -> (n < N)%nat ->
  bget (pl_mask (at_ j)) (join 1 p (upd env0 0 n)) = false -> G m u p n = 0.
Proof.
  intros m u p n SI Hp Hn Eb. pose proof (SI (join 1 p (upd env0 0 n))) as Z. rewrite (sl_plates _ _ _ _ HL), Dj in Z.
  specialize (Z (join_valid P [N] p _ Hp (valid_vec N n Hn)) Eb). unfold G, Y.
  replace 0 with (0 + 0) by ring. f_equal.
  - apply BlockLemmas.rsum_zero. intros k Hk. specialize (Z 0%nat [D] (upd env0 0 k) eq_refl (valid_vec D k Hk)). unfold as_vec, part. unfold coef in Z. unfold zero0. rewrite Z. ring.
  - apply BlockLemmas.rsum_zero. intros k Hk. apply BlockLemmas.rsum_zero. intros l Hl. specialize (Z 1%nat [D; D] (upd (upd env0 1 k) 0 l) eq_refl (valid_mat D k l Hk Hl)).
    unfold as_mat, part. unfold coef in Z. unfold zero0. rewrite Z. ring.
Qed.
Lemma pstates_pair : forall m u, length m = 2%nat -> length u = 3%nat -> silent (at_ j) m ->
  pairing (at_ j) m (F u) =
  (lprod (map INR (pl_mult (at_ j))) * total P (fun p => if bget (any_last (pl_mask (at_ j))) p then
     dot_at cd (lift_arrays P cd (f m)) u p else 0)).
Proof.
  intros m u Lm Lu SI. unfold pairing. f_equal. rewrite (sl_plates _ _ _ _ HL), total_app, Dj. apply total_ext. intros p Hp.
  assert (E : total [N] (fun v => if bget (pl_mask (at_ j)) (join (length [N]) p v) then dot_at [[D]; [D; D]] m (F u) (join (length [N]) p v) else 0) = rsum N (G m u p)).
  { rewrite total_1d. apply rsum_ext. intros n Hn. cbn [length].
    assert (GG : dot_at [[D]; [D; D]] m (F u) (join 1 p (upd env0 0 n)) = G m u p n).
    { rewrite dot_coef by (try exact Lm; apply lift_arrays_length).
      pose proof (at_plate_length [[D]; [D; D]] m (join 1 p (upd env0 0 n)) Lm) as L1.
      pose proof (at_plate_length [[D]; [D; D]] (F u) (join 1 p (upd env0 0 n)) ltac:(apply lift_arrays_length)) as L2.
      transitivity (rsum D (fun k => as_vec (part (Y m p n) 0) k * coef (at_plate [[D]; [D; D]] (F u) (join 1 p (upd env0 0 n))) 0 (upd env0 0 k))
        + rsum D (fun k => rsum D (fun l => as_mat (part (Y m p n) 1) k l * coef (at_plate [[D]; [D; D]] (F u) (join 1 p (upd env0 0 n))) 1 (upd (upd env0 1 k) 0 l)))).
      - unfold Y. destruct (at_plate [[D]; [D; D]] m _) as [|a [|a' [|? ?]]]; try discriminate. destruct (at_plate [[D]; [D; D]] (F u) _) as [|b [|b' [|? ?]]]; try discriminate.
        cbn [fdot]. rewrite total_1d, total_2d. unfold coef, part, as_vec, as_mat. cbn [nth]. ring.
      - unfold G, innerv, innerm. f_equal.
        + apply rsum_ext. intros k Hk. now rewrite pstates_vec.
        + apply rsum_ext. intros k Hk. apply rsum_ext. intros l Hl. now rewrite pstates_mat. }
    destruct (bget (pl_mask (at_ j)) (join 1 p (upd env0 0 n))) eqn:Eb; [exact GG|]. symmetry. now apply pstates_silent. }
  rewrite E. clear E.
  assert (GG : dot_at cd (lift_arrays P cd (f m)) u p = rsum N (G m u p)).
  { rewrite lift_dot by (try exact Hp; try exact Lu; reflexivity). unfold f, G, X, XX, Y.
    pose proof (at_plate_length cd u p ltac:(exact Lu)) as L. destruct (at_plate cd u p) as [|a [|b [|c [|? ?]]]]; try discriminate.
    unfold cd. cbn [fdot]. rewrite total_2d, !total_3d. rewrite rsum_plus.
    assert (Z : rsum (N - 1) (fun n => rsum D (fun i0 => rsum D (fun j0 => zero0 (upd (upd (upd env0 2 n) 1 i0) 0 j0) * c (upd (upd (upd env0 2 n) 1 i0) 0 j0)))) = 0).
    { apply BlockLemmas.rsum_zero. intros. apply BlockLemmas.rsum_zero. intros. apply BlockLemmas.rsum_zero. intros. unfold zero0. ring. }
    rewrite Z. unfold innerv, innerm, part, as_rows, as_blocks. cbn [nth]. unfold upd. cbn [Nat.eqb]. ring. }
  destruct (bget (any_last (pl_mask (at_ j))) p) eqn:Ea; [now rewrite GG|].
  apply BlockLemmas.rsum_zero. intros n Hn.
  destruct (bget (pl_mask (at_ j)) (join 1 p (upd env0 0 n))) eqn:Eb; [|now apply pstates_silent].
  assert (T : bget (any_last (pl_mask (at_ j))) p = true).
  { apply (any_last_get _ P N); [exact HN|rewrite <- (sl_plates _ _ _ _ HL); exact HM|]. now exists n. }
  congruence.
Qed.

Lemma path_states_typed : forall need, det_typed (tys ty) at_ need (path_states_fn (pl_plates (at_ j)) N D) j [i].
Proof.
  intros need. pose proof HL as [L0 L1 L2 L3 L4].
  assert (LU : forall us, Forall2 (fun i u => moments_in (at_ i) (t_mom (tys ty) i) u) [i] us ->
    exists u, us = [u] /\ moments_in (at_ i) (mt_mom (MPath N D)) u /\ length u = 3%nat).
  { intros us H. inversion H as [|i0 u0 l0 us0 MM H0 Ei Eu]. inversion H0. exists u0. split; [congruence|].
    cbn [t_mom tys] in MM. rewrite Ti in MM. split; [exact MM|].
    pose proof (Forall2_len _ _ _ _ _ (proj1 MM)) as E. rewrite Di in E. now rewrite <- E. }
  constructor.
  - intros us H. destruct (LU us H) as (u & -> & MM & Lu). cbn [df_moments path_states_fn]. eexists. split; [reflexivity|].
    change (moments_in (at_ j) (t_mom (tys ty) j) (F u)). split; [rewrite Dj; apply lift_variable|].
    intros e He. cbn [t_mom tys]. rewrite Tj, Dj. rewrite L0 in He. destruct (clusters_split N P e He) as (p & n & -> & Hp & Hn).
    assert (ON : on_values (pl_dims (at_ i)) (mt_mom (MPath N D))) by (rewrite Di; apply (mt_values (MPath N D))).
    pose proof (moments_in_child _ _ _ _ p MM ON L1 Hp) as (l & Pl & A0 & A1 & _). rewrite Di in A0, A1. fold cd in A0, A1.
    exists (map (fun o => (fst o, of_vec (snd o n))) l).
    assert (AM : forall H : (env -> R) -> R, avg (map (fun o => (fst o, of_vec (snd o n))) l) H = avg l (fun x => H (of_vec (x n)))).
    { intros H0. unfold avg. now rewrite map_map. }
    split; [|split].
    + destruct Pl as [P1 P2]. split; [apply Forall_map; exact P1|]. rewrite map_map. exact P2.
    + intros v Hv. destruct (vec_index D v Hv) as [-> Hk]. rewrite pstates_vec, AM by assumption. exact (A0 n _ Hn Hk).
    + intros v w Hv Hw. destruct (vec_index D v Hv) as [-> Hk]. destruct (vec_index D w Hw) as [-> Hk']. cbn [length]. rewrite join_vec.
      rewrite pstates_mat, AM by assumption. exact (A1 n _ _ Hn Hk Hk').
  - intros k i' us m Hk _ H Mm Vm SI. destruct k as [|[|k]]; try discriminate. injection Hk as <-.
    destruct (LU us H) as (u & -> & MM & Lu). cbn [df_message path_states_fn]. rewrite L0, removelast_last.
    assert (B1 : broadcasts_to (ash (any_last (pl_mask (at_ j)))) P) by (apply (any_last_shape _ P N); rewrite <- L0; exact HM).
    assert (MI : forall e, valid P e -> bget (any_last (pl_mask (at_ j))) e = true -> bget (pl_mask (at_ i)) e = true).
    { intros e He T. apply (any_last_get _ P N) in T; [|exact HN|rewrite <- L0; exact HM]. destruct T as (n & Hn & T).
      rewrite L0 in L3. pose proof (L3 _ (join_valid P [N] e _ He (valid_vec N n Hn)) T) as Q.
      replace (fun k => join (length [N]) e (upd env0 0 n) (S k)) with e in Q; [exact Q|].
      apply functional_extensionality. intros x. unfold join. cbn. now rewrite Nat.sub_0_r. }
    assert (Lm : length m = 2%nat) by (rewrite <- (Forall2_len _ _ _ _ _ Vm), Dj; reflexivity).
    destruct (messages_adjoint (any_last (pl_mask (at_ j))) (pl_mask (at_ i)) P (pl_mult (at_ j)) (pl_mult (at_ i))
      (pl_plates (at_ i)) (pl_dims (at_ i)) (lift_arrays P (pl_dims (at_ i)) (f m)) L1 L2 B1 L4 MI)
      as (ys & E & Fy & GA).
    { apply Forall2_of_nth; [now rewrite lift_arrays_length|]. intros x d a Hd Ha.
      now destruct (lift_arrays_nth _ _ _ _ _ _ Hd Ha). }
    exists ys. split; [exact E|]. split; [|split].
    2:{ pose proof (lifted_silent _ _ _ _ _ _ _ _ _ L1 L2 B1 L4 MI E Fy (pl_mult (at_ i))) as Q. now destruct (at_ i). }
    + split; [exact Fy|].
      assert (CO : SpecDetNet.cone (pl_dims (at_ i)) (t_msg (tys ty) i)).
      { cbn [t_msg tys]. rewrite Ti, Di. exact (mt_cone (MPath N D)). }
      refine (lifted_message_in _ _ _ _ _ _ _ _ _ L1 L2 B1 CO E Fy _).
      intros p Hp. cbn [t_msg tys]. rewrite Ti. destruct Mm as [_ Mm].
      assert (MM' : forall n, (n < N)%nat -> symmetric D (as_mat (part (Y m p n) 1)) /\ forall x, bilinear D (as_mat (part (Y m p n) 1)) x x <= 0).
      { intros n Hn. specialize (Mm (join 1 p (upd env0 0 n))). rewrite L0 in Mm. specialize (Mm (join_valid P [N] p _ Hp (valid_vec N n Hn))).
        cbn [t_msg tys] in Mm. rewrite Tj, Dj in Mm. destruct Mm as [S1 S2]. rewrite msym_vec in S1. split; [exact S1|].
        intros x. specialize (S2 (of_vec x)). rewrite quad_vec, as_of_vec in S2. exact S2. }
      split.
      * intros n Hn. exact (proj1 (MM' n Hn)).
      * intros x. unfold path_form.
        assert (Z : rsum (N - 1) (fun n => bilinear D (as_blocks (coef (f m p) 2) n) (x n) (x (S n))) = 0).
        { apply BlockLemmas.rsum_zero. intros n Hn. apply BlockLemmas.rsum_zero. intros k Hk. apply BlockLemmas.rsum_zero. intros l Hl. unfold coef, f, as_blocks, zero0. cbn [nth]. ring. }
        rewrite Z, Rplus_0_r. 
        assert (Q : 0 <= rsum N (fun n => -1 * bilinear D (as_blocks (coef (f m p) 1) n) (x n) (x n))).
        { apply rsum_nonneg. intros n Hn. pose proof (proj2 (MM' n Hn) (x n)) as Q.
          change (as_blocks (coef (f m p) 1) n) with (as_mat (part (Y m p n) 1)). lra. }
        rewrite rsum_scal in Q. lra.
    + intros us' x x' H' _ Ex Ex'. destruct (LU us' H') as (u' & -> & M' & Lu'). cbn [df_moments path_states_fn] in Ex, Ex'.
      injection Ex as <-. injection Ex' as <-. rewrite <- L0. change (pairing (at_ j) m (F u') - pairing (at_ j) m (F u) = pairing (at_ i) ys (nth 0 [u'] []) - pairing (at_ i) ys (nth 0 [u] [])).
      assert (KK : forall w, moments_in (at_ i) (mt_mom (MPath N D)) w -> length w = 3%nat -> pairing (at_ j) m (F w) = pairing (at_ i) ys w).
      { intros w [Vw _] Lw. rewrite (pstates_pair m w Lm Lw SI). unfold pairing. rewrite (GA w (variable_fits _ _ _ Vw)). now rewrite Di. }
      cbn [nth]. now rewrite !KK.
Qed.
End PathStates.
