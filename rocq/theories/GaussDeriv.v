(** Continuity of the Cholesky factorisation and of the solvers along a line, and
    the derivatives of the Gaussian moments. *)
From Coq Require Import List Arith Lia Bool Reals Lra FunctionalExtensionality.
From Verif Require Import Base NumPy TensorLemmas MarkovLemmas Families SpecFamilies FamiliesLemmas FamiliesLemmas2 PFamilies2
  Linalg MatBridge SpecLinalg LinalgLemmas Gaussian SpecGaussian GaussLemmas GaussAlg PGaussian PGaussian2 GaussGibbs SpecGradient.
Import ListNotations.
Open Scope R_scope.

Definition cont (f : R -> R) : Prop := continuity_pt f 0.
Lemma cont_def : forall f, cont f <-> forall e, 0 < e -> exists r, 0 < r /\ forall t, Rabs t < r -> Rabs (f t - f 0) < e.
Proof.
  intros f. split; intros H e He.
  - destruct (H e He) as (r & Hr & K). exists r. split; [exact Hr|]. intros t Ht.
    destruct (Req_dec t 0) as [->|N]; [rewrite Rminus_diag_eq, Rabs_R0 by reflexivity; lra|].
    apply (K t). split; [split; [exact I|auto]|]. cbn. unfold R_dist. now rewrite Rminus_0_r.
  - destruct (H e He) as (r & Hr & K). exists r. split; [exact Hr|]. intros t [_ Ht]. cbn in *. unfold R_dist in *.
    apply K. now rewrite Rminus_0_r in Ht.
Qed.
Lemma c_const : forall c, cont (fun _ => c).
Proof. intros. apply continuity_pt_const. intros ? ?; reflexivity. Qed.
Lemma c_id : cont (fun t => t).
Proof. apply derivable_continuous_pt. exact (derivable_pt_id 0). Qed.
Lemma c_plus : forall f g, cont f -> cont g -> cont (fun t => f t + g t).
Proof. intros f g Hf Hg. exact (continuity_pt_plus f g 0 Hf Hg). Qed.
Lemma c_minus : forall f g, cont f -> cont g -> cont (fun t => f t - g t).
Proof. intros f g Hf Hg. exact (continuity_pt_minus f g 0 Hf Hg). Qed.
Lemma c_mult : forall f g, cont f -> cont g -> cont (fun t => f t * g t).
Proof. intros f g Hf Hg. exact (continuity_pt_mult f g 0 Hf Hg). Qed.
Lemma c_div : forall f g, cont f -> cont g -> g 0 <> 0 -> cont (fun t => f t / g t).
Proof. intros f g Hf Hg N. exact (continuity_pt_div f g 0 Hf Hg N). Qed.
Lemma c_sqrt : forall f, cont f -> 0 <= f 0 -> cont (fun t => sqrt (f t)).
Proof. intros f Hf P. exact (continuity_pt_comp f sqrt 0 Hf (continuity_pt_sqrt _ P)). Qed.
Lemma c_rsum : forall n (F : R -> nat -> R), (forall i, (i < n)%nat -> cont (fun t => F t i)) -> cont (fun t => rsum n (F t)).
Proof.
  induction n as [|n IH]; intros F H.
  - exact (c_const 0).
  - assert (E : (fun t => rsum (S n) (F t)) = (fun t => F t O + rsum n (fun i => F t (S i)))).
    { extensionality t. apply rsum_S_l. }
    rewrite E. apply c_plus; [apply H; lia|]. apply IH. intros i Hi. apply H. lia.
Qed.
Lemma c_near : forall f g r, 0 < r -> (forall t, Rabs t < r -> f t = g t) -> cont f -> cont g.
Proof.
  intros f g r Hr E H. apply cont_def. intros e He. destruct (proj1 (cont_def f) H e He) as (q & Hq & K).
  exists (Rmin r q). split; [now apply Rmin_pos|]. intros t Ht.
  assert (Rabs t < r) by (eapply Rlt_le_trans; [exact Ht|apply Rmin_l]).
  assert (Rabs t < q) by (eapply Rlt_le_trans; [exact Ht|apply Rmin_r]).
  rewrite <- !E by (try rewrite Rabs_R0; assumption). now apply K.
Qed.
Lemma c_pos : forall f, cont f -> 0 < f 0 -> exists r, 0 < r /\ forall t, Rabs t < r -> 0 < f t.
Proof.
  intros f H P. destruct (proj1 (cont_def f) H (f 0) P) as (r & Hr & K). exists r. split; [exact Hr|].
  intros t Ht. specialize (K t Ht). apply Rabs_def2 in K. lra.
Qed.

Definition fac (n : nat) (A : mat) : mat := match cho_factor n A with Ok U => U | Err _ => fun _ _ => 0 end.
Lemma fac_cont : forall n (A : R -> mat), (forall i j, (i < n)%nat -> (j < n)%nat -> cont (fun t => A t i j)) ->
  forall U0, cho_factor n (A 0) = Ok U0 ->
  exists r, 0 < r /\ (forall t, Rabs t < r -> cho_factor n (A t) = Ok (fac n (A t))) /\
    forall i j, (i < n)%nat -> (j < n)%nat -> cont (fun t => fac n (A t) i j).
Proof.
  induction n as [|n IH]; intros A HA U0 E.
  - exists 1. split; [lra|]. split; [reflexivity|lia].
  - cbn [cho_factor] in E. destruct (Rle_dec (A 0 O O) 0) as [|P]; [discriminate|].
    assert (C0 : cont (fun t => A t O O)) by (apply HA; lia).
    destruct (c_pos _ C0) as (r1 & Hr1 & K1); [cbv beta; lra|].
    set (Sc := fun t i j => A t (S i) (S j) - A t O (S i) / sqrt (A t O O) * (A t O (S j) / sqrt (A t O O))) in *.
    assert (CR : cont (fun t => sqrt (A t O O))) by (apply c_sqrt; [exact C0|lra]).
    assert (NZ : sqrt (A 0 O O) <> 0) by (apply Rgt_not_eq, sqrt_lt_R0; lra).
    assert (CQ : forall j, (j < n)%nat -> cont (fun t => A t O (S j) / sqrt (A t O O))).
    { intros j Hj. apply c_div; [apply HA; lia|exact CR|exact NZ]. }
    assert (CS : forall i j, (i < n)%nat -> (j < n)%nat -> cont (fun t => Sc t i j)).
    { intros i j Hi Hj. unfold Sc. apply c_minus; [apply HA; lia|]. apply c_mult; apply CQ; lia. }
    destruct (cho_factor n (fun i j => A 0 (S i) (S j) - A 0 O (S i) / sqrt (A 0 O O) * (A 0 O (S j) / sqrt (A 0 O O)))) as [U1|] eqn:E1;
      [|discriminate].
    destruct (IH Sc CS U1 E1) as (r2 & Hr2 & K2 & C2).
    set (G := fun t i j => match i, j with
              | O, O => sqrt (A t O O) | O, S j' => A t O (S j') / sqrt (A t O O)
              | S _, O => 0 | S i', S j' => fac n (Sc t) i' j' end).
    assert (KK : forall t, Rabs t < Rmin r1 r2 -> cho_factor (S n) (A t) = Ok (G t)).
    { intros t Ht. assert (Rabs t < r1) by (eapply Rlt_le_trans; [exact Ht|apply Rmin_l]).
      assert (Rabs t < r2) by (eapply Rlt_le_trans; [exact Ht|apply Rmin_r]).
      cbn [cho_factor]. destruct (Rle_dec (A t O O) 0) as [L|_]; [specialize (K1 t H); cbv beta in K1; lra|].
      change (fun i j => A t (S i) (S j) - A t O (S i) / sqrt (A t O O) * (A t O (S j) / sqrt (A t O O))) with (Sc t).
      rewrite (K2 t H0). reflexivity. }
    exists (Rmin r1 r2). split; [now apply Rmin_pos|]. split.
    + intros t Ht. unfold fac. now rewrite (KK t Ht).
    + intros i j Hi Hj. apply (c_near (fun t => G t i j) _ (Rmin r1 r2)); [now apply Rmin_pos| |].
      * intros t Ht. unfold fac at 1. now rewrite (KK t Ht).
      * unfold G. destruct i as [|i], j as [|j]; [exact CR|apply CQ; lia|apply c_const|apply C2; lia].
Qed.
Lemma forward_cont : forall n (U : R -> mat) (b : R -> vec),
  (forall i j, (i < n)%nat -> (j < n)%nat -> cont (fun t => U t i j)) ->
  (forall i, (i < n)%nat -> cont (fun t => b t i)) -> (forall i, (i < n)%nat -> U 0 i i <> 0) ->
  forall i, (i < n)%nat -> cont (fun t => forward_solve n (U t) (b t) i).
Proof.
  induction n as [|n IH]; intros U b HU Hb N i Hi; [lia|]. cbn [forward_solve].
  assert (C0 : cont (fun t => b t O / U t O O)) by (apply c_div; [apply Hb; lia|apply HU; lia|apply N; lia]).
  destruct i as [|i]; cbn [cons_v]; [exact C0|].
  apply (IH (fun t => tail_m (U t)) (fun t i => b t (S i) - U t O (S i) * (b t O / U t O O))); try lia.
  - intros a c Ha Hc. unfold tail_m. apply HU; lia.
  - intros a Ha. apply c_minus; [apply Hb; lia|]. apply c_mult; [apply HU; lia|exact C0].
  - intros a Ha. unfold tail_m. apply N. lia.
Qed.
Lemma back_cont : forall n (U : R -> mat) (b : R -> vec),
  (forall i j, (i < n)%nat -> (j < n)%nat -> cont (fun t => U t i j)) ->
  (forall i, (i < n)%nat -> cont (fun t => b t i)) -> (forall i, (i < n)%nat -> U 0 i i <> 0) ->
  forall i, (i < n)%nat -> cont (fun t => back_solve n (U t) (b t) i).
Proof.
  induction n as [|n IH]; intros U b HU Hb N i Hi; [lia|]. cbn [back_solve].
  assert (CT : forall k, (k < n)%nat -> cont (fun t => back_solve n (tail_m (U t)) (tail_v (b t)) k)).
  { apply (IH (fun t => tail_m (U t)) (fun t => tail_v (b t))).
    - intros a c Ha Hc. unfold tail_m. apply HU; lia.
    - intros a Ha. unfold tail_v. apply Hb. lia.
    - intros a Ha. unfold tail_m. apply N. lia. }
  destruct i as [|i]; cbn [cons_v]; [|apply CT; lia].
  apply c_div; [|apply HU; lia|apply N; lia]. apply c_minus; [apply Hb; lia|].
  apply (c_rsum n (fun t j => U t O (S j) * back_solve n (tail_m (U t)) (tail_v (b t)) j)).
  intros j Hj. apply c_mult; [apply HU; lia|now apply CT].
Qed.
Lemma solve_cont : forall n (U : R -> mat) (b : R -> vec),
  (forall i j, (i < n)%nat -> (j < n)%nat -> cont (fun t => U t i j)) ->
  (forall i, (i < n)%nat -> cont (fun t => b t i)) -> (forall i, (i < n)%nat -> U 0 i i <> 0) ->
  forall i, (i < n)%nat -> cont (fun t => cho_solve n (U t) (b t) i).
Proof.
  intros n U b HU Hb N i Hi. unfold cho_solve. apply (back_cont n U (fun t => forward_solve n (U t) (b t))); auto.
  now apply forward_cont.
Qed.

Lemma mline0 : forall p d, mline p d 0 = p.
Proof. intros. extensionality i. extensionality j. unfold mline. ring. Qed.
Lemma vline0 : forall p d, vline p d 0 = p.
Proof. intros. extensionality i. unfold vline. ring. Qed.
Lemma gline0 : forall p d, gline p d 0 = p.
Proof. intros [p q] [d e]. unfold gline. cbn [fst snd]. now rewrite vline0, mline0. Qed.
Lemma c_line : forall a b, cont (fun t => a + t * b).
Proof. intros. apply c_plus; [apply c_const|]. apply c_mult; [apply c_id|apply c_const]. Qed.
Lemma mline_symmetric : forall n p d t, symmetric n p -> symmetric n d -> symmetric n (mline p d t).
Proof. intros n p d t H1 H2 i j Hi Hj. unfold mline. now rewrite (H1 i j), (H2 i j). Qed.

Definition gm_u (D : nat) (phi : vec * mat) : vec * mat :=
  match gaussian_moments D phi with Ok (u, _) => u | Err _ => (fun _ => 0, fun _ _ => 0) end.
Definition gm_g (D : nat) (phi : vec * mat) : R :=
  match gaussian_moments D phi with Ok (_, g) => g | Err _ => 0 end.

Lemma gm_near : forall D (phi d : vec * mat), symmetric D (snd phi) -> posdef D (scal_m (-2) (snd phi)) ->
  exists r, 0 < r /\
    (forall t, Rabs t < r -> gaussian_moments D (gline phi d t) = Ok (gm_u D (gline phi d t), gm_g D (gline phi d t))) /\
    (forall i, (i < D)%nat -> cont (fun t => fst (gm_u D (gline phi d t)) i)) /\
    (forall i j, (i < D)%nat -> (j < D)%nat -> cont (fun t => snd (gm_u D (gline phi d t)) i j)).
Proof.
  intros D phi d Sy P. destruct (posdef_chol D _ P) as [U0 E0].
  set (A := fun t => scal_m (-2) (snd (gline phi d t))).
  assert (CA : forall i j, (i < D)%nat -> (j < D)%nat -> cont (fun t => A t i j)).
  { intros i j _ _. unfold A, scal_m, gline, mline. cbn [snd]. apply c_mult; [apply c_const|apply c_line]. }
  assert (E0' : cho_factor D (A 0) = Ok U0) by (unfold A; now rewrite gline0).
  destruct (fac_cont D A CA U0 E0') as (r & Hr & K & C).
  assert (NZ : forall i, (i < D)%nat -> fac D (A 0) i i <> 0).
  { intros i Hi. apply Rgt_not_eq. unfold fac. rewrite E0'. now apply (tri_pos _ _ (cho_factor_tri _ _ _ E0)). }
  set (m := fun t => chol_solve D (fac D (A t)) (vline (fst phi) (fst d) t)).
  set (V := fun t => chol_inv D (fac D (A t))).
  assert (Cm : forall i, (i < D)%nat -> cont (fun t => m t i)).
  { apply (solve_cont D (fun t => fac D (A t)) (fun t => vline (fst phi) (fst d) t)); auto.
    intros i Hi. apply c_line. }
  assert (CV : forall i j, (i < D)%nat -> (j < D)%nat -> cont (fun t => V t i j)).
  { intros i j Hi Hj. apply (solve_cont D (fun t => fac D (A t)) (fun _ k => identity k j)); auto.
    intros k _. apply c_const. }
  assert (G : forall t, Rabs t < r -> gaussian_moments D (gline phi d t) =
      Ok ((m t, add_m (V t) (outerv (m t) (m t))), -0.5 * innerv D (m t) (vline (fst phi) (fst d) t) + 0.5 * chol_logdet D (fac D (A t)))).
  { intros t Ht. unfold gaussian_moments, chol. fold (A t). rewrite (K t Ht). reflexivity. }
  exists r. split; [exact Hr|]. split; [|split].
  - intros t Ht. unfold gm_u, gm_g. now rewrite (G t Ht).
  - intros i Hi. apply (c_near (fun t => m t i) _ r Hr); [|now apply Cm]. intros t Ht. unfold gm_u. now rewrite (G t Ht).
  - intros i j Hi Hj. apply (c_near (fun t => V t i j + m t i * m t j) _ r Hr).
    + intros t Ht. unfold gm_u. now rewrite (G t Ht).
    + apply c_plus; [now apply CV|]. apply c_mult; now apply Cm.
Qed.

(** A function squeezed between t w(0) and t w(t) has derivative w(0). *)
Lemma d_sandwich : forall f w r, 0 < r -> cont w ->
  (forall t, Rabs t < r -> t * w 0 <= f t - f 0 <= t * w t) -> derivable_pt_lim f 0 (w 0).
Proof.
  intros f w r Hr Cw H e He. destruct (proj1 (cont_def w) Cw e He) as (q & Hq & K).
  assert (Hm : 0 < Rmin r q) by now apply Rmin_pos. exists (mkposreal _ Hm). intros t N Ht. cbn in Ht. rewrite Rplus_0_l.
  assert (T1 : Rabs t < r) by (eapply Rlt_le_trans; [exact Ht|apply Rmin_l]).
  assert (T2 : Rabs t < q) by (eapply Rlt_le_trans; [exact Ht|apply Rmin_r]).
  specialize (H t T1). specialize (K t T2). apply Rle_lt_trans with (Rabs (w t - w 0)); [|exact K].
  assert (EQ : (f t - f 0) / t - w 0 = (f t - f 0 - t * w 0) / t) by (field; exact N).
  rewrite EQ. unfold Rdiv. rewrite Rabs_mult, Rabs_inv.
  assert (Pt : 0 < Rabs t) by now apply Rabs_pos_lt.
  apply (Rmult_le_reg_r (Rabs t)); [exact Pt|]. rewrite Rmult_assoc, Rinv_l, Rmult_1_r by lra.
  rewrite <- Rabs_mult. rewrite !Rabs_right.
  - lra.
  - lra.
  - lra.
Qed.

Lemma innerv_line : forall D p d u t, innerv D (vline p d t) u = innerv D p u + t * innerv D d u.
Proof.
  intros. unfold innerv, vline. rewrite <- rsum_scal, <- rsum_plus. apply rsum_ext. intros; ring.
Qed.
Lemma innerm_line : forall D p d u t, innerm D (mline p d t) u = innerm D p u + t * innerm D d u.
Proof.
  intros. unfold innerm, mline. rewrite <- rsum_scal, <- rsum_plus. apply rsum_ext. intros i Hi.
  rewrite <- rsum_scal, <- rsum_plus. apply rsum_ext. intros; ring.
Qed.

Lemma gm_g_deriv : forall D (phi d : vec * mat), symmetric D (snd phi) -> symmetric D (snd d) ->
  posdef D (scal_m (-2) (snd phi)) ->
  derivable_pt_lim (fun t => - gm_g D (gline phi d t)) 0
    (innerv D (fst d) (fst (gm_u D phi)) + innerm D (snd d) (snd (gm_u D phi))).
Proof.
  intros D phi d Sy Sd P. destruct (gm_near D phi d Sy P) as (r & Hr & K & C0 & C1).
  set (u := fun t => gm_u D (gline phi d t)) in *.
  set (w := fun t => innerv D (fst d) (fst (u t)) + innerm D (snd d) (snd (u t))).
  assert (E : innerv D (fst d) (fst (gm_u D phi)) + innerm D (snd d) (snd (gm_u D phi)) = w 0) by (unfold w, u; now rewrite gline0).
  rewrite E. apply (d_sandwich _ w r Hr).
  - unfold w. apply c_plus.
    + apply (c_rsum D (fun t i => fst d i * fst (u t) i)). intros i Hi. apply c_mult; [apply c_const|now apply C0].
    + apply (c_rsum D (fun t i => rsum D (fun j => snd d i j * snd (u t) i j))). intros i Hi.
      apply (c_rsum D (fun t j => snd d i j * snd (u t) i j)). intros j Hj. apply c_mult; [apply c_const|now apply C1].
  - intros t Ht. assert (K0 := K 0 ltac:(rewrite Rabs_R0; lra)). assert (Kt := K t Ht).
    assert (St : symmetric D (snd (gline phi d t))) by now apply mline_symmetric.
    assert (S0 : symmetric D (snd (gline phi d 0))) by now apply mline_symmetric.
    pose proof (proj1 (gaussian_kl D _ _ _ _ _ _ S0 St K0 Kt)) as G1.
    pose proof (proj1 (gaussian_kl D _ _ _ _ _ _ St S0 Kt K0)) as G2. cbv zeta in G1, G2.
    unfold gline in G1, G2. cbn [fst snd] in G1, G2. rewrite !innerv_line, !innerm_line in G1, G2. fold (gline phi d t) (gline phi d 0) in G1, G2.
    fold (u t) (u 0) in G1, G2. unfold w. lra.
Qed.
