(** Lemmas for C25: variables whose elements are plates of the parent (GaussianARD). *)
From Coq Require Import List Arith ZArith Lia Bool Reals Lra FunctionalExtensionality.
From Verif Require Import Base Shapes SpecShapes ShapesLemmas NumPy MiscArray TensorLemmas
  EinsumLemmas SumMultiplyLemmas SpecArray PlateSumLemmas PlateSum2Lemmas MessageLemmas
  ShapeOpsLemmas DiagLemmas ExpFam SpecExpFam ExpFamLemmas ExpFamBound ExpFamGrad PExpFam SpecUpdate
  UpdateLemmas PUpdate Families SpecFamilies FamiliesLemmas FamiliesLemmas2 PFamilies2 FamilyDist SpecFamilyDist PFamilyDist Network SpecNetwork NetworkLemmas NetworkLemmas2
  PNetwork MarkovLemmas FamilyNet SpecFamilyNet PFamilyNet Dot SpecDot DetNet SpecDetNet DetNetLemmas DetNetLemmas2
  Linalg MatBridge SpecLinalg LinalgLemmas Gaussian SpecGaussian GaussLemmas GaussAlg PGaussian PGaussian2 GaussGibbs GaussianDist PGaussianDist
  GaussNet SpecGaussNet PlateDet GaussTypes GaussNodes GaussNodes2 GaussNodes3 GaussNodes4 GaussNodes5.
Import ListNotations.
Open Scope R_scope.

(** The mask with one more axis. *)
Lemma trailing_get : forall (m : arr bool) p v, bget (add_trailing_axes m 1) (join 1 p v) = bget m p.
Proof.
  intros m p v. change (add_trailing_axes m 1) with (expand_at m 0). rewrite bget_expand_at by lia. apply bget_ext. intros k _ _.
  unfold join. cbn. now rewrite Nat.sub_0_r.
Qed.
Lemma trailing_shape : forall (m : arr bool) ps D, broadcasts_to (ash m) ps ->
  broadcasts_to (ash (add_trailing_axes m 1)) (ps ++ [D]).
Proof. intros m ps D H. exact (trailing_broadcasts _ m ps [D] H). Qed.

Record elements_link (D : nat) (n par : place) : Prop := ElementsLink {
  el_plates : broadcasts_to (pl_plates par) (pl_plates n ++ [D]);
  el_mult : broadcasts_to (pl_mult par) (pl_mult n);
  el_mask : forall p v, valid (pl_plates n) p -> valid [D] v -> bget (pl_mask n) p = true ->
    bget (pl_mask par) (join 1 p v) = true;
  el_shape : broadcasts_to (ash (pl_mask par)) (pl_plates par) }.

Section Elements.
Variable ty : nat -> mtype.
Variable at_ : nat -> place.
Variable D j i : nat.
Hypothesis Tj : ty j = MElements D.
Hypothesis Ti : ty i = MGaussianGamma [].
Hypothesis Dj : pl_dims (at_ j) = [[D]; [D]; [D]; [D]].
Hypothesis Di : pl_dims (at_ i) = [[]; []; []; []].
Hypothesis HM : broadcasts_to (ash (pl_mask (at_ j))) (pl_plates (at_ j)).
Hypothesis HL : elements_link D (at_ j) (at_ i).

Let ps := pl_plates (at_ j).
Let F (u : list (arr R)) := lift_arrays ps [[D]; [D]; [D]; [D]] (fun p => map (fun a v => bget a (join 1 p v)) u).

Lemma elements_get : forall u p c v, valid ps p -> valid [D] v -> (c < 4)%nat -> length u = 4%nat ->
  coef (at_plate [[D]; [D]; [D]; [D]] (F u) p) c v = coef (at_plate [[]; []; []; []] u (join 1 p v)) c env0.
Proof.
  intros u p c v Hp Hv Hc Lu.
  unfold F. rewrite (lift_coef ps _ _ p c [D] v Hp) by (try exact Hv; do 4 (destruct c as [|c]; [reflexivity|]); lia).
  list4 u. do 4 (destruct c as [|c]; [cbn; unfold coef; cbn; apply bget_ext; intros k _ _; unfold join; cbn; now rewrite Nat.sub_0_r|]). lia.
Qed.

Lemma elements_pair : forall m u, length m = 4%nat -> length u = 4%nat ->
  pairing (at_ j) m (F u) =
  (lprod (map INR (pl_mult (at_ j))) * total (ps ++ [D]) (fun e => if bget (add_trailing_axes (pl_mask (at_ j)) 1) e then
     dot_at [[]; []; []; []] (lift_arrays (ps ++ [D]) [[]; []; []; []] (fun e => map (fun a _ => bget a e) m)) u e else 0)).
Proof.
  intros m u Lm Lu. unfold pairing. f_equal. rewrite total_app. apply total_ext. intros p Hp.
  destruct (bget (pl_mask (at_ j)) p) eqn:Ek.
  - rewrite (total_ext [D] _ (fun v => dot_at [[]; []; []; []] (lift_arrays (ps ++ [D]) [[]; []; []; []] (fun e => map (fun a _ => bget a e) m)) u (join 1 p v)))
      by (intros v Hv; cbn [length]; now rewrite trailing_get, Ek).
    rewrite Dj, dot_coef by (try exact Lm; apply lift_arrays_length).
    rewrite (total_ext [D] _ (fun v => fdot [[]; []; []; []] (map (fun a _ => bget a (join 1 p v)) m) (at_plate [[]; []; []; []] u (join 1 p v)))).
    2:{ intros v Hv. apply lift_dot; [exact (join_valid ps [D] p v Hp Hv)|now rewrite map_length|exact Lu]. }
    rewrite (fdot_coef _ _ _ (map (fun a v => bget a (join 1 p v)) u)).
    2:{ now rewrite at_plate_length by apply lift_arrays_length; rewrite map_length, Lu. }
    2:{ intros c d v Hd Hv. now apply (lift_coef ps _ (fun p => map (fun a v => bget a (join 1 p v)) u) p c d). }
    destruct m as [|a [|a0 [|a1 [|a2 [|? ?]]]]]; try discriminate. destruct u as [|a3 [|a4 [|a5 [|a6 [|? ?]]]]]; try discriminate.
    cbn [combine map fst snd at_plate fdot].
    transitivity (total [D] (fun v => bget a (join 1 p v) * bget a3 (join 1 p v) + (bget a0 (join 1 p v) * bget a4 (join 1 p v) +
      (bget a1 (join 1 p v) * bget a5 (join 1 p v) + bget a2 (join 1 p v) * bget a6 (join 1 p v))))).
    + rewrite !total_add. unfold at_plate. cbn [combine map fst snd fdot length]. ring.
    + apply total_ext. intros v Hv. unfold at_plate. cbn [combine map fst snd fdot]. rewrite !total_0d.
      assert (J : forall (x : arr R), bget x (join 0 (join 1 p v) env0) = bget x (join 1 p v)).
      { intros x. apply bget_ext. intros k _ _. unfold join. cbn. now rewrite Nat.sub_0_r. }
      cbn [length]. rewrite !J. ring.
  - symmetry. apply total_zero. intros v Hv. cbn [length]. now rewrite trailing_get, Ek.
Qed.

Lemma elements_typed : forall need, det_typed (tys ty) at_ need (elements_fn ps D) j [i].
Proof.
  intros need. destruct HL as [L1 L2 L3 L4].
  assert (LU : forall us, Forall2 (fun i u => moments_in (at_ i) (t_mom (tys ty) i) u) [i] us ->
    exists u, us = [u] /\ moments_in (at_ i) (mt_mom (MGaussianGamma [])) u /\ length u = 4%nat).
  { intros us H. inv H. match goal with X : Forall2 _ [] _ |- _ => inv X end. eexists. split; [reflexivity|].
    match goal with X : moments_in _ _ _ |- _ => rename X into M end. cbn [t_mom tys] in M. rewrite Ti in M. split; [exact M|].
    pose proof (Forall2_len _ _ _ _ _ (proj1 M)) as E. rewrite Di in E. now rewrite <- E. }
  constructor.
  - intros us H. destruct (LU us H) as (u & -> & M & Lu). cbn [df_moments elements_fn]. eexists. split; [reflexivity|].
    fold (F u). split; [rewrite Dj; apply lift_variable|]. intros p Hp. cbn [t_mom tys]. rewrite Tj, Dj. cbn [mt_mom]. intros v Hv.
    rewrite !elements_get by (try assumption; lia).
    assert (ON : on_values (pl_dims (at_ i)) (mt_mom (MGaussianGamma []))) by (rewrite Di; exact (mt_values (MGaussianGamma []))).
    pose proof (moments_in_child _ _ _ _ (join 1 p v) M ON L1 (join_valid ps [D] p v Hp Hv)) as K. rewrite Di in K.
    destruct K as (l & P & Po & E0 & E1 & E2).
    assert (V0 : valid [] env0) by (intros k; rewrite ax_overflow by (cbn; lia); unfold env0; lia).
    specialize (E0 env0 V0). specialize (E1 env0 env0 V0 V0).
    change (join (length []) env0 env0) with (fun k : nat => if (k <? 0)%nat then env0 k else env0 (k - 0)%nat) in E1.
    replace (fun k : nat => if (k <? 0)%nat then env0 k else env0 (k - 0)%nat) with env0 in E1 by reflexivity.
    rewrite E0, E1, E2. split; [now apply avg_pos|].
    pose proof (avg_square l (fun o => fst o) (fun o => snd o env0) P Po) as J. exact J.
  - intros k i' us m Hk _ H Mm Vm _. destruct k as [|[|k]]; try discriminate. injection Hk as <-.
    destruct (LU us H) as (u & -> & M & Lu). cbn [df_message elements_fn]. fold ps.
    pose proof (trailing_shape (pl_mask (at_ j)) ps D HM) as B1.
    assert (MI : forall e, valid (ps ++ [D]) e -> bget (add_trailing_axes (pl_mask (at_ j)) 1) e = true -> bget (pl_mask (at_ i)) e = true).
    { intros e He. replace e with (join 1 (fun k => e (S k)) (fun k => match k with 0%nat => e 0%nat | _ => 0%nat end)).
      - rewrite trailing_get. apply L3.
        + intros k. specialize (He (S k)). rewrite ax_app in He. cbn in He. rewrite Nat.sub_0_r in He. exact He.
        + intros [|k]; [specialize (He 0%nat); rewrite ax_app in He; exact He|rewrite ax_overflow by (cbn; lia); lia].
      - apply functional_extensionality. intros [|k]; [reflexivity|]. unfold join. cbn. now rewrite Nat.sub_0_r. }
    assert (Lm : length m = 4%nat) by (rewrite <- (Forall2_len _ _ _ _ _ Vm), Dj; reflexivity).
    destruct (messages_adjoint (add_trailing_axes (pl_mask (at_ j)) 1) (pl_mask (at_ i)) (ps ++ [D]) (pl_mult (at_ j)) (pl_mult (at_ i))
      (pl_plates (at_ i)) (pl_dims (at_ i)) (lift_arrays (ps ++ [D]) (pl_dims (at_ i)) (fun e => map (fun a _ => bget a e) m)) L1 L2 B1 L4 MI)
      as (ys & E & Fy & G).
    { apply Forall2_of_nth; [now rewrite lift_arrays_length|]. intros x d a Hd Ha.
      now destruct (lift_arrays_nth _ _ _ _ _ _ Hd Ha). }
    exists ys. split; [exact E|]. split; [|split].
    2:{ pose proof (lifted_silent _ _ _ _ _ _ _ _ _ L1 L2 B1 L4 MI E Fy (pl_mult (at_ i))) as S. now destruct (at_ i). }
    + split; [exact Fy|]. intros t Ht.
      assert (CO : SpecDetNet.cone (pl_dims (at_ i)) (t_msg (tys ty) i)).
      { cbn [t_msg tys]. rewrite Ti, Di. exact (mt_cone (MGaussianGamma [])). }
      apply (lifted_message_in _ _ _ _ _ _ _ _ _ L1 L2 B1 CO E Fy); [|exact Ht]. clear t Ht.
      intros e He. cbn [t_msg tys]. rewrite Ti.
      set (p := fun k => e (S k)). set (v := fun k => match k with 0%nat => e 0%nat | _ => 0%nat end).
      assert (Ee : e = join 1 p v).
      { apply functional_extensionality. intros [|k]; [reflexivity|]. unfold join. cbn. now rewrite Nat.sub_0_r. }
      assert (Hp : valid ps p). { intros k. specialize (He (S k)). rewrite ax_app in He. cbn in He. rewrite Nat.sub_0_r in He. exact He. }
      assert (Hv : valid [D] v). { intros [|k]; [specialize (He 0%nat); rewrite ax_app in He; exact He|rewrite ax_overflow by (cbn; lia); cbn; lia]. }
      rewrite Ee. destruct Mm as [_ Mm]. specialize (Mm p Hp). cbn [t_msg tys] in Mm. rewrite Tj, Dj in Mm. cbn [mt_msg] in Mm.
      destruct (Mm v Hv) as [M3 M0]. clear Mm.
      destruct m as [|m0 [|m1 [|m2 [|m3 [|? ?]]]]]; try discriminate.
      unfold at_plate in M3, M0. cbn [combine map fst snd length] in M3, M0. rewrite coef_nth in M3. cbn [nth] in M3.
      assert (M0' : forall x, bget m0 (join 1 p v) * x + bget m1 (join 1 p v) * (x * x) + bget m2 (join 1 p v) <= 0) by exact M0.
      split; [|split].
      * intros a b Ha Hb. reflexivity.
      * exact M3.
      * intros f. unfold quad. rewrite !total_0d. specialize (M0' (f env0)). unfold coef. cbn [map nth]. lra.
    + intros us' x x' H' _ Ex Ex'. destruct (LU us' H') as (u' & -> & M' & Lu'). cbn [df_moments elements_fn] in Ex, Ex'.
      injection Ex as <-. injection Ex' as <-. fold (F u). fold (F u').
      assert (K : forall w, moments_in (at_ i) (mt_mom (MGaussianGamma [])) w -> length w = 4%nat -> pairing (at_ j) m (F w) = pairing (at_ i) ys w).
      { intros w [Vw _] Lw. rewrite (elements_pair m w Lm Lw). unfold pairing at 1. rewrite (G w (variable_fits _ _ _ Vw)). now rewrite Di. }
      cbn [nth]. now rewrite !K.
Qed.
End Elements.
