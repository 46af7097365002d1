(** Lemmas for C25: deterministic nodes that work plate by plate. *)
From Coq Require Import List Arith ZArith Lia Bool Reals Lra FunctionalExtensionality.
From Verif Require Import Base Shapes SpecShapes ShapesLemmas NumPy MiscArray TensorLemmas
  EinsumLemmas SumMultiplyLemmas SpecArray PlateSumLemmas PlateSum2Lemmas MessageLemmas
  ShapeOpsLemmas DiagLemmas ExpFam SpecExpFam ExpFamLemmas ExpFamBound ExpFamGrad PExpFam SpecUpdate
  UpdateLemmas PUpdate FamilyDist SpecFamilyDist PFamilyDist Network SpecNetwork NetworkLemmas NetworkLemmas2
  PNetwork PFamilyNet Dot SpecDot DetNet SpecDetNet DetNetLemmas DetNetLemmas2 GaussNet.
Import ListNotations.
Open Scope nat_scope.

Lemma lift_variable : forall plates dims f, Forall2 (variable_of plates) dims (lift_arrays plates dims f).
Proof.
  intros plates dims f. apply Forall2_of_nth; [now rewrite lift_arrays_length|]. intros c d a Hd Ha.
  destruct (lift_arrays_nth _ _ _ _ _ _ Hd Ha) as [S _]. unfold variable_of, ndim. rewrite S.
  split; [rewrite app_length; lia|]. split; [|apply broadcasts_to_refl].
  intros i Hi. rewrite ax_app. now destruct (Nat.ltb_spec i (length d)); [|lia].
Qed.
Lemma lift_coef : forall plates dims f p c d v, valid plates p -> nth_error dims c = Some d -> valid d v ->
  coef (at_plate dims (lift_arrays plates dims f) p) c v = coef (f p) c v.
Proof.
  intros plates dims f p c d v Hp Hd Hv.
  destruct (nth_total _ _ _ (lift_arrays plates dims f) c d ltac:(now rewrite lift_arrays_length) Hd) as [a Ha].
  rewrite (coef_at _ _ _ _ _ _ _ Hd Ha). destruct (lift_arrays_nth _ _ _ _ _ _ Hd Ha) as [_ H]. now apply H.
Qed.

Lemma fdot_coef : forall dims a u u', length u = length u' -> entries dims (fun c v => coef u c v = coef u' c v) ->
  fdot dims a u = fdot dims a u'.
Proof.
  induction dims as [|d dims IH]; intros [|x a] [|y u] [|y' u'] L H; try discriminate; try reflexivity. cbn [fdot]. f_equal.
  - apply total_ext. intros v Hv. f_equal. exact (H 0 d v eq_refl Hv).
  - apply IH; [now injection L|]. intros c d' v Hd Hv. exact (H (S c) d' v Hd Hv).
Qed.
Lemma dot_coef : forall dims m u p, length m = length dims -> length u = length dims ->
  dot_at dims m u p = fdot dims (at_plate dims m p) (at_plate dims u p).
Proof.
  induction dims as [|d dims IH]; intros [|x m] [|y u] p L1 L2; try discriminate; [reflexivity|].
  cbn [dot_at]. unfold at_plate. cbn [combine map fst snd fdot]. f_equal. apply IH; cbn in *; lia.
Qed.

(** The connection of a deterministic node to a parent. *)
Record det_link (n par : place) : Prop := DetLink {
  dl_plates : broadcasts_to (pl_plates par) (pl_plates n);
  dl_mult : broadcasts_to (pl_mult par) (pl_mult n);
  dl_mask : forall i, valid (pl_plates n) i -> bget (pl_mask n) i = true -> bget (pl_mask par) i = true;
  dl_shape : broadcasts_to (ash (pl_mask par)) (pl_plates par) }.

(** The functions for one plate. *)
Record plate_typed (T : types) (P : plate_fn) (j : nat) (ps : list nat) : Prop := PlateTyped {
  pt_mom : forall ups, Forall2 (fun pd u => length u = length pd) (pf_pdims P) ups -> Forall2 (t_mom T) ps ups ->
    length (pf_moments P ups) = length (pf_dims P) /\ t_mom T j (pf_moments P ups);
  pt_msg : forall k i m ups, nth_error ps k = Some i ->
    Forall2 (fun pd u => length u = length pd) (pf_pdims P) ups -> Forall2 (t_mom T) ps ups ->
    length m = length (pf_dims P) -> t_msg T j m ->
    length (pf_message P k m (exclude k ups)) = length (nth k (pf_pdims P) []) /\
    t_msg T i (pf_message P k m (exclude k ups)) /\
    forall ups', Forall2 (fun pd u => length u = length pd) (pf_pdims P) ups' -> Forall2 (t_mom T) ps ups' ->
      exclude k ups' = exclude k ups ->
      (fdot (pf_dims P) m (pf_moments P ups') - fdot (pf_dims P) m (pf_moments P ups)
       = fdot (nth k (pf_pdims P) []) (pf_message P k m (exclude k ups)) (nth k ups' [])
         - fdot (nth k (pf_pdims P) []) (pf_message P k m (exclude k ups)) (nth k ups []))%R }.

Section Typed.
Variable T : types.
Variable at_ : nat -> place.
Variable P : plate_fn.
Variable j : nat.
Variable ps : list nat.
Hypothesis HT : plate_typed T P j ps.
Hypothesis HD : pl_dims (at_ j) = pf_dims P.
Hypothesis HM : broadcasts_to (ash (pl_mask (at_ j))) (pl_plates (at_ j)).
Hypothesis HV : on_values (pl_dims (at_ j)) (t_mom T j).
Hypothesis HP : Forall2 (fun i pd => pl_dims (at_ i) = pd /\ det_link (at_ j) (at_ i) /\
  on_values (pl_dims (at_ i)) (t_mom T i) /\ SpecDetNet.cone (pl_dims (at_ i)) (t_msg T i)) ps (pf_pdims P).

Let plates := pl_plates (at_ j).

Lemma plate_parents : forall us p, Forall2 (fun i u => moments_in (at_ i) (t_mom T i) u) ps us -> valid plates p ->
  Forall2 (fun pd u => length u = length pd) (pf_pdims P) (at_plates (pf_pdims P) us p) /\
  Forall2 (t_mom T) ps (at_plates (pf_pdims P) us p).
Proof.
  intros us p Hu Hp. pose proof (Forall2_len _ _ _ _ _ HP) as L1. pose proof (Forall2_len _ _ _ _ _ Hu) as L2.
  assert (La : length (at_plates (pf_pdims P) us p) = length (pf_pdims P)) by (unfold at_plates; rewrite map_length, combine_length; lia).
  assert (G : forall k i pd u, nth_error ps k = Some i -> nth_error (pf_pdims P) k = Some pd ->
     nth_error (at_plates (pf_pdims P) us p) k = Some u -> length u = length pd /\ t_mom T i u).
  { intros k i pd u Hi Hpd Ha. destruct (nth_total _ _ _ us k i L2 Hi) as [w Hw].
    rewrite (at_plates_nth _ _ p _ _ _ Hpd Hw) in Ha. injection Ha as <-.
    destruct (Forall2_to_nth _ _ _ _ _ HP k i pd Hi Hpd) as (E & [B1 _ _ _] & OV & _). subst pd.
    pose proof (Forall2_to_nth _ _ _ _ _ Hu k i w Hi Hw) as Mi. split.
    - apply at_plate_length. symmetry. apply (Forall2_len _ _ _ _ _ (proj1 Mi)).
    - exact (moments_in_child (at_ i) _ _ plates p Mi OV B1 Hp). }
  split; apply Forall2_of_nth; try lia.
  - intros k pd u Hpd Ha. destruct (nth_total _ _ _ ps k pd (eq_sym L1) Hpd) as [i Hi]. now apply (G k i).
  - intros k i u Hi Ha. destruct (nth_total _ _ _ (pf_pdims P) k i L1 Hi) as [pd Hpd]. now apply (G k i pd).
Qed.

Lemma plate_det_typed : forall need, det_typed T at_ need (plate_det P plates) j ps.
Proof.
  intros need. constructor.
  - intros us Hu. cbn [df_moments plate_det]. eexists. split; [reflexivity|].
    split; [rewrite HD; apply lift_variable|]. intros p Hp. destruct (plate_parents us p Hu Hp) as [A B].
    destruct (pt_mom _ _ _ _ HT _ A B) as [L M]. apply (HV _ _ M).
    + apply at_plate_length. now rewrite lift_arrays_length, HD.
    + rewrite HD. intros c d v Hd Hv. now apply (lift_coef plates _ (fun p => pf_moments P (at_plates (pf_pdims P) us p)) p c d).
  - intros k i us m Hk _ Hu Mm Vm _. destruct (nth_total _ _ _ (pf_pdims P) k i (Forall2_len _ _ _ _ _ HP) Hk) as [pd Hpd].
    destruct (Forall2_to_nth _ _ _ _ _ HP k i pd Hk Hpd) as (Epd & [L2 L3 L4 L5] & OV & CO).
    assert (Lu : length us = length (pf_pdims P)) by (rewrite <- (Forall2_len _ _ _ _ _ Hu); apply (Forall2_len _ _ _ _ _ HP)).
    assert (Npd : nth k (pf_pdims P) [] = pl_dims (at_ i)) by (rewrite (nth_error_nth _ _ _ Hpd); now symmetry).
    assert (AT : forall p, valid plates p -> t_msg T j (at_plate (pl_dims (at_ j)) m p) /\ length (at_plate (pl_dims (at_ j)) m p) = length (pf_dims P)).
    { intros p Hp. split; [now apply (proj2 Mm)|]. rewrite <- HD. apply at_plate_length. symmetry. apply (Forall2_len _ _ _ _ _ Vm). }
    cbn [df_message plate_det]. rewrite Npd.
    replace (fun p : env => pf_message P k (at_plate (pl_dims (at_ j)) m p) (at_plates (pf_pdims P) (exclude k us) p))
      with (fun p : env => pf_message P k (at_plate (pl_dims (at_ j)) m p) (exclude k (at_plates (pf_pdims P) us p)))
      by (apply functional_extensionality; intros p; now rewrite exclude_at_plates).
    set (f := fun p : env => _).
    destruct (messages_adjoint (pl_mask (at_ j)) (pl_mask (at_ i)) (pl_plates (at_ j)) (pl_mult (at_ j)) (pl_mult (at_ i))
      (pl_plates (at_ i)) (pl_dims (at_ i)) (lift_arrays (pl_plates (at_ j)) (pl_dims (at_ i)) f) L2 L3 HM L5 L4) as (ys & E & Fy & G).
    { apply Forall2_of_nth; [now rewrite lift_arrays_length|]. intros x d a Hd Ha.
      now destruct (lift_arrays_nth _ _ _ _ _ _ Hd Ha). }
    exists ys. split; [exact E|]. split; [|split].
    2:{ pose proof (lifted_silent _ _ _ _ _ _ _ _ _ L2 L3 HM L5 L4 E Fy (pl_mult (at_ i))) as S. now destruct (at_ i). }
    + split; [exact Fy|]. intros p Hp.
      apply (lifted_message_in _ _ _ _ _ _ _ _ _ L2 L3 HM CO E Fy); [|exact Hp].
      intros q Hq. destruct (plate_parents us q Hu Hq) as [A B]. destruct (AT q Hq) as [C D].
      now destruct (pt_msg _ _ _ _ HT k i _ _ Hk A B D C) as (_ & M & _).
    + intros us' x x' Hu' EX Ex Ex'. cbn [df_moments plate_det] in Ex, Ex'. injection Ex as <-. injection Ex' as <-.
      assert (Lu' : length us' = length (pf_pdims P)) by (rewrite <- (Forall2_len _ _ _ _ _ Hu'); apply (Forall2_len _ _ _ _ _ HP)).
      assert (PY : forall vs, Forall2 (fun i u => moments_in (at_ i) (t_mom T i) u) ps vs -> pairing (at_ i) ys (nth k vs []) =
        (lprod (map INR (pl_mult (at_ j))) * total plates (fun p => if bget (pl_mask (at_ j)) p then
          fdot (pl_dims (at_ i)) (f p) (nth k (at_plates (pf_pdims P) vs p) []) else 0))%R).
      { intros vs Hvs. destruct (nth_total _ _ _ vs k i (Forall2_len _ _ _ _ _ Hvs) Hk) as [w Hw].
        destruct (Forall2_to_nth _ _ _ _ _ Hvs k i w Hk Hw) as [Vw _]. pose proof (variable_fits _ _ _ Vw) as Fw.
        rewrite (nth_error_nth _ _ _ Hw). unfold pairing. rewrite (G w Fw). f_equal. apply total_ext. intros p Hp.
        destruct (bget _ _); [|reflexivity]. rewrite lift_dot; [|exact Hp| |symmetry; apply (Forall2_len _ _ _ _ _ Fw)].
        - rewrite (nth_error_nth _ _ _ (at_plates_nth _ _ p _ _ _ Hpd Hw)). now rewrite Epd.
        - unfold f. destruct (plate_parents us p Hu Hp) as [A B]. destruct (AT p Hp) as [C D].
          destruct (pt_msg _ _ _ _ HT k i _ _ Hk A B D C) as (LL & _). now rewrite <- Npd. }
      assert (PJ : forall vs, Forall2 (fun i u => moments_in (at_ i) (t_mom T i) u) ps vs ->
        pairing (at_ j) m (lift_arrays plates (pf_dims P) (fun p => pf_moments P (at_plates (pf_pdims P) vs p))) =
        (lprod (map INR (pl_mult (at_ j))) * total plates (fun p => if bget (pl_mask (at_ j)) p then
          fdot (pf_dims P) (at_plate (pl_dims (at_ j)) m p) (pf_moments P (at_plates (pf_pdims P) vs p)) else 0))%R).
      { intros vs Hvs. unfold pairing. f_equal. apply total_ext. intros p Hp. destruct (bget _ _); [|reflexivity].
        rewrite HD. rewrite dot_coef; [|rewrite <- HD; symmetry; apply (Forall2_len _ _ _ _ _ Vm)|apply lift_arrays_length].
        apply fdot_coef.
        - rewrite at_plate_length by apply lift_arrays_length. destruct (plate_parents vs p Hvs Hp) as [A B].
          symmetry. apply (proj1 (pt_mom _ _ _ _ HT _ A B)).
        - intros c d v Hd Hv. now apply (lift_coef plates _ (fun p => pf_moments P (at_plates (pf_pdims P) vs p)) p c d). }
      rewrite (PY us Hu), (PY us' Hu'), (PJ us Hu), (PJ us' Hu').
      rewrite <- !Rmult_minus_distr_l. f_equal.
      assert (TS : forall s F F', (total s F - total s F')%R = total s (fun p => (F p - F' p)%R)).
      { intros s F F'. rewrite (total_ext s (fun p => (F p - F' p)%R) (fun p => ((-1) * F' p + F p)%R)) by (intros; ring). rewrite total_lin. ring. }
      rewrite !TS. apply total_ext. intros p Hp. destruct (bget _ _); [|ring].
      destruct (plate_parents us p Hu Hp) as [A B]. destruct (plate_parents us' p Hu' Hp) as [A' B'].
      destruct (AT p Hp) as [C D]. destruct (pt_msg _ _ _ _ HT k i _ _ Hk A B D C) as (_ & _ & Q).
      specialize (Q _ A' B'). rewrite Npd in Q. apply Q.
      rewrite <- !exclude_at_plates by assumption. now rewrite EX.
Qed.
End Typed.
