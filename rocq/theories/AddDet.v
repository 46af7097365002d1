(** Lemmas for C25: Add and ConcatGaussian as deterministic nodes of a network. *)
From Coq Require Import List Arith ZArith Lia Bool Reals Lra FunctionalExtensionality ClassicalEpsilon.
From Verif Require Import ConcatLemmas2 ConcatLemmas3 Base Shapes SpecShapes ShapesLemmas NumPy MiscArray TensorLemmas
  EinsumLemmas SumMultiplyLemmas SpecArray PlateSumLemmas PlateSum2Lemmas MessageLemmas TakeConcat
  ShapeOpsLemmas DiagLemmas ExpFam SpecExpFam ExpFamLemmas ExpFamBound ExpFamGrad PExpFam SpecUpdate
  UpdateLemmas PUpdate FamilyDist SpecFamilyDist PFamilyDist Network SpecNetwork NetworkLemmas NetworkLemmas2
  PNetwork PFamilyNet Dot SpecDot DotExpect DotNode DotSwap DotScale DetNet SpecDetNet DetNetLemmas DetNetLemmas2
  AddNode SpecAdd AddNet GaussNet GaussModel SpecGaussNet SpecGaussModel PlateDet GaussTypes GaussNodes5 DotNet LinearDet LinearDet2 LinearDet3 LinearDet4 AddLemmas PAdd.
Import ListNotations.
Open Scope R_scope.

Lemma good_parents : forall P ds pas, Forall2 (good P) (gnodes ds) pas ->
  Forall2 (fun d p => gaussian_parent P d (fst p) (snd p)) ds (map (fun pa => (as_gmom (fst pa), snd pa)) pas).
Proof.
  intros P ds. induction ds as [|d ds IH]; intros pas H; inversion H as [|? [u D] ? pas' [G _] H']; subst; [constructor|].
  cbn [map]. constructor; [|now apply IH]. cbn [fst snd] in G |- *. unfold gaussian_parent. pose proof G as G'. destruct G' as (_ & _ & G2).
  cbn [is_delta] in G2. destruct u; try contradiction. exact G.
Qed.

Lemma Forall2_same : forall A B (Q : A -> B -> Prop) s (ds : list A) (us : list B), (forall d, In d ds -> d = s) -> Forall2 Q ds us -> Forall (Q s) us.
Proof.
  intros A B Q s ds us Hd H. induction H as [|d u ds us H1 H2 IH]; [constructor|]. constructor; [now rewrite <- (Hd d (or_introl eq_refl))|].
  apply IH. intros x Hx. apply Hd. now right.
Qed.

Section Typed.
Variable ty : nat -> mtype.
Variable at_ : nat -> place.
Variable need : nat -> Prop.

Lemma add_typed : forall j ps dimss s, add_init dimss = Ok s ->
  ty j = MGaussian s -> map ty ps = map MGaussian dimss ->
  pl_dims (at_ j) = mt_dims (ty j) -> (forall i, In i ps -> pl_dims (at_ i) = mt_dims (ty i)) ->
  broadcasts_to (ash (pl_mask (at_ j))) (pl_plates (at_ j)) ->
  (forall i, In i ps -> det_link (at_ j) (at_ i)) ->
  det_typed (tys ty) at_ need (add_det dimss s) j ps.
Proof.
  intros j ps dimss s HI Tj Tp Dj Dp Bj Lp. apply (proj1 (C47_add_arguments dimss)) in HI as [Len Same].
  unfold add_det. apply gauss_det_typed with (shp := s) (Y := sum_at); try assumption.
  - intros parents G. pose proof (good_parents _ _ _ G) as GP.
    destruct (add_moments_expect (pl_plates (at_ j)) s (map (fun pa => (as_gmom (fst pa), snd pa)) parents)) as (x0 & x1 & E & V0 & V1 & H).
    + intros E. apply map_eq_nil in E. subst. inversion G as [Q|]; subst. destruct dimss; [cbn in Len; lia|discriminate].
    + exact (Forall2_same _ _ _ _ _ _ Same GP).
    + exists x0, x1. split; [rewrite <- E; f_equal; now rewrite map_map|]. split; [exact V0|]. split; [exact V1|].
      intros p Hp. specialize (H p Hp). rewrite map_map in H. exact H.
  - intros ds1 d ds2 us1 us2 m Ed S1 S2 SM SY.
    assert (ED : d = s) by (apply Same; rewrite Ed; apply in_or_app; right; now left). subst d.
    assert (FS : Forall (gaussian_shaped (pl_plates (at_ j)) s) (us1 ++ us2)).
    { apply Forall_app. split; [apply (Forall2_same _ _ (gaussian_shaped (pl_plates (at_ j))) s ds1)|apply (Forall2_same _ _ (gaussian_shaped (pl_plates (at_ j))) s ds2)];
        try assumption; intros x Hx; apply Same; rewrite Ed; apply in_or_app; [now left|right; now right]. }
    assert (NE : us1 ++ us2 <> []).
    { intros E. apply app_eq_nil in E as [-> ->]. inversion S1; subst. inversion S2; subst. cbn in Len. lia. }
    destruct (add_messages_ok (pl_plates (at_ j)) s m us1 us2 NE FS SM SY) as (y0 & C & V & R).
    exists (y0, snd m), C. split; [split; [exact V|apply SM]|]. split; [exact SY|exact R].
  - intros ds1 d ds2 os1 os2 f i Ed _ _ Hi.
    assert (ED : d = s) by (apply Same; rewrite Ed; apply in_or_app; right; now left). subst d.
    assert (Hv : valid s (at_index i)) by (intros z; now apply TakeLemmas.valid_at_index).
    unfold sum_at. rewrite !map_app, !lsum_app. cbn [map o_value]. change (lsum (?a :: ?l)) with (a + lsum l).
    rewrite !bget_full by exact Hv. ring.
Qed.

Lemma concat_at_app : forall os1 w os2 o, concat_at (os1 ++ w :: os2) o =
  let n := list_sum (map (fun w => ax (ash (o_value w)) 0) os1) in
  if (o <? n)%nat then concat_at os1 o else concat_at (w :: os2) (o - n).
Proof.
  induction os1 as [|v os1 IH]; intros w os2 o.
  - cbn [app map list_sum fold_right]. change (list_sum []) with 0%nat. cbv zeta. rewrite Nat.sub_0_r. reflexivity.
  - cbn [app concat_at map]. cbv zeta. change (list_sum (?a :: ?l)) with (a + list_sum l)%nat. set (a := ax (ash (o_value v)) 0).
    destruct (Nat.ltb_spec o a) as [L|L].
    + destruct (Nat.ltb_spec o (a + list_sum (map (fun w => ax (ash (o_value w)) 0) os1))); [reflexivity|lia].
    + rewrite IH. cbv zeta. set (n := list_sum _).
      destruct (Nat.ltb_spec (o - a) n), (Nat.ltb_spec o (a + n)); try lia; try reflexivity. now rewrite Nat.sub_add_distr.
Qed.
Lemma concat_typed : forall j ps dimss n r, dimss <> [] -> concat_init dimss = Ok (n, r) ->
  ty j = MGaussian [n] -> map ty ps = map MGaussian dimss ->
  pl_dims (at_ j) = mt_dims (ty j) -> (forall i, In i ps -> pl_dims (at_ i) = mt_dims (ty i)) ->
  broadcasts_to (ash (pl_mask (at_ j))) (pl_plates (at_ j)) ->
  (forall i, In i ps -> det_link (at_ j) (at_ i)) ->
  det_typed (tys ty) at_ need (concat_det dimss r) j ps.
Proof.
  intros j ps dimss n r NE HI Tj Tp Dj Dp Bj Lp.
  assert (LE : exists lens, dimss = map (fun k => [k]) lens).
  { unfold concat_init in HI. destruct (forallb (fun d : list nat => (length d =? 1)%nat) dimss) eqn:F; [|discriminate]. clear -F.
    induction dimss as [|d ds IH]; [now exists []|]. cbn [forallb] in F. apply andb_prop in F as [F1 F2]. destruct (IH F2) as [lens ->].
    apply Nat.eqb_eq in F1. destruct d as [|k [|? ?]]; try discriminate. now exists (k :: lens). }
  destruct LE as [lens ->]. pose proof HI as HI'. unfold concat_init in HI'.
  assert (F : forallb (fun d : list nat => (length d =? 1)%nat) (map (fun k => [k]) lens) = true) by (apply forallb_forall; intros d Hd; apply in_map_iff in Hd as (k & <- & _); reflexivity).
  rewrite F, map_map, (map_ext (fun x => ax [x] 0) (fun x => x)), map_id in HI' by reflexivity. injection HI' as En Er. symmetry in En, Er. subst n r.
  unfold concat_det. set (N := list_sum lens) in *.
  apply gauss_det_typed with (shp := [N]) (Y := fun os o => concat_at os (nth 0 o 0%nat)); try assumption.
  - intros parents G. pose proof (good_parents _ _ _ G) as GP.
    destruct (concat_moments_expect (pl_plates (at_ j)) lens (map (fun pa => (as_gmom (fst pa), snd pa)) parents)) as (x0 & x1 & E & V0 & V1 & H).
    + intros E. apply map_eq_nil in E. subst. inversion G as [Q|]; subst. destruct lens; [now apply NE|discriminate].
    + clear -GP. remember (map (fun pa => (as_gmom (fst pa), snd pa)) parents) as l eqn:El. clear El. revert l GP. induction lens as [|k lens IH]; intros l GP; inversion GP; subst; constructor; [assumption|now apply IH].
    + exists x0, x1. split; [rewrite <- E; f_equal; now rewrite map_map|]. fold N in V0, V1, H. split; [exact V0|]. split; [exact V1|].
      intros p Hp. specialize (H p Hp). rewrite map_map in H. destruct H as [H0 H1]. split.
      * intros o Ho. inversion Ho as [|a ? l ? Ha Hl]; subst. inversion Hl; subst. exact (H0 a Ha).
      * intros o o' Ho Ho'. inversion Ho as [|a ? l ? Ha Hl]; subst. inversion Hl; subst. inversion Ho' as [|b ? l' ? Hb Hl']; subst. inversion Hl'; subst. exact (H1 a b Ha Hb).
  - intros ds1 d ds2 us1 us2 m Ed S1 S2 SM SY. apply map_eq_app in Ed as (lens1 & l & El & E1 & E2). destruct l as [|k lens2]; [discriminate|].
    cbn [map] in E2. injection E2 as <- E2. subst ds1 ds2. unfold N in *. rewrite El in *. clear El.
    assert (T : forall lens us, Forall2 (gaussian_shaped (pl_plates (at_ j))) (map (fun k => [k]) lens) us -> Forall2 (fun k u => gaussian_shaped (pl_plates (at_ j)) [k] u) lens us).
    { induction lens0 as [|a l IH]; intros us H; inversion H; subst; constructor; [assumption|now apply IH]. }
    exact (concat_messages_list (pl_plates (at_ j)) lens1 k lens2 m us1 us2 (T _ _ S1) (T _ _ S2) SM SY).
  - intros ds1 d ds2 os1 os2 f i Ed S1 S2 Hi. apply map_eq_app in Ed as (lens1 & l & El & E1 & E2). destruct l as [|k lens2]; [discriminate|].
    cbn [map] in E2. injection E2 as <- E2. subst ds1 ds2.
    inversion Hi as [|a ? l ? Ha Hl]; subst. inversion Hl; subst. cbn [nth]. rewrite !concat_at_app. cbv zeta. set (n := list_sum _).
    destruct (Nat.ltb_spec a n) as [L|L]; [ring|]. cbn [concat_at o_value ash]. cbv zeta. change (ax [k] 0) with k.
    destruct (Nat.ltb_spec (a - n) k) as [L'|L']; [|ring].
    rewrite !bget_full; [ring| | |]; intros z; apply TakeLemmas.valid_at_index; repeat constructor; exact L'.
Qed.
End Typed.
