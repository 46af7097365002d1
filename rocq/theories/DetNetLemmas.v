(** Lemmas for C25 with deterministic nodes: conditions that hold in every plate. *)
From Coq Require Import List Arith ZArith Lia Bool Reals Lra FunctionalExtensionality.
From Verif Require Import Base Shapes SpecShapes ShapesLemmas NumPy MiscArray TensorLemmas
  EinsumLemmas SumMultiplyLemmas SpecArray PlateSumLemmas PlateSum2Lemmas MessageLemmas
  ShapeOpsLemmas DiagLemmas ExpFam SpecExpFam ExpFamLemmas ExpFamBound ExpFamGrad PExpFam SpecUpdate
  UpdateLemmas PUpdate FamilyDist SpecFamilyDist PFamilyDist Network SpecNetwork NetworkLemmas NetworkLemmas2
  PNetwork PFamilyNet Dot SpecDot DetNet SpecDetNet.
Import ListNotations.
Open Scope nat_scope.

Lemma coef_at : forall dims u p c d a v, nth_error dims c = Some d -> nth_error u c = Some a ->
  coef (at_plate dims u p) c v = bget a (join (length d) p v).
Proof.
  intros dims u p c d a v Hd Ha. unfold coef, at_plate.
  now rewrite (nth_error_nth _ c (fun _ => 0%R) (map_nth_error _ c _ (combine_nth_error _ _ _ _ _ _ _ Hd Ha))).
Qed.

Lemma cone_values : forall dims P, SpecDetNet.cone dims P -> on_values dims P.
Proof.
  intros dims P C a b Ha L H. apply (co_scale _ _ C 1%R a b); [lra|exact Ha|exact L|].
  intros c d v Hd Hv. rewrite (H c d v Hd Hv). ring.
Qed.

Lemma variable_fits : forall P dims u, Forall2 (variable_of P) dims u -> fits P dims u.
Proof. intros P dims u H. unfold fits. induction H as [|d a dims u (_ & _ & B) H IH]; constructor; assumption. Qed.
Lemma moments_variable : forall P dims u, Forall2 (moment_array P) dims u -> Forall2 (variable_of P) dims u.
Proof.
  intros P dims u H. induction H as [|d a dims u (L & B & V) H IH]; constructor; [|exact IH].
  split; [unfold ndim; lia|]. split; [exact V|exact B].
Qed.

Lemma app_broadcasts : forall pp ps d, broadcasts_to pp ps -> broadcasts_to (pp ++ d) (ps ++ d).
Proof.
  intros pp ps d [B1 B2]. split; [rewrite !app_length; lia|]. intros k. rewrite !ax_app.
  destruct (k <? length d); [now right|apply B2].
Qed.

(** The values in a plate of a node that the arrays broadcast to. *)
Lemma at_plate_clip : forall pp ps dims u p c d v, fits pp dims u -> broadcasts_to pp ps -> valid ps p ->
  nth_error dims c = Some d -> valid d v ->
  coef (at_plate dims u p) c v = coef (at_plate dims u (clip pp p)) c v.
Proof.
  intros pp ps dims u p c d v Fu B Hp Hd Hv.
  destruct (nth_total _ _ _ u c d (Forall2_len _ _ _ _ _ Fu) Hd) as [a Ha].
  rewrite !(coef_at _ _ _ _ _ _ _ Hd Ha).
  rewrite <- (bget_clip_out _ a (pp ++ d)) by apply (Forall2_to_nth _ _ _ _ _ Fu c d a Hd Ha).
  f_equal. apply functional_extensionality. intros k. unfold clip, join. rewrite ax_app.
  destruct (Nat.ltb_spec k (length d)) as [Hk|Hk]; [|reflexivity].
  specialize (Hv k). destruct (Nat.eqb_spec (ax d k) 1); lia.
Qed.

Lemma moments_in_child : forall n P u ps p, moments_in n P u -> on_values (pl_dims n) P ->
  broadcasts_to (pl_plates n) ps -> valid ps p -> P (at_plate (pl_dims n) u p).
Proof.
  intros n P u ps p [V H] OV B Hp. pose proof (variable_fits _ _ _ V) as Fu.
  apply (OV (at_plate (pl_dims n) u (clip (pl_plates n) p))).
  - apply H. now apply valid_clip with (S := ps).
  - apply at_plate_length. symmetry. apply (Forall2_len _ _ _ _ _ Fu).
  - intros c d v Hd Hv. apply (at_plate_clip (pl_plates n) ps) with (d := d); assumption.
Qed.

(** ** Sums over the plates that belong to a plate of the parent *)
Lemma lsum_filter : forall A (F : A -> R) (b : A -> bool) l,
  lsum (map F (filter b l)) = lsum (map (fun a => if b a then F a else 0%R) l).
Proof.
  intros A F b l. induction l as [|a l IH]; [reflexivity|]. cbn [filter map].
  unfold lsum in *. destruct (b a); cbn [map fold_right]; rewrite IH; ring.
Qed.
Lemma fibre_total : forall from to t F,
  fibre_sum from to t F = total from (fun e => if maps_to (length from) to e t then F e else 0%R).
Proof. intros. unfold fibre_sum, total. apply lsum_filter. Qed.

Lemma itersum_units : forall l F v, (forall k m, In (k, m) l -> m = 1 /\ v k = 0) -> itersum l F v = F v.
Proof.
  induction l as [|[k m] l IH]; intros F v H; [reflexivity|]. rewrite itersum_cons.
  destruct (H k m (or_introl eq_refl)) as [-> Ek]. unfold sumax. cbn [rsum].
  replace (upd v k 0) with v; [rewrite IH; [ring|intros; apply H; now right]|].
  apply functional_extensionality. intros x. unfold upd. destruct (Nat.eqb_spec x k) as [->|]; [exact Ek|reflexivity].
Qed.
Lemma fibre_self : forall d v F, valid d v -> fibre_sum d d v F = F v.
Proof.
  intros d v F Hv. rewrite fibre_iter; [|apply broadcasts_to_refl|exact Hv]. apply itersum_units.
  intros k m H. unfold unit_axes in H. apply in_map_iff in H as (x & E & H). injection E as <- <-.
  apply filter_In in H as [_ H]. apply Nat.eqb_eq in H. split; [exact H|]. specialize (Hv x). lia.
Qed.

Lemma maps_to_join : forall ps pp d p w t v,
  maps_to (length (ps ++ d)) (pp ++ d) (join (length d) p w) (join (length d) t v)
  = maps_to (length ps) pp p t && maps_to (length d) d w v.
Proof.
  intros ps pp d p w t v. unfold maps_to. apply eq_true_iff_eq. rewrite andb_true_iff, !forallb_forall.
  split.
  - intros H. split; intros k Hk; apply in_seq in Hk.
    + specialize (H (k + length d) ltac:(apply in_seq; rewrite app_length; lia)). apply Nat.eqb_eq in H. apply Nat.eqb_eq.
      unfold clip, join in *. rewrite ax_app in H. replace (k + length d <? length d) with false in H by (symmetry; apply Nat.ltb_ge; lia).
      now replace (k + length d - length d) with k in H by lia.
    + specialize (H k ltac:(apply in_seq; rewrite app_length; lia)). apply Nat.eqb_eq in H. apply Nat.eqb_eq.
      unfold clip, join in *. rewrite ax_app in H. now replace (k <? length d) with true in H by (symmetry; apply Nat.ltb_lt; lia).
  - intros [H1 H2] k Hk. apply in_seq in Hk. rewrite app_length in Hk. apply Nat.eqb_eq.
    unfold clip, join. rewrite ax_app. destruct (Nat.ltb_spec k (length d)) as [L|L].
    + specialize (H2 k ltac:(apply in_seq; lia)). apply Nat.eqb_eq in H2. exact H2.
    + specialize (H1 (k - length d) ltac:(apply in_seq; lia)). apply Nat.eqb_eq in H1. exact H1.
Qed.

Lemma fibre_app : forall ps pp d t v G, valid d v ->
  fibre_sum (ps ++ d) (pp ++ d) (join (length d) t v) G = fibre_sum ps pp t (fun p => G (join (length d) p v)).
Proof.
  intros ps pp d t v G Hv. rewrite !fibre_total, total_app. apply total_ext. intros p _.
  rewrite (total_ext d _ (fun w => if maps_to (length ps) pp p t then
    (if maps_to (length d) d w v then G (join (length d) p w) else 0) else 0)%R).
  2:{ intros w _. rewrite maps_to_join. now destruct (maps_to (length ps) pp p t), (maps_to (length d) d w v). }
  destruct (maps_to (length ps) pp p t); [|now apply total_zero].
  rewrite <- (fibre_total d d v (fun w => G (join (length d) p w))). now apply (fibre_self d v (fun w => G (join (length d) p w))).
Qed.

(** ** Conditions that sums and multiples keep *)
Section Cone.
Variable dims : list shape.
Variable P : list (env -> R) -> Prop.
Hypothesis C : SpecDetNet.cone dims P.

Definition tab (f : nat -> env -> R) : list (env -> R) := map f (seq 0 (length dims)).
Lemma tab_length : forall f, length (tab f) = length dims.
Proof. intros. unfold tab. now rewrite map_length, seq_length. Qed.
Lemma coef_tab : forall f c v, c < length dims -> coef (tab f) c v = f c v.
Proof.
  intros f c v H. unfold coef, tab. rewrite (nth_error_nth _ c _ (map_nth_error f c (seq 0 (length dims)) (d := c) ltac:(rewrite (nth_error_nth' _ 0) by (now rewrite seq_length); now rewrite seq_nth))).
  reflexivity.
Qed.

Lemma cone_lsum : forall A (F : A -> list (env -> R)) l, (forall a, In a l -> P (F a)) ->
  P (tab (fun c v => lsum (map (fun a => coef (F a) c v) l))).
Proof.
  intros A F l. induction l as [|a l IH]; intros H.
  - apply (co_zero _ _ C); [apply tab_length|]. intros c d v Hd _. rewrite coef_tab; [reflexivity|]. apply nth_error_Some. congruence.
  - apply (co_add _ _ C (F a) (tab (fun c v => lsum (map (fun a => coef (F a) c v) l)))).
    + apply H. now left.
    + apply IH. intros; apply H; now right.
    + apply tab_length.
    + intros c d v Hd _. assert (c < length dims) by (apply nth_error_Some; congruence). now rewrite !coef_tab.
Qed.
End Cone.

(** The messages computed plate by plate, summed over the plates of the parent. *)
Lemma lifted_message : forall (mask : arr bool) ps ms mp pp dims f,
  broadcasts_to pp ps -> broadcasts_to mp ms -> broadcasts_to (ash mask) ps ->
  exists r, forall ys, zipM (fun d m => message_to_parent m mask ps ms mp pp d) dims (lift_arrays ps dims f) = Ok ys ->
    fits pp dims ys ->
    forall t c d v, valid pp t -> nth_error dims c = Some d -> valid d v ->
      coef (at_plate dims ys t) c v =
      (INR r * fibre_sum ps pp t (fun p => if bget mask p then coef (f p) c v else 0))%R.
Proof.
  intros mask ps ms mp pp dims f Hp Hm Hk.
  destruct (broadcasting_multiplier ms [mp]) as [r|] eqn:ER.
  2:{ exfalso. destruct (message_to_parent_ok (Arr ps (fun _ => 0%R)) mask ps ms mp pp [] [] Hp Hm) as (y & r & _ & E & _).
      - rewrite skipn_all2; [reflexivity|]. unfold ndim. cbn. lia.
      - rewrite app_nil_r. apply broadcasts_to_refl.
      - exact Hk.
      - congruence. }
  exists r. intros ys E Fy t c d v Ht Hd Hv.
  destruct (nth_total _ _ _ ys c d (Forall2_len _ _ _ _ _ Fy) Hd) as [y Hy].
  destruct (nth_total _ _ _ (lift_arrays ps dims f) c d ltac:(now rewrite lift_arrays_length) Hd) as [m Hmm].
  rewrite (coef_at _ _ _ _ _ _ _ Hd Hy).
  pose proof (zipM_nth _ _ _ _ _ _ _ c d m y E Hd Hmm Hy) as EM. cbv beta in EM.
  destruct (lift_arrays_nth _ _ _ _ _ _ Hd Hmm) as [Em Gm].
  assert (Esk : skipn (ndim m - length d) (ash m) = d).
  { unfold ndim. rewrite Em, app_length. replace (length ps + length d - length d) with (length ps) by lia.
    rewrite skipn_app, Nat.sub_diag, skipn_all2 by lia. reflexivity. }
  destruct (message_to_parent_ok m mask ps ms mp pp d d Hp Hm) as (y' & r' & E1 & E2 & _ & G).
  { rewrite Esk. apply broadcast_self. }
  { rewrite Em. apply broadcasts_to_refl. }
  { exact Hk. }
  rewrite EM in E1. injection E1 as <-. rewrite ER in E2. injection E2 as <-.
  rewrite G by now apply join_valid. f_equal. rewrite fibre_app by exact Hv.
  rewrite !fibre_total. apply total_ext. intros p Hpv. destruct (maps_to _ _ _ _); [|reflexivity].
  change (fun k => join (length d) p v (k + length d)) with (plate_of (length d) (join (length d) p v)).
  rewrite join_plate. destruct (bget mask p); [|reflexivity]. now apply Gm.
Qed.

Lemma lifted_message_in : forall (mask : arr bool) ps ms mp pp dims f P ys,
  broadcasts_to pp ps -> broadcasts_to mp ms -> broadcasts_to (ash mask) ps -> SpecDetNet.cone dims P ->
  zipM (fun d m => message_to_parent m mask ps ms mp pp d) dims (lift_arrays ps dims f) = Ok ys ->
  fits pp dims ys -> (forall p, valid ps p -> P (f p)) ->
  forall t, valid pp t -> P (at_plate dims ys t).
Proof.
  intros mask ps ms mp pp dims f P ys Hp Hm Hk C E Fy HP t Ht.
  destruct (lifted_message mask ps ms mp pp dims f Hp Hm Hk) as [r H]. specialize (H ys E Fy t).
  set (l := filter (fun p => maps_to (length ps) pp p t) (all_indices ps)) in *.
  set (g := fun p => if bget mask p then f p else tab dims (fun _ _ => 0%R)).
  apply (co_scale _ _ C (INR r) (tab dims (fun c v => lsum (map (fun p => coef (g p) c v) l)))).
  - apply pos_INR.
  - apply (cone_lsum dims P C). intros p Hpl. unfold l in Hpl. apply filter_In in Hpl as [Hpl _]. apply all_indices_valid in Hpl.
    unfold g. destruct (bget mask p); [now apply HP|]. apply (co_zero _ _ C); [apply tab_length|].
    intros c d v Hd _. rewrite coef_tab; [reflexivity|]. apply nth_error_Some. congruence.
  - apply at_plate_length. symmetry. apply (Forall2_len _ _ _ _ _ Fy).
  - intros c d v Hd Hv. assert (Lc : c < length dims) by (apply nth_error_Some; congruence).
    rewrite (H c d v Ht Hd Hv). f_equal. rewrite coef_tab by exact Lc.
    unfold fibre_sum. fold l. f_equal. apply map_ext_in. intros p _. unfold g. destruct (bget mask p); [reflexivity|].
    now rewrite coef_tab.
Qed.

Lemma maps_clip : forall ps pp p t, broadcasts_to pp ps -> valid ps p -> valid pp t ->
  maps_to (length ps) pp p t = true -> clip pp p = t.
Proof.
  intros ps pp p t [B _] Hp Ht H. apply functional_extensionality. intros k. unfold maps_to in H. rewrite forallb_forall in H.
  destruct (Nat.lt_ge_cases k (length ps)) as [L|L].
  - apply Nat.eqb_eq. apply H. apply in_seq. lia.
  - specialize (Ht k). specialize (Hp k). unfold clip. rewrite (ax_overflow pp) in * by lia. rewrite (ax_overflow ps) in * by lia. cbn. lia.
Qed.
Lemma lifted_silent : forall (mask maskp : arr bool) ps ms mp pp dims f ys,
  broadcasts_to pp ps -> broadcasts_to mp ms -> broadcasts_to (ash mask) ps -> broadcasts_to (ash maskp) pp ->
  (forall p, valid ps p -> bget mask p = true -> bget maskp p = true) ->
  zipM (fun d m => message_to_parent m mask ps ms mp pp d) dims (lift_arrays ps dims f) = Ok ys ->
  fits pp dims ys -> forall mult, silent (Place pp dims maskp mult) ys.
Proof.
  intros mask maskp ps ms mp pp dims f ys Hp Hm Hk Hkp L E Fy mult t Ht Em c d v Hd Hv. cbn [pl_plates pl_dims pl_mask] in *.
  destruct (lifted_message mask ps ms mp pp dims f Hp Hm Hk) as [r H]. rewrite (H ys E Fy t c d v Ht Hd Hv).
  rewrite fibre_total, total_zero; [ring|]. intros p Hpv. destruct (maps_to _ _ _ _) eqn:EM; [|reflexivity].
  destruct (bget mask p) eqn:Ep; [|reflexivity]. exfalso. pose proof (L p Hpv Ep) as X.
  rewrite <- (bget_clip_out _ maskp pp p Hkp), (maps_clip ps pp p t Hp Hpv Ht EM) in X. congruence.
Qed.

(** Sums of messages. *)
Lemma add_coef : forall P dims A B C p c d v, fits P dims A -> fits P dims B -> zipM np_add A B = Ok C ->
  nth_error dims c = Some d ->
  coef (at_plate dims C p) c v = (coef (at_plate dims A p) c v + coef (at_plate dims B p) c v)%R.
Proof.
  intros P dims A B C p c d v FA FB E Hd.
  destruct (add_fits _ _ _ _ FA FB) as (C' & E' & FC). rewrite E in E'. injection E' as <-.
  destruct (nth_total _ _ _ A c d (Forall2_len _ _ _ _ _ FA) Hd) as [x Hx].
  destruct (nth_total _ _ _ B c d (Forall2_len _ _ _ _ _ FB) Hd) as [y Hy].
  destruct (nth_total _ _ _ C c d (Forall2_len _ _ _ _ _ FC) Hd) as [z Hz].
  rewrite (coef_at _ _ _ _ _ _ _ Hd Hx), (coef_at _ _ _ _ _ _ _ Hd Hy), (coef_at _ _ _ _ _ _ _ Hd Hz).
  pose proof (zipM_nth _ _ _ _ _ _ _ c x y z E Hx Hy Hz) as EM.
  destruct (map2_exists _ _ _ Rplus x y _ (Forall2_to_nth _ _ _ _ _ FA c d x Hd Hx) (Forall2_to_nth _ _ _ _ _ FB c d y Hd Hy))
    as (w & E1 & _ & _ & G). unfold np_add in EM. rewrite E1 in EM. injection EM as <-. apply G.
Qed.
Lemma add_silent : forall n A B C, fits (pl_plates n) (pl_dims n) A -> fits (pl_plates n) (pl_dims n) B ->
  zipM np_add A B = Ok C -> silent n A -> silent n B -> silent n C.
Proof.
  intros n A B C FA FB E SA SB p Hp Em c d v Hd Hv. rewrite (add_coef _ _ _ _ _ p c d v FA FB E Hd).
  rewrite (SA p Hp Em c d v Hd Hv), (SB p Hp Em c d v Hd Hv). ring.
Qed.
Lemma add_in : forall n P A B C, SpecDetNet.cone (pl_dims n) P -> messages_in n P A -> messages_in n P B ->
  zipM np_add A B = Ok C -> messages_in n P C.
Proof.
  intros n P A B C CO [FA HA] [FB HB] E.
  destruct (add_fits _ _ _ _ FA FB) as (C' & E' & FC). rewrite E in E'. injection E' as <-. split; [exact FC|].
  intros p Hp. apply (co_add _ _ CO (at_plate (pl_dims n) A p) (at_plate (pl_dims n) B p)); [now apply HA|now apply HB| |].
  - apply at_plate_length. symmetry. apply (Forall2_len _ _ _ _ _ FC).
  - intros c d v Hd _.
    destruct (nth_total _ _ _ A c d (Forall2_len _ _ _ _ _ FA) Hd) as [x Hx].
    destruct (nth_total _ _ _ B c d (Forall2_len _ _ _ _ _ FB) Hd) as [y Hy].
    destruct (nth_total _ _ _ C c d (Forall2_len _ _ _ _ _ FC) Hd) as [z Hz].
    rewrite (coef_at _ _ _ _ _ _ _ Hd Hx), (coef_at _ _ _ _ _ _ _ Hd Hy), (coef_at _ _ _ _ _ _ _ Hd Hz).
    pose proof (zipM_nth _ _ _ _ _ _ _ c x y z E Hx Hy Hz) as EM.
    destruct (map2_exists _ _ _ Rplus x y _ (Forall2_to_nth _ _ _ _ _ FA c d x Hd Hx) (Forall2_to_nth _ _ _ _ _ FB c d y Hd Hy))
      as (w & E1 & _ & _ & G). unfold np_add in EM. rewrite E1 in EM. injection EM as <-. apply G.
Qed.

Lemma add_variable : forall P dims A B C, Forall2 (variable_of P) dims A -> fits P dims B ->
  zipM np_add A B = Ok C -> Forall2 (variable_of P) dims C.
Proof.
  intros P dims A B C FA. revert B C. induction FA as [|d a dims A (L & V & Ba) FA IH]; intros B C FB E.
  - inversion FB; subst. cbn in E. injection E as <-. constructor.
  - inversion FB as [|? b ? B' Hb FB']; subst. cbn [zipM] in E.
    destruct (map2_exists _ _ _ Rplus a b _ Ba Hb) as (y & E1 & Sh & B1 & _). unfold np_add in E. rewrite E1 in E. cbn [bind] in E.
    fold np_add in E. destruct (zipM np_add A B') as [C'|] eqn:E2; [|discriminate]. injection E as <-. constructor; [|now apply (IH B')].
    destruct Sh as (S1 & _ & S3). unfold ndim in *.
    split; [exact (Nat.le_trans _ _ _ L (S1 (ash a) (or_introl eq_refl)))|]. split; [|exact B1].
    intros k Hk. destruct (S3 k) as [S4 _]. destruct (S4 (ash a) ltac:(now left)) as [X|X].
    + rewrite V in X by exact Hk. destruct B1 as [_ B1]. specialize (B1 k). rewrite ax_app in B1.
      rewrite (proj2 (Nat.ltb_lt _ _) Hk) in B1. destruct B1; congruence.
    + rewrite <- X. now apply V.
Qed.

Lemma zeros_in : forall n P, SpecDetNet.cone (pl_dims n) P -> messages_in n P (map (fun d => Arr d (fun _ => 0%R)) (pl_dims n)).
Proof.
  intros n P CO. split.
  - unfold fits. generalize (pl_dims n). intros l. induction l as [|d dims IH]; constructor; [|exact IH].
    cbn [ash]. split; [rewrite app_length; lia|].
    intros k. rewrite ax_app. destruct (Nat.ltb_spec k (length d)); [now right|left; now apply ax_overflow].
  - intros p Hp. apply (co_zero _ _ CO); [apply at_plate_length, map_length|]. intros c d v Hd _.
    now rewrite (coef_at _ _ _ _ _ _ _ Hd (map_nth_error _ _ _ Hd)).
Qed.
Lemma zeros_silent : forall n, silent n (map (fun d => Arr d (fun _ => 0%R)) (pl_dims n)).
Proof.
  intros n p Hp Em c d v Hd _. now rewrite (coef_at _ _ _ _ _ _ _ Hd (map_nth_error _ _ _ Hd)).
Qed.
Lemma zeros_variable : forall P dims, Forall2 (variable_of P) dims (map (fun d => Arr d (fun _ => 0%R)) dims).
Proof.
  intros P l. induction l as [|d dims IH]; constructor; [|exact IH]. unfold variable_of, ndim. cbn [ash].
  split; [lia|]. split; [reflexivity|]. split; [rewrite app_length; lia|].
  intros k. rewrite ax_app. destruct (Nat.ltb_spec k (length d)); [now right|left; now apply ax_overflow].
Qed.

Lemma pairing_zero : forall n u, pairing n (map (fun d => Arr d (fun _ => 0%R)) (pl_dims n)) u = 0%R.
Proof.
  intros n u. unfold pairing. rewrite total_zero; [ring|]. intros p _. destruct (bget _ _); [|reflexivity].
  revert u. induction (pl_dims n) as [|d dims IH]; intros [|x u]; cbn [map dot_at]; try reflexivity.
  rewrite IH, total_zero; [ring|]. intros v _. unfold bget at 1. cbn [aget]. ring.
Qed.
Lemma pairing_add : forall n A B C u, fits (pl_plates n) (pl_dims n) A -> fits (pl_plates n) (pl_dims n) B ->
  zipM np_add A B = Ok C -> pairing n C u = (pairing n A u + pairing n B u)%R.
Proof.
  intros n A B C u FA FB E. unfold pairing.
  rewrite (total_ext _ (fun p => if bget (pl_mask n) p then dot_at (pl_dims n) C u p else 0%R)
      (fun p => 1 * (if bget (pl_mask n) p then dot_at (pl_dims n) A u p else 0) +
        (if bget (pl_mask n) p then dot_at (pl_dims n) B u p else 0))%R).
  - rewrite total_lin. ring.
  - intros p _. rewrite (dot_add _ _ _ _ _ E FA FB). destruct (bget _ _); ring.
Qed.
