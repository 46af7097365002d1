(** C67: Choose. *)
From Coq Require Import List Arith ZArith Lia Bool Reals Lra.
From Verif Require Import Base Shapes SpecShapes ShapesLemmas NumPy MiscArray TensorLemmas
  SpecArray SpecIndex SumMultiplyLemmas PlateSumLemmas ShapeOpsLemmas MessageLemmas EinsumLemmas ExpFamBound DiagLemmas
  PArrays Reindex TakeConcat TakeLemmas PTake PConcat AddAxis PAddAxis Gate GateLemmas PGate PTile ConcatLemmas3 BlockLemmas
  PlateNodes SpecPlateNodes SliceLemmas SliceMoments SliceMessage PSlice ConstNode Choose.
Import ListNotations.
Open Scope nat_scope.

(** ** node[..., None] *)
Definition whole (P : shape) : list idx := map (fun n => ISlice (Some 0%Z) (Some (Z.of_nat n)) (Some 1%Z)) P ++ [INew].

Lemma slicelen_whole : forall n, slicelen 0 (Z.of_nat n) 1 = n.
Proof. intros n. unfold slicelen, ceil_div. rewrite Z.div_1_r, Z.sub_0_r, Z.opp_involutive. lia. Qed.

Lemma norm_cons : forall r n p, normalise_slices (full_slice :: r) (n :: p) =
  if slicelen 0 (Z.of_nat n) 1 <=? 0 then Err IndexError
  else q <- normalise_slices r p ;; Ok (ISlice (Some 0%Z) (Some (Z.of_nat n)) (Some 1%Z) :: q).
Proof. reflexivity. Qed.

Lemma new_slices : forall P, ~ In 0 P -> slice_init P [IEll; INew] = Ok (whole P).
Proof.
  intros P H. unfold slice_init, expand_slices. cbn [scan_slices bind]. cbn [Nat.ltb Nat.leb]. rewrite Nat.sub_0_r. cbn.
  unfold whole. induction P as [|n P IH]; [reflexivity|]. cbn [length repeat app map]. rewrite norm_cons, slicelen_whole.
  destruct n as [|n]; [exfalso; apply H; now left|]. cbn [Nat.leb]. rewrite IH by (intros I; apply H; now right). reflexivity.
Qed.

Lemma new_plates : forall P, ~ In 0 P -> slice_plates (whole P) P = Ok (P ++ [1]).
Proof.
  intros P H.
  assert (X : (sl <- slice_init P [IEll; INew] ;; slice_plates sl P) = Ok (P ++ [1])).
  { apply C12_slice_plates; [cbn; lia|]. split.
    - rewrite <- (app_nil_r P) at 1. apply ix_ellipsis; [reflexivity|reflexivity|]. apply ix_new, ix_nil.
    - intros I. apply in_app_or in I as [I|[I|[]]]; [now apply H|discriminate]. }
  rewrite new_slices in X by exact H. exact X.
Qed.

Lemma new_last_ok : forall P, ~ In 0 P -> new_last_plate P = Ok (whole P, P ++ [1]).
Proof. intros P H. unfold new_last_plate. rewrite new_slices by exact H. cbn [bind]. rewrite new_plates by exact H. reflexivity. Qed.

Lemma whole_forward : forall P, no_reversed_to_start (whole P).
Proof.
  intros P a b st H. apply in_app_or in H as [H|[H|[]]]; [|discriminate]. apply in_map_iff in H as (n & E & _). injection E as _ <- _. lia.
Qed.
Lemma whole_selects : forall P p, length p = length P -> selects [IEll; INew] P (p ++ [0]) p.
Proof.
  intros P p H. rewrite <- (app_nil_r P). rewrite <- (app_nil_r p) at 2. apply se_ellipsis; [reflexivity|reflexivity|exact H|].
  apply se_new. now apply se_nil.
Qed.

(** ** The constructors *)
Lemma mapM_good : forall A B (f : A -> res B) g l, (forall x, In x l -> f x = Ok (g x)) -> mapM f l = Ok (map g l).
Proof.
  induction l as [|x l IH]; intros H; [reflexivity|]. cbn [mapM map]. rewrite H by now left. cbn [bind].
  rewrite IH by (intros; apply H; now right). reflexivity.
Qed.
Lemma list_sum_ones : forall A (l : list A) f, (forall x, In x l -> f x = 1) -> list_sum (map f l) = length l.
Proof. induction l as [|x l IH]; intros f H; [reflexivity|]. change (f x + list_sum (map f l) = S (length l)). rewrite H by now left. rewrite IH by (intros y Hy; apply H; now right). reflexivity. Qed.

Lemma snoc_broadcast : forall (Ps : list shape) K S, Ps <> [] ->
  (numpy_broadcast (map (fun P => P ++ [K]) Ps) S <-> exists Q, S = Q ++ [K] /\ numpy_broadcast Ps Q).
Proof.
  intros Ps K S N. split.
  - intros (H1 & H2 & H3). destruct Ps as [|P0 Ps]; [contradiction|]. set (L := P0 :: Ps) in *.
    assert (I0 : In P0 L) by now left.
    assert (SN : S <> []). { intros ->. specialize (H1 (P0 ++ [K]) (in_map _ _ _ I0)). rewrite app_length in H1. cbn in H1. lia. }
    destruct (exists_last SN) as (Q & s & ->).
    assert (s = K) as ->.
    { destruct (H3 0) as [H _]. destruct (H3 0) as [Ha Hb]. rewrite !ax_last in Hb. cbn [Nat.eqb] in Hb. specialize (Ha (P0 ++ [K]) (in_map _ _ _ I0)).
      rewrite !ax_last in Ha. cbn [Nat.eqb] in Ha. destruct Hb as [->|(a & Ia & E)].
      - destruct Ha; congruence.
      - apply in_map_iff in Ia as (P & <- & _). rewrite ax_last in E. cbn in E. congruence. }
    exists Q. split; [reflexivity|]. repeat split.
    + intros a Ha. specialize (H1 _ (in_map (fun P => P ++ [K]) _ _ Ha)). rewrite !app_length in H1. cbn in H1. lia.
    + right. destruct H2 as [H2|(a & Ia & E)]; [now destruct Q|]. apply in_map_iff in Ia as (P & <- & Ip). exists P. split; [exact Ip|].
      rewrite !app_length in E. cbn in E. lia.
    + intros a Ha. destruct (H3 (1 + k)) as [H _]. specialize (H _ (in_map (fun P => P ++ [K]) _ _ Ha)). rewrite !ax_last in H. cbn [Nat.eqb Nat.add] in H. now rewrite !Nat.sub_succ, !Nat.sub_0_r in H.
    + destruct (H3 (1 + k)) as [_ H]. rewrite !ax_last in H. cbn [Nat.eqb Nat.add] in H. rewrite !Nat.sub_succ, !Nat.sub_0_r in H. destruct H as [H|(a & Ia & E)]; [now left|].
      right. apply in_map_iff in Ia as (P & <- & Ip). exists P. split; [exact Ip|]. rewrite ax_last in E. cbn [Nat.eqb] in E. now rewrite !Nat.sub_succ, !Nat.sub_0_r in E.
  - intros (Q & -> & H1 & H2 & H3). repeat split.
    + intros a Ia. apply in_map_iff in Ia as (P & <- & Ip). specialize (H1 _ Ip). rewrite !app_length. cbn. lia.
    + right. destruct H2 as [->|(a & Ia & E)].
      * destruct Ps as [|P0 Ps]; [contradiction|]. exists (P0 ++ [K]). split; [now left|]. specialize (H1 P0 (or_introl eq_refl)). destruct P0; [reflexivity|cbn in H1; lia].
      * exists (a ++ [K]). split; [now apply (in_map (fun P => P ++ [K]))|]. rewrite !app_length. cbn. lia.
    + intros a Ia. apply in_map_iff in Ia as (P & <- & Ip). rewrite !ax_last. destruct k; [now right|]. cbn [Nat.eqb]. rewrite !Nat.sub_succ, !Nat.sub_0_r. now apply H3.
    + rewrite !ax_last. destruct k as [|k]; cbn [Nat.eqb].
      * destruct Ps as [|P0 Ps]; [contradiction|]. right. exists (P0 ++ [K]). split; [now left|]. now rewrite ax_last.
      * rewrite !Nat.sub_succ, !Nat.sub_0_r. destruct (H3 k) as [_ [H|(a & Ia & E)]]; [now left|]. right. exists (a ++ [K]). split; [now apply (in_map (fun P => P ++ [K]))|].
        rewrite ax_last. cbn [Nat.eqb]. now rewrite !Nat.sub_succ, !Nat.sub_0_r.
Qed.

Definition choice_of (Ps : list shape) (Q0 Q : shape) : choice :=
  Choice (map (fun P => (whole P, P ++ [1])) Ps) (map (fun _ => 1) Ps) (Q0 ++ [length Ps]) Q.

Lemma choose_init_eq : forall zp Ps, Ps <> [] -> (forall P, In P Ps -> ~ In 0 P) ->
  choose_init (length Ps) zp Ps =
  match broadcasted_shape Ps with
  | Ok Q0 => match broadcasted_shape [zp; Q0] with Ok Q => Ok (choice_of Ps Q0 Q) | Err _ => Err ValueError end
  | Err _ => Err ValueError
  end.
Proof.
  intros zp Ps N H. unfold choose_init. rewrite Nat.eqb_refl. cbn [negb].
  rewrite (mapM_good _ _ new_last_plate (fun P => (whole P, P ++ [1]))) by (intros P HP; apply new_last_ok; now apply H). cbn [bind].
  assert (LE : map (fun s : list idx * shape => ax (snd s) 0) (map (fun P => (whole P, P ++ [1])) Ps) = map (fun _ => 1) Ps).
  { rewrite map_map. apply map_ext. intros P. cbn [snd]. now rewrite ax_last. }
  assert (CP : mapM (fun s : list idx * shape => cat_plates_from 0 (map (fun _ => 1) Ps) (snd s)) (map (fun P => (whole P, P ++ [1])) Ps) =
    Ok (map (fun P => P ++ [length Ps]) Ps)).
  { rewrite (mapM_good _ _ _ (fun s => removelast (snd s) ++ [length Ps])).
    - rewrite map_map. f_equal. apply map_ext. intros P. cbn [snd]. now rewrite removelast_last.
    - intros s Hs. apply in_map_iff in Hs as (P & <- & HP). cbn [snd]. rewrite removelast_last. unfold cat_plates_from.
      rewrite app_length. cbn [length]. rewrite Nat.add_comm. cbn [Nat.ltb Nat.leb Nat.add]. f_equal. rewrite list_sum_ones by reflexivity.
      exact (set_axis_app P (length Ps) 1 []). }
  destruct Ps as [|P0 Ps]; [contradiction|]. set (L := P0 :: Ps) in *. rewrite LE, CP. change (map (fun P => (whole P, P ++ [1])) L) with ((whole P0, P0 ++ [1]) :: map (fun P => (whole P, P ++ [1])) Ps) at 1.
  cbv beta iota zeta. cbn [bind].
  destruct (broadcasted_shape (map (fun P => P ++ [length L]) L)) as [S|e] eqn:E.
  - cbn [bind]. apply broadcasted_shape_ok in E. apply (snoc_broadcast L (length L) S N) in E as (Q0 & -> & E).
    apply broadcasted_shape_ok in E. rewrite E.
    destruct (C18_gate_plates Q0 (length L) []) as (G1 & _ & _ & _ & G5). cbn [length] in G1, G5. rewrite G1. cbn [bind].
    rewrite app_nil_r in G5. rewrite G5. cbn [bind]. destruct (broadcasted_shape [zp; Q0]) as [Q|e] eqn:E2; cbn [bind]; [reflexivity|].
    f_equal. now apply broadcasted_shape_err in E2.
  - cbn [bind]. destruct (broadcasted_shape L) as [Q0|e'] eqn:E2.
    + exfalso. apply broadcasted_shape_ok in E2. assert (X : broadcasted_shape (map (fun P => P ++ [length L]) L) = Ok (Q0 ++ [length L])).
      { apply broadcasted_shape_ok. apply snoc_broadcast; [exact N|]. now exists Q0. } congruence.
    + f_equal. now apply broadcasted_shape_err in E.
Qed.

(** The node is made exactly when there is one category for each node and the plates
    broadcast together; its plates are the plates of z and of the nodes broadcast together.
    Otherwise ValueError is raised. *)
Theorem C67_plates : forall cats zp Ps, (forall P, In P Ps -> ~ In 0 P) ->
  (forall Q, (exists c, choose_init cats zp Ps = Ok c /\ ch_plates c = Q) <->
             Ps <> [] /\ cats = length Ps /\ numpy_broadcast (zp :: Ps) Q) /\
  (forall e, choose_init cats zp Ps = Err e -> e = ValueError).
Proof.
  intros cats zp Ps H. destruct (Nat.eqb_spec cats (length Ps)) as [->|N].
  2:{ assert (E : choose_init cats zp Ps = Err ValueError) by (unfold choose_init; apply Nat.eqb_neq in N; now rewrite N). rewrite E. split.
      - intros Q. split; [intros (c & X & _); discriminate|]. intros (_ & X & _). contradiction.
      - intros e X. now injection X as <-. }
  destruct (list_eq_dec (list_eq_dec Nat.eq_dec) Ps []) as [->|N].
  { split; [intros Q; split; [intros (c & X & _); discriminate|intros (X & _); contradiction]|]. intros e X. now injection X as <-. }
  rewrite choose_init_eq by assumption.
  assert (G : forall Q0 Q, numpy_broadcast Ps Q0 -> (numpy_broadcast [zp; Q0] Q <-> numpy_broadcast (zp :: Ps) Q)).
  { intros Q0 Q B. transitivity (numpy_broadcast (Q0 :: [zp]) Q).
    - split; apply numpy_broadcast_in_ext; intros a; cbn; tauto.
    - rewrite (numpy_broadcast_group Ps [zp] Q0 Q B). split; apply numpy_broadcast_in_ext; intros a; rewrite in_app_iff; cbn; tauto. }
  split.
  - intros Q. destruct (broadcasted_shape Ps) as [Q0|e] eqn:E.
    + apply broadcasted_shape_ok in E. specialize (G Q0 Q E). destruct (broadcasted_shape [zp; Q0]) as [Q'|e] eqn:E2.
      * apply broadcasted_shape_ok in E2. split.
        -- intros (c & X & <-). injection X as <-. cbn [choice_of ch_plates] in *. split; [exact N|]. split; [reflexivity|]. now apply G.
        -- intros (_ & _ & B). apply G in B. exists (choice_of Ps Q0 Q'). split; [reflexivity|]. cbn. now apply (numpy_broadcast_unique [zp; Q0]).
      * split; [intros (c & X & _); discriminate|]. intros (_ & _ & B). apply G, broadcasted_shape_ok in B. congruence.
    + split; [intros (c & X & _); discriminate|]. intros (_ & _ & B). exfalso. apply broadcasted_shape_err in E as [_ (k & a & b & Ia & Ib & C)].
      apply broadcast_no_clash in B. apply B. exists k, a, b. split; [now right|]. split; [now right|exact C].
  - intros e X. destruct (broadcasted_shape Ps) as [Q0|e0]; [|now injection X as <-]. destruct (broadcasted_shape [zp; Q0]) as [Q'|e0]; [discriminate|now injection X as <-].
Qed.

Lemma choose_init_shape : forall cats zp Ps c, (forall P, In P Ps -> ~ In 0 P) -> choose_init cats zp Ps = Ok c ->
  Ps <> [] /\ cats = length Ps /\ numpy_broadcast (zp :: Ps) (ch_plates c) /\ exists Q0, c = choice_of Ps Q0 (ch_plates c).
Proof.
  intros cats zp Ps c H E. destruct (C67_plates cats zp Ps H) as [W _]. destruct (proj1 (W (ch_plates c)) (ex_intro _ c (conj E eq_refl))) as (N & -> & B).
  split; [exact N|]. split; [reflexivity|]. split; [exact B|]. rewrite choose_init_eq in E by assumption.
  destruct (broadcasted_shape Ps) as [Q0|]; [|discriminate]. destruct (broadcasted_shape [zp; Q0]) as [Q|]; [|discriminate]. injection E as <-. now exists Q0.
Qed.

(** ** Moments *)
Lemma bget_low : forall A (a : arr A) P d p v, broadcasts_to (ash a) (P ++ d) -> length v = length d ->
  bget a (at_index (lclip P p ++ v)) = bget a (at_index (p ++ v)).
Proof.
  intros A a P d p v [B1 B2] L. apply bget_ext. intros k Hk N. rewrite !at_index_app. unfold join. destruct (Nat.ltb_spec k (length v)) as [C|C]; [reflexivity|].
  rewrite app_length in B1. rewrite at_index_lclip by lia. destruct (B2 k) as [E|E]; [contradiction|]. rewrite ax_app in E.
  destruct (Nat.ltb_spec k (length d)); [lia|]. rewrite <- L in E. destruct (Nat.eqb_spec (ax P (k - length v)) 1); [congruence|reflexivity].
Qed.

Lemma lclip_within : forall P Q p, broadcasts_to P Q -> within p Q -> within (lclip P p) P.
Proof.
  intros P Q p [B1 B2] H. unfold within, lclip. apply within_of. intros k. cbv beta.
  destruct (Nat.eqb_spec (ax P k) 1) as [->|E]; [lia|]. destruct (B2 k) as [X|X]; [contradiction|]. rewrite X.
  apply (valid_at_index _ _ H).
Qed.

Lemma slice_one : forall P Q d (u : arr R), ~ In 0 P -> broadcasts_to P Q -> broadcasts_to (ash u) (P ++ d) -> length d <= ndim u ->
  exists x, slice_moments (whole P) (length P) d u = Ok x /\ broadcasts_to (ash x) (Q ++ [1] ++ d) /\
    forall p v, within p Q -> within v d -> bget x (at_index (p ++ [0] ++ v)) = bget u (at_index (p ++ v)).
Proof.
  intros P Q d u N PQ B L.
  destruct (C13_slice_partial P [IEll; INew] (whole P) (P ++ [1]) d u (Arr d (fun _ => 0%R))) as (x & y0 & E & _ & BX & _ & G & _ & _).
  { cbn. lia. } { now apply new_slices. } { now apply new_plates. } { apply whole_forward. } { exact L. } { exact B. }
  { unfold ndim. cbn. lia. }
  { cbn [ash]. split; [rewrite !app_length; lia|]. intros k. rewrite ax_app. destruct (Nat.ltb_spec k (length d)); [now right|]. left. now apply ax_overflow. }
  exists x. split; [exact E|]. rewrite <- app_assoc in BX. split.
  - destruct BX as [X1 X2], PQ as [P1 P2]. split; [rewrite !app_length in *; cbn [length] in *; lia|]. intros k. specialize (X2 k). rewrite ax_app in X2 |- *.
    destruct (k <? length ([1] ++ d)); [exact X2|]. destruct X2 as [-> | ->]; [now left|apply P2].
  - intros p v Hp Hv. pose proof (F2_length _ _ _ _ _ Hv) as Lv.
    rewrite <- (bget_low _ x P ([1] ++ d)) by (try exact BX; cbn; lia). rewrite <- (bget_low _ u P d) by (try exact B; exact Lv).
    rewrite (app_assoc _ [0] v). apply G.
    + apply F2_app; [now apply (lclip_within P Q)|]. repeat constructor.
    + exact Hv.
    + apply whole_selects. apply lclip_length.
Qed.

Definition fits (d : shape) (P : shape) (u : arr R) : Prop := broadcasts_to (ash u) (P ++ d) /\ length d <= ndim u.

Lemma slices_all : forall d Q Ps us, (forall P, In P Ps -> ~ In 0 P) -> (forall P, In P Ps -> broadcasts_to P Q) -> Forall2 (fits d) Ps us ->
  exists xs, mapM (fun t : list idx * shape * (shape * arr R) => let '(s, (P, u)) := t in slice_moments (fst s) (length P) d u)
      (combine (map (fun P => (whole P, P ++ [1])) Ps) (combine Ps us)) = Ok xs /\
    Forall2 (fun u x => broadcasts_to (ash x) (Q ++ [1] ++ d) /\
      forall p v, within p Q -> within v d -> bget x (at_index (p ++ [0] ++ v)) = bget u (at_index (p ++ v))) us xs.
Proof.
  intros d Q Ps us N B F. induction F as [|P u Ps us [F1 F2] F IH]; [exists []; split; [reflexivity|constructor]|].
  destruct IH as (xs & E & G); [intros; apply N; now right|intros; apply B; now right|].
  destruct (slice_one P Q d u (N P (or_introl eq_refl)) (B P (or_introl eq_refl)) F1 F2) as (x & Ex & Gx).
  exists (x :: xs). split; [|now constructor]. cbn [map combine mapM fst]. rewrite Ex. cbn [bind]. rewrite E. reflexivity.
Qed.

Lemma start_ones : forall A (l : list A) i, i <= length l -> block_start (map (fun _ => 1) l) i = i.
Proof.
  intros A l i H. unfold block_start. rewrite firstn_map, list_sum_ones by reflexivity. rewrite firstn_length. lia.
Qed.
Lemma nth_F2 : forall A B (R : A -> B -> Prop) l m i a, Forall2 R l m -> nth_error l i = Some a -> exists b, nth_error m i = Some b /\ R a b.
Proof.
  intros A B R l m i a F. revert i. induction F as [|x y l m Hxy F IH]; intros [|i] H; try discriminate; cbn in *.
  - injection H as <-. now exists y.
  - now apply IH.
Qed.

Lemma combined_ok : forall d Q Q0 Ps us, Ps <> [] -> (forall P, In P Ps -> ~ In 0 P) -> (forall P, In P Ps -> broadcasts_to P Q) -> Forall2 (fits d) Ps us ->
  exists x, choose_combined (choice_of Ps Q0 Q) d Ps us = Ok x /\ broadcasts_to (ash x) (Q ++ length Ps :: [] ++ d) /\
    forall k u p v, nth_error us k = Some u -> within p Q -> within v d -> bget x (at_index (p ++ k :: [] ++ v)) = bget u (at_index (p ++ v)).
Proof.
  intros d Q Q0 Ps us N Z B F. destruct (slices_all d Q Ps us Z B F) as (xs & E & G). unfold choose_combined. cbn [choice_of ch_slices ch_lengths].
  rewrite E. cbn [bind]. set (lens := map (fun _ : shape => 1) Ps).
  assert (SL : list_sum lens = length Ps) by (unfold lens; now apply list_sum_ones).
  assert (LU : length Ps = length us) by now apply F2_length in F.
  assert (LX : length us = length xs) by now apply F2_length in G.
  assert (F2 : Forall2 (fun n x => broadcasts_to (ash x) (Q ++ [n] ++ [] ++ d)) lens xs).
  { clear E. unfold lens. revert us F G LU LX. clear -N. revert N. generalize Ps. clear. intros Ps _. revert xs. induction Ps as [|P Ps IH]; intros xs us F G LU LX.
    - destruct us; [|discriminate]. destruct xs; [constructor|discriminate].
    - inversion F; subst. inversion G as [|? ? ? ? [G1 _] G2]; subst. cbn [map]. constructor; [exact G1|]. eapply IH; [eassumption|eassumption|cbn in *; lia|cbn in *; lia]. }
  destruct (C15_concatenate Q [] d lens xs (scalar 0%R)) as (_ & _ & x & ys & EX & _ & BX & GX & _).
  { intros ->. destruct Ps; [now apply N|]. cbn in *. lia. } { exact F2. }
  { split; [cbn; lia|]. intros k. left. apply ax_nil. }
  cbn [length] in EX. exists x. split; [exact EX|]. rewrite SL in BX. split; [exact BX|]. intros k u p v Hk Hp Hv.
  assert (KL : k < length Ps) by (rewrite LU; apply nth_error_Some; congruence).
  destruct (nth_F2 _ _ _ _ _ _ _ G Hk) as (xk & Xk & _ & Gk).
  assert (NL : nth_error lens k = Some 1).
  { unfold lens. destruct (nth_error Ps k) as [P|] eqn:EP; [now apply (map_nth_error (fun _ => 1)) in EP|apply nth_error_None in EP; lia]. }
  destruct (GX k 1 xk NL Xk) as (y & _ & _ & Gy). destruct (Gy p 0 v Hp Nat.lt_0_1 Hv) as [Gy1 _].
  unfold lens in Gy1. rewrite start_ones, Nat.add_0_r in Gy1 by lia. change (p ++ k :: [] ++ v) with (p ++ [k] ++ v). rewrite Gy1. now apply Gk.
Qed.

(** Element p of the moments is the average of the elements p of the moments of the nodes,
    weighted with the probabilities of z at p.  The moments of z and of the nodes may be
    broadcast, and the nodes may have fewer or unit plates. *)
Theorem C67_moments : forall cats zp Ps c d us (z : arr R), (forall P, In P Ps -> ~ In 0 P) ->
  choose_init cats zp Ps = Ok c ->
  Forall2 (fits d) Ps us -> broadcasts_to (ash z) (zp ++ [cats]) -> 1 <= ndim z -> ax (ash z) 0 = cats ->
  exists y, choose_moments c d Ps us z = Ok y /\ broadcasts_to (ash y) (ch_plates c ++ d) /\
    forall p v, within p (ch_plates c) -> within v d ->
      bget y (at_index (p ++ v)) =
      rsum cats (fun k => match nth_error us k with
                          | Some u => bget z (at_index (p ++ [k])) * bget u (at_index (p ++ v))
                          | None => 0 end)%R.
Proof.
  intros cats zp Ps c d us z Z EI F BZ NZ AZ. destruct (choose_init_shape _ _ _ _ Z EI) as (N & -> & BR & Q0 & EC).
  set (Q := ch_plates c) in *. clearbody Q. subst c.
  assert (BP : forall P, In P (zp :: Ps) -> broadcasts_to P Q) by (intros P HP; eapply broadcast_upper; eassumption).
  destruct (combined_ok d Q Q0 Ps us N Z (fun P HP => BP P (or_intror HP)) F) as (x & EX & BX & GX).
  assert (BZ' : broadcasts_to (ash z) ((Q ++ []) ++ [length Ps])).
  { rewrite app_nil_r. destruct BZ as [Z1 Z2], (BP zp (or_introl eq_refl)) as [Y1 Y2]. rewrite app_length in Z1. cbn [length] in Z1.
    split; [rewrite app_length; cbn [length]; lia|]. intros k. specialize (Z2 k). rewrite ax_last in Z2 |- *. destruct (k =? 0); [exact Z2|].
    destruct Z2 as [-> | ->]; [now left|apply Y2]. }
  destruct (C18_gate_moments Q (length Ps) [] d z x BZ' NZ AZ BX) as (y & EY & BY & GY). cbn [length app] in EY, BY.
  exists y. split; [unfold choose_moments; rewrite EX; exact EY|]. split; [exact BY|].
  intros p v Hp Hv. pose proof (GY p [] v Hp (Forall2_nil _) Hv) as GP. cbn [app] in GP. rewrite GP. apply rsum_ext. intros k Hk. rewrite app_nil_r.
  destruct (nth_error us k) as [u|] eqn:EU; [|apply nth_error_None in EU; apply F2_length in F; lia]. pose proof (GX k u p v EU Hp Hv) as GK. cbn [app] in GK. now rewrite GK.
Qed.

(** Where z is certain, the result has the moments of the node z chooses. *)
Theorem C67_chosen : forall cats zp Ps c d us (z : arr R), (forall P, In P Ps -> ~ In 0 P) ->
  choose_init cats zp Ps = Ok c ->
  Forall2 (fits d) Ps us -> broadcasts_to (ash z) (zp ++ [cats]) -> 1 <= ndim z -> ax (ash z) 0 = cats ->
  exists y, choose_moments c d Ps us z = Ok y /\
    forall p v k u, within p (ch_plates c) -> within v d -> nth_error us k = Some u ->
      (forall j, j < cats -> bget z (at_index (p ++ [j])) = if j =? k then 1%R else 0%R) ->
      bget y (at_index (p ++ v)) = bget u (at_index (p ++ v)).
Proof.
  intros cats zp Ps c d us z Z EI F BZ NZ AZ. destruct (C67_moments _ _ _ _ _ _ _ Z EI F BZ NZ AZ) as (y & EY & _ & GY). exists y. split; [exact EY|].
  intros p v k u Hp Hv Hk HZ. rewrite GY by assumption. destruct (choose_init_shape _ _ _ _ Z EI) as (_ & EL & _).
  assert (KL : k < cats) by (rewrite EL, (F2_length _ _ _ _ _ F); apply nth_error_Some; congruence).
  rewrite (rsum_out cats k) by exact KL. rewrite Hk, HZ, Nat.eqb_refl by exact KL. rewrite rsum_zero; [lra|].
  intros j Hj. cbv beta. destruct (Nat.eqb_spec j k) as [E|E]; [reflexivity|]. destruct (nth_error us j); [|reflexivity]. rewrite HZ by exact Hj.
  apply Nat.eqb_neq in E. rewrite E. lra.
Qed.

(** z given as an array of integers: element p of the result is element p of node z[p]. *)
Theorem C67_values : forall (x : arr R) zc Ps c d us, (forall P, In P Ps -> ~ In 0 P) ->
  categorical_constant (length Ps) x true = Ok zc -> choose_init (length Ps) (c_plates zc) Ps = Ok c -> Forall2 (fits d) Ps us ->
  exists z y, c_u zc = [z] /\ choose_moments c d Ps us z = Ok y /\
    forall p v k u, within p (ch_plates c) -> within v d -> bget x (at_index p) = INR k -> nth_error us k = Some u ->
      bget y (at_index (p ++ v)) = bget u (at_index (p ++ v)).
Proof.
  intros x zc Ps c d us Z EZ EI F. unfold categorical_constant in EZ. cbn [negb] in EZ. destruct (_ || _) in EZ; [discriminate|].
  unfold constant in EZ. cbn [length Nat.ltb Nat.leb] in EZ. injection EZ as <-. cbn [c_plates c_u] in *.
  set (K := length Ps) in *. set (z := Arr (ash x ++ [K]) _). exists z.
  assert (PL : firstn (ndim z - 1) (ash z) = ash x).
  { unfold ndim, z. cbn [ash]. rewrite app_length. cbn [length]. rewrite Nat.add_sub. rewrite firstn_app, firstn_all, Nat.sub_diag. apply app_nil_r. }
  cbn [ash] in EI. replace (firstn _ (ash x ++ [K])) with (ash x) in EI by (symmetry; exact PL).
  destruct (C67_chosen K (ash x) Ps c d us z Z EI F) as (y & EY & GY).
  { apply broadcasts_to_refl. } { unfold ndim, z. cbn [ash]. rewrite app_length. cbn. lia. } { unfold z. cbn [ash]. now rewrite ax_last. }
  exists y. split; [reflexivity|]. split; [exact EY|]. intros p v k u Hp Hv Hx Hk. apply (GY p v k u Hp Hv Hk). intros j Hj.
  destruct (choose_init_shape _ _ _ _ Z EI) as (_ & _ & BR & _). pose proof (broadcast_upper _ _ _ BR (or_introl eq_refl)) as [X1 X2].
  unfold bget at 1. unfold z at 1. cbn [aget ash].
  assert (E0 : clip (ash z) (at_index (p ++ [j])) 0 = j).
  { unfold clip, z. cbn [ash]. rewrite ax_last. cbn [Nat.eqb]. destruct (Nat.eqb_spec K 1) as [E|_]; [lia|]. rewrite at_index_app. reflexivity. }
  change (clip (ash x ++ [K]) (at_index (p ++ [j]))) with (clip (ash z) (at_index (p ++ [j]))). rewrite E0.
  assert (EB : bget x (fun i => clip (ash z) (at_index (p ++ [j])) (S i)) = bget x (at_index p)).
  { apply bget_ext. intros i Hi Ni. unfold clip, z. cbn [ash]. rewrite ax_last. cbn [Nat.eqb]. rewrite Nat.sub_succ, Nat.sub_0_r.
    apply Nat.eqb_neq in Ni. rewrite Ni, at_index_app. unfold join. cbn [length]. destruct (Nat.ltb_spec (S i) 1); [lia|]. f_equal. lia. }
  rewrite EB, Hx. destruct (Req_EM_T (INR k) (INR j)) as [E|E]; destruct (Nat.eqb_spec j k) as [E'|E']; [reflexivity| | |reflexivity].
  - apply INR_eq in E. congruence.
  - subst j. contradiction.
Qed.

(** ** Messages and masks *)
Lemma gate_message_ndim : forall nd (z m mx : arr R), gate_message_x 0 nd z m = Ok mx -> nd <= ndim mx.
Proof.
  intros nd z m mx H. unfold gate_message_x in H. destruct (gate_z nd z) as [z1|]; [|discriminate]. cbn [bind] in H.
  destruct (np_multiply z1 (add_trailing_axes m 1)) as [mi|]; [|discriminate]. cbn [bind Nat.add] in H.
  set (mi' := if ndim mi <? nd + 1 then add_leading_axes mi (nd + 1 - ndim mi) else mi) in H.
  assert (L : nd < ndim mi').
  { unfold mi'. destruct (Nat.ltb_spec (ndim mi) (nd + 1)); [|lia]. destruct (add_leading_ok _ mi (nd + 1 - ndim mi)) as (A1 & _). lia. }
  destruct (moveaxis_env _ mi' 0 nd) as (y & Em & Lm & _); [lia|exact L|]. rewrite Em in H. injection H as <-. lia.
Qed.
Lemma cat_message_ndim : forall K nd lens i (m y : arr R), cat_message K nd lens i m = Ok y -> ndim y = ndim m.
Proof.
  intros K nd lens i m y H. unfold cat_message in H. destruct (_ && _) in H; [|now injection H as <-].
  unfold np_split in H. assert (C : forall pts lo, Forall (fun y : arr R => ndim y = ndim m) (cuts m (K + nd) lo pts)).
  { induction pts as [|q pts IH]; intros lo; cbn [cuts]; repeat constructor; try (unfold ndim, cut; cbn [ash]; apply set_axis_length). apply IH. }
  specialize (C (firstn 2 (skipn i (cat_indices lens))) 0). destruct (cuts m (K + nd) 0 _) as [|a [|b l]]; try discriminate.
  cbn [second] in H. injection H as <-. inversion C as [|? ? _ C']; subst. now inversion C'.
Qed.

Lemma unslice_ok : forall P d (m : arr R), ~ In 0 P -> broadcasts_to (ash m) (P ++ [1] ++ d) -> length d <= ndim m ->
  exists y, reverse_indexing (whole P) m P d = Ok y /\ broadcasts_to (ash y) (P ++ d) /\
    forall p v, within p P -> within v d -> bget y (at_index (p ++ v)) = bget m (at_index (p ++ [0] ++ v)).
Proof.
  intros P d m N B L. rewrite app_assoc in B.
  destruct (C13_slice_partial P [IEll; INew] (whole P) (P ++ [1]) d (Arr d (fun _ => 0%R)) m) as (x & y & _ & EY & _ & BY & G & _ & _).
  { cbn. lia. } { now apply new_slices. } { now apply new_plates. } { apply whole_forward. } { unfold ndim. cbn. lia. }
  { cbn [ash]. split; [rewrite app_length; lia|]. intros k. rewrite ax_app. destruct (Nat.ltb_spec k (length d)); [now right|]. left. now apply ax_overflow. }
  { exact L. } { exact B. }
  exists y. split; [exact EY|]. split; [exact BY|]. intros p v Hp Hv. rewrite (app_assoc p [0] v). apply (G (p ++ [0]) p v).
  - apply F2_app; [exact Hp|repeat constructor].
  - exact Hv.
  - apply whole_selects. now apply F2_length in Hp.
Qed.

(** A node with all the plates gets the message with weight z[p, i], which is the
    coefficient of its moments in the average of C67_moments. *)
Theorem C67_message : forall cats zp Ps c d i (z m : arr R), (forall P, In P Ps -> ~ In 0 P) ->
  choose_init cats zp Ps = Ok c -> nth_error Ps i = Some (ch_plates c) ->
  broadcasts_to (ash z) (zp ++ [cats]) -> 1 <= ndim z -> ax (ash z) 0 = cats -> broadcasts_to (ash m) (ch_plates c ++ d) ->
  exists y, choose_message c d i (ch_plates c) z m = Ok y /\ broadcasts_to (ash y) (ch_plates c ++ d) /\
    forall p v, within p (ch_plates c) -> within v d ->
      bget y (at_index (p ++ v)) = (bget z (at_index (p ++ [i])) * bget m (at_index (p ++ v)))%R.
Proof.
  intros cats zp Ps c d i z m Z EI Hi BZ NZ AZ BM. destruct (choose_init_shape _ _ _ _ Z EI) as (N & -> & BR & Q0 & EC).
  set (Q := ch_plates c) in *. clearbody Q. subst c.
  assert (BZ' : broadcasts_to (ash z) ((Q ++ []) ++ [length Ps])).
  { rewrite app_nil_r. destruct BZ as [Z1 Z2], (broadcast_upper _ _ zp BR (or_introl eq_refl)) as [Y1 Y2]. rewrite app_length in Z1. cbn [length] in Z1.
    split; [rewrite app_length; cbn [length]; lia|]. intros k. specialize (Z2 k). rewrite ax_last in Z2 |- *. destruct (k =? 0); [exact Z2|].
    destruct Z2 as [-> | ->]; [now left|apply Y2]. }
  destruct (C18_gate_message_x Q (length Ps) [] d z (scalar 0%R) m BZ' NZ AZ) as (_ & mx & _ & EX & BX & GX & _).
  { split; [cbn; lia|]. intros k. left. apply ax_nil. } { exact BM. }
  cbn [length app] in EX, BX. unfold choose_message. rewrite EX. cbn [bind choice_of ch_lengths ch_slices].
  set (lens := map (fun _ : shape => 1) Ps).
  assert (SL : list_sum lens = length Ps) by (unfold lens; now apply list_sum_ones).
  assert (NL : nth_error lens i = Some 1) by (unfold lens; now apply (map_nth_error (fun _ => 1)) in Hi).
  assert (IL : i < length Ps) by (apply nth_error_Some; congruence).
  destruct (cat_message_ok R Q d lens i 1 (length d) 0 mx NL eq_refl) as (mi & EM & BI & GI).
  { rewrite SL. exact BX. }
  rewrite EM. cbn [bind]. rewrite (map_nth_error (fun P => (whole P, P ++ [1])) _ _ Hi). cbn [fst].
  assert (ZQ : ~ In 0 Q) by (apply Z; eapply nth_error_In; eassumption).
  destruct (unslice_ok Q d mi ZQ BI) as (y & EY & BY & GY).
  { rewrite (cat_message_ndim _ _ _ _ _ _ EM). eapply gate_message_ndim, EX. }
  exists y. split; [exact EY|]. split; [exact BY|]. intros p v Hp Hv. rewrite GY by assumption. rewrite (GI p 0 v Hp Nat.lt_0_1 Hv), Nat.add_0_r.
  unfold lens. rewrite start_ones by lia. pose proof (GX p i [] v Hp IL (Forall2_nil _) Hv) as G. cbn [app] in G |- *. rewrite app_nil_r in G. exact G.
Qed.

(** ... and the mask of the result. *)
Theorem C67_mask : forall cats zp Ps c i (w : arr R), (forall P, In P Ps -> ~ In 0 P) ->
  choose_init cats zp Ps = Ok c -> nth_error Ps i = Some (ch_plates c) -> broadcasts_to (ash w) (ch_plates c) ->
  exists y, choose_weights c i (ch_plates c) w = Ok y /\ broadcasts_to (ash y) (ch_plates c) /\
    forall p, within p (ch_plates c) -> bget y (at_index p) = bget w (at_index p).
Proof.
  intros cats zp Ps c i w Z EI Hi BW. destruct (choose_init_shape _ _ _ _ Z EI) as (N & -> & BR & Q0 & EC).
  set (Q := ch_plates c) in *. clearbody Q. subst c.
  unfold choose_weights. cbn [gate_weights bind Nat.add choice_of ch_lengths ch_slices].
  set (wx := if 1 <=? ndim w then expand_at w 0 else w).
  assert (X : broadcasts_to (ash wx) (Q ++ [1]) /\ (ndim wx = 0 \/ ax (ash wx) 0 = 1) /\ forall p, bget wx (at_index (p ++ [0])) = bget w (at_index p)).
  { destruct BW as [W1 W2]. fold (ndim w) in W1. unfold wx. destruct (Nat.leb_spec 1 (ndim w)) as [C|C].
    - split; [|split].
      + split; [fold (ndim (expand_at w 0)); rewrite ndim_expand_at, app_length; cbn [length]; lia|]. intros k. rewrite ash_expand_at, ax_last by lia.
        destruct k as [|k]; [now left|]. cbn [Nat.ltb Nat.leb Nat.eqb]. apply W2.
      + right. now rewrite ash_expand_at by lia.
      + intros p. rewrite bget_expand_at by lia. apply bget_ext. intros k _ _. cbn [Nat.ltb Nat.leb]. rewrite at_index_app. unfold join. cbn [length].
        destruct (Nat.ltb_spec (S k) 1); [lia|]. f_equal. lia.
    - split; [|split].
      + split; [fold (ndim w); lia|]. intros k. left. apply ax_overflow. fold (ndim w). lia.
      + left. lia.
      + intros p. apply bget_ext. intros k Hk _. fold (ndim w) in Hk. lia. }
  destruct X as (X1 & X2 & X3). clearbody wx.
  assert (EC : cat_weights 0 (map (fun _ : shape => 1) Ps) i wx = Ok wx).
  { unfold cat_weights. destruct X2 as [X2|X2]; rewrite X2; [reflexivity|]. now rewrite andb_false_r. }
  rewrite EC. cbn [bind]. rewrite (map_nth_error (fun P => (whole P, P ++ [1])) _ _ Hi). cbn [fst].
  assert (ZQ : ~ In 0 Q) by (apply Z; eapply nth_error_In; eassumption).
  destruct (unslice_ok Q [] wx ZQ) as (y & EY & BY & GY); [exact X1|cbn; lia|].
  exists y. split; [exact EY|]. rewrite app_nil_r in BY. split; [exact BY|]. intros p Hp. pose proof (GY p [] Hp (Forall2_nil _)) as G. rewrite !app_nil_r in G. now rewrite G.
Qed.

(** Three nodes with plates (4,), (1,) and () and vectors of length 2; z = [0, 0, 2, 1]. *)
Example C67_case :
  let Ps := [[4]; [1]; []] in
  let us := [Arr [4; 2] (fun e => INR (e 0 + e 1)); Arr [1; 2] (fun e => INR (e 0)); Arr [2] (fun e => 7%R)] in
  let z := Arr [4; 3] (fun e => if e 0 =? nth (e 1) [0; 0; 2; 1] 0 then 1%R else 0%R) in
  (forall P, In P Ps -> ~ In 0 P) /\ Forall2 (fits [2]) Ps us /\
  (exists c, choose_init 3 [4] Ps = Ok c /\ ch_plates c = [4] /\ ch_cat c = [4; 3] /\ nth_error Ps 0 = Some (ch_plates c)) /\
  broadcasts_to (ash z) ([4] ++ [3]) /\ 1 <= ndim z /\ ax (ash z) 0 = 3 /\
  choose_init 2 [4] Ps = Err ValueError /\ choose_init 3 [5] Ps = Err ValueError.
Proof.
  assert (B : forall a s, (length a <=? length s) && forallb (fun k => (ax a k =? 1) || (ax a k =? ax s k)) (seq 0 (length a)) = true -> broadcasts_to a s).
  { intros a s H. apply andb_true_iff in H as [H1 H2]. apply Nat.leb_le in H1. split; [exact H1|]. intros k. rewrite forallb_forall in H2.
    destruct (Nat.lt_ge_cases k (length a)) as [C|C]; [|left; now apply ax_overflow]. specialize (H2 k ltac:(apply in_seq; lia)).
    apply orb_true_iff in H2 as [H2|H2]; apply Nat.eqb_eq in H2; [now left|now right]. }
  cbv zeta. split; [intros P [<-|[<-|[<-|[]]]] I; cbn in I; intuition discriminate|].
  split; [repeat constructor; (try (apply B; reflexivity)); cbn; lia|].
  split; [eexists; split; [reflexivity|]; repeat split|]. split; [apply B; reflexivity|]. split; [cbn; lia|]. repeat split.
Qed.

Print Assumptions C67_plates.
Print Assumptions C67_moments.
Print Assumptions C67_chosen.
Print Assumptions C67_values.
Print Assumptions C67_message.
Print Assumptions C67_mask.
