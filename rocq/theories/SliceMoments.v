(** Lemmas for C13: the moments of a sliced node. *)
From Coq Require Import List Arith ZArith Lia Bool Reals Lra FunctionalExtensionality.
From Verif Require Import Base Shapes SpecShapes ShapesLemmas NumPy MiscArray TensorLemmas
  SpecArray PlateSumLemmas ShapeOpsLemmas MessageLemmas Reindex PlateNodes SpecPlateNodes SliceLemmas.
Import ListNotations.
Open Scope nat_scope.

(** Normalised slices that NumPy reads as they were meant. *)
Inductive good : list idx -> list nat -> list nat -> Prop :=
| g_nil : good [] [] []
| g_int : forall i r n P Q, (0 <= i < Z.of_nat n)%Z -> good r P Q -> good (IInt i :: r) (n :: P) Q
| g_slice : forall a b st r n P Q, slice_indices (Some a) (Some b) (Some st) n = Ok (a, b, st) ->
    0 < slicelen a b st -> (0 <= b)%Z -> good r P Q ->
    good (ISlice (Some a) (Some b) (Some st) :: r) (n :: P) (slicelen a b st :: Q)
| g_new : forall r P Q, good r P Q -> good (INew :: r) P (1 :: Q).

Lemma indices_again : forall x y z n a b st, slice_indices x y z n = Ok (a, b, st) -> 0 < slicelen a b st -> (0 <= b)%Z ->
  slice_indices (Some a) (Some b) (Some st) n = Ok (a, b, st).
Proof.
  intros x y z n a b st E L B. pose proof (indices_step _ _ _ _ _ _ _ E) as Hs.
  apply (slicelen_spec a b st 0 Hs) in L. unfold slice_indices in *.
  set (s := match z with None => 1%Z | Some s => s end) in *.
  destruct (Z.eqb_spec s 0); [discriminate|]. injection E as Ea Eb Es. subst st.
  destruct (Z.eqb_spec s 0); [contradiction|]. cbv zeta. rewrite Z.mul_0_r, Z.add_0_r in L.
  destruct (Z.ltb_spec s 0) as [Ns|Ns].
  - replace (0 <? s)%Z with false in L by (symmetry; apply Z.ltb_ge; lia).
    assert (a <= Z.of_nat n - 1)%Z by (subst a; destruct x as [x|]; [|lia]; destruct (Z.ltb_spec x 0); lia).
    destruct (Z.ltb_spec a 0); [lia|]. destruct (Z.ltb_spec b 0); [lia|]. rewrite !Z.min_l by lia. reflexivity.
  - replace (0 <? s)%Z with true in L by (symmetry; apply Z.ltb_lt; lia).
    assert (b <= Z.of_nat n)%Z by (subst b; destruct y as [y|]; [|lia]; destruct (Z.ltb_spec y 0); lia).
    assert (0 <= a)%Z by (subst a; destruct x as [x|]; [|lia]; destruct (Z.ltb_spec x 0); lia).
    destruct (Z.ltb_spec a 0); [lia|]. destruct (Z.ltb_spec b 0); [lia|]. rewrite !Z.min_l by lia. reflexivity.
Qed.

Definition stops_ok (sl : list idx) : Prop := forall x y z, In (ISlice x (Some y) z) sl -> (0 <= y)%Z.

Lemma norm_good : forall l P sl Q, normalise_slices l P = Ok sl -> used l = length P -> plates_of sl P = Ok Q -> stops_ok sl ->
  good sl P Q.
Proof.
  induction l as [|s l IH]; intros P sl Q H U E S.
  - injection H as <-. destruct P; [|discriminate]. injection E as <-. constructor.
  - destruct s as [i|x y z| | |].
    + destruct P as [|n P]; [discriminate|]. cbn [normalise_slices] in H. destruct (_ || _)%bool eqn:B; [discriminate|].
      destruct (normalise_slices l P) as [q|] eqn:EN; [|discriminate]. cbn [bind] in H. injection H as <-. cbn [plates_of] in E.
      constructor; [|apply (IH P q Q EN); [use_used|exact E|intros ? ? ? J; eapply S; right; exact J]].
      apply orb_false_iff in B as [B1 B2]. apply Z.ltb_ge in B1. apply Z.leb_gt in B2. lia.
    + destruct P as [|n P]; [discriminate|]. cbn [normalise_slices] in H.
      destruct (slice_indices x y z n) as [[[a b] st]|] eqn:EI; [|discriminate]. cbn [bind] in H.
      destruct (slicelen a b st <=? 0) eqn:L; [discriminate|].
      destruct (normalise_slices l P) as [q|] eqn:EN; [|discriminate]. cbn [bind] in H. injection H as <-. cbn [plates_of] in E.
      rewrite L in E. destruct (plates_of q P) as [Q'|] eqn:EP; [|discriminate]. cbn [bind] in E. injection E as <-.
      apply Nat.leb_gt in L. assert (0 <= b)%Z by (eapply S; left; reflexivity).
      constructor; [now apply (indices_again x y z)|exact L|assumption|].
      apply (IH P q Q' EN); [use_used|exact EP|intros ? ? ? J; eapply S; right; exact J].
    + assert (EN : normalise_slices (INew :: l) P = (q <- normalise_slices l P ;; Ok (INew :: q))) by (destruct P; reflexivity).
      rewrite EN in H. destruct (normalise_slices l P) as [q|] eqn:E1; [|discriminate]. cbn [bind] in H. injection H as <-.
      cbn [plates_of] in E. destruct (plates_of q P) as [Q'|] eqn:EP; [|destruct P; discriminate].
      assert (Q = 1 :: Q') as -> by (destruct P; cbn [bind] in E; congruence).
      constructor. apply (IH P q Q' E1); [exact U|exact EP|intros ? ? ? J; eapply S; right; exact J].
    + destruct P; discriminate.
    + destruct P; discriminate.
Qed.

Lemma src_in : forall sl P Q, good sl P Q -> forall q, Forall2 lt q Q -> Forall2 lt (getitem_src sl P q) P.
Proof.
  intros sl P Q H. induction H as [|i r n P Q R H IH|a b st r n P Q E L B H IH|r P Q H IH]; intros q Hq.
  - inversion Hq. constructor.
  - cbn [getitem_src]. constructor; [|now apply IH]. destruct (Z.ltb_spec i 0); lia.
  - inversion Hq as [|q1 ? q' ? L1 Hq']; subst. cbn [getitem_src]. rewrite E. constructor; [|now apply IH].
    pose proof (indices_range _ _ _ _ _ _ _ _ E L1). lia.
  - inversion Hq as [|q1 ? q' ? L1 Hq']; subst. cbn [getitem_src]. now apply IH.
Qed.

Lemma src_inj : forall sl P Q, good sl P Q -> forall q q', Forall2 lt q Q -> Forall2 lt q' Q ->
  getitem_src sl P q = getitem_src sl P q' -> q = q'.
Proof.
  intros sl P Q H. induction H as [|i r n P Q R H IH|a b st r n P Q E L B H IH|r P Q H IH]; intros q q' Hq Hq' EQ.
  - inversion Hq. inversion Hq'. reflexivity.
  - cbn [getitem_src] in EQ. injection EQ as EQ. now apply IH.
  - inversion Hq as [|q1 ? q2 ? L1 Hq2]; subst. inversion Hq' as [|q1' ? q2' ? L1' Hq2']; subst. cbn [getitem_src] in EQ. rewrite E in EQ.
    apply (f_equal (fun l => (hd 0 l, tl l))) in EQ. cbn [hd tl] in EQ. apply pair_equal_spec in EQ as [E1 E2].
    f_equal; [|now apply IH]. pose proof (indices_range _ _ _ _ _ _ _ _ E L1). pose proof (indices_range _ _ _ _ _ _ _ _ E L1').
    pose proof (indices_step _ _ _ _ _ _ _ E). nia.
  - inversion Hq as [|q1 ? q2 ? L1 Hq2]; subst. inversion Hq' as [|q1' ? q2' ? L1' Hq2']; subst. cbn [getitem_src] in EQ.
    f_equal; [lia|now apply IH].
Qed.

(** ** [selects] of the index expression the user wrote is [getitem_src] of the normalised slices *)
Lemma picks_at_full : forall N q p, picks_at None None None N q p <-> p = q.
Proof.
  intros N q p. unfold picks_at. cbn [slice_indices]. change (1 =? 0)%Z with false. change (1 <? 0)%Z with false. cbv zeta iota. split.
  - intros (a & b & st & E & H). injection E as <- <- <-. lia.
  - intros ->. exists 0%Z, (Z.of_nat N), 1%Z. split; [reflexivity|lia].
Qed.

Lemma selects_pad : forall P q p, selects (repeat full_slice (length P)) P q p <-> q = p /\ length p = length P.
Proof.
  induction P as [|n P IH]; intros q p; cbn [length repeat].
  - split; [intros H; inversion H; subst; auto|intros [-> H]; now constructor].
  - split.
    + intros H. inversion H as [| |? ? ? ? ? ? q1 p1 q' p' R H'| |]; subst. apply picks_at_full in R as ->. apply IH in H' as [-> L]. cbn. auto.
    + intros [-> L]. destruct p as [|x p]; [discriminate|]. constructor; [now apply picks_at_full|apply IH; split; [reflexivity|now injection L]].
Qed.

Lemma selects_trail : forall l P q p, used l <= length P -> existsb is_ellipsis l = false ->
  (selects l P q p <-> selects (l ++ repeat full_slice (length P - used l)) P q p).
Proof.
  induction l as [|s l IH]; intros P q p U B.
  - cbn [app]. replace (length P - used []) with (length P) by (cbn; lia). rewrite selects_pad.
    split; [intros H; inversion H; subst; auto|intros [-> L]; now constructor].
  - cbn in B. destruct (is_ellipsis s) eqn:Es; [discriminate|]. cbn [app].
    destruct s as [i|x y z| | |]; try discriminate.
    + destruct P as [|n P]; [rewrite used_cons in U; cbn in U; lia|]. assert (U' : used l <= length P) by use_used.
      replace (length (n :: P) - used (IInt i :: l)) with (length P - used l) by use_used.
      split; intros H; inversion H; subst; constructor; try assumption; now apply IH.
    + destruct P as [|n P]; [rewrite used_cons in U; cbn in U; lia|]. assert (U' : used l <= length P) by use_used.
      replace (length (n :: P) - used (ISlice x y z :: l)) with (length P - used l) by use_used.
      split; intros H; inversion H; subst; constructor; try assumption; now apply IH.
    + replace (length P - used (INew :: l)) with (length P - used l) by reflexivity.
      split; intros H; inversion H; subst; constructor; now apply IH.
    + split; intros H; inversion H.
Qed.

Lemma selects_fill : forall n l P q p, existsb is_ellipsis l = false -> n + used l = length P ->
  (selects (repeat full_slice n ++ l) P q p <->
   exists P1 P2 p1 q2 p2, P = P1 ++ P2 /\ q = p1 ++ q2 /\ p = p1 ++ p2 /\ length P1 = n /\ length p1 = n /\ selects l P2 q2 p2).
Proof.
  induction n as [|n IH]; intros l P q p B U; cbn [repeat app].
  - split.
    + intros H. exists [], P, [], q, p. auto 7.
    + intros (P1 & P2 & p1 & q2 & p2 & -> & -> & -> & L & L' & H). destruct P1; [|discriminate]. destruct p1; [exact H|discriminate].
  - destruct P as [|m P]; [cbn in U; lia|]. split.
    + intros H. inversion H as [| |? ? ? ? ? ? qh ph q' p' R H'| |]; subst. apply picks_at_full in R as ->.
      apply IH in H' as (P1 & P2 & p1 & q2 & p2 & -> & -> & -> & L & L' & H'); [|exact B|cbn in U; lia].
      exists (m :: P1), P2, (qh :: p1), q2, p2. cbn. auto 8.
    + intros (P1 & P2 & p1 & q2 & p2 & E & -> & -> & L & L' & H). destruct P1 as [|m' P1]; [discriminate|]. injection E as <- ->.
      destruct p1 as [|x p1]; [discriminate|]. cbn [app].
      constructor; [now apply picks_at_full|]. apply IH; [exact B|cbn [length] in *; lia|].
      exists P1, P2, p1, q2, p2. cbn in L, L'. auto 8.
Qed.

Lemma selects_ell : forall l1 l2 P q p, existsb is_ellipsis l1 = false -> existsb is_ellipsis l2 = false ->
  used (l1 ++ l2) <= length P ->
  (selects (l1 ++ IEll :: l2) P q p <-> selects (l1 ++ repeat full_slice (length P - used (l1 ++ l2)) ++ l2) P q p).
Proof.
  induction l1 as [|s l1 IH]; intros l2 P q p B1 B2 U.
  - cbn [app] in *. rewrite selects_fill by (try assumption; lia). split.
    + intros H. inversion H as [| | | |? P1 P2 p1 q2 p2 B U' L H']; subst. exists P1, P2, p1, q2, p2. rewrite app_length.
      split; [reflexivity|]. split; [reflexivity|]. split; [reflexivity|]. split; [lia|]. split; [lia|exact H'].
    + intros (P1 & P2 & p1 & q2 & p2 & -> & -> & -> & L & L' & H). constructor; [exact B2|rewrite app_length in *; lia|lia|exact H].
  - cbn in B1. destruct (is_ellipsis s) eqn:Es; [discriminate|]. cbn [app] in *.
    destruct s as [i|x y z| | |]; try discriminate.
    + destruct P as [|n P]; [rewrite used_cons in U; cbn in U; lia|].
      assert (U' : used (l1 ++ l2) <= length P) by (rewrite used_cons in U; cbn in U; lia).
      replace (length (n :: P) - used (IInt i :: l1 ++ l2)) with (length P - used (l1 ++ l2)) by (rewrite used_cons; reflexivity).
      split; intros H; inversion H; subst; constructor; try assumption; now apply IH.
    + destruct P as [|n P]; [rewrite used_cons in U; cbn in U; lia|].
      assert (U' : used (l1 ++ l2) <= length P) by (rewrite used_cons in U; cbn in U; lia).
      replace (length (n :: P) - used (ISlice x y z :: l1 ++ l2)) with (length P - used (l1 ++ l2)) by (rewrite used_cons; reflexivity).
      split; intros H; inversion H; subst; constructor; try assumption; now apply IH.
    + replace (length P - used (INew :: l1 ++ l2)) with (length P - used (l1 ++ l2)) by reflexivity.
      split; intros H; inversion H; subst; constructor; now apply IH.
    + split; intros H; inversion H.
Qed.

Lemma selects_norm : forall l P sl Q, normalise_slices l P = Ok sl -> used l = length P -> good sl P Q ->
  forall q p, Forall2 lt q Q -> (selects l P q p <-> p = getitem_src sl P q).
Proof.
  induction l as [|s l IH]; intros P sl Q H U G q p Hq.
  - injection H as <-. inversion G; subst. inversion Hq; subst. cbn. split; [intros X; inversion X; subst; reflexivity|intros ->; constructor; reflexivity].
  - destruct s as [i|x y z| | |].
    + destruct P as [|n P]; [discriminate|]. cbn [normalise_slices] in H. destruct (_ || _)%bool eqn:B; [discriminate|].
      destruct (normalise_slices l P) as [sl'|] eqn:EN; [|discriminate]. cbn [bind] in H. injection H as <-.
      inversion G as [|? ? ? ? ? R G'| |]; subst. assert (U' : used l = length P) by use_used. cbn [getitem_src].
      set (i' := (if (i <? 0)%Z then (i + Z.of_nat n)%Z else i)) in *.
      replace (if (i' <? 0)%Z then (i' + Z.of_nat n)%Z else i') with i' by (destruct (Z.ltb_spec i' 0); lia).
      split.
      * intros X. inversion X as [|? ? ? ? ? p' X'| | |]; subst. f_equal. now apply (IH P sl' Q EN U' G').
      * intros ->. constructor. now apply (IH P sl' Q EN U' G').
    + destruct P as [|n P]; [discriminate|]. cbn [normalise_slices] in H.
      destruct (slice_indices x y z n) as [[[a b] st]|] eqn:EI; [|discriminate]. cbn [bind] in H.
      destruct (slicelen a b st <=? 0) eqn:L; [discriminate|].
      destruct (normalise_slices l P) as [sl'|] eqn:EN; [|discriminate]. cbn [bind] in H. injection H as <-.
      inversion G as [| |? ? ? ? ? ? Q' E L' B G'|]; subst. assert (U' : used l = length P) by use_used.
      inversion Hq as [|q1 ? q' ? L1 Hq']; subst. cbn [getitem_src]. rewrite E.
      pose proof (indices_range _ _ _ _ _ _ _ _ E L1). split.
      * intros X. inversion X as [| |? ? ? ? ? ? ? p1 ? p' R X'| |]; subst. destruct R as (a' & b' & st' & EI' & R). rewrite EI in EI'. injection EI' as <- <- <-.
        f_equal; [lia|]. now apply (IH P sl' Q' EN U' G').
      * intros ->. constructor; [|now apply (IH P sl' Q' EN U' G')]. exists a, b, st. split; [exact EI|lia].
    + assert (EN : normalise_slices (INew :: l) P = (q <- normalise_slices l P ;; Ok (INew :: q))) by (destruct P; reflexivity).
      rewrite EN in H. destruct (normalise_slices l P) as [sl'|] eqn:E1; [|discriminate]. cbn [bind] in H. injection H as <-.
      inversion G as [| | |? ? Q' G']; subst. inversion Hq as [|q1 ? q' ? L1 Hq']; subst. assert (q1 = 0) as -> by lia.
      assert (ES : getitem_src (INew :: sl') P (0 :: q') = getitem_src sl' P q') by (destruct P; reflexivity). rewrite ES.
      split.
      * intros X. inversion X; subst. now apply (IH P sl' Q' E1 U G').
      * intros ->. constructor. now apply (IH P sl' Q' E1 U G').
    + destruct P; discriminate.
    + destruct P; discriminate.
Qed.

(** ** Moments *)
Definition bc1 (a b : nat) : Prop := a = 1 \/ a = b.

Lemma bc_ax : forall s S, length s = length S -> (Forall2 bc1 s S <-> forall k, ax s k = 1 \/ ax s k = ax S k).
Proof.
  induction s as [|a s IH]; intros [|b S] L; try discriminate.
  - split; [intros _ k; left; now rewrite ax_nil|constructor].
  - injection L as L. split.
    + intros H k. inversion H as [|? ? ? ? B H']; subst. rewrite !ax_cons, <- L. destruct (k =? length s); [exact B|].
      now apply (proj1 (IH S L) H').
    + intros H. constructor; [|apply IH; [exact L|]].
      * specialize (H (length s)). rewrite !ax_cons, <- L, Nat.eqb_refl in H. exact H.
      * intros k. specialize (H k). rewrite !ax_cons, <- L in H. destruct (Nat.eqb_spec k (length s)); [|exact H].
        left. apply ax_overflow. lia.
Qed.

(** Lists of indices that agree except along unit axes. *)
Inductive agr : list nat -> list nat -> list nat -> Prop :=
| agr_nil : agr [] [] []
| agr_cons : forall n x y s a b, (n = 1 \/ x = y) -> agr s a b -> agr (n :: s) (x :: a) (y :: b).

Lemma agr_length : forall s a b, agr s a b -> length a = length s /\ length b = length s.
Proof. intros s a b H. induction H; cbn; lia. Qed.
Lemma agr_env : forall s a b, agr s a b -> forall k, ax s k <> 1 -> at_index a k = at_index b k.
Proof.
  intros s a b H. induction H as [|n x y s a b E H IH]; intros k N; [reflexivity|].
  destruct (agr_length _ _ _ H) as [La Lb]. rewrite !at_index_cons. unfold upd. rewrite La, Lb. rewrite ax_cons in N.
  destruct (Nat.eqb_spec k (length s)); [destruct E; [contradiction|assumption]|now apply IH].
Qed.

Fixpoint ms_al (sl : list idx) (shp : list nat) : list idx :=
  match sl with
  | [] => []
  | INew :: r => INew :: ms_al r shp
  | s :: r => match shp with
              | n :: shp' => (if negb (n =? 1) then s
                              else match s with ISlice _ _ _ => ISlice (Some 0%Z) (Some 1%Z) (Some 1%Z) | _ => IInt 0 end) :: ms_al r shp'
              | [] => []
              end
  end.

Lemma ms_al_ok : forall sl P Q, good sl P Q -> forall shp d, Forall2 bc1 shp P ->
  exists Q', getitem_shape (ms_al sl shp) (shp ++ d) = Ok (Q' ++ d) /\ Forall2 bc1 Q' Q /\
    forall q lv, Forall2 lt q Q -> exists src, getitem_src (ms_al sl shp) (shp ++ d) (lclip Q' q ++ lv) = src ++ lv /\
      agr shp src (getitem_src sl P q).
Proof.
  intros sl P Q H. induction H as [|i r n P Q R H IH|a b st r n P Q E L B H IH|r P Q H IH]; intros shp d BC.
  - inversion BC; subst. exists []. split; [reflexivity|]. split; [constructor|]. intros q lv Hq. inversion Hq; subst. exists []. split; [|constructor].
    destruct d, lv; reflexivity.
  - inversion BC as [|m ? shp' ? B1 BC']; subst. destruct (IH shp' d BC') as (Q' & E1 & E2 & E3). cbn [ms_al app].
    exists Q'. destruct (Nat.eqb_spec m 1) as [->|M]; cbn [negb].
    + split; [cbn [getitem_shape]; exact E1|]. split; [exact E2|]. intros q lv Hq. destruct (E3 q lv Hq) as (src & E4 & E5).
      cbn [getitem_src]. rewrite E4. eexists (_ :: src). split; [reflexivity|]. constructor; [now left|exact E5].
    + assert (m = n) as -> by (destruct B1; [contradiction|assumption]). split.
      { cbn [getitem_shape]. replace ((- Z.of_nat n <=? i)%Z && (i <? Z.of_nat n)%Z) with true; [exact E1|].
        symmetry. apply andb_true_iff. split; [apply Z.leb_le|apply Z.ltb_lt]; lia. }
      split; [exact E2|]. intros q lv Hq. destruct (E3 q lv Hq) as (src & E4 & E5). cbn [getitem_src]. rewrite E4.
      eexists (_ :: src). split; [reflexivity|]. constructor; [now right|exact E5].
  - inversion BC as [|m ? shp' ? B1 BC']; subst. destruct (IH shp' d BC') as (Q' & E1 & E2 & E3). cbn [ms_al app].
    destruct (Nat.eqb_spec m 1) as [->|M]; cbn [negb].
    + exists (1 :: Q'). split; [cbn [getitem_shape]; change (slice_indices (Some 0%Z) (Some 1%Z) (Some 1%Z) 1) with (Ok (0%Z, 1%Z, 1%Z)); cbn [bind]; rewrite E1; reflexivity|].
      split; [constructor; [now left|exact E2]|]. intros q lv Hq. inversion Hq as [|q1 ? q' ? L1 Hq']; subst. destruct (E3 q' lv Hq') as (src & E4 & E5).
      rewrite lclip_head by (apply F2_length in E2; apply F2_length in Hq'; lia). cbn [app getitem_src].
      change (slice_indices (Some 0%Z) (Some 1%Z) (Some 1%Z) 1) with (Ok (0%Z, 1%Z, 1%Z)). cbv iota. rewrite E4.
      eexists (_ :: src). split; [reflexivity|]. rewrite E. constructor; [now left|exact E5].
    + assert (m = n) as -> by (destruct B1; [contradiction|assumption]). exists (slicelen a b st :: Q').
      split; [cbn [getitem_shape]; rewrite E; cbn [bind]; rewrite E1; reflexivity|].
      split; [constructor; [now right|exact E2]|]. intros q lv Hq. inversion Hq as [|q1 ? q' ? L1 Hq']; subst. destruct (E3 q' lv Hq') as (src & E4 & E5).
      rewrite lclip_head by (apply F2_length in E2; apply F2_length in Hq'; lia). cbn [app getitem_src]. rewrite E, E4.
      eexists (_ :: src). split; [reflexivity|]. constructor; [right|exact E5].
      destruct (Nat.eqb_spec (slicelen a b st) 1); [replace q1 with 0 by lia|]; reflexivity.
  - destruct (IH shp d BC) as (Q' & E1 & E2 & E3). cbn [ms_al]. exists (1 :: Q').
    split; [destruct (shp ++ d); cbn [getitem_shape]; rewrite E1; reflexivity|]. split; [constructor; [now left|exact E2]|].
    intros q lv Hq. inversion Hq as [|q1 ? q' ? L1 Hq']; subst. destruct (E3 q' lv Hq') as (src & E4 & E5).
    rewrite lclip_head by (apply F2_length in E2; apply F2_length in Hq'; lia). exists src. cbn [app].
    split; [destruct (shp ++ d); cbn [getitem_src]; exact E4|]. destruct P; exact E5.
Qed.

Lemma ms_tail : forall sl P Q, good sl P Q -> forall D sfx, D <> [] -> length sfx = length P ->
  moment_slices sl (length P) (D ++ sfx) = ms_al sl sfx.
Proof.
  intros sl P Q H. induction H as [|i r n P Q R H IH|a b st r n P Q E L B H IH|r P Q H IH]; intros D sfx ND LS.
  - reflexivity.
  - destruct sfx as [|m sfx]; [discriminate|]. injection LS as LS. cbn [moment_slices ms_al length].
    replace (S (length P) <=? length (D ++ m :: sfx)) with true by (symmetry; apply Nat.leb_le; rewrite app_length; cbn; lia).
    cbn [Nat.sub]. rewrite Nat.sub_0_r. rewrite ax_app. cbn [length]. replace (length P <? S (length sfx)) with true by (symmetry; apply Nat.ltb_lt; lia).
    rewrite ax_cons, LS, Nat.eqb_refl. replace (D ++ m :: sfx) with ((D ++ [m]) ++ sfx) by (now rewrite <- app_assoc).
    rewrite IH; [|intros X; apply app_eq_nil in X as [_ X]; discriminate|exact LS]. destruct (m =? 1); reflexivity.
  - destruct sfx as [|m sfx]; [discriminate|]. injection LS as LS. cbn [moment_slices ms_al length].
    replace (S (length P) <=? length (D ++ m :: sfx)) with true by (symmetry; apply Nat.leb_le; rewrite app_length; cbn; lia).
    cbn [Nat.sub]. rewrite Nat.sub_0_r. rewrite ax_app. cbn [length]. replace (length P <? S (length sfx)) with true by (symmetry; apply Nat.ltb_lt; lia).
    rewrite ax_cons, LS, Nat.eqb_refl. replace (D ++ m :: sfx) with ((D ++ [m]) ++ sfx) by (now rewrite <- app_assoc).
    rewrite IH; [|intros X; apply app_eq_nil in X as [_ X]; discriminate|exact LS]. destruct (m =? 1); reflexivity.
  - cbn [moment_slices ms_al]. replace (length P <? length (D ++ sfx)) with true.
    + cbn [app]. f_equal. now apply IH.
    + symmetry. apply Nat.ltb_lt. rewrite app_length. destruct D; [contradiction|cbn; lia].
Qed.

Lemma ms_lead : forall sl P Q, good sl P Q -> forall shp, length shp <= length P ->
  exists sl2 P1 P2 Q1 Q2, P = P1 ++ P2 /\ Q = Q1 ++ Q2 /\ length P2 = length shp /\ good sl2 P2 Q2 /\
    moment_slices sl (length P) shp = ms_al sl2 shp /\
    forall q, Forall2 lt q Q -> exists q1 q2 p1, q = q1 ++ q2 /\ Forall2 lt q2 Q2 /\ getitem_src sl P q = p1 ++ getitem_src sl2 P2 q2.
Proof.
  intros sl P Q H. induction H as [|i r n P Q R H IH|a b st r n P Q E L B H IH|r P Q H IH]; intros shp LS.
  - destruct shp; [|cbn in LS; lia]. exists [], [], [], [], []. repeat (split; [reflexivity|]). split; [constructor|]. split; [reflexivity|].
    intros q Hq. inversion Hq. exists [], [], []. repeat (split; [constructor|]). reflexivity.
  - destruct (Nat.le_gt_cases (length shp) (length P)) as [LE|GT].
    + destruct (IH shp LE) as (sl2 & P1 & P2 & Q1 & Q2 & -> & -> & L2 & G2 & E1 & E2).
      exists sl2, (n :: P1), P2, Q1, Q2. repeat (split; [reflexivity|]). split; [exact L2|]. split; [exact G2|]. split.
      * cbn [moment_slices length]. replace (S (length (P1 ++ P2)) <=? length shp) with false by (symmetry; apply Nat.leb_gt; lia).
        cbn [app Nat.sub]. rewrite Nat.sub_0_r. exact E1.
      * intros q Hq. destruct (E2 q Hq) as (q1 & q2 & p1 & -> & F2 & E3). eexists q1, q2, (_ :: p1). split; [reflexivity|]. split; [exact F2|].
        cbn [getitem_src]. rewrite E3. reflexivity.
    + exists (IInt i :: r), [], (n :: P), [], Q. repeat (split; [reflexivity|]). split; [cbn in *; lia|]. split; [now constructor|]. split.
      * destruct shp as [|m shp]; [cbn in *; lia|]. assert (LL : length shp = length P) by (cbn in *; lia).
        cbn [moment_slices ms_al length]. replace (S (length P) <=? S (length shp)) with true by (symmetry; apply Nat.leb_le; lia).
        cbn [Nat.sub]. rewrite Nat.sub_0_r, ax_cons, LL, Nat.eqb_refl.
        pose proof (ms_tail r P Q H [m] shp ltac:(discriminate) LL) as MT. cbn [app] in MT. rewrite MT. destruct (m =? 1); reflexivity.
      * intros q Hq. exists [], q, []. auto.
  - destruct (Nat.le_gt_cases (length shp) (length P)) as [LE|GT].
    + destruct (IH shp LE) as (sl2 & P1 & P2 & Q1 & Q2 & -> & -> & L2 & G2 & E1 & E2).
      exists sl2, (n :: P1), P2, (slicelen a b st :: Q1), Q2. repeat (split; [reflexivity|]). split; [exact L2|]. split; [exact G2|]. split.
      * cbn [moment_slices length]. replace (S (length (P1 ++ P2)) <=? length shp) with false by (symmetry; apply Nat.leb_gt; lia).
        cbn [app Nat.sub]. rewrite Nat.sub_0_r. exact E1.
      * intros q Hq. inversion Hq as [|x ? q' ? L1 Hq']; subst. destruct (E2 q' Hq') as (q1 & q2 & p1 & -> & F2 & E3). eexists (x :: q1), q2, (_ :: p1).
        split; [reflexivity|]. split; [exact F2|]. cbn [getitem_src]. rewrite E, E3. reflexivity.
    + exists (ISlice (Some a) (Some b) (Some st) :: r), [], (n :: P), [], (slicelen a b st :: Q). repeat (split; [reflexivity|]). split; [cbn in *; lia|]. split; [now constructor|]. split.
      * destruct shp as [|m shp]; [cbn in *; lia|]. assert (LL : length shp = length P) by (cbn in *; lia).
        cbn [moment_slices ms_al length]. replace (S (length P) <=? S (length shp)) with true by (symmetry; apply Nat.leb_le; lia).
        cbn [Nat.sub]. rewrite Nat.sub_0_r, ax_cons, LL, Nat.eqb_refl.
        pose proof (ms_tail r P Q H [m] shp ltac:(discriminate) LL) as MT. cbn [app] in MT. rewrite MT. destruct (m =? 1); reflexivity.
      * intros q Hq. exists [], q, []. auto.
  - destruct (IH shp LS) as (sl2 & P1 & P2 & Q1 & Q2 & -> & -> & L2 & G2 & E1 & E2).
    exists sl2, P1, P2, (1 :: Q1), Q2. repeat (split; [reflexivity|]). split; [exact L2|]. split; [exact G2|]. split.
    + cbn [moment_slices]. replace (length (P1 ++ P2) <? length shp) with false by (symmetry; apply Nat.ltb_ge; lia). exact E1.
    + intros q Hq. inversion Hq as [|x ? q' ? L1 Hq']; subst. destruct (E2 q' Hq') as (q1 & q2 & p1 & -> & F2 & E3). exists (x :: q1), q2, p1.
      split; [reflexivity|]. split; [exact F2|]. destruct (P1 ++ P2); exact E3.
Qed.

Lemma indices_of_clip : forall s q, indices_of (length s) (clip s (at_index q)) = lclip s q.
Proof. intros s q. unfold indices_of, lclip, clip. reflexivity. Qed.

Lemma slice_moments_ok : forall sl P Q d (u : arr R), good sl P Q -> length d <= ndim u -> broadcasts_to (ash u) (P ++ d) ->
  exists y, slice_moments sl (length P) d u = Ok y /\ broadcasts_to (ash y) (Q ++ d) /\
    forall q v, Forall2 lt q Q -> length v = length d ->
      bget y (at_index (q ++ v)) = bget u (at_index (getitem_src sl P q ++ v)).
Proof.
  intros sl P Q d u G Ld [BL BA]. unfold slice_moments. set (k := ndim u - length d).
  set (shp := firstn k (ash u)). set (d' := skipn k (ash u)).
  assert (Eu : ash u = shp ++ d') by (symmetry; apply firstn_skipn).
  assert (Ls : length shp = k) by (unfold shp; rewrite firstn_length; unfold k, ndim in *; lia).
  assert (Ld' : length d' = length d) by (unfold d'; rewrite skipn_length; unfold k, ndim in *; lia).
  assert (LP : length shp <= length P) by (rewrite app_length in BL; unfold k, ndim in *; lia).
  destruct (ms_lead sl P Q G shp LP) as (sl2 & P1 & P2 & Q1 & Q2 & -> & -> & L2 & G2 & E1 & E2). rewrite E1.
  assert (BC : Forall2 bc1 shp P2).
  { apply bc_ax; [lia|]. intros j. destruct (Nat.lt_ge_cases j (length shp)); [|left; now apply ax_overflow].
    specialize (BA (j + length d)). rewrite Eu, !ax_app, Ld' in BA. replace (j + length d <? length d) with false in BA by (symmetry; apply Nat.ltb_ge; lia).
    replace (j + length d - length d) with j in BA by lia. replace (j <? length P2) with true in BA by (symmetry; apply Nat.ltb_lt; lia). exact BA. }
  destruct (ms_al_ok sl2 P2 Q2 G2 shp d' BC) as (Q' & E3 & E4 & E5).
  unfold np_getitem. rewrite Eu, E3. cbn [bind]. eexists. split; [reflexivity|]. cbn [ash]. split.
  - split; [rewrite !app_length; apply F2_length in E4; lia|]. intros j. rewrite !ax_app, Ld'.
    destruct (Nat.ltb_spec j (length d)).
    + specialize (BA j). rewrite Eu, !ax_app, Ld' in BA. replace (j <? length d) with true in BA by (symmetry; apply Nat.ltb_lt; lia). exact BA.
    + destruct (Nat.ltb_spec (j - length d) (length Q2)).
      * apply bc_ax; [now apply F2_length in E4|exact E4].
      * left. apply ax_overflow. apply F2_length in E4. lia.
  - intros q v Hq Lv. destruct (E2 q Hq) as (q1 & q2 & p1 & -> & Hq2 & E6). rewrite E6. unfold bget at 1. cbn [aget ash].
    rewrite indices_of_clip. rewrite lclip_app by lia.
    rewrite lclip_skip by (apply F2_length in E4; apply F2_length in Hq2; lia).
    destruct (E5 q2 (lclip d' v) Hq2) as (src & E7 & E8). rewrite E7. apply bget_ext. intros j Hj Nj.
    rewrite Eu, ax_app in Nj. rewrite !at_index_app. unfold join. rewrite lclip_length, Lv. rewrite Ld' in *.
    destruct (Nat.ltb_spec j (length d)).
    + rewrite at_index_lclip by lia. apply Nat.eqb_neq in Nj. now rewrite Nj.
    + destruct (agr_length _ _ _ E8) as [A1 A2]. rewrite A2.
      destruct (Nat.ltb_spec (j - length d) (length shp)); [|exfalso; apply Nj, ax_overflow; lia].
      now apply (agr_env _ _ _ E8).
Qed.
