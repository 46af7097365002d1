(** Lemmas for C12 and C13: normalised slices and the expansion of Ellipsis. *)
From Coq Require Import List Arith ZArith Lia Bool Reals Lra.
From Verif Require Import Base Shapes SpecShapes ShapesLemmas NumPy MiscArray TensorLemmas
  SpecArray PlateNodes SpecPlateNodes.
Import ListNotations.
Open Scope nat_scope.

Lemma slicelen_spec : forall a b st q, st <> 0%Z ->
  (q < slicelen a b st <-> (if (0 <? st)%Z then a + st * Z.of_nat q < b else b < a + st * Z.of_nat q)%Z).
Proof.
  intros a b st q Hs. unfold slicelen, ceil_div.
  assert (E : q < Z.to_nat (Z.max 0 (- (- (b - a) / st))) <-> (- (b - a) / st < - Z.of_nat q)%Z) by lia. rewrite E. clear E.
  destruct (Z.ltb_spec 0 st) as [H|H].
  - split; intros H1.
    + assert (- (b - a) < st * - Z.of_nat q)%Z; [|lia].
      destruct (Z_lt_ge_dec (- (b - a)) (st * - Z.of_nat q)) as [|G]; [assumption|exfalso].
      pose proof (Z.div_le_lower_bound (- (b - a)) st (- Z.of_nat q) H ltac:(lia)). lia.
    + apply Z.div_lt_upper_bound; lia.
  - replace (- (b - a) / st)%Z with ((b - a) / (- st))%Z.
    2:{ rewrite <- (Z.div_opp_opp (b - a) (- st)) by lia. now rewrite Z.opp_involutive. }
    split; intros H1.
    + destruct (Z_lt_ge_dec (b - a) ((- st) * - Z.of_nat q)) as [|G]; [lia|exfalso].
      pose proof (Z.div_le_lower_bound (b - a) (- st) (- Z.of_nat q) ltac:(lia) ltac:(lia)). lia.
    + apply Z.div_lt_upper_bound; lia.
Qed.

Lemma indices_step : forall x y z n a b st, slice_indices x y z n = Ok (a, b, st) -> st <> 0%Z.
Proof.
  intros x y z n a b st H. unfold slice_indices in H. destruct (Z.eqb_spec (match z with None => 1 | Some s => s end) 0)%Z; [discriminate|].
  injection H as _ _ <-. assumption.
Qed.

Lemma picks_len : forall x y z N n, picks x y z N n <->
  exists a b st, slice_indices x y z N = Ok (a, b, st) /\ n = slicelen a b st.
Proof.
  intros x y z N n. split; intros (a & b & st & E & H); exists a, b, st; (split; [exact E|]).
  - pose proof (indices_step _ _ _ _ _ _ _ E) as Hs.
    destruct (Nat.lt_trichotomy n (slicelen a b st)) as [L|[L|L]]; [|exact L|].
    + apply (slicelen_spec a b st n Hs), H in L. lia.
    + apply H, (slicelen_spec a b st _ Hs) in L. lia.
  - subst n. intros q. apply slicelen_spec. now apply (indices_step x y z N a b).
Qed.

(** The elements a slice picks are in range. *)
Lemma indices_range : forall x y z N a b st q, slice_indices x y z N = Ok (a, b, st) -> q < slicelen a b st ->
  (0 <= a + st * Z.of_nat q < Z.of_nat N)%Z.
Proof.
  intros x y z N a b st q E H. pose proof (indices_step _ _ _ _ _ _ _ E) as Hs. apply (slicelen_spec a b st q Hs) in H.
  unfold slice_indices in E. set (s := match z with None => 1%Z | Some s => s end) in *.
  destruct (Z.eqb_spec s 0); [discriminate|]. injection E as Ea Eb Es. subst st.
  destruct (Z.ltb_spec s 0) as [Ns|Ns].
  - replace (0 <? s)%Z with false in H by (symmetry; apply Z.ltb_ge; lia).
    assert (-1 <= b)%Z by (subst b; destruct y as [y|]; [|lia]; destruct (Z.ltb_spec y 0); lia).
    assert (a <= Z.of_nat N - 1)%Z by (subst a; destruct x as [x|]; [|lia]; destruct (Z.ltb_spec x 0); lia). nia.
  - replace (0 <? s)%Z with true in H by (symmetry; apply Z.ltb_lt; lia).
    assert (b <= Z.of_nat N)%Z by (subst b; destruct y as [y|]; [|lia]; destruct (Z.ltb_spec y 0); lia).
    assert (0 <= a)%Z by (subst a; destruct x as [x|]; [|lia]; destruct (Z.ltb_spec x 0); lia). nia.
Qed.

Lemma full_picks : forall N n, picks None None None N n <-> n = N.
Proof.
  intros N n. rewrite picks_len. cbn. split.
  - intros (a & b & st & E & ->). injection E as <- <- <-. unfold slicelen, ceil_div. rewrite Z.sub_0_r, Z.div_1_r. lia.
  - intros ->. exists 0%Z, (Z.of_nat N), 1%Z. split; [reflexivity|]. unfold slicelen, ceil_div. rewrite Z.sub_0_r, Z.div_1_r. lia.
Qed.

Lemma used_cons : forall s l, used (s :: l) = uses s + used l.
Proof. reflexivity. Qed.
Lemma used_app : forall l1 l2, used (l1 ++ l2) = used l1 + used l2.
Proof. intros. unfold used. now rewrite map_app, list_sum_app. Qed.
Ltac use_used := rewrite ?used_app, ?used_cons in *; cbn [uses length] in *; lia.

(** Plates, first axis first. *)
Fixpoint plates_of (sl : list idx) (P : list nat) : res (list nat) :=
  match sl, P with
  | [], _ => Ok P
  | ISlice (Some a) (Some b) (Some st) :: r, _ :: P' =>
      if slicelen a b st <=? 0 then Err IndexError else Q <- plates_of r P' ;; Ok (slicelen a b st :: Q)
  | INew :: r, _ => Q <- plates_of r P ;; Ok (1 :: Q)
  | IInt _ :: r, _ :: P' => plates_of r P'
  | _, _ => Err RuntimeError
  end.

Lemma slice_plates_zip : forall sl P D, used sl = length P ->
  (forall s, In s sl -> exists a b st i, s = ISlice (Some a) (Some b) (Some st) \/ s = INew \/ s = IInt i) ->
  slice_plates_at (length D) sl (D ++ P) = (Q <- plates_of sl P ;; Ok (D ++ Q)).
Proof.
  induction sl as [|s sl IH]; intros P D U H; [reflexivity|].
  destruct (H s (or_introl eq_refl)) as (a & b & st & i & [-> | [-> | -> ] ]); cbn [slice_plates_at plates_of].
  - destruct P as [|n P]; [discriminate|]. destruct (slicelen a b st <=? 0); [reflexivity|].
    rewrite firstn_app, Nat.sub_diag, firstn_O, app_nil_r, firstn_all. rewrite skipn_app, skipn_all2 by lia.
    replace (S (length D) - length D) with 1 by lia. cbn [skipn app].
    replace (D ++ slicelen a b st :: P) with ((D ++ [slicelen a b st]) ++ P) by (now rewrite <- app_assoc).
    replace (S (length D)) with (length (D ++ [slicelen a b st])) by (rewrite app_length; cbn; lia).
    rewrite IH; [|use_used|intros; apply H; now right].
    destruct (plates_of sl P) as [Q|]; [|reflexivity]. cbn [bind]. now rewrite <- app_assoc.
  - rewrite firstn_app, Nat.sub_diag, firstn_O, app_nil_r, firstn_all. rewrite skipn_app, skipn_all2, Nat.sub_diag by lia. cbn [skipn app].
    replace (D ++ 1 :: P) with ((D ++ [1]) ++ P) by (now rewrite <- app_assoc).
    replace (S (length D)) with (length (D ++ [1])) by (rewrite app_length; cbn; lia).
    rewrite IH; [|exact U|intros; apply H; now right].
    destruct (plates_of sl P) as [Q|]; [|reflexivity]. cbn [bind]. now rewrite <- app_assoc.
  - destruct P as [|n P]; [discriminate|]. unfold remove_at.
    rewrite firstn_app, Nat.sub_diag, firstn_O, app_nil_r, firstn_all. rewrite skipn_app, skipn_all2 by lia.
    replace (S (length D) - length D) with 1 by lia. cbn [skipn app].
    apply IH; [use_used|intros; apply H; now right].
Qed.

Definition plain (l : list idx) : Prop := forall s, In s l -> s <> IEll /\ s <> IOther.

Lemma normalise_used : forall l P sl, normalise_slices l P = Ok sl -> used l = length P -> used sl = length P /\
  forall s, In s sl -> exists a b st i, s = ISlice (Some a) (Some b) (Some st) \/ s = INew \/ s = IInt i.
Proof.
  induction l as [|s l IH]; intros P sl H U.
  - injection H as <-. split; [exact U|intros s []].
  - destruct s as [i|x y z| | |]; cbn [normalise_slices] in H.
    + destruct P as [|n P]; [discriminate|]. destruct (_ || _)%bool; [discriminate|].
      destruct (normalise_slices l P) as [q|] eqn:E; [|discriminate]. cbn [bind] in H. injection H as <-.
      destruct (IH P q E ltac:(use_used)) as [U' F]. split; [use_used|].
      intros s [<-|J]; [exists 0%Z, 0%Z, 0%Z; eexists; right; right; reflexivity|now apply F].
    + destruct P as [|n P]; [discriminate|]. destruct (slice_indices x y z n) as [[[a b] st]|]; [|discriminate]. cbn [bind] in H.
      destruct (slicelen a b st <=? 0); [discriminate|].
      destruct (normalise_slices l P) as [q|] eqn:E; [|discriminate]. cbn [bind] in H. injection H as <-.
      destruct (IH P q E ltac:(use_used)) as [U' F]. split; [use_used|].
      intros s [<-|J]; [exists a, b, st, 0%Z; now left|now apply F].
    + destruct (normalise_slices l P) as [q|] eqn:E; [|destruct P; discriminate].
      assert (sl = INew :: q) as -> by (destruct P; cbn [bind] in H; congruence).
      destruct (IH P q E U) as [U' F]. split; [exact U'|].
      intros s [<-|J]; [exists 0%Z, 0%Z, 0%Z, 0%Z; right; now left|now apply F].
    + destruct P; discriminate.
    + destruct P; discriminate.
Qed.

Lemma norm_indexed : forall l P Q, used l = length P ->
  ((exists sl, normalise_slices l P = Ok sl /\ plates_of sl P = Ok Q) <-> indexed l P Q /\ ~ In 0 Q /\ plain l).
Proof.
  induction l as [|s l IH]; intros P Q U.
  - destruct P; [|discriminate]. split.
    + intros (sl & H & E). injection H as <-. injection E as <-. split; [constructor|]. split; [intros []|intros s []].
    + intros (H & _). inversion H; subst. exists []. split; reflexivity.
  - destruct s as [i|x y z| | |].
    + destruct P as [|n P]; [discriminate|]. cbn [normalise_slices]. assert (U' : used l = length P) by (use_used).
      split.
      * intros (sl & H & E). destruct (_ || _)%bool eqn:B; [discriminate|].
        destruct (normalise_slices l P) as [q|] eqn:EN; [|discriminate]. cbn [bind] in H. injection H as <-. cbn [plates_of] in E.
        destruct (proj1 (IH P Q U') (ex_intro _ q (conj EN E))) as (I1 & I2 & I3).
        split; [|split; [exact I2|]].
        -- constructor; [|exact I1]. apply orb_false_iff in B as [B1 B2]. apply Z.ltb_ge in B1. apply Z.leb_gt in B2.
           destruct (Z.ltb_spec i 0); lia.
        -- intros s [<-|J]; [split; discriminate|now apply I3].
      * intros (H & N0 & PL). inversion H as [|? ? ? ? ? R H'| | |]; subst.
        assert (B : ((if (i <? 0)%Z then (i + Z.of_nat n)%Z else i) <? 0)%Z || (Z.of_nat n <=? (if (i <? 0)%Z then (i + Z.of_nat n)%Z else i))%Z = false).
        { destruct (Z.ltb_spec i 0); apply orb_false_iff; (split; [apply Z.ltb_ge|apply Z.leb_gt]); lia. }
        cbn zeta. rewrite B. destruct (proj2 (IH P Q U')) as (q & E1 & E2).
        { split; [exact H'|]. split; [exact N0|]. intros s J. apply PL. now right. }
        rewrite E1. cbn [bind]. eexists. split; [reflexivity|]. cbn [plates_of]. exact E2.
    + destruct P as [|n P]; [discriminate|]. cbn [normalise_slices]. assert (U' : used l = length P) by (use_used).
      split.
      * intros (sl & H & E). destruct (slice_indices x y z n) as [[[a b] st]|] eqn:EI; [|discriminate]. cbn [bind] in H.
        destruct (slicelen a b st <=? 0) eqn:L; [discriminate|].
        destruct (normalise_slices l P) as [q|] eqn:EN; [|discriminate]. cbn [bind] in H. injection H as <-. cbn [plates_of] in E. rewrite L in E.
        destruct (plates_of q P) as [Q'|] eqn:EP; [|discriminate]. cbn [bind] in E. injection E as <-.
        destruct (proj1 (IH P Q' U') (ex_intro _ q (conj EN EP))) as (I1 & I2 & I3).
        apply Nat.leb_gt in L. split; [|split].
        -- constructor; [|exact I1]. apply picks_len. now exists a, b, st.
        -- intros [Z0|J]; [lia|now apply I2].
        -- intros s [<-|J]; [split; discriminate|now apply I3].
      * intros (H & N0 & PL). inversion H as [| |? ? ? ? ? n' ? Q' R H'| |]; subst.
        apply picks_len in R as (a & b & st & EI & ->). rewrite EI. cbn [bind].
        destruct (slicelen a b st <=? 0) eqn:L; [apply Nat.leb_le in L; exfalso; apply N0; left; lia|].
        destruct (proj2 (IH P Q' U')) as (q & E1 & E2).
        { split; [exact H'|]. split; [intros J; apply N0; now right|]. intros s J. apply PL. now right. }
        rewrite E1. cbn [bind]. eexists. split; [reflexivity|]. cbn [plates_of]. rewrite L, E2. reflexivity.
    + assert (U' : used l = length P) by exact U.
      assert (EN : normalise_slices (INew :: l) P = (q <- normalise_slices l P ;; Ok (INew :: q))) by (destruct P; reflexivity).
      split.
      * intros (sl & H & E). rewrite EN in H. destruct (normalise_slices l P) as [q|] eqn:E1; [|discriminate]. cbn [bind] in H. injection H as <-.
        cbn [plates_of] in E. destruct (plates_of q P) as [Q'|] eqn:EP; [|destruct P; discriminate].
        assert (Q = 1 :: Q') as -> by (destruct P; cbn [bind] in E; congruence).
        destruct (proj1 (IH P Q' U') (ex_intro _ q (conj E1 EP))) as (I1 & I2 & I3).
        split; [now constructor|]. split; [intros [Z0|J]; [discriminate|now apply I2]|].
        intros s [<-|J]; [split; discriminate|now apply I3].
      * intros (H & N0 & PL). inversion H as [| | |? ? Q' H'|]; subst.
        destruct (proj2 (IH P Q' U')) as (q & E1 & E2).
        { split; [exact H'|]. split; [intros J; apply N0; now right|]. intros s J. apply PL. now right. }
        exists (INew :: q). split; [rewrite EN, E1; reflexivity|]. cbn [plates_of]. rewrite E2. destruct P; reflexivity.
    + split.
      * intros (sl & H & _). destruct P; discriminate.
      * intros (_ & _ & PL). destruct (PL IEll (or_introl eq_refl)). contradiction.
    + split.
      * intros (sl & H & _). destruct P; discriminate.
      * intros (_ & _ & PL). destruct (PL IOther (or_introl eq_refl)). contradiction.
Qed.

(** ** Expanding the Ellipsis *)
Lemma scan_some : forall l k m num, (forall s, In s l -> s <> IOther) ->
  exists l' e, scan_slices k l (Some m) num = Ok (l', num + used l', e) /\ e = Some m /\ length l' = length l /\
    (existsb is_ellipsis l = false -> l' = l) /\
    l' = map (fun s => if is_ellipsis s then full_slice else s) l.
Proof.
  induction l as [|s l IH]; intros k m num H.
  - exists [], (Some m). cbn. rewrite Nat.add_0_r. auto.
  - assert (H' : forall s, In s l -> s <> IOther) by (intros; apply H; now right).
    destruct s as [i|x y z| | |]; cbn [scan_slices existsb is_ellipsis orb map].
    + destruct (IH (S k) m (S num) H') as (l' & e & E & -> & Hl & H1 & H2). rewrite E. cbn [bind].
      exists (IInt i :: l'), (Some m). split; [now rewrite used_cons, <- Nat.add_succ_comm|]. split; [reflexivity|]. split; [cbn; lia|]. split.
      * intros B. now rewrite (H1 B).
      * now rewrite H2 at 1.
    + destruct (IH (S k) m (S num) H') as (l' & e & E & -> & Hl & H1 & H2). rewrite E. cbn [bind].
      exists (ISlice x y z :: l'), (Some m). split; [now rewrite used_cons, <- Nat.add_succ_comm|]. split; [reflexivity|]. split; [cbn; lia|]. split.
      * intros B. now rewrite (H1 B).
      * now rewrite H2 at 1.
    + destruct (IH (S k) m num H') as (l' & e & E & -> & Hl & H1 & H2). rewrite E. cbn [bind].
      exists (INew :: l'), (Some m). split; [now rewrite used_cons|]. split; [reflexivity|]. split; [cbn; lia|]. split.
      * intros B. now rewrite (H1 B).
      * now rewrite H2 at 1.
    + destruct (IH (S k) m (S num) H') as (l' & e & E & -> & Hl & H1 & H2). rewrite E. cbn [bind].
      exists (full_slice :: l'), (Some m). split; [now rewrite used_cons, <- Nat.add_succ_comm|]. split; [reflexivity|]. split; [cbn; lia|]. split.
      * discriminate.
      * now rewrite H2 at 1.
    + destruct (H IOther (or_introl eq_refl)); reflexivity.
Qed.

Lemma scan_other : forall l k ell num, In IOther l -> scan_slices k l ell num = Err TypeError.
Proof.
  induction l as [|s l IH]; intros k ell num H; [destruct H|].
  destruct s as [i|x y z| | |]; cbn [scan_slices]; try reflexivity;
    (destruct H as [H|H]; [discriminate|]); try destruct ell; rewrite IH by exact H; reflexivity.
Qed.

Lemma scan_none : forall l k num, (forall s, In s l -> s <> IOther) -> existsb is_ellipsis l = false ->
  scan_slices k l None num = Ok (l, num + used l, None).
Proof.
  induction l as [|s l IH]; intros k num H B; [cbn; now rewrite Nat.add_0_r|].
  assert (H' : forall s, In s l -> s <> IOther) by (intros; apply H; now right).
  destruct s as [i|x y z| | |]; cbn [scan_slices]; try discriminate B.
  - rewrite IH by assumption. cbn [bind]. now rewrite used_cons, <- Nat.add_succ_comm.
  - rewrite IH by assumption. cbn [bind]. now rewrite used_cons, <- Nat.add_succ_comm.
  - rewrite IH by assumption. cbn [bind]. now rewrite used_cons.
  - destruct (H IOther (or_introl eq_refl)); reflexivity.
Qed.

Lemma scan_ell : forall l1 l2 k num, (forall s, In s (l1 ++ l2) -> s <> IOther) -> existsb is_ellipsis l1 = false ->
  let l2' := map (fun s => if is_ellipsis s then full_slice else s) l2 in
  scan_slices k (l1 ++ IEll :: l2) None num = Ok (l1 ++ IEll :: l2', num + used l1 + used l2', Some (k + length l1)).
Proof.
  induction l1 as [|s l1 IH]; intros l2 k num H B l2'.
  - cbn [app scan_slices]. destruct (scan_some l2 (S k) k num H) as (l' & e & E & -> & _ & _ & E2). rewrite E, E2. cbn.
    now rewrite !Nat.add_0_r.
  - assert (H' : forall s, In s (l1 ++ l2) -> s <> IOther) by (intros; apply H; now right).
    destruct s as [i|x y z| | |]; cbn [scan_slices app]; try discriminate B.
    1-3: rewrite IH by assumption; cbn [bind]; rewrite used_cons; cbn [uses]; fold l2'; cbn [length];
      replace (k + S (length l1)) with (S k + length l1) by lia; match goal with |- Ok (_, ?a, _) = Ok (_, ?b, _) => replace a with b by lia end; reflexivity.
    destruct (H IOther (or_introl eq_refl)); reflexivity.
Qed.

Lemma split_ell : forall l, existsb is_ellipsis l = true -> exists l1 l2, l = l1 ++ IEll :: l2 /\ existsb is_ellipsis l1 = false.
Proof.
  induction l as [|s l IH]; intros H; [discriminate|]. cbn in H. destruct (is_ellipsis s) eqn:E.
  - destruct s; try discriminate. exists [], l. auto.
  - destruct (IH H) as (l1 & l2 & -> & H1). exists (s :: l1), l2. cbn. now rewrite E, H1.
Qed.

Lemma remove_mid : forall {A} (l1 : list A) x l2, remove_at (length l1) (l1 ++ x :: l2) = l1 ++ l2.
Proof.
  intros A l1 x l2. unfold remove_at. rewrite firstn_app, Nat.sub_diag, firstn_O, app_nil_r, firstn_all.
  rewrite skipn_app, skipn_all2 by lia. now replace (S (length l1) - length l1) with 1 by lia.
Qed.

(** What an expanded index expression means. *)
Lemma expand_ok : forall np l, (forall s, In s l -> s <> IOther) -> length (filter is_ellipsis l) <= 1 ->
  (np < used l -> expand_slices np l = Err IndexError) /\
  (used l <= np -> exists l', expand_slices np l = Ok l' /\ plain l' /\ used l' = np /\
     ((existsb is_ellipsis l = false /\ l' = l ++ repeat full_slice (np - used l)) \/
      exists l1 l2, l = l1 ++ IEll :: l2 /\ existsb is_ellipsis l1 = false /\ existsb is_ellipsis l2 = false /\
        l' = l1 ++ repeat full_slice (np - used l) ++ l2)).
Proof.
  intros np l H N. assert (UR : forall n, used (repeat full_slice n) = n) by (intros n; clear; induction n as [|n IHn]; [reflexivity|cbn [repeat]; rewrite used_cons, IHn; reflexivity]).
  assert (NE : forall s k, In s (repeat full_slice k) -> s <> IEll /\ s <> IOther).
  { intros s k J. apply repeat_spec in J as ->. split; discriminate. }
  unfold expand_slices. destruct (existsb is_ellipsis l) eqn:B.
  - destruct (split_ell l B) as (l1 & l2 & -> & B1).
    assert (B2 : existsb is_ellipsis l2 = false).
    { rewrite filter_app in N. cbn [filter is_ellipsis] in N. rewrite app_length in N. cbn [length] in N.
      destruct (existsb is_ellipsis l2) eqn:B2; [|reflexivity]. apply existsb_exists in B2 as (x & X1 & X2).
      assert (In x (filter is_ellipsis l2)) by (now apply filter_In). destruct (filter is_ellipsis l2); [contradiction|cbn in N; lia]. }
    assert (E2 : map (fun s => if is_ellipsis s then full_slice else s) l2 = l2).
    { clear -B2. induction l2 as [|s l2 IH]; [reflexivity|]. cbn in *. destruct (is_ellipsis s); [discriminate|]. now rewrite IH. }
    assert (H' : forall s, In s (l1 ++ l2) -> s <> IOther).
    { intros s J. apply H. apply in_app_or in J as [J|J]; apply in_or_app; [now left|right; now right]. }
    rewrite (scan_ell l1 l2 0 0 H' B1), E2. cbn [bind Nat.add].
    assert (U : used (l1 ++ IEll :: l2) = used l1 + used l2) by (rewrite used_app, used_cons; reflexivity). rewrite U.
    split; intros L.
    + apply Nat.ltb_lt in L. now rewrite L.
    + replace (np <? used l1 + used l2) with false by (symmetry; apply Nat.ltb_ge; lia).
      eexists. split; [reflexivity|]. rewrite remove_mid. rewrite firstn_app, Nat.sub_diag, firstn_O, app_nil_r, firstn_all.
      rewrite skipn_app, skipn_all2, Nat.sub_diag by lia. cbn [skipn app].
      split; [|split].
      * intros s J. apply in_app_or in J as [J|J]; [|apply in_app_or in J as [J|J]].
        -- split; [|apply H'; apply in_or_app; now left]. intros ->. rewrite (proj2 (existsb_exists is_ellipsis l1)) in B1; [discriminate|].
           exists IEll. auto.
        -- now apply NE in J.
        -- split; [|apply H'; apply in_or_app; now right]. intros ->. rewrite (proj2 (existsb_exists is_ellipsis l2)) in B2; [discriminate|].
           exists IEll. auto.
      * rewrite !used_app, UR. lia.
      * right. exists l1, l2. auto.
  - rewrite scan_none by assumption. cbn [bind Nat.add]. split; intros L.
    + apply Nat.ltb_lt in L. now rewrite L.
    + replace (np <? used l) with false by (symmetry; apply Nat.ltb_ge; lia).
      eexists. split; [reflexivity|]. split; [|split].
      * intros s J. apply in_app_or in J as [J|J]; [|now apply NE in J].
        split; [|now apply H]. intros ->. rewrite (proj2 (existsb_exists is_ellipsis l)) in B; [discriminate|]. exists IEll. auto.
      * rewrite used_app, UR. lia.
      * left. auto.
Qed.

(** ** The meaning of the expanded expression is that of the original. *)
Lemma indexed_used : forall l P Q, indexed l P Q -> used l <= length P.
Proof.
  intros l P Q H. induction H; rewrite ?used_cons; cbn [uses length]; try lia; [cbn; lia|].
  rewrite app_length. lia.
Qed.

Lemma indexed_pad : forall P Q, indexed (repeat full_slice (length P)) P Q <-> Q = P.
Proof.
  induction P as [|n P IH]; intros Q; cbn [length repeat].
  - split; [intros H; now inversion H|intros ->; constructor].
  - split.
    + intros H. inversion H as [| |? ? ? ? ? m ? Q' R H'| |]; subst. apply full_picks in R as ->. f_equal. now apply IH.
    + intros ->. constructor; [now apply full_picks|now apply IH].
Qed.

Lemma indexed_trail : forall l P Q, used l <= length P -> existsb is_ellipsis l = false ->
  (indexed l P Q <-> indexed (l ++ repeat full_slice (length P - used l)) P Q).
Proof.
  induction l as [|s l IH]; intros P Q U B.
  - cbn [app]. replace (length P - used []) with (length P) by (cbn; lia). rewrite indexed_pad.
    split; [intros H; now inversion H|intros ->; constructor].
  - cbn in B. destruct (is_ellipsis s) eqn:Es; [discriminate|]. cbn [app].
    destruct s as [i|x y z| | |]; try discriminate.
    + destruct P as [|n P]; [rewrite used_cons in U; cbn in U; lia|]. assert (U' : used l <= length P) by use_used.
      replace (length (n :: P) - used (IInt i :: l)) with (length P - used l) by use_used.
      split; intros H; inversion H; subst; constructor; try assumption; now apply IH.
    + destruct P as [|n P]; [rewrite used_cons in U; cbn in U; lia|]. assert (U' : used l <= length P) by use_used.
      replace (length (n :: P) - used (ISlice x y z :: l)) with (length P - used l) by use_used.
      split; intros H; inversion H; subst; constructor; try assumption; now apply IH.
    + replace (length P - used (INew :: l)) with (length P - used l) by reflexivity.
      split; intros H; inversion H; subst; constructor; now apply IH.
    + split; intros H; inversion H.
Qed.

Lemma indexed_fill : forall n l P Q, existsb is_ellipsis l = false -> n + used l = length P ->
  (indexed (repeat full_slice n ++ l) P Q <-> exists P1 P2 Q2, P = P1 ++ P2 /\ Q = P1 ++ Q2 /\ length P1 = n /\ indexed l P2 Q2).
Proof.
  induction n as [|n IH]; intros l P Q B U; cbn [repeat app].
  - split.
    + intros H. exists [], P, Q. auto.
    + intros (P1 & P2 & Q2 & -> & -> & L & H). destruct P1; [exact H|discriminate].
  - destruct P as [|m P]; [cbn in U; lia|]. split.
    + intros H. inversion H as [| |? ? ? ? ? m' ? Q' R H'| |]; subst. apply full_picks in R as ->.
      apply IH in H' as (P1 & P2 & Q2 & -> & -> & L & H'); [|exact B|cbn in U; lia]. exists (m :: P1), P2, Q2. cbn. auto.
    + intros (P1 & P2 & Q2 & E & -> & L & H). destruct P1 as [|m' P1]; [discriminate|]. injection E as <- ->. cbn [app].
      constructor; [now apply full_picks|]. apply IH; [exact B|cbn [length] in *; lia|].
      exists P1, P2, Q2. cbn in L. auto.
Qed.

Lemma indexed_ell : forall l1 l2 P Q, existsb is_ellipsis l1 = false -> existsb is_ellipsis l2 = false ->
  used (l1 ++ l2) <= length P ->
  (indexed (l1 ++ IEll :: l2) P Q <-> indexed (l1 ++ repeat full_slice (length P - used (l1 ++ l2)) ++ l2) P Q).
Proof.
  induction l1 as [|s l1 IH]; intros l2 P Q B1 B2 U.
  - cbn [app] in *. rewrite indexed_fill by (try assumption; lia). split.
    + intros H. inversion H as [| | | |? P1 P2 Q2 B U' H']; subst. exists P1, P2, Q2. rewrite app_length. split; [reflexivity|]. split; [reflexivity|]. split; [lia|exact H'].
    + intros (P1 & P2 & Q2 & -> & -> & L & H). constructor; [exact B2|rewrite app_length in *; lia|exact H].
  - cbn in B1. destruct (is_ellipsis s) eqn:Es; [discriminate|]. cbn [app] in *.
    destruct s as [i|x y z| | |]; try discriminate.
    + destruct P as [|n P]; [rewrite used_cons in U; cbn in U; lia|].
      assert (U' : used (l1 ++ l2) <= length P) by (rewrite used_cons in U; cbn in U; lia).
      replace (length (n :: P) - used (IInt i :: l1 ++ l2)) with (length P - used (l1 ++ l2)) by (rewrite used_cons; reflexivity).
      split; intros H; inversion H; subst; constructor; try assumption; now apply IH.
    + destruct P as [|n P]; [rewrite used_cons in U; cbn in U; lia|].
      assert (U' : used (l1 ++ l2) <= length P) by (rewrite used_cons in U; cbn in U; lia).
      replace (length (n :: P) - used (ISlice x y z :: l1 ++ l2)) with (length P - used (l1 ++ l2)) by (rewrite used_cons; reflexivity).
      split; intros H; inversion H; subst; constructor; try assumption; now apply IH.
    + replace (length P - used (INew :: l1 ++ l2)) with (length P - used (l1 ++ l2)) by reflexivity.
      split; intros H; inversion H; subst; constructor; now apply IH.
    + split; intros H; inversion H.
Qed.

Lemma indexed_other : forall l P Q, indexed l P Q -> forall s, In s l -> s <> IOther.
Proof.
  intros l P Q H. induction H; intros s J; [destruct J| | | |]; (destruct J as [<-|J]; [discriminate|now apply IHindexed]).
Qed.

Lemma slice_indexed : forall P l Q, length (filter is_ellipsis l) <= 1 ->
  ((sl <- slice_init P l ;; slice_plates sl P) = Ok Q <-> indexed l P Q /\ ~ In 0 Q).
Proof.
  intros P l Q N. unfold slice_init.
  destruct (in_dec (fun a b : idx => ltac:(decide equality; try apply Z.eq_dec; decide equality; apply Z.eq_dec) : {a = b} + {a <> b}) IOther l) as [O|O].
  { split.
    - unfold expand_slices. rewrite scan_other by exact O. discriminate.
    - intros [H _]. now destruct (indexed_other _ _ _ H IOther O). }
  assert (H : forall s, In s l -> s <> IOther) by (intros s J ->; now apply O).
  destruct (expand_ok (length P) l H N) as [X1 X2].
  destruct (Nat.lt_ge_cases (length P) (used l)) as [L|L].
  { rewrite (X1 L). split; [discriminate|]. intros [HI _]. apply indexed_used in HI. lia. }
  destruct (X2 L) as (l' & E & PL & U & SH). rewrite E. cbn [bind].
  assert (EQ : indexed l P Q <-> indexed l' P Q).
  { destruct SH as [(B & ->)|(l1 & l2 & -> & B1 & B2 & ->)].
    - now apply indexed_trail.
    - assert (UU : used (l1 ++ IEll :: l2) = used (l1 ++ l2)) by (rewrite !used_app, used_cons; reflexivity). rewrite UU in *.
      now apply indexed_ell. }
  rewrite EQ. split.
  - destruct (normalise_slices l' P) as [sl|] eqn:EN; [|discriminate]. cbn [bind]. intros EP.
    destruct (normalise_used l' P sl EN U) as [U' F]. unfold slice_plates in EP.
    pose proof (slice_plates_zip sl P [] U' F) as ZP. cbn [length app] in ZP. rewrite ZP in EP. destruct (plates_of sl P) as [Q'|] eqn:EQ'; [|discriminate]. injection EP as <-.
    destruct (proj1 (norm_indexed l' P Q' U) (ex_intro _ sl (conj EN EQ'))) as (I1 & I2 & _). auto.
  - intros [I1 I2]. destruct (proj2 (norm_indexed l' P Q U) (conj I1 (conj I2 PL))) as (sl & E1 & E2). rewrite E1. cbn [bind].
    destruct (normalise_used l' P sl E1 U) as [U' F]. unfold slice_plates.
    pose proof (slice_plates_zip sl P [] U' F) as ZP. cbn [length app] in ZP. rewrite ZP, E2. reflexivity.
Qed.
