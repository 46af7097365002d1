(** Theorems for C18: the Gate node. *)
From Coq Require Import List Arith ZArith Lia Bool Reals Lra FunctionalExtensionality.
From Verif Require Import Base Shapes SpecShapes ShapesLemmas NumPy MiscArray TensorLemmas
  SpecArray SpecIndex SumMultiplyLemmas PlateSumLemmas ShapeOpsLemmas MessageLemmas EinsumLemmas ExpFamBound DiagLemmas
  PArrays Reindex TakeConcat TakeLemmas PTake PConcat AddAxis PAddAxis Gate GateLemmas.
Import ListNotations.
Open Scope nat_scope.

(** Insert index [k] at axis [K0] from the end. *)
Definition ins (K0 k : nat) (e : env) : env := fun j => if j <? K0 then e j else if j =? K0 then k else e (j - 1).

Lemma at_ins : forall l k r v, at_index (l ++ k :: r ++ v) = ins (length r + length v) k (at_index (l ++ r ++ v)).
Proof.
  intros l k r v. apply functional_extensionality. intros j. unfold ins. change (k :: r ++ v) with ([k] ++ (r ++ v)).
  rewrite <- app_length. set (w := r ++ v). rewrite !(at_index_app l), (at_index_app [k] w). unfold join. rewrite app_length. cbn [length].
  destruct (Nat.ltb_spec j (length w)) as [C|C].
  - destruct (Nat.ltb_spec j (1 + length w)); [reflexivity|lia].
  - destruct (Nat.eqb_spec j (length w)) as [E|E].
    + destruct (Nat.ltb_spec j (1 + length w)); [|lia]. replace (j - length w) with 0 by lia. reflexivity.
    + destruct (Nat.ltb_spec j (1 + length w)); [lia|]. destruct (Nat.ltb_spec (j - 1) (length w)); [lia|]. f_equal. lia.
Qed.

Lemma at_ins_last : forall q k, at_index (q ++ [k]) = ins 0 k (at_index q).
Proof. intros q k. rewrite <- (app_nil_r q) at 2. change [k] with (k :: [] ++ []). rewrite at_ins. reflexivity. Qed.

Lemma ax_ins : forall L K R d j, ax (L ++ K :: R ++ d) j =
  if j <? length R + length d then ax (L ++ R ++ d) j else if j =? length R + length d then K else ax (L ++ R ++ d) (j - 1).
Proof.
  intros L K R d k. change (K :: R ++ d) with ([K] ++ (R ++ d)). rewrite !(ax_app L), !app_length. rewrite (ax_app [K]), app_length. cbn [length].
  set (n := length R + length d). destruct (Nat.ltb_spec k n) as [C|C].
  - destruct (Nat.ltb_spec k (1 + n)); [|lia]. reflexivity.
  - destruct (Nat.eqb_spec k n) as [D|D].
    + destruct (Nat.ltb_spec k (1 + n)); [|lia]. replace (k - n) with 0 by lia. reflexivity.
    + destruct (Nat.ltb_spec k (1 + n)); [lia|]. destruct (Nat.ltb_spec (k - 1) n); [lia|]. f_equal. lia.
Qed.
Lemma ax_last : forall W K j, ax (W ++ [K]) j = if j =? 0 then K else ax W (j - 1).
Proof.
  intros W K j. rewrite ax_app. cbn [length]. destruct j as [|j]; reflexivity.
Qed.

Lemma map2_upper : forall A B C (f : A -> B -> C) a b T, broadcasts_to (ash a) T -> broadcasts_to (ash b) T ->
  exists y, np_map2 f a b = Ok y /\ numpy_broadcast [ash a; ash b] (ash y) /\ broadcasts_to (ash y) T /\ forall e, bget y e = f (bget a e) (bget b e).
Proof.
  intros A B C f a b T HA HB.
  assert (BT : forall s, In s [ash a; ash b] -> broadcasts_to s T) by (intros s [<-|[<-|[]]]; assumption).
  destruct (broadcast_exists_of_upper _ _ BT) as [S HS]. destruct (np_map2_total _ _ _ f a b S HS) as (y & Ey & Sy).
  exists y. split; [exact Ey|]. destruct (np_map2_ok _ _ _ _ _ _ _ Ey) as [N G]. split; [exact N|]. split; [|exact G].
  now apply (nb_upper [ash a; ash b]).
Qed.

Lemma gate_z_ok : forall W K d (z : arr R), broadcasts_to (ash z) (W ++ [K]) -> 1 <= ndim z -> ax (ash z) 0 = K ->
  exists z1, gate_z (length d) z = Ok z1 /\ ndim z1 = length d + ndim z /\ ax (ash z1) 0 = K /\
    broadcasts_to (ash z1) ((W ++ d) ++ [K]) /\
    forall k e, bget z1 (ins 0 k e) = bget z (ins 0 k (fun j => e (j + length d))).
Proof.
  intros W K d z [ZL ZB] NZ KZ. unfold gate_z. destruct (add_trailing_ok _ z (length d)) as (T1 & T2 & T3).
  set (zt := add_trailing_axes z (length d)) in *. set (nd := length d) in *.
  destruct (moveaxis_env _ zt nd 0) as (z1 & E & L1 & A1 & G1); [lia|lia|].
  exists z1. split; [exact E|]. split; [lia|]. split.
  - rewrite A1. unfold dst. cbn [Nat.eqb]. rewrite T2, Nat.ltb_irrefl, Nat.sub_diag. exact KZ.
  - split.
    + rewrite app_length in ZL. cbn [length] in ZL. fold (ndim z) in ZL. split; [fold (ndim z1); rewrite !app_length; fold nd; cbn [length]; lia|].
      intros j. rewrite A1, ax_last, T2. unfold dst. destruct (Nat.eqb_spec j 0) as [->|J]; [right; now rewrite Nat.ltb_irrefl, Nat.sub_diag|].
      destruct (Nat.ltb_spec j 0); [lia|]. destruct (Nat.ltb_spec (j - 1) nd) as [C|C].
      * left. apply Nat.ltb_lt in C. now rewrite C.
      * destruct (Nat.ltb_spec (S (j - 1)) nd); [lia|]. specialize (ZB (S (j - 1) - nd)). rewrite ax_last in ZB.
        destruct (Nat.eqb_spec (S (j - 1) - nd) 0); [lia|]. rewrite ax_app. fold nd. destruct (Nat.ltb_spec (j - 1) nd); [lia|].
        replace (S (j - 1) - nd - 1) with (j - 1 - nd) in ZB by lia. exact ZB.
    + intros k e. rewrite G1, T3. apply bget_ext. intros j _ _. unfold dst, ins. destruct j as [|j].
      * cbn [Nat.add Nat.ltb Nat.leb Nat.eqb]. now rewrite Nat.eqb_refl.
      * destruct (Nat.eqb_spec (S j + nd) nd); [lia|]. destruct (Nat.ltb_spec (S j + nd) nd); [lia|].
        destruct (Nat.ltb_spec (S j + nd - 1) 0); [lia|]. cbn [Nat.ltb Nat.leb Nat.eqb]. f_equal. lia.
Qed.

Lemma gate_x_ok : forall QL K QR d (x : arr R), broadcasts_to (ash x) (QL ++ K :: QR ++ d) ->
  exists x1, (if ndim x <? length QR + length d + 1 then Ok (add_trailing_axes x 1)
              else moveaxis x (neg_axis (length QR + length d)) (neg_axis 0)) = Ok x1 /\
    broadcasts_to (ash x1) ((QL ++ QR ++ d) ++ [K]) /\
    forall k e, bget x1 (ins 0 k e) = bget x (ins (length QR + length d) k e).
Proof.
  intros QL K QR d x [XL XB]. set (K0 := length QR + length d) in *.
  rewrite app_length in XL. cbn [length] in XL. rewrite app_length in XL. fold K0 in XL. fold (ndim x) in XL.
  assert (XB' : forall j, ax (ash x) j = 1 \/ ax (ash x) j = if j <? K0 then ax (QL ++ QR ++ d) j else if j =? K0 then K else ax (QL ++ QR ++ d) (j - 1)).
  { intros j. specialize (XB j). rewrite ax_ins in XB. exact XB. }
  destruct (Nat.ltb_spec (ndim x) (K0 + 1)) as [C|C].
  - destruct (add_trailing_ok _ x 1) as (T1 & T2 & T3). eexists. split; [reflexivity|]. split.
    + split; [fold (ndim (add_trailing_axes x 1)); rewrite T1, !app_length; cbn [length]; unfold K0 in *; lia|].
      intros j. rewrite T2, ax_last. destruct j as [|j]; [now left|]. destruct (Nat.ltb_spec (S j) 1); [lia|]. cbn [Nat.eqb].
      specialize (XB' (S j - 1)). destruct (Nat.ltb_spec (S j - 1) K0); [exact XB'|]. left. apply ax_overflow. unfold ndim in C. lia.
    + intros k e. rewrite T3. apply bget_ext. intros j Hj _. unfold ins. fold (ndim x) in Hj.
      destruct (Nat.ltb_spec j K0); [|lia]. rewrite Nat.add_1_r. cbn [Nat.ltb Nat.leb Nat.eqb]. f_equal. lia.
  - destruct (moveaxis_env _ x K0 0) as (x1 & E & L1 & A1 & G1); [lia|lia|]. exists x1. split; [exact E|]. split.
    + split; [fold (ndim x1); rewrite L1, !app_length; cbn [length]; unfold K0 in *; lia|].
      intros j. rewrite A1, ax_last. unfold dst. destruct (Nat.eqb_spec j 0) as [->|J].
      * specialize (XB' K0). now rewrite Nat.ltb_irrefl, Nat.eqb_refl in XB'.
      * destruct (Nat.ltb_spec j 0); [lia|]. destruct (Nat.ltb_spec (j - 1) K0) as [D|D].
        -- specialize (XB' (j - 1)). apply Nat.ltb_lt in D. now rewrite D in XB'.
        -- specialize (XB' (S (j - 1))). destruct (Nat.ltb_spec (S (j - 1)) K0); [lia|]. destruct (Nat.eqb_spec (S (j - 1)) K0); [lia|].
           replace (S (j - 1) - 1) with (j - 1) in XB' by lia. exact XB'.
    + intros k e. rewrite G1. apply bget_ext. intros j _ _. unfold dst, ins. destruct (Nat.eqb_spec j K0) as [->|J].
      * now rewrite !Nat.ltb_irrefl, !Nat.eqb_refl.
      * destruct (Nat.ltb_spec j K0); cbn [Nat.ltb Nat.leb Nat.eqb]; f_equal; lia.
Qed.

Lemma join_ins : forall e k, join 1 e (upd env0 0 k) = ins 0 k e.
Proof.
  intros e k. apply functional_extensionality. intros j. unfold join, ins. destruct j as [|j]; [reflexivity|]. cbn. f_equal.
Qed.
Lemma total_one : forall K F, total [K] F = rsum K (fun i => F (upd env0 0 i)).
Proof. intros K F. rewrite total_iter. reflexivity. Qed.

Lemma gate_moments_ok : forall QL K QR d (z x : arr R),
  broadcasts_to (ash z) ((QL ++ QR) ++ [K]) -> 1 <= ndim z -> ax (ash z) 0 = K ->
  broadcasts_to (ash x) (QL ++ K :: QR ++ d) ->
  exists y, gate_moments (length QR) (length d) z x = Ok y /\ broadcasts_to (ash y) (QL ++ QR ++ d) /\
    forall l r v, within l QL -> within r QR -> within v d ->
      bget y (at_index (l ++ r ++ v)) = rsum K (fun k => bget z (at_index ((l ++ r) ++ [k])) * bget x (at_index (l ++ k :: r ++ v)))%R.
Proof.
  intros QL K QR d z x ZB NZ KZ XB. unfold gate_moments.
  destruct (gate_z_ok (QL ++ QR) K d z ZB NZ KZ) as (z1 & E1 & L1 & K1 & B1 & G1).
  destruct (gate_x_ok QL K QR d x XB) as (x1 & E2 & B2 & G2).
  rewrite E1. cbn [bind]. rewrite E2. cbn [bind]. rewrite <- (app_assoc QL QR d) in B1.
  destruct (sum_product_trailing z1 x1 (QL ++ QR ++ d) [K] (AxScalar (-1)) B1 B2) as (y & Ey & YB & _ & GY).
  - cbn [length]. lia.
  - intros k Hk. cbn in Hk. left. replace k with 0 by lia. exact K1.
  - intros n Hn. now apply named_last.
  - exact I.
  - exists y. split; [exact Ey|]. split; [exact YB|]. intros l r v Hl Hr Hv.
    pose proof (F2_length _ _ _ _ _ Hr) as Lr. pose proof (F2_length _ _ _ _ _ Hv) as Lv.
    rewrite GY by (apply valid_at_index; apply F2_app; [assumption|now apply F2_app]). cbn [length]. rewrite total_one. apply rsum_ext. intros k Hk.
    rewrite join_ins, G1, G2, at_ins, Lr, Lv. f_equal. f_equal. rewrite at_ins_last. f_equal.
    apply functional_extensionality. intros j. rewrite app_assoc, at_index_app, <- Lv. unfold join.
    destruct (Nat.ltb_spec (j + length v) (length v)); [lia|]. f_equal. lia.
Qed.

(** Moments: the average of the components. *)
Theorem C18_gate_moments : forall QL K QR d (z x : arr R),
  broadcasts_to (ash z) ((QL ++ QR) ++ [K]) -> 1 <= ndim z -> ax (ash z) 0 = K ->
  broadcasts_to (ash x) (QL ++ K :: QR ++ d) ->
  exists y, gate_moments (length QR) (length d) z x = Ok y /\ broadcasts_to (ash y) (QL ++ QR ++ d) /\
    forall l r v, within l QL -> within r QR -> within v d ->
      bget y (at_index (l ++ r ++ v)) = rsum K (fun k => bget z (at_index ((l ++ r) ++ [k])) * bget x (at_index (l ++ k :: r ++ v)))%R.
Proof. exact gate_moments_ok. Qed.

(** Sums over the plates and variable axes, one part at a time. *)
Lemma total3 : forall A B C F, total (A ++ B ++ C) F =
  lsum (map (fun v => lsum (map (fun r => lsum (map (fun l => F (at_index (l ++ r ++ v))) (lists A))) (lists B))) (lists C)).
Proof.
  intros A B C F. rewrite total_lists, lists_app, lists_app. reflexivity.
Qed.
Lemma lists_one : forall K, lists [K] = map (fun k => [k]) (seq 0 K).
Proof. intros K. cbn. apply app_nil_r. Qed.
Lemma lsum_one : forall K (f : list nat -> R), lsum (map f (lists [K])) = rsum K (fun k => f [k]).
Proof. intros K f. rewrite lists_one, map_map. apply lsum_map_seq. Qed.
Lemma total4 : forall A K B C F, total (A ++ K :: B ++ C) F =
  lsum (map (fun v => lsum (map (fun r => rsum K (fun k => lsum (map (fun l => F (at_index (l ++ k :: r ++ v))) (lists A)))) (lists B))) (lists C)).
Proof.
  intros A K B C F. change (K :: B ++ C) with ([K] ++ B ++ C). rewrite total_lists, !lists_app.
  apply lsum_map_ext. intros v _. apply lsum_map_ext. intros r _. apply lsum_one.
Qed.
Lemma lsum_rsum : forall A (f : A -> nat -> R) l n, lsum (map (fun a => rsum n (f a)) l) = rsum n (fun k => lsum (map (fun a => f a k) l)).
Proof.
  intros A f l n. rewrite <- lsum_map_seq. rewrite <- lsum_swap. apply lsum_map_ext. intros a _. symmetry. apply lsum_map_seq.
Qed.
Lemma lsum_scal : forall A (f : A -> R) c l, (c * lsum (map f l) = lsum (map (fun a => c * f a) l))%R.
Proof. intros. symmetry. apply lsum_map_scal. Qed.

(** Message to X: component k gets the message with weight z_k; it is the linear
    coefficient of the moments of X in <message, moments>. *)
Theorem C18_gate_message_x : forall QL K QR d (z x m : arr R),
  broadcasts_to (ash z) ((QL ++ QR) ++ [K]) -> 1 <= ndim z -> ax (ash z) 0 = K ->
  broadcasts_to (ash x) (QL ++ K :: QR ++ d) -> broadcasts_to (ash m) (QL ++ QR ++ d) ->
  exists y mx, gate_moments (length QR) (length d) z x = Ok y /\ gate_message_x (length QR) (length d) z m = Ok mx /\
    broadcasts_to (ash mx) (QL ++ K :: QR ++ d) /\
    (forall l k r v, within l QL -> k < K -> within r QR -> within v d ->
      bget mx (at_index (l ++ k :: r ++ v)) = (bget z (at_index ((l ++ r) ++ [k])) * bget m (at_index (l ++ r ++ v)))%R) /\
    total (QL ++ QR ++ d) (fun e => bget m e * bget y e)%R = total (QL ++ K :: QR ++ d) (fun e => bget mx e * bget x e)%R.
Proof.
  intros QL K QR d z x m ZB NZ KZ XB MB.
  destruct (gate_moments_ok QL K QR d z x ZB NZ KZ XB) as (y & EY & YB & GY).
  destruct (gate_z_ok (QL ++ QR) K d z ZB NZ KZ) as (z1 & E1 & L1 & K1 & B1 & G1). rewrite <- (app_assoc QL QR d) in B1.
  set (K0 := length QR + length d).
  assert (X : exists mx, gate_message_x (length QR) (length d) z m = Ok mx /\ broadcasts_to (ash mx) (QL ++ K :: QR ++ d) /\
    forall k e, bget mx (ins K0 k e) = (bget z (ins 0 k (fun j => e (j + length d)%nat)) * bget m e)%R).
  { unfold gate_message_x. rewrite E1. cbn [bind]. destruct (add_trailing_ok _ m 1) as (T1 & T2 & T3). set (mt := add_trailing_axes m 1) in *.
    assert (MT : broadcasts_to (ash mt) ((QL ++ QR ++ d) ++ [K])).
    { destruct MB as [M1 M2]. fold (ndim m) in M1. split; [fold (ndim mt); rewrite app_length; cbn [length]; lia|].
      intros j. rewrite T2, ax_last. destruct j; [now left|]. cbn [Nat.ltb Nat.leb Nat.eqb]. apply M2. }
    destruct (map2_upper _ _ _ Rmult z1 mt _ B1 MT) as (mi & Ei & Ni & Bi & Gi). unfold np_multiply. rewrite Ei. cbn [bind].
    fold K0. set (mi' := if ndim mi <? K0 + 1 then add_leading_axes mi (K0 + 1 - ndim mi) else mi).
    assert (P : K0 < ndim mi' /\ ndim mi' <= length QL + K0 + 1 /\ (forall j, ax (ash mi') j = ax (ash mi) j) /\ (forall e, bget mi' e = bget mi e)).
    { destruct Bi as [Bi _]. fold (ndim mi) in Bi. rewrite !app_length in Bi. cbn [length] in Bi. unfold mi'.
      destruct (Nat.ltb_spec (ndim mi) (K0 + 1)); [|unfold K0 in *; repeat split; lia].
      destruct (add_leading_ok _ mi (K0 + 1 - ndim mi)) as (A1 & A2 & A3). split; [lia|]. split; [lia|]. split; assumption. }
    destruct P as (P1 & P2 & P3 & P4). clearbody mi'.
    destruct (moveaxis_env _ mi' 0 K0) as (mx & Em & Lm & Am & Gm); [lia|lia|]. exists mx. split; [exact Em|]. split.
    - split; [fold (ndim mx); rewrite Lm, app_length; cbn [length]; rewrite app_length; fold K0; lia|].
      intros j. rewrite Am, P3, ax_ins. fold K0. destruct Bi as [_ Bi]. unfold dst. destruct (Nat.eqb_spec j K0) as [->|J].
      + rewrite Nat.ltb_irrefl. specialize (Bi 0). now rewrite ax_last in Bi.
      + destruct (Nat.ltb_spec j K0).
        * destruct (Nat.ltb_spec j 0); [lia|]. specialize (Bi (S j)). rewrite ax_last in Bi. cbn [Nat.eqb] in Bi.
          now replace (S j - 1) with j in Bi by lia.
        * destruct (Nat.ltb_spec (j - 1) 0); [lia|]. specialize (Bi (S (j - 1))). rewrite ax_last in Bi. cbn [Nat.eqb] in Bi.
          now replace (S (j - 1) - 1) with (j - 1) in Bi by lia.
    - intros k e. rewrite Gm, P4. transitivity (bget mi (ins 0 k e)).
      + apply bget_ext. intros j _ _. unfold dst, ins. destruct (Nat.eqb_spec j 0) as [->|J].
        * now rewrite !Nat.ltb_irrefl, !Nat.eqb_refl.
        * destruct (Nat.ltb_spec j 0); [lia|]. destruct (Nat.ltb_spec (j - 1) K0).
          -- apply Nat.ltb_lt in H0. now rewrite H0.
          -- destruct (Nat.ltb_spec (S (j - 1)) K0); [lia|]. destruct (Nat.eqb_spec (S (j - 1)) K0); [lia|]. f_equal. lia.
      + rewrite Gi, G1, T3. f_equal. apply bget_ext. intros j _ _. unfold ins. destruct (Nat.ltb_spec (j + 1) 0); [lia|].
        destruct (Nat.eqb_spec (j + 1) 0); [lia|]. f_equal. lia. }
  destruct X as (mx & EM & BM & GM). exists y, mx. split; [exact EY|]. split; [exact EM|]. split; [exact BM|].
  assert (V : forall l k r v, within l QL -> k < K -> within r QR -> within v d ->
      bget mx (at_index (l ++ k :: r ++ v)) = (bget z (at_index ((l ++ r) ++ [k])) * bget m (at_index (l ++ r ++ v)))%R).
  { intros l k r v Hl Hk Hr Hv. pose proof (F2_length _ _ _ _ _ Hr) as Lr. pose proof (F2_length _ _ _ _ _ Hv) as Lv.
    rewrite at_ins, Lr, Lv. fold K0. rewrite GM. f_equal. rewrite at_ins_last. f_equal. f_equal.
    apply functional_extensionality. intros j. rewrite app_assoc, at_index_app, <- Lv. unfold join.
    destruct (Nat.ltb_spec (j + length v) (length v)); [lia|]. f_equal. lia. }
  split; [exact V|].
  rewrite total3, total4. apply lsum_map_ext. intros v Hv. apply lsum_map_ext. intros r Hr. apply in_lists in Hv, Hr.
  rewrite <- lsum_rsum. apply lsum_map_ext. intros l Hl. apply in_lists in Hl. rewrite GY by assumption. rewrite <- rsum_scal.
  apply rsum_ext. intros k Hk. rewrite V by assumption. ring.
Qed.

Lemma gate_term_ok : forall QL K QR d (m x : arr R),
  broadcasts_to (ash m) (QL ++ QR ++ d) -> length d <= ndim m ->
  broadcasts_to (ash x) (QL ++ K :: QR ++ d) -> length d <= ndim x -> (forall j, j < length d -> ax (ash x) j = ax d j) ->
  exists t, gate_term_z (length QR) (length d) m x = Ok t /\ broadcasts_to (ash t) (QL ++ QR ++ [K]) /\
    forall l r k, within l QL -> within r QR -> k < K ->
      bget t (at_index (l ++ r ++ [k])) = lsum (map (fun v => bget m (at_index (l ++ r ++ v)) * bget x (at_index (l ++ k :: r ++ v)))%R (lists d)).
Proof.
  intros QL K QR d m x [M1 M2] NM [X1 X2] NX FX. unfold gate_term_z. set (nd := length d) in *. set (K0 := length QR + nd).
  rewrite !app_length in M1. rewrite app_length in X1. cbn [length] in X1. rewrite app_length in X1.
  fold (ndim m) in M1. fold (ndim x) in X1. fold nd in M1, X1.
  assert (TA : forall j, ax ((QL ++ QR ++ [K]) ++ d) j = if j <? nd then ax d j else if j =? nd then K else ax (QL ++ QR ++ d) (j - 1)).
  { intros j. rewrite !(ax_app _ d), !app_assoc, !(ax_app _ d). fold nd. destruct (Nat.ltb_spec j nd) as [C|C]; [reflexivity|].
    rewrite ax_last. destruct (Nat.eqb_spec j nd), (Nat.eqb_spec (j - nd) 0); try lia; try reflexivity.
    destruct (Nat.ltb_spec (j - 1) nd); [lia|]. f_equal. lia. }
  assert (WD : forall j, j < nd -> ax (QL ++ QR ++ d) j = ax d j).
  { intros j Hj. rewrite app_assoc, ax_app. fold nd. apply Nat.ltb_lt in Hj. now rewrite Hj. }
  assert (C : exists c, moveaxis (expand_at m 0) (neg_axis 0) (neg_axis nd) = Ok c /\ ndim c = S (ndim m) /\
    broadcasts_to (ash c) ((QL ++ QR ++ [K]) ++ d) /\ forall e, bget c e = bget m (skip_axis nd e)).
  { destruct (moveaxis_env _ (expand_at m 0) 0 nd) as (c & E & L & A & G); [rewrite ndim_expand_at; lia|rewrite ndim_expand_at; lia|].
    rewrite ndim_expand_at in L. exists c. split; [exact E|]. split; [exact L|]. split.
    - split; [fold (ndim c); rewrite !app_length; cbn [length]; fold nd; lia|]. intros j. rewrite TA, A, ash_expand_at by lia. unfold dst.
      destruct (Nat.eqb_spec j nd) as [->|J]; [now left|]. destruct (Nat.ltb_spec j nd) as [D|D].
      + destruct (Nat.ltb_spec j 0); [lia|]. cbn [Nat.ltb Nat.leb Nat.eqb]. replace (S j - 1) with j by lia.
        rewrite <- (WD j D). apply M2.
      + destruct (Nat.ltb_spec (j - 1) 0); [lia|]. cbn [Nat.ltb Nat.leb Nat.eqb]. replace (S (j - 1) - 1) with (j - 1) by lia. apply M2.
    - intros e. rewrite G, bget_expand_at by lia. apply bget_ext. intros j _ _. cbn [Nat.ltb Nat.leb]. unfold dst, skip_axis.
      cbn [Nat.eqb]. destruct (Nat.ltb_spec (S j) 0); [lia|]. replace (S j - 1) with j by lia. destruct (j <? nd); reflexivity. }
  assert (X : exists x1, (if ndim x <? length QR + nd + 1 then (if nd <=? ndim x then Ok (expand_at x nd) else Err ValueError)
         else moveaxis x (neg_axis (length QR + nd)) (neg_axis nd)) = Ok x1 /\ nd <= ndim x1 /\
    broadcasts_to (ash x1) ((QL ++ QR ++ [K]) ++ d) /\ (forall j, j < nd -> ax (ash x1) j = ax d j) /\
    forall e, bget x1 e = bget x (ins K0 (e nd) (skip_axis nd e))).
  { assert (XB : forall j, ax (ash x) j = 1 \/ ax (ash x) j = if j <? K0 then ax (QL ++ QR ++ d) j else if j =? K0 then K else ax (QL ++ QR ++ d) (j - 1)).
    { intros j. specialize (X2 j). rewrite ax_ins in X2. exact X2. }
    fold K0. destruct (Nat.ltb_spec (ndim x) (K0 + 1)) as [D|D].
    - destruct (Nat.leb_spec nd (ndim x)); [|lia]. exists (expand_at x nd). split; [reflexivity|]. split; [rewrite ndim_expand_at; lia|].
      split; [|split].
      + split; [fold (ndim (expand_at x nd)); rewrite ndim_expand_at, !app_length; cbn [length]; fold nd; unfold K0 in *; lia|].
        intros j. rewrite TA, ash_expand_at by lia. destruct (Nat.ltb_spec j nd) as [F|F].
        * rewrite (FX j F). now right.
        * destruct (Nat.eqb_spec j nd); [now left|]. specialize (XB (j - 1)). destruct (Nat.ltb_spec (j - 1) K0); [exact XB|].
          left. apply ax_overflow. fold (ndim x). lia.
      + intros j Hj. rewrite ash_expand_at by lia. apply Nat.ltb_lt in Hj as Hj'. rewrite Hj'. now apply FX.
      + intros e. rewrite bget_expand_at by lia. apply bget_ext. intros j Hj _. fold (ndim x) in Hj. unfold ins, skip_axis.
        destruct (Nat.ltb_spec j K0); [reflexivity|lia].
    - destruct (moveaxis_env _ x K0 nd) as (x1 & E & L & A & G); [lia|lia|]. exists x1. split; [exact E|]. split; [lia|]. split; [|split].
      + split; [fold (ndim x1); rewrite L, !app_length; cbn [length]; fold nd; unfold K0 in *; lia|].
        intros j. rewrite TA, A. unfold dst. destruct (Nat.eqb_spec j nd) as [->|J].
        * rewrite Nat.ltb_irrefl. specialize (XB K0). now rewrite Nat.ltb_irrefl, Nat.eqb_refl in XB.
        * destruct (Nat.ltb_spec j nd) as [F|F].
          -- destruct (Nat.ltb_spec j K0); [|unfold K0 in *; lia]. rewrite FX by exact F. now right.
          -- destruct (Nat.ltb_spec (j - 1) K0) as [H|H].
             ++ specialize (XB (j - 1)). apply Nat.ltb_lt in H. now rewrite H in XB.
             ++ specialize (XB (S (j - 1))). destruct (Nat.ltb_spec (S (j - 1)) K0); [lia|]. destruct (Nat.eqb_spec (S (j - 1)) K0); [lia|].
                now replace (S (j - 1) - 1) with (j - 1) in XB by lia.
      + intros j Hj. rewrite A. unfold dst. destruct (Nat.eqb_spec j nd); [lia|]. destruct (Nat.ltb_spec j nd); [|lia].
        destruct (Nat.ltb_spec j K0); [|unfold K0 in *; lia]. now apply FX.
      + intros e. rewrite G. apply bget_ext. intros j _ _. unfold dst, ins, skip_axis. destruct (Nat.eqb_spec j K0) as [->|J].
        * now rewrite Nat.ltb_irrefl.
        * destruct (Nat.ltb_spec j K0).
          -- destruct (j <? nd); reflexivity.
          -- destruct (Nat.ltb_spec (j - 1) nd); [unfold K0 in *; lia|]. reflexivity. }
  destruct C as (c & EC & LC & BC & GC), X as (x1 & EX & LX & BX & FX1 & GX). rewrite EC. cbn [bind]. fold K0 in EX. rewrite EX. cbn [bind].
  destruct (sum_product_trailing c x1 (QL ++ QR ++ [K]) d (AxList (map (fun i => Z.of_nat i - Z.of_nat nd)%Z (seq 0 nd))) BC BX) as (t & Et & Bt & _ & Gt).
  - fold nd. lia.
  - intros k Hk. right. now apply FX1.
  - intros n Hn. now apply named_trailing.
  - exact I.
  - exists t. split; [exact Et|]. split; [exact Bt|]. intros l r k Hl Hr Hk. pose proof (F2_length _ _ _ _ _ Hr) as Lr.
    rewrite Gt. 2:{ apply valid_at_index. apply F2_app; [assumption|]. apply F2_app; [assumption|]. constructor; [exact Hk|constructor]. }
    rewrite total_lists. apply lsum_map_ext. intros v Hv. apply in_lists in Hv. pose proof (F2_length _ _ _ _ _ Hv) as Lv.
    rewrite GC, GX. fold nd. set (e := join nd (at_index (l ++ r ++ [k])) (at_index v)).
    assert (ES : forall j, skip_axis nd e j = at_index (l ++ r ++ v) j).
    { intros j. unfold skip_axis, e, join. rewrite !app_assoc, (at_index_app (l ++ r) v), Lv, at_ins_last. unfold join. fold nd.
      destruct (Nat.ltb_spec j nd); [reflexivity|]. destruct (Nat.ltb_spec (S j) nd); [lia|]. unfold ins.
      destruct (Nat.ltb_spec (S j - nd) 0); [lia|]. destruct (Nat.eqb_spec (S j - nd) 0); [lia|]. f_equal. lia. }
    assert (EK : e nd = k).
    { unfold e, join. rewrite Nat.ltb_irrefl, Nat.sub_diag, app_assoc, at_ins_last. reflexivity. }
    rewrite EK. f_equal.
    + apply bget_ext. intros j _ _. apply ES.
    + rewrite at_ins, Lr, Lv. apply bget_ext. intros j _ _. unfold ins. rewrite !ES. reflexivity.
Qed.

(** One array of moments: variable axes, child's message, moments of X, moments of the gate. *)
Record item := Item { i_dims : list nat; i_msg : arr R; i_x : arr R; i_u : arr R }.
Definition item_ok (QL QR : list nat) (K : nat) (z : arr R) (i : item) : Prop :=
  broadcasts_to (ash (i_msg i)) (QL ++ QR ++ i_dims i) /\ length (i_dims i) <= ndim (i_msg i) /\
  broadcasts_to (ash (i_x i)) (QL ++ K :: QR ++ i_dims i) /\
  (* the variable axes of the moments are there in full *)
  length (i_dims i) <= ndim (i_x i) /\ (forall j, j < length (i_dims i) -> ax (ash (i_x i)) j = ax (i_dims i) j) /\
  gate_moments (length QR) (length (i_dims i)) z (i_x i) = Ok (i_u i).

(** Message to Z: component k gets <message, moments of component k>; it is the linear
    coefficient of the probabilities in <message, moments>. *)
Theorem C18_gate_message_z : forall QL K QR (z : arr R) l,
  broadcasts_to (ash z) ((QL ++ QR) ++ [K]) -> 1 <= ndim z -> ax (ash z) 0 = K ->
  Forall (item_ok QL QR K z) l ->
  exists mz, gate_message_z (length QR) K (map (fun i => (length (i_dims i), i_msg i, i_x i)) l) = Ok mz /\
    broadcasts_to (ash mz) (QL ++ QR ++ [K]) /\ ax (ash mz) 0 = K /\
    (forall a b k, within a QL -> within b QR -> k < K ->
       bget mz (at_index (a ++ b ++ [k])) =
       lsum (map (fun i => lsum (map (fun v => bget (i_msg i) (at_index (a ++ b ++ v)) * bget (i_x i) (at_index (a ++ k :: b ++ v)))%R
                                     (lists (i_dims i)))) l)) /\
    lsum (map (fun i => total (QL ++ QR ++ i_dims i) (fun e => bget (i_msg i) e * bget (i_u i) e)%R) l) =
    total (QL ++ QR ++ [K]) (fun e => bget mz e * bget z e)%R.
Proof.
  intros QL K QR z l ZB NZ KZ HI.
  set (val := fun (a b : list nat) k i => lsum (map (fun v => bget (i_msg i) (at_index (a ++ b ++ v)) * bget (i_x i) (at_index (a ++ k :: b ++ v)))%R (lists (i_dims i)))).
  assert (FO : forall l m0, Forall (item_ok QL QR K z) l -> broadcasts_to (ash m0) (QL ++ QR ++ [K]) ->
    exists mz, foldM (fun m0 (t : nat * arr R * arr R) => let '(nd, m, x) := t in
                 s <- gate_term_z (length QR) nd m x ;; np_map2 Rplus m0 s) m0 (map (fun i => (length (i_dims i), i_msg i, i_x i)) l) = Ok mz /\
      broadcasts_to (ash mz) (QL ++ QR ++ [K]) /\
      forall a b k, within a QL -> within b QR -> k < K ->
        bget mz (at_index (a ++ b ++ [k])) = (bget m0 (at_index (a ++ b ++ [k])) + lsum (map (val a b k) l))%R).
  { clear l HI. induction l as [|i l IH]; intros m0 HI HB.
    - exists m0. split; [reflexivity|]. split; [exact HB|]. intros. cbn. lra.
    - inversion HI as [|? ? (I1 & I2 & I3 & I4 & I5 & _) HI']; subst. cbn [map foldM].
      destruct (gate_term_ok QL _ QR (i_dims i) (i_msg i) (i_x i) I1 I2 I3 I4 I5) as (t & Et & Bt & Gt). rewrite Et. cbn [bind].
      destruct (map2_upper _ _ _ Rplus m0 t _ HB Bt) as (s & Es & _ & Bs & Gs). rewrite Es. cbn [bind].
      destruct (IH s HI' Bs) as (mz & Em & Bm & Gm). exists mz. split; [exact Em|]. split; [exact Bm|].
      intros a b k Ha Hb Hk. rewrite Gm by assumption. rewrite Gs, Gt by assumption. change (lsum (map (val a b k) (i :: l))) with (val a b k i + lsum (map (val a b k) l))%R.
      unfold val. change (lsum (?p :: ?q)) with (p + lsum q)%R. lra. }
  destruct (FO l (scalar 0%R) HI) as (m1 & E1 & B1 & G1).
  { split; [cbn; lia|]. intros k. left. apply ax_nil. }
  unfold gate_message_z. rewrite E1. cbn [bind].
  assert (OB : broadcasts_to (ash (Arr [K] (fun _ => 1%R))) (QL ++ QR ++ [K])).
  { cbn [ash]. split; [rewrite !app_length; cbn; lia|]. intros j. rewrite app_assoc, ax_last. destruct j as [|j]; [now right|]. left. apply ax_overflow. cbn. lia. }
  destruct (map2_upper _ _ _ Rmult m1 (Arr [K] (fun _ => 1%R)) _ B1 OB) as (mz & Ez & Nz & Bz & Gz).
  exists mz. split; [exact Ez|]. split; [exact Bz|].
  assert (AZ : ax (ash mz) 0 = K).
  { destruct Nz as (_ & _ & N3). destruct (N3 0) as [N3a N3b]. specialize (N3a [K] ltac:(right; now left)). cbn in N3a.
    destruct Bz as [_ Bz]. specialize (Bz 0). rewrite app_assoc, ax_last in Bz. cbn [Nat.eqb] in Bz. destruct N3a as [N|N]; [|congruence]. destruct Bz; congruence. }
  split; [exact AZ|].
  assert (V : forall a b k, within a QL -> within b QR -> k < K -> bget mz (at_index (a ++ b ++ [k])) = lsum (map (val a b k) l)).
  { intros a b k Ha Hb Hk. rewrite Gz, G1 by assumption. change (bget (scalar 0%R) ?e) with 0%R.
    change (bget (Arr [K] (fun _ => 1%R)) ?e) with 1%R. lra. }
  split; [exact V|].
  rewrite total3, lsum_one.
  transitivity (lsum (map (fun i => rsum K (fun k => lsum (map (fun r => lsum (map (fun a => val a r k i * bget z (at_index (a ++ r ++ [k])))%R (lists QL))) (lists QR)))) l)).
  - apply lsum_map_ext. intros i Hi. rewrite Forall_forall in HI. destruct (HI i Hi) as (I1 & I2 & I3 & I4 & I5 & EU).
    destruct (gate_moments_ok QL K QR (i_dims i) z (i_x i) ZB NZ KZ I3) as (y & EY & YB & GY). rewrite EU in EY. injection EY as <-.
    rewrite total3. rewrite (lsum_swap _ _ (fun v r => lsum (map (fun a => bget (i_msg i) (at_index (a ++ r ++ v)) * bget (i_u i) (at_index (a ++ r ++ v)))%R (lists QL)))).
    rewrite <- lsum_rsum. apply lsum_map_ext. intros r Hr. apply in_lists in Hr.
    rewrite (lsum_swap _ _ (fun v a => bget (i_msg i) (at_index (a ++ r ++ v)) * bget (i_u i) (at_index (a ++ r ++ v)))%R).
    rewrite <- lsum_rsum. apply lsum_map_ext. intros a Ha. apply in_lists in Ha.
    transitivity (lsum (map (fun v => rsum K (fun k => bget (i_msg i) (at_index (a ++ r ++ v)) * bget (i_x i) (at_index (a ++ k :: r ++ v)) * bget z (at_index (a ++ r ++ [k])))%R) (lists (i_dims i)))).
    + apply lsum_map_ext. intros v Hv. apply in_lists in Hv. rewrite GY by assumption. rewrite <- rsum_scal. apply rsum_ext. intros k _. rewrite <- app_assoc. ring.
    + rewrite lsum_rsum. apply rsum_ext. intros k _. unfold val. rewrite Rmult_comm, lsum_scal. apply lsum_map_ext. intros v _. ring.
  - rewrite lsum_rsum. apply rsum_ext. intros k Hk.
    rewrite (lsum_swap _ _ (fun i r => lsum (map (fun a => val a r k i * bget z (at_index (a ++ r ++ [k])))%R (lists QL)))).
    apply lsum_map_ext. intros r Hr. apply in_lists in Hr.
    rewrite (lsum_swap _ _ (fun i a => val a r k i * bget z (at_index (a ++ r ++ [k])))%R).
    apply lsum_map_ext. intros a Ha. apply in_lists in Ha. rewrite V by assumption. rewrite Rmult_comm, lsum_scal. apply lsum_map_ext. intros i _. ring.
Qed.

(** Masks and plates: every component of a used plate is used; the gated axis is inserted
    and removed at the same place. *)
Theorem C18_gate_mask : forall QL K QR (w : arr bool), broadcasts_to (ash w) (QL ++ QR) ->
  gate_weights 0 (length QR) w = Ok w /\
  exists y, gate_weights 1 (length QR) w = Ok y /\ broadcasts_to (ash y) (QL ++ K :: QR) /\
    forall l k r, within l QL -> k < K -> within r QR -> bget y (at_index (l ++ k :: r)) = bget w (at_index (l ++ r)).
Proof.
  intros QL K QR w [W1 W2]. split; [reflexivity|]. cbn [gate_weights]. eexists. split; [reflexivity|].
  fold (ndim w) in W1. rewrite app_length in W1.
  assert (AX : forall j, ax (QL ++ K :: QR) j = if j <? length QR then ax (QL ++ QR) j else if j =? length QR then K else ax (QL ++ QR) (j - 1)).
  { intros j. pose proof (ax_ins QL K QR [] j) as H. rewrite !app_nil_r, Nat.add_0_r in H. exact H. }
  assert (IN : forall l k r, length r = length QR -> at_index (l ++ k :: r) = ins (length QR) k (at_index (l ++ r))).
  { intros l k r H. pose proof (at_ins l k r []) as A. rewrite !app_nil_r, Nat.add_0_r, H in A. exact A. }
  destruct (Nat.leb_spec (length QR + 1) (ndim w)) as [C|C].
  - split.
    + split; [fold (ndim (expand_at w (length QR))); rewrite ndim_expand_at, app_length; cbn [length]; lia|].
      intros j. rewrite AX, ash_expand_at by lia. destruct (j <? length QR); [apply W2|]. destruct (j =? length QR); [now left|apply W2].
    + intros l k r Hl Hk Hr. rewrite bget_expand_at by lia. rewrite IN by (eapply F2_length; eassumption). apply bget_ext. intros j _ _. unfold ins.
      destruct (Nat.ltb_spec j (length QR)) as [D|D]; [reflexivity|].
      destruct (Nat.ltb_spec (S j) (length QR)); [lia|]. destruct (Nat.eqb_spec (S j) (length QR)); [lia|]. f_equal. lia.
  - split.
    + split; [fold (ndim w); rewrite app_length; cbn [length]; lia|]. intros j. rewrite AX. destruct (Nat.ltb_spec j (length QR)); [apply W2|].
      left. apply ax_overflow. fold (ndim w). lia.
    + intros l k r Hl Hk Hr. rewrite IN by (eapply F2_length; eassumption). apply bget_ext. intros j Hj _. fold (ndim w) in Hj. unfold ins.
      destruct (Nat.ltb_spec j (length QR)); [reflexivity|lia].
Qed.

Theorem C18_gate_plates : forall QL K QR,
  gate_init (length QR) (QL ++ K :: QR) [K] = Ok K /\
  gate_plates_to 0 (length QR) K (QL ++ QR) = Ok (QL ++ QR) /\ gate_plates_to 1 (length QR) K (QL ++ QR) = Ok (QL ++ K :: QR) /\
  gate_plates_from 0 (length QR) (QL ++ QR) = Ok (QL ++ QR) /\ gate_plates_from 1 (length QR) (QL ++ K :: QR) = Ok (QL ++ QR).
Proof.
  intros QL K QR. split; [|split; [reflexivity|split; [|split; [reflexivity|]]]].
  - unfold gate_init. rewrite app_length. cbn [length]. destruct (Nat.ltb_spec (length QL + S (length QR)) (length QR + 1)); [lia|].
    rewrite ax_app. cbn [length]. destruct (Nat.ltb_spec (length QR) (S (length QR))); [|lia].
    rewrite ax_cons, Nat.eqb_refl. destruct (list_eq_dec Nat.eq_dec [K] [K]); [reflexivity|contradiction].
  - cbn [gate_plates_to]. unfold py_insert. rewrite app_length. replace (length QL + length QR - length QR) with (length QL + 0) by lia.
    rewrite firstn_app_2, Nat.add_0_r, skipn_app, skipn_all, Nat.sub_diag. cbn [firstn skipn]. now rewrite app_nil_r.
  - cbn [gate_plates_from]. unfold py_pop. rewrite app_length. cbn [length].
    destruct (Nat.leb_spec (length QR + 1) (length QL + S (length QR))); [|lia].
    destruct (Nat.ltb_spec (length QR) (length QL + S (length QR))); [|lia]. f_equal. f_equal.
    + replace (length QL + S (length QR) - 1 - length QR) with (length QL + 0) by lia. rewrite firstn_app_2. cbn [firstn]. apply app_nil_r.
    + replace (length QL + S (length QR) - length QR) with (length QL + 1) by lia. rewrite skipn_app, skipn_all2 by lia.
      replace (length QL + 1 - length QL) with 1 by lia. reflexivity.
Qed.

(** Gate over the second-last plate of X with plates (5, 3, 2), Gaussian-like dims. *)
Example C18_case :
  let z := Arr [1; 2; 3] (fun e => if e 0 =? 1 then 1%R else 0%R) in
  let x := Arr [5; 3; 2; 4] (fun e => INR (e 0 + e 2)) in
  let m := Arr [1; 1; 4] (fun e => INR (e 0)) in
  broadcasts_to (ash z) (([5] ++ [2]) ++ [3]) /\ 1 <= ndim z /\ ax (ash z) 0 = 3 /\
  broadcasts_to (ash x) ([5] ++ 3 :: [2] ++ [4]) /\ broadcasts_to (ash m) ([5] ++ [2] ++ [4]) /\
  exists u, item_ok [5] [2] 3 z (Item [4] m x u).
Proof.
  cbv zeta. set (z := Arr [1; 2; 3] _). set (x := Arr [5; 3; 2; 4] _). set (m := Arr [1; 1; 4] _).
  assert (ZB : broadcasts_to (ash z) (([5] ++ [2]) ++ [3])) by (apply is_shape_subset_spec; reflexivity).
  assert (XB : broadcasts_to (ash x) ([5] ++ 3 :: [2] ++ [4])) by (apply is_shape_subset_spec; reflexivity).
  assert (MB : broadcasts_to (ash m) ([5] ++ [2] ++ [4])) by (apply is_shape_subset_spec; reflexivity).
  repeat (split; [first [assumption | cbn; lia]|]).
  destruct (C18_gate_moments [5] 3 [2] [4] z x ZB) as (y & E & _); [cbn; lia|reflexivity|exact XB|].
  exists y. unfold item_ok. cbn [i_dims i_msg i_x i_u]. split; [exact MB|]. split; [cbn; lia|]. split; [exact XB|]. split; [cbn; lia|].
  split; [|exact E]. intros j Hj. cbn in Hj. replace j with 0 by lia. reflexivity.
Qed.

Print Assumptions C18_gate_moments.
Print Assumptions C18_gate_message_x.
Print Assumptions C18_gate_message_z.
Print Assumptions C18_gate_mask.
Print Assumptions C18_gate_plates.
