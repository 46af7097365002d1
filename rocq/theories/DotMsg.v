(** SumMultiply: the first two messages and the moments they belong to. *)
From Coq Require Import List Arith ZArith Lia Bool Reals Lra Permutation FunctionalExtensionality.
From Verif Require Import Base Shapes SpecShapes ShapesLemmas NumPy MiscArray SpecArray TensorLemmas
  EinsumLemmas EinsumGen PlateSumLemmas PlateSum2Lemmas ShapeOpsLemmas MessageLemmas SumMultiplyLemmas NetworkLemmas GateLemmas PGate ExpFamBound UpdateLemmas Dot SpecDot
  DotEinsum DotSum DotMessage DotAdjoint DotNode DotPart DotExpect DotInit DotFinal DotMoments ComputeMessage DotScale.
Import ListNotations.
Open Scope nat_scope.

Notation deltas ns := (map (fun p : shape * pkind => is_delta (snd p)) ns).

Lemma zip_fits : forall P D sz ns kss us, Forall2 (fun ks (nd : shape * pkind) => keys_fit D sz ks (fst nd)) kss ns ->
  Forall2 (fun (nd : shape * pkind) u => mom_ok P (fst nd) (is_delta (snd nd)) u) ns us ->
  Forall2 (par_fits P D sz) (zip3 kss us (deltas ns)) (map fst ns) /\
  map (fun z : par => fst (fst z)) (zip3 kss us (deltas ns)) = kss.
Proof.
  intros P D sz ns kss us H. revert us. induction H as [|ks nd kss ns H1 H2 IH]; intros us Hu; inversion Hu as [|? u ? us' Hu1 Hu2]; subst; [split; [constructor|reflexivity]|].
  destruct (IH _ Hu2) as [I1 I2]. cbn [zip3]. unfold zip3 in *. cbn [combine map fst snd]. split.
  - constructor; [split; assumption|assumption].
  - now rewrite I2.
Qed.

Lemma zip3_app : forall A B C (a a' : list A) (b b' : list B) (c c' : list C), length a = length b -> length b = length c ->
  zip3 (a ++ a') (b ++ b') (c ++ c') = zip3 a b c ++ zip3 a' b' c'.
Proof. intros. unfold zip3. rewrite !combine_app; [reflexivity|rewrite combine_length; lia|assumption]. Qed.

Lemma Forall2_nth_intro : forall A B (R : A -> B -> Prop) l l', length l = length l' ->
  (forall n a b, nth_error l n = Some a -> nth_error l' n = Some b -> R a b) -> Forall2 R l l'.
Proof.
  intros A B R l. induction l as [|x l IH]; intros [|y l'] HL H; try discriminate; [constructor|]. constructor; [now apply (H 0)|].
  apply IH; [now injection HL|]. intros n a b Ha Hb. exact (H (S n) a b Ha Hb).
Qed.

Lemma zip3_length : forall A B C (a : list A) (b : list B) (c : list C), length a = length b -> length b = length c -> length (zip3 a b c) = length a.
Proof. intros. unfold zip3. rewrite !combine_length. lia. Qed.

Section Msg.
Variables (P : shape) (full : list nat) (ns1 ns2 : list (shape * pkind)) (dims : shape) (kind : pkind).
Variables (keysets : list (list nat)) (keys_out : list nat) (size : nat -> nat) (us1 us2 : list pmom) (gamma : bool).
Notation nodes := (ns1 ++ (dims, kind) :: ns2).
Hypothesis full_ok : enumerates full keysets.
Hypothesis args_ok : valid_arguments (map fst nodes) keysets keys_out.
Hypothesis size_is : forall k, In k (concat keysets) -> key_length (map fst nodes) keysets k (size k).
Hypothesis kind_ok : is_delta kind = false.
Hypothesis us1_ok : Forall2 (fun (nd : shape * pkind) u => mom_ok P (fst nd) (is_delta (snd nd)) u) ns1 us1.
Hypothesis us2_ok : Forall2 (fun (nd : shape * pkind) u => mom_ok P (fst nd) (is_delta (snd nd)) u) ns2 us2.
Notation D := (length full).
Notation sz := (sz full size).
Notation out := (out full keys_out).
Notation kss := (map (map (pos full)) keysets).
Notation shp := (map size keys_out).
Notation g := (SM kss out D (deltas nodes) gamma shp).

Lemma part_and_moment : forall (second : bool) pp m mask, broadcasts_to pp P ->
  variable_of P (if second then shp ++ shp else shp) m -> broadcasts_to mask P ->
  (forall j, ax mask j <> 1 -> ax (ash m) (length (if second then shp ++ shp else shp) + j) <> 1) ->
  exists msg, variable_of pp (if second then dims ++ dims else dims) msg /\
    forall u, mom_ok pp dims false u ->
      sm_message_part g second (length ns1) (us1 ++ u :: us2) m mask dims pp P = Ok msg /\
      exists y, (if second then sm_second g (us1 ++ u :: us2) else sm_mean g (us1 ++ u :: us2)) = Ok y /\
        variable_of P (if second then shp ++ shp else shp) y /\
        total (P ++ (if second then shp ++ shp else shp)) (fun e => bget m e * bget y e)%R =
        total (pp ++ (if second then dims ++ dims else dims)) (fun e => bget msg e * bget (if second then xx_of u else mom0 u) e)%R.
Proof.
  intros second pp m mask Hpp Hm Hmask Hseen.
  assert (Lk : length keysets = length nodes) by (destruct args_ok as (_ & F & _); apply F2_length in F; rewrite map_length in F; lia).
  assert (KF : Forall2 (fun ks (nd : shape * pkind) => keys_fit D sz ks (fst nd)) kss nodes).
  { apply Forall2_nth_intro; [now rewrite map_length|]. intros n ks nd H1 H2. rewrite nth_error_map in H1.
    destruct (nth_error keysets n) as [k|] eqn:E; [|discriminate]. cbn in H1. injection H1 as <-.
    eapply keys_fit_pos; try eassumption. rewrite nth_error_map, H2. reflexivity. }
  pose proof (out_is_nodup full (map fst nodes) keysets keys_out full_ok args_ok) as On.
  pose proof (out_is_lt full (map fst nodes) keysets keys_out full_ok args_ok) as Ol.
  pose proof (shape_pos full (map fst nodes) keysets keys_out size full_ok args_ok second) as Sp.
  pose proof KF as KF'. apply Forall2_app_inv_r in KF' as (k1 & k2' & K1 & K2 & Ek).
  inversion K2 as [|ki nd0 k2 nds0 Kd K2r]; subst k2'. cbn [fst] in Kd.
  pose proof (F2_length _ _ _ _ _ K1) as L1. pose proof (F2_length _ _ _ _ _ us1_ok) as L1u.
  pose proof (F2_length _ _ _ _ _ K2r) as L2. pose proof (F2_length _ _ _ _ _ us2_ok) as L2u.
  destruct (zip_fits P D sz ns1 k1 us1 K1 us1_ok) as [Z1 M1].
  destruct (zip_fits P D sz ns2 k2 us2 K2r us2_ok) as [Z2 M2].
  set (z1 := zip3 k1 us1 (deltas ns1)) in *. set (z2 := zip3 k2 us2 (deltas ns2)) in *.
  assert (Lz1 : length z1 = length ns1) by (unfold z1; rewrite zip3_length; rewrite ?map_length; lia).
  assert (EZ : forall u, zip3 kss (us1 ++ u :: us2) (deltas nodes) = z1 ++ (ki, u, false) :: z2).
  { intros u. rewrite Ek, map_app. cbn [map snd]. rewrite zip3_app; [|lia|rewrite map_length; lia]. rewrite kind_ok. reflexivity. }
  assert (EO : forall u, others (length ns1) (zip3 (sm_in g) (us1 ++ u :: us2) (sm_const g)) = z1 ++ z2).
  { intros u. cbn [sm_in sm_const]. rewrite EZ, <- Lz1. apply others_app. }
  assert (MZ : forall u, map (fun z : par => fst (fst z)) (z1 ++ (ki, u, false) :: z2) = kss).
  { intros u. rewrite map_app. cbn [map fst]. rewrite M1, M2. symmetry. exact Ek. }
  assert (sized : forall k, k < D -> sz k = 1 \/ attained sz (z1 ++ z2) (map fst ns1 ++ map fst ns2) k \/
    exists i, i < length ki /\ nth i (rev ki) 0 = k /\ ax dims i = sz k).
  { intros k Hk. destruct (attained_pos full _ keysets keys_out size full_ok args_ok size_is _ (MZ (MDelta (scalar 0%R))) k Hk) as [H|(z & d & i & J1 & J2)]; [now left|right].
    rewrite map_app in J1. cbn [map fst] in J1. rewrite combine_app in J1 by (rewrite map_length; lia). apply in_app_or in J1 as [J1|[J1|J1]].
    - left. exists z, d, i. split; [|exact J2]. rewrite combine_app by (rewrite map_length; lia). apply in_or_app. now left.
    - injection J1 as <- <-. right. exists i. exact J2.
    - left. exists z, d, i. split; [|exact J2]. rewrite combine_app by (rewrite map_length; lia). apply in_or_app. now right. }
  assert (L2t : length (two D second out) = length (if second then shp ++ shp else shp)) by (rewrite <- Sp, map_length; reflexivity).
  rewrite <- Sp in Hm. rewrite <- L2t in Hseen.
  destruct (part_value P D sz (z1 ++ z2) (map fst ns1 ++ map fst ns2) out second ki dims pp m mask (Forall2_app Z1 Z2) Kd sized On Ol Hpp Hm Hmask Hseen
    g (length ns1) (us1 ++ MDelta (scalar 0%R) :: us2) ki) as (msg & Emsg & Vmsg & Hmsg); try reflexivity.
  { cbn [sm_in]. rewrite Ek, nth_error_app2 by lia. rewrite L1, Nat.sub_diag. reflexivity. }
  { apply EO. }
  exists msg. split; [exact Vmsg|]. intros u Hu. split.
  { unfold sm_message_part in Emsg |- *. rewrite EO in Emsg |- *. exact Emsg. }
  assert (HuP : mom_ok P dims false u).
  { unfold mom_ok in *. destruct u; intuition; (eapply variable_weaken; [exact Hpp|assumption]). }
  assert (FZ : Forall2 (par_fits P D sz) (z1 ++ (ki, u, false) :: z2) (map fst nodes)).
  { rewrite map_app. cbn [map fst]. apply Forall2_app; [assumption|]. constructor; [split; assumption|assumption]. }
  assert (NE : z1 ++ (ki, u, false) :: z2 <> []) by (destruct z1; discriminate).
  destruct (moment_value P D sz (z1 ++ (ki, u, false) :: z2) (map fst nodes) out FZ NE (used_pos full keysets full_ok _ (MZ u))
    (attained_pos full _ keysets keys_out size full_ok args_ok size_is _ (MZ u)) On Ol second) as (y & Ey & Vy & Hy).
  exists y. rewrite <- Sp. split; [|split; [exact Vy|]].
  - destruct second.
    + destruct (second_ops P D sz _ _ FZ) as (counts & ops & E1 & E2 & E3 & E4).
      unfold sm_second. cbn [sm_nkeys sm_in sm_out sm_const]. rewrite EZ, E1. cbn [bind]. rewrite E2. cbn [bind]. rewrite E3, E4. exact Ey.
    + unfold sm_mean. cbn [sm_nkeys sm_in sm_out]. destruct (mean_ops D kss (us1 ++ u :: us2) (deltas nodes)) as [A1 A2].
      * rewrite map_length, Lk, !app_length. cbn [length]. lia.
      * rewrite map_length, !app_length. cbn [length]. lia.
      * rewrite A1, A2. unfold pars. rewrite EZ. exact Ey.
  - apply (Hmsg _ y (all_ops D (z1 ++ (ki, u, false) :: z2) second)).
    + unfold mom_ok in Hu. destruct second, u; cbn; intuition; discriminate.
    + unfold all_ops. rewrite !flat_map_app. cbn [flat_map]. rewrite <- app_assoc. apply Permutation_app_head.
      replace (mops D second (ki, u, false)) with [(if second then xx_of u else mom0 u, two D second ki)] by (destruct second; reflexivity).
      apply Permutation_app_comm.
    + exact Hy.
Qed.
End Msg.
