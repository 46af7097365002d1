(** Lemmas for networks: sums over plates, messages as inner products. *)
From Coq Require Import List Arith ZArith Lia Bool Reals Lra FunctionalExtensionality.
From Verif Require Import Base Shapes SpecShapes ShapesLemmas NumPy MiscArray TensorLemmas
  EinsumLemmas SumMultiplyLemmas SpecArray PlateSumLemmas PlateSum2Lemmas MessageLemmas
  ShapeOpsLemmas DiagLemmas ExpFam SpecExpFam ExpFamLemmas ExpFamBound ExpFamGrad PExpFam SpecUpdate
  UpdateLemmas FamilyDist SpecFamilyDist PUpdate PArrays PFamilyDist Network SpecNetwork.
Import ListNotations.
Open Scope nat_scope.

(** ** Sums over plates and variable axes *)
Lemma lsum_flat_map : forall A B (f : A -> list B) (g : B -> R) l,
  lsum (map g (flat_map f l)) = lsum (map (fun a => lsum (map g (f a))) l).
Proof.
  intros A B f g l. induction l as [|a l IH]; [reflexivity|]. cbn [flat_map map].
  rewrite map_app. unfold lsum in *. cbn [fold_right]. rewrite <- IH.
  generalize (map g (f a)). intros m. induction m as [|x m IHm]; cbn; [lra|]. rewrite IHm. lra.
Qed.
Lemma lsum_map_add : forall A (f g : A -> R) l,
  lsum (map (fun a => f a + g a)%R l) = (lsum (map f l) + lsum (map g l))%R.
Proof. intros. induction l as [|a l IH]; unfold lsum in *; cbn; [lra|]. rewrite IH. lra. Qed.
Lemma lsum_map_zero : forall A (f : A -> R) l, (forall a, In a l -> f a = 0%R) -> lsum (map f l) = 0%R.
Proof.
  intros A f l H. induction l as [|a l IH]; unfold lsum in *; cbn; [lra|].
  rewrite H by (now left). rewrite IH; [lra|]. intros; apply H; now right.
Qed.
Lemma lsum_swap : forall A B (f : A -> B -> R) l m,
  lsum (map (fun a => lsum (map (f a) m)) l) = lsum (map (fun b => lsum (map (fun a => f a b) l)) m).
Proof.
  intros A B f l m. induction l as [|a l IH].
  - cbn. symmetry. now apply lsum_map_zero.
  - transitivity (lsum (map (fun b => (f a b + lsum (map (fun a => f a b) l))%R) m)); [|reflexivity].
    rewrite lsum_map_add, <- IH. reflexivity.
Qed.

Lemma all_idx_ext : forall s s' n, (forall k, k < n -> ax s k = ax s' k) -> all_idx s n = all_idx s' n.
Proof.
  intros s s'. induction n as [|n IH]; intros H; [reflexivity|]. cbn [all_idx].
  rewrite IH by (intros; apply H; lia). now rewrite (H n) by lia.
Qed.

Lemma total_app_aux : forall plates d m F,
  lsum (map F (all_idx (plates ++ d) (length d + m))) =
  lsum (map (fun p => lsum (map (fun v => F (join (length d) p v)) (all_idx d (length d)))) (all_idx plates m)).
Proof.
  intros plates d. set (nd := length d). induction m as [|m IH]; intros F.
  - rewrite Nat.add_0_r. cbn [all_idx map]. unfold lsum at 2. cbn [fold_right]. rewrite Rplus_0_r.
    rewrite (all_idx_ext (plates ++ d) d nd).
    + f_equal. apply map_ext_in. intros v Hv. f_equal. apply functional_extensionality. intros k. unfold join.
      destruct (Nat.ltb_spec k nd); [reflexivity|].
      pose proof (all_indices_valid d v Hv k) as X. rewrite ax_overflow in X by (unfold nd in *; lia). cbn. unfold env0. lia.
    + intros k Hk. rewrite ax_app. fold nd. now rewrite (proj2 (Nat.ltb_lt _ _) Hk).
  - rewrite Nat.add_succ_r. cbn [all_idx]. rewrite !lsum_flat_map.
    rewrite (IH (fun e => lsum (map F (map (fun x => upd e (nd + m) x) (seq 0 (ax (plates ++ d) (nd + m))))))).
    f_equal. apply map_ext_in. intros p _. rewrite map_map.
    transitivity (lsum (map (fun v => lsum (map (fun x => F (join nd (upd p m x) v)) (seq 0 (ax plates m)))) (all_idx d nd))).
    + f_equal. apply map_ext_in. intros v _. rewrite map_map. rewrite ax_app. fold nd.
      replace (nd + m <? nd) with false by (symmetry; apply Nat.ltb_ge; lia).
      replace (nd + m - nd) with m by lia. f_equal. apply map_ext. intros x. f_equal.
      apply functional_extensionality. intros k. unfold join, upd.
      destruct (Nat.eqb_spec k (nd + m)), (Nat.ltb_spec k nd), (Nat.eqb_spec (k - nd) m); try reflexivity; lia.
    + rewrite lsum_swap. reflexivity.
Qed.
Lemma total_app : forall plates d F,
  total (plates ++ d) F = total plates (fun p => total d (fun v => F (join (length d) p v))).
Proof.
  intros plates d F. unfold total, all_indices. rewrite app_length, Nat.add_comm. apply total_app_aux.
Qed.

Lemma total_zero : forall s F, (forall e, valid s e -> F e = 0%R) -> total s F = 0%R.
Proof. intros s F H. apply lsum_map_zero. intros e He. apply H. now apply all_indices_valid. Qed.
Lemma total_add : forall s F G, total s (fun e => F e + G e)%R = (total s F + total s G)%R.
Proof. intros. apply lsum_map_add. Qed.

Lemma total_one : forall s, total s (fun _ => 1%R) = lprod (map INR s).
Proof.
  induction s as [|x s IH]; [unfold total; cbn; lra|]. change (x :: s) with ([x] ++ s).
  rewrite total_app, IH, total_1d, map_app. unfold lprod at 2. cbn [map fold_right app].
  change (fold_right Rmult 1%R (map INR s)) with (lprod (map INR s)).
  generalize (lprod (map INR s)). intros c. induction x as [|x IHx]; [cbn; ring|]. rewrite S_INR. cbn [rsum].
  rewrite IHx. ring.
Qed.

(** The plate multiplier: the copies of the node per copy of its parent. *)
Lemma multiplier_ratio : forall ms mp r, broadcasting_multiplier ms [mp] = Ok r ->
  lprod (map INR ms) = (INR r * lprod (map INR mp))%R.
Proof.
  intros ms mp r H. rewrite <- !total_one.
  pose proof (C05_multiplier_scales_sum ms [mp] r (Arr mp (fun _ => 1%R)) H) as X. cbn [ash] in X.
  apply X. split; [intros a [<-|[]]; lia|]. split; [right; exists mp; split; [now left|reflexivity]|].
  intros k. split; [intros a [<-|[]]; now right|]. right. exists mp. split; [now left|reflexivity].
Qed.

Lemma broadcast_self : forall d, broadcasted_shape [d; d] = Ok d.
Proof.
  intros d. apply broadcasted_shape_ok. split; [intros a [<-|[<-|[]]]; lia|].
  split; [right; exists d; split; [now left|reflexivity]|].
  intros k. split; [intros a [<-|[<-|[]]]; now right|]. right. exists d. split; [now left|reflexivity].
Qed.

(** One message array as a linear functional of the moment of the parent. *)
Lemma message_adjoint : forall (m : arr R) (mask maskp : arr bool) ps ms mp pp d,
  ash m = ps ++ d -> broadcasts_to pp ps -> broadcasts_to mp ms -> broadcasts_to (ash mask) ps ->
  broadcasts_to (ash maskp) pp ->
  (forall i, valid ps i -> bget mask i = true -> bget maskp i = true) ->
  exists y, message_to_parent m mask ps ms mp pp d = Ok y /\ broadcasts_to (ash y) (pp ++ d) /\
    forall u, broadcasts_to (ash u) (pp ++ d) ->
    (lprod (map INR mp) * total pp (fun t => if bget maskp t then
        total d (fun v => bget y (join (length d) t v) * bget u (join (length d) t v)) else 0)
     = lprod (map INR ms) * total ps (fun p => if bget mask p then
        total d (fun v => bget m (join (length d) p v) * bget u (join (length d) p v)) else 0))%R.
Proof.
  intros m mask maskp ps ms mp pp d Em Hp Hm Hk Hkp HI.
  assert (Esk : skipn (ndim m - length d) (ash m) = d).
  { unfold ndim. rewrite Em, app_length. replace (length ps + length d - length d) with (length ps) by lia.
    rewrite skipn_app, Nat.sub_diag, skipn_all2 by lia. reflexivity. }
  destruct (message_to_parent_ok m mask ps ms mp pp d d Hp Hm) as (y & r & E1 & E2 & By & Gy).
  { rewrite Esk. apply broadcast_self. }
  { rewrite Em. apply broadcasts_to_refl. }
  { exact Hk. }
  exists y. split; [exact E1|]. split; [exact By|]. intros u Hu.
  assert (Bpd : broadcasts_to (pp ++ d) (ps ++ d)).
  { destruct Hp as [P1 P2]. split; [rewrite !app_length; lia|]. intros k. rewrite !ax_app.
    destruct (k <? length d); [now right|apply P2]. }
  rewrite (multiplier_ratio _ _ _ E2).
  transitivity (lprod (map INR mp) * total (pp ++ d) (fun e => bget y e * bget u e))%R.
  { f_equal. rewrite total_app. apply total_ext. intros t Ht. destruct (bget maskp t) eqn:Mt; [reflexivity|].
    symmetry. apply total_zero. intros v Hv. rewrite Gy by now apply join_valid.
    replace (fibre_sum _ _ _ _) with 0%R; [ring|]. symmetry. apply lsum_map_zero. intros i Hi.
    apply filter_In in Hi as [Hi1 Hi2]. apply all_indices_valid in Hi1.
    destruct (bget mask (fun k => i (k + length d))) eqn:Mi; [|reflexivity]. exfalso.
    assert (Vi : valid ps (fun k => i (k + length d))).
    { intros k. specialize (Hi1 (k + length d)). rewrite ax_app in Hi1.
      replace (k + length d <? length d) with false in Hi1 by (symmetry; apply Nat.ltb_ge; lia).
      now replace (k + length d - length d) with k in Hi1 by lia. }
    specialize (HI _ Vi Mi). enough (bget maskp t = true) by congruence. rewrite <- HI.
    apply bget_ext. intros k Hk1 Hk2. unfold maps_to in Hi2. rewrite forallb_forall in Hi2.
    assert (Kp : ax pp k <> 1) by (destruct Hkp as [_ X]; destruct (X k); congruence).
    assert (Kl : k < length pp) by (destruct (Nat.lt_ge_cases k (length pp)); [assumption|rewrite ax_overflow in Kp by assumption; lia]).
    specialize (Hi2 (k + length d) ltac:(apply in_seq; rewrite app_length; destruct Hp; lia)).
    apply Nat.eqb_eq in Hi2. unfold clip, join in Hi2. rewrite ax_app in Hi2.
    replace (k + length d <? length d) with false in Hi2 by (symmetry; apply Nat.ltb_ge; lia).
    replace (k + length d - length d) with k in Hi2 by lia.
    rewrite (proj2 (Nat.eqb_neq _ _) Kp) in Hi2. now symmetry. }
  rewrite (total_ext (pp ++ d) _ (fun e => INR r * fibre_sum (ps ++ d) (pp ++ d) e (fun i => bget u i *
     (if bget mask (fun k => i (k + length d)%nat) then bget m i else 0)))%R).
  - rewrite total_scal, <- total_fibres by exact Bpd. rewrite total_app.
    replace (total ps _) with (total ps (fun p => if bget mask p then
        total d (fun v => bget m (join (length d) p v) * bget u (join (length d) p v)) else 0))%R; [ring|].
    apply total_ext. intros p Hpv.
    transitivity (total d (fun v => bget u (join (length d) p v) * (if bget mask p then bget m (join (length d) p v) else 0)))%R.
    + destruct (bget mask p); [apply total_ext; intros; ring|symmetry; apply total_zero; intros; ring].
    + apply total_ext. intros v Hv. f_equal. 
      change (fun k => join (length d) p v (k + length d)) with (plate_of (length d) (join (length d) p v)).
      now rewrite join_plate.
  - intros e He. rewrite Gy by exact He. rewrite fibre_mul; [ring|exact Bpd|exact He|].
    intros k Hk1 e' x. destruct (Hu) as [_ X]. apply bget_indep. destruct (X k); congruence.
Qed.
