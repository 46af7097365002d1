(** Lemmas for C25: deterministic nodes whose value is linear in each of several Gaussian
    parents (SumMultiply, Add, ConcatGaussian). *)
From Coq Require Import List Arith ZArith Lia Bool Reals Lra FunctionalExtensionality ClassicalEpsilon.
From Verif Require Import ConcatLemmas2 Base Shapes SpecShapes ShapesLemmas NumPy MiscArray TensorLemmas
  EinsumLemmas SumMultiplyLemmas SpecArray PlateSumLemmas PlateSum2Lemmas MessageLemmas
  ShapeOpsLemmas DiagLemmas ExpFam SpecExpFam ExpFamLemmas ExpFamBound ExpFamGrad PExpFam SpecUpdate
  UpdateLemmas PUpdate FamilyDist SpecFamilyDist PFamilyDist Network SpecNetwork NetworkLemmas NetworkLemmas2
  PNetwork PFamilyNet Dot SpecDot DotExpect DetNet SpecDetNet DetNetLemmas DetNetLemmas2
  GaussNet SpecGaussNet PlateDet GaussTypes.
Import ListNotations.
Open Scope R_scope.

(** ** Draws from independent parents *)
Fixpoint draws (ds : list (list outcome)) : list (R * list outcome) :=
  match ds with
  | [] => [(1, [])]
  | d :: r => flat_map (fun o => map (fun x => (o_prob o * fst x, o :: snd x)) (draws r)) d
  end.
Lemma lsum_app : forall a b, lsum (a ++ b) = lsum a + lsum b.
Proof. intros a b. unfold lsum. induction a as [|x a IH]; cbn; [ring|]. rewrite IH. ring. Qed.
Lemma lsum_cmul : forall A (F : A -> R) c l, lsum (map (fun a => c * F a) l) = c * lsum (map F l).
Proof. intros A F c l. unfold lsum. induction l as [|x l IH]; cbn; [ring|]. rewrite IH. ring. Qed.
Lemma expect_draws : forall ds F, expect ds F = avg (draws ds) F.
Proof.
  induction ds as [|d ds IH]; intros F; [unfold avg, lsum; cbn; ring|]. cbn [expect draws]. unfold mean_of, avg.
  induction d as [|o d IHd]; [reflexivity|]. cbn [map flat_map]. rewrite map_app, lsum_app, <- IHd, map_map. cbn [fst snd].
  rewrite IH. unfold avg. rewrite <- lsum_cmul. unfold lsum at 1. cbn [fold_right]. f_equal.
  f_equal. apply map_ext. intros x. ring.
Qed.
Lemma draws_in : forall ds x, In x (draws ds) -> drawn (snd x) ds.
Proof.
  induction ds as [|d ds IH]; intros x H; [destruct H as [<-|[]]; constructor|]. cbn [draws] in H. apply in_flat_map in H as (o & Ho & H).
  apply in_map_iff in H as (y & <- & Hy). constructor; [exact Ho|now apply IH].
Qed.
Definition proper_dist (d : list outcome) : Prop :=
  mean_of d (fun _ => 1) = 1 /\ forall o, In o d -> 0 <= o_prob o.
Lemma draws_probs : forall ds, Forall proper_dist ds -> probs (draws ds).
Proof.
  intros ds H. split.
  - induction H as [|d ds [_ P] H IH]; [repeat constructor; cbn; lra|]. cbn [draws]. apply Forall_forall. intros x Hx.
    apply in_flat_map in Hx as (o & Ho & Hx). apply in_map_iff in Hx as (y & <- & Hy). cbn [fst].
    rewrite Forall_forall in IH. apply Rmult_le_pos; [now apply P|now apply IH].
  - pose proof (expect_one ds) as E. rewrite expect_draws in E. unfold avg in E. rewrite <- E.
    + f_equal. apply map_ext. intros x. ring.
    + intros d Hd. rewrite Forall_forall in H. apply (H d Hd).
Qed.

(** ** Indices *)
Definition idx (n : nat) (v : env) : list nat := rev (map v (seq 0 n)).
Lemma at_idx : forall d v, valid d v -> at_index (idx (length d) v) = v.
Proof.
  intros d v Hv. apply functional_extensionality. intros k. unfold at_index, idx. rewrite rev_involutive.
  destruct (Nat.lt_ge_cases k (length d)) as [H|H].
  - rewrite (nth_indep _ 0%nat (v 0%nat)) by (rewrite map_length, seq_length; exact H). rewrite map_nth, seq_nth by exact H. reflexivity.
  - rewrite nth_overflow by (rewrite map_length, seq_length; exact H). specialize (Hv k). rewrite ax_overflow in Hv by exact H. lia.
Qed.
Lemma F2_rev : forall A B (Q : A -> B -> Prop) l l', Forall2 Q l l' -> Forall2 Q (rev l) (rev l').
Proof.
  intros A B Q l l' H. induction H; [constructor|]. cbn [rev]. apply Forall2_app; [exact IHForall2|repeat constructor; assumption].
Qed.
Lemma idx_in : forall d v, valid d v -> index_in d (idx (length d) v).
Proof.
  intros d v Hv. unfold index_in, idx. rewrite <- (rev_involutive d) at 2. apply F2_rev.
  apply Forall2_of_nth; [rewrite map_length, seq_length; now rewrite rev_length|].
  intros k a b Ha Hb. destruct (Nat.lt_ge_cases k (length d)) as [H|H].
  - rewrite (map_nth_error v k (seq 0 (length d)) (d := k)) in Ha by (rewrite (nth_error_nth' _ 0%nat) by (now rewrite seq_length); now rewrite seq_nth).
    injection Ha as <-. specialize (Hv k). unfold ax in Hv. rewrite (nth_error_nth _ _ _ Hb) in Hv. exact Hv.
  - exfalso. assert (nth_error (rev d) k = None) by (apply nth_error_None; now rewrite rev_length). congruence.
Qed.
Lemma join_at : forall (d : shape) p (o o' : list nat), length o = length d -> length o' = length d ->
  join (length (d ++ d)) p (at_index (o ++ o')) = join (length (d ++ d)) p (join (length d) (at_index o) (at_index o')).
Proof. intros d p o o' _ L. now rewrite Reindex.at_index_app, L. Qed.

(** ** Distributions that have given moments *)
Definition outcomes (dims : shape) (l : list (R * (env -> R))) : list outcome :=
  map (fun x => Outcome (fst x) (Arr dims (snd x)) 1) l.
Lemma bget_full : forall (d : shape) (f : env -> R) v, valid d v -> bget (Arr d f) v = f v.
Proof.
  intros d f v Hv. unfold bget. cbn [aget ash]. f_equal. apply functional_extensionality. intros k. unfold clip.
  destruct (Nat.eqb_spec (ax d k) 1) as [E|E]; [|reflexivity]. specialize (Hv k). lia.
Qed.

Lemma bget_join_clip : forall (a : arr R) pp d p v, broadcasts_to (ash a) (pp ++ d) -> valid d v ->
  bget a (join (length d) p v) = bget a (join (length d) (clip pp p) v).
Proof.
  intros a pp d p v B Hv. rewrite <- (bget_clip_out _ a (pp ++ d) _ B). f_equal. apply functional_extensionality. intros k.
  unfold clip, join. rewrite ax_app. destruct (Nat.ltb_spec k (length d)) as [Hk|Hk]; [|reflexivity].
  specialize (Hv k). destruct (Nat.eqb_spec (ax d k) 1); lia.
Qed.
Lemma variable_up : forall pp P d a, broadcasts_to pp P -> variable_of pp d a -> variable_of P d a.
Proof.
  intros pp P d a B (V1 & V2 & V3). split; [exact V1|]. split; [exact V2|].
  apply broadcasts_to_trans with (pp ++ d); [exact V3|now apply app_broadcasts].
Qed.
Lemma mean_of_outcomes : forall dims l F G, (forall f x, F (Outcome x (Arr dims f) 1) = G f) ->
  mean_of (outcomes dims l) F = avg l G.
Proof.
  intros dims l F G H. unfold mean_of, avg, outcomes. rewrite map_map. f_equal. apply map_ext. intros [x f]. cbn [o_prob fst snd].
  now rewrite H.
Qed.
Lemma outcomes_proper : forall dims l, probs l -> proper_dist (outcomes dims l).
Proof.
  intros dims l [P S]. split.
  - rewrite (mean_of_outcomes dims l _ (fun _ => 1)) by reflexivity. apply (avg_const l 1). now split.
  - intros o Ho. unfold outcomes in Ho. apply in_map_iff in Ho as (x & <- & Hx). rewrite Forall_forall in P. now apply P.
Qed.

Definition good (P : shape) (nd : shape * pkind) (pa : pmom * (env -> list outcome)) : Prop :=
  describes false P (fst nd) (snd nd) (fst pa) (snd pa) /\ forall p, plate_in P p -> proper_dist (snd pa p).

(** Moments of the right type are those of some distribution. *)
Lemma gaussian_good : forall pp P dims x xx, broadcasts_to pp P ->
  variable_of pp dims x -> variable_of pp (dims ++ dims) xx ->
  (forall q, valid pp q -> mt_mom (MGaussian dims) (at_plate [dims; dims ++ dims] [x; xx] q)) ->
  exists dist, good P (dims, KGaussian) (Dot.MGaussian x xx, dist).
Proof.
  intros pp P dims x xx B V0 V1 H.
  assert (H' : forall q, exists l : list (R * (env -> R)), valid pp q -> probs l /\
      (forall v, valid dims v -> bget x (join (length dims) q v) = avg l (fun f => f v)) /\
      (forall v w, valid dims v -> valid dims w ->
        bget xx (join (length (dims ++ dims)) q (join (length dims) v w)) = avg l (fun f => f v * f w))).
  { intros q. destruct (excluded_middle_informative (valid pp q)) as [Hq|Hq]; [|exists []; intros; contradiction].
    destruct (H q Hq) as (l & A1 & A2 & A3). exists l. intros _. split; [exact A1|]. split; [exact A2|exact A3]. }
  set (g := fun q => proj1_sig (constructive_indefinite_description _ (H' q))).
  assert (Hg : forall q, valid pp q -> probs (g q) /\
      (forall v, valid dims v -> bget x (join (length dims) q v) = avg (g q) (fun f => f v)) /\
      (forall v w, valid dims v -> valid dims w ->
        bget xx (join (length (dims ++ dims)) q (join (length dims) v w)) = avg (g q) (fun f => f v * f w))).
  { intros q. exact (proj2_sig (constructive_indefinite_description _ (H' q))). }
  clearbody g. clear H H'. exists (fun p => outcomes dims (g (clip pp p))). unfold good, describes. cbn [fst snd is_delta].
  assert (PC : forall p, plate_in P p -> valid pp (clip pp p)) by (intros p Hp; now apply (ConcatLemmas2.plate_clip pp P)).
  assert (PD : forall p, plate_in P p -> proper_dist (outcomes dims (g (clip pp p)))).
  { intros p Hp. apply outcomes_proper. now apply Hg, PC. }
  split; [|exact PD]. split; [intros p Hp; now apply PD|].
  assert (SC : forall p o, In o (outcomes dims (g (clip pp p))) -> ash (o_value o) = dims /\ o_scale o = 1).
  { intros p o Ho. unfold outcomes in Ho. apply in_map_iff in Ho as (y & <- & _). now split. }
  split; [intros p o Hp Ho; destruct (SC p o Ho) as [-> ->]; split; [reflexivity|lra]|].
  split; [now apply (variable_up pp)|]. split; [now apply (variable_up pp)|].
  split; [intros p o Hp Ho; now apply (SC p)|]. split.
  - intros p i Hp Hi. pose proof (TakeLemmas.valid_at_index _ _ Hi) as Hv. destruct (Hg _ (PC p Hp)) as (_ & G1 & _).
    rewrite (bget_join_clip x pp) by (try exact Hv; apply V0). rewrite G1 by exact Hv.
    symmetry. apply mean_of_outcomes. intros f r. cbn [o_value]. now apply bget_full.
  - intros p i j Hp Hi Hj. pose proof (TakeLemmas.valid_at_index _ _ Hi) as Hv. pose proof (TakeLemmas.valid_at_index _ _ Hj) as Hw.
    destruct (Hg _ (PC p Hp)) as (_ & _ & G2).
    rewrite join_at by (apply (Forall2_len _ _ _ _ _ Hi) || apply (Forall2_len _ _ _ _ _ Hj)).
    rewrite (bget_join_clip xx pp); [|apply V1|now apply join_valid].
    rewrite G2 by assumption. symmetry. apply mean_of_outcomes. intros f r. cbn [o_value]. now rewrite !bget_full.
Qed.
Lemma fixed_good : forall pp P dims x, broadcasts_to pp P -> variable_of pp dims x ->
  exists dist, good P (dims, KDelta) (MDelta x, dist).
Proof.
  intros pp P dims x B V. exists (fun p => [Outcome 1 (Arr dims (fun v => bget x (join (length dims) p v))) 1]).
  unfold good, describes. cbn [fst snd is_delta].
  assert (ONE : forall p, mean_of [Outcome 1 (Arr dims (fun v => bget x (join (length dims) p v))) 1] (fun _ => 1) = 1).
  { intros p. unfold mean_of, lsum. cbn. ring. }
  split; [|intros p _; split; [apply ONE|intros o [<-|[]]; cbn; lra]]. split; [intros p _; apply ONE|].
  split; [intros p o _ [<-|[]]; cbn; split; [reflexivity|lra]|]. split; [now apply (variable_up pp)|].
  intros p o _ [<-|[]]. cbn [o_scale o_value]. split; [reflexivity|]. intros i Hi. rewrite (bget_full dims) by (now apply TakeLemmas.valid_at_index). reflexivity.
Qed.

(** A parent with a fixed value in every plate. *)
Definition low (n : nat) (e : env) : env := fun k => if (k <? n)%nat then e k else 0%nat.
Definition point (pp dims : shape) (h : env -> env -> R) : pmom :=
  let n := length dims in
  Dot.MGaussian (Arr (pp ++ dims) (fun e => h (plate_of n e) (low n e)))
    (Arr (pp ++ dims ++ dims) (fun e => h (plate_of (n + n) e) (low n (plate_of n e)) * h (plate_of (n + n) e) (low n e))).
Lemma low_join : forall d p v, valid d v -> low (length d) (join (length d) p v) = v.
Proof.
  intros d p v Hv. apply functional_extensionality. intros k. unfold low, join. destruct (Nat.ltb_spec k (length d)); [reflexivity|].
  specialize (Hv k). rewrite ax_overflow in Hv by assumption. lia.
Qed.
Lemma full_variable : forall P d f, variable_of P d (Arr (P ++ d) f).
Proof.
  intros P d f. unfold variable_of, ndim. cbn [ash]. split; [rewrite app_length; lia|]. split; [|apply broadcasts_to_refl].
  intros i Hi. rewrite ax_app. now destruct (Nat.ltb_spec i (length d)); [|lia].
Qed.
Lemma point_first : forall pp dims h q v, valid pp q -> valid dims v ->
  bget (first_moment (point pp dims h)) (join (length dims) q v) = h q v.
Proof.
  intros pp dims h q v Hq Hv. cbn [first_moment mom0 point]. rewrite bget_full by now apply join_valid.
  now rewrite join_plate, low_join.
Qed.
Lemma join_join : forall (d : shape) q v w, join (length (d ++ d)) q (join (length d) v w) = join (length d) (join (length d) q v) w.
Proof.
  intros d q v w. apply functional_extensionality. intros k. unfold join. rewrite app_length.
  destruct (Nat.ltb_spec k (length d)), (Nat.ltb_spec k (length d + length d)); try lia; try reflexivity.
  - destruct (Nat.ltb_spec (k - length d) (length d)); [reflexivity|lia].
  - destruct (Nat.ltb_spec (k - length d) (length d)); [lia|]. f_equal. lia.
Qed.
Lemma point_second : forall pp dims h q v w, valid pp q -> valid dims v -> valid dims w ->
  bget (second_moment (point pp dims h)) (join (length (dims ++ dims)) q (join (length dims) v w)) = h q v * h q w.
Proof.
  intros pp dims h q v w Hq Hv Hw. cbn [second_moment point]. rewrite bget_full by (apply join_valid; [exact Hq|now apply join_valid]).
  rewrite <- app_length, join_plate. rewrite join_join. rewrite join_plate, !low_join by assumption. reflexivity.
Qed.
Lemma point_good : forall pp P dims h, broadcasts_to pp P ->
  good P (dims, KGaussian) (point pp dims h, fun p => [Outcome 1 (Arr dims (h (clip pp p))) 1]).
Proof.
  intros pp P dims h B. unfold good, describes. cbn [fst snd is_delta point].
  assert (ONE : forall p F, mean_of [Outcome 1 (Arr dims (h (clip pp p))) 1] F = F (Outcome 1 (Arr dims (h (clip pp p))) 1)).
  { intros p F. unfold mean_of, lsum. cbn. ring. }
  split; [|intros p _; split; [apply ONE|intros o [<-|[]]; cbn; lra]]. split; [intros p _; apply ONE|].
  split; [intros p o _ [<-|[]]; cbn; split; [reflexivity|lra]|].
  pose proof (full_variable pp dims (fun e => h (plate_of (length dims) e) (low (length dims) e))) as V0.
  pose proof (full_variable pp (dims ++ dims) (fun e => h (plate_of (length dims + length dims) e) (low (length dims) (plate_of (length dims) e)) * h (plate_of (length dims + length dims) e) (low (length dims) e))) as V1.
  split; [now apply (variable_up pp)|]. split; [now apply (variable_up pp)|].
  split; [intros p o _ [<-|[]]; reflexivity|]. split.
  - intros p i Hp Hi. pose proof (TakeLemmas.valid_at_index _ _ Hi) as Hv. pose proof (ConcatLemmas2.plate_clip pp P p B Hp) as Hq.
    rewrite ONE. cbn [o_value]. rewrite (bget_full dims) by exact Hv.
    rewrite (bget_join_clip _ pp) by (try exact Hv; apply V0). exact (point_first pp dims h _ _ Hq Hv).
  - intros p i j Hp Hi Hj. pose proof (TakeLemmas.valid_at_index _ _ Hi) as Hv. pose proof (TakeLemmas.valid_at_index _ _ Hj) as Hw.
    pose proof (ConcatLemmas2.plate_clip pp P p B Hp) as Hq. rewrite ONE. cbn [o_value]. rewrite !(bget_full dims) by assumption.
    rewrite join_at by (apply (Forall2_len _ _ _ _ _ Hi) || apply (Forall2_len _ _ _ _ _ Hj)).
    rewrite (bget_join_clip _ pp); [|apply V1|now apply join_valid]. exact (point_second pp dims h _ _ _ Hq Hv Hw).
Qed.
