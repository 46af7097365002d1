(** Sums over plates for the rotation bound of RotateARD.v. *)
From Coq Require Import List Arith ZArith Lia Bool Reals Lra FunctionalExtensionality.
From Verif Require Import Base Shapes SpecShapes ShapesLemmas NumPy MiscArray TensorLemmas SpecArray PlateSumLemmas PlateSum2Lemmas
  PlateSum3Lemmas MessageLemmas ShapeOpsLemmas SpecDot ExpFam ExpFamLemmas ExpFamBound NetworkLemmas DetNetLemmas GateLemmas PGate DotPart AddNode LinalgLemmas2 ConcatLemmas3 MarkovLemmas
  Families Linalg RotateARD.
Import ListNotations.
Open Scope nat_scope.

Lemma forallb_ext : forall A (f g : A -> bool) l, (forall x, f x = g x) -> forallb f l = forallb g l.
Proof. intros A f g l H. induction l as [|x l IH]; cbn; [reflexivity|]. now rewrite H, IH. Qed.

Lemma maps_to_indep : forall n q t k, ax q k = 1 -> indep k (fun e => maps_to n q e t).
Proof.
  intros n q t k E e x. unfold maps_to. apply forallb_ext. intros j. unfold clip, upd.
  destruct (Nat.eqb_spec j k) as [->|]; [rewrite E; reflexivity|reflexivity].
Qed.
Lemma maps_to_longer : forall n m q t e, n <= m -> length q <= n -> valid q t -> maps_to m q e t = maps_to n q e t.
Proof.
  intros n m q t e H L Ht. unfold maps_to. replace m with (n + (m - n)) by lia. rewrite seq_app, forallb_app.
  replace (forallb _ (seq (0 + n) (m - n))) with true; [apply andb_true_r|]. symmetry. apply forallb_forall. intros k Hk. apply in_seq in Hk.
  apply Nat.eqb_eq. unfold clip. pose proof (Ht k) as V. rewrite ax_overflow in * by lia. cbn. lia.
Qed.

Lemma fibre_expand : forall P J q t F, broadcasts_to J P -> broadcasts_to q J -> valid q t ->
  (forall k, ax J k = 1 -> indep k F) ->
  fibre_sum P q t F = (INR (bm_value P [J]) * fibre_sum J q t F)%R.
Proof.
  intros P J q t F HJ Hq Ht HF. rewrite !fibre_total, (total_expand P J).
  - f_equal. apply total_ext. intros e _. rewrite (maps_to_longer (length J) (length P)); [reflexivity|apply HJ|apply Hq|exact Ht].
  - exact HJ.
  - intros k Hk e x. rewrite (HF k Hk e x). destruct Hq as [_ Hq].
    rewrite (maps_to_indep (length P) q t k); [reflexivity|]. destruct (Hq k) as [|E]; congruence.
Qed.

Lemma maps_clip : forall n q e t, length q <= n -> valid q t -> maps_to n q e t = true -> clip q e = t.
Proof.
  intros n q e t L Ht H. unfold maps_to in H. rewrite forallb_forall in H. apply functional_extensionality. intros k.
  destruct (Nat.lt_ge_cases k n) as [C|C].
  - apply Nat.eqb_eq, H, in_seq. lia.
  - unfold clip. pose proof (Ht k). rewrite ax_overflow in * by lia. cbn. lia.
Qed.

Lemma fibre_ext : forall S s t F G, (forall e, valid S e -> F e = G e) -> fibre_sum S s t F = fibre_sum S s t G.
Proof. intros S s t F G H. rewrite !fibre_total. apply total_ext. intros e He. now rewrite H. Qed.

Lemma fibre_fibre : forall P q s t F, broadcasts_to q P -> broadcasts_to s q -> valid s t ->
  fibre_sum P s t F = fibre_sum q s t (fun e => fibre_sum P q e F).
Proof.
  intros P q s t F HP Hq Ht. rewrite (fibre_total P), (fibre_total q), (total_fibres P q) by exact HP.
  apply total_ext. intros e He. rewrite fibre_total, (fibre_total P q).
  destruct (maps_to (length q) s e t) eqn:M.
  - apply total_ext. intros i Hi. destruct (maps_to (length P) q i e) eqn:MQ; [|reflexivity].
    apply maps_clip in MQ; [|apply HP|exact He]. subst e.
    replace (maps_to (length P) s i t) with true; [reflexivity|]. symmetry.
    rewrite (maps_to_longer (length q)) by (try apply HP; try apply Hq; exact Ht). rewrite <- M. unfold maps_to. apply forallb_ext. intros k. f_equal.
    unfold clip. destruct Hq as [_ Hq]. destruct (Nat.eqb_spec (ax s k) 1) as [|N]; [reflexivity|]. destruct (Hq k) as [|E]; [contradiction|].
    destruct (Nat.eqb_spec (ax q k) 1); [congruence|reflexivity].
  - apply total_zero. intros i Hi. destruct (maps_to (length P) q i e) eqn:MQ; [|reflexivity].
    apply maps_clip in MQ; [|apply HP|exact He]. subst e.
    replace (maps_to (length P) s i t) with false; [reflexivity|]. symmetry.
    rewrite (maps_to_longer (length q)) by (try apply HP; try apply Hq; exact Ht). rewrite <- M. unfold maps_to. apply forallb_ext. intros k. f_equal.
    unfold clip. destruct Hq as [_ Hq]. destruct (Nat.eqb_spec (ax s k) 1) as [|N]; [reflexivity|]. destruct (Hq k) as [|E]; [contradiction|].
    destruct (Nat.eqb_spec (ax q k) 1); [congruence|reflexivity].
Qed.

Lemma fibre_lin : forall S s t c d F G, fibre_sum S s t (fun e => c * F e + d * G e)%R = (c * fibre_sum S s t F + d * fibre_sum S s t G)%R.
Proof.
  intros S s t c d F G. unfold fibre_sum. generalize (filter (fun i => maps_to (length S) s i t) (all_indices S)). intros l.
  induction l as [|e l IH]; unfold lsum in *; cbn [map fold_right]; [ring|]. rewrite IH. ring.
Qed.
Lemma fibre_rsum : forall S s t D (F : nat -> env -> R), fibre_sum S s t (fun e => rsum D (fun k => F k e)) = rsum D (fun k => fibre_sum S s t (F k)).
Proof.
  intros S s t D F. induction D as [|D IH]; cbn [rsum].
  - unfold fibre_sum. generalize (filter (fun i => maps_to (length S) s i t) (all_indices S)). intros l.
    induction l as [|e l IHl]; unfold lsum in *; cbn [map fold_right]; [reflexivity|]. rewrite IHl. ring.
  - rewrite <- IH. transitivity (fibre_sum S s t (fun e => 1 * rsum D (fun k => F k e) + 1 * F D e)%R).
    + apply fibre_ext. intros; ring.
    + rewrite fibre_lin. ring.
Qed.

(** ** Arrays with exactly the shape of plates and variable *)
Lemma split_shape : forall P d (a : arr R), variable_of P d a ->
  ash a = get_plates (length d) (ash a) ++ d /\ broadcasts_to (get_plates (length d) (ash a)) P /\
  skipn (length (ash a) - length d) (ash a) = d.
Proof.
  intros P d a (L & T & B). unfold ndim in L. unfold get_plates. set (m := length (ash a) - length d).
  assert (E : skipn m (ash a) = d).
  { apply shape_ext; [rewrite skipn_length; lia|]. intros k Hk. rewrite skipn_length in Hk. rewrite <- T by lia.
    rewrite <- (firstn_skipn m (ash a)) at 2. rewrite ax_app, skipn_length. destruct (Nat.ltb_spec k (length (ash a) - m)); [reflexivity|lia]. }
  split; [transitivity (firstn m (ash a) ++ skipn m (ash a)); [symmetry; apply firstn_skipn|now rewrite E]|]. split; [|exact E]. destruct B as [B1 B2]. rewrite app_length in B1.
  split; [rewrite firstn_length; lia|]. intros k. specialize (B2 (k + length d)). rewrite ax_app in B2.
  destruct (Nat.ltb_spec (k + length d) (length d)); [lia|]. replace (k + length d - length d) with k in B2 by lia.
  replace (ax (firstn m (ash a)) k) with (ax (ash a) (k + length d)); [exact B2|].
  rewrite ax_firstn by (unfold m; lia). f_equal. unfold m. lia.
Qed.

Lemma np_scale_bget : forall r (y : arr R) e, bget (np_scale r y) e = (INR r * bget y e)%R.
Proof. intros r y e. unfold np_scale. now rewrite bget_map. Qed.

Lemma valid_join' : forall P d t v, valid P t -> valid d v -> valid (P ++ d) (join (length d) t v).
Proof.
  intros P d t v Ht Hv k. unfold join. rewrite ax_app. destruct (Nat.ltb_spec k (length d)); [apply Hv|apply Ht].
Qed.

Section Alpha.
Variable n : ard_nodes.
Let P := rn_plates n.
Let q := outer_alpha n.
Hypothesis HP : forall k, 0 < ax P k.
Hypothesis Hq : broadcasts_to q P.

Lemma sum_to_alpha_ok : forall V d, (forall k, 0 < ax d k) -> variable_of P d V ->
  exists y, sum_to_alpha n V (length d) = Ok y /\ ash y = q ++ d /\
    forall t v, valid q t -> valid d v -> bget y (join (length d) t v) = fibre_sum P q t (fun p => bget V (join (length d) p v)).
Proof.
  intros V d Hd HV. unfold sum_to_alpha. fold q P. unfold np_multiply.
  assert (B1 : broadcasts_to (ash (np_ones (q ++ repeat 1 (length d)))) (P ++ d)).
  { cbn. apply broadcasts_to_app; [apply repeat_length|exact Hq|]. split; [now rewrite repeat_length|]. intros k. left. apply ax_repeat1. }
  destruct (map2_upper _ _ _ Rmult V (np_ones (q ++ repeat 1 (length d))) (P ++ d) (variable_upper _ _ _ HV) B1) as (y & Ey & N & By & Gy).
  rewrite Ey. cbn [bind].
  assert (U : forall k, ax (repeat 1 (length d)) k = 1).
  { intros k. apply ax_repeat1. }
  assert (HY : variable_of P d y).
  { destruct HV as (V1 & V2 & V3). split; [|split; [|exact By]].
    - destruct N as (N1 & _). specialize (N1 (ash V) ltac:(now left)). unfold ndim in *. lia.
    - intros i Hi. apply (nb_ax_val _ _ i (ax d i) N).
      + intros a [<-|[<-|[]]]; [right; now apply V2|]. left. cbn [np_ones ash]. rewrite ax_app, repeat_length. apply Nat.ltb_lt in Hi. rewrite Hi. apply U.
      + right. exists (ash V). split; [now left|now apply V2]. }
  destruct (split_shape P d y HY) as (SY & BJ & SD). set (J := get_plates (length d) (ash y)) in *.
  assert (QJ : broadcasts_to q J).
  { destruct N as (N1 & _ & N3). specialize (N1 (q ++ repeat 1 (length d)) ltac:(now right; left)). rewrite SY, !app_length, repeat_length in N1.
    split; [lia|]. intros k. destruct (N3 (k + length d)) as [K _]. specialize (K (q ++ repeat 1 (length d)) ltac:(now right; left)).
    rewrite SY, !ax_app, repeat_length in K. destruct (Nat.ltb_spec (k + length d) (length d)); [lia|]. now replace (k + length d - length d) with k in K by lia. }
  unfold sum_to_plates. fold J. rewrite SD.
  replace (broadcasting_multiplier P [J]) with (Ok (bm_value P [J])) by (symmetry; apply broadcasting_multiplier_ok; split; [intros a [<-|[]]; exact BJ|reflexivity]).
  cbn [bind].
  destruct (sum_to_shape_ok y (q ++ d)) as (z & Ez & Sz & Gz).
  - rewrite SY. apply broadcasts_to_app; [reflexivity|exact QJ|apply broadcasts_to_refl].
  - intros k _. rewrite SY, ax_app. destruct (Nat.ltb_spec k (length d)); [specialize (Hd k); lia|].
    destruct BJ as [_ BJ]. destruct (BJ (k - length d)) as [E|E]; rewrite E; [lia|]. specialize (HP (k - length d)). lia.
  - rewrite Ez. cbn [bind]. exists (np_scale (bm_value P [J]) z). split; [reflexivity|]. split; [exact Sz|]. intros t v Ht Hv.
    rewrite np_scale_bget, Gz by now apply valid_join'. rewrite SY, fibre_app by exact Hv.
    rewrite (fibre_expand P J q t); [f_equal; apply fibre_ext; intros e He|exact BJ|exact QJ|exact Ht|].
    + rewrite Gy. unfold np_ones, bget. cbn. ring.
    + intros k Hk e x. assert (Z : ax (ash V) (k + length d) = 1).
      { destruct N as (_ & _ & N3). destruct (N3 (k + length d)) as [K _]. specialize (K (ash V) ltac:(now left)).
        rewrite SY, ax_app in K. destruct (Nat.ltb_spec (k + length d) (length d)); [lia|]. replace (k + length d - length d) with k in K by lia. lia. }
      apply bget_ext. intros j Hj Nj. unfold join, upd. destruct (Nat.ltb_spec j (length d)); [reflexivity|].
      destruct (Nat.eqb_spec (j - length d) k) as [<-|]; [|reflexivity]. exfalso. apply Nj. now replace (j - length d + length d) with j in Z by lia.
Qed.
End Alpha.
