(** linalg.outer, transpose, mvdot with several variable axes; sums of arrays. *)
From Coq Require Import List Arith ZArith Lia Bool Reals Lra FunctionalExtensionality.
From Verif Require Import Base Shapes SpecShapes ShapesLemmas NumPy MiscArray SpecArray TensorLemmas
  EinsumLemmas PlateSumLemmas ShapeOpsLemmas MessageLemmas NetworkLemmas DiagLemmas GateLemmas PGate ExpFamBound TakeConcat Dot SpecDot DotNode DotPart AddNode.
Import ListNotations.
Open Scope nat_scope.

Lemma ax_repeat1 : forall n k, ax (repeat 1 n) k = 1.
Proof.
  intros n k. destruct (Nat.lt_ge_cases k n) as [H|H].
  - rewrite ax_nth by now rewrite repeat_length. rewrite (nth_indep _ 0 1) by (rewrite repeat_length; lia). apply nth_repeat.
  - apply ax_overflow. now rewrite repeat_length.
Qed.
Lemma ax_skipn : forall s n k, k < length s - n -> ax (skipn n s) k = ax s k.
Proof.
  intros s n k H. rewrite <- (firstn_skipn n s) at 2. rewrite ax_app. destruct (Nat.ltb_spec k (length (skipn n s))) as [C|C]; [reflexivity|].
  rewrite skipn_length in C. lia.
Qed.

(** Insert [g] unit axes at [f] from the end. *)
Definition gap (f g : nat) (s : shape) : shape := firstn (length s - f) s ++ repeat 1 g ++ skipn (length s - f) s.
Definition over (f g : nat) (e : env) : env := fun k => if k <? f then e k else e (k + g).
Lemma gap_length : forall f g s, length (gap f g s) = length s + g.
Proof. intros. unfold gap. rewrite !app_length, firstn_length, skipn_length, repeat_length. lia. Qed.
Lemma ax_gap : forall f g s k, f <= length s ->
  ax (gap f g s) k = if k <? f then ax s k else if k <? f + g then 1 else ax s (k - g).
Proof.
  intros f g s k Hf. unfold gap. rewrite ax_app, app_length, repeat_length, skipn_length. replace (length s - (length s - f)) with f by lia.
  destruct (Nat.ltb_spec k (g + f)) as [C|C].
  - rewrite ax_app, skipn_length. replace (length s - (length s - f)) with f by lia. destruct (Nat.ltb_spec k f) as [C'|C'].
    + apply ax_skipn. lia.
    + destruct (Nat.ltb_spec k (f + g)); [|lia]. apply ax_repeat1.
  - destruct (Nat.ltb_spec k f); [lia|]. destruct (Nat.ltb_spec k (f + g)); [lia|]. rewrite ax_firstn by lia. f_equal. lia.
Qed.
Lemma cnt_gap : forall f g n, cnt (fun k => (k <? f) || (f + g <=? k)) n = if n <=? f then n else if n <=? f + g then f else n - g.
Proof.
  intros f g n. induction n as [|n IH]; [reflexivity|]. rewrite cnt_S, IH.
  destruct (Nat.leb_spec n f), (Nat.leb_spec (S n) f), (Nat.ltb_spec n f), (Nat.leb_spec (f + g) n), (Nat.leb_spec n (f + g)), (Nat.leb_spec (S n) (f + g)); cbn [orb]; lia.
Qed.
Lemma reshape_gap : forall A (x : arr A) f g, f <= ndim x ->
  exists y, np_reshape x (gap f g (ash x)) = Ok y /\ ash y = gap f g (ash x) /\
    forall e, plate_in (ash y) e -> bget y e = bget x (over f g e).
Proof.
  intros A x f g Hf. unfold ndim in Hf. set (s := gap f g (ash x)).
  assert (AX := ax_gap f g (ash x)). fold s in AX. assert (LS : length s = length (ash x) + g) by apply gap_length.
  destruct (reshape_units A x s (fun k => (k <? f) || (f + g <=? k))) as (y & Ey & Sy & Gy).
  - rewrite cnt_gap, LS. unfold ndim. destruct (Nat.leb_spec (length (ash x) + g) f), (Nat.leb_spec (length (ash x) + g) (f + g)); lia.
  - intros k _ Hk. apply orb_false_iff in Hk as [H1 H2]. apply Nat.leb_gt in H2. rewrite AX, H1 by assumption. apply Nat.ltb_lt in H2. now rewrite H2.
  - intros k Hk N. rewrite AX, cnt_gap by assumption. apply orb_true_iff in N.
    destruct (Nat.ltb_spec k f), (Nat.leb_spec k f), (Nat.leb_spec k (f + g)), (Nat.ltb_spec k (f + g)), (Nat.leb_spec (f + g) k); try lia; try reflexivity; destruct N; try discriminate; f_equal; lia.
  - exists y. split; [exact Ey|]. split; [exact Sy|]. rewrite Sy. intros e He.
    transitivity (bget y (clip (ash y) e)); [symmetry; apply bget_clip|]. rewrite Sy. transitivity (bget x (over f g (clip s e))).
    + apply Gy.
      * intros k. unfold clip. destruct (Nat.eqb_spec (ax s k) 1); [lia|now apply He].
      * intros k Hk N. rewrite cnt_gap. unfold over. apply orb_true_iff in N.
        destruct (Nat.leb_spec k f), (Nat.leb_spec k (f + g)), (Nat.ltb_spec k f), (Nat.leb_spec (f + g) k); try lia; try (destruct N; discriminate).
        all: repeat match goal with |- context [?a <? ?b] => destruct (Nat.ltb_spec a b) end; try lia; try reflexivity; f_equal; lia.
    + apply bget_ext. intros k Hk N. unfold over, clip. destruct (Nat.ltb_spec k f) as [C|C]; rewrite AX by assumption.
      * apply Nat.ltb_lt in C. rewrite C. apply Nat.eqb_neq in N. now rewrite N.
      * destruct (Nat.ltb_spec (k + g) f); [lia|]. destruct (Nat.ltb_spec (k + g) (f + g)); [lia|].
        replace (k + g - g) with k by lia. apply Nat.eqb_neq in N. now rewrite N.
Qed.

Lemma plate_in_sub : forall s T e, broadcasts_to s T -> plate_in T e -> plate_in s e.
Proof. intros s T e [_ H] He k Hk. destruct (H k) as [E|E]; [congruence|]. rewrite E in *. now apply He. Qed.

Lemma variable_upper : forall P d (a : arr R), variable_of P d a -> broadcasts_to (ash a) (P ++ d).
Proof. intros P d a (_ & _ & H). exact H. Qed.
Lemma variable_map2 : forall P d f (a b : arr R), variable_of P d a -> variable_of P d b ->
  exists y, np_map2 f a b = Ok y /\ variable_of P d y /\ forall e, bget y e = f (bget a e) (bget b e).
Proof.
  intros P d f a b (A1 & A2 & A3) (B1 & B2 & B3). destruct (map2_upper _ _ _ f a b _ A3 B3) as (y & Ey & N & By & Vy).
  exists y. split; [exact Ey|]. split; [|exact Vy]. destruct N as (N1 & N2 & N3). unfold ndim in *. split; [|split; [|exact By]].
  - specialize (N1 (ash a) ltac:(now left)). unfold ndim. lia.
  - intros i Hi. destruct (N3 i) as [K1 K2].
    pose proof (K1 (ash a) ltac:(now left)) as K. pose proof (A2 i Hi) as Ea. pose proof (B2 i Hi) as Eb.
    destruct K2 as [K2|(s & Hs & K2)].
    + destruct K as [K|K]; [|congruence]. congruence.
    + destruct Hs as [<-|[<-|[]]]; congruence.
Qed.

Lemma outer_ok : forall P dA dB A B, length dA = length dB -> variable_of P dA A -> variable_of P dB B ->
  exists y, la_outer A B (length dA) = Ok y /\ variable_of P (dA ++ dB) y /\
    forall e, plate_in (P ++ dA ++ dB) e -> bget y e = (bget A (fun k => e (k + length dA)%nat) * bget B (over (length dA) (length dA) e))%R.
Proof.
  intros P dA dB A B HL (A1 & A2 & A3 & A4) (B1 & B2 & B3 & B4). set (nd := length dA) in *. unfold la_outer.
  rewrite app_length in A3, B3. unfold ndim in *. fold nd in A3.
  destruct (Nat.eqb_spec nd 0) as [E0|N0].
  - assert (dA = []) by (unfold nd in E0; now destruct dA). assert (dB = []) by (rewrite E0 in HL; now destruct dB). subst dA dB. rewrite app_nil_r in *.
    destruct (map2_upper _ _ _ Rmult A B P) as (y & Ey & _ & By & Vy); [split; [cbn in A3; lia|exact A4]|split; [cbn in B3; lia|assumption]|].
    exists y. split; [exact Ey|]. split.
    + split; [cbn; lia|]. split; [intros i Hi; cbn in Hi; lia|]. now rewrite !app_nil_r.
    + intros e _. rewrite Vy. rewrite E0. f_equal; apply bget_ext; intros k _ _; unfold over; cbn [Nat.ltb Nat.leb]; f_equal; lia.
  - destruct (Nat.ltb_spec (length (ash A)) nd); [lia|]. destruct (Nat.ltb_spec (length (ash B)) nd); [lia|].
    destruct (reshape_gap R A 0 nd) as (A' & EA & SA & VA); [unfold ndim; lia|].
    destruct (reshape_gap R B nd nd) as (B' & EB & SB & VB); [unfold ndim; lia|].
    assert (GA : gap 0 nd (ash A) = ash A ++ repeat 1 nd) by (unfold gap; rewrite Nat.sub_0_r, firstn_all, skipn_all, app_nil_r; reflexivity).
    rewrite GA in EA. rewrite EA. cbn [bind]. unfold gap in EB. rewrite EB. cbn [bind].
    assert (BA : broadcasts_to (ash A') (P ++ dA ++ dB)).
    { rewrite SA. split; [rewrite gap_length, !app_length; fold nd; lia|]. intros k. rewrite ax_gap by lia. destruct (Nat.ltb_spec k 0); [lia|]. rewrite Nat.add_0_l.
      specialize (A4 (k - nd)). rewrite ax_app in A4. rewrite ax_app, app_length, (ax_app dA dB). fold nd in A4 |- *. rewrite <- HL.
      destruct (Nat.ltb_spec k nd); [now left|]. destruct (Nat.ltb_spec k (nd + nd)).
      - destruct (Nat.ltb_spec (k - nd) nd); [|lia]. exact A4.
      - destruct (Nat.ltb_spec (k - nd) nd); [lia|]. replace (k - (nd + nd)) with (k - nd - nd) by lia. exact A4. }
    assert (BB : broadcasts_to (ash B') (P ++ dA ++ dB)).
    { rewrite SB. split; [rewrite gap_length, !app_length; fold nd; lia|]. intros k. rewrite ax_gap by lia.
      destruct (Nat.ltb_spec k nd) as [C|C]; [|destruct (Nat.ltb_spec k (nd + nd)) as [C'|C']; [now left|]].
      - specialize (B4 k). rewrite ax_app in B4. rewrite ax_app, app_length, (ax_app dA dB). fold nd. rewrite <- HL in *. apply Nat.ltb_lt in C as C'. rewrite C' in *.
        destruct (Nat.ltb_spec k (nd + nd)); [|lia]. exact B4.
      - specialize (B4 (k - nd)). rewrite ax_app in B4. rewrite ax_app, app_length, (ax_app dA dB). fold nd. rewrite <- HL in *. destruct (Nat.ltb_spec (k - nd) nd); [lia|].
        destruct (Nat.ltb_spec k (nd + nd)); [lia|]. replace (k - (nd + nd)) with (k - nd - nd) by lia. exact B4. }
    destruct (map2_upper _ _ _ Rmult A' B' _ BA BB) as (y & Ey & N & By & Vy). exists y. split; [exact Ey|]. split.
    + destruct N as (N1 & N2 & N3). split; [|split; [|exact By]].
      * specialize (N1 (ash A') ltac:(now left)). rewrite SA, gap_length in N1. rewrite app_length. unfold ndim. fold nd. lia.
      * intros i Hi. rewrite app_length in Hi. fold nd in Hi. rewrite <- HL in Hi. destruct (N3 i) as [K1 K2]. rewrite ax_app.
        assert (XA : ax (ash A') i = if i <? nd then 1 else ax (ash A) (i - nd)) by (rewrite SA, ax_gap by lia; destruct (Nat.ltb_spec i 0); [lia|]; now rewrite Nat.add_0_l).
        assert (XB : ax (ash B') i = if i <? nd then ax (ash B) i else 1) by (rewrite SB, ax_gap by lia; destruct (Nat.ltb_spec i nd); [reflexivity|]; destruct (Nat.ltb_spec i (nd + nd)); [reflexivity|lia]).
        pose proof (K1 (ash A') ltac:(now left)) as KA. pose proof (K1 (ash B') ltac:(right; now left)) as KB. rewrite XA in KA. rewrite XB in KB. rewrite <- HL.
        destruct (Nat.ltb_spec i nd) as [C|C].
        -- assert (B2i : ax (ash B) i = ax dB i) by (apply B2; lia). destruct KB as [KB|KB]; [|congruence]. destruct K2 as [K2|(s & [<-|[<-|[]]] & K2)]; congruence.
        -- assert (A2i : ax (ash A) (i - nd) = ax dA (i - nd)) by (apply A2; lia). destruct KA as [KA|KA]; [|congruence]. destruct K2 as [K2|(s & [<-|[<-|[]]] & K2)]; congruence.
    + intros e He. rewrite Vy, VA, VB by (eapply plate_in_sub; eassumption). reflexivity.
Qed.

(** ** Transpose *)
Lemma swap_invol : forall i j k, swap i j (swap i j k) = k.
Proof. intros i j k. unfold swap. destruct (Nat.eqb_spec k i), (Nat.eqb_spec k j); subst; rewrite ?Nat.eqb_refl; try reflexivity.
  - destruct (Nat.eqb_spec j i); [assumption|reflexivity].
  - apply Nat.eqb_neq in n, n0. now rewrite n, n0.
Qed.
Lemma swapaxes_ok : forall A (X : arr A) i j, i < ndim X -> j < ndim X -> exists y, np_swapaxes X i j = Ok y /\ ndim y = ndim X /\
  (forall k, ax (ash y) k = ax (ash X) (swap i j k)) /\ forall e, bget y e = bget X (fun k => e (swap i j k)).
Proof.
  intros A X i j Hi Hj. unfold np_swapaxes. apply Nat.ltb_lt in Hi as Hi', Hj as Hj'. rewrite Hi', Hj'. cbn [andb].
  set (y := Arr _ _). exists y. split; [reflexivity|]. split; [unfold ndim; cbn [ash y]; apply length_mkshape|].
  assert (AX : forall k, ax (ash y) k = ax (ash X) (swap i j k)).
  { intros k. unfold y. cbn [ash]. rewrite ax_mkshape. destruct (Nat.ltb_spec k (ndim X)); [reflexivity|].
    unfold swap. destruct (Nat.eqb_spec k i); [lia|]. destruct (Nat.eqb_spec k j); [lia|]. symmetry. now apply ax_overflow. }
  split; [exact AX|]. intros e. unfold bget at 1. unfold y at 1. cbn [aget]. apply bget_ext. intros k Hk N. unfold clip.
  rewrite AX, swap_invol. apply Nat.eqb_neq in N. now rewrite N.
Qed.
Lemma foldM_app : forall A S (f : S -> A -> res S) l r s, foldM f s (l ++ r) = bind (foldM f s l) (fun s' => foldM f s' r).
Proof. intros A S f l r. induction l as [|a l IH]; intros s; cbn [app foldM]; [reflexivity|]. destruct (f s a); cbn [bind]; [apply IH|reflexivity]. Qed.
Definition half (nd n k : nat) : nat := if k <? n then k + nd else if (nd <=? k) && (k <? nd + n) then k - nd else k.
Lemma transpose_steps : forall A (X : arr A) nd n, n <= nd -> 2 * nd <= ndim X -> exists y, foldM (fun X n => np_swapaxes X n (nd + n)) X (seq 0 n) = Ok y /\ ndim y = ndim X /\
  (forall k, ax (ash y) k = ax (ash X) (half nd n k)) /\ forall e, bget y e = bget X (fun k => e (half nd n k)).
Proof.
  intros A X nd n. induction n as [|n IH]; intros Hn HX.
  - exists X. split; [reflexivity|]. split; [reflexivity|]. assert (E : forall k, half nd 0 k = k).
    { intros k. unfold half. destruct (Nat.ltb_spec k 0); [lia|]. destruct (Nat.leb_spec nd k), (Nat.ltb_spec k (nd + 0)); cbn [andb]; lia. }
    split; [intros k; now rewrite E|]. intros e. f_equal. apply functional_extensionality. intros k. now rewrite E.
  - destruct IH as (y & Ey & Ly & Ay & Vy); [lia|lia|]. rewrite seq_S, foldM_app, Ey. cbn [bind]. rewrite Nat.add_0_l. cbn [foldM].
    destruct (swapaxes_ok A y n (nd + n)) as (z & Ez & Lz & Az & Vz); [lia|lia|]. exists z. rewrite Ez. cbn [bind]. split; [reflexivity|]. split; [lia|].
    assert (E : forall k, half nd n (swap n (nd + n) k) = half nd (S n) k).
    { intros k. unfold half, swap. destruct (Nat.eqb_spec k n), (Nat.eqb_spec k (nd + n));
        repeat match goal with |- context [?a <? ?b] => destruct (Nat.ltb_spec a b) | |- context [?a <=? ?b] => destruct (Nat.leb_spec a b) end; cbn [andb]; lia. }
    assert (E' : forall k, swap n (nd + n) (half nd n k) = half nd (S n) k).
    { intros k. unfold half, swap.
        repeat match goal with |- context [?a <? ?b] => destruct (Nat.ltb_spec a b) | |- context [?a <=? ?b] => destruct (Nat.leb_spec a b)
          | |- context [?a =? ?b] => destruct (Nat.eqb_spec a b) end; cbn [andb] in *; try lia;
        repeat match goal with |- context [?a <? ?b] => destruct (Nat.ltb_spec a b) | |- context [?a <=? ?b] => destruct (Nat.leb_spec a b)
          | |- context [?a =? ?b] => destruct (Nat.eqb_spec a b) end; cbn [andb] in *; lia. }
    split; [intros k; now rewrite Az, Ay, E|]. intros e. rewrite Vz, Vy. f_equal. apply functional_extensionality. intros k. now rewrite E'.
Qed.
Lemma transpose_ok : forall P d (X : arr R), variable_of P (d ++ d) X -> exists y, la_transpose X (length d) = Ok y /\ variable_of P (d ++ d) y /\
  forall e, bget y e = bget X (fun k => e (half (length d) (length d) k)).
Proof.
  intros P d X (A1 & A2 & A3 & A4). rewrite app_length in *. destruct (transpose_steps R X (length d) (length d)) as (y & Ey & Ly & Ay & Vy); [lia|lia|].
  exists y. split; [exact Ey|]. split; [|exact Vy].
  assert (E : forall k, ax (P ++ d ++ d) (half (length d) (length d) k) = ax (P ++ d ++ d) k).
  { intros k. rewrite !ax_app, app_length. unfold half.
    destruct (Nat.ltb_spec k (length d)), (Nat.leb_spec (length d) k), (Nat.ltb_spec k (length d + length d)); cbn [andb]; try lia;
      repeat match goal with |- context [?a <? ?b] => destruct (Nat.ltb_spec a b) end; try lia; try reflexivity; f_equal; lia. }
  split; [rewrite Ly, app_length; lia|]. split.
  - intros i Hi. rewrite app_length in Hi. specialize (E i). rewrite !ax_app, app_length in E. rewrite Ay.
    assert (Hh : half (length d) (length d) i < length d + length d).
    { unfold half. destruct (Nat.ltb_spec i (length d)), (Nat.leb_spec (length d) i), (Nat.ltb_spec i (length d + length d)); cbn [andb]; lia. }
    rewrite A2 by assumption. destruct (Nat.ltb_spec i (length d + length d)); [|lia]. destruct (Nat.ltb_spec (half (length d) (length d) i) (length d + length d)); [|lia].
    rewrite !ax_app. exact E.
  - split; [rewrite !app_length in *; unfold ndim in *; lia|]. intros k. rewrite Ay, <- E. apply A4.
Qed.

(** ** Matrix-vector product *)
Lemma add_axes_back_ok : forall A (X : arr A) nd num, nd <= ndim X -> exists y, add_axes_back X num nd = Ok y /\ ndim y = ndim X + num /\
  (forall k, ax (ash y) k = if k <? nd then ax (ash X) k else if k <? nd + num then 1 else ax (ash X) (k - num)) /\
  forall e, bget y e = bget X (over nd num e).
Proof.
  intros A X nd num H. unfold add_axes_back. induction num as [|num IH].
  - exists X. split; [reflexivity|]. split; [lia|]. split.
    + intros k. rewrite Nat.add_0_r, Nat.sub_0_r. destruct (k <? nd); reflexivity.
    + intros e. f_equal. apply functional_extensionality. intros k. unfold over. rewrite Nat.add_0_r. now destruct (k <? nd).
  - destruct IH as (y & Ey & Ly & Ay & Vy). rewrite seq_S, foldM_app, Ey. cbn [bind foldM]. destruct (Nat.leb_spec nd (ndim y)); [|lia].
    cbn [bind]. eexists. split; [reflexivity|]. split; [rewrite ndim_expand_at; lia|]. split.
    + intros k. rewrite ash_expand_at, !Ay by lia. repeat match goal with |- context [?a <? ?b] => destruct (Nat.ltb_spec a b) | |- context [?a =? ?b] => destruct (Nat.eqb_spec a b) end; try lia; try reflexivity; f_equal; lia.
    + intros e. rewrite bget_expand_at, Vy by lia. f_equal. apply functional_extensionality. intros k. unfold over.
      repeat match goal with |- context [?a <? ?b] => destruct (Nat.ltb_spec a b) end; try lia; try reflexivity; f_equal; lia.
Qed.
Lemma asked_back : forall nd n, nd <= n -> filter (asked_to_sum n (AxList (map (fun i => (Z.of_nat i - Z.of_nat nd)%Z) (seq 0 nd))) true) (seq 0 n) = seq 0 nd.
Proof.
  intros nd n H. replace n with (nd + (n - nd)) at 2 by lia. rewrite seq_app, filter_app.
  assert (E : forall k, k < n -> asked_to_sum n (AxList (map (fun i => (Z.of_nat i - Z.of_nat nd)%Z) (seq 0 nd))) true k = (k <? nd)).
  { intros k Hk. unfold asked_to_sum, named. destruct (Nat.ltb_spec k nd) as [C|C].
    - apply orb_true_iff. right. apply existsb_exists. exists (-1 - Z.of_nat k)%Z. split; [|apply Z.eqb_refl].
      apply in_map_iff. exists (nd - 1 - k). split; [lia|]. apply in_seq. lia.
    - apply orb_false_iff. split; apply not_true_is_false; intros E; apply existsb_exists in E as (x & Hx & E); apply Z.eqb_eq in E; subst x;
        apply in_map_iff in Hx as (i & E & Hi); apply in_seq in Hi; lia. }
  assert (F1 : forall (l : list nat) f, (forall k, In k l -> f k = true) -> filter f l = l).
  { intros l f G. induction l as [|k l IH]; [reflexivity|]. cbn [filter]. rewrite (G k) by now left. f_equal. apply IH. intros j Hj. apply G. now right. }
  assert (F2 : forall (l : list nat) f, (forall k, In k l -> f k = false) -> filter f l = []).
  { intros l f G. induction l as [|k l IH]; [reflexivity|]. cbn [filter]. rewrite (G k) by now left. apply IH. intros j Hj. apply G. now right. }
  rewrite F1, F2; [apply app_nil_r| |]; intros k Hk; apply in_seq in Hk; rewrite E by lia; [apply Nat.ltb_ge|apply Nat.ltb_lt]; lia.
Qed.

(** [b] has variable shape [d], [A] variable shape [r ++ d]. *)
Lemma mvdot_ok : forall P r d A b, length r = length d -> variable_of P (r ++ d) A -> variable_of P d b ->
  exists y, la_mvdot A b (length d) = Ok y /\ broadcasts_to (ash y) (P ++ r) /\
    forall e, valid (P ++ r) e -> bget y e = total d (fun v => bget A (join (length d) e v) * bget b (join (length d) (fun k => e (k + length d)%nat) v))%R.
Proof.
  intros P r d A b HL (A1 & A2 & A3) (B1 & B2 & B3 & B4). unfold la_mvdot. rewrite app_length in A1, B3.
  set (nd := length d) in *.
  assert (HB : exists b', (if 0 <? nd then add_axes_back b nd nd else Ok b) = Ok b' /\ ndim b' = ndim b + nd /\
     (forall k, ax (ash b') k = if k <? nd then ax (ash b) k else if k <? nd + nd then 1 else ax (ash b) (k - nd)) /\
     forall e, bget b' e = bget b (over nd nd e)).
  { destruct (Nat.ltb_spec 0 nd) as [C|C]; [now apply add_axes_back_ok|]. assert (E : nd = 0) by lia. rewrite E. exists b.
    split; [reflexivity|]. split; [lia|]. split; [intros k; cbn; now rewrite Nat.sub_0_r|]. intros e. f_equal. apply functional_extensionality. intros k.
    unfold over. cbn. f_equal. lia. }
  destruct HB as (b' & -> & Lb & Ab & Vb). cbn [bind]. unfold la_inner.
  destruct (sum_product_trailing A b' (P ++ r) d (AxList (map (fun i => (Z.of_nat i - Z.of_nat nd)%Z) (seq 0 nd)))) as (y & Ey & By & _ & Vy).
  - now rewrite <- app_assoc.
  - unfold ndim in *. split; [rewrite !app_length; fold nd; lia|]. intros k. rewrite Ab. specialize (B4 (if k <? nd then k else k - nd)). rewrite ax_app in B4. rewrite (ax_app (P ++ r) d), (ax_app P r). fold nd in B4 |- *. rewrite HL.
    repeat match goal with |- context [?a <? ?b] => destruct (Nat.ltb_spec a b) | H : context [?a <? ?b] |- _ => destruct (Nat.ltb_spec a b) end; try lia; try (now left); exact B4.
  - fold nd. lia.
  - intros k Hk. right. fold nd in Hk. rewrite Ab. apply Nat.ltb_lt in Hk as Hk'. rewrite Hk'. now apply B2.
  - intros n Hn. now apply asked_back.
  - exact I.
  - exists y. split; [exact Ey|]. split; [exact By|]. intros e He. rewrite (Vy e He). apply total_ext. intros v Hv. f_equal. rewrite Vb.
    f_equal. apply functional_extensionality. intros k. unfold over, join. fold nd.
    repeat match goal with |- context [?a <? ?b] => destruct (Nat.ltb_spec a b) end; try lia; try reflexivity; f_equal; lia.
Qed.

(** ** Sums of arrays *)
Lemma reduce_add_ok : forall P d l, l <> [] -> Forall (variable_of P d) l ->
  exists y, np_reduce_add l = Ok y /\ variable_of P d y /\ forall e, bget y e = lsum (map (fun a => bget a e) l).
Proof.
  intros P d [|a l] N H; [congruence|]. inversion H as [|? ? Ha Hl]; subst. cbn [np_reduce_add]. clear N H.
  revert a Ha. induction l as [|b l IH]; intros a Ha.
  - exists a. split; [reflexivity|]. split; [exact Ha|]. intros e. unfold lsum. cbn. ring.
  - inversion Hl as [|? ? Hb Hl']; subst. destruct (variable_map2 P d Rplus a b Ha Hb) as (c & Ec & Vc & Gc).
    destruct (IH Hl' c Vc) as (y & Ey & Vy & Gy). exists y. cbn [foldM]. rewrite Ec. cbn [bind]. split; [exact Ey|]. split; [exact Vy|].
    intros e. rewrite Gy. cbn [map]. change (lsum (?a :: ?l)) with (a + lsum l)%R. rewrite Gc. change (lsum (?a :: ?l)) with (a + lsum l)%R. ring.
Qed.
