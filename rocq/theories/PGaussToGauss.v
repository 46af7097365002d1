(** C55: a Gaussian array seen as plates of smaller Gaussian arrays. *)
From Coq Require Import List Arith ZArith Lia Bool Reals Lra FunctionalExtensionality.
From Verif Require Import Base Shapes SpecShapes ShapesLemmas NumPy MiscArray TensorLemmas
  EinsumLemmas SpecArray SumMultiplyLemmas PlateSumLemmas MessageLemmas ShapeOpsLemmas
  EinsumGen Diag DiagLemmas PDiag ExpFam ExpFamBound NetworkLemmas PExpFam TakeLemmas LinearDet LinearDet2 GaussToGauss.
Import ListNotations.
Open Scope nat_scope.

(** Equal on the first n axes. *)
Definition same_index (n : nat) (v w : env) : bool := forallb (fun k => v k =? w k) (seq 0 n).

Lemma same_index_iff : forall n v w, same_index n v w = true <-> forall k, k < n -> v k = w k.
Proof.
  intros n v w. unfold same_index. rewrite forallb_forall. split.
  - intros H k Hk. apply Nat.eqb_eq, H, in_seq. lia.
  - intros H k Hk. apply in_seq in Hk. apply Nat.eqb_eq, H. lia.
Qed.
Lemma valid_ext_env : forall s v w, valid s v -> valid s w -> (forall k, k < length s -> v k = w k) -> v = w.
Proof.
  intros s v w Hv Hw H. apply functional_extensionality. intros k. destruct (Nat.lt_ge_cases k (length s)); [now apply H|].
  generalize (Hv k) (Hw k). rewrite ax_overflow by lia. lia.
Qed.
Lemma atleast_idem : forall (x y : arr R) n, atleast_nd x n = Ok y -> n <= length (ash y) -> atleast_nd y n = Ok y.
Proof. intros x y n _ H. unfold atleast_nd. destruct (Nat.ltb_spec (ndim y) n); [unfold ndim in *; lia|reflexivity]. Qed.
Lemma make_diag_atleast : forall (x y : arr R) n, 0 < n -> atleast_nd x n = Ok y -> n <= length (ash y) ->
  make_diag x (Z.of_nat n) 0 = make_diag y (Z.of_nat n) 0.
Proof.
  intros x y n Hn Ha Hl. unfold make_diag. rewrite !Nat2Z.id. change (Z.to_nat 0) with 0.
  destruct (Z.of_nat n <? 0)%Z; [reflexivity|]. change (0 <? 0)%Z with false. cbv iota.
  destruct (Z.of_nat n =? 0)%Z eqn:E; [lia|].
  destruct (Nat.ltb_spec (ndim x) (2 * 0)); [lia|]. destruct (Nat.ltb_spec (ndim y) (2 * 0)); [lia|].
  change (0 <? 0) with false. cbn [andb].
  destruct (n =? 0) eqn:E0; [apply Nat.eqb_eq in E0; lia|]. rewrite !Nat.add_0_r, Ha, (atleast_idem x y n Ha Hl). reflexivity.
Qed.
Lemma make_diag_any : forall (x : arr R) n, 0 < n ->
  exists Y, make_diag x (Z.of_nat n) 0 = Ok Y /\
    (forall k, ax (ash Y) k = ax (ash x) (if k <? n then k else k - n)) /\
    length (ash Y) = Nat.max n (ndim x) + n /\
    (forall e, valid (ash Y) e ->
       bget Y e = if same_index n e (fun k => e (n + k)) then bget x (fun k => e (n + k)) else 0%R).
Proof.
  intros x n Hn. destruct (atleast_ok _ x n) as (y & Ey & Ly & Ay & Vy).
  rewrite (make_diag_atleast x y n Hn Ey) by lia.
  destruct (C11_make_diag y n Hn ltac:(lia)) as (Y & EY & LY & AY & VY).
  exists Y. split; [exact EY|]. split; [intros k; rewrite AY; apply Ay|]. split; [lia|].
  intros e He. destruct (VY e He) as [V1 V2]. destruct (same_index n e (fun k => e (n + k))) eqn:E.
  - rewrite V1 by (apply same_index_iff; exact E). apply Vy. intros k _. specialize (He (n + k)). rewrite AY in He.
    destruct (Nat.ltb_spec (n + k) n); [lia|]. replace (n + k - n) with k in He by lia. rewrite <- Ay. exact He.
  - destruct (forallb (fun k => e k =? e (n + k)) (seq 0 n)) eqn:F; [unfold same_index in E; congruence|].
    assert (X : exists k, k < n /\ e k <> e (n + k)).
    { clear - F. assert (H : forall l, (forall k, In k l -> k < n) -> forallb (fun k => e k =? e (n + k)) l = false ->
        exists k, k < n /\ e k <> e (n + k)).
      { induction l as [|a l IH]; intros Hl H; [discriminate|]. cbn [forallb] in H.
        destruct (Nat.eqb_spec (e a) (e (n + a))) as [Ea|Ea].
        - apply IH; [intros k Hk; apply Hl; now right|exact H].
        - exists a. split; [apply Hl; now left|exact Ea]. }
      apply (H (seq 0 n)); [intros k Hk; apply in_seq in Hk; lia|exact F]. }
    destruct X as (k & Hk & Nk). exact (V2 k Hk Nk).
Qed.

(** ** Plates and shapes *)
Theorem C55_plates : forall P Q T,
  (Q <> [] -> g2g_converter (Q ++ T) (Some (Z.of_nat (length T))) = Ok (ToPlates (length T))) /\
  g2g_dims (Q ++ T) (length T) = T /\
  g2g_plates_from (Q ++ T) (length T) P = P ++ Q /\
  g2g_plates_to (Q ++ T) (length T) (P ++ Q) = P /\
  forall M, length (g2g_multiplier_from (Q ++ T) (length T) M) = length M + length Q /\
    forall k, ax (g2g_multiplier_from (Q ++ T) (length T) M) k = if k <? length Q then 1 else ax M (k - length Q).
Proof.
  intros P Q T. assert (L : length (Q ++ T) - length T = length Q) by (rewrite app_length; lia). repeat apply conj.
  - intros HQ. unfold g2g_converter. destruct Q as [|q Q]; [congruence|]. rewrite app_length. cbn [length].
    destruct (Z.eqb_spec (Z.of_nat (length T)) (Z.of_nat (S (length Q) + length T))); [lia|].
    destruct (Z.ltb_spec (Z.of_nat (length T)) 0); [lia|].
    destruct (Z.ltb_spec (Z.of_nat (S (length Q) + length T)) (Z.of_nat (length T))); [lia|]. now rewrite Nat2Z.id.
  - unfold g2g_dims, last_dims. destruct (Nat.eqb_spec (length T) 0) as [E|E]; [destruct T; [reflexivity|discriminate]|].
    rewrite L. rewrite skipn_app, skipn_all, Nat.sub_diag. reflexivity.
  - unfold g2g_plates_from. rewrite L. destruct (Nat.eqb_spec (length Q) 0) as [E|E].
    + destruct Q; [now rewrite app_nil_r|discriminate].
    + rewrite firstn_app, firstn_all, Nat.sub_diag. cbn [firstn]. now rewrite app_nil_r.
  - unfold g2g_plates_to. rewrite L. destruct (Nat.eqb_spec (length Q) 0) as [E|E].
    + destruct Q; [now rewrite app_nil_r|discriminate].
    + rewrite app_length. replace (length P + length Q - length Q) with (length P) by lia.
      rewrite firstn_app, firstn_all, Nat.sub_diag. cbn [firstn]. now rewrite app_nil_r.
  - intros M. unfold g2g_multiplier_from. rewrite L, app_length, repeat_length. split; [reflexivity|].
    intros k. rewrite ax_app, repeat_length. destruct (Nat.ltb_spec k (length Q)) as [C|C]; [|reflexivity].
    rewrite <- (app_nil_r (repeat 1 (length Q))), ax_repeat_units. apply ax_overflow. cbn. lia.
Qed.
Print Assumptions C55_plates.

(** ** Moments: element q of the new plates has the moments of row q of the array. *)
Theorem C55_moments : forall P Q T (u0 u1 : arr R), Q <> [] ->
  let S := Q ++ T in
  broadcasts_to (ash u0) (P ++ S) -> broadcasts_to (ash u1) (P ++ S ++ S) ->
  2 * length S <= ndim u1 -> (forall k, k < 2 * length S -> ax (ash u1) k = ax (S ++ S) k) ->
  exists x0 x1, g2g_moments S (length T) (u0, u1) = Ok (x0, x1) /\
    broadcasts_to (ash x0) ((P ++ Q) ++ T) /\ broadcasts_to (ash x1) ((P ++ Q) ++ T ++ T) /\
    (forall p q a, valid P p -> valid Q q -> valid T a ->
       bget x0 (join (length T) (join (length Q) p q) a) = bget u0 (join (length S) p (join (length T) q a))) /\
    (forall p q a b, valid P p -> valid Q q -> valid T a -> valid T b ->
       bget x1 (join (length T) (join (length T) (join (length Q) p q) a) b) =
       bget u1 (join (length S) (join (length S) p (join (length T) q a)) (join (length T) q b))).
Proof.
  intros P Q T u0 u1 HQ S B0 B1 L1 A1.
  assert (ES : S = Q ++ T) by reflexivity. clearbody S.
  assert (LS : length S = length Q + length T) by (rewrite ES; apply app_length).
  assert (AS : forall i, ax S i = if i <? length T then ax T i else ax Q (i - length T)) by (intros; rewrite ES; apply ax_app).
  assert (LQ : 0 < length Q) by (destruct Q; [congruence|cbn; lia]).
  unfold g2g_moments. destruct (Nat.eqb_spec (length T) (length S)); [lia|]. cbn [fst snd].
  destruct (C11_get_diag u1 (length S) (length T)) as [G _]; [lia|lia|].
  assert (SQ : square (length S) (ash u1)).
  { split; [exact L1|]. intros k Hk. rewrite !A1 by lia. rewrite !ax_app.
    destruct (Nat.ltb_spec k (length S)); [|lia]. destruct (Nat.ltb_spec (length S + k) (length S)); [lia|]. f_equal. lia. }
  destruct (G SQ) as (Y & EY & LY & AY & VY). rewrite EY. cbn [bind].
  exists u0, Y. split; [reflexivity|].
  assert (BY : broadcasts_to (ash Y) ((P ++ Q) ++ T ++ T)).
  { destruct B1 as [BL BA]. split.
    - rewrite LY. rewrite !app_length in *. unfold ndim in *. lia.
    - intros k. rewrite AY. set (t := length T) in *. set (j := if k <? t then k else k - t + length S).
      assert (E : ax ((P ++ Q) ++ T ++ T) k = ax (P ++ S ++ S) j).
      { unfold j. rewrite !ax_app, !app_length. fold t. rewrite !AS. fold t. rewrite LS.
        destruct (Nat.ltb_spec k t) as [C|C].
        - destruct (Nat.ltb_spec k (t + t)); [|lia]. destruct (Nat.ltb_spec k (length Q + t + (length Q + t))); [|lia].
          destruct (Nat.ltb_spec k (length Q + t)); [|lia]. destruct (Nat.ltb_spec k t); [reflexivity|lia].
        - destruct (Nat.ltb_spec k (t + t)) as [D|D].
          + destruct (Nat.ltb_spec (k - t + (length Q + t)) (length Q + t + (length Q + t))); [|lia].
            destruct (Nat.ltb_spec (k - t + (length Q + t)) (length Q + t)); [lia|].
            replace (k - t + (length Q + t) - (length Q + t)) with (k - t) by lia.
            destruct (Nat.ltb_spec (k - t) t); [reflexivity|lia].
          + destruct (Nat.ltb_spec (k - (t + t)) (length Q)) as [F|F].
            * destruct (Nat.ltb_spec (k - t + (length Q + t)) (length Q + t + (length Q + t))); [|lia].
              destruct (Nat.ltb_spec (k - t + (length Q + t)) (length Q + t)); [lia|].
              replace (k - t + (length Q + t) - (length Q + t)) with (k - t) by lia.
              destruct (Nat.ltb_spec (k - t) t); [lia|]. f_equal. lia.
            * destruct (Nat.ltb_spec (k - t + (length Q + t)) (length Q + t + (length Q + t))); [lia|]. f_equal. lia. }
      rewrite E. apply BA. }
  split; [rewrite ES in B0; rewrite app_assoc in B0; exact B0|]. split; [exact BY|]. split.
  - intros p q a Hp Hq Ha. f_equal. apply functional_extensionality. intros k. unfold join. rewrite LS.
    destruct (Nat.ltb_spec k (length T)) as [C|C].
    + destruct (Nat.ltb_spec k (length Q + length T)); [reflexivity|lia].
    + destruct (Nat.ltb_spec k (length Q + length T)) as [D|D]; destruct (Nat.ltb_spec (k - length T) (length Q)); try lia; try reflexivity; f_equal; lia.
  - intros p q a b Hp Hq Ha Hb.
    assert (HV : valid ((P ++ Q) ++ T ++ T) (join (length T) (join (length T) (join (length Q) p q) a) b)).
    { rewrite app_assoc. apply join_valid; [|exact Hb]. apply join_valid; [|exact Ha]. now apply join_valid. }
    assert (EX : bget Y (join (length T) (join (length T) (join (length Q) p q) a) b) =
                 bget Y (clip (ash Y) (join (length T) (join (length T) (join (length Q) p q) a) b))).
    { apply bget_ext. intros k _ N. unfold clip. apply Nat.eqb_neq in N. now rewrite N. }
    rewrite EX, VY.
    + apply bget_ext. intros k Hk N. unfold diag_source, clip. rewrite !AY.
      set (t := length T) in *. unfold join. rewrite LS.
      destruct (Nat.ltb_spec k t) as [C|C].
      * destruct (Nat.ltb_spec k t); [|lia]. destruct (Nat.ltb_spec k (length Q + t)); [|lia].
        destruct (Nat.eqb_spec (ax (ash u1) k) 1); [contradiction|reflexivity].
      * destruct (Nat.ltb_spec k (length Q + t)) as [D|D].
        -- destruct (Nat.ltb_spec (k + t) t); [lia|]. replace (k + t - t) with k by lia.
           replace (ax (ash u1) (k + (length Q + t))) with (ax (ash u1) k).
           2:{ rewrite !A1 by lia. rewrite !ax_app. destruct (Nat.ltb_spec k (length S)); [|lia].
               destruct (Nat.ltb_spec (k + (length Q + t)) (length S)); [lia|]. f_equal. lia. }
           destruct (Nat.eqb_spec (ax (ash u1) k) 1); [contradiction|].
           destruct (Nat.ltb_spec k t); [lia|]. destruct (Nat.ltb_spec (k - t) (length Q)); [reflexivity|lia].
        -- set (j := k - (length Q + t)). destruct (Nat.ltb_spec (j + t) t); [lia|].
           replace (j + t - t) with j by lia. replace (j + (length Q + t)) with k by lia.
           destruct (Nat.eqb_spec (ax (ash u1) k) 1); [contradiction|].
           destruct (Nat.ltb_spec j t) as [F|F]; [destruct (Nat.ltb_spec j (length Q + t)); [reflexivity|lia]|].
           destruct (Nat.ltb_spec j (length Q + t)) as [G1|G1]; destruct (Nat.ltb_spec (j - t) (length Q)); try lia; try reflexivity; f_equal; lia.
    + intros k. unfold clip. destruct (Nat.eqb_spec (ax (ash Y) k) 1) as [E1|E1]; [lia|].
      destruct BY as [_ BY]. destruct (BY k) as [E2|E2]; [contradiction|]. rewrite E2. apply HV.
Qed.
Print Assumptions C55_moments.

(** ** Messages, when every axis of the array becomes a plate axis. *)
Lemma trailing_broadcasts : forall (P D : shape), broadcasts_to D (P ++ D).
Proof.
  intros P D. split; [rewrite app_length; lia|]. intros k. rewrite ax_app.
  destruct (Nat.ltb_spec k (length D)); [now right|]. left. apply ax_overflow. lia.
Qed.
Lemma ones_get : forall s e, bget (np_ones s) e = 1%R.
Proof. reflexivity. Qed.
Lemma bget_clipped : forall A (y : arr A) e, bget y e = bget y (clip (ash y) e).
Proof. intros. apply bget_ext. intros k _ N. unfold clip. apply Nat.eqb_neq in N. now rewrite N. Qed.
Lemma clip_ok : forall (y s : shape) e, broadcasts_to y s -> valid s e -> valid y (clip y e).
Proof.
  intros y s e [_ B] V k. unfold clip. destruct (Nat.eqb_spec (ax y k) 1) as [E|E]; [lia|].
  destruct (B k) as [C|C]; [contradiction|]. rewrite C. apply V.
Qed.
Lemma join_high : forall n p v k, join n p v (n + k) = p k.
Proof. intros. unfold join. destruct (Nat.ltb_spec (n + k) n); [lia|]. f_equal. lia. Qed.
Lemma join_low : forall n p v k, k < n -> join n p v k = v k.
Proof. intros n p v k H. unfold join. apply Nat.ltb_lt in H. now rewrite H. Qed.

Lemma join_none : forall p v, join 0 p v = p.
Proof. intros. apply functional_extensionality. intros k. unfold join. cbn. now rewrite Nat.sub_0_r. Qed.

Theorem C55_message : forall P D (m0 m1 : arr R), D <> [] ->
  broadcasts_to (ash m0) (P ++ D) -> broadcasts_to (ash m1) (P ++ D) ->
  exists y0 y1, g2g_message D 0 (m0, m1) = Ok (y0, y1) /\
    broadcasts_to (ash y0) (P ++ D) /\ broadcasts_to (ash y1) (P ++ D ++ D) /\
    (forall k, k < length D -> ax (ash y0) k = ax D k) /\
    (forall k, k < 2 * length D -> ax (ash y1) k = ax (D ++ D) k) /\
    (forall p v, valid P p -> valid D v ->
       bget y0 (join (length D) p v) = bget m0 (join (length D) p v)) /\
    (forall p v w, valid P p -> valid D v -> valid D w ->
       bget y1 (join (length D) (join (length D) p v) w) =
       if same_index (length D) v w then bget m1 (join (length D) p v) else 0%R).
Proof.
  intros P D m0 m1 HD B0 B1. set (n := length D). assert (Hn : 0 < n) by (unfold n; destruct D; [congruence|cbn; lia]).
  unfold g2g_message. cbn [fst snd].
  destruct (map2_exists _ _ _ Rmult m0 (np_ones D) (P ++ D) B0 (trailing_broadcasts P D)) as (y0 & E0 & N0 & BY0 & V0).
  unfold np_multiply at 1. rewrite E0. cbn [bind].
  destruct (make_diag_any m1 n Hn) as (d & Ed & Ad & Ld & Vd). fold n. change (Z.of_nat 0) with 0%Z. rewrite Ed. cbn [bind].
  destruct (identity_spec D) as (I & EI & SI & VI). rewrite EI. cbn [bind].
  assert (Bd : broadcasts_to (ash d) (P ++ D ++ D)).
  { destruct B1 as [L1 A1]. split.
    - rewrite Ld. rewrite !app_length in *. fold n in L1 |- *. unfold ndim. lia.
    - intros k. rewrite Ad. set (j := if k <? n then k else k - n). destruct (A1 j) as [E|E]; [now left|right]. rewrite E.
      unfold j. rewrite !ax_app, !app_length. fold n. destruct (Nat.ltb_spec k n) as [C|C].
      + destruct (Nat.ltb_spec k n); [|lia]. destruct (Nat.ltb_spec k (n + n)); [reflexivity|lia].
      + destruct (Nat.ltb_spec k (n + n)) as [F|F]; destruct (Nat.ltb_spec (k - n) n); try lia; try reflexivity; f_equal; lia. }
  assert (BI : broadcasts_to (ash I) (P ++ D ++ D)) by (rewrite SI; apply trailing_broadcasts).
  destruct (map2_exists _ _ _ Rmult d I (P ++ D ++ D) Bd BI) as (y1 & E1 & N1 & BY1 & V1).
  unfold np_multiply. rewrite E1. cbn [bind]. exists y0, y1. split; [reflexivity|].
  split; [exact BY0|]. split; [exact BY1|]. repeat apply conj.
  - intros k Hk. destruct N0 as (_ & _ & H). specialize (H k). destruct H as [H _].
    destruct (H D (or_intror (or_introl eq_refl))) as [E|E]; [|now symmetry].
    destruct BY0 as [_ B]. destruct (B k) as [F|F]; rewrite F; [now symmetry|].
    rewrite ax_app. fold n. destruct (Nat.ltb_spec k n); [reflexivity|unfold n in *; lia].
  - intros k Hk. destruct BY1 as [_ B]. destruct N1 as (_ & _ & H). specialize (H k). destruct H as [H _].
    assert (IN : In (ash I) [ash d; ash I]) by (right; now left).
    destruct (H (ash I) IN) as [E|E]; [|rewrite <- E, SI; reflexivity].
    rewrite SI in E. destruct (B k) as [F|F]; rewrite F; [now symmetry|].
    rewrite ax_app, app_length. fold n. destruct (Nat.ltb_spec k (n + n)); [reflexivity|unfold n in *; lia].
  - intros p v Hp Hv. rewrite V0, ones_get. ring.
  - intros p v w Hp Hv Hw. set (e := join n (join n p v) w).
    assert (Ve : valid (P ++ D ++ D) e).
    { unfold e, n. rewrite app_assoc. apply join_valid; [|exact Hw]. now apply join_valid. }
    rewrite V1. rewrite VI.
    2:{ intros k Hk. fold n in Hk. specialize (Ve k). rewrite ax_app, app_length in Ve. fold n in Ve.
        destruct (Nat.ltb_spec k (n + n)); [exact Ve|lia]. }
    fold n. assert (SAME : same_index n v w = on_diagonal n e).
    { apply eq_true_iff_eq. rewrite same_index_iff, on_diagonal_iff. unfold e. split; intros H k Hk; specialize (H k Hk).
      - rewrite join_high, !join_low by exact Hk. now symmetry.
      - rewrite join_high, !join_low in H by exact Hk. now symmetry. }
    rewrite SAME. destruct (on_diagonal n e) eqn:OD; [|ring]. rewrite Rmult_1_r.
    rewrite (bget_clipped _ d e), Vd by exact (clip_ok _ _ _ Bd Ve).
    rewrite (proj2 (same_index_iff _ _ _)).
    + rewrite (bget_clipped _ m1). apply eq_trans with (bget m1 (clip (ash m1) (join n p v))); [|symmetry; apply bget_clipped].
      f_equal. apply functional_extensionality. intros k. unfold clip at 1 3. destruct (Nat.eqb_spec (ax (ash m1) k) 1) as [E|E]; [reflexivity|].
      unfold clip. rewrite Ad. destruct (Nat.ltb_spec (n + k) n); [lia|]. replace (n + k - n) with k by lia.
      apply Nat.eqb_neq in E. rewrite E. unfold e. apply join_high.
    + intros k Hk. unfold clip. rewrite !Ad. destruct (Nat.ltb_spec k n); [|lia]. destruct (Nat.ltb_spec (n + k) n); [lia|].
      replace (n + k - n) with k by lia. destruct (ax (ash m1) k =? 1); [reflexivity|].
      apply (proj1 (on_diagonal_iff n e) OD). exact Hk.
Qed.
Print Assumptions C55_message.

(** The message is the adjoint of the moments: at every plate p of the parent, the inner
    product of its message with its moments is the sum, over the new plates, of the
    inner products of the messages of the children with the moments they see. *)
Theorem C55_adjoint : forall P D (u0 u1 m0 m1 : arr R), D <> [] ->
  broadcasts_to (ash u0) (P ++ D) -> broadcasts_to (ash u1) (P ++ D ++ D) ->
  2 * length D <= ndim u1 -> (forall k, k < 2 * length D -> ax (ash u1) k = ax (D ++ D) k) ->
  broadcasts_to (ash m0) (P ++ D) -> broadcasts_to (ash m1) (P ++ D) ->
  exists x0 x1 y0 y1, g2g_moments D 0 (u0, u1) = Ok (x0, x1) /\ g2g_message D 0 (m0, m1) = Ok (y0, y1) /\
    forall p, valid P p ->
      (total D (fun v => bget y0 (join (length D) p v) * bget u0 (join (length D) p v))
       + total (D ++ D) (fun e => bget y1 (join (2 * length D) p e) * bget u1 (join (2 * length D) p e))
       = total D (fun q => bget m0 (join (length D) p q) * bget x0 (join (length D) p q)
                           + bget m1 (join (length D) p q) * bget x1 (join (length D) p q)))%R.
Proof.
  intros P D u0 u1 m0 m1 HD B0 B1 L1 A1 M0 M1.
  destruct (C55_moments P D [] u0 u1 HD) as (x0 & x1 & EX & _ & _ & X0 & X1); rewrite ?app_nil_r; try assumption.
  rewrite ?app_nil_r in *. cbn [length] in *.
  destruct (C55_message P D m0 m1 HD M0 M1) as (y0 & y1 & EY & _ & _ & _ & _ & Y0 & Y1).
  exists x0, x1, y0, y1. split; [exact EX|]. split; [exact EY|]. intros p Hp. set (n := length D) in *.
  assert (VN : valid [] env0) by (intros k; unfold env0; destruct k; cbn; lia).
  rewrite total_app. fold n. rewrite <- NetworkLemmas.total_add. apply total_ext. intros v Hv. rewrite Y0 by assumption.
  assert (Ev : forall q, valid D q -> bget x0 (join n p q) = bget u0 (join n p q) /\ bget x1 (join n p q) = bget u1 (join n (join n p q) q)).
  { intros q Hq. split.
    - specialize (X0 p q env0 Hp Hq VN). rewrite !join_none in X0. exact X0.
    - specialize (X1 p q env0 env0 Hp Hq VN VN). rewrite !join_none in X1. exact X1. }
  destruct (Ev v Hv) as [-> ->]. f_equal.
  assert (JJ : forall w, join (2 * n) p (join n v w) = join n (join n p v) w).
  { intros w. apply functional_extensionality. intros k. unfold join.
    destruct (Nat.ltb_spec k (2 * n)), (Nat.ltb_spec k n); try lia; try reflexivity;
      destruct (Nat.ltb_spec (k - n) n); try lia; try reflexivity; f_equal; lia. }
  rewrite (total_ext D _ (fun w => if maps_to (length D) D w v then bget m1 (join n p v) * bget u1 (join n (join n p v) w) else 0)%R).
  - now rewrite total_pick.
  - intros w Hw. rewrite JJ, Y1 by assumption.
    assert (SM : same_index n v w = maps_to (length D) D w v).
    { apply eq_true_iff_eq. rewrite same_index_iff. unfold maps_to. rewrite forallb_forall. fold n.
      assert (CL : forall k, clip D w k = w k).
      { intros k. unfold clip. destruct (Nat.eqb_spec (ax D k) 1) as [E|E]; [|reflexivity]. specialize (Hw k). lia. }
      split.
      - intros H k Hk. apply in_seq in Hk. rewrite CL. apply Nat.eqb_eq. symmetry. apply H. lia.
      - intros H k Hk. specialize (H k). rewrite CL in H. symmetry. apply Nat.eqb_eq, H, in_seq. lia. }
    rewrite SM. destruct (maps_to (length D) D w v); ring.
Qed.
Print Assumptions C55_adjoint.

(** ** Masks: a plate of the parent is needed iff one of the new plates below it is. *)
Lemma lsum_01 : forall l, (forall x, In x l -> x = 0 \/ x = 1)%R -> (0 <= lsum l)%R /\ (lsum l <> 0%R <-> In 1%R l).
Proof.
  induction l as [|a l IH]; intros H; [split; [apply Rle_refl|split; [cbn; intros X; now elim X|intros []]]|].
  destruct IH as [P I]; [intros x Hx; apply H; now right|]. change (lsum (a :: l)) with (a + lsum l)%R.
  destruct (H a (or_introl eq_refl)) as [->| ->].
  - rewrite Rplus_0_l. split; [exact P|]. rewrite I. split; [intros X; now right|].
    intros [X|X]; [exfalso; lra|exact X].
  - split; [lra|]. split; [intros _; now left|]. intros _. lra.
Qed.

Theorem C55_mask : forall P Q T (w : arr bool), Q <> [] -> broadcasts_to (ash w) (P ++ Q) ->
  exists y, g2g_weights (Q ++ T) (length T) w = Ok y /\ broadcasts_to (ash y) P /\
    forall p, valid P p ->
      (bget y p <> 0%R <-> exists q, valid Q q /\ bget w (join (length Q) p q) = true).
Proof.
  intros P Q T w HQ Bw. unfold g2g_weights. replace (length (Q ++ T) - length T) with (length Q) by (rewrite app_length; lia).
  destruct (Nat.eqb_spec (length Q) 0) as [E|E]; [destruct Q; [congruence|discriminate]|].
  rewrite firstn_app, firstn_all, Nat.sub_diag. cbn [firstn]. rewrite app_nil_r.
  set (f := fun b : bool => if b then 1%R else 0%R).
  destruct (map2_exists _ _ _ Rmult (np_map f w) (np_ones Q) (P ++ Q) Bw (trailing_broadcasts P Q)) as (x & Ex & Nx & Bx & Vx).
  unfold np_multiply. rewrite Ex. cbn [bind]. eexists. split; [reflexivity|].
  assert (Lx : length Q <= ndim x) by (destruct Nx as (H & _ & _); apply (H Q); right; now left).
  assert (Ax : forall k, k < length Q -> ax (ash x) k = ax Q k).
  { intros k Hk. destruct Nx as (_ & _ & H). specialize (H k). destruct H as [H _].
    destruct (H Q (or_intror (or_introl eq_refl))) as [F|F]; [|now symmetry].
    destruct Bx as [_ B]. destruct (B k) as [G|G]; rewrite G; [now symmetry|].
    rewrite ax_app. apply Nat.ltb_lt in Hk. now rewrite Hk. }
  destruct (np_sum_trailing x Q Lx Ax) as (NY & AY & VY). split.
  - split.
    + fold (ndim (np_sum x (seq 0 (length Q)))). rewrite NY. destruct Bx as [B _]. rewrite app_length in B. unfold ndim. lia.
    + intros k. rewrite AY. destruct Bx as [_ B]. destruct (B (k + length Q)) as [G|G]; [now left|right]. rewrite G, ax_app.
      destruct (Nat.ltb_spec (k + length Q) (length Q)); [lia|]. f_equal. lia.
  - intros p Hp. rewrite VY. unfold total.
    rewrite (proj2 (lsum_01 _ ltac:(intros z Hz; apply in_map_iff in Hz; destruct Hz as (q & <- & _); rewrite Vx, ones_get, bget_map, Rmult_1_r; unfold f; destruct (bget w _); auto))).
    rewrite in_map_iff. split.
    + intros (q & Eq & Iq). exists q. split; [now apply all_indices_valid|]. rewrite Vx, ones_get, bget_map, Rmult_1_r in Eq. unfold f in Eq.
      destruct (bget w _); [reflexivity|exfalso; lra].
    + intros (q & Vq & Eq). exists q. split; [|now apply all_indices_complete]. rewrite Vx, ones_get, bget_map, Eq. unfold f. lra.
Qed.
Print Assumptions C55_mask.

(** When an axis is kept (here rows of length 2), the message loses the off-diagonal
    elements of the second part: a child that couples the two elements of a row sends
    the matrix [[1,1],[1,1]], the parent receives the identity, and the message is no
    longer the adjoint of the moments (2 instead of 4). *)
Theorem C55_kept_axes_refuted : exists u m x y,
  ash (snd u) = [1; 2; 1; 2] /\ g2g_moments [1; 2] 1 u = Ok x /\ g2g_message [1; 2] 1 m = Ok y /\
  ash (snd m) = [1; 2; 2] /\ ash (snd x) = [1; 2; 2] /\ ash (snd y) = [1; 2; 1; 2] /\
  bget (snd m) (at_index [0; 0; 1]) = 1%R /\ bget (snd y) (at_index [0; 0; 0; 1]) = 0%R /\
  total [1; 2; 1; 2] (fun e => bget (snd y) e * bget (snd u) e)%R = 2%R /\
  total [1; 2; 2] (fun e => bget (snd m) e * bget (snd x) e)%R = 4%R.
Proof.
  set (m1 := Arr [1; 2; 2] (fun _ => 1%R)). set (m0 := Arr [1; 2] (fun _ => 0%R)).
  set (u1 := Arr [1; 2; 1; 2] (fun _ => 1%R)). set (u0 := Arr [1; 2] (fun _ => 1%R)).
  destruct (C55_moments [] [1] [2] u0 u1) as (x0 & x1 & EX & _ & BX1 & _ & X1).
  { discriminate. } { apply broadcasts_to_refl. } { apply broadcasts_to_refl. } { cbn. lia. } { reflexivity. }
  destruct (C11_get_diag u1 2 1) as [G _]; [lia|lia|]. destruct G as (Z & HZ & LZ & AZ & VZ).
  { split; [cbn; lia|]. intros [|[|k]] Hk; try reflexivity. lia. }
  assert (SZ : ash Z = [1; 2; 2]).
  { apply shape_ext; [rewrite LZ; reflexivity|]. intros [|[|[|k]]]; rewrite AZ; try reflexivity.
    rewrite !ax_overflow by (cbn; lia). reflexivity. }
  destruct (identity_spec [1; 2]) as [I [HI [SI VI]]].
  destruct (add_axes_spec R m1 1 1) as [NA [SA VA]]; [cbn; lia|].
  set (A := add_axes m1 1 (ndim m1 - 1)) in *.
  assert (SA' : ash A = [1; 2; 1; 2]) by reflexivity.
  destruct (np_map2_total _ _ _ Rmult I A [1; 2; 1; 2]) as [Y [HY SY]].
  { rewrite SI, SA'. reflexivity. }
  assert (MY : make_diag m1 2 1 = Ok Y).
  { transitivity (I <- identity [1; 2] ;; np_multiply I A); [reflexivity|]. rewrite HI. exact HY. }
  destruct (np_map2_total _ _ _ Rmult Y I [1; 2; 1; 2]) as [y1 [Hy1 Sy1]].
  { rewrite SI, SY. reflexivity. }
  destruct (np_map2_total _ _ _ Rmult m0 (np_ones [1; 2]) [1; 2]) as [y0 [Hy0 Sy0]]; [reflexivity|].
  exists (u0, u1), (m0, m1), (u0, Z), (y0, y1). cbn [fst snd].
  apply np_map2_ok in HY as [_ VY]. apply np_map2_ok in Hy1 as Hy1'. destruct Hy1' as [_ V1].
  assert (VV : forall e, (forall k, k < 4 -> e k < ax [1; 2; 1; 2] k) -> bget y1 e = if e 0 =? e 2 then 1%R else 0%R).
  { intros e He. rewrite V1, VY, VI by exact He.
    assert (A1 : bget A e = 1%R) by (rewrite VA; reflexivity). rewrite A1.
    generalize (He 1) (He 3). cbn. intros H1 H3.
    replace (e 1) with 0 by (generalize (H1 ltac:(lia)); lia). replace (e 3) with 0 by (generalize (H3 ltac:(lia)); lia). cbn.
    rewrite Bool.andb_true_r. destruct (e 0 =? e 2); ring. }
  split; [reflexivity|]. split; [unfold g2g_moments; cbn [fst snd length Nat.eqb]; change (Z.of_nat 2) with 2%Z in HZ; change (Z.of_nat 1) with 1%Z in HZ; change (Z.of_nat 1) with 1%Z; change (Z.of_nat 2) with 2%Z; rewrite HZ; reflexivity|].
  split.
  { unfold g2g_message. cbn [fst snd]. unfold np_multiply at 1. rewrite Hy0. cbn [bind length].
    change (Z.of_nat 1) with 1%Z; change (Z.of_nat 2) with 2%Z. rewrite MY. cbn [bind]. rewrite HI. cbn [bind].
    unfold np_multiply. rewrite Hy1. reflexivity. }
  split; [reflexivity|]. split; [exact SZ|]. split; [exact Sy1|]. split; [reflexivity|]. split.
  { rewrite VV; [reflexivity|]. intros [|[|[|[|k]]]] Hk; cbn in *; lia. }
  split.
  - rewrite (total_ext _ _ (fun e => if e 0 =? e 2 then 1%R else 0%R)).
    + unfold total, all_indices. cbn. lra.
    + intros e He. rewrite VV by (intros k _; apply He). unfold u1, bget. cbn. ring.
  - rewrite (total_ext _ _ (fun _ => 1)%R).
    + unfold total, all_indices. cbn. lra.
    + intros e He. rewrite VZ by (rewrite SZ; exact He). cbn. unfold m1, u1, bget. cbn. ring.
Qed.
Print Assumptions C55_kept_axes_refuted.

(** The hypotheses are met: a 2 x 3 array with four plates, a message that is broadcast
    over the plates, and a mask that switches one new plate off. *)
Example ex_to_plates :
  exists x y, g2g_moments [2; 3] 0 (Arr [4; 2; 3] (fun e => INR (e 0)), Arr [4; 2; 3; 2; 3] (fun e => INR (e 0 + e 3))) = Ok x /\
    g2g_message [2; 3] 0 (Arr [] (fun _ => 1%R), Arr [2; 1] (fun e => INR (e 1))) = Ok y /\
    bget (snd y) (at_index [0; 1; 2; 1; 2]) = 1%R /\ bget (snd y) (at_index [0; 1; 2; 1; 1]) = 0%R.
Proof.
  destruct (C55_adjoint [4] [2; 3] (Arr [4; 2; 3] (fun e => INR (e 0))) (Arr [4; 2; 3; 2; 3] (fun e => INR (e 0 + e 3)))
    (Arr [] (fun _ => 1%R)) (Arr [2; 1] (fun e => INR (e 1)))) as (x0 & x1 & y0 & y1 & EX & EY & _).
  { discriminate. } { apply broadcasts_to_refl. } { apply broadcasts_to_refl. } { cbn; lia. } { intros [|[|[|[|k]]]] Hk; cbn in *; lia. }
  { split; [cbn; lia|]. intros k. left. apply ax_overflow. cbn. lia. }
  { split; [cbn; lia|]. intros [|[|k]]; [now left|now right|]. left. apply ax_overflow. cbn. lia. }
  exists (x0, x1), (y0, y1). split; [exact EX|]. split; [exact EY|].
  destruct (C55_message [4] [2; 3] (Arr [] (fun _ => 1%R)) (Arr [2; 1] (fun e => INR (e 1)))) as (y0' & y1' & EY' & _ & _ & _ & _ & _ & V).
  { discriminate. }
  { split; [cbn; lia|]. intros k. left. apply ax_overflow. cbn. lia. }
  { split; [cbn; lia|]. intros [|[|k]]; [now left|now right|]. left. apply ax_overflow. cbn. lia. }
  rewrite EY in EY'. injection EY' as <- <-. cbn [snd].
  assert (P0 : valid [4] (at_index [0])) by (intros [|[|k]]; cbn; try lia; destruct k; cbn; lia).
  assert (P1 : forall a b, a < 2 -> b < 3 -> valid [2; 3] (at_index [a; b])).
  { intros a b Ha Hb [|[|k]]; [cbn; lia|cbn; lia|]. rewrite ax_overflow by (cbn; lia). destruct k; cbn; lia. }
  assert (JJ : forall a b c d, at_index [0; a; b; c; d] = join (length [2; 3]) (join (length [2; 3]) (at_index [0]) (at_index [a; b])) (at_index [c; d])).
  { intros a b c d. apply functional_extensionality. intros [|[|[|[|[|k]]]]]; reflexivity. }
  split.
  - rewrite JJ, (V (at_index [0]) (at_index [1; 2]) (at_index [1; 2]) P0) by (apply P1; lia). reflexivity.
  - rewrite JJ, (V (at_index [0]) (at_index [1; 2]) (at_index [1; 1]) P0) by (apply P1; lia). reflexivity.
Qed.
