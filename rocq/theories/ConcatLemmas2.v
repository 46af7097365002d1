(** ConcatGaussian: moments. *)
From Coq Require Import List Arith ZArith Lia Bool Reals Lra FunctionalExtensionality.
From Verif Require Import Base Shapes SpecShapes ShapesLemmas NumPy MiscArray SpecArray TensorLemmas
  EinsumLemmas PlateSumLemmas ShapeOpsLemmas MessageLemmas UpdateLemmas NetworkLemmas DiagLemmas GateLemmas PGate ExpFamBound TakeConcat PConcat Dot SpecDot DotNode DotPart
  Reindex DotExpect DotScale AddNode SpecAdd LinalgLemmas2 AddLemmas ConcatLemmas.
Import ListNotations.
Open Scope nat_scope.

Lemma plate_bget : forall Q c d (a : arr R) p v, length d = c -> broadcasts_to (ash a) (Q ++ d) -> bget a (join c (clip Q p) v) = bget a (join c p v).
Proof.
  intros Q c d a p v L [_ B]. apply bget_ext. intros k _ N. unfold join. destruct (Nat.ltb_spec k c); [reflexivity|]. unfold clip.
  specialize (B k). rewrite ax_app, L in B. destruct (Nat.ltb_spec k c); [lia|]. destruct (Nat.eqb_spec (ax Q (k - c)) 1); [|reflexivity]. destruct B; congruence.
Qed.

Lemma block_diag_ok : forall P n K (a : nat -> arr R), 0 < K -> (forall i, i < K -> variable_of P [n i; n i] (a i)) ->
  exists Q Y, block_diag (map a (seq 0 K)) = Ok Y /\ broadcasts_to Q P /\
    (forall i, i < K -> broadcasts_to (ash (a i)) (Q ++ [n i; n i])) /\
    grid n K Q Y (fun p i j i' j' => if i =? i' then bget (a i) (join 2 p (at_index [j; j'])) else 0%R).
Proof.
  intros P n K a HK H. unfold block_diag.
  destruct (broadcast_ok P 2 K (fun i => [n i; n i]) a HK) as (Q & b & Eb & BQ & Hb); [intros i Hi; split; [reflexivity|now apply H]|].
  change [0; 1] with (seq 0 2). rewrite Eb. cbn [bind].
  assert (E0 : ash (b 0) = Q ++ [n 0; n 0]) by now apply Hb.
  assert (ES : forall k, (k = 0 \/ k = 1) -> list_sum (map (fun x : arr R => ax (ash x) k) (map b (seq 0 K))) = start n K).
  { intros k Hk. unfold start. rewrite map_map. f_equal. apply map_ext_in. intros i Hi. apply in_seq in Hi. destruct (Hb i) as [E _]; [lia|]. rewrite E, ax_app. destruct Hk as [-> | ->]; reflexivity. }
  destruct (map b (seq 0 K)) as [|y ys] eqn:Em; [destruct K; [lia|discriminate]|].
  assert (Ey : y = b 0) by (destruct K; [lia|]; cbn in Em; congruence). subst y. rewrite <- Em in *. cbv zeta.
  unfold ndim. rewrite E0, app_length. cbn [length]. replace (length Q + 2 - 2) with (length Q) by lia. rewrite firstn_app, firstn_all, Nat.sub_diag.
  cbn [firstn]. rewrite app_nil_r, !ES by auto.
  destruct (block_fold n K Q b (fun i Hi => proj1 (Hb i Hi)) K 0 (Arr (Q ++ [start n K; start n K]) (fun _ => 0%R)) (fun _ _ _ _ _ => 0%R) eq_refl) as (Y & EY & GY).
  { split; [reflexivity|]. intros. reflexivity. }
  exists Q, Y. change (start n 0) with 0 in EY.
  match goal with |- context [foldM ?f ?s ?l] => replace (foldM f s l) with (Ok (Y, start n K, start n K) : res (arr R * nat * nat)) by (symmetry; exact EY) end. cbn [bind]. split; [reflexivity|]. split; [exact BQ|]. split; [intros i Hi; now apply Hb|].
  eapply grid_ext; [|exact GY]. intros p i j i' j' Hp Hi Hj Hi' Hj'. cbn beta. destruct (Nat.leb_spec 0 i); [|lia]. cbn [andb].
  destruct (i =? i'); [|reflexivity]. now apply Hb.
Qed.

Section Outer.
Variables (n : nat -> nat) (K : nat) (Q : shape) (u : nat -> gmom).
Hypothesis Hu : forall i, i < K -> variable_of Q [n i] (fst (u i)).
Definition X (i : nat) (p : env) (j : nat) : R := bget (fst (u i)) (join 1 p (at_index [j])).

Lemma len_u : forall i, i < K -> ax (ash (fst (u i))) 0 = n i.
Proof. intros i Hi. destruct (Hu i Hi) as (_ & A & _). now rewrite A by (cbn; lia). Qed.

Lemma one_block : forall k l, k < K -> l < K -> exists y t, la_outer (fst (u k)) (fst (u l)) 1 = Ok y /\ np_swapaxes y 0 1 = Ok t /\
  broadcasts_to (ash y) (Q ++ [n k; n l]) /\ broadcasts_to (ash t) (Q ++ [n l; n k]) /\
  forall p j j', valid Q p -> j < n k -> j' < n l ->
    bget y (join 2 p (at_index [j; j'])) = (X k p j * X l p j')%R /\ bget t (join 2 p (at_index [j'; j])) = (X k p j * X l p j')%R.
Proof.
  intros k l Hk Hl. destruct (outer_ok Q [n k] [n l] (fst (u k)) (fst (u l)) eq_refl (Hu k Hk) (Hu l Hl)) as (y & Ey & (Y1 & Y2 & Y3) & Gy). cbn [length app] in *.
  change (2 <= ndim y) in Y1.
  destruct (swapaxes_ok R y 0 1) as (t & Et & Lt & At & Gt); [lia|lia|]. exists y, t. split; [exact Ey|]. split; [exact Et|]. split; [exact Y3|]. split.
  - destruct Y3 as [B1 B2]. unfold ndim in *. split; [rewrite app_length in *; cbn [length] in *; lia|]. intros i. rewrite At. specialize (B2 (swap 0 1 i)).
    rewrite ax_app in B2 |- *. cbn [length] in *. unfold swap in *. destruct i as [|[|i]]; cbn in *; exact B2.
  - intros p j j' Hp Hj Hj'.
    assert (V : bget y (join 2 p (at_index [j; j'])) = (X k p j * X l p j')%R).
    { rewrite Gy. 2:{ apply (plate_index Q [n k; n l] p [j; j']); [now apply valid_plate|]. repeat constructor; assumption. }
      unfold X. f_equal; f_equal; apply functional_extensionality; intros i; unfold over, join, at_index.
      - destruct (Nat.ltb_spec (i + 1) 2), (Nat.ltb_spec i 1); try lia; [|f_equal; lia]. replace i with 0 by lia. reflexivity.
      - destruct (Nat.ltb_spec i 1), (Nat.ltb_spec i 2), (Nat.ltb_spec (i + 1) 2); try lia; try (f_equal; lia). replace i with 0 by lia. reflexivity. }
    split; [exact V|]. rewrite Gt, <- V. f_equal. apply functional_extensionality. intros i. unfold swap, join, at_index. destruct i as [|[|i]]; reflexivity.
Qed.

Lemma inner_fold : forall k m l Y f, k < K -> l + m <= k -> grid n K Q Y f -> exists Y',
  foldM (fun st v =>
      let '(xx, j_start) := (st : arr R * nat) in
      let j_end := j_start + ax (ash (fst v)) 0 in
      xm_xn <- la_outer (fst (u k)) (fst v) 1 ;;
      xx <- set_block xx (start n k) (start n k + n k) j_start j_end xm_xn ;;
      t <- np_swapaxes xm_xn 0 1 ;;
      xx <- set_block xx j_start j_end (start n k) (start n k + n k) t ;;
      Ok (xx, j_end)) (Y, start n l) (map u (seq l m)) = Ok (Y', start n (l + m)) /\
  grid n K Q Y' (fun p i j i' j' => if (i =? k) && ((l <=? i') && (i' <? l + m)) || (i' =? k) && ((l <=? i) && (i <? l + m)) then (X i p j * X i' p j')%R else f p i j i' j').
Proof.
  intros k m. induction m as [|m IH]; intros l Y f Hk Hm G.
  - exists Y. rewrite Nat.add_0_r. split; [reflexivity|]. eapply grid_ext; [|exact G]. intros. cbn beta.
    destruct (Nat.leb_spec l i'), (Nat.ltb_spec i' l), (Nat.leb_spec l i), (Nat.ltb_spec i l); try lia; cbn [andb]; rewrite ?andb_false_r; reflexivity.
  - cbn [seq map foldM]. assert (Hl : l < K) by lia. rewrite (len_u l Hl).
    destruct (one_block k l Hk Hl) as (y & t & -> & Et & By & Bt & V). cbn [bind].
    destruct (set_block_grid n K Q Y f k l y G Hk Hl By) as (Y1 & -> & G1). cbn [bind]. rewrite Et. cbn [bind].
    destruct (set_block_grid n K Q Y1 _ l k t G1 Hl Hk Bt) as (Y2 & -> & G2). cbn [bind].
    rewrite <- (start_S n l). destruct (IH (S l) Y2 _ Hk ltac:(lia) G2) as (Y' & E' & G'). exists Y'. replace (l + S m) with (S l + m) by lia. split; [exact E'|].
    eapply grid_ext; [|exact G']. intros p i j i' j' Hp Hi Hj Hi' Hj'. cbn beta.
    destruct (Nat.eqb_spec i k) as [->|Nk]; destruct (Nat.eqb_spec i' k) as [->|Nk']; cbn [andb orb].
    + destruct (Nat.leb_spec (S l) k), (Nat.ltb_spec k (S l + m)), (Nat.leb_spec l k), (Nat.eqb_spec k l); try lia; cbn [andb orb]; reflexivity.
    + rewrite !orb_false_r. destruct (Nat.eqb_spec k l); [lia|]. cbn [andb]. destruct (Nat.eqb_spec i' l) as [->|N].
      * destruct (Nat.leb_spec (S l) l), (Nat.leb_spec l l), (Nat.ltb_spec l (S l + m)); try lia. cbn [andb]. now apply V.
      * destruct (Nat.leb_spec (S l) i'), (Nat.leb_spec l i'); try lia; reflexivity.
    + destruct (Nat.eqb_spec i l) as [->|N].
      * destruct (Nat.leb_spec (S l) l), (Nat.leb_spec l l), (Nat.ltb_spec l (S l + m)); try lia. cbn [andb orb]. destruct (V p j' j Hp Hj' Hj) as [_ ->]. ring.
      * destruct (Nat.leb_spec (S l) i), (Nat.leb_spec l i); try lia; cbn [andb orb]; reflexivity.
    + now rewrite andb_false_r.
Qed.

Lemma outer_fold : forall m k Y f, k + m = K -> grid n K Q Y f -> exists Y',
  concat_outer (start n k) (map u (seq 0 k)) (map u (seq k m)) Y = Ok Y' /\
  grid n K Q Y' (fun p i j i' j' => if negb (i =? i') && ((k <=? i) || (k <=? i')) then (X i p j * X i' p j')%R else f p i j i' j').
Proof.
  induction m as [|m IH]; intros k Y f E G.
  - exists Y. split; [reflexivity|]. eapply grid_ext; [|exact G]. intros. cbn beta. destruct (Nat.leb_spec k i), (Nat.leb_spec k i'); try lia. now rewrite andb_false_r.
  - cbn [seq map concat_outer]. assert (Hk : k < K) by lia. rewrite (len_u k Hk).
    destruct (inner_fold k k 0 Y f Hk ltac:(lia) G) as (Y1 & E1 & G1). unfold concat_inner.
    change (start n 0) with 0 in E1. rewrite Nat.add_0_l in E1.
    match goal with |- context [foldM ?f ?s ?l] => replace (foldM f s l) with (Ok (Y1, start n k) : res (arr R * nat)) by (symmetry; exact E1) end. cbn [bind].
    rewrite <- start_S. replace (map u (seq 0 k) ++ [u k]) with (map u (seq 0 (S k))) by (rewrite seq_S, map_app; reflexivity).
    destruct (IH (S k) Y1 _ ltac:(lia) G1) as (Y' & E' & G'). exists Y'. split; [exact E'|]. eapply grid_ext; [|exact G'].
    intros p i j i' j' Hp Hi Hj Hi' Hj'. cbn beta. rewrite Nat.add_0_l.
    destruct (Nat.eqb_spec i i') as [->|N]; cbn [negb andb].
    + destruct (Nat.leb_spec 0 i'); [|lia]. cbn [andb]. destruct (Nat.eqb_spec i' k), (Nat.ltb_spec i' k); try lia; cbn [andb orb]; reflexivity.
    + destruct (Nat.leb_spec 0 i'), (Nat.leb_spec 0 i); try lia. cbn [andb].
      destruct (Nat.leb_spec (S k) i), (Nat.leb_spec (S k) i'), (Nat.leb_spec k i), (Nat.leb_spec k i'), (Nat.eqb_spec i k), (Nat.eqb_spec i' k), (Nat.ltb_spec i k), (Nat.ltb_spec i' k); try lia; cbn [andb orb]; reflexivity.
Qed.
End Outer.

Lemma plate_clip : forall Q P p, broadcasts_to Q P -> plate_in P p -> valid Q (clip Q p).
Proof.
  intros Q P p [_ B] H k. unfold clip. destruct (Nat.eqb_spec (ax Q k) 1) as [->|N]; [lia|]. destruct (B k) as [E|E]; [congruence|]. rewrite E in *. now apply H.
Qed.
Lemma variable_app : forall Q P d (y : arr R), ash y = Q ++ d -> broadcasts_to Q P -> variable_of P d y.
Proof.
  intros Q P d y E [B1 B2]. unfold variable_of, ndim. rewrite E, app_length. split; [lia|]. split.
  - intros i Hi. rewrite ax_app. apply Nat.ltb_lt in Hi. now rewrite Hi.
  - split; [rewrite !app_length; lia|]. intros k. rewrite !ax_app. destruct (k <? length d); [now right|apply B2].
Qed.
Lemma variable_narrow : forall Q P d (a : arr R), variable_of P d a -> broadcasts_to (ash a) (Q ++ d) -> variable_of Q d a.
Proof. intros Q P d a (A & B & _) C. now split. Qed.
Lemma broadcasts_app : forall Q P d, broadcasts_to Q P -> broadcasts_to (Q ++ d) (P ++ d).
Proof. intros Q P d [B1 B2]. split; [rewrite !app_length; lia|]. intros k. rewrite !ax_app. destruct (k <? length d); [now right|apply B2]. Qed.

Lemma concatenate_ok : forall P n K (a : nat -> arr R), 0 < K -> (forall i, i < K -> variable_of P [n i] (a i)) ->
  exists Q x, concatenate_last (map a (seq 0 K)) = Ok x /\ ash x = Q ++ [start n K] /\ broadcasts_to Q P /\
    (forall i, i < K -> broadcasts_to (ash (a i)) (Q ++ [n i])) /\
    forall p i j, plate_in P p -> i < K -> j < n i ->
      bget x (join 1 p (at_index [start n i + j])) = bget (a i) (join 1 p (at_index [j])).
Proof.
  intros P n K a HK H. unfold concatenate_last.
  destruct (broadcast_ok P 1 K (fun i => [n i]) a HK) as (Q & b & Eb & BQ & Hb); [intros i Hi; split; [reflexivity|now apply H]|].
  change [0] with (seq 0 1). rewrite Eb. cbn [bind].
  assert (ES : forall k, k <= K -> list_sum (map (fun x : arr R => ax (ash x) 0) (firstn k (map b (seq 0 K)))) = start n k).
  { intros k Hk. unfold start. rewrite firstn_map, map_map. replace (firstn k (seq 0 K)) with (seq 0 k).
    - f_equal. apply map_ext_in. intros i Hi. apply in_seq in Hi. destruct (Hb i) as [E _]; [lia|]. rewrite E, ax_app. reflexivity.
    - replace K with (k + (K - k)) by lia. rewrite seq_app, firstn_app, seq_length, Nat.sub_diag. cbn [firstn]. rewrite app_nil_r. symmetry. apply firstn_all2. rewrite seq_length. lia. }
  assert (E0 : ash (b 0) = Q ++ [n 0]) by now apply Hb.
  assert (EK := ES K (Nat.le_refl K)). rewrite firstn_all2 in EK by (rewrite map_length, seq_length; lia).
  assert (FA : forallb (fun y : arr R => if list_eq_dec Nat.eq_dec (set_axis 0 0 (ash y)) (set_axis 0 0 (ash (b 0))) then true else false) (map b (seq 0 K)) = true).
  { apply forallb_forall. intros y Hy. apply in_map_iff in Hy as (i & <- & Hi). apply in_seq in Hi. destruct (Hb i) as [E _]; [lia|].
    rewrite E, E0, !set_last0. now destruct (list_eq_dec Nat.eq_dec _ _). }
  unfold np_concatenate.
  destruct (map b (seq 0 K)) as [|y ys] eqn:Em; [destruct K; [lia|discriminate]|].
  assert (Ey : y = b 0) by (destruct K; [lia|]; cbn in Em; congruence). subst y. rewrite <- Em in *. rewrite FA.
  assert (T : (0 <? ndim (b 0)) = true) by (apply Nat.ltb_lt; unfold ndim; rewrite E0, app_length; cbn; lia). rewrite T. cbn [andb].
  rewrite E0, EK, set_last0. exists Q. eexists. split; [reflexivity|]. split; [reflexivity|]. split; [exact BQ|]. split; [intros i Hi; now apply Hb|].
  intros p i j Hp Hi Hj. set (x := Arr _ _).
  assert (Bx : broadcasts_to (ash x) (Q ++ [start n K])) by (split; [cbn; lia|]; now right).
  rewrite <- (plate_bget Q 1 [start n K] x p _ eq_refl Bx).
  destruct (Hb i Hi) as (Ei & Bi & Vi). rewrite <- (plate_bget Q 1 [n i] (a i) p _ eq_refl Bi), <- Vi.
  pose proof (plate_clip _ _ _ BQ Hp) as HV. unfold bget at 1. rewrite clip_valid_id.
  2:{ intros k. unfold x. cbn [ash]. rewrite ax_app. cbn [length]. unfold join. destruct (Nat.ltb_spec k 1) as [C|C]; [|apply HV]. replace k with 0 by lia. cbn. now apply start_lt. }
  unfold x. cbn [aget]. change (join 1 (clip Q p) (at_index [start n i + j]) 0) with (start n i + j). rewrite <- (ES i) by lia.
  rewrite (cat_get_ok 0 (map b (seq 0 K)) i (b i)).
  - f_equal. apply functional_extensionality. intros k. unfold upd, join. destruct k as [|k]; [reflexivity|]. reflexivity.
  - rewrite nth_error_map. replace (nth_error (seq 0 K) i) with (Some i); [reflexivity|]. symmetry. rewrite (nth_error_nth' _ 0) by (rewrite seq_length; lia). now rewrite seq_nth.
  - rewrite Ei, ax_app. exact Hj.
Qed.

Lemma concat_moments_ok : forall P n K (u : nat -> gmom), 0 < K -> (forall i, i < K -> gaussian_shaped P [n i] (u i)) ->
  exists x xx, concat_moments (map u (seq 0 K)) = Ok (x, xx) /\ variable_of P [start n K] x /\ variable_of P [start n K; start n K] xx /\
    forall p i j, plate_in P p -> i < K -> j < n i ->
      bget x (join 1 p (at_index [start n i + j])) = X u i p j /\
      forall i' j', i' < K -> j' < n i' ->
        bget xx (join 2 p (at_index [start n i + j; start n i' + j'])) =
        if i =? i' then bget (snd (u i)) (join 2 p (at_index [j; j'])) else (X u i p j * X u i' p j')%R.
Proof.
  intros P n K u HK H. unfold concat_moments. rewrite !map_map.
  destruct (concatenate_ok P n K (fun i => fst (u i)) HK) as (Q1 & x & -> & Sx & B1 & Bf & Gx); [intros i Hi; now apply H|]. cbn [bind].
  destruct (block_diag_ok P n K (fun i => snd (u i)) HK) as (Q2 & Y & -> & B2 & Bs & GY); [intros i Hi; now apply (H i Hi)|]. cbn [bind].
  assert (Epl : firstn (ndim x - 1) (ash x) = Q1).
  { unfold ndim. rewrite Sx, app_length. cbn [length]. replace (length Q1 + 1 - 1) with (length Q1) by lia. rewrite firstn_app, firstn_all, Nat.sub_diag. cbn. apply app_nil_r. }
  rewrite Epl. destruct GY as [SY GY].
  destruct (ones_times P [start n K; start n K] 2 (Q1 ++ [1; 1]) Y eq_refl) as (Z & Q3 & EZ & SZ & B3 & BY & BQ & VZ & _).
  { now apply (variable_app Q2). }
  { rewrite app_length. cbn. lia. }
  { intros k Hk. rewrite ax_app. cbn [length]. destruct (Nat.ltb_spec k 2); [|lia]. destruct k as [|[|k]]; [reflexivity|reflexivity|lia]. }
  { now apply broadcasts_app. }
  rewrite EZ. cbn [bind].
  assert (C1 : broadcasts_to Q1 Q3).
  { destruct BQ as [L BQ]. rewrite !app_length, repeat_length in L. cbn [length] in L. split; [lia|]. intros k. specialize (BQ (k + 2)). rewrite !ax_app, repeat_length in BQ. cbn [length] in BQ.
    destruct (Nat.ltb_spec (k + 2) 2); [lia|]. now replace (k + 2 - 2) with k in BQ by lia. }
  assert (C2 : broadcasts_to Q2 Q3).
  { rewrite SY in BY. destruct BY as [L BQ']. rewrite !app_length in L. cbn [length] in L. split; [lia|]. intros k. specialize (BQ' (k + 2)). rewrite !ax_app in BQ'. cbn [length] in BQ'.
    destruct (Nat.ltb_spec (k + 2) 2); [lia|]. now replace (k + 2 - 2) with k in BQ' by lia. }
  destruct (outer_fold n K Q3 u) with (m := K) (k := 0) (Y := Z) (f := fun p i j i' j' => if i =? i' then bget (snd (u i)) (join 2 p (at_index [j; j'])) else 0%R) as (xx & Exx & Sxx & Gxx).
  { intros i Hi. apply (variable_narrow Q3 P); [now apply H|]. eapply broadcasts_trans; [now apply Bf|]. now apply broadcasts_app. }
  { reflexivity. }
  { split; [exact SZ|]. intros p i j i' j' Hp Hi Hj Hi' Hj'. rewrite VZ.
    rewrite <- (plate_bget Q2 2 [start n K; start n K] Y p _ eq_refl); [|rewrite SY; split; [lia|]; now right].
    rewrite GY; try assumption; [|apply valid_clip with Q3; assumption]. destruct (i =? i'); [|reflexivity].
    apply (plate_bget Q2 2 [n i; n i]); [reflexivity|now apply Bs]. }
  change (start n 0) with 0 in Exx. cbn [seq map] in Exx. rewrite Exx. cbn [bind]. exists x, xx. split; [reflexivity|]. split; [now apply (variable_app Q1)|]. split; [now apply (variable_app Q3)|].
  intros p i j Hp Hi Hj. split; [now apply Gx|]. intros i' j' Hi' Hj'.
  rewrite <- (plate_bget Q3 2 [start n K; start n K] xx p _ eq_refl); [|rewrite Sxx; split; [lia|]; now right].
  rewrite Gxx; try assumption; [|now apply plate_clip with P].
  assert (EX : forall i j, i < K -> X u i (clip Q3 p) j = X u i p j).
  { intros a b Ha. unfold X. apply (plate_bget Q3 1 [n a]); [reflexivity|]. eapply broadcasts_trans; [now apply Bf|]. now apply broadcasts_app. }
  destruct (Nat.eqb_spec i i') as [->|N]; cbn [negb andb].
  - apply (plate_bget Q3 2 [n i'; n i']); [reflexivity|]. eapply broadcasts_trans; [now apply Bs|]. now apply broadcasts_app.
  - destruct (Nat.leb_spec 0 i); [|lia]. cbn [orb]. now rewrite !EX.
Qed.
