(** ConcatGaussian: expectations and messages. *)
From Coq Require Import List Arith ZArith Lia Bool Reals Lra FunctionalExtensionality.
From Verif Require Import Base Shapes SpecShapes ShapesLemmas NumPy MiscArray SpecArray TensorLemmas
  EinsumLemmas PlateSumLemmas ShapeOpsLemmas MessageLemmas UpdateLemmas NetworkLemmas DiagLemmas GateLemmas PGate ExpFamBound TakeConcat PConcat Dot SpecDot DotNode DotPart
  Reindex DotExpect DotScale AddNode SpecAdd LinalgLemmas2 AddLemmas ConcatLemmas ConcatLemmas2.
Import ListNotations.
Open Scope nat_scope.

(** ** Expectations *)
Definition o0 : outcome := Outcome 0 (scalar 0%R) 0.
Lemma expect_const : forall ds c, (forall d, In d ds -> mean_of d (fun _ => 1%R) = 1%R) -> expect ds (fun _ => c) = c.
Proof. intros ds c H. rewrite (expect_ext _ _ (fun _ => c * 1)%R) by (intros; ring). rewrite expect_scal, expect_one by assumption. ring. Qed.
Lemma mean_const : forall d c, mean_of d (fun _ => 1%R) = 1%R -> mean_of d (fun _ => c) = c.
Proof. intros d c H. rewrite (mean_ext _ _ (fun _ => c * 1)%R) by (intros; ring). rewrite mean_scal, H. ring. Qed.
Lemma expect_nth : forall ds i F, (forall d, In d ds -> mean_of d (fun _ => 1%R) = 1%R) -> i < length ds ->
  expect ds (fun os => F (nth i os o0)) = mean_of (nth i ds []) F.
Proof.
  induction ds as [|d r IH]; intros i F H Hi; [cbn in Hi; lia|]. cbn [expect].
  assert (Hr : forall d, In d r -> mean_of d (fun _ => 1%R) = 1%R) by (intros; apply H; now right).
  destruct i as [|i]; cbn [nth].
  - apply mean_ext. intros o _. now apply expect_const.
  - rewrite (mean_ext _ _ (fun _ => mean_of (nth i r []) F)); [apply mean_const; apply H; now left|]. intros o _. apply IH; [assumption|]. cbn in Hi. lia.
Qed.
Lemma expect_nth2 : forall ds i i' F G, (forall d, In d ds -> mean_of d (fun _ => 1%R) = 1%R) -> i < length ds -> i' < length ds -> i <> i' ->
  expect ds (fun os => F (nth i os o0) * G (nth i' os o0))%R = (mean_of (nth i ds []) F * mean_of (nth i' ds []) G)%R.
Proof.
  induction ds as [|d r IH]; intros i i' F G H Hi Hi' N; [cbn in Hi; lia|]. cbn [expect].
  assert (Hr : forall d, In d r -> mean_of d (fun _ => 1%R) = 1%R) by (intros; apply H; now right). cbn [length] in *.
  destruct i as [|i], i' as [|i']; cbn [nth]; [lia| | |].
  - rewrite (mean_ext _ _ (fun o => mean_of (nth i' r []) G * F o)%R); [rewrite mean_scal; ring|].
    intros o _. rewrite expect_scal, (expect_nth r i' G Hr) by lia. ring.
  - rewrite (mean_ext _ _ (fun o => mean_of (nth i r []) F * G o)%R); [rewrite mean_scal; ring|].
    intros o _. rewrite (expect_ext _ _ (fun os => G o * F (nth i os o0))%R) by (intros; ring). rewrite expect_scal, (expect_nth r i F Hr) by lia. ring.
  - rewrite (mean_ext _ _ (fun _ => mean_of (nth i r []) F * mean_of (nth i' r []) G)%R); [apply mean_const; apply H; now left|].
    intros o _. apply IH; [assumption|lia|lia|lia].
Qed.
Lemma concat_at_block : forall n os k, (forall i, i < length os -> ash (o_value (nth i os o0)) = [n (k + i)]) ->
  forall i j, i < length os -> j < n (k + i) -> concat_at os (start (fun a => n (k + a)) i + j) = bget (o_value (nth i os o0)) (at_index [j]).
Proof.
  intros n os. induction os as [|w os IH]; intros k H i j Hi Hj; [cbn in Hi; lia|]. cbn [concat_at].
  pose proof (H 0 ltac:(cbn; lia)) as E0. cbn [nth] in E0. rewrite Nat.add_0_r in E0. rewrite E0. change (ax [n k] 0) with (n k).
  destruct i as [|i]; cbn [nth].
  - change (start (fun a => n (k + a)) 0) with 0. rewrite Nat.add_0_r in Hj. cbn [Nat.add]. apply Nat.ltb_lt in Hj. now rewrite Hj.
  - assert (ES : start (fun a => n (k + a)) (S i) = n k + start (fun a => n (S k + a)) i).
    { unfold start. cbn [seq map]. rewrite Nat.add_0_r. change (list_sum (?a :: ?l)) with (a + list_sum l). f_equal. f_equal. rewrite <- seq_shift, map_map. apply map_ext. intros a. f_equal. lia. }
    rewrite ES. destruct (Nat.ltb_spec (n k + start (fun a => n (S k + a)) i + j) (n k)); [lia|].
    replace (n k + start (fun a => n (S k + a)) i + j - n k) with (start (fun a => n (S k + a)) i + j) by lia. apply IH.
    + intros a Ha. specialize (H (S a) ltac:(cbn; lia)). cbn [nth] in H. rewrite H. f_equal. f_equal. lia.
    + cbn in Hi. lia.
    + now replace (S k + i) with (k + S i) by lia.
Qed.

Definition g0 : gmom := (scalar 0%R, scalar 0%R).
Lemma map_nth_seq : forall A (l : list A) d, map (fun i => nth i l d) (seq 0 (length l)) = l.
Proof.
  intros A l d. induction l as [|a l IH]; [reflexivity|]. cbn [length seq map nth]. f_equal. rewrite <- seq_shift, map_map. exact IH.
Qed.
Lemma start_list : forall l, start (fun i => nth i l 0) (length l) = list_sum l.
Proof. intros l. unfold start. now rewrite map_nth_seq. Qed.

Lemma concat_moments_expect : forall P lens (ps : list (gmom * (env -> list outcome))), ps <> [] ->
  Forall2 (fun k p => gaussian_parent P [k] (fst p) (snd p)) lens ps ->
  let N := list_sum lens in
  exists x xx, concat_moments (map fst ps) = Ok (x, xx) /\ variable_of P [N] x /\ variable_of P [N; N] xx /\
    forall p, plate_in P p ->
      (forall o, o < N -> bget x (join 1 p (at_index [o])) = expect (map (fun q => snd q p) ps) (fun os => concat_at os o)) /\
      (forall o o', o < N -> o' < N ->
        bget xx (join 2 p (at_index [o; o'])) = expect (map (fun q => snd q p) ps) (fun os => concat_at os o * concat_at os o')%R).
Proof.
  intros P lens ps NE H N. set (K := length ps). set (n := fun i => nth i lens 0). set (q0 := (g0, fun _ : env => @nil outcome)).
  assert (LL : length lens = K) by (unfold K; clear -H; induction H; cbn; congruence).
  assert (HK : 0 < K) by (unfold K; destruct ps; [congruence|cbn; lia]).
  assert (Hq : forall i, i < K -> gaussian_parent P [n i] (fst (nth i ps q0)) (snd (nth i ps q0))).
  { unfold K, n. clear -H. induction H as [|k q lens ps Hk Hr IH]; intros i Hi; cbn in Hi; [lia|]. destruct i as [|i]; cbn [nth]; [exact Hk|apply IH; lia]. }
  destruct (concat_moments_ok P n K (fun i => fst (nth i ps q0)) HK) as (x & xx & E & Vx & Vxx & G); [intros i Hi; eapply parent_shaped; now apply Hq|].
  assert (EN : start n K = N) by (unfold N, n; rewrite <- LL; apply start_list). rewrite EN in *.
  exists x, xx. split. { rewrite <- E. f_equal. rewrite <- (map_nth_seq _ ps q0) at 1. now rewrite map_map. }
  split; [exact Vx|]. split; [exact Vxx|]. intros p Hp. set (ds := map (fun q => snd q p) ps).
  assert (Ld : length ds = K) by (unfold ds; now rewrite map_length).
  assert (Nd : forall i, i < K -> nth i ds [] = snd (nth i ps q0) p).
  { intros i Hi. unfold ds. change (@nil outcome) with ((fun q : gmom * (env -> list outcome) => snd q p) q0). now rewrite map_nth. }
  assert (One : forall d, In d ds -> mean_of d (fun _ => 1%R) = 1%R).
  { intros d Hd. destruct (In_nth _ _ [] Hd) as (i & Hi & <-). rewrite Nd by lia. destruct (Hq i ltac:(lia)) as (A & _). now apply A. }
  assert (CA : forall os i j, drawn os ds -> i < K -> j < n i -> concat_at os (start n i + j) = bget (o_value (nth i os o0)) (at_index [j])).
  { intros os i j Ho Hi Hj. assert (Lo : length os = K) by (rewrite <- Ld; clear -Ho; induction Ho; cbn; congruence).
    apply (concat_at_block n os 0); [|lia|exact Hj]. intros a Ha. cbn [Nat.add].
    assert (Ho' : In (nth a os o0) (nth a ds [])).
    { clear -Ho Ha. revert a Ha. induction Ho as [|o d os ds Hd Hr IH]; intros a Ha; cbn in Ha; [lia|]. destruct a as [|a]; cbn [nth]; [exact Hd|apply IH; lia]. }
    rewrite Nd in Ho' by lia. destruct (Hq a ltac:(lia)) as (_ & A & _). now apply (A p). }
  assert (M1 : forall i j, i < K -> j < n i -> X (fun i => fst (nth i ps q0)) i p j = mean_of (nth i ds []) (fun o => bget (o_value o) (at_index [j]))).
  { intros i j Hi Hj. rewrite Nd by assumption. destruct (Hq i Hi) as (_ & _ & _ & _ & _ & A & _). apply (A p [j] Hp). repeat constructor. exact Hj. }
  split.
  - intros o Ho. rewrite <- EN in Ho. destruct (locate n K o Ho) as (i & j & Hi & Hj & ->). destruct (G p i j Hp Hi Hj) as [-> _].
    rewrite (expect_ext _ _ (fun os => (fun w => bget (o_value w) (at_index [j])) (nth i os o0))) by (intros; now apply CA).
    rewrite (expect_nth ds i (fun w => bget (o_value w) (at_index [j])) One) by lia. now apply M1.
  - intros o o' Ho Ho'. rewrite <- EN in Ho, Ho'. destruct (locate n K o Ho) as (i & j & Hi & Hj & ->). destruct (locate n K o' Ho') as (i' & j' & Hi' & Hj' & ->).
    destruct (G p i j Hp Hi Hj) as [_ G2]. rewrite (G2 i' j' Hi' Hj').
    rewrite (expect_ext _ _ (fun os => bget (o_value (nth i os o0)) (at_index [j]) * bget (o_value (nth i' os o0)) (at_index [j']))%R) by (intros; now rewrite !CA).
    destruct (Nat.eqb_spec i i') as [<-|Ni].
    + rewrite (expect_nth ds i (fun w => bget (o_value w) (at_index [j]) * bget (o_value w) (at_index [j']))%R One) by lia. rewrite Nd by assumption.
      destruct (Hq i Hi) as (_ & _ & _ & _ & _ & _ & A). apply (A p [j] [j'] Hp); repeat constructor; assumption.
    + rewrite (expect_nth2 ds i i' (fun w => bget (o_value w) (at_index [j])) (fun w => bget (o_value w) (at_index [j'])) One) by lia. now rewrite !M1.
Qed.

(** ** Sums over blocks *)
Lemma rsum_blocks : forall n K f, rsum (start n K) f = rsum K (fun i => rsum (n i) (fun j => f (start n i + j)%nat)).
Proof.
  intros n K f. induction K as [|K IH]; [reflexivity|]. rewrite start_S, rsum_app, IH. cbn [rsum]. ring.
Qed.
Lemma rsum_out : forall K i f, i < K -> rsum K f = (f i + rsum K (fun k => if k =? i then 0 else f k))%R.
Proof.
  induction K as [|K IH]; intros i f Hi; [lia|]. cbn [rsum]. destruct (Nat.eqb_spec K i) as [->|N].
  - rewrite (rsum_ext i (fun k => if k =? i then 0%R else f k) f); [ring|]. intros k Hk. destruct (Nat.eqb_spec k i); [lia|reflexivity].
  - rewrite (IH i f) by lia. ring.
Qed.
Lemma total_vector : forall P a F, total (P ++ [a]) F = total P (fun p => rsum a (fun i => F (join 1 p (at_index [i])))).
Proof.
  intros P a F. rewrite total_app. apply total_ext. intros p _. rewrite total_one. apply rsum_ext. intros i _. f_equal. apply functional_extensionality. intros k.
  unfold join, upd, at_index. destruct k as [|k]; reflexivity.
Qed.
Lemma total_matrix : forall P a b F, total (P ++ [a; b]) F = total P (fun p => rsum a (fun i => rsum b (fun j => F (join 2 p (at_index [i; j]))))).
Proof.
  intros P a b F. replace (P ++ [a; b]) with ((P ++ [a]) ++ [b]) by now rewrite <- app_assoc. rewrite !total_vector. apply total_ext. intros p _.
  apply rsum_ext. intros i _. apply rsum_ext. intros j _. f_equal. apply functional_extensionality. intros k. unfold join, at_index. destruct k as [|[|k]]; reflexivity.
Qed.

(** ** Cutting messages *)
Lemma variable_split : forall P d (a : arr R), variable_of P d a -> exists T, ash a = T ++ d /\ broadcasts_to T P.
Proof.
  intros P d a (A1 & A2 & A3 & A4). unfold ndim in *. exists (firstn (length (ash a) - length d) (ash a)).
  rewrite app_length in A3. assert (S : ash a = firstn (length (ash a) - length d) (ash a) ++ d).
  { apply DiagLemmas.shape_ext; [rewrite app_length, firstn_length; lia|]. intros k. rewrite ax_app. destruct (Nat.ltb_spec k (length d)); [now apply A2|].
    rewrite ax_firstn by lia. f_equal. lia. }
  split; [exact S|]. split; [rewrite firstn_length; lia|]. intros k. rewrite ax_firstn by lia. specialize (A4 (length (ash a) - (length (ash a) - length d) + k)).
  rewrite ax_app in A4. destruct (Nat.ltb_spec (length (ash a) - (length (ash a) - length d) + k) (length d)); [lia|].
  now replace (length (ash a) - (length (ash a) - length d) + k - length d) with k in A4 by lia.
Qed.
Lemma cut_vector : forall P n K i m, i < K -> variable_of P [start n K] m ->
  variable_of P [n i] (cut m 0 (start n i) (start n i + n i)) /\
  forall p j, j < n i -> bget (cut m 0 (start n i) (start n i + n i)) (join 1 p (at_index [j])) = bget m (join 1 p (at_index [start n i + j])).
Proof.
  intros P n K i m Hi V. destruct (variable_split _ _ _ V) as (T & S & B). pose proof (start_le n K i Hi).
  assert (SC : ash (cut m 0 (start n i) (start n i + n i)) = T ++ [n i]).
  { cbn [cut ash]. rewrite S, set_last0. replace (ax (T ++ [start n K]) 0) with (start n K) by (rewrite ax_app; reflexivity). f_equal. f_equal. lia. }
  split; [now apply (variable_app T)|]. intros p j Hj. unfold bget at 1. rewrite SC. cbn [cut aget].
  replace (ax (ash m) 0) with (start n K) by (rewrite S, ax_app; reflexivity). apply bget_ext. intros k Hk N. rewrite S in N. rewrite ax_app in N. cbn [length] in N.
  unfold upd, join, clip. rewrite !ax_app. cbn [length]. destruct k as [|k].
  - cbn. destruct (Nat.eqb_spec (n i) 1); lia.
  - cbn in *. replace (k - 0) with k in * by lia. apply Nat.eqb_neq in N. now rewrite N.
Qed.
Lemma cut_matrix : forall P n K a b m, a < K -> b < K -> variable_of P [start n K; start n K] m ->
  let c := cut (cut m 1 (start n a) (start n a + n a)) 0 (start n b) (start n b + n b) in
  variable_of P [n a; n b] c /\
  forall p j j', j < n a -> j' < n b -> bget c (join 2 p (at_index [j; j'])) = bget m (join 2 p (at_index [start n a + j; start n b + j'])).
Proof.
  intros P n K a b m Ha Hb V. cbv zeta. destruct (variable_split _ _ _ V) as (T & S & B). pose proof (start_le n K a Ha). pose proof (start_le n K b Hb).
  pose proof (cut_shape n K T m a b Ha Hb S) as SC. set (c := cut (cut m 1 _ _) 0 _ _) in *.
  split; [now apply (variable_app T)|]. intros p j j' Hj Hj'. unfold bget at 1. rewrite SC. unfold c. cbn [cut aget ash].
  replace (ax (ash m) 1) with (start n K) by (rewrite S, ax_app; reflexivity).
  replace (ax (set_axis 1 _ (ash m)) 0) with (start n K) by (rewrite S, set_last1, ax_app; reflexivity).
  unfold bget at 1. cbn [cut aget ash]. replace (ax (ash m) 1) with (start n K) by (rewrite S, ax_app; reflexivity). rewrite S, set_last1. apply bget_ext. intros k Hk N. rewrite S in N. rewrite ax_app in N. cbn [length] in N.
  unfold upd, join, clip. rewrite !ax_app. cbn [length]. destruct k as [|[|k]].
  - cbn. cbn in N. destruct (Nat.eqb_spec (start n K) 1); [congruence|]. destruct (Nat.eqb_spec (n b) 1); lia.
  - cbn. destruct (Nat.eqb_spec (n a) 1); destruct (Nat.eqb_spec (Nat.min (start n a + n a) (start n K) - Nat.min (start n a) (start n K)) 1); lia.
  - cbn in *. replace (k - 0) with k in * by lia. apply Nat.eqb_neq in N. rewrite !N. reflexivity.
Qed.

(** ** Messages *)
Lemma variable_into : forall P d f (a b : arr R), variable_of P d a -> broadcasts_to (ash b) (P ++ d) ->
  exists y, np_map2 f a b = Ok y /\ variable_of P d y /\ forall e, bget y e = f (bget a e) (bget b e).
Proof.
  intros P d f a b (A1 & A2 & A3) Bb. destruct (map2_upper _ _ _ f a b _ A3 Bb) as (y & Ey & NB & By & Vy). exists y. split; [exact Ey|]. split; [|exact Vy].
  destruct NB as (N1 & N2 & N3). split; [|split; [|exact By]].
  - specialize (N1 (ash a) ltac:(now left)). unfold ndim in *. lia.
  - intros i Hi. destruct (N3 i) as [K1 K2]. pose proof (K1 (ash a) ltac:(now left)) as K. pose proof (A2 i Hi) as Ea.
    destruct K as [K|K]; [|congruence]. destruct Bb as [_ Bb]. specialize (Bb i). rewrite ax_app in Bb. apply Nat.ltb_lt in Hi as Hi'. rewrite Hi' in Bb.
    destruct K2 as [K2|(s' & [<-|[<-|[]]] & K2)]; [congruence|congruence|]. destruct Bb as [Bb|Bb]; congruence.
Qed.

Section Message.
Variables (P : shape) (n : nat -> nat) (K i0 : nat) (r : list nat) (m1 : arr R) (w : nat -> gmom).
Hypothesis Hi0 : i0 < K.
Hypothesis Hr : forall k, k <= K -> nth_error r k = Some (start n k).
Hypothesis Hm1 : variable_of P [start n K; start n K] m1.
Hypothesis Hw : forall k, k < K -> k <> i0 -> gaussian_shaped P [n k] (w k).
Let at_ (k : nat) : res nat := match nth_error r k with Some x => Ok x | None => Err IndexError end.

Lemma at_ok : forall k, k <= K -> at_ k = Ok (start n k).
Proof. intros k Hk. unfold at_. now rewrite Hr. Qed.

Lemma msg_fold : forall m l acc, l + m <= K -> variable_of P [n i0] acc -> exists acc',
  (forall u, foldM (fun m0 p =>
          let '(j, u) := (p : nat * gmom) in
          if j =? i0 then Ok m0
          else
            c <- at_ j ;; d <- at_ (S j) ;;
            t <- la_mvdot (cut (cut m1 1 (start n i0) (start n i0 + n i0)) 0 c d) (fst u) 1 ;;
            np_map2 Rplus m0 (np_map (fun v => 2 * v)%R t)) acc (map (fun j => (j, if j =? i0 then u else w j)) (seq l m)) = Ok acc') /\
  variable_of P [n i0] acc' /\ forall p j, valid P p -> j < n i0 ->
    bget acc' (join 1 p (at_index [j])) = (bget acc (join 1 p (at_index [j])) +
      rsum m (fun k => if (l + k =? i0)%nat then 0 else 2 * rsum (n (l + k)%nat) (fun v => bget m1 (join 2 p (at_index [start n i0 + j; start n (l + k) + v]%nat)) * X w (l + k)%nat p v)))%R.
Proof.
  intros m. induction m as [|m IH]; intros l acc Hm V.
  - exists acc. split; [reflexivity|]. split; [exact V|]. intros. cbn. ring.
  - cbn [seq map foldM]. assert (STEP : exists acc1, (forall u, (if l =? i0 then Ok acc else
            c <- at_ l ;; d <- at_ (S l) ;;
            t <- la_mvdot (cut (cut m1 1 (start n i0) (start n i0 + n i0)) 0 c d) (fst (if l =? i0 then u else w l)) 1 ;;
            np_map2 Rplus acc (np_map (fun v => 2 * v)%R t)) = Ok acc1) /\ variable_of P [n i0] acc1 /\ forall p j, valid P p -> j < n i0 ->
       bget acc1 (join 1 p (at_index [j])) = (bget acc (join 1 p (at_index [j])) + if (l =? i0)%nat then 0 else 2 * rsum (n l) (fun v => bget m1 (join 2 p (at_index [start n i0 + j; start n l + v]%nat)) * X w l p v))%R).
    { destruct (Nat.eqb_spec l i0) as [El|Nl]; [exists acc; split; [reflexivity|]; split; [exact V|]; intros; ring|].
      assert (Hl : l < K) by lia.
      destruct (cut_matrix P n K i0 l m1 Hi0 Hl Hm1) as [VC GC]. set (c := cut _ 0 _ _) in *.
      destruct (Hw l Hl Nl) as [Vw _].
      destruct (mvdot_ok P [n i0] [n l] c (fst (w l)) eq_refl VC Vw) as (t & Et & Bt & Gt). cbn [length] in *.       destruct (variable_into P [n i0] Rplus acc (np_map (fun v => 2 * v)%R t) V Bt) as (y & Ey & Vy & Gy). exists y. split; [intros u; rewrite !at_ok by lia; cbn [bind]; rewrite start_S; fold c; rewrite Et; exact Ey|]. split; [exact Vy|].
      intros p j Hp Hj. rewrite Gy, bget_map. f_equal. f_equal. rewrite Gt.
      2:{ intros k. rewrite ax_app. cbn [length]. unfold join. destruct (Nat.ltb_spec k 1); [|apply Hp]. replace k with 0 by lia. exact Hj. }
      rewrite total_one. apply rsum_ext. intros v Hv. f_equal.
      - rewrite <- (GC p j v Hj Hv). f_equal. apply functional_extensionality. intros k. unfold join, upd, at_index. destruct k as [|[|k]]; reflexivity.
      - unfold X. f_equal. apply functional_extensionality. intros k. unfold join, upd, at_index. destruct (Nat.ltb_spec k 1) as [C|C]; [replace k with 0 by lia; reflexivity|].
        destruct (Nat.ltb_spec (k - 1 + 1) 1); [lia|]. f_equal. lia. }
    destruct STEP as (acc1 & E1 & V1 & G1). destruct (IH (S l) acc1 ltac:(lia) V1) as (y & Ey & Vy & Gy). exists y. split.
    { intros u. match goal with |- bind ?e _ = _ => replace e with (Ok acc1 : res (arr R)) by (symmetry; exact (E1 u)) end. cbn [bind]. exact (Ey u). } split; [exact Vy|].
    intros p j Hp Hj. rewrite (Gy p j Hp Hj), (G1 p j Hp Hj), rsum_S_l, Nat.add_0_r, Rplus_assoc. f_equal. f_equal. apply rsum_ext. intros k _. replace (S l + k) with (l + S k) by lia. reflexivity.
Qed.
End Message.

Lemma concat_messages_ok : forall P n K i0 r (m : gmom) (w : nat -> gmom), i0 < K -> (forall k, k <= K -> nth_error r k = Some (start n k)) ->
  gaussian_shaped P [start n K] m -> symmetric P [start n K] (snd m) ->
  (forall k, k < K -> k <> i0 -> gaussian_shaped P [n k] (w k)) ->
  exists y C, gaussian_shaped P [n i0] y /\ symmetric P [n i0] (snd y) /\ forall u : gmom, gaussian_shaped P [n i0] u ->
    let us := map (fun k => if k =? i0 then u else w k) (seq 0 K) in
    concat_message r i0 m us = Ok y /\ exists x, concat_moments us = Ok x /\ paired P [start n K] m x = (paired P [n i0] y u + C)%R.
Proof.
  intros P n K i0 r m w Hi Hr [M0 M1] S Hw. cbn [app] in M1.
  destruct (cut_vector P n K i0 (fst m) Hi M0) as [V0 G0]. destruct (cut_matrix P n K i0 i0 (snd m) Hi Hi M1) as [V1 G1]. cbv zeta in V1, G1.
  destruct (msg_fold P n K i0 r (snd m) w Hi Hr M1 Hw K 0 _ (Nat.le_refl K) V0) as (y0 & Ey & Vy & Gy).
  set (y1 := cut (cut (snd m) 1 (start n i0) (start n i0 + n i0)) 0 (start n i0) (start n i0 + n i0)) in *.
  set (Bw := fun p i i' => rsum (n i) (fun j => rsum (n i') (fun j' => (bget (snd m) (join 2 p (at_index [start n i + j; start n i' + j']%nat)) *
     (if (i =? i')%nat then bget (snd (w i)) (join 2 p (at_index [j; j'])) else X w i p j * X w i' p j'))%R))).
  exists (y0, y1), (total P (fun p => rsum K (fun i => if (i =? i0)%nat then 0 else rsum (n i) (fun j => bget (fst m) (join 1 p (at_index [start n i + j]%nat)) * X w i p j)) +
     rsum K (fun i => if (i =? i0)%nat then 0 else rsum K (fun i' => if (i' =? i0)%nat then 0 else Bw p i i'))))%R.
  split; [split; assumption|]. split.
  { intros p o o' Hp Ho Ho'. inversion Ho as [|j ? o1 ? Hj Ho1]; subst. inversion Ho1; subst. inversion Ho' as [|j' ? o2 ? Hj' Ho2]; subst. inversion Ho2; subst.
    cbn [fst snd app length]. rewrite (G1 p j j' Hj Hj'), (G1 p j' j Hj' Hj).
    pose proof (S p [start n i0 + j] [start n i0 + j'] Hp) as SS. cbn [app length] in SS. apply SS; repeat constructor; now apply start_lt. }
  intros u [U0 U1]. cbv zeta. set (uf := fun k => if k =? i0 then u else w k).
  assert (Euf : forall k, k <> i0 -> uf k = w k) by (intros k Hk; unfold uf; apply Nat.eqb_neq in Hk; now rewrite Hk).
  assert (Eu : uf i0 = u) by (unfold uf; now rewrite Nat.eqb_refl).
  assert (Huf : forall k, k < K -> gaussian_shaped P [n k] (uf k)).
  { intros k Hk. destruct (Nat.eq_dec k i0) as [->|N]; [rewrite Eu; now split|rewrite Euf by assumption; now apply Hw]. }
  split.
  - unfold concat_message. rewrite (Hr i0), (Hr (Datatypes.S i0)) by lia. cbn [bind]. rewrite start_S. rewrite map_length, seq_length.
    replace (combine (seq 0 K) (map uf (seq 0 K))) with (map (fun j => (j, uf j)) (seq 0 K)).
    2:{ generalize (seq 0 K). intros l. induction l as [|a l IH]; [reflexivity|]. cbn [map combine]. now rewrite IH. }
    match goal with |- bind ?e _ = _ => replace e with (Ok y0 : res (arr R)) by (symmetry; exact (Ey u)) end. reflexivity.
  - destruct (concat_moments_ok P n K uf ltac:(lia) Huf) as (x & xx & E & Vx & Vxx & G). exists (x, xx). split; [exact E|].
    unfold paired. cbn [fst snd app]. rewrite !total_vector, !total_matrix, <- !total_add. apply total_ext. intros p Hp.
    pose proof (valid_plate _ _ Hp) as Hp'.
    rewrite !rsum_blocks.
    rewrite (rsum_ext K _ (fun i => rsum (n i) (fun j => bget (fst m) (join 1 p (at_index [start n i + j]%nat)) * X uf i p j)%R)).
    2:{ intros i Hik. apply rsum_ext. intros j Hj. now rewrite (proj1 (G p i j Hp' Hik Hj)). }
    set (B := fun i i' => rsum (n i) (fun j => rsum (n i') (fun j' => (bget (snd m) (join 2 p (at_index [start n i + j; start n i' + j']%nat)) *
       (if (i =? i')%nat then bget (snd (uf i)) (join 2 p (at_index [j; j'])) else X uf i p j * X uf i' p j'))%R))).
    rewrite (rsum_ext K (fun i => rsum (n i) (fun j => rsum (start n K) _)) (fun i => rsum K (fun i' => B i i'))).
    2:{ intros i Hik. unfold B. symmetry. rewrite rsum_swap. apply rsum_ext. intros j Hj. symmetry. rewrite rsum_blocks. apply rsum_ext. intros i' Hik'. apply rsum_ext. intros j' Hj'.
        now rewrite (proj2 (G p i j Hp' Hik Hj) i' j' Hik' Hj'). }
    assert (BB : forall i i', i <> i0 -> i' <> i0 -> B i i' = Bw p i i').
    { intros i i' N N'. unfold B, Bw. apply rsum_ext. intros j _. apply rsum_ext. intros j' _. unfold X. now rewrite !Euf. }
    assert (BS : forall i, i < K -> i <> i0 -> B i i0 = B i0 i).
    { intros i Hik N. unfold B. rewrite rsum_swap. apply rsum_ext. intros j Hj. apply rsum_ext. intros j' Hj'.
      destruct (Nat.eqb_spec i i0); [lia|]. destruct (Nat.eqb_spec i0 i); [lia|].
      pose proof (S p [start n i + j'] [start n i0 + j] Hp') as SS. cbn [app length] in SS. rewrite SS; [ring| |]; repeat constructor; now apply start_lt. }
    rewrite (rsum_out K i0 _ Hi). rewrite (rsum_out K i0 (fun i => rsum K (fun i' => B i i')) Hi). rewrite (rsum_out K i0 (fun i' => B i0 i') Hi).
    rewrite (rsum_ext K (fun i => if i =? i0 then 0%R else rsum K (fun i' => B i i')) (fun i => (if i =? i0 then 0 else B i0 i) + (if i =? i0 then 0 else rsum K (fun i' => if i' =? i0 then 0 else Bw p i i')))%R).
    2:{ intros i Hik. destruct (Nat.eqb_spec i i0) as [->|N]; [ring|]. rewrite (rsum_out K i0 _ Hi), BS by assumption. f_equal. apply rsum_ext. intros i' _.
        destruct (Nat.eqb_spec i' i0); [reflexivity|]. now apply BB. }
    rewrite rsum_plus.
    rewrite (rsum_ext K (fun k => if k =? i0 then 0%R else rsum (n k) (fun j => bget (fst m) (join 1 p (at_index [start n k + j]%nat)) * X uf k p j)%R)
      (fun i => if (i =? i0)%nat then 0 else rsum (n i) (fun j => bget (fst m) (join 1 p (at_index [start n i + j]%nat)) * X w i p j))%R).
    2:{ intros i _. destruct (Nat.eqb_spec i i0); [reflexivity|]. unfold X. now rewrite Euf. }
    assert (Y0 : rsum (n i0) (fun j => bget y0 (join 1 p (at_index [j])) * bget (fst u) (join 1 p (at_index [j])))%R =
      (rsum (n i0) (fun j => bget (fst m) (join 1 p (at_index [start n i0 + j]%nat)) * X uf i0 p j) + 2 * rsum K (fun i => if (i =? i0)%nat then 0 else B i0 i))%R).
    { rewrite (rsum_ext (n i0) _ (fun j => bget (fst m) (join 1 p (at_index [start n i0 + j]%nat)) * X uf i0 p j + rsum K (fun k => if (k =? i0)%nat then 0 else
         2 * rsum (n k) (fun v => bget (snd m) (join 2 p (at_index [start n i0 + j; start n k + v]%nat)) * (X uf i0 p j * X uf k p v))))%R).
      - rewrite rsum_plus. f_equal. rewrite rsum_swap, <- rsum_scal. apply rsum_ext. intros k Hk. destruct (Nat.eqb_spec k i0) as [->|N]; [rewrite rsum_0; ring|].
        rewrite rsum_scal. f_equal. unfold B. apply rsum_ext. intros j _. apply rsum_ext. intros v _. destruct (Nat.eqb_spec i0 k); [lia|reflexivity].
      - intros j Hj. rewrite (Gy p j Hp Hj), (G0 p j Hj). unfold X at 2. rewrite Eu. rewrite Rmult_plus_distr_r. f_equal. rewrite <- rsum_scal_r. apply rsum_ext. intros k Hk.
        cbn [Nat.add]. destruct (Nat.eqb_spec k i0) as [->|N]; [ring|]. rewrite Rmult_assoc, <- rsum_scal_r. f_equal. apply rsum_ext. intros v _. unfold X. rewrite Eu, Euf by assumption. ring. }
    assert (Y1 : rsum (n i0) (fun i => rsum (n i0) (fun j => bget y1 (join 2 p (at_index [i; j])) * bget (snd u) (join 2 p (at_index [i; j]))))%R = B i0 i0).
    { unfold B. apply rsum_ext. intros j Hj. apply rsum_ext. intros j' Hj'. rewrite Nat.eqb_refl, Eu. now rewrite (G1 p j j' Hj Hj'). }
    rewrite Y0, Y1. ring.
Qed.

Lemma cat_indices_nth : forall l k, k <= length l -> nth_error (cat_indices l) k = Some (list_sum (firstn k l)).
Proof.
  intros l. unfold cat_indices.
  assert (G : forall l acc k, k <= length l -> nth_error (acc :: cumsum acc l) k = Some (acc + list_sum (firstn k l))).
  { induction l0 as [|x l0 IH]; intros acc k Hk; [destruct k; [cbn; f_equal; lia|cbn in Hk; lia]|].
    destruct k as [|k]; [cbn; f_equal; lia|]. cbn [nth_error cumsum]. cbn in Hk. rewrite IH by lia. cbn [firstn]. change (list_sum (x :: ?y)) with (x + list_sum y). f_equal. lia. }
  intros k Hk. now rewrite G.
Qed.

Lemma concat_messages_list : forall P lens1 k lens2 (m : gmom) (us1 us2 : list gmom),
  Forall2 (fun k u => gaussian_shaped P [k] u) lens1 us1 -> Forall2 (fun k u => gaussian_shaped P [k] u) lens2 us2 ->
  let N := list_sum (lens1 ++ k :: lens2) in
  gaussian_shaped P [N] m -> symmetric P [N] (snd m) ->
  exists y C, gaussian_shaped P [k] y /\ symmetric P [k] (snd y) /\ forall u : gmom, gaussian_shaped P [k] u ->
    concat_message (cat_indices (lens1 ++ k :: lens2)) (length us1) m (us1 ++ u :: us2) = Ok y /\ exists x, concat_moments (us1 ++ u :: us2) = Ok x /\ paired P [N] m x = (paired P [k] y u + C)%R.
Proof.
  intros P lens1 k lens2 m us1 us2 H1 H2 N HM HS.
  assert (L1 : length us1 = length lens1) by (clear -H1; induction H1; cbn; congruence).
  assert (L2 : length us2 = length lens2) by (clear -H2; induction H2; cbn; congruence).
  set (n := fun i => nth i (lens1 ++ k :: lens2) 0). set (K := length (lens1 ++ k :: lens2)).
  assert (EN : start n K = N) by apply start_list.
  assert (En : n (length us1) = k) by (unfold n; rewrite L1, app_nth2, Nat.sub_diag by lia; reflexivity).
  assert (NW : forall i, i < K -> i <> length us1 -> gaussian_shaped P [n i] (nth i (us1 ++ g0 :: us2) g0)).
  { assert (F : forall lens us, Forall2 (fun k u => gaussian_shaped P [k] u) lens us -> forall i, i < length lens -> gaussian_shaped P [nth i lens 0] (nth i us g0)).
    { intros lens us H. induction H as [|a b lens us Hab Hr IH]; intros i Hi; [cbn in Hi; lia|]. destruct i as [|i]; [exact Hab|]. apply IH. cbn in Hi. lia. }
    intros i Hi Ni. unfold n. unfold K in Hi. rewrite app_length in Hi. cbn [length] in Hi. destruct (Nat.lt_ge_cases i (length us1)) as [C|C].
    - rewrite !app_nth1 by lia. apply F; [exact H1|lia].
    - rewrite !app_nth2 by lia. replace (i - length us1) with (S (i - length us1 - 1)) by lia. replace (i - length lens1) with (S (i - length us1 - 1)) by lia. cbn [nth].
      apply F; [exact H2|lia]. }
  destruct (concat_messages_ok P n K (length us1) (cat_indices (lens1 ++ k :: lens2)) m (fun i => nth i (us1 ++ g0 :: us2) g0)) as (y & C & Vy & Sy & R).
  - unfold K. rewrite app_length. cbn. lia.
  - intros i Hi. rewrite cat_indices_nth by exact Hi. f_equal. unfold start, n. rewrite <- (map_nth_seq _ (firstn i (lens1 ++ k :: lens2)) 0). f_equal.
    rewrite firstn_length, Nat.min_l by exact Hi. apply map_ext_in. intros a Ha. apply in_seq in Ha.
    rewrite <- (firstn_skipn i (lens1 ++ k :: lens2)) at 2. rewrite app_nth1; [reflexivity|]. rewrite firstn_length. fold K. lia.
  - now rewrite EN.
  - now rewrite EN.
  - exact NW.
  - rewrite EN, En in *. exists y, C. split; [exact Vy|]. split; [exact Sy|]. intros u Hu. specialize (R u Hu). cbv zeta in R.
    replace (map (fun i => if i =? length us1 then u else nth i (us1 ++ g0 :: us2) g0) (seq 0 K)) with (us1 ++ u :: us2) in R; [exact R|].
    rewrite <- (map_nth_seq _ (us1 ++ u :: us2) g0) at 1. replace (length (us1 ++ u :: us2)) with K by (unfold K; rewrite !app_length; cbn; lia).
    apply map_ext_in. intros i _. destruct (Nat.eqb_spec i (length us1)) as [->|Ni]; [rewrite app_nth2, Nat.sub_diag by lia; reflexivity|].
    destruct (Nat.lt_ge_cases i (length us1)) as [D|D]; [now rewrite !app_nth1 by lia|]. rewrite !app_nth2 by lia. now replace (i - length us1) with (S (i - length us1 - 1)) by lia.
Qed.
