(** Add: moments and messages. *)
From Coq Require Import List Arith ZArith Lia Bool Reals Lra FunctionalExtensionality.
From Verif Require Import Base Shapes SpecShapes ShapesLemmas NumPy MiscArray SpecArray TensorLemmas
  EinsumLemmas PlateSumLemmas ShapeOpsLemmas MessageLemmas UpdateLemmas NetworkLemmas DiagLemmas GateLemmas PGate ExpFamBound TakeConcat Dot SpecDot DotNode DotPart
  Reindex DotExpect DotScale AddNode SpecAdd LinalgLemmas2.
Import ListNotations.
Open Scope nat_scope.

(** ** Expectation of a product of sums *)
Lemma expect_two : forall (f g : outcome -> R) ds, (forall d, In d ds -> mean_of d (fun _ => 1%R) = 1%R) ->
  expect ds (fun os => lsum (map f os) * lsum (map g os))%R =
  (lsum (map (fun d => mean_of d (fun o => f o * g o)) ds) +
   lsum (map (fun p => mean_of (fst p) f * mean_of (snd p) g + mean_of (fst p) g * mean_of (snd p) f) (pairs_of ds)))%R.
Proof.
  intros f g ds. induction ds as [|d r IH]; intros H; [cbn; unfold lsum; cbn; ring|].
  assert (Hr : forall d, In d r -> mean_of d (fun _ => 1%R) = 1%R) by (intros; apply H; now right).
  cbn [expect].
  rewrite (mean_ext _ _ (fun o => f o * g o * 1 + (f o * expect r (fun os => lsum (map g os)) + (g o * expect r (fun os => lsum (map f os)) +
     expect r (fun os => lsum (map f os) * lsum (map g os)) * 1)))%R).
  - rewrite !mean_add.
    rewrite (mean_ext _ (fun o => f o * g o * 1)%R (fun o => f o * g o)%R) by (intros; ring).
    rewrite (mean_ext _ (fun o => f o * expect r (fun os => lsum (map g os)))%R (fun o => expect r (fun os => lsum (map g os)) * f o)%R) by (intros; ring).
    rewrite (mean_ext _ (fun o => g o * expect r (fun os => lsum (map f os)))%R (fun o => expect r (fun os => lsum (map f os)) * g o)%R) by (intros; ring).
    rewrite !mean_scal, (H d) by now left. rewrite (IH Hr), !expect_sum by assumption. cbn [pairs_of map]. rewrite map_app, map_map, lsum_app.
    change (lsum (?a :: ?l)) with (a + lsum l)%R. cbn [fst snd]. rewrite (lsum_map_add _ (fun d0 => mean_of d f * mean_of d0 g)%R (fun d0 => mean_of d g * mean_of d0 f)%R).
    rewrite (lsum_map_scal _ (mean_of d f)), (lsum_map_scal _ (mean_of d g)). ring.
  - intros o _. change (fun os => lsum (map f (o :: os)) * lsum (map g (o :: os)))%R with (fun os => (f o + lsum (map f os)) * (g o + lsum (map g os)))%R.
    rewrite (expect_ext _ _ (fun os => f o * g o * 1 + (f o * lsum (map g os) + (g o * lsum (map f os) + lsum (map f os) * lsum (map g os))))%R) by (intros; ring).
    rewrite !expect_add, !expect_scal, expect_one by assumption. ring.
Qed.

(** ** Indices *)
Lemma index_left : forall p (o o' : list nat) nd, length o = nd -> length o' = nd ->
  (fun k => join (nd + nd) p (at_index (o ++ o')) (k + nd)) = join nd p (at_index o).
Proof.
  intros p o o' nd H H'. apply functional_extensionality. intros k. unfold join, at_index. rewrite rev_app_distr.
  destruct (Nat.ltb_spec (k + nd) (nd + nd)), (Nat.ltb_spec k nd); try lia.
  - rewrite app_nth2; rewrite rev_length; [|lia]. f_equal. lia.
  - f_equal. lia.
Qed.
Lemma index_right : forall p (o o' : list nat) nd, length o = nd -> length o' = nd ->
  over nd nd (join (nd + nd) p (at_index (o ++ o'))) = join nd p (at_index o').
Proof.
  intros p o o' nd H H'. apply functional_extensionality. intros k. unfold over, join, at_index. rewrite rev_app_distr.
  destruct (Nat.ltb_spec k nd).
  - destruct (Nat.ltb_spec k (nd + nd)); [|lia]. apply app_nth1. rewrite rev_length. lia.
  - destruct (Nat.ltb_spec (k + nd) (nd + nd)); [lia|]. f_equal. lia.
Qed.
Lemma index_half : forall p (o o' : list nat) nd, length o = nd -> length o' = nd ->
  (fun k => join (nd + nd) p (at_index (o ++ o')) (half nd nd k)) = join (nd + nd) p (at_index (o' ++ o)).
Proof.
  intros p o o' nd H H'. apply functional_extensionality. intros k. unfold half, join, at_index. rewrite !rev_app_distr.
  destruct (Nat.ltb_spec k nd), (Nat.leb_spec nd k), (Nat.ltb_spec k (nd + nd)); cbn [andb]; try lia.
  - destruct (Nat.ltb_spec (k + nd) (nd + nd)); [|lia]. rewrite app_nth2; rewrite rev_length; [|lia]. rewrite app_nth1 by (rewrite rev_length; lia). f_equal. lia.
  - destruct (Nat.ltb_spec (k - nd) (nd + nd)); [|lia]. rewrite app_nth1 by (rewrite rev_length; lia). rewrite app_nth2; rewrite rev_length; [|lia]. f_equal. lia.
  - destruct (Nat.ltb_spec k (nd + nd)); [lia|]. reflexivity.
Qed.
Lemma index_at : forall d o k, index_in d o -> at_index o k < ax d k.
Proof. intros d o k H. now apply TakeLemmas.valid_at_index. Qed.
Lemma plate_index : forall P d p o, plate_in P p -> index_in d o -> plate_in (P ++ d) (join (length d) p (at_index o)).
Proof.
  intros P d p o Hp Ho j Hj. rewrite ax_app in *. unfold join. destruct (Nat.ltb_spec j (length d)); [|now apply Hp].
  now apply index_at.
Qed.
Lemma index_app : forall d d' o o', index_in d o -> index_in d' o' -> index_in (d ++ d') (o ++ o').
Proof. intros. now apply Forall2_app. Qed.
Lemma index_length : forall d o, index_in d o -> length o = length d.
Proof. intros d o H. induction H; cbn; congruence. Qed.
Lemma valid_plate : forall P e, valid P e -> plate_in P e.
Proof. intros P e H j _. apply H. Qed.

(** ** The products of the means *)
Definition cross (nd : nat) (u v : gmom) (e : env) : R :=
  let h e := (bget (fst u) (fun k => e (k + nd)%nat) * bget (fst v) (over nd nd e))%R in
  (h e + h (fun k => e (half nd nd k)))%R.
Lemma half_left : forall nd (e : env), (fun k => e (half nd nd (k + nd))) = over nd nd e.
Proof.
  intros nd e. apply functional_extensionality. intros k. unfold over, half.
  repeat match goal with |- context [?a <? ?b] => destruct (Nat.ltb_spec a b) | |- context [?a <=? ?b] => destruct (Nat.leb_spec a b) end; cbn [andb]; f_equal; lia.
Qed.
Lemma half_right : forall nd (e : env), over nd nd (fun k => e (half nd nd k)) = (fun k => e (k + nd)%nat).
Proof.
  intros nd e. apply functional_extensionality. intros k. unfold over, half.
  repeat match goal with |- context [?a <? ?b] => destruct (Nat.ltb_spec a b) | |- context [?a <=? ?b] => destruct (Nat.leb_spec a b) end; cbn [andb]; f_equal; lia.
Qed.
Lemma cross_alt : forall nd u v e, cross nd u v e =
  (bget (fst u) (fun k => e (k + nd)%nat) * bget (fst v) (over nd nd e) + bget (fst u) (over nd nd e) * bget (fst v) (fun k => e (k + nd)%nat))%R.
Proof. intros nd u v e. unfold cross. now rewrite half_left, half_right. Qed.
Lemma half_plate : forall P d e, plate_in (P ++ d ++ d) e -> plate_in (P ++ d ++ d) (fun k => e (half (length d) (length d) k)).
Proof.
  intros P d e H j Hj. assert (E : ax (P ++ d ++ d) (half (length d) (length d) j) = ax (P ++ d ++ d) j).
  { rewrite !ax_app, app_length. unfold half.
    destruct (Nat.ltb_spec j (length d)), (Nat.leb_spec (length d) j), (Nat.ltb_spec j (length d + length d)); cbn [andb]; try lia;
      repeat match goal with |- context [?a <? ?b] => destruct (Nat.ltb_spec a b) end; try lia; try reflexivity; f_equal; lia. }
  rewrite <- E. apply H. now rewrite E.
Qed.
Lemma cross_ok : forall P d l u1, variable_of P (d ++ d) u1 -> Forall (fun p : gmom * gmom => variable_of P d (fst (fst p)) /\ variable_of P d (fst (snd p))) l ->
  exists y, foldM (fun u1 (p : gmom * gmom) =>
           xi_xj <- la_outer (fst (fst p)) (fst (snd p)) (length d) ;;
           xj_xi <- la_transpose xi_xj (length d) ;;
           u1 <- np_map2 Rplus u1 xi_xj ;;
           np_map2 Rplus u1 xj_xi) u1 l = Ok y /\ variable_of P (d ++ d) y /\
   forall e, plate_in (P ++ d ++ d) e -> bget y e = (bget u1 e + lsum (map (fun p => cross (length d) (fst p) (snd p) e) l))%R.
Proof.
  intros P d l. induction l as [|[u v] l IH]; intros u1 H1 Hl.
  - exists u1. split; [reflexivity|]. split; [exact H1|]. intros e _. cbn. unfold lsum. cbn. ring.
  - inversion Hl as [|? ? [Hu Hv] Hl']; subst. cbn [fst snd] in *. cbn [foldM fst snd].
    destruct (outer_ok P d d (fst u) (fst v) eq_refl Hu Hv) as (a & -> & Va & Ga). cbn [bind].
    destruct (transpose_ok P d a Va) as (b & -> & Vb & Gb). cbn [bind].
    destruct (variable_map2 P (d ++ d) Rplus u1 a H1 Va) as (c & -> & Vc & Gc). cbn [bind].
    destruct (variable_map2 P (d ++ d) Rplus c b Vc Vb) as (c' & -> & Vc' & Gc'). cbn [bind].
    destruct (IH c' Vc' Hl') as (y & -> & Vy & Gy). exists y. split; [reflexivity|]. split; [exact Vy|].
    intros e He. rewrite (Gy e He), Gc', Gc, Gb, (Ga e He), (Ga _ (half_plate _ _ _ He)). cbn [map].
    change (lsum (?a :: ?l)) with (a + lsum l)%R. unfold cross at 2. cbn [fst snd]. ring.
Qed.
Lemma pairs_in : forall A (l : list A) p, In p (pairs_of l) -> In (fst p) l /\ In (snd p) l.
Proof.
  intros A l p. induction l as [|a r IH]; cbn [pairs_of]; intros H; [contradiction|]. apply in_app_iff in H as [H|H].
  - apply in_map_iff in H as (b & <- & Hb). split; [now left|now right].
  - destruct (IH H). split; now right.
Qed.
Lemma pairs_map : forall A B (f : A -> B) l, pairs_of (map f l) = map (fun p => (f (fst p), f (snd p))) (pairs_of l).
Proof. intros A B f l. induction l as [|a r IH]; [reflexivity|]. cbn [map pairs_of]. now rewrite map_app, IH, !map_map. Qed.

Lemma add_moments_ok : forall P d (us : list gmom), us <> [] -> Forall (gaussian_shaped P d) us ->
  exists x0 x1, add_moments (length d) us = Ok (x0, x1) /\ variable_of P d x0 /\ variable_of P (d ++ d) x1 /\
    (forall e, bget x0 e = lsum (map (fun u : gmom => bget (fst u) e) us)) /\
    forall e, plate_in (P ++ d ++ d) e -> bget x1 e = (lsum (map (fun u : gmom => bget (snd u) e) us) + lsum (map (fun p => cross (length d) (fst p) (snd p) e) (pairs_of us)))%R.
Proof.
  intros P d us N H. assert (N' : forall B (f : gmom -> B), map f us <> []) by (intros; now destruct us).
  destruct (reduce_add_ok P d (map fst us)) as (x0 & E0 & V0 & G0); [apply N'| |].
  { apply Forall_map. eapply Forall_impl; [|exact H]. now intros u [A _]. }
  destruct (reduce_add_ok P (d ++ d) (map snd us)) as (s & Es & Vs & Gs); [apply N'| |].
  { apply Forall_map. eapply Forall_impl; [|exact H]. now intros u [_ A]. }
  destruct (cross_ok P d (pairs_of us) s Vs) as (x1 & E1 & V1 & G1).
  { apply Forall_forall. intros p Hp. apply pairs_in in Hp as [A B]. rewrite Forall_forall in H. split; now apply H. }
  exists x0, x1. unfold add_moments. rewrite E0. cbn [bind]. rewrite Es. cbn [bind].
  match goal with |- context [foldM ?f s ?l] => replace (foldM f s l) with (Ok x1 : res (arr R)) by (symmetry; exact E1) end. cbn [bind].
  split; [reflexivity|]. split; [exact V0|]. split; [exact V1|]. split.
  - intros e. now rewrite G0, map_map.
  - intros e He. now rewrite (G1 e He), Gs, map_map.
Qed.
Lemma parent_shaped : forall P d u dist, gaussian_parent P d u dist -> gaussian_shaped P d u.
Proof. intros P d u dist (_ & _ & A & B & _). now split. Qed.

Lemma add_moments_expect : forall P d ps, ps <> [] -> Forall (fun p => gaussian_parent P d (fst p) (snd p)) ps ->
  exists x0 x1, add_moments (length d) (map fst ps) = Ok (x0, x1) /\ variable_of P d x0 /\ variable_of P (d ++ d) x1 /\
    forall p, plate_in P p ->
      (forall o, index_in d o ->
        bget x0 (join (length d) p (at_index o)) = expect (map (fun q => snd q p) ps) (fun os => sum_at os o)) /\
      (forall o o', index_in d o -> index_in d o' ->
        bget x1 (join (length (d ++ d)) p (at_index (o ++ o'))) = expect (map (fun q => snd q p) ps) (fun os => sum_at os o * sum_at os o')%R).
Proof.
  intros P d ps N H. destruct (add_moments_ok P d (map fst ps)) as (x0 & x1 & E & V0 & V1 & G0 & G1).
  { now destruct ps. }
  { apply Forall_map. eapply Forall_impl; [|exact H]. intros q. apply parent_shaped. }
  exists x0, x1. split; [exact E|]. split; [exact V0|]. split; [exact V1|]. intros p Hp.
  assert (One : forall D, In D (map (fun q : gmom * (env -> list outcome) => snd q p) ps) -> mean_of D (fun _ => 1%R) = 1%R).
  { intros D HD. apply in_map_iff in HD as (q & <- & Hq). rewrite Forall_forall in H. destruct (H q Hq) as (A & _). now apply A. }
  assert (M1 : forall q o, In q ps -> index_in d o -> bget (fst (fst q)) (join (length d) p (at_index o)) = mean_of (snd q p) (fun w => bget (o_value w) (at_index o))).
  { intros q o Hq Ho. rewrite Forall_forall in H. destruct (H q Hq) as (_ & _ & _ & _ & _ & A & _). now apply A. }
  split.
  - intros o Ho. rewrite G0, map_map. unfold sum_at. rewrite expect_sum, map_map by exact One. f_equal. apply map_ext_in. intros q Hq. now apply M1.
  - intros o o' Ho Ho'. rewrite G1.
    2:{ apply plate_index; [exact Hp|]. now apply index_app. }
    unfold sum_at. rewrite expect_two by exact One. rewrite !map_map, !pairs_map, !map_map. f_equal; f_equal; apply map_ext_in.
    + intros q Hq. rewrite Forall_forall in H. destruct (H q Hq) as (_ & _ & _ & _ & _ & _ & A). now apply A.
    + intros [q q'] Hq. apply pairs_in in Hq as [Hq Hq']. cbn [fst snd] in *. rewrite cross_alt, app_length.
      pose proof (index_length _ _ Ho) as Lo. pose proof (index_length _ _ Ho') as Lo'.
      rewrite !index_left, !index_right by assumption. now rewrite !M1 by assumption.
Qed.

(** ** Messages *)
Lemma lsum_pairs_mid : forall A (h : A -> A -> R) us1 (u : A) us2, (forall a b, h a b = h b a) ->
  lsum (map (fun p => h (fst p) (snd p)) (pairs_of (us1 ++ u :: us2))) =
  (lsum (map (h u) (us1 ++ us2)) + lsum (map (fun p => h (fst p) (snd p)) (pairs_of (us1 ++ us2))))%R.
Proof.
  intros A h us1 u us2 S. induction us1 as [|a r IH]; cbn [app pairs_of]; rewrite !map_app, !lsum_app, !map_map; cbn [fst snd]; [reflexivity|].
  rewrite IH. cbn [map]. change (lsum (?a :: ?l)) with (a + lsum l)%R. rewrite (S a u). ring.
Qed.
Lemma half_invol : forall nd k, half nd nd (half nd nd k) = k.
Proof.
  intros nd k. unfold half.
  destruct (Nat.ltb_spec k nd), (Nat.leb_spec nd k), (Nat.ltb_spec k (nd + nd)); cbn [andb]; try lia;
    repeat match goal with |- context [?a <? ?b] => destruct (Nat.ltb_spec a b) | |- context [?a <=? ?b] => destruct (Nat.leb_spec a b) end; cbn [andb]; lia.
Qed.
Lemma cross_sym : forall nd u v e, cross nd u v e = cross nd v u e.
Proof. intros. rewrite !cross_alt. ring. Qed.

Lemma total_half : forall P d F, total (P ++ d ++ d) (fun e => F (fun k => e (half (length d) (length d) k))) = total (P ++ d ++ d) F.
Proof.
  intros P d F. rewrite app_assoc, !(total_app (P ++ d) d), !(total_app P d). apply total_ext. intros p _.
  unfold total. rewrite lsum_swap. apply lsum_map_ext. intros v _. apply lsum_map_ext. intros w _. f_equal. apply functional_extensionality. intros k.
  unfold join, half.
  repeat match goal with |- context [?a <? ?b] => destruct (Nat.ltb_spec a b) | |- context [?a <=? ?b] => destruct (Nat.leb_spec a b) end; cbn [andb] in *;
  repeat match goal with |- context [?a <? ?b] => destruct (Nat.ltb_spec a b) end; try lia; f_equal; lia.
Qed.
Lemma valid_halves : forall P d e, valid (P ++ d ++ d) e -> exists p o o', plate_in P p /\ index_in d o /\ index_in d o' /\
  forall k, e k = join (length (d ++ d)) p (at_index (o ++ o')) k.
Proof.
  intros P d e H.
  assert (G : forall s (f : env), (forall k, k < length s -> f k < ax s k) -> exists o, index_in s o /\ forall k, k < length s -> at_index o k = f k).
  { intros s. induction s as [|n s IH]; intros f Hf.
    - exists []. split; [constructor|]. intros k Hk. cbn in Hk. lia.
    - destruct (IH f) as (o & Ho & Eo). { intros k Hk. specialize (Hf k ltac:(cbn; lia)). rewrite ax_cons in Hf. destruct (Nat.eqb_spec k (length s)); [lia|exact Hf]. }
      exists (f (length s) :: o). split.
      + constructor; [|exact Ho]. specialize (Hf (length s) ltac:(cbn; lia)). now rewrite ax_cons, Nat.eqb_refl in Hf.
      + intros k Hk. cbn [length] in Hk. unfold at_index. cbn [rev]. pose proof (index_length _ _ Ho) as L.
        destruct (Nat.eq_dec k (length s)) as [->|N]; [rewrite app_nth2; rewrite rev_length; [|lia]; rewrite L, Nat.sub_diag; reflexivity|].
        rewrite app_nth1 by (rewrite rev_length; lia). apply Eo. lia. }
  destruct (G d (fun k => e (k + length d))) as (o & Ho & Eo).
  { intros k Hk. specialize (H (k + length d)). rewrite ax_app, app_length in H. destruct (Nat.ltb_spec (k + length d) (length d + length d)); [|lia].
    rewrite ax_app in H. destruct (Nat.ltb_spec (k + length d) (length d)); [lia|]. now replace (k + length d - length d) with k in H by lia. }
  destruct (G d e) as (o' & Ho' & Eo').
  { intros k Hk. specialize (H k). rewrite ax_app, app_length in H. destruct (Nat.ltb_spec k (length d + length d)); [|lia].
    rewrite ax_app in H. destruct (Nat.ltb_spec k (length d)); [exact H|lia]. }
  exists (fun k => e (k + (length d + length d))), o, o'. split; [|split; [exact Ho|split; [exact Ho'|]]].
  - intros j _. specialize (H (j + (length d + length d))). rewrite ax_app, app_length in H. destruct (Nat.ltb_spec (j + (length d + length d)) (length d + length d)); [lia|].
    now replace (j + (length d + length d) - (length d + length d)) with j in H by lia.
  - intros k. rewrite app_length. unfold join. destruct (Nat.ltb_spec k (length d + length d)) as [C|C]; [|f_equal; lia].
    unfold at_index. rewrite rev_app_distr. pose proof (index_length _ _ Ho) as L. pose proof (index_length _ _ Ho') as L'.
    destruct (Nat.lt_ge_cases k (length d)) as [C'|C'].
    + rewrite app_nth1 by (rewrite rev_length; lia). symmetry. now apply Eo'.
    + rewrite app_nth2; rewrite rev_length; [|lia]. symmetry. transitivity (at_index o (k - length d)); [unfold at_index; now rewrite L'|].
      rewrite Eo by lia. f_equal. lia.
Qed.
Lemma symmetric_half : forall P d m e, symmetric P d m -> valid (P ++ d ++ d) e -> bget m (fun k => e (half (length d) (length d) k)) = bget m e.
Proof.
  intros P d m e S H. destruct (valid_halves P d e H) as (p & o & o' & Hp & Ho & Ho' & E).
  replace e with (join (length (d ++ d)) p (at_index (o ++ o'))) by (apply functional_extensionality; intros; now rewrite E).
  rewrite (S p o o' Hp Ho Ho'), app_length. rewrite index_half by now apply index_length. reflexivity.
Qed.

Lemma total_lsum : forall A s (F : A -> env -> R) l, total s (fun e => lsum (map (fun a => F a e) l)) = lsum (map (fun a => total s (F a)) l).
Proof. intros A s F l. unfold total. apply lsum_swap. Qed.

Lemma add_messages_ok : forall P d (m : gmom) (us1 us2 : list gmom), us1 ++ us2 <> [] -> Forall (gaussian_shaped P d) (us1 ++ us2) ->
  gaussian_shaped P d m -> symmetric P d (snd m) ->
  exists y0 C, variable_of P d y0 /\ forall u : gmom, gaussian_shaped P d u ->
    add_message (length d) (length us1) m (us1 ++ u :: us2) = Ok (y0, snd m) /\
    exists x, add_moments (length d) (us1 ++ u :: us2) = Ok x /\
      paired P d m x = (paired P d (y0, snd m) u + C)%R.
Proof.
  intros P d m us1 us2 N H [M0 M1] S.
  destruct (reduce_add_ok P d (map fst (us1 ++ us2))) as (s & Es & Vs & Gs).
  { destruct (us1 ++ us2); [congruence|discriminate]. }
  { apply Forall_map. eapply Forall_impl; [|exact H]. now intros v [A _]. }
  set (m2 := np_map (fun v => 2 * v)%R (snd m)).
  assert (V2 : variable_of P (d ++ d) m2) by exact M1.
  destruct (mvdot_ok P d d m2 s eq_refl V2 Vs) as (t & Et & Bt & Gt).
  assert (HY : exists y0, np_map2 Rplus (fst m) t = Ok y0 /\ variable_of P d y0 /\ forall e, bget y0 e = (bget (fst m) e + bget t e)%R).
  { destruct M0 as (A1 & A2 & A3). destruct (map2_upper _ _ _ Rplus (fst m) t _ A3 Bt) as (y & Ey & NB & By & Vy). exists y. split; [exact Ey|]. split; [|exact Vy].
    destruct NB as (N1 & N2 & N3). split; [|split; [|exact By]].
    - specialize (N1 (ash (fst m)) ltac:(now left)). unfold ndim in *. lia.
    - intros i Hi. destruct (N3 i) as [K1 K2]. pose proof (K1 (ash (fst m)) ltac:(now left)) as K. pose proof (A2 i Hi) as Ea.
      destruct K as [K|K]; [|congruence]. destruct Bt as [_ Bt]. specialize (Bt i). rewrite ax_app in Bt. apply Nat.ltb_lt in Hi as Hi'. rewrite Hi' in Bt.
      destruct K2 as [K2|(s' & [<-|[<-|[]]] & K2)]; [congruence|congruence|]. destruct Bt as [Bt|Bt]; congruence. }
  destruct HY as (y0 & Ey & Vy & Gy).
  exists y0.
  exists (total (P ++ d) (fun e => bget (fst m) e * lsum (map (fun v : gmom => bget (fst v) e) (us1 ++ us2))) +
     total (P ++ d ++ d) (fun e => bget (snd m) e * (lsum (map (fun v : gmom => bget (snd v) e) (us1 ++ us2)) + lsum (map (fun p => cross (length d) (fst p) (snd p) e) (pairs_of (us1 ++ us2))))))%R.
  split; [exact Vy|]. intros u [U0 U1]. split.
  - unfold add_message. rewrite firstn_app, firstn_all, Nat.sub_diag. cbn [firstn]. rewrite app_nil_r.
    replace (skipn (Datatypes.S (length us1)) (us1 ++ u :: us2)) with us2.
    2:{ rewrite skipn_app, skipn_all2 by lia. replace (Datatypes.S (length us1) - length us1) with 1 by lia. reflexivity. }
    rewrite Es. cbn [bind]. fold m2. rewrite Et. cbn [bind]. rewrite Ey. reflexivity.
  - destruct (add_moments_ok P d (us1 ++ u :: us2)) as (x0 & x1 & Ex & _ & _ & G0 & G1).
    { now destruct us1. }
    { apply Forall_app in H as [H1 H2]. apply Forall_app. split; [exact H1|]. constructor; [now split|exact H2]. }
    exists (x0, x1). split; [exact Ex|]. unfold paired. cbn [fst snd].
    assert (T0 : total (P ++ d) (fun e => bget (fst m) e * bget x0 e)%R =
       (total (P ++ d) (fun e => bget (fst m) e * bget (fst u) e) + total (P ++ d) (fun e => bget (fst m) e * lsum (map (fun v : gmom => bget (fst v) e) (us1 ++ us2))))%R).
    { rewrite <- total_add. apply total_ext. intros e _. rewrite G0, !map_app. cbn [map]. rewrite lsum_mid, lsum_app. ring. }
    assert (T1 : total (P ++ d ++ d) (fun e => bget (snd m) e * bget x1 e)%R =
       (total (P ++ d ++ d) (fun e => bget (snd m) e * bget (snd u) e) +
        (total (P ++ d ++ d) (fun e => bget (snd m) e * lsum (map (fun v => cross (length d) u v e) (us1 ++ us2))) +
        total (P ++ d ++ d) (fun e => bget (snd m) e * (lsum (map (fun v : gmom => bget (snd v) e) (us1 ++ us2)) + lsum (map (fun p => cross (length d) (fst p) (snd p) e) (pairs_of (us1 ++ us2)))))))%R).
    { rewrite <- !total_add. apply total_ext. intros e He. rewrite (G1 e (valid_plate _ _ He)), (lsum_pairs_mid _ (fun a b => cross (length d) a b e)) by (intros; apply cross_sym).
      rewrite !map_app. cbn [map]. rewrite lsum_mid, !lsum_app. ring. }
    assert (T2 : total (P ++ d ++ d) (fun e => bget (snd m) e * lsum (map (fun v => cross (length d) u v e) (us1 ++ us2)))%R =
       total (P ++ d) (fun q => bget t q * bget (fst u) q)%R).
    { set (F := fun e => (bget (snd m) e * (bget (fst u) (fun k => e (k + length d)%nat) * bget s (over (length d) (length d) e)))%R).
      transitivity (total (P ++ d ++ d) (fun e => F e + F (fun k => e (half (length d) (length d) k)))%R).
      - apply total_ext. intros e He. unfold F. rewrite (symmetric_half P d (snd m) e S He), half_left, half_right, !Gs, !map_map.
        rewrite (map_ext (fun v => cross (length d) u v e) (fun v => (bget (fst u) (fun k => e (k + length d)%nat) * bget (fst v) (over (length d) (length d) e)) + (bget (fst u) (over (length d) (length d) e) * bget (fst v) (fun k => e (k + length d)%nat)))%R) by (intros; apply cross_alt).
        rewrite lsum_map_add.
        rewrite (lsum_map_scal _ (bget (fst u) (fun k => e (k + length d)%nat))), (lsum_map_scal _ (bget (fst u) (over (length d) (length d) e))). unfold gmom. ring.
      - rewrite total_add, total_half. rewrite app_assoc, (total_app (P ++ d) d). rewrite <- total_add. apply total_ext. intros q Hq.
        rewrite (Gt q Hq). rewrite Rmult_comm, <- total_scal, <- total_add. apply total_ext. intros w Hw. unfold F.
        replace (fun k => join (length d) q w (k + length d)) with q.
        2:{ apply functional_extensionality. intros k. unfold join. destruct (Nat.ltb_spec (k + length d) (length d)); [lia|]. f_equal. lia. }
        replace (over (length d) (length d) (join (length d) q w)) with (join (length d) (fun k => q (k + length d)%nat) w).
        2:{ apply functional_extensionality. intros k. unfold over, join. destruct (Nat.ltb_spec k (length d)).
            - reflexivity.
            - destruct (Nat.ltb_spec (k + length d) (length d)); [lia|]. f_equal. lia. }
        unfold m2. rewrite bget_map. ring. }
    rewrite T0, T1, T2. assert (T3 : total (P ++ d) (fun e => bget y0 e * bget (fst u) e)%R = (total (P ++ d) (fun e => bget (fst m) e * bget (fst u) e) + total (P ++ d) (fun q => bget t q * bget (fst u) q))%R).
    { rewrite <- total_add. apply total_ext. intros e _. rewrite Gy. ring. }
    rewrite T3. ring.
Qed.
