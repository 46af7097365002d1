(** Lemmas for C25: the moments and messages of a node whose value is affine in each of its
    independent Gaussian parents. *)
From Coq Require Import List Arith ZArith Lia Bool Reals Lra FunctionalExtensionality ClassicalEpsilon.
From Verif Require Import ConcatLemmas2 Base Shapes SpecShapes ShapesLemmas NumPy MiscArray TensorLemmas
  EinsumLemmas SumMultiplyLemmas SpecArray PlateSumLemmas PlateSum2Lemmas MessageLemmas
  ShapeOpsLemmas DiagLemmas ExpFam SpecExpFam ExpFamLemmas ExpFamBound ExpFamGrad PExpFam SpecUpdate
  UpdateLemmas PUpdate FamilyDist SpecFamilyDist PFamilyDist Network SpecNetwork NetworkLemmas NetworkLemmas2
  PNetwork PFamilyNet Dot SpecDot DotExpect DotNode DotSwap DetNet SpecDetNet DetNetLemmas DetNetLemmas2
  GaussNet SpecGaussNet PlateDet GaussTypes LinearDet AddLemmas.
Import ListNotations.
Open Scope R_scope.

Lemma lsum_plus : forall A (l : list A) (F G : A -> R), lsum (map F l) + lsum (map G l) = lsum (map (fun a => F a + G a) l).
Proof. intros A l F G. unfold lsum. induction l as [|a l IH]; cbn; [ring|]. rewrite <- IH. ring. Qed.
Lemma lsum_none : forall A (l : list A), lsum (map (fun _ => 0) l) = 0.
Proof. intros A l. unfold lsum. induction l as [|a l IH]; cbn; [reflexivity|]. rewrite IH. ring. Qed.
Lemma lsum_swap : forall A B (l : list A) (l' : list B) (F : A -> B -> R),
  lsum (map (fun a => lsum (map (F a) l')) l) = lsum (map (fun b => lsum (map (fun a => F a b) l)) l').
Proof.
  intros A B l l' F. induction l as [|a l IH].
  - cbn [map]. symmetry. apply lsum_none.
  - cbn [map]. change (lsum (?x :: ?r)) with (x + lsum r). rewrite IH, lsum_plus. reflexivity.
Qed.
Lemma total_swap : forall s s' F, total s (fun v => total s' (fun w => F v w)) = total s' (fun w => total s (fun v => F v w)).
Proof. intros s s' F. unfold total. apply lsum_swap. Qed.
Lemma total_pick : forall s t F, valid s t -> total s (fun e => if maps_to (length s) s e t then F e else 0) = F t.
Proof. intros s t F H. rewrite <- fibre_total. now apply fibre_self. Qed.
Lemma total_sub : forall s F G, total s F - total s G = total s (fun e => F e - G e).
Proof. intros. rewrite (total_ext s (fun e => F e - G e) (fun e => 1 * F e + (-1) * G e)) by (intros; ring). rewrite total_lin2. ring. Qed.
Lemma maps_self : forall n s e, valid s e -> maps_to n s e e = true.
Proof.
  intros n s e H. unfold maps_to. apply forallb_forall. intros k _. apply Nat.eqb_eq. unfold clip. destruct (Nat.eqb_spec (ax s k) 1) as [E|E]; [|reflexivity].
  specialize (H k). lia.
Qed.
Lemma maps_valid : forall s a b, valid s a -> valid s b -> maps_to (length s) s a b = true -> a = b.
Proof.
  intros s a b Ha Hb H. rewrite <- (maps_clip s s a b (broadcasts_to_refl s) Ha Hb H). symmetry. apply functional_extensionality. intros k.
  unfold clip. destruct (Nat.eqb_spec (ax s k) 1) as [E|E]; [|reflexivity]. specialize (Ha k). lia.
Qed.

(** ** Linear and quadratic functions of a variable *)
Definition lq (s : shape) (a q f : env -> R) : R := total s (fun v => a v * f v) + quad s q f.
Lemma lq_mid : forall s a q f g h, (forall v, valid s v -> f v + g v = 2 * h v) ->
  lq s a q f + lq s a q g - 2 * lq s a q h = 2 * quad s q (fun v => f v - h v).
Proof.
  intros s a q f g h H. unfold lq.
  assert (E1 : total s (fun v => a v * f v) + total s (fun v => a v * g v) - 2 * total s (fun v => a v * h v) = 0).
  { rewrite <- total_add. rewrite <- total_cmul, total_sub. apply total_zero. intros v Hv. specialize (H v Hv). nra. }
  assert (E2 : quad s q f + quad s q g - 2 * quad s q h = 2 * quad s q (fun v => f v - h v)).
  { unfold quad. rewrite <- total_add, <- !total_cmul, total_sub. apply total_ext. intros v Hv.
    rewrite <- total_add, <- !total_cmul, total_sub. apply total_ext. intros w Hw. pose proof (H v Hv). pose proof (H w Hw).
    replace (g v) with (2 * h v - f v) by lra. replace (g w) with (2 * h w - f w) by lra. ring. }
  lra.
Qed.
Lemma lq_ext : forall s a q f g, (forall v, valid s v -> f v = g v) -> lq s a q f = lq s a q g.
Proof.
  intros s a q f g H. unfold lq, quad. f_equal; apply total_ext; intros v Hv; [now rewrite H|]. apply total_ext. intros w Hw. now rewrite !H.
Qed.
Lemma lq_zero : forall s a q f, (forall v, valid s v -> a v = 0) -> (forall v w, valid s v -> valid s w -> q (join (length s) v w) = 0) ->
  lq s a q f = 0.
Proof.
  intros s a q f Ha Hq. unfold lq, quad. rewrite !total_zero; [ring| |].
  - intros v Hv. apply total_zero. intros w Hw. rewrite Hq by assumption. ring.
  - intros v Hv. rewrite Ha by assumption. ring.
Qed.
Lemma lq_nil : forall s a q, lq s a q (fun _ => 0) = 0.
Proof.
  intros s a q. unfold lq, quad. rewrite (total_zero s (fun v => a v * 0)) by (intros; ring). rewrite total_zero; [ring|].
  intros v _. apply total_zero. intros w _. ring.
Qed.
Lemma lq_neg : forall s a q f, lq s a q f + lq s a q (fun v => - f v) = 2 * quad s q f.
Proof.
  intros s a q f. pose proof (lq_mid s a q f (fun v => - f v) (fun _ => 0) ltac:(intros; cbv beta; ring)) as H.
  rewrite lq_nil in H. assert (E : quad s q (fun v => f v - 0) = quad s q f).
  { unfold quad. apply total_ext. intros v _. apply total_ext. intros w _. ring. }
  rewrite E in H. lra.
Qed.
Definition unit_at (s : shape) (v e : env) : R := if maps_to (length s) s e v then 1 else 0.
Lemma total_unit : forall s v F, valid s v -> total s (fun e => F e * unit_at s v e) = F v.
Proof.
  intros s v F Hv. rewrite <- (total_pick s v F Hv). apply total_ext. intros e _. unfold unit_at. destruct (maps_to _ _ _ _); ring.
Qed.
(** A symmetric form that vanishes is zero. *)
Lemma lq_vanish : forall s a q, msym s q -> (forall f, lq s a q f = 0) ->
  (forall v, valid s v -> a v = 0) /\ (forall v w, valid s v -> valid s w -> q (join (length s) v w) = 0).
Proof.
  intros s a q S H.
  assert (Q : forall f, quad s q f = 0) by (intros f; pose proof (lq_neg s a q f) as E; rewrite !H in E; lra). split.
  - intros v Hv. specialize (H (unit_at s v)). unfold lq in H. rewrite Q, total_unit in H by exact Hv. lra.
  - intros v w Hv Hw.
    assert (B : forall x y, valid s x -> valid s y -> total s (fun e => total s (fun e' => q (join (length s) e e') * unit_at s x e * unit_at s y e')) = q (join (length s) x y)).
    { intros x y Hx Hy. rewrite (total_ext s _ (fun e => q (join (length s) e y) * unit_at s x e)).
      - now apply (total_unit s x (fun e => q (join (length s) e y))).
      - intros e _. rewrite (total_unit s y (fun e' => q (join (length s) e e') * unit_at s x e) Hy). reflexivity. }
    pose proof (Q (unit_at s v)) as Q1. pose proof (Q (unit_at s w)) as Q2. pose proof (Q (fun e => unit_at s v e + unit_at s w e)) as Q3.
    unfold quad in Q1, Q2, Q3. rewrite B in Q1, Q2 by assumption.
    rewrite (total_ext s _ (fun e => (total s (fun e' => q (join (length s) e e') * unit_at s v e * unit_at s v e') + total s (fun e' => q (join (length s) e e') * unit_at s v e * unit_at s w e'))
      + (total s (fun e' => q (join (length s) e e') * unit_at s w e * unit_at s v e') + total s (fun e' => q (join (length s) e e') * unit_at s w e * unit_at s w e')))) in Q3.
    2:{ intros e _. rewrite <- !total_add. apply total_ext. intros e' _. ring. }
    rewrite !total_add, !B in Q3 by assumption. rewrite (S w v Hw Hv) in Q3. lra.
Qed.

(** ** A parent with a known value among the parents *)
Lemma expect_insert : forall ds1 ds2 o F, o_prob o = 1 ->
  expect (ds1 ++ [o] :: ds2) F = expect (ds1 ++ ds2) (fun os => F (firstn (length ds1) os ++ o :: skipn (length ds1) os)).
Proof.
  induction ds1 as [|d ds1 IH]; intros ds2 o F Ho.
  - cbn [app length firstn skipn expect]. unfold mean_of, lsum. cbn [map fold_right]. rewrite Ho. ring.
  - cbn [app length expect]. f_equal. apply functional_extensionality. intros x. rewrite IH by exact Ho. apply expect_ext. intros os _. reflexivity.
Qed.

Section Linear.
Variables (P shp : shape) (nodes : list (shape * pkind)).
Variable mf : list pmom -> res (list (arr R)).
Variable Y : list outcome -> list nat -> R.
Definition moments_ok (x0 x1 : arr R) (parents : list (pmom * (env -> list outcome))) : Prop :=
  variable_of P shp x0 /\ variable_of P (shp ++ shp) x1 /\
  forall p, plate_in P p ->
    (forall o, index_in shp o -> bget x0 (join (length shp) p (at_index o)) = expect (map (fun pa => snd pa p) parents) (fun os => Y os o)) /\
    (forall o o', index_in shp o -> index_in shp o' ->
      bget x1 (join (length (shp ++ shp)) p (at_index (o ++ o'))) = expect (map (fun pa => snd pa p) parents) (fun os => Y os o * Y os o')).
Hypothesis HM : forall parents, Forall2 (good P) nodes parents ->
  exists x0 x1, mf (map fst parents) = Ok [x0; x1] /\ moments_ok x0 x1 parents.

Let Yv (os : list outcome) : env -> R := fun v => Y os (idx (length shp) v).

Lemma proper_all : forall ns parents p, Forall2 (good P) ns parents -> plate_in P p -> Forall proper_dist (map (fun pa : pmom * (env -> list outcome) => snd pa p) parents).
Proof. intros ns parents p H Hp. induction H as [|nd pa ns parents [_ G] H IH]; [constructor|]. constructor; [now apply G|exact IH]. Qed.

Lemma moments_values : forall x0 x1 parents p, moments_ok x0 x1 parents -> valid P p ->
  (forall v, valid shp v -> bget x0 (join (length shp) p v) = avg (draws (map (fun pa => snd pa p) parents)) (fun os => Yv os v)) /\
  (forall v w, valid shp v -> valid shp w -> bget x1 (join (length (shp ++ shp)) p (join (length shp) v w)) =
     avg (draws (map (fun pa => snd pa p) parents)) (fun os => Yv os v * Yv os w)).
Proof.
  intros x0 x1 parents p (_ & _ & H) Hp. destruct (H p (valid_plate _ _ Hp)) as [H0 H1]. split.
  - intros v Hv. specialize (H0 _ (idx_in _ _ Hv)). rewrite at_idx in H0 by exact Hv. rewrite H0. apply expect_draws.
  - intros v w Hv Hw. pose proof (idx_in _ _ Hv) as Iv. pose proof (idx_in _ _ Hw) as Iw. specialize (H1 _ _ Iv Iw).
    rewrite join_at in H1 by (apply (Forall2_len _ _ _ _ _ Iv) || apply (Forall2_len _ _ _ _ _ Iw)).
    rewrite !at_idx in H1 by assumption. rewrite H1. apply expect_draws.
Qed.

Lemma linear_moments : forall parents, Forall2 (good P) nodes parents ->
  exists x0 x1, mf (map fst parents) = Ok [x0; x1] /\ Forall2 (variable_of P) [shp; shp ++ shp] [x0; x1] /\
    forall p, valid P p -> mt_mom (MGaussian shp) (at_plate [shp; shp ++ shp] [x0; x1] p).
Proof.
  intros parents G. destruct (HM parents G) as (x0 & x1 & E & M). exists x0, x1. split; [exact E|].
  pose proof M as (V0 & V1 & _). split; [constructor; [exact V0|constructor; [exact V1|constructor]]|]. intros p Hp.
  destruct (moments_values x0 x1 parents p M Hp) as [H0 H1].
  exists (map (fun x => (fst x, Yv (snd x))) (draws (map (fun pa => snd pa p) parents))).
  pose proof (draws_probs _ (proper_all _ _ p G (valid_plate _ _ Hp))) as [D1 D2]. split; [split|split].
  - apply Forall_map. cbn [fst]. exact D1.
  - rewrite map_map. cbn [fst]. exact D2.
  - intros v Hv. transitivity (bget x0 (join (length shp) p v)); [reflexivity|]. rewrite H0 by exact Hv. unfold avg. rewrite map_map. reflexivity.
  - intros v w Hv Hw. transitivity (bget x1 (join (length (shp ++ shp)) p (join (length shp) v w))); [reflexivity|].
    rewrite H1 by assumption. unfold avg. rewrite map_map. reflexivity.
Qed.

(** ** Messages *)
Variables (ns1 ns2 : list (shape * pkind)) (dims pp : shape) (pa1 pa2 : list (pmom * (env -> list outcome))).
Variables (y0 y1 m0 m1 : arr R) (C : R).
Hypothesis En : nodes = ns1 ++ (dims, KGaussian) :: ns2.
Hypothesis G1 : Forall2 (good P) ns1 pa1.
Hypothesis G2 : Forall2 (good P) ns2 pa2.
Hypothesis Bpp : broadcasts_to pp P.
Notation us u := (map fst pa1 ++ u :: map fst pa2).
Hypothesis HA : forall u, shaped false pp dims KGaussian u -> forall x0 x1, mf (us u) = Ok [x0; x1] ->
  total (P ++ shp) (fun e => bget m0 e * bget x0 e) + total (P ++ shp ++ shp) (fun e => bget m1 e * bget x1 e) =
  total (pp ++ dims) (fun e => bget y0 e * bget (first_moment u) e) + total (pp ++ dims ++ dims) (fun e => bget y1 e * bget (second_moment u) e) + C.
Hypothesis HD : forall u, shaped false pp dims KGaussian u -> exists x0 x1, mf (us u) = Ok [x0; x1].
Notation value f := (Outcome 1 (Arr dims f) 1).
Hypothesis HY : forall os1 os2 f i, Forall2 (fun (nd : shape * pkind) o => ash (o_value o) = fst nd) ns1 os1 ->
  Forall2 (fun (nd : shape * pkind) o => ash (o_value o) = fst nd) ns2 os2 ->
  index_in shp i ->
  Y (os1 ++ value f :: os2) i + Y (os1 ++ value (fun v => - f v) :: os2) i = 2 * Y (os1 ++ value (fun _ => 0) :: os2) i.
Hypothesis HT : forall u u', shaped false pp dims KGaussian u -> shaped false pp dims KGaussian u' ->
  first_moment u' = first_moment u -> transposed P dims (second_moment u) (second_moment u') ->
  forall x0 x1 x0' x1', mf (us u) = Ok [x0; x1] -> mf (us u') = Ok [x0'; x1'] ->
  (forall e, valid (P ++ shp) e -> bget x0' e = bget x0 e) /\ transposed P shp x1 x1'.
Let M0 p : env -> R := fun v => bget m0 (join (length shp) p v).
Let M1 p : env -> R := fun v => bget m1 (join (length (shp ++ shp)) p v).
Let Y0 t : env -> R := fun v => bget y0 (join (length dims) t v).
Let Y1 t : env -> R := fun v => bget y1 (join (length (dims ++ dims)) t v).
Hypothesis SM : forall p, valid P p -> msym shp (M1 p) /\ forall f, quad shp (M1 p) f <= 0.

Let n1 := length pa1.
Let W p := draws (map (fun pa => snd pa p) (pa1 ++ pa2)).
Let Yf f os : env -> R := fun v => Y (firstn n1 os ++ value f :: skipn n1 os) (idx (length shp) v).

Lemma total_quad : forall s q f, quad s q f = total (s ++ s) (fun e => q e * (f (plate_of (length s) e) * f (low (length s) e))).
Proof.
  intros s q f. rewrite total_app. unfold quad. apply total_ext. intros v Hv. apply total_ext. intros w Hw. rewrite join_plate, low_join by exact Hw. ring.
Qed.
Lemma point_shaped : forall h, shaped false pp dims KGaussian (point pp dims h).
Proof. intros h. cbn. split; [apply full_variable|]. apply full_variable. Qed.

Lemma probe : forall h : env -> env -> R,
  total pp (fun q => lq dims (Y0 q) (Y1 q) (h q)) + C =
  total P (fun p => avg (W p) (fun os => lq shp (M0 p) (M1 p) (Yf (h (clip pp p)) os))).
Proof.
  intros h. pose proof (point_shaped h) as SH. set (d := fun p => [value (h (clip pp p))]).
  destruct (HM (pa1 ++ (point pp dims h, d) :: pa2)) as (x0 & x1 & E & M).
  { rewrite En. apply Forall2_app; [exact G1|]. constructor; [now apply point_good|exact G2]. }
  rewrite map_app in E. cbn [map fst] in E. pose proof (HA _ SH x0 x1 E) as A.
  transitivity (total (pp ++ dims) (fun e => bget y0 e * bget (first_moment (point pp dims h)) e)
     + total (pp ++ dims ++ dims) (fun e => bget y1 e * bget (second_moment (point pp dims h)) e) + C).
  { f_equal. rewrite !total_app, <- total_add. apply total_ext. intros q Hq. unfold lq. f_equal.
    - apply total_ext. intros v Hv. now rewrite point_first.
    - unfold quad. rewrite total_app. apply total_ext. intros v Hv. apply total_ext. intros w Hw. rewrite point_second by assumption. unfold Y1. ring. }
  rewrite <- A. clear A. rewrite (app_assoc P), (total_app P shp), <- app_assoc, (total_app P (shp ++ shp)), <- total_add. apply total_ext. intros p Hp.
  destruct (moments_values x0 x1 _ p M Hp) as [H0 H1].
  assert (EX : forall F, avg (draws (map (fun pa => snd pa p) (pa1 ++ (point pp dims h, d) :: pa2))) F =
    avg (W p) (fun os => F (firstn n1 os ++ value (h (clip pp p)) :: skipn n1 os))).
  { intros F. unfold W. rewrite <- !expect_draws. rewrite !map_app. cbn [map snd]. unfold d, n1. rewrite expect_insert by reflexivity. rewrite map_length. reflexivity. }
  transitivity (avg (W p) (fun os => total shp (fun v => M0 p v * Yf (h (clip pp p)) os v)) + avg (W p) (fun os => quad shp (M1 p) (Yf (h (clip pp p)) os))).
  2:{ rewrite <- (Rmult_1_l (avg (W p) (fun os => total _ _))), <- (Rmult_1_l (avg (W p) (fun os => quad _ _ _))), <- avg_lin2. apply avg_ext. intros o _. unfold lq. ring. }
  f_equal.
  - rewrite <- avg_total. apply total_ext. intros v Hv. rewrite H0 by exact Hv. rewrite EX, <- avg_cmul. reflexivity.
  - unfold quad. rewrite total_app. rewrite <- avg_total. apply total_ext. intros v Hv. rewrite <- avg_total. apply total_ext. intros w Hw.
    rewrite H1 by assumption. rewrite EX, <- avg_cmul. apply avg_ext. intros o _. unfold M1, Yf, Yv. ring.
Qed.

Lemma drawn_shapes : forall p os, plate_in P p -> drawn os (map (fun pa => snd pa p) (pa1 ++ pa2)) ->
  Forall2 (fun (nd : shape * pkind) o => ash (o_value o) = fst nd) ns1 (firstn n1 os) /\
  Forall2 (fun (nd : shape * pkind) o => ash (o_value o) = fst nd) ns2 (skipn n1 os).
Proof.
  intros p os Hp H. rewrite map_app in H. apply Forall2_app_inv_r in H as (o1 & o2 & D1 & D2 & ->).
  pose proof (Forall2_len _ _ _ _ _ D1) as L. rewrite map_length in L. fold n1 in L.
  rewrite firstn_app, skipn_app, L, Nat.sub_diag, <- L, firstn_all, skipn_all. cbn [firstn skipn app]. rewrite app_nil_r.
  assert (G : forall ns pas os', Forall2 (good P) ns pas -> drawn os' (map (fun pa : pmom * (env -> list outcome) => snd pa p) pas) ->
    Forall2 (fun (nd : shape * pkind) o => ash (o_value o) = fst nd) ns os').
  { intros ns pas os' H. revert os'. induction H as [|nd pa ns pas [(_ & D & _) _] H IH]; intros os' Ho; inversion Ho; subst; constructor; [|now apply IH].
    now apply (D p). }
  split; eapply G; eassumption.
Qed.

(** The plates over one plate of the parent. *)
Lemma probe_at : forall t f, valid pp t ->
  lq dims (Y0 t) (Y1 t) f = total P (fun p => if maps_to (length P) pp p t then
    avg (W p) (fun os => lq shp (M0 p) (M1 p) (Yf f os) - lq shp (M0 p) (M1 p) (Yf (fun _ => 0) os)) else 0).
Proof.
  intros t f Ht. set (h := fun q v : env => if maps_to (length pp) pp q t then f v else 0).
  pose proof (probe h) as A. pose proof (probe (fun _ _ => 0)) as B.
  assert (E : total pp (fun q => lq dims (Y0 q) (Y1 q) (h q)) - total pp (fun q => lq dims (Y0 q) (Y1 q) (fun _ => 0)) = lq dims (Y0 t) (Y1 t) f).
  { rewrite total_sub. rewrite <- (total_pick pp t (fun q => lq dims (Y0 q) (Y1 q) f) Ht). apply total_ext. intros q Hq. unfold h.
    pose proof (lq_nil dims (Y0 q) (Y1 q)) as Z. rewrite Z. destruct (maps_to (length pp) pp q t); [rewrite Rminus_0_r; reflexivity|]. rewrite Z. ring. }
  rewrite <- E. replace (total pp _) with (total P (fun p => avg (W p) (fun os => lq shp (M0 p) (M1 p) (Yf (h (clip pp p)) os))) - C) at 1 by lra.
  replace (total pp (fun q => lq dims (Y0 q) (Y1 q) (fun _ => 0))) with (total P (fun p => avg (W p) (fun os => lq shp (M0 p) (M1 p) (Yf (fun _ => 0) os))) - C) by lra.
  transitivity (total P (fun p => avg (W p) (fun os => lq shp (M0 p) (M1 p) (Yf (h (clip pp p)) os))) - total P (fun p => avg (W p) (fun os => lq shp (M0 p) (M1 p) (Yf (fun _ => 0) os)))); [ring|].
  rewrite total_sub. apply total_ext. intros p Hp. pose proof (plate_clip pp P p Bpp (valid_plate _ _ Hp)) as Hc.
  assert (HH : h (clip pp p) = if maps_to (length P) pp p t then f else (fun _ => 0)).
  { unfold h. destruct (maps_to (length P) pp p t) eqn:Em.
    - rewrite (maps_clip P pp p t Bpp Hp Ht Em). now rewrite maps_self.
    - destruct (maps_to (length pp) pp (clip pp p) t) eqn:Em'; [|reflexivity]. exfalso.
      pose proof (maps_valid pp _ _ Hc Ht Em') as Ec.
      assert (maps_to (length P) pp p t = true); [|congruence]. unfold maps_to. apply forallb_forall. intros k _. apply Nat.eqb_eq. now rewrite Ec. }
  rewrite HH. destruct (maps_to (length P) pp p t).
  - transitivity (1 * avg (W p) (fun os => lq shp (M0 p) (M1 p) (Yf f os)) + (-1) * avg (W p) (fun os => lq shp (M0 p) (M1 p) (Yf (fun _ => 0) os))); [ring|].
    rewrite <- avg_lin2. apply avg_ext. intros; ring.
  - ring.
Qed.

Lemma message_negative : forall t f, valid pp t -> quad dims (Y1 t) f <= 0.
Proof.
  intros t f Ht. pose proof (probe_at t f Ht) as A. pose proof (probe_at t (fun v => - f v) Ht) as B.
  pose proof (lq_neg dims (Y0 t) (Y1 t) f) as N. rewrite A, B, <- total_add in N.
  assert (L : total P (fun e => (if maps_to (length P) pp e t then avg (W e) (fun os => lq shp (M0 e) (M1 e) (Yf f os) - lq shp (M0 e) (M1 e) (Yf (fun _ => 0) os)) else 0) +
     (if maps_to (length P) pp e t then avg (W e) (fun os => lq shp (M0 e) (M1 e) (Yf (fun v => - f v) os) - lq shp (M0 e) (M1 e) (Yf (fun _ => 0) os)) else 0)) <= 0).
  { apply Rle_trans with (total P (fun _ => 0)); [|right; now apply total_zero]. apply total_le. intros p Hp. destruct (maps_to (length P) pp p t); [|lra].
    pose proof (valid_plate _ _ Hp) as Hp'.
    assert (PW : probs (W p)).
    { apply draws_probs. apply proper_all with (ns := ns1 ++ ns2); [now apply Forall2_app|exact Hp']. }
    rewrite <- (Rmult_1_l (avg (W p) _)), <- (Rmult_1_l (avg (W p) (fun os => lq shp (M0 p) (M1 p) (Yf (fun v => - f v) os) - _))), <- avg_lin2.
    apply Rle_trans with (avg (W p) (fun _ => 0)); [|right; now apply avg_const]. apply avg_le; [exact PW|]. intros o Ho. apply draws_in in Ho.
    destruct (drawn_shapes p (snd o) Hp' Ho) as [S1 S2].
    pose proof (lq_mid shp (M0 p) (M1 p) (Yf f (snd o)) (Yf (fun v => - f v) (snd o)) (Yf (fun _ => 0) (snd o))) as Q.
    destruct (SM p Hp) as [_ SN]. specialize (SN (fun v => Yf f (snd o) v - Yf (fun _ => 0) (snd o) v)).
    rewrite !Rmult_1_l. assert (Q' : forall v, valid shp v -> Yf f (snd o) v + Yf (fun v => - f v) (snd o) v = 2 * Yf (fun _ => 0) (snd o) v); [|specialize (Q Q'); lra]. intros v Hv. unfold Yf. apply HY; [exact S1|exact S2|]. now apply idx_in. }
  lra.
Qed.

Let U t v w := Dot.MGaussian (Arr (pp ++ dims) (fun _ => 0)) (Arr (pp ++ dims ++ dims)
  (fun e => if maps_to (length (pp ++ dims ++ dims)) (pp ++ dims ++ dims) e (join (length (dims ++ dims)) t (join (length dims) v w)) then 1 else 0)).
Lemma transposed_total : forall x x', transposed P shp x x' ->
  total (P ++ shp ++ shp) (fun e => bget m1 e * bget x' e) = total (P ++ shp ++ shp) (fun e => bget m1 e * bget x e).
Proof.
  intros x x' T. rewrite !(total_app P). apply total_ext. intros p Hp. rewrite !total_app. rewrite total_swap. apply total_ext. intros v Hv. apply total_ext. intros w Hw.
  rewrite (T p w v (valid_plate _ _ Hp) Hw Hv). f_equal. destruct (SM p Hp) as [S _]. exact (S w v Hw Hv).
Qed.
Lemma message_symmetric : forall t, valid pp t -> msym dims (Y1 t).
Proof.
  intros t Ht v w Hv Hw.
  assert (VU : forall v w, shaped false pp dims KGaussian (U t v w)) by (intros; cbn; split; apply full_variable).
  assert (VV : forall v w, valid dims v -> valid dims w -> valid (pp ++ dims ++ dims) (join (length (dims ++ dims)) t (join (length dims) v w)))
    by (intros; apply join_valid; [exact Ht|now apply join_valid]).
  assert (TU : transposed P dims (second_moment (U t v w)) (second_moment (U t w v))).
  { intros p a b Hp Ha Hb. cbn [second_moment U]. pose proof (plate_clip pp P p Bpp Hp) as Hq.
    rewrite (bget_join_clip _ pp (dims ++ dims) p (join (length dims) a b)) by (cbn [ash]; try apply broadcasts_to_refl; now apply join_valid).
    rewrite (bget_join_clip _ pp (dims ++ dims) p (join (length dims) b a)) by (cbn [ash]; try apply broadcasts_to_refl; now apply join_valid).
    rewrite !bget_full by (apply join_valid; [exact Hq|now apply join_valid]).
    rewrite !maps_to_join. now rewrite (andb_comm (maps_to (length dims) dims a w)). }
  destruct (HD _ (VU v w)) as (x0 & x1 & E). destruct (HD _ (VU w v)) as (x0' & x1' & E').
  destruct (HT _ _ (VU v w) (VU w v) eq_refl TU _ _ _ _ E E') as [T0 T1].
  pose proof (HA _ (VU v w) _ _ E) as A. pose proof (HA _ (VU w v) _ _ E') as A'.
  rewrite (transposed_total _ _ T1) in A'. rewrite (total_ext (P ++ shp) (fun e => bget m0 e * bget x0' e) (fun e => bget m0 e * bget x0 e)) in A' by (intros e He; now rewrite T0).
  assert (Q : forall a b, valid dims a -> valid dims b -> total (pp ++ dims ++ dims) (fun e => bget y1 e * bget (second_moment (U t a b)) e) = Y1 t (join (length dims) a b)).
  { intros a b Ha Hb. unfold Y1. rewrite <- (total_pick (pp ++ dims ++ dims) _ (bget y1) (VV a b Ha Hb)). apply total_ext. intros e He. cbn [second_moment U].
    rewrite bget_full by exact He. destruct (maps_to _ _ _ _); ring. }
  rewrite Q in A, A' by assumption. cbn [first_moment mom0 U] in A, A'. lra.
Qed.
Lemma message_vanish : forall t, valid pp t -> msym dims (Y1 t) ->
  (forall p, valid P p -> clip pp p = t -> (forall v, valid shp v -> M0 p v = 0) /\ (forall v w, valid shp v -> valid shp w -> M1 p (join (length shp) v w) = 0)) ->
  (forall v, valid dims v -> Y0 t v = 0) /\ (forall v w, valid dims v -> valid dims w -> Y1 t (join (length dims) v w) = 0).
Proof.
  intros t Ht S H. apply lq_vanish; [exact S|]. intros f. rewrite probe_at by exact Ht. apply total_zero. intros p Hp.
  destruct (maps_to (length P) pp p t) eqn:E; [|reflexivity]. destruct (H p Hp (maps_clip _ _ _ _ Bpp Hp Ht E)) as [Z0 Z1].
  rewrite (avg_ext _ _ (fun _ => 0 * 0)); [rewrite (avg_cmul (W p) 0 (fun _ => 0)); ring|]. intros o _. rewrite !lq_zero by assumption. ring.
Qed.
Lemma message_silent : forall t, valid pp t ->
  (forall p, valid P p -> clip pp p = t -> (forall v, valid shp v -> M0 p v = 0) /\ (forall v w, valid shp v -> valid shp w -> M1 p (join (length shp) v w) = 0)) ->
  (forall v, valid dims v -> Y0 t v = 0) /\ (forall v w, valid dims v -> valid dims w -> Y1 t (join (length dims) v w) = 0).
Proof. intros t Ht. apply message_vanish; [exact Ht|now apply message_symmetric]. Qed.
End Linear.
