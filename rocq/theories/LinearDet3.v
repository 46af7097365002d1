(** Lemmas for C25: a node whose value is affine in each of its independent Gaussian parents,
    as a deterministic node of a network. *)
From Coq Require Import List Arith ZArith Lia Bool Reals Lra FunctionalExtensionality ClassicalEpsilon.
From Verif Require Import ConcatLemmas2 Base Shapes SpecShapes ShapesLemmas NumPy MiscArray TensorLemmas
  EinsumLemmas SumMultiplyLemmas SpecArray PlateSumLemmas PlateSum2Lemmas MessageLemmas
  ShapeOpsLemmas DiagLemmas ExpFam SpecExpFam ExpFamLemmas ExpFamBound ExpFamGrad PExpFam SpecUpdate
  UpdateLemmas PUpdate FamilyDist SpecFamilyDist PFamilyDist Network SpecNetwork NetworkLemmas NetworkLemmas2
  PNetwork PFamilyNet Dot SpecDot DotExpect DotNode DotSwap DotScale DetNet SpecDetNet DetNetLemmas DetNetLemmas2
  GaussNet GaussModel SpecGaussNet SpecGaussModel PlateDet GaussTypes GaussNodes5 DotNet LinearDet LinearDet2 AddLemmas.
Import ListNotations.
Open Scope R_scope.

Definition linear_det (nodes : list (shape * pkind)) (mf : list pmom -> res (list (arr R)))
  (sf : nat -> list pmom -> list (arr R) -> arr bool -> shape -> shape -> shape -> res (list (arr R))) : detfn :=
  DetFn
    (fun us => pm <- zipM to_pmom nodes us ;; mf pm)
    (fun n par k m us =>
       pm <- zipM to_pmom nodes us ;;
       sf k pm (lift_arrays (pl_plates n) (pl_dims n) (fun p => at_plate (pl_dims n) m p)) (pl_mask n)
         (nth k (map fst nodes) []) (pl_plates par) (pl_plates n)).

Lemma zipM_app : forall A B C (f : A -> B -> res C) l1 m1 r1 l2 m2 r2, zipM f l1 m1 = Ok r1 -> zipM f l2 m2 = Ok r2 -> length l1 = length m1 ->
  zipM f (l1 ++ l2) (m1 ++ m2) = Ok (r1 ++ r2).
Proof.
  intros A B C f l1. induction l1 as [|x l1 IH]; intros [|y m1] r1 l2 m2 r2 H1 H2 L; try discriminate.
  - injection H1 as <-. exact H2.
  - cbn [zipM app] in *. destruct (f x y); [|discriminate]. cbn [bind] in *. destruct (zipM f l1 m1) eqn:E; [|discriminate]. cbn [bind] in H1.
    injection H1 as <-. erewrite IH; [|exact E|exact H2|now injection L]. reflexivity.
Qed.
Lemma exclude_split : forall A (l1 : list (list A)) u l2, exclude (length l1) (l1 ++ u :: l2) = l1 ++ [] :: l2.
Proof.
  intros A l1 u l2. unfold exclude.
  assert (G : forall (l1 : list (list A)) m, map (fun ju : nat * list A => if (fst ju =? m + length l1)%nat then [] else snd ju)
      (combine (seq m (length (l1 ++ u :: l2))) (l1 ++ u :: l2)) = l1 ++ [] :: l2).
  { clear l1. induction l1 as [|x l1 IH]; intros m.
    - cbn [app length seq combine map fst snd]. rewrite Nat.add_0_r, Nat.eqb_refl. f_equal.
      assert (T : forall (l : list (list A)) a, (m < a)%nat -> map (fun ju : nat * list A => if (fst ju =? m)%nat then [] else snd ju) (combine (seq a (length l)) l) = l).
      { induction l as [|y l IHl]; intros a Ha; [reflexivity|]. cbn [length seq combine map fst snd]. destruct (Nat.eqb_spec a m); [lia|]. f_equal. apply IHl. lia. }
      apply T. lia.
    - cbn [app length seq combine map fst snd]. destruct (Nat.eqb_spec m (m + S (length l1))); [lia|]. f_equal.
      replace (m + S (length l1))%nat with (S m + length l1)%nat by lia. apply IH. }
  exact (G l1 0%nat).
Qed.
Lemma list_split : forall A (l : list A) k a, nth_error l k = Some a -> exists l1 l2, l = l1 ++ a :: l2 /\ length l1 = k.
Proof. intros A l k a H. apply nth_error_split in H as (l1 & l2 & E & L). eauto. Qed.

Lemma split_index : forall P s v, valid (P ++ s) v -> exists a b, valid P a /\ valid s b /\ v = join (length s) a b.
Proof.
  intros P s v H. exists (fun k => v (k + length s)%nat), (fun k => if (k <? length s)%nat then v k else 0%nat). split; [|split].
  - intros k. specialize (H (k + length s)%nat). rewrite ax_app in H. destruct (Nat.ltb_spec (k + length s) (length s)); [lia|]. now rewrite Nat.add_sub in H.
  - intros k. specialize (H k). rewrite ax_app in H. destruct (Nat.ltb_spec k (length s)); [exact H|]. rewrite ax_overflow by lia. lia.
  - apply functional_extensionality. intros k. unfold join. destruct (Nat.ltb_spec k (length s)) as [L|L]; [reflexivity|]. now rewrite Nat.sub_add.
Qed.

Lemma blank_variable : forall P d f, variable_of P d (Arr d f).
Proof.
  intros P d f. unfold variable_of, ndim. cbn [ash]. split; [lia|]. split; [reflexivity|].
  split; [rewrite app_length; lia|]. intros k. rewrite ax_app. destruct (Nat.ltb_spec k (length d)); [now right|left; now apply ax_overflow].
Qed.
Lemma blank_shaped : forall P d f g, shaped false P d KGaussian (Dot.MGaussian (Arr d f) (Arr (d ++ d) g)).
Proof. intros. cbn. split; apply blank_variable. Qed.

Section LinearNode.
Variable ty : nat -> mtype.
Variable at_ : nat -> place.
Variable need : nat -> Prop.
Variable j : nat.
Variable ps : list nat.
Variables (nodes : list (shape * pkind)) (shp : shape).
Variable mf : list pmom -> res (list (arr R)).
Variable sf : nat -> list pmom -> list (arr R) -> arr bool -> shape -> shape -> shape -> res (list (arr R)).
Variable Y : list outcome -> list nat -> R.
Let P := pl_plates (at_ j).
Let mask := pl_mask (at_ j).
Hypothesis HM : forall parents, Forall2 (good P) nodes parents ->
  exists x0 x1, mf (map fst parents) = Ok [x0; x1] /\ moments_ok P shp Y x0 x1 parents.
Hypothesis HS : forall ns1 dims ns2 pa1 pa2 pp m0 m1, nodes = ns1 ++ (dims, KGaussian) :: ns2 ->
  Forall2 (good P) ns1 pa1 -> Forall2 (good P) ns2 pa2 -> broadcasts_to pp P ->
  ash m0 = P ++ shp -> ash m1 = P ++ shp ++ shp ->
  let us u := map fst pa1 ++ u :: map fst pa2 in
  exists y0 y1 C, variable_of pp dims y0 /\ variable_of pp (dims ++ dims) y1 /\
    (forall u, shaped false pp dims KGaussian u -> exists x0 x1, mf (us u) = Ok [x0; x1]) /\
    (forall u, shaped false pp dims KGaussian u -> sf (length ns1) (us u) [m0; m1] mask dims pp P = Ok [y0; y1]) /\
    forall u, shaped false pp dims KGaussian u -> forall x0 x1, mf (us u) = Ok [x0; x1] ->
      total (P ++ shp) (fun e => bget m0 e * bget x0 e) + total (P ++ shp ++ shp) (fun e => bget m1 e * bget x1 e) =
      total (pp ++ dims) (fun e => bget y0 e * bget (first_moment u) e) + total (pp ++ dims ++ dims) (fun e => bget y1 e * bget (second_moment u) e) + C.
Hypothesis HY : forall ns1 dims ns2 os1 os2 f i, nodes = ns1 ++ (dims, KGaussian) :: ns2 ->
  Forall2 (fun (nd : shape * pkind) o => ash (o_value o) = fst nd) ns1 os1 ->
  Forall2 (fun (nd : shape * pkind) o => ash (o_value o) = fst nd) ns2 os2 ->
  index_in shp i ->
  Y (os1 ++ Outcome 1 (Arr dims f) 1 :: os2) i + Y (os1 ++ Outcome 1 (Arr dims (fun v => - f v)) 1 :: os2) i =
  2 * Y (os1 ++ Outcome 1 (Arr dims (fun _ => 0)) 1 :: os2) i.
Hypothesis HT : forall ns1 dims ns2 pa1 pa2 pp u u', nodes = ns1 ++ (dims, KGaussian) :: ns2 ->
  Forall2 (good P) ns1 pa1 -> Forall2 (good P) ns2 pa2 -> broadcasts_to pp P ->
  shaped false pp dims KGaussian u -> shaped false pp dims KGaussian u' ->
  first_moment u' = first_moment u -> transposed P dims (second_moment u) (second_moment u') ->
  forall x0 x1 x0' x1', mf (map fst pa1 ++ u :: map fst pa2) = Ok [x0; x1] -> mf (map fst pa1 ++ u' :: map fst pa2) = Ok [x0'; x1'] ->
  (forall e, valid (P ++ shp) e -> bget x0' e = bget x0 e) /\ transposed P shp x1 x1'.
(** The place of the node in the network. *)
Hypothesis Tj : ty j = MGaussian shp.
Hypothesis Tp : Forall2 kind_type nodes (map ty ps).
Hypothesis Dj : pl_dims (at_ j) = mt_dims (ty j).
Hypothesis Dp : forall i, In i ps -> pl_dims (at_ i) = mt_dims (ty i).
Hypothesis Lp : forall i, In i ps -> det_link (at_ j) (at_ i).
Hypothesis Mp : forall i s, In i ps -> ty i = MGaussian s -> pl_mult (at_ i) = pl_mult (at_ j).
Hypothesis Np : forall i s, In i ps -> ty i = MFixed s -> ~ need i.

Lemma parents_good : forall ns qs us, (forall i, In i qs -> In i ps) -> Forall2 kind_type ns (map ty qs) ->
  Forall2 (fun i u => moments_in (at_ i) (t_mom (tys ty) i) u) qs us ->
  exists parents, zipM to_pmom ns us = Ok (map fst parents) /\ Forall2 (good P) ns parents.
Proof.
  intros ns qs us Hin HT' HU. revert ns HT'. induction HU as [|i u qs us M HU IH]; intros ns HT'; inversion HT' as [|nd t ns' ts K KS]; subst.
  - exists []. split; [reflexivity|constructor].
  - destruct (IH (fun i Hi => Hin i (or_intror Hi)) _ KS) as (parents & E & G).
    pose proof (Hin i (or_introl eq_refl)) as Hi. pose proof (Lp i Hi) as [B _ _ _]. destruct M as [V MM]. cbn [t_mom tys] in MM. rewrite (Dp i Hi) in V, MM.
    assert (ONE : exists pa, to_pmom nd u = Ok (fst pa) /\ good P nd pa).
    { unfold kind_type in K. destruct nd as [d k]. cbn [fst snd] in K. destruct k; [| |contradiction]; rewrite K in V, MM; cbn [mt_dims] in V, MM.
      - inversion V as [|? x ? ? V1 V2]; subst. inversion V2; subst. destruct (fixed_good _ P d x B V1) as [dist Gd].
        exists (MDelta x, dist). split; [reflexivity|exact Gd].
      - inversion V as [|? x ? ? V1 V2]; subst. inversion V2 as [|? xx ? ? V3 V4]; subst. inversion V4; subst.
        destruct (gaussian_good _ P d x xx B V1 V3 MM) as [dist Gd]. exists (Dot.MGaussian x xx, dist). split; [reflexivity|exact Gd]. }
    destruct ONE as (pa & Ep & Gp). exists (pa :: parents). split; [|constructor; assumption].
    cbn [zipM map]. rewrite Ep. cbn [bind]. rewrite E. reflexivity.
Qed.

Lemma lift_full : forall m c d a, nth_error (pl_dims (at_ j)) c = Some d ->
  nth_error (lift_arrays P (pl_dims (at_ j)) (fun p => at_plate (pl_dims (at_ j)) m p)) c = Some a -> ash a = P ++ d.
Proof. intros m c d a Hd Ha. now destruct (lift_arrays_nth _ _ _ _ _ _ Hd Ha). Qed.

(** The pairing of a message that is zero where the mask is false. *)
Lemma pairing_silent : forall i s m x, pl_dims (at_ i) = [s; s ++ s] -> length m = 2%nat -> length x = 2%nat -> silent (at_ i) m ->
  pairing (at_ i) m x = lprod (map INR (pl_mult (at_ i))) *
    (total (pl_plates (at_ i) ++ s) (fun e => bget (nth 0 m (scalar 0)) e * bget (nth 0 x (scalar 0)) e) +
     total (pl_plates (at_ i) ++ s ++ s) (fun e => bget (nth 1 m (scalar 0)) e * bget (nth 1 x (scalar 0)) e)).
Proof.
  intros i s m x D Lm Lx S. unfold pairing. f_equal. rewrite !(total_app (pl_plates (at_ i))), <- total_add. apply total_ext. intros p Hp.
  destruct m as [|m0 [|m1 [|? ?]]]; try discriminate. destruct x as [|x0 [|x1 [|? ?]]]; try discriminate. rewrite D. cbn [nth dot_at].
  destruct (bget (pl_mask (at_ i)) p) eqn:E; [now rewrite Rplus_0_r|]. specialize (S p Hp E). rewrite D in S.
  rewrite !total_zero; [ring| |].
  - intros v Hv. assert (Z : bget m1 (join (length (s ++ s)) p v) = 0) by exact (S 1%nat (s ++ s) v eq_refl Hv). rewrite Z. ring.
  - intros v Hv. assert (Z : bget m0 (join (length s) p v) = 0) by exact (S 0%nat s v eq_refl Hv). rewrite Z. ring.
Qed.

Lemma linear_typed : det_typed (tys ty) at_ need (linear_det nodes mf sf) j ps.
Proof.
  pose proof Dj as Dj'. rewrite Tj in Dj'. cbn [mt_dims] in Dj'. constructor.
  - intros us HU. destruct (parents_good nodes ps us (fun i Hi => Hi) Tp HU) as (parents & E & G).
    destruct (linear_moments P shp nodes mf Y HM parents G) as (x0 & x1 & Ex & V & MM).
    exists [x0; x1]. cbn [df_moments linear_det]. rewrite E. cbn [bind]. split; [exact Ex|]. split; [rewrite Dj'; exact V|].
    intros p Hp. cbn [t_mom tys]. rewrite Tj, Dj'. now apply MM.
  - intros k i us m Hk Ni HU Mm Vm Sm.
    destruct (list_split _ _ _ _ Hk) as (ps1 & ps2 & Eps & Lk). pose proof (nth_error_In _ _ Hk) as Hi.
    pose proof Tp as Tp'. rewrite Eps, map_app in Tp'. apply Forall2_app_inv_r in Tp' as (ns1 & ns2' & T1 & T2 & En). cbn [map] in T2.
    inversion T2 as [|nd t ns2 ts K T3]; subst t ts ns2'.
    destruct nd as [dims kd]. unfold kind_type in K. cbn [fst snd] in K. destruct kd; [exfalso; now apply (Np i dims Hi K)| |contradiction].
    pose proof (Dp i Hi) as Di. rewrite K in Di. cbn [mt_dims] in Di. pose proof (Lp i Hi) as [B _ LM LS].
    pose proof (Mp i dims Hi K) as Em. set (pp := pl_plates (at_ i)) in *.
    assert (IN1 : forall i, In i ps1 -> In i ps) by (intros x Hx; rewrite Eps; apply in_or_app; now left).
    assert (IN2 : forall i, In i ps2 -> In i ps) by (intros x Hx; rewrite Eps; apply in_or_app; right; now right).
    assert (SP : forall vs, Forall2 (fun i u => moments_in (at_ i) (t_mom (tys ty) i) u) ps vs ->
      exists vs1 x xx vs2, vs = vs1 ++ [x; xx] :: vs2 /\ length vs1 = k /\
        Forall2 (fun i u => moments_in (at_ i) (t_mom (tys ty) i) u) ps1 vs1 /\ Forall2 (fun i u => moments_in (at_ i) (t_mom (tys ty) i) u) ps2 vs2 /\
        shaped false pp dims KGaussian (Dot.MGaussian x xx)).
    { intros vs HV. rewrite Eps in HV. apply Forall2_app_inv_l in HV as (vs1 & r & H1 & H2 & ->). inversion H2 as [|? u ? vs2 Mu H3]; subst.
      destruct Mu as [Vu _]. rewrite Di in Vu. inversion Vu as [|? x ? ? V1 V2]; subst. inversion V2 as [|? xx ? ? V3 V4]; subst. inversion V4; subst.
      exists vs1, x, xx, vs2. split; [reflexivity|]. split; [symmetry; apply (Forall2_len _ _ _ _ _ H1)|]. split; [exact H1|]. split; [exact H3|].
      cbn. split; assumption. }
    destruct (SP us HU) as (us1 & x & xx & us2 & Eus & Lu1 & HU1 & HU2 & SH).
    destruct (parents_good ns1 ps1 us1 IN1 T1 HU1) as (pa1 & E1 & G1). destruct (parents_good ns2 ps2 us2 IN2 T3 HU2) as (pa2 & E2 & G2).
    assert (Ln1 : length ns1 = k) by (rewrite <- Lk; pose proof (Forall2_len _ _ _ _ _ T1) as Q; now rewrite map_length in Q).
    set (ms := lift_arrays P (pl_dims (at_ j)) (fun p => at_plate (pl_dims (at_ j)) m p)).
    assert (Ems : exists m0 m1, ms = [m0; m1] /\ ash m0 = P ++ shp /\ ash m1 = P ++ shp ++ shp).
    { pose proof (lift_arrays_length P (pl_dims (at_ j)) (fun p => at_plate (pl_dims (at_ j)) m p)) as Lms. fold ms in Lms. rewrite Dj' in Lms. cbn [length] in Lms.
      pose proof (lift_full m) as LF. fold ms in LF.
      destruct ms as [|m0 [|m1 [|? ?]]]; try discriminate. exists m0, m1. split; [reflexivity|].
      split; [apply (LF 0%nat shp m0)|apply (LF 1%nat (shp ++ shp) m1)]; try reflexivity; now rewrite Dj'. }
    destruct Ems as (m0 & m1 & Ems & A0 & A1).
    assert (Lm : length m = 2%nat) by (rewrite <- (Forall2_len _ _ _ _ _ Vm), Dj'; reflexivity).
    destruct m as [|a0 [|a1 [|? ?]]]; try discriminate. clear Lm.
    assert (GM0 : forall p v, valid P p -> valid shp v -> bget m0 (join (length shp) p v) = bget a0 (join (length shp) p v)).
    { intros p v Hp Hv. pose proof (lift_coef P (pl_dims (at_ j)) (fun p => at_plate (pl_dims (at_ j)) [a0; a1] p) p 0%nat shp v Hp) as Q.
      fold ms in Q. rewrite Ems, Dj' in Q. exact (Q eq_refl Hv). }
    assert (GM1 : forall p v, valid P p -> valid (shp ++ shp) v -> bget m1 (join (length (shp ++ shp)) p v) = bget a1 (join (length (shp ++ shp)) p v)).
    { intros p v Hp Hv. pose proof (lift_coef P (pl_dims (at_ j)) (fun p => at_plate (pl_dims (at_ j)) [a0; a1] p) p 1%nat (shp ++ shp) v Hp) as Q.
      fold ms in Q. rewrite Ems, Dj' in Q. exact (Q eq_refl Hv). }
    destruct (HS ns1 dims ns2 pa1 pa2 pp m0 m1 En G1 G2 B A0 A1) as (y0 & y1 & C & V0 & V1 & HD & HF & HA).
    assert (SM : forall p, valid P p -> msym shp (fun v => bget m1 (join (length (shp ++ shp)) p v)) /\
       forall f, quad shp (fun v => bget m1 (join (length (shp ++ shp)) p v)) f <= 0).
    { intros p Hp. destruct Mm as [_ Mm]. specialize (Mm p Hp). cbn [t_msg tys] in Mm. rewrite Tj, Dj' in Mm. cbn [mt_msg] in Mm. destruct Mm as [S1 S2].
      assert (S1' : msym shp (fun v => bget a1 (join (length (shp ++ shp)) p v))) by exact S1.
      assert (S2' : forall f, quad shp (fun v => bget a1 (join (length (shp ++ shp)) p v)) f <= 0) by exact S2. split.
      - intros v w Hv Hw. rewrite !GM1 by (try exact Hp; now apply join_valid). now apply S1'.
      - intros f. rewrite (quad_ext shp _ (fun v => bget a1 (join (length (shp ++ shp)) p v))); [apply S2'|].
        intros v w Hv Hw. apply GM1; [exact Hp|now apply join_valid]. }
    assert (NEG : forall t f, valid pp t -> quad dims (fun v => bget y1 (join (length (dims ++ dims)) t v)) f <= 0).
    { intros t f. apply (message_negative P shp nodes mf Y HM ns1 ns2 dims pp pa1 pa2 y0 y1 m0 m1 C En G1 G2 B HA); [|exact SM].
      intros os1 os2 g i' S1 S2 Hi'. now apply (HY ns1 dims ns2). }
    assert (SYM : forall t, valid pp t -> msym dims (fun v => bget y1 (join (length (dims ++ dims)) t v))).
    { intros t. apply (message_symmetric P shp mf dims pp pa1 pa2 y0 y1 m0 m1 C B HA HD); [|exact SM].
      intros u u' S1 S2 F1 F2 x0 x1 x0' x1' X X'. now apply (HT ns1 dims ns2 pa1 pa2 pp u u' En G1 G2 B S1 S2 F1 F2 x0 x1 x0' x1'). }
    assert (MSG : df_message (linear_det nodes mf sf) (at_ j) (at_ i) k [a0; a1] (exclude k us) = Ok [y0; y1]).
    { assert (EX : exclude k us = us1 ++ [] :: us2) by (rewrite Eus, <- Lu1; apply exclude_split).
      assert (EZ : zipM to_pmom nodes (us1 ++ [] :: us2) = Ok (map fst pa1 ++ Dot.MGaussian (Arr dims (fun _ => 0)) (Arr (dims ++ dims) (fun _ => 0)) :: map fst pa2)).
      { rewrite En. apply zipM_app; [exact E1| |now rewrite Lu1]. cbn [zipM]. unfold to_pmom at 1. cbn [fst snd bind]. rewrite E2. reflexivity. }
      cbn [df_message linear_det]. rewrite EX, EZ. clear EX EZ.
      cbn [bind]. fold P mask pp. fold ms. rewrite Ems. rewrite <- Ln1.
      replace (nth (length ns1) (map fst nodes) []) with dims.
      - apply HF. now apply blank_shaped.
      - rewrite En, map_app. cbn [map fst]. rewrite app_nth2 by (rewrite map_length; lia). now rewrite map_length, Nat.sub_diag. }
    assert (SIL : silent (at_ i) [y0; y1]).
    { intros t Ht Hm. fold pp in Ht. rewrite Di.
      destruct (message_silent P shp nodes mf Y HM ns1 ns2 dims pp pa1 pa2 y0 y1 m0 m1 C En G1 G2 B HA HD) with (t := t) as [Z0 Z1]; try assumption.
      - intros u u' S1 S2 F1 F2 x0 x1 x0' x1' X X'. now apply (HT ns1 dims ns2 pa1 pa2 pp u u' En G1 G2 B S1 S2 F1 F2 x0 x1 x0' x1').
      - intros p Hp Ec.
        assert (Hf : bget (pl_mask (at_ j)) p = false).
        { destruct (bget (pl_mask (at_ j)) p) eqn:E; [|reflexivity]. exfalso. pose proof (LM p Hp E) as LMp.
          rewrite <- (bget_clip_out _ (pl_mask (at_ i)) pp p LS), Ec, Hm in LMp. discriminate. }
        pose proof (Sm p Hp Hf) as Z. rewrite Dj' in Z. split.
        + intros v Hv. rewrite GM0 by assumption. exact (Z 0%nat shp v eq_refl Hv).
        + intros v w Hv Hw. rewrite GM1 by (try exact Hp; now apply join_valid). exact (Z 1%nat (shp ++ shp) _ eq_refl (join_valid _ _ _ _ Hv Hw)).
      - intros [|[|[|c]]] d v Hd Hv; try discriminate; injection Hd as <-.
        + exact (Z0 v Hv).
        + destruct (split_index dims dims v Hv) as (a & b & Ha & Hb & ->). exact (Z1 a b Ha Hb). }
    exists [y0; y1]. split; [exact MSG|]. split; [|split; [exact SIL|]].
    + split.
      * rewrite Di. constructor; [apply V0|]. constructor; [apply V1|constructor].
      * intros t Ht. cbn [t_msg tys]. rewrite K, Di. split; [exact (SYM t Ht)|]. intros f. exact (NEG t f Ht).
    + intros us' z z' HU' EX Ez Ez'. destruct (SP us' HU') as (vs1 & x' & xx' & vs2 & Eus' & Lv1 & _ & _ & SH').
      assert (EV : vs1 = us1 /\ vs2 = us2).
      { assert (X1 : exclude k us = us1 ++ [] :: us2) by (rewrite Eus, <- Lu1; apply exclude_split).
        assert (X2 : exclude k us' = vs1 ++ [] :: vs2) by (rewrite Eus', <- Lv1; apply exclude_split).
        rewrite X1, X2 in EX. clear X1 X2.
        assert (Q : forall (l1 l1' : list (list (arr R))) r r', length l1 = length l1' -> l1 ++ r = l1' ++ r' -> l1 = l1' /\ r = r').
        { intros l1. induction l1 as [|b l1 IH]; intros [|b' l1'] r r' HL HE; try discriminate; [now split|]. injection HE as <- HE.
          destruct (IH l1' r r') as [-> ->]; [now injection HL|exact HE|now split]. }
        destruct (Q _ _ _ _ (eq_trans Lv1 (eq_sym Lu1)) EX) as [-> Er]. injection Er as ->. now split. }
      destruct EV as [-> ->].
      assert (FM : forall a b, df_moments (linear_det nodes mf sf) (us1 ++ [a; b] :: us2) = mf (map fst pa1 ++ Dot.MGaussian a b :: map fst pa2)).
      { intros a b. cbn [df_moments linear_det]. rewrite En. erewrite zipM_app; [|exact E1| |now rewrite Lu1].
        2:{ cbn [zipM]. unfold to_pmom at 1. cbn [fst snd bind]. rewrite E2. reflexivity. } reflexivity. }
      rewrite Eus, FM in Ez. rewrite Eus', FM in Ez'.
      assert (X2 : exists x0 x1, z = [x0; x1]) by (destruct (HD _ SH) as (x0 & x1 & Q); rewrite Q in Ez; injection Ez as <-; eauto).
      assert (X2' : exists x0 x1, z' = [x0; x1]) by (destruct (HD _ SH') as (x0 & x1 & Q); rewrite Q in Ez'; injection Ez' as <-; eauto).
      destruct X2 as (x0 & x1 & ->). destruct X2' as (x0' & x1' & ->).
      pose proof (HA _ SH x0 x1 Ez) as A. pose proof (HA _ SH' x0' x1' Ez') as A'.
      assert (NT : forall a b, nth k (us1 ++ [a; b] :: us2) [] = [a; b]) by (intros a b; rewrite <- Lu1, app_nth2, Nat.sub_diag by apply le_n; reflexivity).
      rewrite Eus, Eus', !NT. clear NT.
      rewrite !(pairing_silent j shp) by (try exact Dj'; try reflexivity; exact Sm).
      rewrite !(pairing_silent i dims) by (try exact Di; try reflexivity; exact SIL).
      rewrite Em. rewrite <- !Rmult_minus_distr_l. f_equal. cbn [nth]. fold P pp.
      cbn [first_moment second_moment mom0] in A, A'.
      assert (R0 : forall w, total (P ++ shp) (fun e => bget m0 e * bget w e) = total (P ++ shp) (fun e => bget a0 e * bget w e)).
      { intros w. rewrite !total_app. apply total_ext. intros p Hp. apply total_ext. intros v Hv. now rewrite GM0. }
      assert (R1 : forall w, total (P ++ shp ++ shp) (fun e => bget m1 e * bget w e) = total (P ++ shp ++ shp) (fun e => bget a1 e * bget w e)).
      { intros w. rewrite !(total_app P). apply total_ext. intros p Hp. apply total_ext. intros v Hv. now rewrite GM1. }
      rewrite R0, R1 in A, A'. lra.
Qed.
End LinearNode.
