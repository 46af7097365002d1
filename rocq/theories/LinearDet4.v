(** Lemmas for C25: a node whose value is affine in each of its independent Gaussian parents
    and that sums its messages over plates as node.py does (Add, ConcatGaussian). *)
From Coq Require Import List Arith ZArith Lia Bool Reals Lra FunctionalExtensionality ClassicalEpsilon.
From Verif Require Import ConcatLemmas2 Base Shapes SpecShapes ShapesLemmas NumPy MiscArray TensorLemmas
  EinsumLemmas SumMultiplyLemmas SpecArray PlateSumLemmas PlateSum2Lemmas MessageLemmas
  ShapeOpsLemmas DiagLemmas ExpFam SpecExpFam ExpFamLemmas ExpFamBound ExpFamGrad PExpFam SpecUpdate
  UpdateLemmas PUpdate FamilyDist SpecFamilyDist PFamilyDist Network SpecNetwork NetworkLemmas NetworkLemmas2
  PNetwork PFamilyNet Dot SpecDot DotExpect DotNode DotSwap DotScale DetNet SpecDetNet DetNetLemmas DetNetLemmas2
  AddNode SpecAdd AddNet GaussNet GaussModel SpecGaussNet SpecGaussModel PlateDet GaussTypes GaussNodes5 DotNet LinearDet LinearDet2 LinearDet3 AddLemmas.
Import ListNotations.
Open Scope R_scope.

Definition as_gmom (u : pmom) : gmom := (first_moment u, second_moment u).
Definition gnodes (dimss : list shape) : list (shape * pkind) := map (fun d => (d, KGaussian)) dimss.

Lemma to_gmom_pmom : forall ds us r, zipM to_pmom (gnodes ds) us = Ok r -> zipM to_gmom ds us = Ok (map as_gmom r).
Proof.
  induction ds as [|d ds IH]; intros [|u us] r H; cbn [gnodes map zipM] in H; try discriminate; try (injection H as <-; reflexivity).
  destruct (to_pmom (d, KGaussian) u) as [a|] eqn:E; [|discriminate]. cbn [bind] in H. fold (gnodes ds) in H.
  destruct (zipM to_pmom (gnodes ds) us) as [l|] eqn:El; [|discriminate]. cbn [bind] in H. injection H as <-.
  assert (Eu : to_gmom d u = Ok (as_gmom a)).
  { destruct u as [|x [|xx [|? [|? [|? ?]]]]]; cbn in E; try discriminate; injection E as <-; reflexivity. }
  cbn [zipM map]. rewrite Eu. cbn [bind]. rewrite (IH _ _ El). reflexivity.
Qed.
Lemma good_shape : forall P ds pas, Forall2 (good P) (gnodes ds) pas -> Forall2 (gaussian_shaped P) ds (map (fun pa => as_gmom (fst pa)) pas).
Proof.
  intros P ds. induction ds as [|d ds IH]; intros pas H; inversion H as [|? [u D] ? pas' [(_ & _ & G) _] H']; subst; [constructor|].
  cbn [map]. constructor; [|now apply IH]. cbn [fst snd is_delta] in G. destruct u; try contradiction. cbn [fst snd as_gmom]. destruct G as (A & B & _). split; assumption.
Qed.
Lemma msym_symmetric : forall P d m, (forall p, plate_in P p -> msym d (fun v => bget m (join (length (d ++ d)) p v))) -> symmetric P d m.
Proof.
  intros P d m H p o o' Hp Ho Ho'. pose proof (index_length _ _ Ho). pose proof (index_length _ _ Ho').
  rewrite !join_at by assumption. apply (H p Hp); now apply TakeLemmas.valid_at_index.
Qed.
Lemma symmetric_msym : forall P d m p, symmetric P d m -> plate_in P p -> msym d (fun v => bget m (join (length (d ++ d)) p v)).
Proof.
  intros P d m p S Hp v w Hv Hw. pose proof (idx_in _ _ Hv) as Iv. pose proof (idx_in _ _ Hw) as Iw. specialize (S p _ _ Hp Iv Iw).
  rewrite !join_at in S by (first [apply (index_length _ _ Iv)|apply (index_length _ _ Iw)]). now rewrite !at_idx in S by assumption.
Qed.

Section LinearNode.
Variable ty : nat -> mtype.
Variable at_ : nat -> place.
Variable need : nat -> Prop.
Variable j : nat.
Variable ps : list nat.
Variables (dimss : list shape) (shp : shape).
Variable mf : list gmom -> res gmom.
Variable sf : nat -> gmom -> list gmom -> res gmom.
Variable Y : list outcome -> list nat -> R.
Let P := pl_plates (at_ j).
Let mask := pl_mask (at_ j).
Hypothesis HM : forall parents, Forall2 (good P) (gnodes dimss) parents ->
  exists x0 x1, mf (map (fun pa => as_gmom (fst pa)) parents) = Ok (x0, x1) /\ moments_ok P shp Y x0 x1 parents.
Hypothesis HS : forall ds1 d ds2 (us1 us2 : list gmom) (m : gmom), dimss = ds1 ++ d :: ds2 ->
  Forall2 (gaussian_shaped P) ds1 us1 -> Forall2 (gaussian_shaped P) ds2 us2 ->
  gaussian_shaped P shp m -> symmetric P shp (snd m) ->
  exists (y : gmom) C, gaussian_shaped P d y /\ symmetric P d (snd y) /\ forall u : gmom, gaussian_shaped P d u ->
    sf (length us1) m (us1 ++ u :: us2) = Ok y /\
    exists x, mf (us1 ++ u :: us2) = Ok x /\ paired P shp m x = paired P d y u + C.
Hypothesis HY : forall ds1 d ds2 os1 os2 f i, dimss = ds1 ++ d :: ds2 ->
  Forall2 (fun d o => ash (o_value o) = d) ds1 os1 -> Forall2 (fun d o => ash (o_value o) = d) ds2 os2 ->
  index_in shp i ->
  Y (os1 ++ Outcome 1 (Arr d f) 1 :: os2) i + Y (os1 ++ Outcome 1 (Arr d (fun v => - f v)) 1 :: os2) i =
  2 * Y (os1 ++ Outcome 1 (Arr d (fun _ => 0)) 1 :: os2) i.
(** The place of the node in the network. *)
Hypothesis Tj : ty j = MGaussian shp.
Hypothesis Tp : map ty ps = map MGaussian dimss.
Hypothesis Dj : pl_dims (at_ j) = mt_dims (ty j).
Hypothesis Dp : forall i, In i ps -> pl_dims (at_ i) = mt_dims (ty i).
Hypothesis Bj : broadcasts_to (ash (pl_mask (at_ j))) (pl_plates (at_ j)).
Hypothesis Lp : forall i, In i ps -> det_link (at_ j) (at_ i).

Let mfp (us : list pmom) : res (list (arr R)) := x <- mf (map as_gmom us) ;; Ok [fst x; snd x].
Lemma HMp : forall parents, Forall2 (good P) (gnodes dimss) parents ->
  exists x0 x1, mfp (map fst parents) = Ok [x0; x1] /\ moments_ok P shp Y x0 x1 parents.
Proof.
  intros parents G. destruct (HM parents G) as (x0 & x1 & E & M). exists x0, x1. split; [|exact M].
  unfold mfp. rewrite map_map, E. reflexivity.
Qed.
Lemma kinds : forall ds qs, map ty qs = map MGaussian ds -> Forall2 kind_type (gnodes ds) (map ty qs).
Proof.
  induction ds as [|d ds IH]; intros [|q qs] H; try discriminate; [constructor|]. cbn [map] in H. injection H as H1 H2.
  cbn [gnodes map]. constructor; [exact H1|]. now apply IH.
Qed.

Lemma gauss_det_typed : det_typed (tys ty) at_ need (gauss_det dimss mf sf) j ps.
Proof.
  pose proof Dj as Dj'. rewrite Tj in Dj'. cbn [mt_dims] in Dj'.
  assert (PG : forall ds qs us, (forall i, In i qs -> In i ps) -> map ty qs = map MGaussian ds ->
    Forall2 (fun i u => moments_in (at_ i) (t_mom (tys ty) i) u) qs us ->
    exists parents, zipM to_gmom ds us = Ok (map (fun pa => as_gmom (fst pa)) parents) /\ Forall2 (good P) (gnodes ds) parents).
  { intros ds qs us Hin HT HU. destruct (parents_good ty at_ j ps Dp Lp (gnodes ds) qs us Hin (kinds _ _ HT) HU) as (parents & E & G).
    exists parents. split; [|exact G]. now rewrite (to_gmom_pmom _ _ _ E), map_map. }
  constructor.
  - intros us HU. destruct (PG dimss ps us (fun i Hi => Hi) Tp HU) as (parents & E & G).
    destruct (linear_moments P shp _ mfp Y HMp parents G) as (x0 & x1 & Ex & V & MM).
    exists [x0; x1]. cbn [df_moments gauss_det]. rewrite E. cbn [bind]. unfold mfp in Ex. rewrite map_map in Ex.
    destruct (mf _) as [[a b]|]; [|discriminate]. cbn [bind fst snd] in Ex |- *. split; [exact Ex|]. split; [rewrite Dj'; exact V|].
    intros p Hp. cbn [t_mom tys]. rewrite Tj, Dj'. now apply MM.
  - intros k i us m Hk Ni HU Mm Vm Sm.
    destruct (list_split _ _ _ _ Hk) as (ps1 & ps2 & Eps & Lk). pose proof (nth_error_In _ _ Hk) as Hi.
    assert (SPL : exists ds1 d ds2, dimss = ds1 ++ d :: ds2 /\ map ty ps1 = map MGaussian ds1 /\ ty i = MGaussian d /\ map ty ps2 = map MGaussian ds2).
    { pose proof Tp as T. rewrite Eps, map_app in T. symmetry in T. apply map_eq_app in T as (ds1 & r & E & T1 & T2).
      cbn [map] in T2. destruct r as [|d ds2]; [discriminate|]. cbn [map] in T2. injection T2 as T2 T3. exists ds1, d, ds2. repeat split; auto. }
    destruct SPL as (ds1 & d & ds2 & Ed & T1 & Ti & T2).
    pose proof (Dp i Hi) as Di. rewrite Ti in Di. cbn [mt_dims] in Di. pose proof (Lp i Hi) as [B Bm LM LS]. set (pp := pl_plates (at_ i)) in *.
    assert (IN1 : forall i, In i ps1 -> In i ps) by (intros x Hx; rewrite Eps; apply in_or_app; now left).
    assert (IN2 : forall i, In i ps2 -> In i ps) by (intros x Hx; rewrite Eps; apply in_or_app; right; now right).
    assert (SP : forall vs, Forall2 (fun i u => moments_in (at_ i) (t_mom (tys ty) i) u) ps vs ->
      exists vs1 x xx vs2, vs = vs1 ++ [x; xx] :: vs2 /\ length vs1 = k /\
        Forall2 (fun i u => moments_in (at_ i) (t_mom (tys ty) i) u) ps1 vs1 /\ Forall2 (fun i u => moments_in (at_ i) (t_mom (tys ty) i) u) ps2 vs2 /\
        variable_of pp d x /\ variable_of pp (d ++ d) xx).
    { intros vs HV. rewrite Eps in HV. apply Forall2_app_inv_l in HV as (vs1 & r & H1 & H2 & ->). inversion H2 as [|? u ? vs2 Mu H3]; subst.
      destruct Mu as [Vu _]. rewrite Di in Vu. inversion Vu as [|? x ? ? V1 V2]; subst. inversion V2 as [|? xx ? ? V3 V4]; subst. inversion V4; subst.
      exists vs1, x, xx, vs2. split; [reflexivity|]. split; [symmetry; apply (Forall2_len _ _ _ _ _ H1)|]. split; [exact H1|]. split; [exact H3|].
      split; assumption. }
    destruct (SP us HU) as (us1 & x & xx & us2 & Eus & Lu1 & HU1 & HU2 & SHx & SHxx).
    destruct (PG ds1 ps1 us1 IN1 T1 HU1) as (pa1 & E1 & G1). destruct (PG ds2 ps2 us2 IN2 T2 HU2) as (pa2 & E2 & G2).
    assert (Ln1 : length ds1 = length us1).
    { rewrite Lu1, <- Lk. pose proof (f_equal (@length _) T1) as Q. now rewrite !map_length in Q. }
    set (gs1 := map (fun pa => as_gmom (fst pa)) pa1) in *. set (gs2 := map (fun pa => as_gmom (fst pa)) pa2) in *.
    assert (Lg1 : length gs1 = k).
    { unfold gs1. rewrite map_length, <- (Forall2_len _ _ _ _ _ G1). unfold gnodes. now rewrite map_length, Ln1. }
    pose proof (good_shape _ _ _ G1) as SG1. pose proof (good_shape _ _ _ G2) as SG2. fold gs1 in SG1. fold gs2 in SG2.
    (* the message on all plates *)
    set (ms := lift_arrays P (pl_dims (at_ j)) (fun p => at_plate (pl_dims (at_ j)) m p)).
    pose proof (lift_variable P (pl_dims (at_ j)) (fun p => at_plate (pl_dims (at_ j)) m p)) as Vms. fold ms in Vms. rewrite Dj' in Vms.
    assert (Ems : exists m0 m1, ms = [m0; m1] /\ variable_of P shp m0 /\ variable_of P (shp ++ shp) m1).
    { inversion Vms as [|? m0 ? ? V1 V2]; subst. inversion V2 as [|? m1 ? ? V3 V4]; subst. inversion V4; subst. now exists m0, m1. }
    clear Vms. destruct Ems as (m0 & m1 & Ems & A0 & A1).
    assert (Lm : length m = 2%nat) by (rewrite <- (Forall2_len _ _ _ _ _ Vm), Dj'; reflexivity).
    destruct m as [|a0 [|a1 [|? ?]]]; try discriminate. clear Lm.
    assert (GM0 : forall p v, valid P p -> valid shp v -> bget m0 (join (length shp) p v) = bget a0 (join (length shp) p v)).
    { intros p v Hp Hv. pose proof (lift_coef P (pl_dims (at_ j)) (fun p => at_plate (pl_dims (at_ j)) [a0; a1] p) p 0%nat shp v Hp) as Q.
      fold ms in Q. rewrite Ems, Dj' in Q. exact (Q eq_refl Hv). }
    assert (GM1 : forall p v, valid P p -> valid (shp ++ shp) v -> bget m1 (join (length (shp ++ shp)) p v) = bget a1 (join (length (shp ++ shp)) p v)).
    { intros p v Hp Hv. pose proof (lift_coef P (pl_dims (at_ j)) (fun p => at_plate (pl_dims (at_ j)) [a0; a1] p) p 1%nat (shp ++ shp) v Hp) as Q.
      fold ms in Q. rewrite Ems, Dj' in Q. exact (Q eq_refl Hv). }
    assert (SM : forall p, valid P p -> msym shp (fun v => bget m1 (join (length (shp ++ shp)) p v)) /\
       forall f, quad shp (fun v => bget m1 (join (length (shp ++ shp)) p v)) f <= 0).
    { intros p Hp. destruct Mm as [_ Mm]. specialize (Mm p Hp). cbn [t_msg tys] in Mm. rewrite Tj, Dj' in Mm. cbn [mt_msg] in Mm. destruct Mm as [S1 S2].
      assert (S1' : msym shp (fun v => bget a1 (join (length (shp ++ shp)) p v))) by exact S1.
      assert (S2' : forall f, quad shp (fun v => bget a1 (join (length (shp ++ shp)) p v)) f <= 0) by exact S2. split.
      - intros v w Hv Hw. rewrite !GM1 by (try exact Hp; now apply join_valid). now apply S1'.
      - intros f. rewrite (quad_ext shp _ (fun v => bget a1 (join (length (shp ++ shp)) p v))); [apply S2'|].
        intros v w Hv Hw. apply GM1; [exact Hp|now apply join_valid]. }
    destruct (HS ds1 d ds2 gs1 gs2 (m0, m1) Ed SG1 SG2) as ((y0 & y1) & C & [V0 V1] & YS & HA).
    { split; assumption. }
    { apply msym_symmetric. intros p Hp. cbn [snd].
      pose proof (plate_clip P P p (broadcasts_to_refl P) Hp) as Hc. intros v w Hv Hw.
      rewrite (bget_join_clip m1 P (shp ++ shp) p (join (length shp) v w)) by (try apply A1; now apply join_valid).
      rewrite (bget_join_clip m1 P (shp ++ shp) p (join (length shp) w v)) by (try apply A1; now apply join_valid).
      destruct (SM _ Hc) as [SS _]. now apply SS. }
    cbn [fst snd] in V0, V1, YS.
    assert (GS : forall u, shaped false P d KGaussian u -> gaussian_shaped P d (as_gmom u)).
    { intros u SU. cbn in SU. destruct u; try contradiction. exact SU. }
    set (us' := fun u => map fst pa1 ++ u :: map fst pa2).
    assert (EU : forall u, map as_gmom (us' u) = gs1 ++ as_gmom u :: gs2).
    { intros u. unfold us'. rewrite map_app. cbn [map]. now rewrite !map_map. }
    assert (HAp : forall u, shaped false P d KGaussian u -> forall x0 x1, mfp (us' u) = Ok [x0; x1] ->
      total (P ++ shp) (fun e => bget m0 e * bget x0 e) + total (P ++ shp ++ shp) (fun e => bget m1 e * bget x1 e) =
      total (P ++ d) (fun e => bget y0 e * bget (first_moment u) e) + total (P ++ d ++ d) (fun e => bget y1 e * bget (second_moment u) e) + C).
    { intros u SU x0 x1 Ex. destruct (HA _ (GS u SU)) as (_ & z & Ez & Q). unfold mfp in Ex. rewrite EU in Ex.
      pose proof (f_equal (fun r : res gmom => x <- r ;; Ok [fst x; snd x]) Ez) as EE. pose proof (eq_trans (eq_sym EE) Ex) as EF.
      cbn [bind] in EF. injection EF as <- <-. exact Q. }
    assert (En : gnodes dimss = gnodes ds1 ++ (d, KGaussian) :: gnodes ds2) by (rewrite Ed; unfold gnodes; now rewrite map_app).
    assert (YM : forall p, valid P p -> msym d (fun v => bget y1 (join (length (d ++ d)) p v))).
    { intros p Hp. apply (symmetric_msym P); [exact YS|now apply valid_plate]. }
    assert (NEG : forall t f, valid P t -> quad d (fun v => bget y1 (join (length (d ++ d)) t v)) f <= 0).
    { intros t f. apply (message_negative P shp _ mfp Y HMp (gnodes ds1) (gnodes ds2) d P pa1 pa2 y0 y1 m0 m1 C En G1 G2 (broadcasts_to_refl P) HAp); [|exact SM].
      intros os1 os2 g i' S1 S2 Hi'. apply (HY ds1 d ds2); [exact Ed| | |exact Hi'].
      - clear -S1. revert os1 S1. induction ds1 as [|e r IH]; intros os1 S1; inversion S1; subst; constructor; [assumption|now apply IH].
      - clear -S2. revert os2 S2. induction ds2 as [|e r IH]; intros os2 S2; inversion S2; subst; constructor; [assumption|now apply IH]. }
    assert (VAN : forall p, valid P p -> bget (pl_mask (at_ j)) p = false ->
      (forall v, valid d v -> bget y0 (join (length d) p v) = 0) /\ (forall v w, valid d v -> valid d w -> bget y1 (join (length (d ++ d)) p (join (length d) v w)) = 0)).
    { intros p Hp Hf.
      apply (message_vanish P shp _ mfp Y HMp (gnodes ds1) (gnodes ds2) d P pa1 pa2 y0 y1 m0 m1 C En G1 G2 (broadcasts_to_refl P) HAp p Hp (YM p Hp)).
      intros p' Hp' Ec. replace p' with p in *.
      2:{ rewrite <- Ec. apply functional_extensionality. intros z. unfold clip. destruct (Nat.eqb_spec (ax P z) 1) as [e|e]; [|reflexivity]. specialize (Hp' z). lia. }
      pose proof (Sm p Hp Hf) as Z. rewrite Dj' in Z. split.
      - intros v Hv. rewrite GM0 by assumption. exact (Z 0%nat shp v eq_refl Hv).
      - intros v w Hv Hw. rewrite GM1 by (try exact Hp; now apply join_valid). exact (Z 1%nat (shp ++ shp) _ eq_refl (join_valid _ _ _ _ Hv Hw)). }
    (* the sum over plates *)
    set (f := fun p => at_plate (pl_dims (at_ i)) [y0; y1] p).
    destruct (messages_adjoint (pl_mask (at_ j)) (pl_mask (at_ i)) P (pl_mult (at_ j)) (pl_mult (at_ i))
      pp (pl_dims (at_ i)) (lift_arrays P (pl_dims (at_ i)) f) B Bm Bj LS LM) as (ys & E & Fy & G).
    { apply Forall2_of_nth; [now rewrite lift_arrays_length|]. intros z e a Hd Ha. now destruct (lift_arrays_nth _ _ _ _ _ _ Hd Ha). }
    assert (MSG : df_message (gauss_det dimss mf sf) (at_ j) (at_ i) k [a0; a1] (exclude k us) = Ok ys).
    { assert (EX : exclude k us = us1 ++ [] :: us2) by (rewrite Eus, <- Lu1; apply exclude_split).
      set (blank := (Arr d (fun _ => 0), Arr (d ++ d) (fun _ => 0)) : gmom).
      assert (EZ : zipM to_gmom dimss (us1 ++ [] :: us2) = Ok (gs1 ++ blank :: gs2)).
      { rewrite Ed. apply zipM_app; [exact E1| |exact Ln1]. cbn [zipM]. unfold to_gmom at 1. cbn [bind]. rewrite E2. reflexivity. }
      cbn [df_message gauss_det]. rewrite EX, EZ. cbn [bind]. fold P. fold ms. rewrite Ems. cbn [to_gmom bind].
      destruct (HA blank ltac:(split; apply blank_variable)) as (HF & _). rewrite Lg1 in HF. rewrite HF. cbn [bind]. exact E. }
    exists ys. split; [exact MSG|]. split; [|split].
    + split; [exact Fy|]. intros p Hp.
      assert (CO : SpecDetNet.cone (pl_dims (at_ i)) (t_msg (tys ty) i)) by (rewrite (Dp i Hi); apply mt_cone).
      apply (lifted_message_in _ _ _ _ _ _ _ _ _ B Bm Bj CO E Fy); [|exact Hp].
      intros q Hq. cbn [t_msg tys]. rewrite Ti. unfold f. rewrite Di. split; [exact (YM q Hq)|]. intros g. exact (NEG q g Hq).
    + pose proof (lifted_silent _ _ _ _ _ _ _ _ _ B Bm Bj LS LM E Fy (pl_mult (at_ i))) as S. now destruct (at_ i).
    + intros vs z z' HU' EX Ez Ez'. destruct (SP vs HU') as (vs1 & x' & xx' & vs2 & Eus' & Lv1 & _ & _ & SHx' & SHxx').
      assert (EV : vs1 = us1 /\ vs2 = us2).
      { assert (X1 : exclude k us = us1 ++ [] :: us2) by (rewrite Eus, <- Lu1; apply exclude_split).
        assert (X2 : exclude k vs = vs1 ++ [] :: vs2) by (rewrite Eus', <- Lv1; apply exclude_split).
        rewrite X1, X2 in EX. clear X1 X2.
        assert (Q : forall (l1 l1' : list (list (arr R))) r r', length l1 = length l1' -> l1 ++ r = l1' ++ r' -> l1 = l1' /\ r = r').
        { intros l1. induction l1 as [|b l1 IH]; intros [|b' l1'] r r' HL HE; try discriminate; [now split|]. injection HE as <- HE.
          destruct (IH l1' r r') as [-> ->]; [now injection HL|exact HE|now split]. }
        destruct (Q _ _ _ _ (eq_trans Lv1 (eq_sym Lu1)) EX) as [-> Er]. injection Er as ->. now split. }
      destruct EV as [-> ->].
      assert (NT : forall a b, nth k (us1 ++ [a; b] :: us2) [] = [a; b]) by (intros a b; rewrite <- Lu1, app_nth2, Nat.sub_diag by apply le_n; reflexivity).
      (* one choice of the moments of the parent *)
      assert (ONE : forall a b w, variable_of pp d a -> variable_of pp (d ++ d) b ->
        df_moments (gauss_det dimss mf sf) (us1 ++ [a; b] :: us2) = Ok w ->
        pairing (at_ j) [a0; a1] w = pairing (at_ i) ys [a; b] + lprod (map INR (pl_mult (at_ j))) * C).
      { intros a b w Va Vb Ew. destruct (HA ((a, b) : gmom)) as (_ & [x0 x1] & Ex & Q).
        { split; cbn [fst snd]; apply (variable_up pp P); assumption. }
        cbn [df_moments gauss_det] in Ew. rewrite Ed in Ew.
        rewrite (zipM_app _ _ _ _ ds1 us1 gs1 (d :: ds2) ([a; b] :: us2) (((a, b) : gmom) :: gs2)) in Ew; [|exact E1| |exact Ln1].
        2:{ cbn [zipM]. unfold to_gmom at 1. cbn [bind]. rewrite E2. reflexivity. }
        cbn [bind] in Ew. pose proof (eq_trans (eq_sym (f_equal (fun r : res gmom => '(x, xx) <- r ;; Ok [x; xx]) Ex)) Ew) as EF. cbn [bind] in EF. injection EF as <-.
        rewrite (pairing_silent at_ j shp) by (try exact Dj'; try reflexivity; exact Sm). cbn [nth]. fold P.
        assert (R0 : total (P ++ shp) (fun e => bget a0 e * bget x0 e) = total (P ++ shp) (fun e => bget m0 e * bget x0 e)).
        { rewrite !total_app. apply total_ext. intros p Hp. apply total_ext. intros v Hv. now rewrite GM0. }
        assert (R1 : total (P ++ shp ++ shp) (fun e => bget a1 e * bget x1 e) = total (P ++ shp ++ shp) (fun e => bget m1 e * bget x1 e)).
        { rewrite !(total_app P). apply total_ext. intros p Hp. apply total_ext. intros v Hv. now rewrite GM1. }
        rewrite R0, R1. unfold paired in Q. cbn [fst snd] in Q. rewrite Q, Rmult_plus_distr_l. f_equal.
        assert (Fw : fits pp (pl_dims (at_ i)) [a; b]).
        { rewrite Di. apply variable_fits. constructor; [exact Va|]. constructor; [exact Vb|constructor]. }
        unfold pairing. fold pp. rewrite (G [a; b] Fw). f_equal.
        rewrite !(total_app P), <- total_add. apply total_ext. intros p Hp.
        rewrite lift_dot; [|exact Hp| |symmetry; apply (Forall2_len _ _ _ _ _ Fw)].
        2:{ unfold f. rewrite at_plate_length; [reflexivity|]. now rewrite Di. }
        unfold f. rewrite Di. unfold at_plate. cbn [combine map fst snd fdot].
        destruct (bget (pl_mask (at_ j)) p) eqn:Em; [ring|]. destruct (VAN p Hp Em) as [Z0 Z1]. rewrite !total_zero; [ring| |].
        - intros v Hv. destruct (split_index d d v Hv) as (v1 & v2 & H1 & H2 & ->). rewrite Z1 by assumption. ring.
        - intros v Hv. rewrite Z0 by exact Hv. ring. }
      rewrite Eus in Ez. rewrite Eus' in Ez'. rewrite Eus, Eus', !NT.
      rewrite (ONE x xx z SHx SHxx Ez), (ONE x' xx' z' SHx' SHxx' Ez'). ring.
Qed.
End LinearNode.
