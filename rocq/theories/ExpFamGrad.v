(** Gradient steps compared with updates. *)
From Coq Require Import List Arith ZArith Lia Bool Reals Lra FunctionalExtensionality.
From Verif Require Import Base Shapes SpecShapes ShapesLemmas NumPy MiscArray TensorLemmas
  EinsumLemmas SumMultiplyLemmas SpecArray PlateSumLemmas PlateSum2Lemmas MessageLemmas
  ShapeOpsLemmas DiagLemmas ExpFam SpecExpFam ExpFamLemmas ExpFamBound.
Import ListNotations.
Open Scope nat_scope.

Lemma fix_axes_ok : forall plates d p, broadcasts_to (ash p) (plates ++ d) ->
  exists y, fix_axes plates d p = Ok y /\ broadcasts_to (ash y) (plates ++ d) /\ forall e, bget y e = bget p e.
Proof.
  intros plates d p [Hl H]. unfold fix_axes. rewrite app_length in Hl.
  assert (A : exists y, (if ndim p <? length plates + length d
      then Ok (add_leading_axes p (length plates + length d - ndim p))
      else if length plates + length d <? ndim p
        then np_reshape p (skipn (ndim p - (length plates + length d)) (ash p)) else Ok p) = Ok y /\
      broadcasts_to (ash y) (plates ++ d) /\ forall e, bget y e = bget p e).
  { destruct (Nat.ltb_spec (ndim p) (length plates + length d)) as [L|L].
    - destruct (add_leading_ok _ p (length plates + length d - ndim p)) as (A1 & A2 & A3).
      eexists. split; [reflexivity|]. split; [|exact A3]. split.
      + unfold ndim in *. rewrite A1, app_length. lia.
      + intros k. rewrite A2. apply H.
    - destruct (Nat.ltb_spec (length plates + length d) (ndim p)); [unfold ndim in *; lia|].
      exists p. split; [reflexivity|]. split; [|reflexivity]. split; [rewrite app_length; lia|exact H]. }
  destruct A as (y & -> & By & Gy). cbn [bind]. rewrite (proj2 (is_shape_subset_spec _ _) By). eauto.
Qed.

Definition bc (plates d : shape) (a : arr R) : Prop := broadcasts_to (ash a) (plates ++ d).

(** Relation between the parallel lists of arrays. *)
Inductive all6 (P : shape -> arr R -> arr R -> arr R -> arr R -> arr R -> Prop) :
  list shape -> list (arr R) -> list (arr R) -> list (arr R) -> list (arr R) -> list (arr R) -> Prop :=
| all6_nil : all6 P [] [] [] [] [] []
| all6_cons : forall d a b c x y ds As Bs Cs Xs Ys, P d a b c x y -> all6 P ds As Bs Cs Xs Ys ->
    all6 P (d :: ds) (a :: As) (b :: Bs) (c :: Cs) (x :: Xs) (y :: Ys).

Lemma components : forall plates ann scale dims A B M Q,
  Forall2 (bc plates) dims A -> Forall2 (bc plates) dims B -> Forall2 (bc plates) dims M ->
  Forall2 (bc plates) dims Q ->
  exists P P2 U PM Df G S,
    zipM np_add A B = Ok P /\ zipM (fix_axes plates) dims P = Ok P2 /\
    zipM (fun p m => y <- np_add p m ;; Ok (np_scaleR ann y)) P2 M = Ok U /\
    zipM (fun p m => y <- np_add p m ;; Ok (np_scaleR ann y)) P M = Ok PM /\
    zipM (np_map2 Rminus) PM Q = Ok Df /\
    zipM (fun y di => np_multiply y (np_ones (plates ++ di))) Df dims = Ok G /\
    zipM (fun z1 z2 => np_add z1 (np_scaleR scale z2)) Q G = Ok S /\
    Forall2 (bc plates) dims U /\ Forall2 (fun d s => ash s = plates ++ d) dims S /\
    all6 (fun d a b m q s => forall e, bget s e = (bget q e + scale * (ann * (bget a e + bget b e + bget m e) - bget q e))%R)
      dims A B M Q S /\
    all6 (fun d a b m q u => forall e, bget u e = (ann * (bget a e + bget b e + bget m e))%R)
      dims A B M Q U.
Proof.
  intros plates ann scale dims. induction dims as [|d dims IH]; intros A B M Q HA HB HM HQ.
  - inversion HA; subst. inversion HB; subst. inversion HM; subst. inversion HQ; subst.
    exists [], [], [], [], [], [], []. cbn. repeat split; constructor.
  - inversion HA as [|? a ? A' A1 A2]; subst. inversion HB as [|? b ? B' B1 B2]; subst.
    inversion HM as [|? m ? M' M1 M2]; subst. inversion HQ as [|? q ? Q' Q1 Q2]; subst.
    destruct (IH A' B' M' Q' A2 B2 M2 Q2) as (P & P2 & U & PM & Df & G & S & I1 & I2 & I3 & I4 & I5 & I6 & I7 & I8 & I8' & I9 & I10).
    destruct (map2_exists _ _ _ Rplus a b _ A1 B1) as (p & E1 & _ & Bp & Gp).
    destruct (fix_axes_ok plates d p Bp) as (p2 & E2 & Bp2 & Gp2).
    destruct (map2_exists _ _ _ Rplus p2 m _ Bp2 M1) as (u & E3 & _ & Bu & Gu).
    destruct (map2_exists _ _ _ Rplus p m _ Bp M1) as (w & E4 & _ & Bw & Gw).
    destruct (map2_exists _ _ _ Rminus (np_scaleR ann w) q (plates ++ d) Bw Q1) as (df & E5 & _ & Bd & Gd).
    destruct (map2_exists _ _ _ Rmult df (np_ones (plates ++ d)) (plates ++ d) Bd (broadcasts_to_refl _))
      as (g & E6 & N6 & Bg & Gg).
    destruct (map2_exists _ _ _ Rplus q (np_scaleR scale g) (plates ++ d) Q1 Bg) as (s & E7 & N7 & Bs & Gs).
    exists (p :: P), (p2 :: P2), (np_scaleR ann u :: U), (np_scaleR ann w :: PM), (df :: Df), (g :: G), (s :: S).
    assert (Sg : ash g = plates ++ d).
    { apply broadcasts_to_antisym; [exact Bg|]. apply (broadcast_upper _ _ _ N6). right. now left. }
    assert (Ss : ash s = plates ++ d).
    { apply broadcasts_to_antisym; [exact Bs|]. rewrite <- Sg. apply (broadcast_upper _ _ _ N7). right. now left. }
    cbn [zipM]. unfold np_add, np_multiply in *.
    rewrite E1, I1. cbn [bind]. split; [reflexivity|].
    rewrite E2, I2. cbn [bind]. split; [reflexivity|].
    rewrite E3. cbn [bind]. rewrite I3. cbn [bind]. split; [reflexivity|].
    rewrite E4. cbn [bind]. rewrite I4. cbn [bind]. split; [reflexivity|].
    rewrite E5, I5. cbn [bind]. split; [reflexivity|].
    rewrite E6, I6. cbn [bind]. split; [reflexivity|].
    rewrite E7, I7. cbn [bind]. split; [reflexivity|].
    split; [constructor; assumption|]. split; [constructor; assumption|]. split.
    + constructor; [|exact I9]. intros e. rewrite Gs, bget_scaleR, Gg, Gd, bget_scaleR, Gw, Gp.
      unfold np_ones, bget. cbn [ash aget]. fold (bget q). ring.
    + constructor; [|exact I10]. intros e. rewrite bget_scaleR, Gu, Gp2, Gp. reflexivity.
Qed.

Lemma scaleR_1 : forall y, (forall e, bget (np_scaleR 1 y) e = bget y e) /\ ash (np_scaleR 1 y) = ash y.
Proof. intros y. split; [|reflexivity]. intros e. rewrite bget_scaleR. ring. Qed.
