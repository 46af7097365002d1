(** Lemmas for C25: SumMultiply as a node of a network. *)
From Coq Require Import List Arith ZArith Lia Bool Reals Lra FunctionalExtensionality.
From Verif Require Import ConcatLemmas2 Base Shapes SpecShapes ShapesLemmas NumPy MiscArray TensorLemmas
  EinsumLemmas SumMultiplyLemmas SpecArray PlateSumLemmas ExpFam SpecExpFam ExpFamLemmas SpecUpdate
  FamilyDist Network SpecNetwork Dot SpecDot DotExpect DotInit DotNode DotMoments DotPart DotSwap DotScale PDot
  DetNet SpecDetNet GaussNet GaussModel SpecGaussNet SpecGaussModel PlateDet GaussTypes GaussNodes5 DotNet LinearDet LinearDet2 LinearDet3.
Import ListNotations.
Open Scope R_scope.

Lemma mean_first : forall g us us', map mom0 us = map mom0 us' -> sm_mean g us = sm_mean g us'.
Proof.
  intros g us us' H. unfold sm_mean.
  assert (E : forall ks (l l' : list pmom), map mom0 l = map mom0 l' ->
    map (fun p : list nat * pmom => (ndim (mom0 (snd p)) - length (fst p))%nat) (combine ks l) =
    map (fun p => (ndim (mom0 (snd p)) - length (fst p))%nat) (combine ks l')).
  { induction ks as [|k ks IH]; intros [|a l] [|b l'] HE; try discriminate; try reflexivity. injection HE as Ea El.
    cbn [combine map fst snd]. rewrite Ea. f_equal. now apply IH. }
  rewrite (E _ _ _ H), H. reflexivity.
Qed.

Lemma no_gamma : forall nodes ts, Forall2 kind_type nodes ts -> existsb (fun p : shape * pkind => is_gamma (snd p)) nodes = false.
Proof.
  intros nodes ts H. induction H as [|[d k] t nodes ts K H IH]; [reflexivity|]. cbn [existsb snd]. rewrite IH.
  unfold kind_type in K. cbn [snd] in K. destruct k; [reflexivity|reflexivity|contradiction].
Qed.

Lemma good_describes : forall P ns parents, Forall2 (good P) ns parents ->
  Forall2 (fun (nd : shape * pkind) (pa : pmom * (env -> list outcome)) => describes false P (fst nd) (snd nd) (fst pa) (snd pa)) ns parents.
Proof. intros P ns parents H. induction H as [|nd pa ns parents [G _] H IH]; constructor; assumption. Qed.
Lemma good_shaped : forall P ns parents, Forall2 (good P) ns parents ->
  Forall2 (fun (nd : shape * pkind) u => shaped false P (fst nd) (snd nd) u) ns (map fst parents).
Proof. intros P ns parents H. induction H as [|nd pa ns parents [G _] H IH]; constructor; [now apply describes_shaped in G|assumption]. Qed.

(** Without Gaussian-gamma parents the scale is one. *)
Lemma drawn_scale : forall P ns parents p os, Forall2 (good P) ns parents -> plate_in P p ->
  drawn os (map (fun pa => snd pa p) parents) -> scale_of os = 1.
Proof.
  intros P ns parents p os H Hp. revert os. induction H as [|nd pa ns parents G H IH]; intros os D; inversion D as [|o d os' ds Ho D']; subst; [reflexivity|].
  unfold scale_of in *. cbn [map lprod fold_right]. change (o_scale o * lprod (map o_scale os') = 1). rewrite IH by exact D'.
  destruct G as [(_ & _ & G) _]. destruct (is_delta (snd nd)), (fst pa); try contradiction.
  - destruct G as [_ G]. rewrite (proj1 (G p o Hp Ho)). ring.
  - destruct G as (_ & _ & G & _). rewrite (G p o Hp Ho). ring.
Qed.

(** The second moments of a distribution are symmetric. *)
Lemma good_pair : forall P nd pa, good P nd pa -> transposed_pair P nd (fst pa, fst pa).
Proof.
  intros P nd pa [G _]. pose proof (shaped_mom_ok _ _ _ _ _ (describes_shaped _ _ _ _ _ _ G)) as M. split; [exact M|]. split; [exact M|]. split; [reflexivity|].
  intros Dl. cbn [fst snd] in *. destruct G as (_ & _ & G). rewrite Dl in G. destruct (fst pa) as [|x xx|]; try contradiction.
  destruct G as (_ & _ & _ & _ & G). intros p v w Hp Hv Hw. cbn [xx_of].
  pose proof (G p _ _ Hp (idx_in _ _ Hv) (idx_in _ _ Hw)) as A. pose proof (G p _ _ Hp (idx_in _ _ Hw) (idx_in _ _ Hv)) as B.
  assert (LI : forall v, valid (fst nd) v -> length (idx (length (fst nd)) v) = length (fst nd)) by (intros u Hu; exact (Forall2_len _ _ _ _ _ (idx_in _ _ Hu))).
  rewrite join_at in A, B by (apply LI; assumption). rewrite !at_idx in A, B by assumption. rewrite A, B. unfold mean_of. f_equal. apply map_ext. intros o. ring.
Qed.
Lemma good_pairs : forall P ns parents, Forall2 (good P) ns parents -> Forall2 (transposed_pair P) ns (map (fun pa => (fst pa, fst pa)) parents).
Proof. intros P ns parents H. induction H; constructor; [now apply good_pair|assumption]. Qed.

Section Node.
Variables (full : list nat) (nodes : list (shape * pkind)) (keysets : list (list nat)) (keys_out : list nat) (g : sm_node).
Hypothesis HF : enumerates full keysets.
Hypothesis HI : sm_init full nodes keysets keys_out = Ok g.
Hypothesis HG : existsb (fun p : shape * pkind => is_gamma (snd p)) nodes = false.
Variable P : shape.

Lemma sum_product_linear : forall size ns1 dims (ns2 : list (shape * pkind)) vs1 vs2 o, nodes = ns1 ++ (dims, KGaussian) :: ns2 ->
  length vs1 = length ns1 -> exists c : (env -> R) -> R,
  (forall f, sum_product_at size keysets keys_out (vs1 ++ Arr dims f :: vs2) o = c f) /\
  (forall f, c (fun v => - f v) = - c f) /\ c (fun _ => 0) = 0.
Proof.
  intros size ns1 dims ns2 vs1 vs2 o En L1. destruct (sm_init_ok _ _ _ _ _ HF HI) as ((_ & HV & _) & _).
  pose proof (Forall2_len _ _ _ _ _ HV) as Lk. rewrite map_length in Lk.
  assert (SP : exists k1 ks k2, keysets = k1 ++ ks :: k2 /\ length k1 = length ns1).
  { rewrite En in Lk. rewrite app_length in Lk. cbn [length] in Lk.
    destruct (nth_error keysets (length ns1)) as [ks|] eqn:E; [|apply nth_error_None in E; lia].
    destruct (list_split _ _ _ _ E) as (k1 & k2 & E1 & E2). eauto. }
  destruct SP as (k1 & ks & k2 & Ek & Lk1).
  assert (CB : forall v, combine keysets (vs1 ++ v :: vs2) = combine k1 vs1 ++ (ks, v) :: combine k2 vs2).
  { intros v. rewrite Ek. clear - L1 Lk1. revert vs1 L1. rewrite <- Lk1. clear Lk1. induction k1 as [|k k1 IH]; intros [|a vs1] HL; try discriminate; [reflexivity|].
    cbn [app combine]. f_equal. apply IH. now injection HL. }
  unfold sum_product_at. set (l := map _ (filter _ _)). set (e0 := fun k => match index_of k keys_out with Some i => nth i o 0%nat | None => 0%nat end).
  set (W := fun index : env => lprod (map (fun p => bget (snd p) (at_index (map index (fst p)))) (combine k1 vs1)) *
              lprod (map (fun p => bget (snd p) (at_index (map index (fst p)))) (combine k2 vs2))).
  exists (fun f => itersum l (fun index => f (clip dims (at_index (map index ks))) * W index) e0). split; [|split].
  - intros f. apply itersum_ext_all. intros e. rewrite CB, map_app, lprod_app. cbn [map fst snd].
    change (lprod (?a :: ?r)) with (a * lprod r). unfold W. unfold bget at 2. cbn [aget ash]. ring.
  - intros f. cbv beta. transitivity (-1 * itersum l (fun index => f (clip dims (at_index (map index ks))) * W index) e0); [|ring].
    rewrite <- itersum_scal. apply itersum_ext_all. intros e. ring.
  - cbv beta. transitivity (0 * itersum l W e0); [|ring]. rewrite <- itersum_scal. apply itersum_ext_all. intros e. ring.
Qed.

Lemma sm_HM : forall size, (forall k, In k (concat keysets) -> key_length (map fst nodes) keysets k (size k)) ->
  g = SM (map (map (pos full)) keysets) (map (pos full) keys_out) (length full)
           (map (fun p => is_delta (snd p)) nodes) (existsb (fun p => is_gamma (snd p)) nodes) (map size keys_out) ->
  forall parents, Forall2 (good P) nodes parents ->
  exists x0 x1, sm_moments g (map fst parents) = Ok [x0; x1] /\
    moments_ok P (sm_shape g) (fun os o => sum_product_at size keysets keys_out (map o_value os) o) x0 x1 parents.
Proof.
  intros size HS Eg parents GP. destruct (sm_init_ok _ _ _ _ _ HF HI) as (HV & _).
  pose proof (good_describes _ _ _ GP) as HD.
  destruct (mean_ok false P full nodes keysets keys_out size parents HF HV HS HD) as (x0 & E0 & V0 & H0).
  destruct (second_ok false P full nodes keysets keys_out size parents HF HV HS HD) as (x1 & E1 & V1 & H1).
  unfold DotFinal.out in E0, E1. exists x0, x1. rewrite HG in Eg. rewrite Eg. cbn [sm_shape]. split.
  - unfold sm_moments. rewrite E0. cbn [bind]. rewrite E1. reflexivity.
  - split; [exact V0|]. split; [exact V1|]. intros p Hp. split.
    + intros o Ho. rewrite (H0 p Hp o Ho). apply expect_ext. intros os Hos. rewrite (drawn_scale P nodes parents p os GP Hp Hos). ring.
    + intros o o' Ho Ho'. rewrite (H1 p Hp o o' Ho Ho'). apply expect_ext. intros os Hos. rewrite (drawn_scale P nodes parents p os GP Hp Hos). ring.
Qed.

Lemma sm_HS : forall mask ns1 dims ns2 pa1 pa2 pp m0 m1, broadcasts_to (ash mask) P -> nodes = ns1 ++ (dims, KGaussian) :: ns2 ->
  Forall2 (good P) ns1 pa1 -> Forall2 (good P) ns2 pa2 -> broadcasts_to pp P ->
  ash m0 = P ++ sm_shape g -> ash m1 = P ++ sm_shape g ++ sm_shape g ->
  let us u := map fst pa1 ++ u :: map fst pa2 in let shp := sm_shape g in
  exists y0 y1 C, variable_of pp dims y0 /\ variable_of pp (dims ++ dims) y1 /\
    (forall u, shaped false pp dims KGaussian u -> exists x0 x1, sm_moments g (us u) = Ok [x0; x1]) /\
    (forall u, shaped false pp dims KGaussian u -> sm_message g (length ns1) (us u) [m0; m1] mask dims pp P = Ok [y0; y1]) /\
    forall u, shaped false pp dims KGaussian u -> forall x0 x1, sm_moments g (us u) = Ok [x0; x1] ->
      total (P ++ shp) (fun e => bget m0 e * bget x0 e) + total (P ++ shp ++ shp) (fun e => bget m1 e * bget x1 e) =
      total (pp ++ dims) (fun e => bget y0 e * bget (first_moment u) e) + total (pp ++ dims ++ dims) (fun e => bget y1 e * bget (second_moment u) e) + C.
Proof.
  intros mask ns1 dims ns2 pa1 pa2 pp m0 m1 Bm En G1 G2 B A0 A1 us shp. pose proof HI as HI'. pose proof HG as HG'. rewrite En in HI', HG'.
  assert (V : forall d (a : arr R), ash a = P ++ d -> variable_of P d a) by (intros d [s f] E; cbn [ash] in E; subst s; apply full_variable).
  destruct (C46_messages full ns1 dims KGaussian ns2 keysets keys_out g P pp (map fst pa1) (map fst pa2) m0 m1 mask HF HI' HG' eq_refl
    (good_shaped _ _ _ G1) (good_shaped _ _ _ G2) B Bm (V _ _ A0) (V _ _ A1)) as (y0 & y1 & V0 & V1 & H).
  { intros k Hk. assert (ax P k <> 1)%nat by (destruct (proj2 Bm k) as [E|E]; congruence). rewrite A0, A1, !ax_app.
    rewrite !(proj2 (Nat.ltb_ge _ _)) by (rewrite ?app_length; lia).
    replace (length (sm_shape g) + k - length (sm_shape g))%nat with k by lia.
    replace (length (sm_shape g ++ sm_shape g) + k - length (sm_shape g ++ sm_shape g))%nat with k by lia. now split. }
  exists y0, y1, 0. split; [exact V0|]. split; [exact V1|]. split; [|split].
  - intros u Hu. destruct (H u Hu) as (_ & x0 & x1 & E & _). eauto.
  - intros u Hu. apply (H u Hu).
  - intros u Hu x0 x1 E. destruct (H u Hu) as (_ & z0 & z1 & E' & T0 & T1). unfold us in E. rewrite E' in E. injection E as <- <-.
    fold shp in T0, T1. rewrite T0, T1. ring.
Qed.

Lemma sm_HT : forall ns1 dims ns2 pa1 pa2 pp u u', nodes = ns1 ++ (dims, KGaussian) :: ns2 ->
  Forall2 (good P) ns1 pa1 -> Forall2 (good P) ns2 pa2 -> broadcasts_to pp P ->
  shaped false pp dims KGaussian u -> shaped false pp dims KGaussian u' ->
  first_moment u' = first_moment u -> transposed P dims (second_moment u) (second_moment u') ->
  forall x0 x1 x0' x1', sm_moments g (map fst pa1 ++ u :: map fst pa2) = Ok [x0; x1] -> sm_moments g (map fst pa1 ++ u' :: map fst pa2) = Ok [x0'; x1'] ->
  (forall e, valid (P ++ sm_shape g) e -> bget x0' e = bget x0 e) /\ transposed P (sm_shape g) x1 x1'.
Proof.
  intros ns1 dims ns2 pa1 pa2 pp u u' En G1 G2 B S1 S2 F T x0 x1 x0' x1' E E'.
  destruct (sm_init_ok _ _ _ _ _ HF HI) as (HV & size & HS & Eg). rewrite HG in Eg.
  assert (MU : forall v, shaped false pp dims KGaussian v -> mom_ok P dims false v).
  { intros v Hv. destruct v as [|a aa|]; try contradiction. destruct Hv as [H1 H2]. split; [reflexivity|]. split; now apply (variable_up pp). }
  set (ts := map (fun pa : pmom * (env -> list outcome) => (fst pa, fst pa)) pa1 ++ (u, u') :: map (fun pa => (fst pa, fst pa)) pa2).
  assert (TS : Forall2 (transposed_pair P) nodes ts).
  { rewrite En. apply Forall2_app; [now apply good_pairs|]. constructor; [|now apply good_pairs].
    split; [now apply MU|]. split; [now apply MU|]. split; [discriminate|]. intros _. exact T. }
  assert (L1 : map fst ts = map fst pa1 ++ u :: map fst pa2) by (unfold ts; rewrite map_app; cbn [map fst]; now rewrite !map_map).
  assert (L2 : map snd ts = map fst pa1 ++ u' :: map fst pa2) by (unfold ts; rewrite map_app; cbn [map snd]; now rewrite !map_map).
  destruct (second_transposed P full nodes keysets keys_out size ts false HF HV HS TS) as (y & y' & Y1 & Y2 & TY).
  unfold DotFinal.out in Y1, Y2. rewrite L1 in Y1. rewrite L2 in Y2.
  assert (ME : sm_mean g (map fst pa1 ++ u' :: map fst pa2) = sm_mean g (map fst pa1 ++ u :: map fst pa2))
    by (apply mean_first; rewrite !map_app; cbn [map]; unfold first_moment in F; now rewrite F).
  unfold sm_moments in E, E'. rewrite ME in E'. destruct (sm_mean g (map fst pa1 ++ u :: map fst pa2)) as [z|]; [|discriminate]. cbn [bind] in E, E'.
  rewrite Eg in E, E' |- *. cbn [sm_shape sm_gamma negb] in *. rewrite Y1 in E. rewrite Y2 in E'. cbn [bind] in E, E'. injection E as <- <-. injection E' as <- <-.
  split; [reflexivity|exact TY].
Qed.
End Node.

Section Place.
Variable ty : nat -> mtype.
Variable at_ : nat -> place.
Variable need : nat -> Prop.
Lemma sum_multiply_typed : forall j ps full nodes keysets keys_out g,
  enumerates full keysets -> sm_init full nodes keysets keys_out = Ok g ->
  ty j = MGaussian (sm_shape g) -> Forall2 kind_type nodes (map ty ps) ->
  pl_dims (at_ j) = mt_dims (ty j) -> (forall i, In i ps -> pl_dims (at_ i) = mt_dims (ty i)) ->
  broadcasts_to (ash (pl_mask (at_ j))) (pl_plates (at_ j)) ->
  (forall i, In i ps -> det_link (at_ j) (at_ i)) ->
  (forall i s, In i ps -> ty i = MGaussian s -> pl_mult (at_ i) = pl_mult (at_ j)) ->
  (forall i s, In i ps -> ty i = MFixed s -> ~ need i) ->
  det_typed (tys ty) at_ need (sm_det nodes g) j ps.
Proof.
  intros j ps full nodes keysets keys_out g HF HI Tj Tp Dj Dp Bm Lp Mp Np.
  pose proof (no_gamma _ _ Tp) as HG. destruct (sm_init_ok _ _ _ _ _ HF HI) as (_ & size & HS & Eg).
  change (sm_det nodes g) with (linear_det nodes (sm_moments g) (sm_message g)).
  apply linear_typed with (shp := sm_shape g) (Y := fun os o => sum_product_at size keysets keys_out (map o_value os) o); try assumption.
  - now apply (sm_HM full).
  - intros. now apply (sm_HS full nodes keysets keys_out g HF HI HG _ _ ns1 dims ns2 pa1 pa2 pp m0 m1).
  - intros ns1 dims ns2 os1 os2 f i En F1 F2 Hi. rewrite !map_app. cbn [map o_value].
    destruct (sum_product_linear full nodes keysets keys_out g HF HI size ns1 dims ns2 (map o_value os1) (map o_value os2) i En) as (c & C1 & C2 & C3).
    { rewrite map_length. symmetry. apply (Forall2_len _ _ _ _ _ F1). }
    rewrite !C1, C2, C3. ring.
  - intros. now apply (sm_HT full nodes keysets keys_out g HF HI HG _ ns1 dims ns2 pa1 pa2 pp u u').
Qed.
End Place.
