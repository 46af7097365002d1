(** The gradient that the rotation object returns. *)
From Coq Require Import List Arith ZArith Lia Bool Reals Lra FunctionalExtensionality.
From Verif Require Import Base Shapes SpecShapes ShapesLemmas NumPy MiscArray TensorLemmas EinsumLemmas SumMultiplyLemmas SpecArray PlateSumLemmas PlateSum2Lemmas
  PlateSum3Lemmas MessageLemmas ShapeOpsLemmas SpecDot ExpFam ExpFamLemmas ExpFamBound NetworkLemmas DetNetLemmas GateLemmas PArrays PGate DotPart AddNode LinalgLemmas2 ConcatLemmas3 MarkovLemmas
  Families FamiliesLemmas FamiliesLemmas2 Linalg MatBridge SpecLinalg LinalgLemmas Gaussian SpecGaussian GaussLemmas GaussAlg PGaussian PGaussian2 PRotation DiagLemmas DetGrad
  RotateARD SpecRotateARD RotateLemmas RotateLemmas2 RotateLemmas3 RotateLemmas4 RotateGrad.
Import ListNotations.
Open Scope nat_scope.

Section Gradient.
Variable M : rot_model.
Let n := rm_nodes M.
Let P := rn_plates n.
Let D := rn_D n.
Let q := outer_alpha n.
Let PA := plates_alpha n.
Hypothesis OK : rot_ok M.
Hypothesis PR : proper M.
Let HP := ro_plates M OK.
Let PAQ := pa_q M OK.
Variable s : ard_stats.
Hypothesis SO : stats_of M s.
Variables Rm inv : mat.

Definition mat_is (V : arr R) (f : env -> nat -> nat -> R) : Prop :=
  ash V = q ++ [D; D] /\ forall t a b, valid q t -> a < D -> b < D -> bget V (mat_at t a b) = f t a b.

Lemma by_row_ok : forall x V f, mat_is V f -> broadcasts_to (ash x) (q ++ [D]) ->
  exists y, by_row x V = Ok y /\ mat_is y (fun t a b => bget x (vec_at t a) * f t a b)%R.
Proof.
  intros x V f [S1 V1] Bx. unfold by_row, np_multiply.
  assert (BE : broadcasts_to (ash (expand_at x 0)) (q ++ [D; D])).
  { destruct Bx as [L K]. rewrite app_length in L. cbn in L. split.
    - fold (ndim (expand_at x 0)). rewrite ndim_expand_at, app_length. unfold ndim. cbn. lia.
    - intros k. rewrite ash_expand_at by lia. cbn [Nat.ltb Nat.leb]. destruct k as [|k]; [now left|]. cbn [Nat.eqb]. replace (S k - 1) with k by lia.
      specialize (K k). replace (ax (q ++ [D; D]) (S k)) with (ax (q ++ [D]) k); [exact K|]. rewrite !ax_app. cbn [length]. destruct k as [|k]; [reflexivity|].
      destruct (Nat.ltb_spec (S k) 1), (Nat.ltb_spec (S (S k)) 2); try lia. f_equal. }
  destruct (map2_full_r Rmult (expand_at x 0) V _ S1 BE) as (y & Ey & Sy & Gy). exists y. split; [exact Ey|]. split; [exact Sy|].
  intros t a b Ht Ha Hb. rewrite Gy, V1 by assumption. f_equal. rewrite bget_expand_at by lia. reflexivity.
Qed.
Lemma map_is : forall g V f, mat_is V f -> mat_is (np_map g V) (fun t a b => g (f t a b)).
Proof. intros g V f [S1 V1]. split; [exact S1|]. intros t a b Ht Ha Hb. rewrite bget_map. now rewrite V1. Qed.
Lemma map2_is : forall g V f V' f', mat_is V f -> mat_is V' f' -> exists y, np_map2 g V V' = Ok y /\ mat_is y (fun t a b => g (f t a b) (f' t a b)).
Proof.
  intros g V f V' f' [S1 V1] [S2 V2]. destruct (map2_full g V V' _ S1) as (y & Ey & Sy & Gy); [rewrite S2; apply broadcasts_to_refl|].
  exists y. split; [exact Ey|]. split; [exact Sy|]. intros t a b Ht Ha Hb. now rewrite Gy, V1, V2.
Qed.
Lemma sum_is : forall V f, mat_is V f -> exists g, sum_plates_mat D V q = Ok g /\ forall a b, a < D -> b < D -> g a b = total q (fun t => f t a b).
Proof.
  intros V f [S1 V1]. destruct (sum_plates_mat_ok D V q) as (g & Eg & Gg); [rewrite S1; apply broadcasts_to_refl|]. exists g. split; [exact Eg|].
  intros a b Ha Hb. rewrite Gg by assumption. apply total_ext. intros t Ht. now apply V1.
Qed.
(** ... and over the plates of X *)
Lemma sum_is_X : forall V f, mat_is V f -> exists g, sum_plates_mat D V P = Ok g /\
  forall a b, a < D -> b < D -> g a b = (INR (bm_value P [q]) * total q (fun t => f t a b))%R.
Proof.
  intros V f [S1 V1]. destruct (sum_plates_mat_ok D V P) as (g & Eg & Gg).
  { rewrite S1. apply broadcasts_to_app; [reflexivity|apply (q_ok M OK)|apply broadcasts_to_refl]. }
  exists g. split; [exact Eg|]. intros a b Ha Hb. rewrite Gg by assumption. rewrite (total_expand P q).
  - f_equal. apply total_ext. intros t Ht. now apply V1.
  - apply (q_ok M OK).
  - intros k Hk e x. rewrite <- mat_at_upd. apply bget_indep. rewrite S1, ax_app. cbn [length]. destruct (Nat.ltb_spec (S (S k)) 2); [lia|]. now replace (S (S k) - 2) with k by lia.
Qed.

Lemma fibre_scale : forall t c F, fibre_sum P q t (fun p => c * F p)%R = (c * fibre_sum P q t F)%R.
Proof.
  intros t c F. rewrite (fibre_ext _ _ _ _ (fun p => c * F p + 0 * 0)%R) by (intros; ring).
  rewrite (fibre_lin P q t c 0 F (fun _ => 0%R)). ring.
Qed.
Definition W (t : env) (a b : nat) : R := fibre_sum P q t (dd M Rm a b).
Lemma d_dev_ok : exists Dd,
  np_map2 (fun x y => 2 * x - 2 * y)%R (rot_XX D Rm (st_XX s))
    (Arr (get_plates 2 (ash (st_Xmu s)) ++ [D; D]) (fun e => bget (st_Xmu s) (mat_at (fun j => e (S (S j))) (e 0) (e 1)))) = Ok Dd /\ mat_is Dd W.
Proof.
  destruct (rot_XX_ok M s Rm SO) as [E1 V1]. destruct SO as (S1 & S2 & S3 & W1 & W2 & W3).
  edestruct (map2_is (fun x y => 2 * x - 2 * y)%R) as (y & Ey & Ry); [split; [exact E1|exact V1]| |exists y; split; [exact Ey|]].
  - split; [cbn [ash]; now rewrite S3, plates_app2|]. intros t a b Ht Ha Hb. rewrite S3, plates_app2, bget_at by now apply valid_mat.
    rewrite mat_at_outer, !mat_at_eq. apply (W3 t b a Ht Hb Ha).
  - destruct Ry as [R1 R2]. split; [exact R1|]. intros t a b Ht Ha Hb. rewrite R2 by assumption. unfold W, dd. fold n D.
    rewrite (fibre_ext _ _ _ (fun p => 2 * rsum D (fun k => Rm a k * x_second M p k b) - 2 * (x_mean M p b * mu_mean M (vec_at p a)))%R
      (fun p => 2 * rsum D (fun k => Rm a k * x_second M p k b) + (-2) * (x_mean M p b * mu_mean M (vec_at p a)))%R) by (intros; ring).
    rewrite fibre_lin, fibre_rsum. unfold Rminus. f_equal; [|change (rm_nodes M) with n; fold P q; ring]. f_equal. apply rsum_ext. intros k Hk. now rewrite fibre_scale.
Qed.

Lemma last_skip : skipn (length PA - 1) PA = [last PA 1].
Proof.
  assert (H : PA = q ++ [last PA 1]) by exact (pa_split M). generalize dependent (last PA 1). intros l H. rewrite H, app_length. cbn [length].
  replace (length q + 1 - 1) with (length q) by lia. rewrite skipn_app, skipn_all, Nat.sub_diag. reflexivity.
Qed.
Lemma row_count : broadcasting_multiplier [D] [skipn (length PA - 1) PA] = Ok (bm_value [D] [[last PA 1]]).
Proof.
  rewrite last_skip. apply broadcasting_multiplier_ok. split; [|reflexivity]. intros x [<-|[]]. split; [reflexivity|]. intros [|[|k]]; [|now left|now left]. unfold ax; cbn. apply (pa_last M OK).
Qed.
Lemma entropy_grad : exists dh, sum_plates_mat D (Arr [D; D] (fun e => inv (e 0) (e 1))) P = Ok dh /\
  forall a b, a < D -> b < D -> dh a b = total P (fun _ => inv b a).
Proof.
  destruct (sum_plates_mat_ok D (Arr [D; D] (fun e => inv (e 0) (e 1))) P) as (dh & E & G).
  { split; [rewrite app_length; cbn; lia|]. intros k. rewrite ax_app. cbn [length ash]. destruct (Nat.ltb_spec k 2); [now right|left; apply ax_overflow; cbn; lia]. }
  exists dh. split; [exact E|]. intros a b Ha Hb. rewrite G by assumption. apply total_ext. intros t Ht. unfold bget. cbn. unfold clip. rewrite !mat_at_eq.
  change (ax [D; D] 0) with D. change (ax [D; D] 1) with D. destruct (Nat.eqb_spec D 1); [|reflexivity]. f_equal; lia.
Qed.

Lemma gradient_fixed : rn_gamma n = None -> exists g, ard_gradient n s Rm inv = Ok g /\ forall i j, i < D -> j < D ->
  g i j = (-0.5 * total q (fun t => bget (rn_alpha n) (vec_at t i) * W t i j) + total P (fun _ => inv j i))%R.
Proof.
  intros HN. unfold ard_gradient. fold D P q PA. destruct (dev_of_ok M s Rm inv 0%R SO) as (dev & Ed & Dv). fold n D in Ed. rewrite Ed. cbn [bind].
  destruct d_dev_ok as (Dd & E1 & R1). rewrite E1. cbn [bind]. destruct entropy_grad as (dh & E2 & R2). rewrite E2. cbn [bind]. rewrite HN.
  destruct (safe_last_ok (rn_alpha n) (rn_shape n) (proj2 (ro_shape M OK))) as (B & _ & G).
  assert (B' : broadcasts_to (ash (safe_last (rn_alpha n))) PA) by (unfold PA, plates_alpha; rewrite HN; exact B).
  destruct (by_row_ok (safe_last (rn_alpha n)) Dd W R1 (broadcasts_to_trans _ _ _ B' PAQ)) as (da & E3 & R3). rewrite E3. cbn [bind].
  destruct (sum_is _ _ R3) as (gq & E4 & R4). rewrite E4. cbn [bind].
  destruct (sum_plates_mat_ok D (scalar 0%R) P) as (gl & E5 & R5). { split; [cbn; lia|]. intros k. left. destruct k; reflexivity. }
  rewrite E5. cbn [bind]. rewrite row_count. cbn [bind]. eexists. split; [reflexivity|]. intros i j Hi Hj. cbv beta.
  unfold gaussian_logpdf, gaussian_entropy. rewrite R2, R4, R5 by assumption. rewrite (total_zero P) by reflexivity.
  rewrite (total_ext q _ (fun t => bget (rn_alpha n) (vec_at t i) * W t i j)%R) by (intros; now rewrite G).
  replace (-0.5)%R with (-(1/2))%R by lra. replace 0.5%R with (1/2)%R by lra. field.
Qed.

Variable a : gamma_alpha.
Hypothesis HG : rn_gamma n = Some a.
Lemma gradient_updated : (forall k, ax (ash (ga_a0 a)) (S k) = 1) ->
  exists y b alpha, ash y = PA /\ ash b = PA /\ ash alpha = PA /\
    (forall e, valid (P ++ [D]) e -> let s := clip (ga_plates a) e in
       bget y e = fibre_sum (P ++ [D]) (ga_plates a) s (deviation M Rm inv 0%R) /\
       bget b e = new_b M a Rm inv 0%R s /\ bget alpha e = obj_alpha M a Rm inv 0%R e) /\
  exists g, ard_gradient n s Rm inv = Ok g /\ forall i j, i < D -> j < D ->
  g i j = (-0.5 * total q (fun t => (bget alpha (vec_at t i) - bget y (vec_at t i) * (bget alpha (vec_at t i) * (1 / bget b (vec_at t i) * 0.5))) * W t i j)
    + 0.5 * (INR (bm_value P [q]) * total q (fun t => - (1 / bget b (vec_at t i) * (0.5 * W t i j))) * INR (bm_value [D] [[last PA 1%nat]]))
    + total P (fun _ => inv j i)
    + (bget (ga_a0 a) (vec_at env0 j) * total q (fun t => - (1 / bget b (vec_at t i) * (0.5 * W t i j)))
       - total q (fun t => - (bget (ga_b0 a) (vec_at t i) * (bget alpha (vec_at t i) * (1 / bget b (vec_at t i) * 0.5))) * W t i j)))%R.
Proof.
  intros A0. unfold ard_gradient. fold D P q PA. destruct (dev_of_ok M s Rm inv 0%R SO) as (dev & Ed & Dv). fold n D in Ed. rewrite Ed. cbn [bind].
  destruct d_dev_ok as (Dd & E1 & R1). rewrite E1. cbn [bind]. destruct entropy_grad as (dh & E2 & R2). rewrite E2. cbn [bind]. rewrite HG.
  destruct (q_alpha_ok M OK a HG Rm inv 0%R dev Dv) as (y & b & alpha & Ey & Eq & Sy & Sb & Sa & V). fold n in Eq. rewrite Eq. cbn [bind]. change (plates_alpha (rm_nodes M)) with PA in *. rewrite Ey. cbn [bind].
  exists y, b, alpha. split; [exact Sy|]. split; [exact Sb|]. split; [exact Sa|]. split; [exact V|].
  destruct (ro_gamma M OK a HG) as (G1 & G2 & G3 & G4). destruct (safe_last_ok (ga_b0 a) _ G4) as (B0 & _ & W0). destruct (safe_last_ok (ga_a0 a) _ G3) as (B1 & K1 & W1).
  pose proof (ga_pa M a HG) as GP. change (plates_alpha (rm_nodes M)) with PA in GP. rewrite <- GP in B0, B1.
  assert (BQ : forall x : arr R, ash x = PA -> broadcasts_to (ash x) (q ++ [D])) by (intros x ->; exact PAQ).
  destruct (by_row_ok alpha Dd W R1 (BQ _ Sa)) as (y1 & F1 & Q1). rewrite F1. cbn [bind].
  destruct (by_row_ok (np_map (fun x => -1 / x)%R b) (np_map (fun x => 0.5 * x)%R Dd) _ (map_is _ _ _ R1) (BQ (np_map _ b) Sb)) as (v1 & F2 & Q2). rewrite F2. cbn [bind].
  destruct (by_row_ok alpha v1 _ Q2 (BQ _ Sa)) as (v2 & F3 & Q3). rewrite F3. cbn [bind].
  destruct (by_row_ok y v2 _ Q3 (BQ _ Sy)) as (y2 & F4 & Q4). rewrite F4. cbn [bind].
  destruct (by_row_ok (safe_last (ga_b0 a)) v2 _ Q3 (broadcasts_to_trans _ _ _ B0 PAQ)) as (y3 & F5 & Q5). rewrite F5. cbn [bind].
  destruct (by_row_ok (np_map (fun x => 1 / x)%R b) (np_map (fun x => 0.5 * x)%R Dd) _ (map_is _ _ _ R1) (BQ (np_map _ b) Sb)) as (y4 & F6 & Q6). rewrite F6. cbn [bind].
  pose proof (map_is Ropp _ _ Q6) as Q7. set (dl := np_map Ropp y4) in *.
  assert (A1 : broadcasts_to (ash (safe_last (ga_a0 a))) (q ++ [D; D])).
  { destruct (broadcasts_to_trans _ _ _ B1 PAQ) as [L2 K2]. change (length (ash (safe_last (ga_a0 a))) <= length (q ++ [D])) in L2. split; [rewrite app_length in *; cbn in *; lia|].
    intros k. destruct k as [|k]; [|left; rewrite K1; apply A0]. specialize (K2 0). rewrite ax_app in *. exact K2. }
  destruct Q7 as [S7 V7]. unfold np_multiply. destruct (map2_full_r Rmult (safe_last (ga_a0 a)) dl _ S7 A1) as (al & F7 & S8 & V8). rewrite F7. cbn [bind].
  assert (Q8 : mat_is al (fun t c d => bget (ga_a0 a) (vec_at env0 d) * - (bget (np_map (fun x => 1 / x) b) (vec_at t c) * (0.5 * W t c d)))%R).
  { split; [exact S8|]. intros t c d Ht Hc Hd. rewrite V8, W1, V7 by assumption. f_equal. apply bget_ext. intros [|k] _ N; [reflexivity|]. exfalso. apply N, A0. }
  destruct (map2_is Rplus _ _ _ _ Q1 Q4) as (dda & F8 & Q9). rewrite F8. cbn [bind].
  destruct (sum_is _ _ Q9) as (gq & H1 & X1). rewrite H1. cbn [bind].
  destruct (sum_is_X _ _ (conj S7 V7)) as (gl & H2 & X2). rewrite H2. cbn [bind]. rewrite row_count. cbn [bind].
  destruct (sum_is _ _ Q5) as (gb & H3 & X3). rewrite H3. cbn [bind]. destruct (sum_is _ _ Q8) as (ga & H4 & X4). rewrite H4. cbn [bind].
  eexists. split; [reflexivity|]. intros i j Hi Hj. cbv beta. rewrite X1, X2, X3, X4, R2 by assumption. unfold gaussian_logpdf, gaussian_entropy, gamma_logpdf.
  rewrite (total_ext q (fun t => bget alpha (vec_at t i) * W t i j + _)%R
    (fun t => (bget alpha (vec_at t i) - bget y (vec_at t i) * (bget alpha (vec_at t i) * (1 / bget b (vec_at t i) * 0.5))) * W t i j)%R) by (intros; rewrite bget_map; unfold Rdiv; ring).
  rewrite (total_ext q (fun t => bget (safe_last (ga_b0 a)) (vec_at t i) * _)%R
    (fun t => - (bget (ga_b0 a) (vec_at t i) * (bget alpha (vec_at t i) * (1 / bget b (vec_at t i) * 0.5))) * W t i j)%R) by (intros; rewrite W0, bget_map; unfold Rdiv; ring).
  rewrite total_rscal.
  rewrite (total_ext q (fun t => - (bget (np_map (fun x => 1 / x)%R b) (vec_at t i) * (0.5 * W t i j)))%R (fun t => - (1 / bget b (vec_at t i) * (0.5 * W t i j)))%R) by (intros; now rewrite bget_map).
  lra.
Qed.
End Gradient.
