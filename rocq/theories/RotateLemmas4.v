(** The rotation bound differs from the lower bound by constants. *)
From Coq Require Import List Arith ZArith Lia Bool Reals Lra FunctionalExtensionality.
From Verif Require Import Base Shapes SpecShapes ShapesLemmas NumPy MiscArray TensorLemmas SpecArray PlateSumLemmas PlateSum2Lemmas
  PlateSum3Lemmas MessageLemmas ShapeOpsLemmas SpecDot ExpFam ExpFamLemmas ExpFamBound NetworkLemmas DetNetLemmas GateLemmas PGate DotPart AddNode LinalgLemmas2 ConcatLemmas3 MarkovLemmas
  Families Linalg SpecLinalg LinalgLemmas Gaussian SpecGaussian GaussLemmas PGaussian PGaussian2 PRotation RotateARD SpecRotateARD RotateLemmas RotateLemmas2 RotateLemmas3.
Import ListNotations.
Open Scope nat_scope.

Lemma total_mul : forall S s F G, broadcasts_to s S -> (forall k, ax s k = 1 -> indep k G) ->
  total S (fun e => G e * F e)%R = total s (fun t => G t * fibre_sum S s t F)%R.
Proof. intros S s F G H HG. rewrite (total_fibres S s) by exact H. apply total_ext. intros t Ht. now apply fibre_mul. Qed.
Lemma same_total : forall s F, total (match s with [] => [1] | _ => s end) F = total s F.
Proof.
  intros [|x s] F; [|reflexivity]. change [1] with ([] ++ [1]). rewrite total_vec. apply total_ext. intros p Hp. cbn [rsum]. rewrite Rplus_0_l. f_equal.
  apply functional_extensionality. intros [|k]; unfold vec_at, join, upd, env0; cbn; specialize (Hp 0) as H0; unfold ax in H0; cbn in H0; [lia|].
  replace (k - 0) with k by lia. specialize (Hp k) as A. specialize (Hp (S k)) as B. unfold ax in A, B. cbn in A, B. destruct k; lia.
Qed.
Lemma fibre_const : forall S s t c, fibre_sum S s t (fun _ => c) = (c * fibre_sum S s t (fun _ => 1))%R.
Proof. intros. rewrite (fibre_ext _ _ _ (fun _ => c) (fun _ => c * 1 + 0 * 0)%R) by (intros; ring). rewrite (fibre_lin S s t c 0 (fun _ => 1%R) (fun _ => 0%R)). ring. Qed.
Lemma fibre_nonneg : forall S s t F, (forall e, valid S e -> 0 <= F e)%R -> (0 <= fibre_sum S s t F)%R.
Proof.
  intros S s t F H. rewrite fibre_total. unfold total.
  assert (K : forall l, (forall e, In e l -> valid S e) -> (0 <= lsum (map (fun e => if maps_to (length S) s e t then F e else 0) l))%R).
  { induction l as [|e l IH]; intros HL; unfold lsum in *; cbn [map fold_right]; [lra|]. specialize (IH (fun e' H' => HL e' (or_intror H'))).
    specialize (H e (HL e (or_introl eq_refl))). destruct (maps_to (length S) s e t); lra. }
  apply K. intros e He. now apply all_indices_valid.
Qed.

Lemma bget_coarse : forall (x : arr R) p e, broadcasts_to (ash x) p -> bget x (clip p e) = bget x e.
Proof.
  intros x p e [_ B]. apply bget_ext. intros k _ Hk. unfold clip. destruct (B k) as [|E]; [contradiction|]. destruct (Nat.eqb_spec (ax p k) 1); [congruence|reflexivity].
Qed.

Section Bound.
Variables lg psi : R -> R.
Variable M : rot_model.
Let n := rm_nodes M.
Let P := rn_plates n.
Let D := rn_D n.
Let q := outer_alpha n.
Let PA := plates_alpha n.
Hypothesis OK : rot_ok M.
Hypothesis PR : proper M.
Let HP := ro_plates M OK.
Let HQ := q_ok M OK.
Let PAQ := pa_q M OK.

Lemma deviation_nonneg : forall Rm inv logdet e, valid (P ++ [D]) e -> (0 <= deviation M Rm inv logdet e)%R.
Proof.
  intros Rm inv logdet e He. destruct (valid_outer _ _ _ He) as [Ho Hi]. rewrite <- (at_vec e). set (p := outer_plate e) in *. set (i := e 0) in *.
  rewrite (deviation_eq M Rm inv logdet p i Hi). pose proof (pr_X M PR p Ho (Rm i)) as A. pose proof (pr_mu M PR (vec_at p i) (valid_vec P D p i Ho Hi)) as B.
  fold n D in A. fold n D. replace (rsum D (fun k => rsum D (fun l => Rm i l * x_second M p l k) * Rm i k))%R with (rsum D (fun l => rsum D (fun k => Rm i l * x_second M p l k * Rm i k)))%R.
  2:{ rewrite rsum_swap. apply rsum_ext. intros k Hk. now rewrite rsum_scal_r. }
  replace (rsum D (fun k => Rm i k * (x_mean M p k * mu_mean M (vec_at p i))))%R with (innerv D (Rm i) (x_mean M p) * mu_mean M (vec_at p i))%R.
  2:{ unfold innerv. rewrite <- rsum_scal_r. apply rsum_ext. intros; ring. }
  pose proof (Rle_0_sqr (innerv D (Rm i) (x_mean M p) - mu_mean M (vec_at p i))) as C. unfold Rsqr in C. nra.
Qed.

(** The deviations as an array over the plates of alpha and the elements. *)
Definition dev_of (Rm inv : mat) (logdet : R) (dev : arr R) : Prop :=
  ash dev = q ++ [D] /\ forall e, valid (q ++ [D]) e -> bget dev e = fibre_sum (P ++ [D]) (q ++ [D]) e (deviation M Rm inv logdet).
Lemma dev_of_ok : forall s Rm inv logdet, stats_of M s -> exists dev, ard_deviation D Rm s = Ok dev /\ dev_of Rm inv logdet dev.
Proof.
  intros s Rm inv logdet SO. destruct (dev_ok M s Rm inv logdet SO) as (dev & E & S & V). exists dev. split; [exact E|]. split; [exact S|].
  intros e He. destruct (valid_outer _ _ _ He) as [Ho Hi]. rewrite <- (at_vec e) at 1 2. rewrite (V _ _ Ho Hi). unfold vec_at at 2.
  rewrite (fibre_app P q [D]); [reflexivity|]. intros [|k]; unfold ax, upd, env0; cbn; [exact Hi|]. destruct k; cbn; lia.
Qed.

Lemma sum_dev : forall Rm inv logdet dev alpha f, dev_of Rm inv logdet dev -> broadcasts_to (ash alpha) PA ->
  (forall e, valid (P ++ [D]) e -> bget alpha e = f e) ->
  exists da, np_multiply dev alpha = Ok da /\
    sum_plates da (q ++ [D]) = Ok (total (P ++ [D]) (fun e => f e * deviation M Rm inv logdet e)%R).
Proof.
  intros Rm inv logdet dev alpha f [S V] Ba Hf. pose proof (broadcasts_to_trans _ _ _ Ba PAQ) as Bq. change (broadcasts_to (ash alpha) (q ++ [D])) in Bq.
  unfold np_multiply. destruct (map2_full Rmult dev alpha _ S Bq) as (da & E & Sd & G). exists da. split; [exact E|].
  rewrite sum_plates_ok by (rewrite Sd; apply broadcasts_to_refl). f_equal.
  rewrite (total_ext (P ++ [D]) _ (fun e => bget alpha e * deviation M Rm inv logdet e)%R) by (intros e He; now rewrite Hf).
  rewrite (total_mul (P ++ [D]) (q ++ [D])).
  - apply total_ext. intros e He. rewrite G, V by exact He. apply Rmult_comm.
  - apply (qd_ok M OK).
  - intros k Hk. apply bget_indep. destruct Bq as [_ Bq]. destruct (Bq k); congruence.
Qed.

Lemma X_bound_eq : forall Rm inv logdet alpha logalpha, is_inverse D Rm inv ->
  X_bound M alpha logalpha Rm inv logdet =
  (total P (plate_const M) + total P (fun _ => logdet)
   + (-0.5 * total (P ++ [D]) (fun e => alpha e * deviation M Rm inv logdet e) + 0.5 * total (P ++ [D]) logalpha))%R.
Proof.
  intros Rm inv logdet alpha logalpha I. unfold X_bound. fold n P.
  etransitivity; [refine (total_ext P _ _ (fun p _ => x_term_eq M Rm inv logdet alpha logalpha p I))|]. rewrite !total_add. f_equal.
  rewrite <- !total_rscal, !total_vec, <- total_add. apply total_ext. intros p _. now rewrite rsum_plus.
Qed.

Lemma entropy_eq : forall logdet, sum_plates (scalar (logdet + 0)%R) P = Ok (total P (fun _ => logdet)).
Proof. intros logdet. rewrite sum_plates_ok by (split; [cbn; lia|intros k; left; destruct k; reflexivity]). f_equal. apply total_ext. intros e _. unfold bget. cbn. ring. Qed.

(** alpha is not updated *)
Lemma value_fixed : forall s Rm inv logdet, rn_gamma n = None -> stats_of M s ->
  ard_terms n s Rm logdet =
  Ok (-0.5 * total (P ++ [D]) (fun e => bget (rn_alpha n) e * deviation M Rm inv logdet e) + total P (fun _ => logdet), 0)%R.
Proof.
  intros s Rm inv logdet HN SO. destruct (dev_of_ok s Rm inv logdet SO) as (dev & Ed & Dv). unfold ard_terms. fold D P q. rewrite Ed. cbn [bind].
  rewrite entropy_eq. cbn [bind]. rewrite HN.
  destruct (safe_last_ok (rn_alpha n) (rn_shape n) (proj2 (ro_shape M OK))) as (B & _ & G).
  assert (B' : broadcasts_to (ash (safe_last (rn_alpha n))) PA) by (unfold PA, plates_alpha; rewrite HN; exact B).
  destruct (sum_dev Rm inv logdet dev (safe_last (rn_alpha n)) (bget (rn_alpha n)) Dv B' (fun e _ => G e)) as (da & E1 & E2).
  rewrite E1. cbn [bind]. rewrite E2. cbn [bind].
  rewrite sum_plates_ok by (split; [cbn; lia|intros k; left; destruct k; reflexivity]). cbn [bind].
  f_equal. f_equal. unfold gaussian_logpdf, gaussian_entropy. rewrite (total_zero _ (bget (scalar 0%R))) by reflexivity. lra.
Qed.
Lemma terms_fixed : forall s Rm inv logdet, rn_gamma n = None -> stats_of M s -> is_inverse D Rm inv ->
  exists x, ard_terms n s Rm logdet = Ok (x, 0%R) /\
    X_bound M (bget (rn_alpha n)) (rm_logalpha M) Rm inv logdet
    = (x + (total P (plate_const M) + 0.5 * total (P ++ [D]) (rm_logalpha M)))%R.
Proof.
  intros s Rm inv logdet HN SO I. rewrite (value_fixed s Rm inv logdet HN SO). eexists. split; [reflexivity|]. rewrite X_bound_eq by exact I. lra.
Qed.

(** alpha is updated *)
Variable a : gamma_alpha.
Hypothesis HG : rn_gamma n = Some a.
Lemma ga_pa : PA = match ga_plates a with [] => [1] | _ => ga_plates a end.
Proof. unfold PA, plates_alpha. now rewrite HG. Qed.
Lemma ga_ax : forall k, ax PA k = ax (ga_plates a) k.
Proof. intros k. rewrite ga_pa. destruct (ga_plates a); [|reflexivity]. destruct k as [|[|k]]; reflexivity. Qed.
Lemma new_b_pos : forall Rm inv logdet s, valid (ga_plates a) s -> (0 < new_b M a Rm inv logdet s)%R.
Proof.
  intros Rm inv logdet s Hs. unfold new_b. pose proof (pr_b0 M PR a HG s Hs).
  pose proof (fibre_nonneg (P ++ [D]) (ga_plates a) s (deviation M Rm inv logdet) (fun e He => deviation_nonneg Rm inv logdet e He)). fold n P D. lra.
Qed.

(** The <alpha> of the objective. *)
Definition obj_alpha (Rm inv : mat) (logdet : R) (e : env) : R := (bget (ga_phi1 a) (clip (ga_plates a) e) / new_b M a Rm inv logdet (clip (ga_plates a) e))%R.
Lemma q_alpha_ok : forall Rm inv logdet dev, dev_of Rm inv logdet dev ->
  exists y b alpha, sum_to_plates dev PA None 0 = Ok y /\ ard_q n a dev = Ok (b, alpha) /\ ash y = PA /\ ash b = PA /\ ash alpha = PA /\
    (forall e, valid (P ++ [D]) e -> let s := clip (ga_plates a) e in
       bget y e = fibre_sum (P ++ [D]) (ga_plates a) s (deviation M Rm inv logdet) /\
       bget b e = new_b M a Rm inv logdet s /\ bget alpha e = obj_alpha Rm inv logdet e).
Proof.
  intros Rm inv logdet dev [SD V]. destruct (ro_gamma M OK a HG) as (G1 & G2 & G3 & G4). fold n P D in G1.
  assert (QZ : forall k, ax PA k = 1 -> ax (ash dev) k <> 0).
  { intros k _. rewrite SD, ax_last. destruct k as [|k]; [assert (0 < D) by exact (ro_D M OK); cbn; lia|]. cbn [Nat.eqb]. destruct HQ as [_ B].
    assert (0 < ax P (S k - 1)) by exact (HP (S k - 1)). specialize (B (S k - 1)). change (ax q (S k - 1) = 1 \/ ax q (S k - 1) = ax P (S k - 1)) in B. lia. }
  destruct (sum_to_shape_ok dev PA) as (y0 & E0 & S0 & V0); [rewrite SD; exact PAQ|exact QZ|].
  assert (E1 : sum_to_plates dev PA None 0 = Ok (np_scale 1 y0)).
  { unfold sum_to_plates. rewrite Nat.sub_0_r, skipn_all, app_nil_r. cbn [bind]. rewrite E0. reflexivity. }
  set (y := np_scale 1 y0) in *. assert (Sy : ash y = PA) by exact S0.
  destruct (safe_last_ok (ga_b0 a) _ G4) as (B0 & _ & W0). destruct (safe_last_ok (ga_phi1 a) _ G2) as (B1 & _ & W1). rewrite <- ga_pa in B0, B1.
  destruct (map2_full_r (fun b0 y => b0 + 0.5 * y)%R (safe_last (ga_b0 a)) y PA Sy B0) as (b & Eb & Sb & Vb).
  destruct (map2_full_r Rdiv (safe_last (ga_phi1 a)) b PA Sb B1) as (alpha & Ea & Sa & Va).
  exists y, b, alpha. split; [exact E1|]. split; [unfold ard_q; fold PA; rewrite E1; cbn [bind]; rewrite Eb; cbn [bind]; rewrite Ea; reflexivity|].
  split; [exact Sy|]. split; [exact Sb|]. split; [exact Sa|]. intros e He. cbv zeta.
  assert (Vs : valid PA (clip PA e)) by (apply (valid_clip PA (P ++ [D])); [apply (pa_ok M OK)|exact He]).
  assert (Cs : clip (ga_plates a) e = clip PA e) by (symmetry; apply same_clip, ga_ax). rewrite Cs. set (s := clip PA e) in *.
  assert (Vg : valid (ga_plates a) s) by (apply (same_valid PA); [exact ga_ax|exact Vs]).
  assert (Ay : bget y e = fibre_sum (P ++ [D]) (ga_plates a) s (deviation M Rm inv logdet)).
  { rewrite <- bget_clip, Sy. fold s. unfold y. rewrite np_scale_bget, V0 by exact Vs. cbn [INR]. rewrite Rmult_1_l, SD.
    rewrite <- (same_fibre (P ++ [D]) PA (ga_plates a) s (deviation M Rm inv logdet) ga_ax).
    rewrite (fibre_fibre (P ++ [D]) (q ++ [D]) PA s); [|apply (qd_ok M OK)|exact PAQ|exact Vs].
    apply fibre_ext. intros e' He'. now apply V. }
  assert (Ab : bget b e = new_b M a Rm inv logdet s).
  { rewrite Vb, W0, Ay. unfold new_b. fold n P D. f_equal. rewrite <- Cs. symmetry.
    now apply bget_coarse. }
  split; [exact Ay|]. split; [exact Ab|]. rewrite Va, W1, Ab. unfold obj_alpha. rewrite Cs. f_equal.
  rewrite <- Cs. symmetry. now apply bget_coarse.
Qed.

Lemma gamma_term_eq : forall Rm inv logdet s, valid (ga_plates a) s ->
  gamma_term lg psi (bget (ga_a0 a) s, rm_ga0 M s) (bget (ga_b0 a) s, rm_logb0 M s) (- new_b M a Rm inv logdet s, new_a M a s)%R
  = ((bget (ga_a0 a) s * - ln (new_b M a Rm inv logdet s) - bget (ga_b0 a) s * (new_a M a s / new_b M a Rm inv logdet s))
     + (bget (ga_a0 a) s * rm_logb0 M s - rm_ga0 M s + lg (new_a M a s) + new_a M a s + (bget (ga_a0 a) s - new_a M a s) * psi (new_a M a s)))%R.
Proof.
  intros Rm inv logdet s Hs. pose proof (new_b_pos Rm inv logdet s Hs) as Pb. unfold gamma_term, gamma_moments. cbn [fst snd]. rewrite Ropp_involutive.
  destruct (Rle_dec (new_b M a Rm inv logdet s) 0) as [C|C]; [lra|]. unfold gamma_cgf, gamma_phi. cbn [fst snd]. field. lra.
Qed.

Definition alpha_const (s : env) : R :=
  (bget (ga_a0 a) s * rm_logb0 M s - rm_ga0 M s + lg (new_a M a s) + new_a M a s + (bget (ga_a0 a) s - new_a M a s) * psi (new_a M a s))%R.

(** In a plate of alpha, an array that broadcasts to it. *)
Lemma in_alpha : forall s, valid PA s -> valid (P ++ [D]) s.
Proof.
  intros s Hs k. destruct (pa_ok M OK) as [_ B]. specialize (Hs k). fold n PA P D in B. destruct (B k) as [E|E]; [|now rewrite <- E].
  assert (0 < ax (P ++ [D]) k); [|lia]. rewrite ax_last. destruct k as [|k]; [exact (ro_D M OK)|]. apply HP.
Qed.

Lemma value_updated : forall s Rm inv logdet, stats_of M s ->
  ard_terms n s Rm logdet =
  Ok (-0.5 * total (P ++ [D]) (fun e => obj_alpha Rm inv logdet e * deviation M Rm inv logdet e)
      + 0.5 * total (P ++ [D]) (fun e => -1 * ln (new_b M a Rm inv logdet (clip (ga_plates a) e))) + total P (fun _ => logdet),
      total PA (fun s => bget (ga_a0 a) s * - ln (new_b M a Rm inv logdet s) - bget (ga_b0 a) s * (bget (ga_phi1 a) s / new_b M a Rm inv logdet s)))%R.
Proof.
  intros s Rm inv logdet SO. destruct (dev_of_ok s Rm inv logdet SO) as (dev & Ed & Dv). unfold ard_terms. fold D P q PA. rewrite Ed. cbn [bind].
  rewrite entropy_eq. cbn [bind]. rewrite HG. destruct (q_alpha_ok Rm inv logdet dev Dv) as (y & b & alpha & _ & Eq & _ & Sb & Sa & V). rewrite Eq. cbn [bind].
  destruct (ro_gamma M OK a HG) as (G1 & G2 & G3 & G4). destruct (safe_last_ok (ga_b0 a) _ G4) as (B0 & _ & W0). destruct (safe_last_ok (ga_a0 a) _ G3) as (B1 & _ & W1). rewrite <- ga_pa in B0, B1.
  unfold np_multiply at 1 2. destruct (map2_full_r Rmult (safe_last (ga_b0 a)) alpha PA Sa B0) as (ba & E1 & S1 & V1). rewrite E1. cbn [bind].
  destruct (map2_full_r Rmult (safe_last (ga_a0 a)) (np_map (fun x => - ln x)%R b) PA Sb B1) as (al & E2 & S2 & V2). rewrite E2. cbn [bind].
  destruct (sum_dev Rm inv logdet dev alpha (obj_alpha Rm inv logdet) Dv) as (da & E3 & E4); [rewrite Sa; apply broadcasts_to_refl|intros e He; apply (V e He)|].
  rewrite E3. cbn [bind]. rewrite E4. cbn [bind].
  rewrite !sum_plates_ok by (rewrite ?S1, ?S2; try apply broadcasts_to_refl; change (ash (np_map (fun x => - ln x)%R b)) with (ash b); rewrite Sb; apply (pa_ok M OK)). cbn [bind].
  f_equal. f_equal.
  - unfold gaussian_logpdf, gaussian_entropy.
    rewrite (total_ext (P ++ [D]) (bget (np_map (fun x => - ln x)%R b)) (fun e => -1 * ln (new_b M a Rm inv logdet (clip (ga_plates a) e)))%R).
    2:{ intros e He. rewrite bget_map. destruct (V e He) as (_ & -> & _). ring. }
    lra.
  - unfold gamma_logpdf. rewrite (total_ext PA (fun s => _ - _)%R (fun s => bget al s + -1 * bget ba s)%R).
    + rewrite total_add, total_rscal. lra.
    + intros s0 Hs. pose proof (in_alpha s0 Hs) as Hs'. rewrite V1, V2, W0, W1, bget_map. destruct (V s0 Hs') as (_ & -> & ->). unfold obj_alpha.
      rewrite (clip_valid_id (ga_plates a) s0) by (apply (same_valid PA); [exact ga_ax|exact Hs]). ring.
Qed.

(** For any shape c of alpha, one half of the deviations and the rate of the prior, both weighted
    with the mean c / b, sum to c: the shape does not matter. *)
Lemma shape_cancels : forall (c : env -> R) Rm inv logdet,
  (0.5 * total (P ++ [D]) (fun e => c (clip (ga_plates a) e) / new_b M a Rm inv logdet (clip (ga_plates a) e) * deviation M Rm inv logdet e)
   + total (ga_plates a) (fun s => bget (ga_b0 a) s * (c s / new_b M a Rm inv logdet s)))%R = total (ga_plates a) c.
Proof.
  intros c Rm inv logdet. destruct (ro_gamma M OK a HG) as (G1 & _).
  rewrite (total_mul (P ++ [D]) (ga_plates a) (deviation M Rm inv logdet) (fun e => c (clip (ga_plates a) e) / new_b M a Rm inv logdet (clip (ga_plates a) e))%R G1).
  2:{ intros k Hk e x. replace (clip (ga_plates a) (upd e k x)) with (clip (ga_plates a) e); [reflexivity|]. apply functional_extensionality. intros l. unfold clip, upd.
      destruct (Nat.eqb_spec l k) as [->|]; [|reflexivity]. now rewrite Hk. }
  rewrite <- total_rscal, <- total_add. apply total_ext. intros s Hs. rewrite (clip_valid_id _ _ Hs). pose proof (new_b_pos Rm inv logdet s Hs) as Pb.
  assert (E : new_b M a Rm inv logdet s = (bget (ga_b0 a) s + 0.5 * fibre_sum (P ++ [D]) (ga_plates a) s (deviation M Rm inv logdet))%R) by reflexivity.
  set (nb := new_b M a Rm inv logdet s) in *. set (k := (c s / nb)%R). assert (K : (k * nb = c s)%R) by (unfold k; field; lra). clearbody k. rewrite <- K, E. ring.
Qed.
Lemma total_updated : forall s Rm inv logdet, stats_of M s -> is_inverse D Rm inv ->
  exists x y, ard_terms n s Rm logdet = Ok (x, y) /\
    (X_bound M (new_alpha M a Rm inv logdet) (new_logalpha psi M a Rm inv logdet) Rm inv logdet + alpha_bound lg psi M a Rm inv logdet
     = x + y + (total P (plate_const M) + 0.5 * total (P ++ [D]) (fun e => psi (new_a M a (clip (ga_plates a) e)))
                + total (ga_plates a) alpha_const + (total (ga_plates a) (bget (ga_phi1 a)) - total (ga_plates a) (new_a M a))))%R.
Proof.
  intros s Rm inv logdet SO I. rewrite (value_updated s Rm inv logdet SO). eexists _, _. split; [reflexivity|].
  pose proof (shape_cancels (bget (ga_phi1 a)) Rm inv logdet) as C1. pose proof (shape_cancels (new_a M a) Rm inv logdet) as C2.
  rewrite X_bound_eq by exact I. unfold alpha_bound.
  rewrite (total_ext (P ++ [D]) (new_logalpha psi M a Rm inv logdet) (fun e => psi (new_a M a (clip (ga_plates a) e)) + -1 * ln (new_b M a Rm inv logdet (clip (ga_plates a) e)))%R).
  2:{ intros e He. unfold new_logalpha. cbv zeta. ring. }
  rewrite (total_ext (ga_plates a) _ _ (fun s Hs => gamma_term_eq Rm inv logdet s Hs)). unfold alpha_const. rewrite !total_add.
  rewrite ga_pa, same_total.
  rewrite (total_ext (ga_plates a) (fun s => bget (ga_a0 a) s * - ln (new_b M a Rm inv logdet s) - bget (ga_b0 a) s * (bget (ga_phi1 a) s / new_b M a Rm inv logdet s))%R
    (fun s => bget (ga_a0 a) s * - ln (new_b M a Rm inv logdet s) + -1 * (bget (ga_b0 a) s * (bget (ga_phi1 a) s / new_b M a Rm inv logdet s)))%R) by (intros; ring).
  rewrite (total_ext (ga_plates a) (fun s => bget (ga_a0 a) s * - ln (new_b M a Rm inv logdet s) - bget (ga_b0 a) s * (new_a M a s / new_b M a Rm inv logdet s))%R
    (fun s => bget (ga_a0 a) s * - ln (new_b M a Rm inv logdet s) + -1 * (bget (ga_b0 a) s * (new_a M a s / new_b M a Rm inv logdet s)))%R) by (intros; ring).
  rewrite !total_add, !total_rscal. change (fun e => obj_alpha Rm inv logdet e * deviation M Rm inv logdet e)%R
    with (fun e => bget (ga_phi1 a) (clip (ga_plates a) e) / new_b M a Rm inv logdet (clip (ga_plates a) e) * deviation M Rm inv logdet e)%R.
  change (fun e => new_alpha M a Rm inv logdet e * deviation M Rm inv logdet e)%R
    with (fun e => new_a M a (clip (ga_plates a) e) / new_b M a Rm inv logdet (clip (ga_plates a) e) * deviation M Rm inv logdet e)%R.
  lra.
Qed.
Lemma obj_new : shape_updated M -> forall Rm inv logdet e, valid (P ++ [D]) e -> obj_alpha Rm inv logdet e = new_alpha M a Rm inv logdet e.
Proof.
  intros SU Rm inv logdet e He. unfold obj_alpha, new_alpha. cbv zeta. f_equal. apply (SU a HG). apply (valid_clip _ (P ++ [D])); [|exact He]. exact (proj1 (ro_gamma M OK a HG)).
Qed.
Lemma terms_updated : shape_updated M -> forall s Rm inv logdet, stats_of M s -> is_inverse D Rm inv ->
  exists x y, ard_terms n s Rm logdet = Ok (x, y) /\
    X_bound M (new_alpha M a Rm inv logdet) (new_logalpha psi M a Rm inv logdet) Rm inv logdet
    = (x + (total P (plate_const M) + 0.5 * total (P ++ [D]) (fun e => psi (new_a M a (clip (ga_plates a) e)))))%R /\
    alpha_bound lg psi M a Rm inv logdet = (y + total (ga_plates a) alpha_const)%R.
Proof.
  intros SU s Rm inv logdet SO I. rewrite (value_updated s Rm inv logdet SO). eexists _, _. split; [reflexivity|]. split.
  - rewrite X_bound_eq by exact I.
    rewrite (total_ext (P ++ [D]) (fun e => obj_alpha Rm inv logdet e * _)%R (fun e => new_alpha M a Rm inv logdet e * deviation M Rm inv logdet e)%R) by (intros e He; now rewrite obj_new).
    rewrite (total_ext (P ++ [D]) (new_logalpha psi M a Rm inv logdet) (fun e => psi (new_a M a (clip (ga_plates a) e)) + -1 * ln (new_b M a Rm inv logdet (clip (ga_plates a) e)))%R).
    2:{ intros e He. unfold new_logalpha. cbv zeta. ring. }
    rewrite total_add. lra.
  - unfold alpha_bound. rewrite (total_ext (ga_plates a) _ _ (fun s Hs => gamma_term_eq Rm inv logdet s Hs)). rewrite total_add.
    change (fun e => _ + _)%R with alpha_const. f_equal. rewrite ga_pa, same_total. apply total_ext. intros s0 Hs. now rewrite (SU a HG s0 Hs).
Qed.
End Bound.
