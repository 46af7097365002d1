(** Gibbs' inequality for the Gaussian-type distributions, per plate. *)
From Coq Require Import List Arith Lia Bool Reals Lra FunctionalExtensionality.
From Verif Require Import Base NumPy TensorLemmas MarkovLemmas Families SpecFamilies FamiliesLemmas FamiliesLemmas2 PFamilies2
  Linalg MatBridge SpecLinalg LinalgLemmas Gaussian SpecGaussian GaussLemmas GaussAlg PGaussian PGaussian2 PFamilyDist.
Import ListNotations.
Open Scope R_scope.

Lemma logdet_gibbs_inv : forall n A B V, posdef n A -> posdef n B -> is_inverse n A V ->
  innerm n B V - INR n - ln (mdet n B) + ln (mdet n A) >= 0 /\
  (innerm n B V - INR n - ln (mdet n B) + ln (mdet n A) = 0 -> meq n A B).
Proof.
  intros n A B V PA PB HV. destruct (posdef_chol n A PA) as [U EU]. destruct (posdef_chol n B PB) as [W EW].
  pose proof (logdet_gibbs n A B U W (proj1 PA) (proj1 PB) EU EW) as G.
  rewrite (proj2 (chol_logdet_ok n A U (proj1 PA) EU)), (proj2 (chol_logdet_ok n B W (proj1 PB) EW)) in G.
  rewrite (innerm_ext n B B (chol_inv n U) V (fun _ _ _ _ => eq_refl)) in G; [exact G|].
  apply (inverse_unique n A); [|apply HV]. exact (chol_inv_ok n A U (proj1 PA) EU).
Qed.
Lemma innerm_inverse : forall n A V, symmetric n A -> is_inverse n A V -> innerm n A V = INR n.
Proof.
  intros n A V Sy [_ I]. transitivity (rsum n (fun _ => 1)); [|rewrite rsum_const; ring].
  unfold innerm. apply rsum_ext. intros i Hi. transitivity (identity i i); [|unfold identity; now rewrite Nat.eqb_refl].
  rewrite <- (proj1 (conj I I) i i Hi Hi). unfold mmdot.
  assert (SV : symmetric n V). { apply (@inverse_symmetric n A V Sy). split; [|exact I]. now apply meq_mul_comm. }
  apply rsum_ext. intros j Hj. rewrite (SV i j Hi Hj), (Sy i j Hi Hj), <- (SV i j Hi Hj). ring.
Qed.
Lemma inverse_meq : forall n A B V W, meq n A B -> is_inverse n A V -> is_inverse n B W -> meq n V W.
Proof.
  intros n A B V W E HV HW. apply (inverse_unique n A); [exact HV|]. intros i j Hi Hj.
  rewrite (mmdot_ext n A B W W E (fun _ _ _ _ => eq_refl) i j Hi Hj). now apply HW.
Qed.
Lemma quad_zero : forall n B d, posdef n B -> bilinear n B d d <= 0 -> forall i, (i < n)%nat -> d i = 0.
Proof.
  intros n B d [_ P] H i Hi. destruct (Req_dec (d i) 0) as [|N]; [assumption|]. exfalso.
  specialize (P d (ex_intro _ i (conj Hi N))). lra.
Qed.

(** KL of two normal distributions. *)
Lemma gaussian_kl : forall D (phi phi' u u' : vec * mat) g g', symmetric D (snd phi) -> symmetric D (snd phi') ->
  gaussian_moments D phi = Ok (u, g) -> gaussian_moments D phi' = Ok (u', g') ->
  let KL := innerv D (fst phi) (fst u) + innerm D (snd phi) (snd u)
            - (innerv D (fst phi') (fst u) + innerm D (snd phi') (snd u)) + g - g' in
  KL >= 0 /\ (KL = 0 -> veq D (fst u) (fst u') /\ meq D (snd u) (snd u')).
Proof.
  intros D phi phi' u u' g g' Sy Sy' E E' KL.
  destruct (gm_spec D phi u g Sy E) as [P (Hm & HV & Hd & Hg)]. destruct (gm_spec D phi' u' g' Sy' E') as [P' (Hm' & HV' & Hd' & Hg')].
  set (A := scal_m (-2) (snd phi)) in *. set (B := scal_m (-2) (snd phi')) in *.
  set (m := fst u) in *. set (m' := fst u') in *. set (V := sub_m (snd u) (outerv m m)) in *.
  destruct (logdet_gibbs_inv D A B V P P' HV) as [G1 G2].
  assert (E1 : innerm D (snd phi) (snd u) = - (INR D + bilinear D A m m) / 2).
  { transitivity (innerm D (snd phi) (add_m V (outerv m m))).
    - apply innerm_ext; intros i j Hi Hj; [reflexivity|]. unfold V, add_m, sub_m. ring.
    - rewrite innerm_add_r, innerm_outer. rewrite <- (innerm_inverse D A V (proj1 P) HV). unfold A.
      rewrite innerm_scal_l, bilinear_scal. field. }
  assert (E2 : innerm D (snd phi') (snd u) = - (innerm D B V + bilinear D B m m) / 2).
  { transitivity (innerm D (snd phi') (add_m V (outerv m m))).
    - apply innerm_ext; intros i j Hi Hj; [reflexivity|]. unfold V, add_m, sub_m. ring.
    - rewrite innerm_add_r, innerm_outer. unfold B. rewrite innerm_scal_l, bilinear_scal. field. }
  assert (E3 : innerv D (fst phi) m = bilinear D A m m).
  { rewrite innerv_comm, bilinear_mv. apply innerv_ext; [intros ? ?; reflexivity|]. intros i Hi. symmetry. now apply Hm. }
  assert (E4 : innerv D (fst phi') m = bilinear D B m m').
  { rewrite innerv_comm, bilinear_mv. apply innerv_ext; [intros ? ?; reflexivity|]. intros i Hi. symmetry. now apply Hm'. }
  assert (EK : KL = (innerm D B V - INR D - ln (mdet D B) + ln (mdet D A)) / 2
                    + bilinear D B (sub_v m m') (sub_v m m') / 2).
  { unfold KL. rewrite E1, E2, E3, E4, Hg, Hg', (bilinear_sub D B m m') by apply P'. field. }
  assert (Q : 0 <= bilinear D B (sub_v m m') (sub_v m m')).
  { destruct (Classical_Prop.classic (nonzero D (sub_v m m'))) as [N|N]; [left; now apply P'|].
    right. symmetry. unfold bilinear. rewrite (rsum_ext D _ (fun _ => 0)); [apply rsum_0|]. intros i Hi.
    rewrite (rsum_ext D _ (fun _ => 0)); [apply rsum_0|]. intros j Hj.
    destruct (Req_dec (sub_v m m' i) 0) as [->|Z]; [ring|]. exfalso. apply N. now exists i. }
  split; [lra|]. intros Z.
  assert (AB : meq D A B) by (apply G2; lra).
  assert (MM : veq D m m').
  { intros i Hi. assert (sub_v m m' i = 0) by (apply (quad_zero D B); [exact P'|lra|exact Hi]). unfold sub_v in H. lra. }
  split; [exact MM|]. intros i j Hi Hj. pose proof (inverse_meq D A B _ _ AB HV HV' i j Hi Hj) as VV.
  unfold V, sub_m, outerv in VV. rewrite (MM i Hi), (MM j Hj) in VV. lra.
Qed.

Lemma gamma_strict : forall lg psi a b a' b', gamma_convex lg psi -> gamma_strictly_convex lg psi ->
  0 < a -> 0 < b -> 0 < a' -> 0 < b' ->
  lg a' - a' * ln b' = lg a - a * ln b + (- b' - - b) * (a / b) + (a' - a) * (psi a - ln b) -> a = a' /\ b = b'.
Proof.
  intros lg psi a b a' b' HC HS Ha Hb Ha' Hb' Z.
  assert (P1 : 0 < a * b') by now apply Rmult_lt_0_compat.
  assert (P2 : 0 < a' * b) by now apply Rmult_lt_0_compat.
  assert (Pr : 0 < (a * b') / (a' * b)) by now apply Rdiv_lt_0_compat.
  pose proof (ln_le_sub1 _ Pr) as T. pose proof (ln_eq_sub1 _ Pr) as TE. rewrite ln_div, !ln_mult in T, TE by assumption.
  assert (T2 : a' * (ln a + ln b' - (ln a' + ln b)) <= a' * (a * b' / (a' * b) - 1)) by (apply Rmult_le_compat_l; lra).
  assert (TQ : a' * (a * b' / (a' * b) - 1) = b' * (a / b) - a') by (field; lra).
  assert (TB : (- b' - - b) * (a / b) = a - b' * (a / b)) by (field; lra).
  assert (AA : a = a') by (destruct (Req_dec a a') as [|N]; [assumption|]; pose proof (HS a a' Ha Ha' N); lra).
  split; [exact AA|]. subst a'. assert (BB : a * b' / (a * b) = 1) by (apply TE; apply (Rmult_eq_reg_l a); lra).
  replace (a * b' / (a * b)) with (b' / b) in BB by (field; lra).
  apply (Rmult_eq_compat_r b) in BB. unfold Rdiv in BB. rewrite Rmult_assoc, Rinv_l in BB by lra. lra.
Qed.

(** The natural parameters of a Gaussian-gamma distribution. *)
Definition gg_dom (D : nat) (phi : vec * mat * R * R) : Prop :=
  let '(_, phi1, _, phi3) := phi in symmetric D phi1 /\ 0 < phi3.
Definition gg_pair (D : nat) (p u : vec * mat * R * R) : R :=
  let '(p0, p1, p2, p3) := p in let '(u0, u1, u2, u3) := u in
  innerv D p0 u0 + innerm D p1 u1 + p2 * u2 + p3 * u3.

Lemma gg_kl : forall lg psi D (phi phi' u u' : vec * mat * R * R) g g', gamma_convex lg psi ->
  gg_dom D phi -> gg_dom D phi' ->
  gg_moments lg psi D phi = Ok (u, g) -> gg_moments lg psi D phi' = Ok (u', g') ->
  let KL := gg_pair D phi u - gg_pair D phi' u + g - g' in
  KL >= 0 /\
  (gamma_strictly_convex lg psi -> KL = 0 ->
   let '(u0, u1, u2, u3) := u in let '(v0, v1, v2, v3) := u' in
   veq D u0 v0 /\ meq D u1 v1 /\ u2 = v2 /\ u3 = v3).
Proof.
  intros lg psi D [[[p0 p1] p2] a] [[[q0 q1] q2] a'] [[[u0 u1] u2] u3] [[[v0 v1] v2] v3] g g' HC [Sy Ha] [Sy' Ha'] E E' KL.
  destruct (gg_split _ _ _ _ _ _ _ _ _ _ _ _ E) as (m & S & g0 & G & Hb & U0 & U1 & U2 & U3 & Eg).
  destruct (gg_split _ _ _ _ _ _ _ _ _ _ _ _ E') as (m' & S' & g0' & G' & Hb' & W0 & W1 & W2 & W3 & Eg').
  destruct (gm_spec D (p0, p1) (m, S) g0 Sy G) as [P (Hm & HV & Hd & Hg)].
  destruct (gm_spec D (q0, q1) (m', S') g0' Sy' G') as [P' (Hm' & HV' & Hd' & Hg')]. cbn [fst snd] in *.
  set (b := - p2 - 0.5 * innerv D m p0) in *. set (b' := - q2 - 0.5 * innerv D m' q0) in *.
  set (A := scal_m (-2) p1) in *. set (B := scal_m (-2) q1) in *. set (V := sub_m S (outerv m m)) in *.
  destruct (logdet_gibbs_inv D A B V P P' HV) as [G1 G2].
  assert (Ht : 0 < a / b) by now apply Rdiv_lt_0_compat.
  assert (E1 : innerm D p1 u1 = - (INR D + a / b * bilinear D A m m) / 2).
  { rewrite (innerm_ext D p1 p1 u1 _ (fun _ _ _ _ => eq_refl) U1), innerm_add_r, innerm_scal_r, innerm_outer.
    rewrite <- (innerm_inverse D A V (proj1 P) HV). unfold A. rewrite innerm_scal_l, bilinear_scal. field. lra. }
  assert (E2 : innerm D q1 u1 = - (innerm D B V + a / b * bilinear D B m m) / 2).
  { rewrite (innerm_ext D q1 q1 u1 _ (fun _ _ _ _ => eq_refl) U1), innerm_add_r, innerm_scal_r, innerm_outer.
    unfold B. rewrite innerm_scal_l, bilinear_scal. field. lra. }
  assert (SC : forall x, innerv D x u0 = a / b * innerv D x m).
  { intros x. rewrite U0. unfold innerv, scal_v. rewrite <- rsum_scal. apply rsum_ext. intros; ring. }
  assert (E3 : innerv D p0 m = bilinear D A m m).
  { rewrite innerv_comm, bilinear_mv. apply innerv_ext; [intros ? ?; reflexivity|]. intros i Hi. symmetry. now apply Hm. }
  assert (E4 : innerv D q0 m = bilinear D B m m').
  { rewrite innerv_comm, bilinear_mv. apply innerv_ext; [intros ? ?; reflexivity|]. intros i Hi. symmetry. now apply Hm'. }
  assert (E5 : innerv D m' q0 = bilinear D B m' m').
  { rewrite bilinear_mv. apply innerv_ext; [intros ? ?; reflexivity|]. intros i Hi. symmetry. now apply Hm'. }
  assert (Eb : p2 = - b - 0.5 * bilinear D A m m) by (unfold b; rewrite innerv_comm, E3; lra).
  assert (Eb' : q2 = - b' - 0.5 * bilinear D B m' m') by (unfold b'; rewrite E5; lra).
  assert (Eld : g0 + 0.5 * innerv D m p0 = ln (mdet D A) / 2) by (rewrite Hg, innerv_comm, E3; lra).
  assert (Eld' : g0' + 0.5 * innerv D m' q0 = ln (mdet D B) / 2) by (rewrite Hg', E5; lra).
  pose proof (gamma_gibbs lg psi a b a' b' HC Ha Hb Ha' Hb') as GK.
  assert (EK : KL = (innerm D B V - INR D - ln (mdet D B) + ln (mdet D A)) / 2
                    + a / b * bilinear D B (sub_v m m') (sub_v m m') / 2
                    + (lg a' - a' * ln b' - (lg a - a * ln b + (- b' - - b) * (a / b) + (a' - a) * (psi a - ln b)))).
  { unfold KL, gg_pair. rewrite !SC, E1, E2, E3, E4, U2, U3, Eb, Eb', Eg, Eg', Eld, Eld', (bilinear_sub D B m m') by apply P'.
    replace 0.5 with (/ 2) by lra. field. lra. }
  assert (Q : 0 <= bilinear D B (sub_v m m') (sub_v m m')).
  { destruct (Classical_Prop.classic (nonzero D (sub_v m m'))) as [N|N]; [left; now apply P'|].
    right. symmetry. unfold bilinear. rewrite (rsum_ext D _ (fun _ => 0)); [apply rsum_0|]. intros i Hi.
    rewrite (rsum_ext D _ (fun _ => 0)); [apply rsum_0|]. intros j Hj.
    destruct (Req_dec (sub_v m m' i) 0) as [->|Z]; [ring|]. exfalso. apply N. now exists i. }
  assert (Q' : 0 <= a / b * bilinear D B (sub_v m m') (sub_v m m')) by (apply Rmult_le_pos; [lra|exact Q]).
  split; [lra|]. intros HS Z.
  assert (AB : meq D A B) by (apply G2; lra).
  assert (MM : veq D m m').
  { intros i Hi. assert (N : sub_v m m' i = 0).
    { apply (quad_zero D B); [exact P'| |exact Hi]. apply (Rmult_le_reg_l (a / b)); [exact Ht|]. lra. }
    unfold sub_v in N. lra. }
  destruct (gamma_strict lg psi a b a' b' HC HS Ha Hb Ha' Hb') as [AA BB]; [lra|].
  rewrite <- AA, <- BB in *. split; [|split; [|split]].
  - intros i Hi. rewrite U0, W0. unfold scal_v. now rewrite (MM i Hi).
  - intros i j Hi Hj. rewrite (U1 i j Hi Hj), (W1 i j Hi Hj). unfold add_m. f_equal.
    + apply (inverse_meq D A B _ _ AB HV HV' i j Hi Hj).
    + unfold scal_m, outerv. now rewrite (MM i Hi), (MM j Hj).
  - now rewrite U2, W2.
  - now rewrite U3, W3.
Qed.

(** ** Wishart *)
Lemma log_sum_ineq : forall b b' c, 0 < b -> 0 < b' -> 0 <= c ->
  b' * ln (b' / b) >= (b' + c) * ln ((b' + c) / (b + c)).
Proof.
  intros b b' c Hb Hb' Hc.
  assert (H1 : 0 < b * (b' + c) / (b' * (b + c))) by (apply Rdiv_lt_0_compat; apply Rmult_lt_0_compat; lra).
  assert (H2 : 0 < (b' + c) / (b + c)) by (apply Rdiv_lt_0_compat; lra).
  pose proof (ln_le_sub1 _ H1) as L1. pose proof (ln_le_sub1 _ H2) as L2.
  rewrite ln_div, !ln_mult in L1 by (try apply Rmult_lt_0_compat; lra).
  rewrite ln_div in L2 by lra. rewrite !ln_div by lra.
  assert (M1 : b' * (ln b + ln (b' + c) - (ln b' + ln (b + c))) <= b' * (b * (b' + c) / (b' * (b + c)) - 1)) by (apply Rmult_le_compat_l; lra).
  assert (M2 : c * (ln (b' + c) - ln (b + c)) <= c * ((b' + c) / (b + c) - 1)) by (apply Rmult_le_compat_l; lra).
  assert (M3 : b' * (b * (b' + c) / (b' * (b + c)) - 1) + c * ((b' + c) / (b + c) - 1) = 0) by (field; lra). nra.
Qed.

Definition wishart_dom (k : nat) (phi : mat * R) : Prop := symmetric k (fst phi) /\ INR k - 1 < 2 * snd phi.
Lemma wishart_kl : forall lg psi k (phi phi' u u' : mat * R) g g', gamma_convex lg psi ->
  wishart_dom k phi -> wishart_dom k phi' ->
  wishart_moments lg psi k phi = Ok (u, g) -> wishart_moments lg psi k phi' = Ok (u', g') ->
  let KL := innerm k (fst phi) (fst u) + snd phi * snd u - (innerm k (fst phi') (fst u) + snd phi' * snd u) + g - g' in
  KL >= 0 /\ (gamma_strictly_convex lg psi -> KL = 0 -> meq k (fst u) (fst u') /\ snd u = snd u').
Proof.
  intros lg psi k [p a] [q a'] u u' g g' HC [Sy Ha] [Sy' Ha'] E E' KL. unfold wishart_moments in E, E'. cbn [fst snd] in *.
  set (A := scal_m (-1) p) in *. set (B := scal_m (-1) q) in *.
  assert (SA : symmetric k A) by now apply symmetric_scal. assert (SB : symmetric k B) by now apply symmetric_scal.
  destruct (chol_cases k A SA) as [(PA & U & EU & EU')|[_ EU']]; rewrite EU' in E; [|discriminate].
  destruct (chol_cases k B SB) as [(PB & W & EW & EW')|[_ EW']]; rewrite EW' in E'; [|discriminate].
  cbn [bind] in E, E'. injection E as <- <-. injection E' as <- <-. cbn [fst snd] in *.
  pose proof (chol_inv_ok k A U SA EU) as HV. set (V := chol_inv k U) in *.
  destruct (trace_spectrum k A B U W SA SB EU EW) as (s & Ps & Ls & Ts & Qs). fold V in Ts, Qs.
  assert (Haj : forall j, (j < k)%nat -> 0 < a - 0.5 * INR j).
  { intros j Hj. apply le_INR in Hj. rewrite S_INR in Hj. lra. }
  assert (Haj' : forall j, (j < k)%nat -> 0 < a' - 0.5 * INR j).
  { intros j Hj. apply le_INR in Hj. rewrite S_INR in Hj. lra. }
  assert (Hp : (0 < k)%nat -> 0 < a /\ 0 < a').
  { intros Hk. specialize (Haj O Hk). specialize (Haj' O Hk). cbn in Haj, Haj'. lra. }
  assert (E1 : innerm k p (scal_m a V) = - a * INR k).
  { rewrite innerm_scal_r, <- (innerm_inverse k A V SA HV). unfold A. rewrite innerm_scal_l. ring. }
  assert (E2 : innerm k q (scal_m a V) = - a * innerm k B V).
  { rewrite innerm_scal_r. unfold B. rewrite innerm_scal_l. ring. }
  set (t1 := fun j => lg (a' - 0.5 * INR j) - lg (a - 0.5 * INR j) - (a' - a) * psi (a - 0.5 * INR j)).
  set (t2 := fun j => a * s j - a' * ln (s j) - a).
  assert (EK : KL = a * (innerm k B V - rsum k s) + rsum k (fun j => t1 j + t2 j)).
  { unfold KL. rewrite E1, E2. rewrite rsum_plus. unfold t1, t2. rewrite !rsum_minus, !rsum_scal, <- Ls.
    unfold multigammaln, multidigamma. rewrite rsum_const. ring. }
  assert (T1 : forall j, (j < k)%nat -> t1 j >= a' * ln (a' / a) - (a' - a)).
  { intros j Hj. destruct (Hp ltac:(lia)) as [Pa Pa']. specialize (Haj j Hj). specialize (Haj' j Hj).
    pose proof (HC _ _ Haj Haj') as C. set (b := a - 0.5 * INR j) in *. set (b' := a' - 0.5 * INR j) in *.
    assert (Hc : 0 <= 0.5 * INR j) by (pose proof (pos_INR j); lra).
    pose proof (log_sum_ineq b b' (0.5 * INR j) Haj Haj' Hc) as L.
    replace (b' + 0.5 * INR j) with a' in L by (unfold b'; ring). replace (b + 0.5 * INR j) with a in L by (unfold b; ring).
    rewrite (ln_div b' b) in L by assumption. unfold t1. fold b b'. replace (a' - a) with (b' - b) by (unfold b, b'; ring). lra. }
  assert (T2 : forall j, (j < k)%nat -> t2 j >= a' - a - a' * ln (a' / a) /\
             (t2 j = a' - a - a' * ln (a' / a) -> s j = a' / a)).
  { intros j Hj. destruct (Hp ltac:(lia)) as [Pa Pa']. specialize (Ps j Hj). unfold t2.
    assert (Px : 0 < a * s j / a') by (apply Rdiv_lt_0_compat; [now apply Rmult_lt_0_compat|assumption]).
    pose proof (ln_le_sub1 _ Px) as L. pose proof (ln_eq_sub1 _ Px) as LE.
    rewrite ln_div, ln_mult in L, LE by (try apply Rmult_lt_0_compat; assumption). rewrite (ln_div a' a) by assumption.
    assert (M : a' * (ln a + ln (s j) - ln a') <= a' * (a * s j / a' - 1)) by (apply Rmult_le_compat_l; lra).
    replace (a' * (a * s j / a' - 1)) with (a * s j - a') in M by (field; lra).
    split; [lra|]. intros Z. assert (Q : a * s j / a' = 1).
    { apply LE. apply (Rmult_eq_reg_l a'); [|lra]. replace (a' * (a * s j / a' - 1)) with (a * s j - a') by (field; lra). lra. }
    replace (s j) with (a * s j / a' * (a' / a)) by (field; lra). rewrite Q. ring. }
  assert (N0 : forall j, (j < k)%nat -> 0 <= t1 j + t2 j).
  { intros j Hj. pose proof (T1 j Hj). pose proof (proj1 (T2 j Hj)). lra. }
  assert (N1 : 0 <= a * (innerm k B V - rsum k s)).
  { destruct k as [|k]; [unfold innerm; cbn; lra|]. destruct (Hp ltac:(lia)). apply Rmult_le_pos; lra. }
  pose proof (rsum_nonneg k (fun j => t1 j + t2 j) N0) as N2.
  split; [lra|]. intros HS Z. destruct k as [|k0]; [|set (k := S k0) in *].
  { split; [intros i j Hi; lia|]. unfold chol_logdet, multidigamma. cbn. ring. }
  destruct (Hp ltac:(unfold k; lia)) as [Pa Pa'].
  assert (Z1 : innerm k B V = rsum k s) by (apply (Rmult_eq_reg_l a); lra).
  assert (Z2 : forall j, (j < k)%nat -> t1 j + t2 j = 0) by (apply rsum_nonneg_zero; [exact N0|lra]).
  assert (AA : a = a').
  { destruct (Req_dec a a') as [|N]; [assumption|]. exfalso. specialize (Z2 O ltac:(unfold k; lia)).
    pose proof (proj1 (T2 O ltac:(unfold k; lia))) as Q2. pose proof (HS a a' Pa Pa' N) as C. unfold t1 in Z2. cbn in Z2.
    replace (a - 0.5 * 0) with a in Z2 by ring. replace (a' - 0.5 * 0) with a' in Z2 by ring.
    rewrite (ln_div a' a) in Q2 by assumption. lra. }
  assert (Z3 : forall j, (j < k)%nat -> s j = 1).
  { intros j Hj. pose proof (T1 j Hj). destruct (T2 j Hj) as [Q1 Q2]. rewrite Q2.
    - rewrite <- AA. field. lra.
    - specialize (Z2 j Hj). lra. }
  assert (AB : meq k A B).
  { intros i j Hi Hj. rewrite (Qs Z1 1 Z3 i j Hi Hj). unfold scal_m. ring. }
  split.
  - intros i j Hi Hj. unfold scal_m. rewrite <- AA. f_equal.
    apply (inverse_meq k A B _ _ AB HV (chol_inv_ok k B W SB EW) i j Hi Hj).
  - rewrite <- AA. f_equal. f_equal.
    assert (chol_logdet k W - chol_logdet k U = 0); [|lra]. rewrite Ls.
    rewrite (rsum_ext k _ (fun _ => 0)); [apply rsum_0|]. intros j Hj. rewrite (Z3 j Hj). apply ln_1.
Qed.
