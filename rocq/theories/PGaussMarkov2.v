(** C21 (precisions of another shape), C22 and C51 for Gaussian Markov chains. *)
From Coq Require Import List Arith Lia Bool Reals Lra FunctionalExtensionality.
From Verif Require Import Base NumPy Families SpecFamilies FamiliesLemmas TensorLemmas Linalg MatBridge SpecLinalg LinalgLemmas GaussAlg Gaussian SpecGaussian
  GaussLemmas PGaussian PGaussian2 SpecGradient PGaussianGrad
  BlockBanded SpecBlock BlockShift BlockLemmas PBlockBanded GaussMarkov SpecGaussMarkov GaussMarkovLemmas ChainLemmas PGaussMarkov.
Import ListNotations.
Open Scope R_scope.

(** The constructor also accepts a noise precision nu of shape (1,) or (), because it
    checks the joint plates of A and nu only.  With shape (1,) log nu is counted once
    instead of D times for every transition: the log density is wrong by
    (N-1) (D-1) log(nu) / 2.  With shape () computing it raises an IndexError. *)
Theorem C21_gmc_nu_shape_refuted : forall N D K mu Lambda A B v z x, (2 <= N)%nat -> (2 <= D)%nat -> posdef D Lambda ->
  0 < v -> v <> 1 ->
  exists u_Lambda g,
    wishartmoments_fixed D Lambda = Ok u_Lambda /\
    let u_mL := wrap_gw_moments D (to_gg_moments (gaussianmoments_fixed mu)) u_Lambda in
    let u_A := A_nu_moments (fun n d => gaussianmoments_fixed (dyn_row D A B n d)) (T1 1 (fun _ => v)) (T1 1 (fun _ => ln v)) in
    let u_in := (z, fun n => outerv (z n) (z n)) in
    gmc_cgf N D K u_mL u_A (Some (u_in, [(N - 1)%nat])) = Ok g /\
    (let '(u, f) := gmc_fixed N D x in
     let logpdf := chain_dot N D (gmc_phi N D K u_mL u_A (Some u_in)) u + g + f in
     logpdf <> ln (chain_pdf N D K mu Lambda A B (fun _ _ => v) z x) /\
     logpdf = ln (chain_pdf N D K mu Lambda A B (fun _ _ => v) z x) - INR (N - 1) * INR (D - 1) * ln v / 2) /\
    gmc_cgf N D K u_mL (A_nu_moments (fun n d => gaussianmoments_fixed (dyn_row D A B n d)) (T0 v) (T0 (ln v)))
      (Some (u_in, [(N - 1)%nat])) = Err IndexError.
Proof.
  intros N D K mu L A B v z x HN HD P Hv Hv1.
  destruct (C21_gaussian_markov_chain N D K mu L A B (T1 D (fun _ => v)) z x ltac:(lia) P eq_refl (fun _ _ _ _ => Hv)) as (uL & g & E & Eg & H).
  destruct uL as [uL0 uL1]. cbn [gmc_fixed] in H |- *.
  set (u_mL := wrap_gw_moments D (to_gg_moments (gaussianmoments_fixed mu)) (uL0, uL1)) in *.
  set (zz := fun n => outerv (z n) (z n)) in *.
  set (a := fun n d => gaussianmoments_fixed (dyn_row D A B n d)) in *.
  exists (uL0, uL1), (g - INR (N - 1) * INR (D - 1) * ln v / 2). split; [exact E|].
  assert (G : gmc_cgf N D K u_mL (A_nu_moments a (T1 1 (fun _ => v)) (T1 1 (fun _ => ln v))) (Some ((z, zz), [(N - 1)%nat])) = Ok (g - INR (N - 1) * INR (D - 1) * ln v / 2)).
  { unfold gmc_cgf in Eg |- *. cbn [A_nu_moments tarray_map gmc_cgf_core bind u_mL wrap_gw_moments to_gg_moments gaussianmoments_fixed fst snd] in Eg |- *.
    rewrite rsum_const in Eg. cbn [rsum] in *. rewrite INR_pred in * by lia.
    assert (HDr : INR (D - 1) = INR D - 1) by (rewrite <- INR_pred by lia; reflexivity).
    injection Eg as <-. f_equal. rewrite HDr.
    match goal with |- _ + ?s1 = _ + ?s2 - _ => change s1 with s2; generalize s2; intros s end. lra. }
  split; [exact G|]. split; [|reflexivity].
  assert (X2 : chain_pdf N D K mu L A B (tarray_at (T1 D (fun _ => v))) z x = chain_pdf N D K mu L A B (fun _ _ => v) z x) by reflexivity.
  rewrite X2 in H.
  match goal with |- ?q + _ + _ <> _ /\ _ => change q with (chain_dot N D (gmc_phi N D K u_mL (A_nu_moments a (T1 D (fun _ => v)) (tarray_map ln (T1 D (fun _ => v)))) (Some (z, zz))) (gmcmoments_fixed x)) end.
  assert (Nz : INR (N - 1) * INR (D - 1) * ln v / 2 <> 0).
  { assert (1 <= INR (N - 1)) by (change 1 with (INR 1); apply le_INR; lia). assert (1 <= INR (D - 1)) by (change 1 with (INR 1); apply le_INR; lia).
    assert (ln v <> 0) by (intro Q; apply Hv1; rewrite <- ln_1 in Q; apply ln_inv in Q; lra).
    intro Q. apply Rmult_integral in Q. destruct Q as [Q|Q]; [|lra]. apply Rmult_integral in Q. destruct Q as [Q|Q]; [|contradiction].
    apply Rmult_integral in Q. destruct Q; lra. }
  split; [intro Q; lra|lra].
Qed.
Print Assumptions C21_gmc_nu_shape_refuted.

(** ** C22 *)
Lemma flat_line : forall D p d t, flat_phi D (chain_line p d t) = gline (flat_phi D p) (flat_phi D d) t.
Proof.
  intros D [[p0 p1] p2] [[d0 d1] d2] t. unfold flat_phi, chain_line, gline, vline, mline. cbn [fst snd]. f_equal.
  apply functional_extensionality. intros p. apply functional_extensionality. intros q.
  unfold tridiagonal, block_of. destruct (_ =? _)%nat; [reflexivity|]. destruct (_ =? _)%nat; [ring|]. destruct (_ =? _)%nat; ring.
Qed.
Lemma line_sym : forall N D p d t, sub_phi p N D -> sub_phi d N D -> sub_phi (chain_line p d t) N D.
Proof.
  intros N D [[p0 p1] p2] [[d0 d1] d2] t Hp Hd n Hn i j Hi Hj. cbn. rewrite (Hp n Hn i j Hi Hj), (Hd n Hn i j Hi Hj). reflexivity.
Qed.
Lemma posdef_flat : forall N D p, posdef (N * D) (chain_precision D p) <-> posdef (N * D) (scal_m (-2) (snd (flat_phi D p))).
Proof. intros N D p. split; apply posdef_ext; intros i j _ _; [symmetry|]; apply flat_prec. Qed.
Lemma gmc_cgf_flat : forall junk N D p, (1 <= N)%nat -> (1 <= D)%nat -> sub_phi p N D ->
  cgf_of (gmc_moments junk N D p) = cgf_of (gaussian_moments (N * D) (flat_phi D p)).
Proof.
  intros junk N D p HN HD Sy. destruct (gmc_flat junk N D p HN HD Sy) as [H1 H2].
  destruct (C44_gaussian_moments (N * D) (flat_phi D p) (flat_sym N D p HD Sy)) as [K1 K2].
  destruct (Classical_Prop.classic (posdef (N * D) (chain_precision D p))) as [P|P].
  - destruct (H2 P) as (u0 & u1 & u2 & g & w & E1 & E2 & _). now rewrite E1, E2.
  - rewrite (H1 P), K1; [reflexivity|]. now rewrite <- posdef_flat.
Qed.

(** In every symmetric direction d. *)
Theorem C22_gaussian_markov_chain : forall junk N D phi d, (1 <= N)%nat -> (1 <= D)%nat ->
  (let '(_, phi1, _) := phi in forall n, (n < N)%nat -> symmetric D (phi1 n)) ->
  (let '(_, d1, _) := d in forall n, (n < N)%nat -> symmetric D (d1 n)) ->
  posdef (N * D) (chain_precision D phi) ->
  exists u g, gmc_moments junk N D phi = Ok (u, g) /\
    derivable_pt_lim (fun t => - cgf_of (gmc_moments junk N D (chain_line phi d t))) 0 (chain_dot N D d u).
Proof.
  intros junk N D phi d HN HD Sp Sd P. destruct (gmc_flat junk N D phi HN HD Sp) as [_ H]. destruct (H P) as (u0 & u1 & u2 & g & w & E1 & E2 & Sw & U0 & U1 & U2).
  exists (u0, u1, u2), g. split; [exact E1|].
  destruct (C22_gaussian (N * D) (flat_phi D phi) (flat_phi D d) (flat_sym N D phi HD Sp) (flat_sym N D d HD Sd) (proj1 (posdef_flat N D phi) P)) as (u & g' & E & Hd).
  rewrite E2 in E. injection E as <- <-.
  replace (chain_dot N D d (u0, u1, u2)) with (innerv (N * D) (fst (flat_phi D d)) (fst w) + innerm (N * D) (snd (flat_phi D d)) (snd w)) by (symmetry; exact (flat_dot N D d u0 u1 u2 (fst w) (snd w) HN HD Sw U0 U1 U2)).
  apply (dlim_ext (fun t => - cgf_of (gaussian_moments (N * D) (gline (flat_phi D phi) (flat_phi D d) t)))); [|exact Hd].
  intros t. rewrite (gmc_cgf_flat junk N D _ HN HD (line_sym N D phi d t Sp Sd)), flat_line. reflexivity.
Qed.
Print Assumptions C22_gaussian_markov_chain.

(** ** C51: the moments are those of the joint normal distribution of all the states
    with the given natural parameters, and g is its log-normaliser; otherwise the
    computation fails. *)
Theorem C51_chain_moments : forall junk N D phi, (1 <= N)%nat -> (1 <= D)%nat ->
  (let '(_, phi1, _) := phi in forall n, (n < N)%nat -> symmetric D (phi1 n)) ->
  let Prec := chain_precision D phi in
  (~ posdef (N * D) Prec -> gmc_moments junk N D phi = Err PyException) /\
  (posdef (N * D) Prec -> exists u g m W,
     gmc_moments junk N D phi = Ok (u, g) /\
     is_inverse (N * D) Prec W /\
     (forall p, (p < N * D)%nat -> mvdot (N * D) Prec m p = flat D (fst (fst phi)) p) /\
     chain_moments N D m W u /\
     forall x, let '(ux, f) := gmc_fixed N D x in
       chain_dot N D phi ux + g + f = ln (normal_pdf (N * D) m Prec (flat D x))).
Proof.
  intros junk N D phi HN HD Sy Prec. destruct (gmc_flat junk N D phi HN HD Sy) as [H1 H2]. split; [exact H1|].
  intros P. destruct (H2 P) as (u0 & u1 & u2 & g & w & E1 & E2 & Sw & U0 & U1 & U2). exists (u0, u1, u2), g.
  destruct (C44_gaussian_moments (N * D) (flat_phi D phi) (flat_sym N D phi HD Sy)) as [_ K]. destruct (K (proj1 (posdef_flat N D phi) P)) as (u & g' & E & NM & HP).
  rewrite E2 in E. injection E as <- <-. destruct NM as (Hm & HV & Hd & Hg).
  assert (ML : meq (N * D) (scal_m (-2) (snd (flat_phi D phi))) Prec) by (intros i j _ _; apply flat_prec).
  exists (fst w), (sub_m (snd w) (outerv (fst w) (fst w))). split; [exact E1|]. split; [now apply (inverse_ext _ _ _ _ ML)|]. split; [|split].
  - intros p Hp. rewrite <- (mvdot_ext (N * D) _ _ (fst w) (fst w) ML) by (try exact Hp; intros ? ?; reflexivity). rewrite (Hm p Hp). now destruct phi as [[p0 p1] p2].
  - split; [exact U0|]. split.
    + intros n Hn i j Hi Hj. rewrite (U1 n Hn i j Hi Hj). unfold block, sub_m, outerv. ring.
    + intros n Hn i j Hi Hj. rewrite (U2 n ltac:(lia) i j Hi Hj). unfold block, sub_m, outerv. replace (n + 1)%nat with (S n) by lia. ring.
  - intros x. unfold gmc_fixed, gmcmoments_fixed. specialize (HP (flat D x)). cbn [gaussian_fixed fst snd] in HP.
    match goal with |- ?q + _ + _ = _ => assert (FD : q = innerv (N * D) (fst (flat_phi D phi)) (flat D x) + innerm (N * D) (snd (flat_phi D phi)) (outerv (flat D x) (flat D x))) end.
    { apply (flat_dot N D phi x _ _ (flat D x) (outerv (flat D x) (flat D x)) HN HD).
      + intros i j _ _. unfold outerv. ring.
      + intros n i Hn Hi. unfold flat. now rewrite index_div, index_mod.
      + intros n Hn i j Hi Hj. unfold block, outerv, flat. now rewrite !index_div, !index_mod.
      + intros n Hn i j Hi Hj. unfold block, outerv, flat. rewrite !index_div, !index_mod by assumption. now replace (n + 1)%nat with (S n) by lia. }
    rewrite FD. transitivity (ln (normal_pdf (N * D) (fst w) (scal_m (-2) (snd (flat_phi D phi))) (flat D x))).
    + etransitivity; [|exact HP]. rewrite mult_INR. lra.
    + f_equal. unfold normal_pdf. rewrite (mdet_ext ML). f_equal. f_equal. f_equal. f_equal.
      apply (bilinear_ext (N * D) _ _ _ _ _ _ ML); intros ? ?; reflexivity.
Qed.
Print Assumptions C51_chain_moments.

(** Rotating every state by R gives what the moments would be with the rotated natural
    parameters: the mean R x and the second moments R xx R^T, and g + dg. *)
Lemma block_tri : forall D A B n m i j, (i < D)%nat -> (j < D)%nat -> block D (tridiagonal D A B) n m i j = block_of A B n m i j.
Proof. intros. unfold block, tridiagonal. now rewrite !index_div, !index_mod. Qed.
Lemma dot3_tr_half : forall D A inv, meq D (dot3 D (transpose inv) (fun i j => / 2 * A j i) inv) (fun i j => / 2 * dot3 D (transpose inv) A inv j i).
Proof.
  intros D A inv i j Hi Hj. unfold dot3, mmdot, transpose. rewrite <- rsum_scal.
  transitivity (rsum D (fun k => rsum D (fun l => inv l i * (/ 2 * A k l) * inv k j))); [apply rsum_ext; intros; now rewrite rsum_scal_r|].
  rewrite rsum_swap. apply rsum_ext. intros l Hl. rewrite <- rsum_scal_r, <- rsum_scal. apply rsum_ext. intros; ring.
Qed.
Lemma dot3_half : forall D A inv, meq D (dot3 D (transpose inv) (fun i j => / 2 * A i j) inv) (fun i j => / 2 * dot3 D (transpose inv) A inv i j).
Proof.
  intros D A inv i j Hi Hj. unfold dot3, mmdot, transpose. rewrite <- rsum_scal. apply rsum_ext. intros k Hk.
  rewrite <- Rmult_assoc. f_equal. rewrite <- rsum_scal. apply rsum_ext. intros; ring.
Qed.
Lemma dot3_zero : forall D A B i j, dot3 D A (fun _ _ => 0) B i j = 0.
Proof. intros. unfold dot3, mmdot. apply rsum_zero. intros k Hk. rewrite rsum_zero; [ring|]. intros; ring. Qed.

Definition rotated (D : nat) (inv : mat) (phi : chain) : chain :=
  let '(p0, p1, p2) := phi in
  ((fun n => mvdot D (transpose inv) (p0 n)), (fun n => dot3 D (transpose inv) (p1 n) inv), (fun n => dot3 D (transpose inv) (p2 n) inv)).
Lemma flat_rotate : forall N D inv phi, (1 <= D)%nat ->
  (forall p, (p < N * D)%nat -> mvdot (N * D) (transpose (bdiag D inv)) (fst (flat_phi D phi)) p = fst (flat_phi D (rotated D inv phi)) p) /\
  meq (N * D) (dot3 (N * D) (transpose (bdiag D inv)) (snd (flat_phi D phi)) (bdiag D inv)) (snd (flat_phi D (rotated D inv phi))).
Proof.
  intros N D inv [[p0 p1] p2] HD. cbn [flat_phi rotated fst snd]. rewrite <- bdiag_transpose. split.
  - intros p Hp. destruct (split_index N D p HD Hp) as (Ep & Lp & Mp). rewrite Ep at 1. rewrite bdiag_mv by assumption.
    unfold flat. apply mvdot_ext; [intros ? ? ? ?; reflexivity| |exact Mp]. intros j Hj. now rewrite index_div, index_mod.
  - intros p q Hp Hq. destruct (split_index N D p HD Hp) as (Ep & Lp & Mp). destruct (split_index N D q HD Hq) as (Eq & Lq & Mq).
    rewrite Ep, Eq. set (n := (p / D)%nat) in *. set (i := (p mod D)%nat) in *. set (m := (q / D)%nat) in *. set (j := (q mod D)%nat) in *.
    match goal with |- dot3 _ _ ?M _ _ _ = ?T _ _ => change (block D (dot3 (N * D) (bdiag D (transpose inv)) M (bdiag D inv)) n m i j = block D T n m i j) end.
    rewrite (bdiag_dot3 N D _ _ _ n m HD Lp Lq i j Mp Mq), block_tri by assumption.
    rewrite (dot3_ext D _ _ (block_of p1 (fun n i j => / 2 * p2 n i j) n m) _ (fun a b Ha Hb => block_tri D _ _ n m a b Ha Hb) i j Mp Mq).
    unfold block_of. destruct (m =? n)%nat; [reflexivity|]. destruct (m =? S n)%nat; [now apply dot3_half|].
    destruct (n =? S m)%nat; [now apply dot3_tr_half|]. apply dot3_zero.
Qed.

Theorem C51_chain_rotate : forall junk N D Rm inv phi u g, (1 <= N)%nat -> (1 <= D)%nat ->
  (let '(_, phi1, _) := phi in forall n, (n < N)%nat -> symmetric D (phi1 n)) ->
  is_inverse D Rm inv ->
  gmc_moments junk N D phi = Ok (u, g) ->
  let '(u', phi', dg) := gmc_rotate N D u phi Rm inv (ln (Rabs (mdet D Rm))) in
  exists u'', gmc_moments junk N D phi' = Ok (u'', g + dg) /\ chain_eq N D u'' u' /\
    forall n i, fst (fst u') n i = mvdot D Rm (fst (fst u) n) i.
Proof.
  intros junk N D Rm inv phi [[u0 u1] u2] g HN HD Sy I E. destruct phi as [[p0 p1] p2] eqn:Ephi. cbn [gmc_rotate]. rewrite <- Ephi in *.
  assert (Sy' : sub_phi phi N D) by (rewrite Ephi; exact Sy). clear Sy.
  change ((fun n => mvdot D (transpose inv) (p0 n)), (fun n => dot3 D (transpose inv) (p1 n) inv), (fun n => dot3 D (transpose inv) (p2 n) inv)) with (rotated D inv (p0, p1, p2)).
  rewrite <- Ephi. clear Ephi p0 p1 p2.
  destruct (gmc_flat junk N D phi HN HD Sy') as [H1 H2].
  assert (P : posdef (N * D) (chain_precision D phi)).
  { destruct (Classical_Prop.classic (posdef (N * D) (chain_precision D phi))) as [P|P]; [exact P|]. rewrite (H1 P) in E. discriminate. }
  destruct (H2 P) as (v0 & v1 & v2 & g' & w & E1 & E2 & Sw & U0 & U1 & U2). rewrite E in E1. injection E1 as <- <- <- <-.
  assert (F := rotate_ok (N * D) (bdiag D Rm) (bdiag D inv) (flat_phi D phi) w g (snd w) (flat_sym N D phi HD Sy') (bdiag_inverse N D Rm inv HD I)).
  rewrite <- surjective_pairing in F. specialize (F E2 (fun _ _ _ _ => eq_refl)). unfold gaussian_rotate in F. cbn [fst snd] in F.
  destruct (flat_rotate N D inv phi HD) as [F0 F1].
  assert (SyR : sub_phi (rotated D inv phi) N D).
  { destruct phi as [[p0 p1] p2]. intros n Hn. apply congr_symmetric. now apply Sy'. }
  apply (gm_ext (N * D) _ (flat_phi D (rotated D inv phi))) in F; [|apply (@congr_symmetric (N * D) (snd (flat_phi D phi)) (bdiag D inv)), flat_sym; assumption|exact F0|exact F1].
  destruct F as (w' & E' & W0 & W1). cbn [fst snd] in W0, W1.
  destruct (gm_spec (N * D) _ _ _ (flat_sym N D _ HD SyR) E') as [P' _]. apply posdef_flat in P'.
  destruct (gmc_flat junk N D (rotated D inv phi) HN HD SyR) as [_ H2']. destruct (H2' P') as (y0 & y1 & y2 & h & w'' & D1 & D2 & _ & Y0 & Y1 & Y2).
  rewrite E' in D2. injection D2 as <- <-.
  assert (LD : ln (Rabs (mdet (N * D) (bdiag D Rm))) = INR N * ln (Rabs (mdet D Rm))).
  { rewrite bdiag_det by exact HD. rewrite <- RPow_abs. rewrite ln_pow; [reflexivity|]. apply Rabs_pos_lt. pose proof (inverse_det I) as Q. intros Z. rewrite Z in Q. lra. }
  exists (y0, y1, y2). split; [rewrite D1, LD; match goal with |- Ok (?a, ?x) = Ok (?b, ?y) => replace y with x by ring end; reflexivity|]. split; [|reflexivity]. split; [|split].
  - intros n i Hn Hi. rewrite Y0 by assumption. rewrite W0 by now apply index_lt. rewrite bdiag_mv by assumption.
    apply mvdot_ext; [intros ? ? ? ?; reflexivity| |exact Hi]. intros j Hj. now rewrite U0.
  - intros n Hn i j Hi Hj. rewrite (Y1 n Hn i j Hi Hj). unfold block. rewrite W1 by now apply index_lt. rewrite <- bdiag_transpose.
    etransitivity; [exact (bdiag_dot3 N D Rm (snd w) (transpose Rm) n n HD Hn Hn i j Hi Hj)|].
    apply dot3_ext; [|exact Hi|exact Hj]. intros a b Ha Hb. symmetry. now apply U1.
  - intros n Hn i j Hi Hj. rewrite (Y2 n ltac:(lia) i j Hi Hj). unfold block. rewrite W1 by (apply index_lt; lia). rewrite <- bdiag_transpose.
    etransitivity; [exact (bdiag_dot3 N D Rm (snd w) (transpose Rm) n (n + 1) HD ltac:(lia) ltac:(lia) i j Hi Hj)|].
    apply dot3_ext; [|exact Hi|exact Hj]. intros a b Ha Hb. symmetry. apply U2; assumption || lia.
Qed.
Print Assumptions C51_chain_rotate.

(** Examples: a random walk of three states in two dimensions with an input, and the
    natural parameters of a chain. *)
Definition ex_walk : A_moments := A_nu_moments (fun n d => gaussianmoments_fixed (dyn_row 2 (fun _ => identity) (fun _ _ _ => 1) n d)) (T1 2 (fun d => INR (S d))) (tarray_map ln (T1 2 (fun d => INR (S d)))).
Example ex_C21_chain : posdef 2 ex_A /\ tarray_full 3 2 (T1 2 (fun d => INR (S d))) /\
  (forall n d, (n < 3 - 1)%nat -> (d < 2)%nat -> 0 < tarray_at (T1 2 (fun d => INR (S d))) n d).
Proof. split; [exact ex_posdef|]. split; [reflexivity|]. intros n d _ _. cbn [tarray_at Nat.eqb]. apply lt_0_INR. lia. Qed.
Example ex_C20_chain : let '(_, nuAA, _, lnu) := ex_walk in tarray_full 3 2 lnu /\
  in_shape 3 2 1 nuAA (Some (((fun n _ => INR n), (fun n _ _ => INR n ^ 2)), [2%nat])) /\
  (forall n d, (n < 2)%nat -> (d < 2)%nat -> symmetric 3 (nuAA n d)).
Proof. cbn. split; [reflexivity|]. split; [now left|]. intros n d _ _ i j _ _. unfold scal_m, outerv. ring. Qed.
Definition ex_chain : chain := ((fun n _ => INR n), (fun _ _ _ => -1), (fun _ _ _ => 1)).
Example ex_C51_chain : (forall n, (n < 3)%nat -> symmetric 1 (snd (fst ex_chain) n)) /\ posdef (3 * 1) (chain_precision 1 ex_chain).
Proof.
  split; [intros n _ i j _ _; reflexivity|]. apply (posdef_ext _ (tridiagonal 1 (fun _ _ _ => 2) (fun _ _ _ => -1))); [|exact ex_C43_posdef].
  intros i j _ _. cbn [chain_precision ex_chain]. unfold tridiagonal, block_of.
  destruct (_ =? _)%nat; [lra|]. destruct (_ =? _)%nat; [lra|]. destruct (_ =? _)%nat; lra.
Qed.
