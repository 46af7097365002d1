(** Lemmas for C25: Gaussian Markov chains in networks. *)
From Coq Require Import List Arith ZArith Lia Bool Reals Lra FunctionalExtensionality.
From Verif Require Import Base Shapes SpecShapes ShapesLemmas NumPy MiscArray TensorLemmas
  EinsumLemmas SumMultiplyLemmas SpecArray PlateSumLemmas PlateSum2Lemmas MessageLemmas
  ShapeOpsLemmas DiagLemmas ExpFam SpecExpFam ExpFamLemmas ExpFamBound ExpFamGrad PExpFam SpecUpdate
  UpdateLemmas PUpdate Families SpecFamilies FamiliesLemmas FamiliesLemmas2 PFamilies2 FamilyDist SpecFamilyDist PFamilyDist Network SpecNetwork NetworkLemmas NetworkLemmas2
  PNetwork FamilyNet SpecFamilyNet PFamilyNet Dot SpecDot DetNet SpecDetNet DetNetLemmas DetNetLemmas2
  Linalg MatBridge SpecLinalg LinalgLemmas Gaussian SpecGaussian GaussLemmas GaussAlg PGaussian PGaussian2 GaussGibbs GaussianDist PGaussianDist
  BlockBanded SpecBlock BlockLemmas PBlockBanded GaussMarkov SpecGaussMarkov GaussMarkovLemmas PGaussMarkov PGaussMarkov2 GaussMarkovDist PGaussMarkovDist
  GaussNet MixtureNet SpecGaussNet PlateDet GaussTypes GaussNodes GaussNodes2 GaussNodes3 GaussNodes4 MixtureFam PathNet.
From Verif Require MarkovLemmas.
Import ListNotations.
Open Scope R_scope.

Lemma total_4d : forall a b c d F, total [a; b; c; d] F =
  rsum a (fun n => rsum b (fun m => rsum c (fun i => rsum d (fun j => F (upd (upd (upd (upd env0 3 n) 2 m) 1 i) 0 j))))).
Proof.
  intros a b c d F. change [a; b; c; d] with ([a; b] ++ [c; d]). rewrite total_app, total_2d. apply rsum_ext. intros n _. apply rsum_ext. intros m _.
  rewrite total_2d. apply rsum_ext. intros i _. apply rsum_ext. intros j _. f_equal. apply functional_extensionality. intros [|[|[|[|k]]]]; reflexivity.
Qed.
Lemma exclude_get : forall {A} k i (l : list (list A)), i <> k -> nth i (exclude k l) [] = nth i l [].
Proof.
  intros A k i l H. unfold exclude. destruct (Nat.lt_ge_cases i (length l)) as [Hi|Hi].
  - destruct (nth_error l i) as [x|] eqn:E; [|apply nth_error_None in E; lia]. rewrite (nth_error_nth _ _ _ E).
    apply nth_error_nth. rewrite (map_nth_error (fun ju => if (fst ju =? k)%nat then [] else snd ju) i (combine (seq 0 (length l)) l) (d := (i, x))).
    + cbn. now rewrite (proj2 (Nat.eqb_neq _ _) H).
    + clear - E. enough (G : forall s i x, nth_error l i = Some x -> nth_error (combine (seq s (length l)) l) i = Some ((s + i)%nat, x)) by exact (G 0%nat i x E). clear i x E.
      induction l as [|y l IH]; intros s [|i] x E; try discriminate; cbn in *; [injection E as ->; f_equal; f_equal; lia|]. rewrite (IH (S s) i x E). f_equal. f_equal. lia.
  - rewrite !nth_overflow; [reflexivity|exact Hi|]. rewrite map_length, combine_length, seq_length. lia.
Qed.
Lemma exclude_same : forall {A} k i (l l' : list (list A)), exclude k l = exclude k l' -> i <> k -> nth i l [] = nth i l' [].
Proof. intros A k i l l' E H. rewrite <- (exclude_get k i l H), E. now apply exclude_get. Qed.
Lemma part_coef : forall u k v, part u k v = coef u k v.
Proof. reflexivity. Qed.

(** ** Moments of the parents *)
Lemma avg_sym : forall L (l : list (R * (R * (env -> R)))) m,
  (forall i j, (i < L)%nat -> (j < L)%nat -> m i j = avg l (fun o => fst o * (as_vec (snd o) i * as_vec (snd o) j))) -> symmetric L m.
Proof. intros L l m H i j Hi Hj. rewrite !H by assumption. apply avg_ext. intros; ring. Qed.

(** Two independent draws. *)
Definition indep {A B} (la : list (R * A)) (lb : list (R * B)) : list (R * (A * B)) :=
  flat_map (fun a => map (fun b => (fst a * fst b, (snd a, snd b))) lb) la.
Lemma avg_indep {A B} : forall (la : list (R * A)) (lb : list (R * B)) G, avg (indep la lb) G = avg la (fun a => avg lb (fun b => G (a, b))).
Proof.
  intros la lb G. unfold avg, indep. induction la as [|a la IH]; [reflexivity|]. cbn [flat_map map]. rewrite map_app, lsum_app, IH.
  match goal with |- _ = lsum (?x :: ?l) => change (lsum (x :: l)) with (x + lsum l) end.
  apply Rplus_eq_compat_r. rewrite map_map. cbn [fst snd]. clear. unfold lsum. induction lb as [|b lb IHb]; cbn [map fold_right]; [ring|]. rewrite IHb. ring.
Qed.
Lemma probs_indep {A B} : forall (la : list (R * A)) (lb : list (R * B)), probs la -> probs lb -> probs (indep la lb).
Proof.
  intros la lb Pa Pb. split.
  - apply Forall_forall. intros o Ho. unfold indep in Ho. apply in_flat_map in Ho as (a & Ha & Ho). apply in_map_iff in Ho as (b & <- & Hb). cbn [fst].
    destruct Pa as [Pa _], Pb as [Pb _]. rewrite Forall_forall in Pa, Pb. apply Rmult_le_pos; auto.
  - transitivity (avg (indep la lb) (fun _ => 1)); [unfold avg; f_equal; apply map_ext; intros; ring|]. rewrite avg_indep.
    rewrite (avg_ext la _ (fun _ => 1)) by (intros; now apply avg_const). now apply avg_const.
Qed.
Lemma avg_mul {A B} : forall (la : list (R * A)) (lb : list (R * B)) f g, avg (indep la lb) (fun o => f (fst o) * g (snd o)) = avg la f * avg lb g.
Proof.
  intros la lb f g. rewrite avg_indep. cbn [fst snd]. rewrite (avg_ext la _ (fun a => avg lb g * f a)) by (intros; rewrite avg_cmul; ring). rewrite avg_cmul. ring.
Qed.
Lemma avg_fst {A B} : forall (la : list (R * A)) (lb : list (R * B)) f, probs lb -> avg (indep la lb) (fun o => f (fst o)) = avg la f.
Proof. intros la lb f P. rewrite avg_indep. apply avg_ext. intros. cbn [fst]. now apply avg_const. Qed.
Lemma avg_snd {A B} : forall (la : list (R * A)) (lb : list (R * B)) f, probs la -> avg (indep la lb) (fun o => f (snd o)) = avg lb f.
Proof. intros la lb f P. rewrite avg_indep. cbn [snd]. now apply avg_const. Qed.
Lemma innerv_avg {A} : forall n (l : list (R * A)) m (w : A -> vec) f, (forall i, (i < n)%nat -> m i = avg l (fun o => w o i)) ->
  innerv n m f = avg l (fun o => innerv n (w o) f).
Proof.
  intros n l m w f H. unfold innerv. rewrite <- avg_rsum. apply rsum_ext. intros i Hi. rewrite H by exact Hi.
  rewrite Rmult_comm, <- avg_cmul. apply avg_ext. intros; ring.
Qed.
Lemma bilinear_outer : forall n w f, bilinear n (outerv w w) f f = innerv n w f * innerv n w f.
Proof.
  intros n w f. unfold bilinear, outerv, innerv. rewrite rsum_mult. apply rsum_ext. intros i _. apply rsum_ext. intros; ring.
Qed.
Lemma cat_ge : forall D a b i, (D <= i)%nat -> cat_v D a b i = b (i - D)%nat.
Proof. intros. unfold cat_v. now rewrite (proj2 (Nat.ltb_ge i D) H). Qed.
(** A mean of squares. *)
Lemma square_msg {A} : forall n (l : list (R * A)) (w : A -> vec) (y : A -> R) m0 m1 m2, probs l ->
  (forall i, (i < n)%nat -> m0 i = avg l (fun o => w o i * y o)) ->
  (forall i j, (i < n)%nat -> (j < n)%nat -> m1 i j = -0.5 * avg l (fun o => w o i * w o j)) ->
  m2 = -0.5 * avg l (fun o => y o * y o) -> symmetric n m1 /\ forall f, innerv n m0 f + bilinear n m1 f f + m2 <= 0.
Proof.
  intros n l w y m0 m1 m2 P E0 E1 E2. split.
  - intros i j Hi Hj. rewrite !E1 by assumption. f_equal. apply avg_ext. intros; ring.
  - intros f. rewrite (innerv_avg n l m0 (fun o i => w o i * y o) f E0).
    rewrite (bilinear_avg n l m1 (fun o i j => -0.5 * (w o i * w o j)) f f) by (intros; now rewrite E1, avg_cmul).
    rewrite E2.
    assert (G : 0 <= avg l (fun o => (innerv n (w o) f - y o) * (innerv n (w o) f - y o))).
    { apply Rle_trans with (avg l (fun _ => 0)); [rewrite avg_const by exact P; lra|]. apply avg_le; [exact P|]. intros o Ho.
      set (t := innerv n (w (snd o)) f - y (snd o)). pose proof (Rle_0_sqr t). unfold Rsqr in *. lra. }
    assert (X1 : avg l (fun o => innerv n (fun i => w o i * y o) f) = avg l (fun o => innerv n (w o) f * y o)).
    { apply avg_ext. intros o _. unfold innerv. rewrite <- rsum_scal_r. apply rsum_ext. intros; ring. }
    assert (X2 : avg l (fun o => bilinear n (fun i j => -0.5 * (w o i * w o j)) f f) = -0.5 * avg l (fun o => innerv n (w o) f * innerv n (w o) f)).
    { rewrite <- avg_cmul. apply avg_ext. intros o _. rewrite <- bilinear_outer. unfold bilinear, outerv. rewrite <- rsum_scal. apply rsum_ext. intros i _.
      rewrite <- rsum_scal. apply rsum_ext. intros; ring. }
    rewrite X1, X2.
    assert (X3 : avg l (fun o => (innerv n (w o) f - y o) * (innerv n (w o) f - y o)) =
      avg l (fun o => innerv n (w o) f * innerv n (w o) f) - 2 * avg l (fun o => innerv n (w o) f * y o) + avg l (fun o => y o * y o)).
    { rewrite (avg_ext l _ (fun o => 1 * (1 * (innerv n (w o) f * innerv n (w o) f) + (-2) * (innerv n (w o) f * y o)) + 1 * (y o * y o))) by (intros; ring).
      rewrite avg_lin2, avg_lin2. ring. }
    lra.
Qed.

Section Path.
Variables (junk : rows * blocks * blocks) (N D : nat) (inputs : option nat).
Hypothesis HN : (1 <= N)%nat.
Hypothesis HD : (1 <= D)%nat.
Let L := row_len D inputs.
Let tA : mtype := MClusters (N - 1) (MClusters D (MGaussianGamma [L])).

Definition row_law (u : list (env -> R)) (n d : nat) (l : list (R * (R * (env -> R)))) : Prop :=
  let '(nuA, nuAA, nu, _) := path_A N D u in
  probs l /\ (forall o, In o l -> 0 < fst (snd o)) /\
  (forall i, (i < L)%nat -> nuA n d i = avg l (fun o => fst o * as_vec (snd o) i)) /\
  (forall i j, (i < L)%nat -> (j < L)%nat -> nuAA n d i j = avg l (fun o => fst o * (as_vec (snd o) i * as_vec (snd o) j))) /\
  nu n d = avg l (fun o => fst o).
Lemma row_moments : forall u n d, mt_mom tA u -> (n < N - 1)%nat -> (d < D)%nat -> exists l, row_law u n d l.
Proof.
  intros u n d H Hn Hd. destruct (H n Hn d Hd) as (l & P & Pt & E0 & E1 & E2). exists l. cbn [mt_dims map] in *. cbn.
  split; [exact P|]. split; [exact Pt|]. split; [|split].
  - intros i Hi. specialize (E0 (upd env0 0 i) (valid_vec L i Hi)).
    rewrite (cluster_coef [[L]; [L; L]; []; []] d _ 0%nat [L] _ eq_refl), (cluster_coef [[D; L]; [D; L; L]; [D]; [D]] n _ 0%nat [D; L] _ eq_refl) in E0.
    unfold as_vec. rewrite <- E0. unfold as_blocks. rewrite part_coef. f_equal. apply functional_extensionality. intros [|[|[|k]]]; reflexivity.
  - intros i j Hi Hj. specialize (E1 (upd env0 0 i) (upd env0 0 j) (valid_vec L i Hi) (valid_vec L j Hj)). cbn [length] in E1. rewrite join_vec in E1.
    rewrite (cluster_coef [[L]; [L; L]; []; []] d _ 1%nat [L; L] _ eq_refl), (cluster_coef [[D; L]; [D; L; L]; [D]; [D]] n _ 1%nat [D; L; L] _ eq_refl) in E1.
    unfold as_vec. rewrite <- E1. rewrite part_coef. f_equal. apply functional_extensionality. intros [|[|[|[|k]]]]; reflexivity.
  - rewrite (cluster_coef [[L]; [L; L]; []; []] d _ 2%nat [] _ eq_refl), (cluster_coef [[D; L]; [D; L; L]; [D]; [D]] n _ 2%nat [D] _ eq_refl) in E2.
    rewrite <- E2. unfold as_rows. rewrite part_coef. f_equal. apply functional_extensionality. intros [|[|k]]; reflexivity.
Qed.

Let K := in_len inputs.
Let tIn : list mtype := match inputs with None => [] | Some K => [MClusters (N - 1) (MGaussian [K])] end.
Let pts : list mtype := MGaussianWishart D :: tA :: tIn.
Let F := path_efam junk N D inputs.

Lemma path_pdims : e_pdims F = map mt_dims pts.
Proof. unfold F, pts, tIn. cbn. destruct inputs; reflexivity. Qed.
Lemma input_moments : forall K' u n, mt_mom (MClusters (N - 1) (MGaussian [K'])) u -> (n < N - 1)%nat ->
  exists l : list (R * (env -> R)), probs l /\
    (forall k, (k < K')%nat -> as_rows (part u 0) n k = avg l (fun f => as_vec f k)) /\
    (forall j k, (j < K')%nat -> (k < K')%nat -> as_blocks (part u 1) n j k = avg l (fun f => as_vec f j * as_vec f k)).
Proof.
  intros K' u n H Hn. destruct (H n Hn) as (l & P & E0 & E1). exists l. cbn [mt_dims map length app] in *. split; [exact P|]. split.
  - intros k Hk. specialize (E0 (upd env0 0 k) (valid_vec K' k Hk)).
    rewrite (cluster_coef [[K']; [K'; K']] n _ 0%nat [K'] _ eq_refl) in E0. unfold as_vec. rewrite <- E0. unfold as_rows. rewrite part_coef.
    f_equal. apply functional_extensionality. intros [|[|x]]; reflexivity.
  - intros j k Hj Hk. specialize (E1 (upd env0 0 j) (upd env0 0 k) (valid_vec K' j Hj) (valid_vec K' k Hk)). rewrite join_vec in E1.
    rewrite (cluster_coef [[K']; [K'; K']] n _ 1%nat [K'; K'] _ eq_refl) in E1. unfold as_vec. rewrite <- E1. unfold as_blocks. rewrite part_coef.
    f_equal. apply functional_extensionality. intros [|[|[|x]]]; reflexivity.
Qed.

(** ** The energy *)
Definition the_chain (x : list (env -> R)) : chain := (as_rows (part x 0), as_blocks (part x 1), as_blocks (part x 2)).
Lemma path_fdot : forall p0 p1 p2 x, length x = 3%nat ->
  fdot [[N; D]; [N; D; D]; [N - 1; D; D]%nat] [of_rows p0; of_blocks p1; of_blocks p2] x = chain_dot N D (p0, p1, p2) (the_chain x).
Proof.
  intros p0 p1 p2 x Lx. destruct x as [|a [|b [|c [|? ?]]]]; try discriminate. cbn [fdot]. rewrite total_2d, !total_3d.
  unfold chain_dot, the_chain, innerv, innerm, as_rows, as_blocks, of_rows, of_blocks, part. cbn. ring.
Qed.
Definition shaped (o : option in_moments) : option (in_moments * list nat) := match o with None => None | Some z => Some (z, [N - 1]%nat) end.
Lemma forget_shaped : forall o, forget (shaped o) = o.
Proof. intros [z|]; reflexivity. Qed.
Lemma shaped_ok : forall nuAA o, in_shape N D K nuAA (shaped o).
Proof. intros nuAA [[z zz]|]; [left; reflexivity|exact I]. Qed.
Lemma cols_len : forall u, cols D K (path_in inputs u) = L.
Proof. intros u. unfold K, L. destruct inputs; reflexivity. Qed.
Lemma full_T2 : forall f, tarray_full N D (T2 (N - 1) D f).
Proof. intros f. split; [reflexivity|now right]. Qed.

Lemma rows_sym : forall u, mt_mom tA u -> let '(_, nuAA, _, _) := path_A N D u in
  forall n d, (n < N - 1)%nat -> (d < D)%nat -> symmetric L (nuAA n d).
Proof.
  intros u H. cbn. intros n d Hn Hd. destruct (row_moments u n d H Hn Hd) as [l RL]. cbn in RL. destruct RL as (_ & _ & _ & E1 & _).
  now apply (avg_sym L l).
Qed.
Lemma path_energy : forall ups x, mt_mom tA (nth 1 ups []) -> length x = 3%nat ->
  let '(Lmu, muLmu, La, ld) := path_mL (nth 0 ups []) in
  e_cgf F ups + fdot (fam_dims (e_fam F)) (e_phi F ups) x =
  innerv D (as_rows (part x 0) O) Lmu + -0.5 * muLmu + innerm D (scal_m (-0.5) (as_blocks (part x 1) O)) La + 0.5 * ld
  + rsum (N - 1) (fun n => rsum D (dyn_pair D K (the_chain x) (path_in inputs (nth 2 ups [])) (path_A N D (nth 1 ups [])) n)).
Proof.
  intros ups x HA Lx. cbn [path_mL]. pose proof (rows_sym _ HA) as SY.
  set (o := path_in inputs (nth 2 ups [])).
  destruct (gmc_total N D K (as_rows (part x 0)) (as_blocks (part x 1)) (as_blocks (part x 2))
    (as_vec (part (nth 0 ups []) 0)) (part (nth 0 ups []) 1 env0) (as_mat (part (nth 0 ups []) 2)) (part (nth 0 ups []) 3 env0)
    (as_blocks (part (nth 1 ups []) 0)) (fun n d i j => part (nth 1 ups []) 1 (upd (upd (upd (upd env0 3 n) 2 d) 1 i) 0 j))
    (as_rows (part (nth 1 ups []) 2)) (T2 (N - 1) D (as_rows (part (nth 1 ups []) 3))) (shaped o) HN (full_T2 _) (shaped_ok _ _)) as (g & E & H).
  { intros n d Hn Hd. rewrite forget_shaped. unfold o. rewrite cols_len. now apply SY. }
  rewrite forget_shaped in H.
  assert (E' : e_cgf F ups = g). { change (match gmc_cgf N D K (path_mL (nth 0 ups [])) (path_A N D (nth 1 ups [])) (shaped o) with Ok g0 => g0 | Err _ => 0 end = g).
    change (gmc_cgf N D K (path_mL (nth 0 ups [])) (path_A N D (nth 1 ups [])) (shaped o) = Ok g) in E. now rewrite E. }
  rewrite E', Rplus_comm. cbn [fam_dims e_fam e_phi F path_efam chain_family]. fold K. fold o.
  match type of H with chain_dot _ _ ?p _ + _ = _ => change (gmc_phi N D K (path_mL (nth 0 ups [])) (path_A N D (nth 1 ups [])) o) with p; destruct p as [[p0 p1] p2] end.
  rewrite path_fdot by exact Lx. exact H.
Qed.

Lemma row_pairing : forall (m0 : nat -> nat -> vec) (m1 : nat -> nat -> mat) (m2 m3 : nat -> nat -> R) u, length u = 4%nat ->
  let '(nuA, nuAA, nu, lnu) := path_A N D u in
  fdot [[N - 1; D; L]; [N - 1; D; L; L]; [N - 1; D]; [N - 1; D]]%nat
    [(fun v => m0 (v 2%nat) (v 1%nat) (v 0%nat)); (fun v => m1 (v 3%nat) (v 2%nat) (v 1%nat) (v 0%nat)); (fun v => m2 (v 1%nat) (v 0%nat)); (fun v => m3 (v 1%nat) (v 0%nat))] u =
  rsum (N - 1) (fun n => rsum D (fun d => innerv L (m0 n d) (nuA n d) + innerm L (m1 n d) (nuAA n d) + m2 n d * nu n d + m3 n d * tarray_at lnu n d)).
Proof.
  intros m0 m1 m2 m3 u Lu. destruct u as [|a [|b [|c [|e [|? ?]]]]]; try discriminate. cbn [path_A part nth fdot].
  rewrite !total_2d, total_3d, total_4d. rewrite Rplus_0_r, <- !rsum_plus. apply rsum_ext. intros n Hn. rewrite <- !rsum_plus. apply rsum_ext. intros d Hd.
  unfold innerv, innerm, as_blocks, as_rows. cbn. 
  assert (E : forall m k (f : nat -> nat -> R) x y, (x < m)%nat -> (y < k)%nat -> f (if (m =? 1)%nat then O else x) (if (k =? 1)%nat then O else y) = f x y).
  { intros m k f x y Hx Hy. destruct (Nat.eqb_spec m 1), (Nat.eqb_spec k 1); subst; f_equal; lia. }
  rewrite (E (N - 1)%nat D (fun x y => e (upd (upd env0 1 x) 0 y)) n d Hn Hd). ring.
Qed.

Lemma mL_pairing : forall (m0 : vec) m1 (m2 : mat) m3 u, length u = 4%nat ->
  let '(Lmu, muLmu, La, ld) := path_mL u in
  fdot [[D]; []; [D; D]; []] [of_vec m0; (fun _ => m1); of_mat m2; (fun _ => m3)] u =
  innerv D m0 Lmu + m1 * muLmu + innerm D m2 La + m3 * ld.
Proof.
  intros m0 m1 m2 m3 u Lu. destruct u as [|a [|b [|c [|e [|? ?]]]]]; try discriminate. cbn [path_mL part nth fdot].
  rewrite !total_1d, total_2d. cbn [total]. unfold innerv, innerm, as_vec, as_mat, of_vec, of_mat. cbn. ring.
Qed.
Lemma in_pairing : forall K' (m0 : nat -> vec) (m1 : nat -> mat) u, length u = 2%nat ->
  fdot [[N - 1; K']; [N - 1; K'; K']]%nat [(fun v => m0 (v 1%nat) (v 0%nat)); (fun v => m1 (v 2%nat) (v 1%nat) (v 0%nat))] u =
  rsum (N - 1) (fun n => innerv K' (m0 n) (as_rows (part u 0) n) + innerm K' (m1 n) (as_blocks (part u 1) n)).
Proof.
  intros K' m0 m1 u Lu. destruct u as [|a [|b [|? ?]]]; try discriminate. cbn [part nth fdot].
  rewrite total_2d, total_3d, Rplus_0_r, <- rsum_plus. apply rsum_ext. intros n _. unfold innerv, innerm, as_rows, as_blocks. cbn. ring.
Qed.
Lemma ups_get : forall ups k t, moments_of F ups -> Forall2 mt_mom pts ups -> nth_error pts k = Some t ->
  length (nth k ups []) = length (mt_dims t) /\ mt_mom t (nth k ups []).
Proof.
  intros ups k t M OK E. split.
  - pose proof (path_pdims) as EP. unfold moments_of in M. rewrite EP in M.
    enough (G : forall ts us, Forall2 (fun ds u => length u = length ds) (map mt_dims ts) us -> forall k t, nth_error ts k = Some t -> length (nth k us []) = length (mt_dims t)) by (eapply G; eauto).
    clear. induction ts as [|t0 ts IH]; intros us H k t E; [destruct k; discriminate|]. inversion H; subst. destruct k; cbn in *; [injection E as ->; congruence|eauto].
  - enough (G : forall ts us, Forall2 mt_mom ts us -> forall k t, nth_error ts k = Some t -> mt_mom t (nth k us [])) by (eapply G; eauto).
    clear. induction 1 as [|t0 u ts us H0 H IH]; intros k t E; [destruct k; discriminate|]. destruct k; cbn in *; [injection E as ->; exact H0|eauto].
Qed.

Lemma path_conj : conjugate_on (Forall2 mt_mom pts) (mt_mom (MPath N D)) F.
Proof.
  split; [|split].
  - intros ups. cbn [e_phi F path_efam]. match goal with |- context [gmc_phi ?a ?b ?c ?d ?e ?f] => destruct (gmc_phi a b c d e f) as [[p0 p1] p2] end. reflexivity.
  - intros k x ups Hk. unfold F in *. cbn [e_pdims path_efam] in *. destruct k as [|[|k]]; [reflexivity|reflexivity|].
    destruct inputs; cbn in *; [|lia]. destruct k as [|k]; [reflexivity|lia].
  - intros k x ups ups' Hk M M' OK OK' _ Lx EX. cbv zeta. change (length x = 3%nat) in Lx.
    destruct (ups_get ups 1 tA M OK eq_refl) as [LA HA]. destruct (ups_get ups' 1 tA M' OK' eq_refl) as [LA' HA'].
    destruct (ups_get ups 0 _ M OK eq_refl) as [L0 _]. destruct (ups_get ups' 0 _ M' OK' eq_refl) as [L0' _].
    pose proof (path_energy ups x HA Lx) as EN. pose proof (path_energy ups' x HA' Lx) as EN'. cbn [path_mL] in EN, EN'.
    rewrite EN, EN'. clear EN EN'. destruct k as [|[|k]].
    + assert (X1 := exclude_same 0 1 ups ups' EX ltac:(lia)). assert (X2 := exclude_same 0 2 ups ups' EX ltac:(lia)). rewrite <- X1, <- X2.
      change (nth 0 (e_pdims F) []) with [[D]; []; [D; D]; []].
      change (e_message F 0 x (exclude 0 ups)) with [of_vec (as_rows (part x 0) O); (fun _ => -0.5); of_mat (scal_m (-0.5) (as_blocks (part x 1) O)); (fun _ : env => 0.5)].
      pose proof (mL_pairing (as_rows (part x 0) O) (-0.5) (scal_m (-0.5) (as_blocks (part x 1) O)) 0.5 _ L0) as P0.
      pose proof (mL_pairing (as_rows (part x 0) O) (-0.5) (scal_m (-0.5) (as_blocks (part x 1) O)) 0.5 _ L0') as P1.
      cbn [path_mL] in P0, P1. rewrite P0, P1. ring.
    + assert (X1 := exclude_same 1 0 ups ups' EX ltac:(lia)). assert (X2 := exclude_same 1 2 ups ups' EX ltac:(lia)). rewrite <- X1, <- X2.
      change (nth 1 (e_pdims F) []) with [[N - 1; D; L]; [N - 1; D; L; L]; [N - 1; D]; [N - 1; D]]%nat.
      set (m := gmc_message_A D (the_chain x) (path_in inputs (nth 2 ups []))).
      assert (EM : e_message F 1 x (exclude 1 ups) = [(fun v => fst (fst (fst (m (v 2%nat) (v 1%nat)))) (v 0%nat));
          (fun v => snd (fst (fst (m (v 3%nat) (v 2%nat)))) (v 1%nat) (v 0%nat));
          (fun v => snd (fst (m (v 1%nat) (v 0%nat)))); (fun v => snd (m (v 1%nat) (v 0%nat)))]).
      { cbn [e_message F path_efam]. rewrite (exclude_get 1 2) by lia. reflexivity. }
      rewrite EM. clear EM.
      assert (PR : forall u, length u = 4%nat -> fdot [[N - 1; D; L]; [N - 1; D; L; L]; [N - 1; D]; [N - 1; D]]%nat
        [(fun v => fst (fst (fst (m (v 2%nat) (v 1%nat)))) (v 0%nat)); (fun v => snd (fst (fst (m (v 3%nat) (v 2%nat)))) (v 1%nat) (v 0%nat));
          (fun v => snd (fst (m (v 1%nat) (v 0%nat)))); (fun v => snd (m (v 1%nat) (v 0%nat)))] u
        = rsum (N - 1) (fun n => rsum D (dyn_pair D K (the_chain x) (path_in inputs (nth 2 ups [])) (path_A N D u) n))).
      { intros u Lu. pose proof (row_pairing (fun n d => fst (fst (fst (m n d)))) (fun n d => snd (fst (fst (m n d)))) (fun n d => snd (fst (m n d))) (fun n d => snd (m n d)) u Lu) as H.
        cbn [path_A] in H. etransitivity; [exact H|]. apply rsum_ext. intros n _. apply rsum_ext. intros d _. unfold dyn_pair. fold m. rewrite cols_len. cbn [path_A].
        destruct (m n d) as [[[m0 m1] m2] m3]. reflexivity. }
      rewrite (PR _ LA), (PR _ LA'). ring.
    + assert (EI : k = O /\ exists K', inputs = Some K').
      { clear - Hk. unfold F in Hk. cbn [e_pdims path_efam] in Hk. destruct inputs as [K'|]; cbn in Hk; [split; [lia|now exists K']|lia]. }
      destruct EI as [-> [K' EI]].
      assert (EP : nth_error pts 2 = Some (MClusters (N - 1) (MGaussian [K']))) by (unfold pts, tIn; now rewrite EI).
      assert (EK : K = K') by (unfold K; now rewrite EI).
      assert (ED : nth 2 (e_pdims F) [] = [[N - 1; K']; [N - 1; K'; K']]%nat) by (unfold F; cbn [e_pdims path_efam]; now rewrite EI).
      assert (EL : L = (D + K')%nat) by (unfold L; now rewrite EI).
      assert (EZ : forall u, path_in inputs u = Some (as_rows (part u 0), as_blocks (part u 1))) by (intros; now rewrite EI).
      assert (X0 := exclude_same 2 0 ups ups' EX ltac:(lia)). assert (X1 := exclude_same 2 1 ups ups' EX ltac:(lia)). rewrite <- X0, <- X1.
      destruct (ups_get ups 2 (MClusters (N - 1) (MGaussian [K'])) M OK EP) as [LI _]. destruct (ups_get ups' 2 (MClusters (N - 1) (MGaussian [K'])) M' OK' EP) as [LI' _].
      assert (EM : e_message F 2 x (exclude 2 ups) = [(fun v => fst (gmc_message_in D (the_chain x) (path_A N D (nth 1 ups [])) (v 1%nat)) (v 0%nat));
        (fun v => snd (gmc_message_in D (the_chain x) (path_A N D (nth 1 ups [])) (v 2%nat)) (v 1%nat) (v 0%nat))]).
      { cbn [e_message F path_efam]. rewrite (exclude_get 2 1) by lia. reflexivity. }
      rewrite EM. clear EM. rewrite ED.
      rewrite (in_pairing K' (fun n => fst (gmc_message_in D (the_chain x) (path_A N D (nth 1 ups [])) n)) (fun n => snd (gmc_message_in D (the_chain x) (path_A N D (nth 1 ups [])) n)) _ LI).
      rewrite (in_pairing K' (fun n => fst (gmc_message_in D (the_chain x) (path_A N D (nth 1 ups [])) n)) (fun n => snd (gmc_message_in D (the_chain x) (path_A N D (nth 1 ups [])) n)) _ LI').
      pose proof (rows_sym _ HA) as SY. cbn [path_A] in *.
      rewrite EL in SY. rewrite EK.
      destruct (C20_gmc_inputs N D K' (the_chain x) 0 (path_mL (nth 0 ups [])) (as_blocks (part (nth 1 ups []) 0)) (fun n d i j => part (nth 1 ups []) 1 (upd (upd (upd (upd env0 3 n) 2 d) 1 i) 0 j))
        (as_rows (part (nth 1 ups []) 2)) (T2 (N - 1) D (as_rows (part (nth 1 ups []) 3))) HN (full_T2 _)) as [rest HR].
      assert (ST : forall z zz, let u_A := path_A N D (nth 1 ups []) in
        rsum (N - 1) (fun n => rsum D (dyn_pair D K' (the_chain x) (Some (z, zz)) u_A n)) =
        rsum (N - 1) (fun n => innerv K' (fst (gmc_message_in D (the_chain x) u_A n)) (z n) + innerm K' (snd (gmc_message_in D (the_chain x) u_A n)) (zz n))
        + rest - (innerv D (as_rows (part x 0) O) (as_vec (part (nth 0 ups []) 0)) + -0.5 * part (nth 0 ups []) 1 env0 + innerm D (scal_m (-0.5) (as_blocks (part x 1) O)) (as_mat (part (nth 0 ups []) 2)) + 0.5 * part (nth 0 ups []) 3 env0)).
      { intros z zz. destruct (HR z zz [N - 1]%nat (or_introl eq_refl)) as (g & Eg & Hg).
        destruct (gmc_total N D K' (as_rows (part x 0)) (as_blocks (part x 1)) (as_blocks (part x 2))
          (as_vec (part (nth 0 ups []) 0)) (part (nth 0 ups []) 1 env0) (as_mat (part (nth 0 ups []) 2)) (part (nth 0 ups []) 3 env0)
          (as_blocks (part (nth 1 ups []) 0)) (fun n d i j => part (nth 1 ups []) 1 (upd (upd (upd (upd env0 3 n) 2 d) 1 i) 0 j))
          (as_rows (part (nth 1 ups []) 2)) (T2 (N - 1) D (as_rows (part (nth 1 ups []) 3))) (Some ((z, zz), [N - 1]%nat)) HN (full_T2 _) (or_introl eq_refl) SY) as (g' & Eg' & Hg').
        assert (g' = g). { change (path_mL (nth 0 ups [])) with (as_vec (part (nth 0 ups []) 0), part (nth 0 ups []) 1 env0, as_mat (part (nth 0 ups []) 2), part (nth 0 ups []) 3 env0) in Eg. congruence. }
        subst g'. cbv zeta. rewrite Rplus_0_r in Hg. pose proof (eq_trans (eq_sym Hg') Hg) as HH. assert (SB : forall a b c d : R, a + b = c + d -> b = c + d - a) by (intros; lra). exact (SB _ _ _ _ HH). }
      cbv zeta in ST. pose proof (ST (as_rows (part (nth 2 ups []) 0)) (as_blocks (part (nth 2 ups []) 1))) as S1. pose proof (ST (as_rows (part (nth 2 ups' []) 0)) (as_blocks (part (nth 2 ups' []) 1))) as S2.
      rewrite !EZ, S1, S2. cbn [path_A]. ring.
Qed.

(** ** The messages *)
Lemma msg_initial : forall x ups, mt_mom (MPath N D) x -> mt_msg (MGaussianWishart D) (e_message F 0 x ups).
Proof.
  intros x ups (l & P & E0 & E1 & _).
  change (e_message F 0 x ups) with [of_vec (as_rows (part x 0) O); (fun _ => -0.5); of_mat (scal_m (-0.5) (as_blocks (part x 1) O)); (fun _ : env => 0.5)].
  cbn [mt_msg coef nth].
  assert (SQ := fun r => square_msg D l (fun o => o O) (fun _ => r) (fun i => r * as_rows (part x 0) O i) (scal_m (-0.5) (as_blocks (part x 1) O)) (-0.5 * (r * r)) P).
  assert (SQ' : forall r, symmetric D (scal_m (-0.5) (as_blocks (part x 1) O)) /\ forall f, innerv D (fun i => r * as_rows (part x 0) O i) f + bilinear D (scal_m (-0.5) (as_blocks (part x 1) O)) f f + -0.5 * (r * r) <= 0).
  { intros r. apply SQ.
    - intros i Hi. change (part x 0) with (coef x 0). rewrite E0 by lia. rewrite <- avg_cmul. apply avg_ext. intros; ring.
    - intros i j Hi Hj. change (part x 1) with (coef x 1). unfold scal_m. now rewrite E1 by lia.
    - now rewrite avg_const. }
  split; [exact (proj1 (SQ' 0))|]. split; [unfold coef; cbn; lra|]. intros y r. pose proof (proj2 (SQ' r) y) as H.
  replace (innerv D (fun i => r * as_rows (part x 0) O i) y) with (r * innerv D (as_rows (part x 0) O) y) in H by (unfold innerv; rewrite <- rsum_scal; apply rsum_ext; intros; ring).
  match goal with |- ?a + _ + _ <= 0 => change a with (bilinear D (scal_m (-0.5) (as_blocks (part x 1) O)) y y) end.
  change (as_vec (coef [of_vec (as_rows (part x 0) O); (fun _ => -0.5); of_mat (scal_m (-0.5) (as_blocks (part x 1) O)); (fun _ : env => 0.5)] 0)) with (as_rows (part x 0) O).
  unfold coef. cbn [nth]. lra.
Qed.

Lemma row_message : forall x u n d, mt_mom (MPath N D) x -> (forall K', inputs = Some K' -> mt_mom (MClusters (N - 1) (MGaussian [K'])) u) -> (n < N - 1)%nat -> (d < D)%nat ->
  let m := gmc_message_A D (the_chain x) (path_in inputs u) n d in
  symmetric L (snd (fst (fst m))) /\ snd m = 0.5 /\
  forall f, innerv L (fst (fst (fst m))) f + bilinear L (snd (fst (fst m))) f f + snd (fst m) <= 0.
Proof.
  intros x u n d (lx & P & E0 & E1 & E2) HI Hn Hd. unfold L. clear L tA K tIn pts F. destruct inputs as [K'|].
  - destruct (input_moments K' u n (HI K' eq_refl) Hn) as (lz & Pz & Z0 & Z1). cbn [path_in gmc_message_A the_chain fst snd row_len]. cbv zeta. cbn [fst snd].
    set (w := fun o : rows * (env -> R) => cat_v D (fst o n) (as_vec (snd o))).
    pose proof (probs_indep lx lz P Pz) as PI.
    match goal with |- symmetric _ ?a /\ _ /\ forall f, innerv _ ?b f + _ + ?c <= 0 =>
      destruct (square_msg (D + K') (indep lx lz) w (fun o => fst o (S n) d) b a c PI) as [S1 S2] end.
    + intros i Hi. unfold w. destruct (Nat.lt_ge_cases i D) as [Hi'|Hi'].
      * rewrite cat_l by exact Hi'. change (part x 2) with (coef x 2). rewrite E2 by lia.
        rewrite <- (avg_fst lx lz (fun o => o n i * o (S n) d) Pz). apply avg_ext. intros o _. now rewrite cat_l.
      * rewrite cat_ge by exact Hi'. change (part x 0) with (coef x 0). rewrite E0, Z0 by lia. rewrite <- avg_mul. apply avg_ext. intros o _. rewrite cat_ge by exact Hi'. ring.
    + intros i j Hi Hj. unfold w. destruct (Nat.ltb_spec i D) as [Hi'|Hi'].
      * destruct (Nat.lt_ge_cases j D) as [Hj'|Hj'].
        -- rewrite cat_l by exact Hj'. change (part x 1) with (coef x 1). rewrite E1 by lia. f_equal.
           rewrite <- (avg_fst lx lz (fun o => o n i * o n j) Pz). apply avg_ext. intros o _. now rewrite !cat_l.
        -- rewrite cat_ge by exact Hj'. change (part x 0) with (coef x 0). rewrite E0, Z0 by lia.
           rewrite Rmult_assoc, <- avg_mul. f_equal. apply avg_ext. intros o _. now rewrite cat_l, cat_ge.
      * destruct (Nat.lt_ge_cases j D) as [Hj'|Hj'].
        -- rewrite cat_l by exact Hj'. unfold transpose. change (part x 0) with (coef x 0). rewrite E0, Z0 by lia.
           rewrite Rmult_assoc, <- avg_mul. f_equal. apply avg_ext. intros o _. rewrite (cat_l D _ _ j Hj'), (cat_ge D _ _ i Hi'). ring.
        -- rewrite cat_ge by exact Hj'. rewrite Z1 by lia. f_equal.
           rewrite <- (avg_snd lx lz _ P). apply avg_ext. intros o _. now rewrite !cat_ge.
    + change (part x 1) with (coef x 1). rewrite E1 by lia. f_equal. now rewrite <- (avg_fst lx lz (fun o => o (S n) d * o (S n) d) Pz).
    + split; [exact S1|]. split; [reflexivity|exact S2].
  - cbn [path_in gmc_message_A the_chain fst snd row_len]. cbv zeta. cbn [fst snd].
    match goal with |- symmetric _ ?a /\ _ /\ forall f, innerv _ ?b f + _ + ?c <= 0 =>
      destruct (square_msg D lx (fun o => o n) (fun o => o (S n) d) b a c P) as [S1 S2] end.
    + intros i Hi. change (part x 2) with (coef x 2). now rewrite E2 by lia.
    + intros i j Hi Hj. change (part x 1) with (coef x 1). now rewrite E1 by lia.
    + change (part x 1) with (coef x 1). now rewrite E1 by lia.
    + split; [exact S1|]. split; [reflexivity|exact S2].
Qed.
Lemma msg_rows : forall x ups, mt_mom (MPath N D) x -> (forall K', inputs = Some K' -> mt_mom (MClusters (N - 1) (MGaussian [K'])) (nth 2 ups [])) ->
  mt_msg tA (e_message F 1 x ups).
Proof.
  intros x ups HX HI. cbn [mt_msg tA]. intros n Hn d Hd. set (m := gmc_message_A D (the_chain x) (path_in inputs (nth 2 ups []))).
  assert (EM : e_message F 1 x ups = [(fun v => fst (fst (fst (m (v 2%nat) (v 1%nat)))) (v 0%nat));
          (fun v => snd (fst (fst (m (v 3%nat) (v 2%nat)))) (v 1%nat) (v 0%nat));
          (fun v => snd (fst (m (v 1%nat) (v 0%nat)))); (fun v => snd (m (v 1%nat) (v 0%nat)))]) by reflexivity.
  rewrite EM. clear EM. destruct (row_message x (nth 2 ups []) n d HX HI Hn Hd) as (S1 & S3 & S2). fold m in S1, S2, S3.
  cbn [mt_dims map app].
  match goal with |- context [cluster [[D; L]; [D; L; L]; [D]; [D]] n ?l] => set (mm := l) end.
  assert (C0 : forall i, as_vec (coef (cluster [[L]; [L; L]; []; []] d (cluster [[D; L]; [D; L; L]; [D]; [D]] n mm)) 0) i = fst (fst (fst (m n d))) i).
  { intros i. unfold as_vec. rewrite (cluster_coef [[L]; [L; L]; []; []] d _ 0%nat [L] _ eq_refl), (cluster_coef [[D; L]; [D; L; L]; [D]; [D]] n _ 0%nat [D; L] _ eq_refl). reflexivity. }
  assert (C1 : forall i j, as_mat (coef (cluster [[L]; [L; L]; []; []] d (cluster [[D; L]; [D; L; L]; [D]; [D]] n mm)) 1) i j = snd (fst (fst (m n d))) i j).
  { intros i j. unfold as_mat. rewrite (cluster_coef [[L]; [L; L]; []; []] d _ 1%nat [L; L] _ eq_refl), (cluster_coef [[D; L]; [D; L; L]; [D]; [D]] n _ 1%nat [D; L; L] _ eq_refl). reflexivity. }
  rewrite msym_vec. split; [|split].
  - intros i j Hi Hj. rewrite !C1. now apply S1.
  - rewrite (cluster_coef [[L]; [L; L]; []; []] d _ 3%nat [] _ eq_refl), (cluster_coef [[D; L]; [D; L; L]; [D]; [D]] n _ 3%nat [D] _ eq_refl).
    change (0 <= snd (m n d)). lra.
  - intros f. rewrite quad_vec, total_1d. rewrite (cluster_coef [[L]; [L; L]; []; []] d _ 2%nat [] _ eq_refl), (cluster_coef [[D; L]; [D; L; L]; [D]; [D]] n _ 2%nat [D] _ eq_refl).
    specialize (S2 (as_vec f)).
    match goal with |- ?a + ?b + ?c <= 0 => replace a with (innerv L (fst (fst (fst (m n d)))) (as_vec f)); [replace b with (bilinear L (snd (fst (fst (m n d)))) (as_vec f) (as_vec f))|] end.
    + exact S2.
    + apply bilinear_ext; [|intros i Hi; reflexivity|intros i Hi; reflexivity]. intros i j Hi Hj. now rewrite C1.
    + apply rsum_ext. intros i Hi. apply Rmult_eq_compat_r. symmetry. exact (C0 i).
Qed.
Lemma msg_inputs : forall x ups K', inputs = Some K' -> mt_mom tA (nth 1 ups []) ->
  mt_msg (MClusters (N - 1) (MGaussian [K'])) (e_message F 2 x ups).
Proof.
  intros x ups K' EI HA n Hn. cbn [mt_dims map app mt_msg].
  assert (EL : L = (D + K')%nat) by (unfold L; now rewrite EI).
  set (A := path_A N D (nth 1 ups [])).
  assert (EM : e_message F 2 x ups = [(fun v => fst (gmc_message_in D (the_chain x) A (v 1%nat)) (v 0%nat));
        (fun v => snd (gmc_message_in D (the_chain x) A (v 2%nat)) (v 1%nat) (v 0%nat))]) by reflexivity.
  rewrite EM. clear EM. match goal with |- context [cluster [[K']; [K'; K']] n ?l] => set (mm := l) end.
  assert (C1 : forall i j, as_mat (coef (cluster [[K']; [K'; K']] n mm) 1) i j = -0.5 * rsum D (fun d => snd (fst (fst A)) n d (D + i)%nat (D + j)%nat)).
  { intros i j. unfold as_mat. rewrite (cluster_coef [[K']; [K'; K']] n _ 1%nat [K'; K'] _ eq_refl). reflexivity. }
  rewrite msym_vec.
  pose proof (rows_sym (nth 1 ups []) HA) as SY. split.
  - intros i j Hi Hj. rewrite !C1. f_equal. apply rsum_ext. intros d Hd. cbn [path_A] in SY. exact (SY n d Hn Hd (D + i)%nat (D + j)%nat ltac:(lia) ltac:(lia)).
  - intros f. rewrite quad_vec. rewrite (bilinear_ext K' _ (fun i j => -0.5 * rsum D (fun d => snd (fst (fst A)) n d (D + i)%nat (D + j)%nat)) _ _ (as_vec f) (as_vec f)); [|intros i j Hi Hj; apply C1|intros i Hi; reflexivity|intros i Hi; reflexivity].
    assert (B : bilinear K' (fun i j => -0.5 * rsum D (fun d => snd (fst (fst A)) n d (D + i)%nat (D + j)%nat)) (as_vec f) (as_vec f)
      = -0.5 * rsum D (fun d => bilinear K' (fun i j => snd (fst (fst A)) n d (D + i)%nat (D + j)%nat) (as_vec f) (as_vec f))).
    { unfold bilinear. symmetry. rewrite rsum_swap, <- rsum_scal. apply rsum_ext. intros i Hi. rewrite rsum_swap, <- rsum_scal. apply rsum_ext. intros j Hj.
      rewrite <- !rsum_scal. rewrite <- rsum_scal_r. apply rsum_ext. intros; ring. }
    rewrite B. assert (0 <= rsum D (fun d => bilinear K' (fun i j => snd (fst (fst A)) n d (D + i)%nat (D + j)%nat) (as_vec f) (as_vec f))); [|lra].
    apply rsum_nonneg. intros d Hd. destruct (row_moments (nth 1 ups []) n d HA Hn Hd) as [l RL]. cbn in RL. destruct RL as (P & Pt & _ & E1 & _).
    rewrite (bilinear_avg K' l _ (fun o i j => fst o * (as_vec (snd o) (D + i)%nat * as_vec (snd o) (D + j)%nat))) by (intros; apply E1; lia).
    apply Rle_trans with (avg l (fun _ => 0)); [rewrite avg_const by exact P; lra|]. apply avg_le; [exact P|]. intros o Ho.
    assert (X : bilinear K' (fun i j => fst (snd o) * (as_vec (snd (snd o)) (D + i)%nat * as_vec (snd (snd o)) (D + j)%nat)) (as_vec f) (as_vec f)
      = fst (snd o) * Rsqr (innerv K' (fun i => as_vec (snd (snd o)) (D + i)%nat) (as_vec f))).
    { unfold Rsqr. rewrite <- bilinear_outer. unfold bilinear, outerv. rewrite <- rsum_scal. apply rsum_ext. intros i _. rewrite <- rsum_scal. apply rsum_ext. intros; ring. }
    rewrite X. apply Rmult_le_pos; [left; now apply Pt|apply Rle_0_sqr].
Qed.

(** ** The prior *)
Lemma path_form_dot : forall p0 p1 p2 x, path_form N D p1 p2 x =
  chain_dot N D (p0, p1, p2) ((fun _ _ => 0), (fun n => outerv (x n) (x n)), (fun n => outerv (x n) (x (S n)))).
Proof.
  intros p0 p1 p2 x. unfold path_form, chain_dot. rewrite (rsum_zero N (fun n => innerv D (p0 n) (fun _ => 0))).
  2: { intros n Hn. apply rsum_zero. intros; ring. }
  rewrite Rplus_0_l. unfold bilinear, innerm, outerv. f_equal; apply rsum_ext; intros n Hn; apply rsum_ext; intros i Hi; apply rsum_ext; intros j Hj; ring.
Qed.
Lemma chain_dot_0 : forall p1 p2 x, 
  chain_dot N D ((fun _ _ => 0), p1, p2) ((fun _ _ => 0), (fun n => outerv (x n) (x n)), (fun n => outerv (x n) (x (S n)))) =
  chain_dot N D ((fun _ _ => 0), p1, p2) (x, (fun n => outerv (x n) (x n)), (fun n => outerv (x n) (x (S n)))).
Proof. intros. unfold chain_dot. f_equal. f_equal. apply rsum_ext. intros. unfold innerv. apply rsum_ext. intros; ring. Qed.
Definition step (u : list (env -> R)) (x : rows) (n d : nat) : R :=
  let '(nuA, nuAA, nu, _) := path_A N D u in
  nu n d * (x (S n) d * x (S n) d) - 2 * x (S n) d * innerv D (nuA n d) (x n) + bilinear D (nuAA n d) (x n) (x n).
Lemma prior_form : forall ups x,
  path_form N D (as_blocks (coef (e_phi F ups) 1)) (as_blocks (coef (e_phi F ups) 2)) x =
  -0.5 * bilinear D (as_mat (part (nth 0 ups []) 2)) (x O) (x O) + -0.5 * rsum (N - 1) (fun n => rsum D (step (nth 1 ups []) x n)).
Proof.
  intros ups x. set (mL := path_mL (nth 0 ups [])). set (A := path_A N D (nth 1 ups [])). set (o := path_in inputs (nth 2 ups [])).
  assert (E : path_form N D (as_blocks (coef (e_phi F ups) 1)) (as_blocks (coef (e_phi F ups) 2)) x =
    chain_dot N D (gmc_phi N D K mL A o) ((fun _ _ => 0), (fun n => outerv (x n) (x n)), (fun n => outerv (x n) (x (S n))))).
  { rewrite (path_form_dot (as_rows (coef (e_phi F ups) 0))). unfold F. cbn [e_phi path_efam]. fold mL A o K. destruct (gmc_phi N D K mL A o) as [[p0 p1] p2]. reflexivity. }
  rewrite E. unfold mL, A, path_mL, path_A. rewrite phi_dot by exact HN.
  assert (T1 : forall n, t_in1 D K (as_blocks (part (nth 1 ups []) 0)) o (fun _ _ => 0) n = 0).
  { intros n. unfold t_in1. destruct o as [[z zz]|]; [|reflexivity]. apply rsum_zero. intros; ring. }
  assert (T2' : forall n, t_in2 D K (fun n d i j => part (nth 1 ups []) 1 (upd (upd (upd (upd env0 3 n) 2 d) 1 i) 0 j)) o (fun _ _ => 0) n = 0).
  { intros n. unfold t_in2. destruct o as [[z zz]|]; [|reflexivity]. apply rsum_zero. intros; ring. }
  rewrite (rsum_zero (N - 1) (fun n => t_in1 _ _ _ _ _ n)) by (intros; apply T1).
  rewrite (rsum_zero (N - 1) (fun n => t_in2 _ _ _ _ _ n)) by (intros; apply T2').
  rewrite (innerv_comm D _ (fun _ => 0)), innerv_0.
  set (La := as_mat (part (nth 0 ups []) 2)). set (nuA := as_blocks (part (nth 1 ups []) 0)).
  set (nuAA := fun n d i j => part (nth 1 ups []) 1 (upd (upd (upd (upd env0 3 n) 2 d) 1 i) 0 j)). set (nu := as_rows (part (nth 1 ups []) 2)).
  assert (B0 : innerm D La (outerv (x O) (x O)) = bilinear D La (x O) (x O)).
  { unfold innerm, bilinear, outerv. apply rsum_ext. intros i _. apply rsum_ext. intros; ring. }
  rewrite B0.
  assert (X : rsum (N - 1) (fun n => -0.5 * rsum D (fun i => nu n i * outerv (x (S n)) (x (S n)) i i))
    + rsum (N - 1) (fun n => -0.5 * innerm D (fun i j => rsum D (fun d => nuAA n d i j)) (outerv (x n) (x n)))
    + rsum (N - 1) (fun n => innerm D (transpose (nuA n)) (outerv (x n) (x (S n)))) =
    -0.5 * rsum (N - 1) (fun n => rsum D (step (nth 1 ups []) x n))).
  { rewrite <- !rsum_plus, <- rsum_scal. apply rsum_ext. intros n Hn.
    assert (S1 : rsum D (step (nth 1 ups []) x n) = rsum D (fun d => nu n d * (x (S n) d * x (S n) d)) - 2 * rsum D (fun d => x (S n) d * innerv D (nuA n d) (x n))
      + rsum D (fun d => bilinear D (nuAA n d) (x n) (x n))).
    { rewrite <- rsum_scal, <- rsum_minus, <- rsum_plus. apply rsum_ext. intros d Hd. unfold step, path_A. fold nuA nu. change (fun i j => part (nth 1 ups []) 1 (upd (upd (upd (upd env0 3 n) 2 d) 1 i) 0 j)) with (nuAA n d). ring. }
    rewrite S1.
    assert (S2 : innerm D (fun i j => rsum D (fun d => nuAA n d i j)) (outerv (x n) (x n)) = rsum D (fun d => bilinear D (nuAA n d) (x n) (x n))).
    { unfold innerm, bilinear, outerv. symmetry. rewrite rsum_swap. apply rsum_ext. intros i Hi. rewrite rsum_swap. apply rsum_ext. intros j Hj.
      rewrite <- rsum_scal_r. apply rsum_ext. intros; ring. }
    assert (S3 : innerm D (transpose (nuA n)) (outerv (x n) (x (S n))) = rsum D (fun d => x (S n) d * innerv D (nuA n d) (x n))).
    { unfold innerm, transpose, outerv, innerv. rewrite rsum_swap. apply rsum_ext. intros d Hd. rewrite <- rsum_scal. apply rsum_ext. intros; ring. }
    assert (S4 : rsum D (fun i => nu n i * outerv (x (S n)) (x (S n)) i i) = rsum D (fun d => nu n d * (x (S n) d * x (S n) d))) by reflexivity.
    rewrite S2, S3, S4. lra. }
  rewrite Rplus_0_l, Rminus_0_r, Rplus_0_l. rewrite <- X. reflexivity.
Qed.
Lemma step_value : forall u x n d, mt_mom tA u -> (n < N - 1)%nat -> (d < D)%nat ->
  0 <= step u x n d /\ ((forall i, (i < D)%nat -> x n i = 0) -> step u x n d <= 0 -> x (S n) d = 0).
Proof.
  intros u x n d HA Hn Hd. destruct (row_moments u n d HA Hn Hd) as [l RL]. unfold step. cbn in RL. cbn [path_A].
  destruct RL as (P & Pt & E0 & E1 & E2).
  assert (DL : (D <= L)%nat) by (unfold L; clear; destruct inputs; cbn; lia).
  set (nuA := as_blocks (part u 0)) in *. set (nu := as_rows (part u 2)) in *.
  set (nuAA := fun n d i j => part u 1 (upd (upd (upd (upd env0 3 n) 2 d) 1 i) 0 j)).
  change (fun i j => part u 1 (upd (upd (upd (upd env0 3 n) 2 d) 1 i) 0 j)) with (nuAA n d).
  assert (W : nu n d * (x (S n) d * x (S n) d) - 2 * x (S n) d * innerv D (nuA n d) (x n) + bilinear D (nuAA n d) (x n) (x n)
    = avg l (fun o => fst o * Rsqr (x (S n) d - innerv D (as_vec (snd o)) (x n)))).
  { rewrite E2. rewrite (innerv_avg D l _ (fun o i => fst o * as_vec (snd o) i)) by (intros i Hi; apply E0; lia).
    rewrite (bilinear_avg D l _ (fun o i j => fst o * (as_vec (snd o) i * as_vec (snd o) j))) by (intros i j Hi Hj; apply E1; lia).
    set (y := x (S n) d). unfold Rsqr.
    rewrite (avg_ext l (fun o => fst o * ((y - innerv D (as_vec (snd o)) (x n)) * (y - innerv D (as_vec (snd o)) (x n))))
      (fun o => 1 * (y * y * fst o + (-2 * y) * innerv D (fun i => fst o * as_vec (snd o) i) (x n)) + 1 * bilinear D (fun i j => fst o * (as_vec (snd o) i * as_vec (snd o) j)) (x n) (x n))).
    - rewrite avg_lin2, avg_lin2. cbv beta. change (fun o : R * (env -> R) => fst o) with (@fst R (env -> R)). ring.
    - intros o _. set (f := as_vec (snd (snd o))). set (t := fst (snd o)).
      replace (innerv D (fun i => t * f i) (x n)) with (t * innerv D f (x n)) by (unfold innerv; rewrite <- rsum_scal; apply rsum_ext; intros; ring).
      replace (bilinear D (fun i j => t * (f i * f j)) (x n) (x n)) with (t * bilinear D (outerv f f) (x n) (x n)); [rewrite bilinear_outer; ring|].
      unfold bilinear, outerv. rewrite <- rsum_scal. apply rsum_ext. intros i _. rewrite <- rsum_scal. apply rsum_ext. intros; ring. }
  split.
  - rewrite W. apply Rle_trans with (avg l (fun _ => 0)); [rewrite avg_const by exact P; lra|]. apply avg_le; [exact P|]. intros o Ho.
    apply Rmult_le_pos; [left; now apply Pt|apply Rle_0_sqr].
  - intros Z H. clear W.
    assert (I0 : innerv D (nuA n d) (x n) = 0) by (apply rsum_zero; intros i Hi; rewrite Z by exact Hi; ring).
    assert (B0 : bilinear D (nuAA n d) (x n) (x n) = 0) by (apply rsum_zero; intros i Hi; apply rsum_zero; intros j Hj; rewrite Z by exact Hi; ring).
    rewrite I0, B0 in H. assert (PN : 0 < nu n d) by (rewrite E2; now apply avg_pos).
    destruct (Req_dec (x (S n) d) 0) as [|NZ]; [assumption|]. exfalso. pose proof (Rmult_lt_0_compat _ _ PN (Rsqr_pos_lt _ NZ)) as Q. unfold Rsqr in Q. lra.
Qed.
Lemma path_prior : forall ups, Forall2 mt_mom pts ups -> mt_par (MPath N D) (e_phi F ups).
Proof.
  intros ups OK. assert (HL : mt_mom (MGaussianWishart D) (nth 0 ups []) /\ mt_mom tA (nth 1 ups [])).
  { unfold pts in OK. inversion OK as [|? a ? r H0 H1]; subst. inversion H1; subst. now split. }
  destruct HL as [[PL _] HA]. pose proof (rows_sym _ HA) as SY. change (as_mat (coef (nth 0 ups []) 2)) with (as_mat (part (nth 0 ups []) 2)) in PL.
  split.
  - intros n Hn.
    assert (E : as_blocks (coef (e_phi F ups) 1) = snd (fst (gmc_phi N D K (path_mL (nth 0 ups [])) (path_A N D (nth 1 ups [])) (path_in inputs (nth 2 ups []))))).
    { unfold F. cbn [e_phi path_efam]. fold K. destruct (gmc_phi _ _ _ _ _ _) as [[p0 p1] p2]. reflexivity. }
    rewrite E. clear E. cbn [path_mL path_A gmc_phi fst snd] in *. cbv zeta. cbn [fst snd].
    assert (S1 : forall n, symmetric D (match n with O => put (fun _ _ _ => 0) 0 (scal_m (-0.5) (as_mat (part (nth 0 ups []) 2))) O
      | S p => if (S p <? N)%nat then scal_m (-0.5) (diag (as_rows (part (nth 1 ups []) 2) p)) else put (fun _ _ _ => 0) 0 (scal_m (-0.5) (as_mat (part (nth 0 ups []) 2))) n end)).
    { intros [|p] i j Hi Hj.
      - unfold put. cbn. unfold scal_m. now rewrite (proj1 PL i j Hi Hj).
      - destruct (S p <? N)%nat; [|unfold put; reflexivity]. unfold scal_m, diag. rewrite (Nat.eqb_sym j i). destruct (Nat.eqb_spec i j) as [->|]; reflexivity. }
    assert (DL : (D <= L)%nat) by (unfold L; clear; destruct inputs; cbn; lia).
    destruct (Nat.ltb_spec n (N - 1)) as [Hn'|Hn']; [|apply S1].
    intros i j Hi Hj. f_equal; [now apply S1|]. f_equal. apply rsum_ext. intros d Hd. apply SY; lia.
  - intros x NZ. rewrite prior_form.
    assert (B : 0 <= bilinear D (as_mat (part (nth 0 ups []) 2)) (x O) (x O)).
    { destruct (Classical_Prop.classic (nonzero D (x O))) as [N0|N0]; [left; now apply (proj2 PL)|rewrite bilinear_zero by exact N0; lra]. }
    assert (SN : forall n, (n < N - 1)%nat -> 0 <= rsum D (step (nth 1 ups []) x n)).
    { intros n Hn. apply rsum_nonneg. intros d Hd. now apply step_value. }
    pose proof (rsum_nonneg (N - 1) _ SN) as ST. set (total_step := rsum (N - 1) (fun n => rsum D (step (nth 1 ups []) x n))) in *.
    apply Rnot_le_lt. intros C. exfalso.
    assert (C1 : bilinear D (as_mat (part (nth 0 ups []) 2)) (x O) (x O) <= 0) by lra.
    assert (C2 : total_step <= 0) by lra.
    assert (ALL : forall n, (n < N)%nat -> forall i, (i < D)%nat -> x n i = 0).
    { induction n as [|n IH]; intros Hn i Hi; [exact (quad_zero D _ _ PL C1 i Hi)|].
      apply (proj2 (step_value (nth 1 ups []) x n i HA ltac:(lia) Hi)); [intros k Hk; apply IH; [lia|exact Hk]|].
      pose proof (MarkovLemmas.rsum_nonneg_zero (N - 1) _ SN C2 n ltac:(lia)) as Z. 
      assert (Z' : rsum D (step (nth 1 ups []) x n) <= 0) by (cbv beta in Z; lra).
      pose proof (MarkovLemmas.rsum_nonneg_zero D (step (nth 1 ups []) x n) (fun d Hd => proj1 (step_value (nth 1 ups []) x n d HA ltac:(lia) Hd)) Z' i Hi). lra. }
    destruct NZ as (n & i & Hn & Hi & H). apply H. now apply ALL.
Qed.

(** ** The moments *)
Lemma path_flat : forall p x, (let '(_, p1, p2) := p in path_form N D p1 p2 x) = -0.5 * bilinear (N * D) (chain_precision D p) (flat D x) (flat D x).
Proof.
  intros [[p0 p1] p2] x. etransitivity; [exact (eq_trans (path_form_dot (fun _ _ => 0) p1 p2 x) (chain_dot_0 p1 p2 x))|].
  set (y := flat D x). set (S0 := outerv y y).
  assert (YX : forall n i, (i < D)%nat -> y (n * D + i)%nat = x n i) by (intros n i Hi; unfold y, flat; now rewrite index_div, index_mod).
  etransitivity; [refine (flat_dot N D ((fun _ _ => 0), p1, p2) x (fun n => outerv (x n) (x n)) (fun n => outerv (x n) (x (S n))) y S0 HN HD _ _ _ _)|].
  - intros i j Hi Hj. unfold S0, outerv. ring.
  - intros n i Hn Hi. now rewrite YX.
  - intros n Hn i j Hi Hj. unfold block, S0, outerv. now rewrite !YX.
  - intros n Hn i j Hi Hj. unfold block, S0, outerv. rewrite !YX by assumption. now replace (n + 1)%nat with (S n) by lia.
  - cbn [fst flat_phi].
    assert (Z : innerv (N * D) (flat D (fun _ _ => 0)) y = 0) by (apply rsum_zero; intros; unfold flat; ring). rewrite Z, Rplus_0_l.
    transitivity (-0.5 * innerm (N * D) (chain_precision D (p0, p1, p2)) S0).
    + unfold innerm. rewrite <- rsum_scal. apply rsum_ext. intros i Hi. rewrite <- rsum_scal. apply rsum_ext. intros j Hj.
      rewrite <- (flat_prec D (p0, p1, p2)). unfold scal_m. cbn [flat_phi snd]. lra.
    + f_equal. unfold innerm, bilinear, S0, outerv. apply rsum_ext. intros i Hi. apply rsum_ext. intros; ring.
Qed.

Lemma path_posdef : forall p, (let '(_, p1, p2) := p in (forall n, (n < N)%nat -> symmetric D (p1 n)) /\ forall x, nonzero_path N D x -> path_form N D p1 p2 x < 0) ->
  posdef (N * D) (chain_precision D p).
Proof.
  intros p H. split.
  - intros i j Hi Hj. rewrite <- !flat_prec. unfold scal_m. f_equal. apply (flat_sym N D p HD); [|exact Hi|exact Hj]. destruct p as [[p0 p1] p2]. exact (proj1 H).
  - intros y (k & Hk & NZ). set (x := fun n i => y (n * D + i)%nat).
    assert (EX : forall q, (q < N * D)%nat -> flat D x q = y q) by (intros q Hq; unfold flat, x; now rewrite <- flat_index).
    pose proof (path_flat p x) as E. destruct p as [[p0 p1] p2]. destruct H as [_ H].
    assert (P : nonzero_path N D x).
    { exists (k / D)%nat, (k mod D)%nat. split; [apply Nat.div_lt_upper_bound; lia|]. split; [apply Nat.mod_upper_bound; lia|]. unfold x. now rewrite <- flat_index. }
    specialize (H x P). rewrite E in H.
    rewrite (bilinear_ext (N * D) _ (chain_precision D (p0, p1, p2)) (flat D x) (flat D x) y y) in H; [lra|intros i j Hi Hj; reflexivity|exact EX|exact EX].
Qed.
Lemma path_moments : forall phi, length phi = 3%nat -> mt_par (MPath N D) phi ->
  exists u g, fam_moments (chain_family junk N D) phi = Ok (u, g) /\ length u = 3%nat /\ mt_mom (MPath N D) u.
Proof.
  intros phi Lp H. destruct phi as [|p [|q [|r [|? ?]]]]; try discriminate. cbn [mt_par] in H. rewrite ?coef_nth in H. cbn [nth] in H.
  pose proof (path_posdef (as_rows p, as_blocks q, as_blocks r) H) as PD.
  destruct (C51_chain_moments junk N D (as_rows p, as_blocks q, as_blocks r) HN HD (proj1 H)) as [_ M].
  destruct (M PD) as ([[u0 u1] u2] & g & m & W & E & IV & _ & (U0 & U1 & U2) & _). exists [of_rows u0; of_blocks u1; of_blocks u2], g.
  cbn [fam_moments chain_family]. rewrite E. cbn [bind]. split; [reflexivity|]. split; [reflexivity|].
  pose proof (posdef_inverse (N * D) _ _ PD IV) as PW.
  destruct (realisable (N * D) 1 m W Rlt_0_1 PW) as (l & P & T & E0 & E1).
  assert (A0 : forall k, (k < N * D)%nat -> avg l (fun o => snd o (upd env0 0 k)) = m k).
  { intros k Hk. pose proof (E0 _ (valid_vec (N * D) k Hk)) as Z.
    rewrite (avg_ext l (fun o => snd o (upd env0 0 k)) (fun o => fst o * snd o (upd env0 0 k))) by (intros o Ho; rewrite (T o Ho); ring).
    rewrite Z. cbn. ring. }
  assert (A1 : forall k k', (k < N * D)%nat -> (k' < N * D)%nat -> avg l (fun o => snd o (upd env0 0 k) * snd o (upd env0 0 k')) = W k k' + m k * m k').
  { intros k k' Hk Hk'. pose proof (E1 _ _ (valid_vec (N * D) k Hk) (valid_vec (N * D) k' Hk')) as Z.
    rewrite (avg_ext l (fun o => snd o (upd env0 0 k) * snd o (upd env0 0 k')) (fun o => fst o * (snd o (upd env0 0 k) * snd o (upd env0 0 k')))) by (intros o Ho; rewrite (T o Ho); ring).
    rewrite Z. cbn. ring. }
  exists (map (fun o => (fst o, (fun n i => snd (snd o) (upd env0 0 (n * D + i)%nat)) : rows)) l).
  assert (AM : forall G : rows -> R, avg (map (fun o => (fst o, (fun n i => snd (snd o) (upd env0 0 (n * D + i)%nat)) : rows)) l) G = avg l (fun o => G (fun n i => snd o (upd env0 0 (n * D + i)%nat)))).
  { intros G. unfold avg. now rewrite map_map. }
  split; [|split; [|split]].
  - destruct P as [P1 P2]. split; [apply Forall_map; exact P1|]. rewrite map_map. exact P2.
  - intros n i Hn Hi. rewrite AM. rewrite (A0 _ (index_lt N D n i Hn Hi)). rewrite <- (U0 n i Hn Hi). reflexivity.
  - intros n i j Hn Hi Hj. rewrite AM. rewrite (A1 _ _ (index_lt N D n i Hn Hi) (index_lt N D n j Hn Hj)). change (as_blocks (coef [of_rows u0; of_blocks u1; of_blocks u2] 1)) with u1. rewrite (U1 n Hn i j Hi Hj). reflexivity.
  - intros n i j Hn Hi Hj. rewrite AM. rewrite (A1 _ _ (index_lt N D n i ltac:(lia) Hi) (index_lt N D (S n) j ltac:(lia) Hj)). change (as_blocks (coef [of_rows u0; of_blocks u1; of_blocks u2] 2)) with u2.
    rewrite (U2 n ltac:(lia) i j Hi Hj). reflexivity.
Qed.
Lemma path_typed : fam_typed F (MPath N D) pts.
Proof.
  constructor.
  - reflexivity.
  - exact path_pdims.
  - exact path_conj.
  - intros k t x ups Ek M OK _ HX.
    assert (HI : forall K', inputs = Some K' -> mt_mom (MClusters (N - 1) (MGaussian [K'])) (nth 2 ups [])).
    { intros K' EI. refine (proj2 (ups_get ups 2 _ M OK _)). unfold pts, tIn. now rewrite EI. }
    destruct k as [|[|k]].
    + injection Ek as <-. now apply msg_initial.
    + injection Ek as <-. apply msg_rows; [exact HX|]. intros K' EI. rewrite (exclude_get 1 2) by lia. now apply HI.
    + assert (EI : k = O /\ exists K', inputs = Some K' /\ t = MClusters (N - 1) (MGaussian [K'])).
      { clear - Ek. unfold pts, tIn in Ek. destruct inputs as [K'|]; [|destruct k; discriminate]. destruct k as [|k]; [|destruct k; discriminate].
        injection Ek as <-. split; [reflexivity|]. now exists K'. }
      destruct EI as (-> & K' & EI & ->). apply msg_inputs; [exact EI|]. rewrite (exclude_get 2 1) by lia. exact (proj2 (ups_get ups 1 tA M OK eq_refl)).
  - intros ups _ OK. now apply path_prior.
  - exact path_moments.
  - intros phi phi' u g u' g' L1 L2 D1 D2. apply (proj1 (chain_fam_kl junk N D HN HD)); [exact L1|exact L2| |].
    + destruct phi as [|p [|q [|r [|? ?]]]]; try discriminate. exact (proj1 D1).
    + destruct phi' as [|p [|q [|r [|? ?]]]]; try discriminate. exact (proj1 D2).
Qed.
End Path.
