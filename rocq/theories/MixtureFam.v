(** Lemmas for C25: mixtures of the distributions with the kinds of SpecGaussNet.v. *)
From Coq Require Import List Arith ZArith Lia Bool Reals Lra FunctionalExtensionality.
From Verif Require Import Base Shapes SpecShapes ShapesLemmas NumPy MiscArray TensorLemmas
  EinsumLemmas SumMultiplyLemmas SpecArray PlateSumLemmas PlateSum2Lemmas MessageLemmas
  ShapeOpsLemmas DiagLemmas ExpFam SpecExpFam ExpFamLemmas ExpFamBound ExpFamGrad PExpFam SpecUpdate
  UpdateLemmas PUpdate Families SpecFamilies FamiliesLemmas FamiliesLemmas2 PFamilies2 FamilyDist SpecFamilyDist PFamilyDist Network SpecNetwork NetworkLemmas NetworkLemmas2
  PNetwork MarkovLemmas FamilyNet SpecFamilyNet PFamilyNet Dot SpecDot DetNet SpecDetNet DetNetLemmas DetNetLemmas2
  Linalg MatBridge SpecLinalg LinalgLemmas Gaussian SpecGaussian GaussLemmas GaussAlg PGaussian PGaussian2 GaussGibbs GaussianDist PGaussianDist
  GaussNet MixtureNet BlockBanded GaussMarkovDist SpecGaussNet PlateDet GaussTypes GaussNodes GaussNodes2 GaussNodes3 GaussNodes4 GaussNodes5.
Import ListNotations.
Open Scope R_scope.

(** ** Averages of natural parameters *)
Lemma quad_avg {A} : forall s (l : list (R * A)) q (Q : A -> env -> R) f,
  (forall v, valid (s ++ s) v -> q v = avg l (fun o => Q o v)) -> quad s q f = avg l (fun o => quad s (Q o) f).
Proof.
  intros s l q Q f H. unfold quad.
  rewrite (total_ext s _ (fun v => avg l (fun o => total s (fun w => Q o (join (length s) v w) * f v * f w)))); [now rewrite avg_total|].
  intros v Hv. rewrite <- avg_total. apply total_ext. intros w Hw. rewrite H by now apply join_valid.
  rewrite (Rmult_comm _ (f v)), Rmult_assoc, (Rmult_comm _ (f w)), <- !avg_cmul. apply avg_ext. intros; ring.
Qed.
Lemma total_avg {A} : forall s (l : list (R * A)) q (Q : A -> env -> R) f,
  (forall v, valid s v -> q v = avg l (fun o => Q o v)) -> total s (fun v => q v * f v) = avg l (fun o => total s (fun v => Q o v * f v)).
Proof.
  intros s l q Q f H. rewrite <- avg_total. apply total_ext. intros v Hv. rewrite H by exact Hv.
  rewrite (Rmult_comm _ (f v)), <- avg_cmul. apply avg_ext. intros; ring.
Qed.
Lemma avg_neg {A} : forall (l : list (R * A)) F, probs l -> (forall o, In o l -> F (snd o) < 0) -> avg l F < 0.
Proof.
  intros l F P H. assert (0 < avg l (fun o => -1 * F o)).
  { apply avg_pos; [exact P|]. intros o Ho. specialize (H o Ho). lra. }
  rewrite avg_cmul in H0. lra.
Qed.
Lemma avg_gt {A} : forall (l : list (R * A)) F c, probs l -> (forall o, In o l -> c < F (snd o)) -> c < avg l F.
Proof.
  intros l F c P H. assert (0 < avg l (fun o => 1 * F o + (- c) * 1)).
  { apply avg_pos; [exact P|]. intros o Ho. specialize (H o Ho). lra. }
  rewrite (avg_lin2 l 1 (- c) F (fun _ => 1)), (avg_const l 1 P) in H0. lra.
Qed.
Lemma common_margin {A B} : forall (l : list (R * A)) (G : A -> B -> R),
  (forall o, In o l -> exists e, 0 < e /\ forall f, G (snd o) f <= - e) ->
  exists e, 0 < e /\ forall o, In o l -> forall f, G (snd o) f <= - e.
Proof.
  intros l G. induction l as [|o l IH]; intros H; [exists 1; split; [lra|intros o []]|].
  destruct (H o (or_introl eq_refl)) as (e1 & P1 & H1). destruct IH as (e2 & P2 & H2); [intros; apply H; now right|].
  exists (Rmin e1 e2). split; [now apply Rmin_glb_lt|]. intros o' [<-|Ho] f.
  - specialize (H1 f). pose proof (Rmin_l e1 e2). lra.
  - specialize (H2 o' Ho f). pose proof (Rmin_r e1 e2). lra.
Qed.

Lemma avg_rsum {A} : forall n (l : list (R * A)) (F : nat -> A -> R), rsum n (fun i => avg l (F i)) = avg l (fun o => rsum n (fun i => F i o)).
Proof.
  intros n l F. induction n as [|n IH]; cbn [rsum].
  - symmetry. rewrite (avg_ext l _ (fun o => 0 * 0 + 0 * 0)) by (intros; ring). rewrite (avg_lin2 l 0 0 (fun _ => 0) (fun _ => 0)). ring.
  - rewrite IH. rewrite (avg_ext l (fun o => rsum n (fun i => F i o) + F n o) (fun o => 1 * rsum n (fun i => F i o) + 1 * F n o)) by (intros; ring).
    rewrite avg_lin2. change (fun o : A => F n o) with (F n). ring.
Qed.
Lemma bilinear_avg {A} : forall D (l : list (R * A)) m (Q : A -> mat) x y,
  (forall i j, (i < D)%nat -> (j < D)%nat -> m i j = avg l (fun o => Q o i j)) -> bilinear D m x y = avg l (fun o => bilinear D (Q o) x y).
Proof.
  intros D l m Q x y H. unfold bilinear. rewrite <- avg_rsum. apply rsum_ext. intros i Hi. rewrite <- avg_rsum. apply rsum_ext. intros j Hj.
  rewrite H by assumption. rewrite (Rmult_comm (x i)), Rmult_assoc, Rmult_comm, <- avg_cmul. apply avg_ext. intros; ring.
Qed.
Lemma path_avg {A} : forall N D (l : list (R * A)) q r (Q T : A -> blocks) x,
  (forall n i j, (n < N)%nat -> (i < D)%nat -> (j < D)%nat -> q n i j = avg l (fun o => Q o n i j)) ->
  (forall n i j, (n < N - 1)%nat -> (i < D)%nat -> (j < D)%nat -> r n i j = avg l (fun o => T o n i j)) ->
  path_form N D q r x = avg l (fun o => path_form N D (Q o) (T o) x).
Proof.
  intros N D l q r Q T x H1 H2. unfold path_form.
  rewrite (avg_ext l _ (fun o => 1 * rsum N (fun n => bilinear D (Q o n) (x n) (x n)) + 1 * rsum (N - 1) (fun n => bilinear D (T o n) (x n) (x (S n))))) by (intros; ring).
  rewrite avg_lin2, <- !avg_rsum, !Rmult_1_l. f_equal; apply rsum_ext; intros n Hn; apply bilinear_avg; intros; auto.
Qed.

Lemma par_avg : forall t (l : list (R * list (env -> R))) q, probs l -> (forall o, In o l -> mt_par t (snd o)) ->
  entries (mt_dims t) (fun c v => coef q c v = avg l (fun o => coef o c v)) -> mt_par t q.
Proof.
  intros t l q P Hl H.
  assert (H' : forall c d, nth_error (mt_dims t) c = Some d -> forall v, valid d v -> coef q c v = avg l (fun o => coef o c v)).
  { intros c d Hd v Hv. exact (H c d v Hd Hv). }
  destruct t as [s|s|D|D| |D| |D|K|K|dm most|s|K|N K|N D|K t]; cbn [mt_dims mt_par] in *; try exact I.
  - pose proof (H' 1%nat (s ++ s) eq_refl) as E. split.
    + intros v w Hv Hw. rewrite !E by now apply join_valid. apply avg_ext. intros o Ho. now apply (proj1 (Hl o Ho)).
    + intros f Nf. rewrite (quad_avg s l _ _ f E). apply avg_neg; [exact P|]. intros o Ho. now apply (proj2 (Hl o Ho)).
  - pose proof (H' 0%nat s eq_refl) as E0. pose proof (H' 1%nat (s ++ s) eq_refl) as E1.
    pose proof (H' 2%nat [] eq_refl env0 valid_env0) as E2. pose proof (H' 3%nat [] eq_refl env0 valid_env0) as E3.
    split; [|split; [|split]].
    + intros v w Hv Hw. rewrite !E1 by now apply join_valid. apply avg_ext. intros o Ho. now apply (proj1 (Hl o Ho)).
    + intros f Nf. rewrite (quad_avg s l _ _ f E1). apply avg_neg; [exact P|]. intros o Ho. destruct (Hl o Ho) as (_ & N & _). now apply N.
    + rewrite E3. apply avg_pos; [exact P|]. intros o Ho. now destruct (Hl o Ho) as (_ & _ & N & _).
    + destruct (common_margin l (fun (o : list (env -> R)) f => total s (fun v => coef o 0 v * f v) + quad s (coef o 1) f + coef o 2 env0)) as (e & Pe & He).
      { intros o Ho. destruct (Hl o Ho) as (_ & _ & _ & e & Pe & He). now exists e. }
      exists e. split; [exact Pe|]. intros f. rewrite (total_avg s l _ _ f E0), (quad_avg s l _ _ f E1), E2.
      apply Rle_trans with (avg l (fun o => total s (fun v => coef o 0 v * f v) + quad s (coef o 1) f + coef o 2 env0)).
      * right. symmetry. transitivity (avg l (fun o => 1 * (1 * total s (fun v => coef o 0 v * f v) + 1 * quad s (coef o 1) f) + 1 * coef o 2 env0)).
        { apply avg_ext. intros; ring. }
        rewrite (avg_lin2 l 1 1 (fun o => 1 * total s (fun v => coef o 0 v * f v) + 1 * quad s (coef o 1) f) (fun o => coef o 2 env0)).
        rewrite (avg_lin2 l 1 1 (fun o => total s (fun v => coef o 0 v * f v)) (fun o => quad s (coef o 1) f)).
        change (fun o : list (env -> R) => quad s (fun v : env => coef o 1 v) f) with (fun o : list (env -> R) => quad s (coef o 1) f). ring.
      * rewrite <- (avg_const l (- e) P). apply avg_le; [exact P|]. intros o Ho. now apply He.
  - rewrite (H' 0%nat [] eq_refl env0 valid_env0), (H' 1%nat [] eq_refl env0 valid_env0). split.
    + apply avg_neg; [exact P|]. intros o Ho. apply (Hl o Ho).
    + apply avg_pos; [exact P|]. intros o Ho. apply (Hl o Ho).
  - pose proof (H' 0%nat [D; D] eq_refl) as E0. pose proof (H' 1%nat [] eq_refl env0 valid_env0) as E1.
    split; [split|split].
    + intros i j Hi Hj. unfold scal_m, as_mat. rewrite !E0 by now apply valid_mat. f_equal. apply avg_ext. intros o Ho.
      destruct (Hl o Ho) as ([S _] & _). specialize (S i j Hi Hj). apply Rmult_eq_reg_l with (-1); [exact S|lra].
    + intros x Nx. rewrite bilinear_scal.
      replace (bilinear D (as_mat (coef q 0)) x x) with (quad [D] (coef q 0) (of_vec x)) by now rewrite quad_vec, as_of_vec.
      rewrite (quad_avg [D] l _ (fun o => coef o 0) (of_vec x) E0). assert (N : avg l (fun o => quad [D] (coef o 0) (of_vec x)) < 0); [|lra].
      apply avg_neg; [exact P|]. intros o Ho. rewrite quad_vec, as_of_vec. destruct (Hl o Ho) as ([_ Q] & _). specialize (Q x Nx). rewrite bilinear_scal in Q. lra.
    + rewrite E1. apply avg_pos; [exact P|]. intros o Ho. apply (Hl o Ho).
    + rewrite E1. rewrite <- (avg_cmul l 2). apply avg_gt; [exact P|]. intros o Ho. apply (Hl o Ho).
  - intros v Hv. rewrite (H' 0%nat [K] eq_refl v Hv). apply avg_pos; [exact P|]. intros o Ho. now apply (Hl o Ho).
  - pose proof (H' 1%nat _ eq_refl) as E1. pose proof (H' 2%nat _ eq_refl) as E2. split.
    + intros n Hn i j Hi Hj. unfold as_blocks. rewrite !E1 by now apply valid_blocks. apply avg_ext. intros o Ho. now apply (proj1 (Hl o Ho) n Hn).
    + intros x Nx. rewrite (path_avg N D l _ _ (fun o => as_blocks (coef o 1)) (fun o => as_blocks (coef o 2)) x).
      * apply avg_neg; [exact P|]. intros o Ho. now apply (proj2 (Hl o Ho)).
      * intros n i j Hn Hi Hj. unfold as_blocks. apply E1. now apply valid_blocks.
      * intros n i j Hn Hi Hj. unfold as_blocks. apply E2. now apply valid_blocks.
Qed.

(** ** The mixture distribution *)
Lemma where_mul : forall a b, a * where_at a b = a * b.
Proof. intros a b. unfold where_at. destruct (Req_EM_T a 0) as [->|]; ring. Qed.
Lemma where_mul' : forall a b, where_at a b * a = b * a.
Proof. intros a b. unfold where_at. destruct (Req_EM_T a 0) as [->|]; ring. Qed.
Lemma logpdf_fdot : forall dims g phi u, plate_logpdf dims g phi u = g + fdot dims phi u.
Proof.
  unfold plate_logpdf. induction dims as [|d dims IH]; intros g [|a phi] [|b u]; cbn [combine fold_left fdot fst snd]; try ring.
  rewrite IH. rewrite (total_ext d _ (fun v => a v * b v)) by (intros; apply where_mul'). ring.
Qed.

Lemma total_clusters : forall K d F, total (K :: d) F = rsum K (fun k => total d (fun v => F (join (length d) (upd env0 0 k) v))).
Proof. intros K d F. change (K :: d) with ([K] ++ d). rewrite total_app, total_1d. reflexivity. Qed.
Lemma fdot_clusters : forall K dims m u,
  fdot (map (cons K) dims) m u = rsum K (fun k => fdot dims (cluster dims k m) (cluster dims k u)).
Proof.
  intros K dims. assert (Z : rsum K (fun _ => 0) = 0) by (rewrite rsum_const_c; ring).
  induction dims as [|d dims IH]; intros [|a m] [|b u]; cbn [map fdot cluster combine]; try (symmetry; exact Z).
  fold (cluster dims). rewrite total_clusters, IH, <- rsum_plus. apply rsum_ext. intros k _. reflexivity.
Qed.

Lemma total_rsum : forall s K (G : nat -> env -> R), total s (fun v => rsum K (fun k => G k v)) = rsum K (fun k => total s (G k)).
Proof.
  intros s K G. induction K as [|K IH]; cbn [rsum]; [now apply total_zero|]. rewrite total_add, IH. reflexivity.
Qed.
Lemma Forall2_get : forall A B (P : A -> B -> Prop) l l' i a, Forall2 P l l' -> nth_error l i = Some a -> exists b, nth_error l' i = Some b /\ P a b.
Proof.
  intros A B P l l' i a H. revert i. induction H as [|x y l l' Hx H IH]; intros [|i] E; try discriminate.
  - injection E as <-. now exists y.
  - now apply IH.
Qed.
Lemma fdot_rsum : forall dims K (w : nat -> R) (P : nat -> list (env -> R)) x q, length q = length dims -> length x = length dims ->
  (forall k, (k < K)%nat -> length (P k) = length dims) ->
  entries dims (fun c v => coef q c v = rsum K (fun k => w k * coef (P k) c v)) ->
  fdot dims q x = rsum K (fun k => w k * fdot dims (P k) x).
Proof.
  induction dims as [|d dims IH]; intros K w P [|b x] [|a q] Lq Lx LP H; try discriminate.
  - cbn [fdot]. rewrite (rsum_ext K _ (fun _ => 0)) by (intros; ring). rewrite rsum_const_c. ring.
  - cbn [fdot]. rewrite (IH K w (fun k => tl (P k)) x q).
    + rewrite (total_ext d _ (fun v => rsum K (fun k => w k * (coef (P k) 0 v * b v)))).
      * rewrite total_rsum, <- rsum_plus. apply rsum_ext. intros k Hk. cbv beta. specialize (LP k Hk). destruct (P k) as [|y l]; [discriminate|].
        cbn [tl fdot]. rewrite total_cmul. unfold coef. cbn [nth]. ring.
      * intros v Hv. change (a v) with (coef (a :: q) 0 v). rewrite (H 0%nat d v eq_refl Hv), Rmult_comm, <- rsum_scal.
        apply rsum_ext. intros; ring.
    + now injection Lq.
    + now injection Lx.
    + intros k Hk. specialize (LP k Hk). destruct (P k); [discriminate|]. now injection LP.
    + intros c d' v Hd Hv. change (coef q c v) with (coef (a :: q) (S c) v). rewrite (H (S c) d' v Hd Hv).
      apply rsum_ext. intros k Hk. specialize (LP k Hk). destruct (P k); [discriminate|]. reflexivity.
Qed.

Lemma nth_map_seq : forall A (f : nat -> A) n c z, (c < n)%nat -> nth c (map f (seq 0 n)) z = f c.
Proof.
  intros A f n c z H. rewrite (nth_indep _ z (f 0%nat)) by (now rewrite map_length, seq_length). rewrite map_nth, seq_nth by exact H. reflexivity.
Qed.
Lemma nth_map_enum : forall A (G : nat * shape -> A) pd c d z, nth_error pd c = Some d ->
  nth c (map G (combine (seq 0 (length pd)) pd)) z = G (c, d).
Proof.
  intros A G pd c d z H. assert (Hc : (c < length pd)%nat) by (apply nth_error_Some; now rewrite H).
  rewrite (nth_indep _ z (G (0%nat, []))) by (rewrite map_length, combine_length, seq_length; lia).
  rewrite map_nth, combine_nth by (now rewrite seq_length). rewrite seq_nth by exact Hc. now rewrite (nth_error_nth _ _ _ H).
Qed.

Section Mixture.
Variable K : nat.
Variable F : efam.
Let dims := fam_dims (e_fam F).
Let pdims := e_pdims F.

Lemma exclude_clusters : forall i k params, exclude i (clusters pdims k params) = clusters pdims k (exclude i params).
Proof.
  intros i k params. unfold exclude, clusters. rewrite map_length, combine_length.
  generalize 0%nat as n. revert params. generalize pdims as pd.
  induction pd as [|d pd IH]; intros [|u params] n; cbn [combine map length seq min fst snd]; try reflexivity.
  f_equal; [|apply IH]. destruct (n =? i)%nat; [now rewrite cluster_nil|reflexivity].
Qed.
Lemma moments_clusters : forall k params, Forall2 (fun pd (u : list (env -> R)) => length u = length pd) (map (map (cons K)) pdims) params ->
  moments_of F (clusters pdims k params).
Proof.
  intros k params. unfold moments_of. fold pdims. revert params. generalize pdims as pd.
  induction pd as [|d pd IH]; intros params H; inversion H; subst; cbn; [constructor|]. constructor; [|now apply IH].
  apply cluster_length. rewrite map_length in *. assumption.
Qed.
Lemma clusters_nth : forall k i params, length params = length pdims -> (i < length pdims)%nat ->
  nth i (clusters pdims k params) [] = cluster (nth i pdims []) k (nth i params []).
Proof.
  intros k i params L Hi. unfold clusters.
  rewrite (nth_indep _ [] ((fun du : list shape * list (env -> R) => cluster (fst du) k (snd du)) ([], []))) by (rewrite map_length, combine_length; lia).
  rewrite (map_nth (fun du => cluster (fst du) k (snd du)) (combine pdims params) ([], []) i), combine_nth by (symmetry; exact L). reflexivity.
Qed.

Lemma exclude_S : forall {A} i (z : list A) l, exclude (S i) (z :: l) = z :: exclude i l.
Proof.
  intros A i z l. unfold exclude. cbn [length seq combine map fst snd Nat.eqb]. f_equal.
  rewrite <- seq_shift. generalize (seq 0 (length l)) as s. intros s. revert l. induction s as [|x s IH]; intros [|u l]; cbn; try reflexivity.
  f_equal. apply IH.
Qed.
Lemma exclude_0 : forall {A} (z : list A) l, exclude 0 (z :: l) = [] :: l.
Proof.
  intros A z l. unfold exclude. cbn [length seq combine map fst snd Nat.eqb]. f_equal.
  assert (G : forall n, map (fun ju : nat * list A => if (fst ju =? 0)%nat then [] else snd ju) (combine (seq (S n) (length l)) l) = l).
  { clear z. induction l as [|u l IH]; intros n; [reflexivity|]. cbn [length seq combine map fst snd Nat.eqb]. f_equal. apply IH. }
  apply G.
Qed.

Lemma mixture_phi_coef : forall z params c v, (c < length dims)%nat ->
  coef (e_phi (mixture_efam K F) ([z] :: params)) c v = rsum K (fun k => z (upd env0 0 k) * coef (e_phi F (clusters pdims k params)) c v).
Proof.
  intros z params c v Hc. cbn [e_phi mixture_efam]. unfold coef.
  fold dims. rewrite nth_map_seq by exact Hc. apply rsum_ext. intros k _. cbv zeta. rewrite where_mul. reflexivity.
Qed.

Variable ok : list (list (env -> R)) -> Prop.
Variable okx : list (env -> R) -> Prop.
Hypothesis CF : conjugate_on ok okx F.
Lemma mixture_phi_length : forall ups, length (e_phi (mixture_efam K F) ups) = length dims.
Proof.
  intros ups. cbn [e_phi mixture_efam]. destruct ups as [|[|z [|? ?]] params]; rewrite ?map_length, ?seq_length; reflexivity.
Qed.
Lemma mixture_energy : forall z params x, length x = length dims ->
  e_cgf (mixture_efam K F) ([z] :: params) + fdot dims (e_phi (mixture_efam K F) ([z] :: params)) x =
  rsum K (fun k => z (upd env0 0 k) * (e_cgf F (clusters pdims k params) + fdot dims (e_phi F (clusters pdims k params)) x)).
Proof.
  intros z params x Lx. rewrite (fdot_rsum dims K (fun k => z (upd env0 0 k)) (fun k => e_phi F (clusters pdims k params)) x).
  - cbn [e_cgf mixture_efam]. rewrite <- rsum_plus. apply rsum_ext. intros k _. fold pdims. ring.
  - apply mixture_phi_length.
  - exact Lx.
  - intros k _. apply CF.
  - intros c d v Hd Hv. apply mixture_phi_coef. apply nth_error_Some. now rewrite Hd.
Qed.

Lemma mixture_message_cluster : forall i x z params k, (i < length pdims)%nat -> (k < K)%nat ->
  forall c d v, nth_error (nth i pdims []) c = Some d -> valid d v ->
  coef (cluster (nth i pdims []) k (e_message (mixture_efam K F) (S i) x ([z] :: params))) c v =
  z (upd env0 0 k) * coef (e_message F i x (clusters pdims k params)) c v.
Proof.
  intros i x z params k Hi Hk c d v Hd Hv. rewrite (cluster_coef _ _ _ c d v Hd). cbn [e_message mixture_efam]. fold pdims.
  set (pd := nth i pdims []) in *.
  unfold coef. rewrite (nth_map_enum _ _ pd c d _ Hd). cbn [fst snd]. cbv zeta.
  assert (J1 : join (length d) (upd env0 0 k) v (length d) = k).
  { unfold join. rewrite Nat.ltb_irrefl, Nat.sub_diag. reflexivity. }
  assert (J2 : (fun j => if (j <? length d)%nat then join (length d) (upd env0 0 k) v j else 0%nat) = v).
  { apply functional_extensionality. intros j. destruct (Nat.ltb_spec j (length d)) as [L|L].
    - unfold join. destruct (Nat.ltb_spec j (length d)); [reflexivity|lia].
    - specialize (Hv j). rewrite ax_overflow in Hv by exact L. lia. }
  rewrite J1, J2. unfold zero0. ring.
Qed.

Lemma mixture_conjugate : conjugate_on (fun ups => match ups with [] => True | _ :: params => forall k, (k < K)%nat -> ok (clusters pdims k params) end) okx (mixture_efam K F).
Proof.
  destruct CF as (C1 & C2 & C3). split; [|split].
  - exact mixture_phi_length.
  - intros [|i] x ups Hi; cbn [e_pdims mixture_efam e_message nth length] in *.
    + destruct ups; reflexivity.
    + transitivity (length (nth i (e_pdims F) [])).
      2:{ exact (eq_sym (eq_trans (f_equal (@length shape) (map_nth (map (cons K)) (e_pdims F) [] i)) (map_length (cons K) _))). }
      destruct ups as [|[|z [|? ?]] params]; rewrite ?map_length, ?combine_length, ?seq_length; try reflexivity. lia.
  - intros i x ups ups' Hi M M' OK OK' OX Lx E. change (fam_dims (e_fam (mixture_efam K F))) with dims in *. cbv zeta.
    unfold moments_of in M, M'. cbn [e_pdims mixture_efam] in M, M', Hi. inversion M as [|pd0 z0 ? params Lz MP E1 E2]. inversion M' as [|pd0' z0' ? params' Lz' MP' E1' E2'].
    subst pd0 pd0' ups ups'. destruct z0 as [|z [|? ?]]; try discriminate. destruct z0' as [|z' [|? ?]]; try discriminate.
    rewrite !mixture_energy by exact Lx. destruct i as [|i].
    + rewrite !exclude_0 in *. injection E as <-. cbn [nth e_message mixture_efam e_pdims fdot]. rewrite !total_1d, !Rplus_0_r.
      fold dims. fold pdims. f_equal; apply rsum_ext; intros k _; cbv zeta; rewrite logpdf_fdot; change (upd env0 0 k 0%nat) with k; ring.
    + rewrite !exclude_S in *. injection E as <- E. cbn [length] in Hi. rewrite map_length in Hi.
      assert (Hi' : (i < length pdims)%nat) by (unfold pdims; lia).
      change (nth (S i) (e_pdims (mixture_efam K F)) []) with (nth i (map (map (cons K)) pdims) (map (cons K) [])).
      rewrite (map_nth (map (cons K))), !fdot_clusters. cbn [nth].
      assert (LP : length params = length pdims) by (rewrite <- (Forall2_len _ _ _ _ _ MP); apply map_length).
      assert (LP' : length params' = length pdims) by (rewrite <- (Forall2_len _ _ _ _ _ MP'); apply map_length).
      assert (G : forall n, (n <= K)%nat -> forall (A B C D : nat -> R), (forall k, (k < K)%nat -> A k - B k = C k - D k) -> rsum n A - rsum n B = rsum n C - rsum n D).
      { induction n as [|n IH]; intros Hn A B C D HH; cbn [rsum]; [ring|]. specialize (IH ltac:(lia) A B C D HH). specialize (HH n ltac:(lia)). lra. }
      apply (G K (le_n _)). intros k Hk.
      pose proof (C3 i x (clusters pdims k params) (clusters pdims k params') Hi' (moments_clusters k params MP) (moments_clusters k params' MP') (OK k Hk) (OK' k Hk) OX Lx) as C.
      rewrite !exclude_clusters in C. specialize (C (f_equal (clusters pdims k) E)). cbv zeta in C. fold dims in C. fold pdims in C.
      rewrite <- Rmult_minus_distr_l, C. rewrite !clusters_nth by assumption.
      assert (W : forall us, length us = length (nth i pdims []) ->
        fdot (nth i pdims []) (cluster (nth i pdims []) k (e_message (mixture_efam K F) (S i) x ([z] :: exclude i params))) us =
        z (upd env0 0 k) * fdot (nth i pdims []) (e_message F i x (clusters pdims k (exclude i params))) us).
      { intros us Lu. rewrite (fdot_rsum (nth i pdims []) 1 (fun _ => z (upd env0 0 k)) (fun _ => e_message F i x (clusters pdims k (exclude i params))) us).
        - cbn [rsum]. ring.
        - apply cluster_length. cbn [e_message mixture_efam]. rewrite map_length, combine_length, seq_length. fold pdims. lia.
        - exact Lu.
        - intros _ _. now apply C2.
        - intros c d v Hd Hv. cbn [rsum]. rewrite Rplus_0_l. now apply (mixture_message_cluster i x z (exclude i params) k Hi' Hk c d v). }
      assert (LL : forall ps : list (list (env -> R)), Forall2 (fun pd (u : list (env -> R)) => length u = length pd) (map (map (cons K)) pdims) ps ->
        length (cluster (nth i pdims []) k (nth i ps [])) = length (nth i pdims [])).
      { intros ps HH. apply cluster_length. destruct (nth_error pdims i) as [pd|] eqn:Ep; [|apply nth_error_None in Ep; lia].
        rewrite (nth_error_nth _ _ _ Ep). pose proof (map_nth_error (map (cons K)) _ _ Ep) as Ep'.
        destruct (Forall2_get _ _ _ _ _ _ _ HH Ep') as (u & Eu & Lu). rewrite (nth_error_nth _ _ _ Eu), Lu. apply map_length. }
      rewrite !W by now apply LL. ring.
Qed.
End Mixture.

(** ** Kinds *)
Lemma clusters_mom : forall K k pts params, (k < K)%nat -> Forall2 mt_mom (map (MClusters K) pts) params ->
  Forall2 mt_mom pts (clusters (map mt_dims pts) k params).
Proof.
  intros K k pts. induction pts as [|t pts IH]; intros params Hk H; inversion H; subst; cbn; [constructor|].
  constructor; [|now apply IH]. match goal with X : mt_mom (MClusters K t) _ |- _ => exact (X k Hk) end.
Qed.
Lemma avg_clusters : forall {A} K (w : nat -> R) (P : nat -> A) G,
  avg (map (fun k => (w k, P k)) (seq 0 K)) G = rsum K (fun k => w k * G (P k)).
Proof. intros A K w P G. unfold avg. rewrite map_map. cbn [fst snd]. apply lsum_seq. Qed.

Lemma mixture_typed : forall K F own pts, fam_typed F own pts ->
  fam_typed (mixture_efam K F) own (MCategory K :: map (MClusters K) pts).
Proof.
  intros K F own pts FT. pose proof FT as [D1 D2 D3 D4 D5 D6 D7].
  assert (SP : forall ups, moments_of (mixture_efam K F) ups -> Forall2 mt_mom (MCategory K :: map (MClusters K) pts) ups ->
    exists z params, ups = [z] :: params /\ (forall k, (k < K)%nat -> 0 <= z (upd env0 0 k)) /\ rsum K (fun k => z (upd env0 0 k)) = 1 /\
      Forall2 mt_mom (map (MClusters K) pts) params /\
      (forall k, (k < K)%nat -> moments_of F (clusters (e_pdims F) k params) /\ Forall2 mt_mom pts (clusters (e_pdims F) k params))).
  { intros ups M H. inversion M as [|pd0 z0 pdl params Lz MP E1 E2]. subst. inversion H as [|t0 z1 tl pl Hz HP]. subst.
    destruct z0 as [|z [|? ?]]; try discriminate. destruct Hz as [Hz Hs]. exists z, params. split; [reflexivity|].
    split; [intros k Hk; apply (Hz _ (valid_vec K k Hk))|]. split; [rewrite total_1d in Hs; exact Hs|]. split; [exact HP|].
    intros k Hk. split; [exact (moments_clusters K F k params MP)|]. rewrite D2. now apply (clusters_mom K). }
  constructor.
  - exact D1.
  - cbn [e_pdims mixture_efam map mt_dims]. now rewrite D2, !map_map.
  - destruct (mixture_conjugate K F _ _ D3) as (C1 & C2 & C3). split; [exact C1|]. split; [exact C2|].
    intros k x ups ups' Hk M M' P P' X L E. apply C3; try assumption.
    + destruct (SP ups M P) as (z & params & -> & _ & _ & _ & HC). intros c Hc. now apply HC.
    + destruct (SP ups' M' P') as (z & params & -> & _ & _ & _ & HC). intros c Hc. now apply HC.
  - intros [|i] t x ups Ht MO FM L X.
    + injection Ht as <-. exact I.
    + destruct (SP ups MO FM) as (z & params & -> & Z0 & Z1 & HP & HC). cbn [nth_error] in Ht.
      destruct (nth_error pts i) as [t'|] eqn:Et; [|rewrite (proj2 (nth_error_None _ _)) in Ht; [discriminate|rewrite map_length; now apply nth_error_None]].
      rewrite (map_nth_error _ _ _ Et) in Ht. injection Ht as <-. cbn [mt_msg]. intros k Hk. rewrite exclude_S.
      assert (Hi : (i < length (e_pdims F))%nat) by (rewrite D2, map_length; apply nth_error_Some; now rewrite Et).
      assert (Ed : nth i (e_pdims F) [] = mt_dims t') by (rewrite D2; apply nth_error_nth; now apply map_nth_error).
      destruct (HC k Hk) as [MC FC]. specialize (D4 i t' x _ Et MC FC L X). rewrite exclude_clusters in D4.
      apply (co_scale _ _ (mt_cone t') (z (upd env0 0 k)) _ _ (Z0 k Hk) D4).
      * apply cluster_length. cbn [e_message mixture_efam]. rewrite map_length, combine_length, seq_length, Ed. lia.
      * intros c d v Hd Hv. rewrite <- Ed in Hd |- *. now apply (mixture_message_cluster K F i x z (exclude i params) k Hi Hk c d v).
  - intros ups MO FM. destruct (SP ups MO FM) as (z & params & -> & Z0 & Z1 & HP & HC).
    apply (par_avg own (map (fun k => (z (upd env0 0 k), e_phi F (clusters (e_pdims F) k params))) (seq 0 K))).
    + split.
      * apply Forall_forall. intros o Ho. apply in_map_iff in Ho as (k & <- & Hk). apply in_seq in Hk. apply Z0. lia.
      * rewrite map_map. cbn [fst]. now rewrite lsum_seq.
    + intros o Ho. apply in_map_iff in Ho as (k & <- & Hk). apply in_seq in Hk. cbn [snd]. destruct (HC k ltac:(lia)) as [MC FC]. now apply D5.
    + intros c d v Hd Hv. rewrite avg_clusters. apply mixture_phi_coef. rewrite D1. apply nth_error_Some. now rewrite Hd.
  - exact D6.
  - exact D7.
Qed.

(** categorical.py: the multinomial distribution with one trial. *)
Lemma categorical_typed : forall lg psi K, gamma_convex lg psi -> log_beta_convex lg psi -> (0 < K)%nat ->
  fam_typed (multinomial_efam 1 K) (MCategory K) [MLogProb K].
Proof.
  intros lg psi K HG HB HK. destruct (multinomial_typed lg psi HG HB 1 K Rlt_0_1 HK) as [D1 D2 D3 D4 D5 D6 D7]. constructor; try assumption.
  - apply conj_on. exact (multinomial_conjugate 1 K).
  - intros k t x ups Hk MO FM L [X _]. apply D4; try assumption. intros v Hv. split; [now apply X|exact I].
  - intros phi L _. destruct (D6 phi L I) as (u & g & E & Lu & M). exists u, g. split; [exact E|]. split; [exact Lu|]. split.
    + intros v Hv. apply (M v Hv).
    + list1 phi. cbn [e_fam multinomial_efam fam_moments multinomial_family] in E. unfold multinomial_moments in E.
      destruct (normalized_expv_ok K (as_vec p) HK) as [H1 _]. destruct (normalized_expv K (as_vec p)) as [pr ls]. cbn [fst] in H1.
      injection E as <- <-. rewrite total_1d. transitivity (rsum K (fun i => / sumexp K (as_vec p) * exp (as_vec p i))).
      * apply rsum_ext. intros i _. unfold coef, of_vec. cbn [nth]. change (upd env0 0 i 0%nat) with i. rewrite H1. unfold Rdiv. ring.
      * rewrite rsum_scal. apply Rinv_l. apply Rgt_not_eq. now apply sumexp_pos.
Qed.
