(** Sums of matrices over plates, and the derivative of the rotation bound. *)
From Coq Require Import List Arith ZArith Lia Bool Reals Lra FunctionalExtensionality.
From Verif Require Import Base Shapes SpecShapes ShapesLemmas NumPy MiscArray TensorLemmas EinsumLemmas SumMultiplyLemmas SpecArray PlateSumLemmas PlateSum2Lemmas
  PlateSum3Lemmas MessageLemmas ShapeOpsLemmas SpecDot ExpFam ExpFamLemmas ExpFamBound NetworkLemmas DetNetLemmas GateLemmas PArrays PGate DotPart AddNode LinalgLemmas2 ConcatLemmas3 MarkovLemmas
  Families FamiliesLemmas FamiliesLemmas2 Linalg MatBridge SpecLinalg LinalgLemmas Gaussian SpecGaussian GaussLemmas GaussAlg PGaussian PGaussian2 PRotation DiagLemmas DetGrad
  RotateARD SpecRotateARD RotateLemmas RotateLemmas2 RotateLemmas3 RotateLemmas4.
Import ListNotations.
Open Scope nat_scope.

Lemma mat_at_upd : forall e k x i j, upd (mat_at e i j) (S (S k)) x = mat_at (upd e k x) i j.
Proof.
  intros e k x i j. apply functional_extensionality. intros [|[|l]]; rewrite ?mat_at_eq; unfold upd; rewrite ?mat_at_eq; cbn; reflexivity.
Qed.
Lemma itersum_shift : forall l F e i j,
  itersum (map (fun p => (S (S (fst p)), snd p)) l) F (mat_at e i j) = itersum l (fun t => F (mat_at t i j)) e.
Proof.
  induction l as [|[k m] l IH]; intros F e i j; cbn [map]; [reflexivity|]. unfold itersum in *. cbn [fold_right fst snd]. unfold sumax.
  apply rsum_ext. intros x _. rewrite mat_at_upd. apply IH.
Qed.

Lemma named_not_last2 : forall n, 2 <= n -> filter (asked_to_sum n (AxList [-1; -2]%Z) false) (seq 0 n) = seq 2 (n - 2).
Proof.
  intros n H. replace (seq 0 n) with (seq 0 2 ++ seq 2 (n - 2)) by (rewrite <- seq_app; f_equal; lia). rewrite filter_app.
  assert (K : forall k, k < n -> asked_to_sum n (AxList [-1; -2]%Z) false k = (2 <=? k)).
  { intros k Hk. unfold asked_to_sum, named. cbn [existsb]. rewrite !orb_false_r.
    destruct (Z.eqb_spec (Z.of_nat n - 1 - Z.of_nat k) (-1)); [lia|]. destruct (Z.eqb_spec (Z.of_nat n - 1 - Z.of_nat k) (-2)); [lia|]. cbn [orb].
    destruct (Z.eqb_spec (-1 - Z.of_nat k) (-1)), (Z.eqb_spec (-1 - Z.of_nat k) (-2)), (Nat.leb_spec 2 k); cbn; try reflexivity; lia. }
  rewrite filter_false, filter_true; [reflexivity| |].
  - intros k Hk. apply in_seq in Hk. rewrite K by lia. apply Nat.leb_le. lia.
  - intros k Hk. apply in_seq in Hk. rewrite K by lia. apply Nat.leb_gt. lia.
Qed.

Lemma sum_plates_mat_ok : forall D V plates, broadcasts_to (ash V) (plates ++ [D; D]) ->
  exists g, sum_plates_mat D V plates = Ok g /\
    forall i j, i < D -> j < D -> g i j = total plates (fun t => bget V (mat_at t i j)).
Proof.
  intros D V plates HV. unfold sum_plates_mat. set (pV := get_plates 2 (ash V)).
  assert (BV : broadcasts_to pV plates).
  { destruct HV as [H1 H2]. rewrite app_length in H1. cbn in H1. unfold pV, get_plates. split; [rewrite firstn_length; lia|]. intros k.
    destruct (Nat.lt_ge_cases k (length (ash V) - 2)) as [C|C]; [|left; apply ax_overflow; rewrite firstn_length; lia].
    rewrite ax_firstn by lia. replace (length (ash V) - (length (ash V) - 2) + k) with (S (S k)) by lia. specialize (H2 (S (S k))). rewrite ax_app in H2.
    cbn [length] in H2. destruct (Nat.ltb_spec (S (S k)) 2); [lia|]. now replace (S (S k) - 2) with k in H2 by lia. }
  replace (broadcasting_multiplier plates [pV]) with (Ok (bm_value plates [pV])) by (symmetry; apply broadcasting_multiplier_ok; split; [intros x [<-|[]]; exact BV|reflexivity]).
  cbn [bind].
  assert (HO : broadcasts_to (ash (np_ones [D; D])) (plates ++ [D; D])).
  { cbn [np_ones ash]. split; [rewrite app_length; cbn; lia|]. intros k. rewrite ax_app. cbn [length]. destruct (Nat.ltb_spec k 2); [now right|left; apply ax_overflow; cbn; lia]. }
  assert (BT : forall s, In s (map ash [V; np_ones [D; D]]) -> broadcasts_to s (plates ++ [D; D])) by (intros s [<-|[<-|[]]]; assumption).
  destruct (broadcast_exists_of_upper _ _ BT) as [T HT]. apply broadcasted_shape_ok in HT as NB. pose proof NB as (N1 & N2 & N3).
  assert (L2 : 2 <= length T) by (apply (N1 [D; D]); right; now left).
  assert (AT : forall k, k < 2 -> ax T k = D).
  { intros k Hk. apply (nb_ax_val _ _ k D NB).
    - intros x [<-|[<-|[]]]; [|right; destruct k as [|[|k]]; [reflexivity|reflexivity|lia]]. destruct HV as [_ H2]. specialize (H2 k). rewrite ax_app in H2. cbn [length] in H2.
      destruct (Nat.ltb_spec k 2); [|lia]. destruct k as [|[|k]]; [exact H2|exact H2|lia].
    - right. exists [D; D]. split; [right; now left|]. destruct k as [|[|k]]; [reflexivity|reflexivity|lia]. }
  assert (AV : forall k, ax T (S (S k)) = ax pV k).
  { intros k. apply (nb_ax_val _ _ (S (S k)) (ax pV k) NB).
    - intros x [<-|[<-|[]]]; [|left; apply ax_overflow; cbn; lia]. right. unfold pV, get_plates.
      destruct (Nat.lt_ge_cases k (length (ash V) - 2)) as [C|C]; [|rewrite !ax_overflow by (rewrite ?firstn_length; lia); reflexivity].
      rewrite ax_firstn by lia. f_equal. lia.
    - destruct (Nat.lt_ge_cases k (length (ash V) - 2)) as [C|C]; [|left; apply ax_overflow; unfold pV, get_plates; rewrite firstn_length; lia].
      right. exists (ash V). split; [now left|]. unfold pV, get_plates. rewrite ax_firstn by lia. f_equal. lia. }
  assert (DA : distinct_axes (length T) (AxList [-1; -2]%Z) false).
  { cbn [distinct_axes]. split; [intros x [<-|[<-|[]]]; lia|]. cbn [map]. change (-1 >=? 0)%Z with false. change (-2 >=? 0)%Z with false. cbv iota.
    constructor; [intros [E|[]]; lia|]. constructor; [intros []|constructor]. }
  destruct (C06_sum_multiply_is_multiply_then_sum [V; np_ones [D; D]] T (AxList [-1; -2]%Z) false false ltac:(discriminate) NB DA) as (y & Ey & Sy & Gy).
  unfold numpy_sum in Sy, Gy. rewrite named_not_last2 in Sy, Gy by exact L2. rewrite Ey. cbn [bind].
  destruct (np_sum_lead (product_array [V; np_ones [D; D]] T) 2 L2) as (T1 & T2 & T3). unfold ndim in T1, T2, T3. cbn [product_array ash] in T1, T2, T3. cbn zeta in T1, T2, T3.
  assert (BP : forall e, bget (product_array [V; np_ones [D; D]] T) e = bget V e).
  { intros e0. change (product_array [V; np_ones [D; D]] T) with (Arr T (fun e => lprod (map (fun a => bget a e) [V; np_ones [D; D]]))).
    rewrite (bget_P [V; np_ones [D; D]] T) by exact HT. unfold prodf. cbn [map fold_right lprod]. change (bget (np_ones [D; D]) e0) with 1%R. ring. }
  eexists. split; [reflexivity|]. intros i j Hi Hj. cbv beta. rewrite Gy.
  - rewrite T3.
    rewrite (total_expand plates pV) by (try exact BV; intros k Hk e x; apply bget_ext; intros l _ Nl; rewrite <- mat_at_upd; apply upd_other; intros ->;
      apply Nl; pose proof (AV k) as E; rewrite Hk in E; destruct (N3 (S (S k))) as [F _]; destruct (F (ash V) (or_introl eq_refl)); congruence).
    f_equal. rewrite total_iter, <- itersum_shift.
    assert (LP : length pV = length T - 2).
    { unfold pV, get_plates. rewrite firstn_length. destruct N2 as [E|(x & [<-|[<-|[]]] & E)].
      - subst T. cbn in L2. lia.
      - rewrite E. lia.
      - cbn in E. specialize (N1 (ash V) (or_introl eq_refl)). lia. }
    rewrite LP. replace (map (fun p => (S (S (fst p)), snd p)) (map (fun k => (k, ax pV k)) (seq 0 (length T - 2)))) with (map (fun k => (k, ax T k)) (seq 2 (length T - 2))).
    + replace (bget (product_array [V; np_ones [D; D]] T)) with (bget V) by (apply functional_extensionality; intros e; now rewrite BP). reflexivity.
    + rewrite <- (seq_shift _ 1), <- (seq_shift _ 0), !map_map. apply map_ext. intros k. cbn [fst snd]. now rewrite AV.
  - intros k. rewrite mat_at_eq. rewrite Sy. destruct k as [|[|k]].
    + rewrite T2, AT by lia. exact Hj.
    + rewrite T2, AT by lia. exact Hi.
    + rewrite ax_overflow by (rewrite T1; lia). unfold env0. lia.
Qed.

Lemma d_total : forall s (F : env -> R -> R) x (l : env -> R), (forall e, valid s e -> derivable_pt_lim (F e) x (l e)) ->
  derivable_pt_lim (fun t => total s (fun e => F e t)) x (total s l).
Proof.
  intros s F x l H. unfold total. assert (K : forall e, In e (all_indices s) -> valid s e) by (intros; now apply all_indices_valid).
  revert K. generalize (all_indices s). induction l0 as [|e r IH]; intros K; unfold lsum in *; cbn [map fold_right].
  - apply d_const.
  - apply d_plus; [apply H, K; now left|]. apply IH. intros e' He'. apply K. now right.
Qed.
Lemma d_fibre : forall S s t0 (F : env -> R -> R) x (l : env -> R), (forall e, valid S e -> derivable_pt_lim (F e) x (l e)) ->
  derivable_pt_lim (fun t => fibre_sum S s t0 (fun e => F e t)) x (fibre_sum S s t0 l).
Proof.
  intros S s t0 F x l H. rewrite fibre_total.
  apply (dlim_ext (fun t => total S (fun e => if maps_to (length S) s e t0 then F e t else 0%R))).
  { intros t. now rewrite fibre_total. }
  apply (d_total S (fun e t => if maps_to (length S) s e t0 then F e t else 0%R)). intros e He. destruct (maps_to (length S) s e t0); [now apply H|apply d_const].
Qed.

Section Derivative.
Variable M : rot_model.
Let n := rm_nodes M.
Let P := rn_plates n.
Let D := rn_D n.
Let q := outer_alpha n.
Let PA := plates_alpha n.
Hypothesis OK : rot_ok M.
Hypothesis PR : proper M.
Hypothesis SYM : forall p, valid P p -> forall k l, k < D -> l < D -> x_second M p k l = x_second M p l k.
Variables (Rm inv : mat) (i j : nat).
Hypothesis I : is_inverse D Rm inv.
Hypothesis Hi : i < D.
Hypothesis Hj : j < D.
Let HP := ro_plates M OK.

Lemma inverse_nonzero : mdet D Rm <> 0%R.
Proof. intros Z. pose proof (inverse_det I) as E. rewrite Z in E. lra. Qed.

(** The derivative of the deviations of a plate. *)
Definition dd (p : env) : R := (2 * rsum D (fun k => Rm i k * x_second M p k j) - 2 * (x_mean M p j * mu_mean M (vec_at p i)))%R.
Definition de (e : env) : R := if e 0 =? i then dd (outer_plate e) else 0%R.

Lemma mupd_self : forall a b, mupd Rm i j (Rm i j) a b = Rm a b.
Proof. intros a b. unfold mupd. destruct (Nat.eqb_spec a i), (Nat.eqb_spec b j); cbn; congruence. Qed.
Lemma d_entry : forall a b, derivable_pt_lim (fun t => mupd Rm i j t a b) (Rm i j) (if (a =? i) && (b =? j) then 1 else 0)%R.
Proof. intros a b. unfold mupd. destruct ((a =? i) && (b =? j)); [apply d_id|apply d_const]. Qed.

Lemma d_deviation : forall e, valid (P ++ [D]) e -> derivable_pt_lim (fun t => deviation M (mupd Rm i j t) inv 0%R e) (Rm i j) (de e).
Proof.
  intros e He. destruct (valid_outer _ _ _ He) as [Ho Ha]. rewrite <- (at_vec e). set (p := outer_plate e) in *. set (a := e 0) in *.
  refine (dlim_ext _ _ _ _ (fun t => eq_sym (deviation_eq M (mupd Rm i j t) inv 0%R p a Ha)) _). fold n D.
  eapply dlim_eq.
  - apply d_plus; [apply d_minus; [apply d_rsum; intros k Hk; apply d_mult; [apply d_rsum; intros l Hl; apply d_mult; [apply d_entry|apply d_const]|apply d_entry]
      |apply d_scal, d_rsum; intros k Hk; apply d_mult; [apply d_entry|apply d_const]]|apply d_const].
  - cbv beta. unfold de. rewrite vec_at_0, vec_at_outer. destruct (Nat.eqb_spec a i) as [->|NE]; cbn [andb].
    + unfold dd.
      rewrite (rsum_ext D _ (fun k => x_second M p j k * Rm i k + (if k =? j then rsum D (fun l => Rm i l * x_second M p l k) else 0)))%R.
      2:{ intros k Hk. rewrite mupd_self. f_equal.
          - f_equal. rewrite (rsum_ext D _ (fun l => if l =? j then x_second M p l k else 0))%R; [apply (rsum_single D j (fun l => x_second M p l k) Hj)|].
            intros l Hl. destruct (l =? j); ring.
          - rewrite (rsum_ext D (fun l => mupd Rm i j (Rm i j) i l * x_second M p l k)%R (fun l => Rm i l * x_second M p l k)%R) by (intros; now rewrite mupd_self).
            destruct (k =? j); ring. }
      rewrite rsum_plus, (rsum_single D j (fun k => rsum D (fun l => Rm i l * x_second M p l k))%R Hj).
      rewrite (rsum_ext D (fun x => (if x =? j then 1 else 0) * _ + _)%R (fun k => if k =? j then x_mean M p k * mu_mean M (vec_at p i) else 0))%R.
      2:{ intros k Hk. destruct (k =? j); ring. }
      rewrite (rsum_single D j (fun k => x_mean M p k * mu_mean M (vec_at p i))%R Hj).
      rewrite (rsum_ext D (fun x => x_second M p j x * Rm i x)%R (fun k => Rm i k * x_second M p k j)%R) by (intros k Hk; rewrite (SYM p Ho j k Hj Hk); ring).
      ring.
    + rewrite (rsum_ext D _ (fun _ => 0))%R.
      2:{ intros k Hk. rewrite (rsum_ext D _ (fun _ => 0))%R by (intros; ring). rewrite rsum_0. ring. }
      rewrite rsum_0. rewrite (rsum_ext D _ (fun _ => 0))%R by (intros; ring). rewrite rsum_0. ring.
Qed.

Lemma d_entropy : derivable_pt_lim (fun t => total P (fun _ => ln (Rabs (mdet D (mupd Rm i j t))))) (Rm i j) (total P (fun _ => inv j i)).
Proof. apply (d_total P (fun _ t => ln (Rabs (mdet D (mupd Rm i j t))))). intros e _. apply logdet_derive; [exact Hi|exact Hj|exact I|exact inverse_nonzero]. Qed.

(** Sums of the derivatives, weighted by something that only depends on the plate of alpha. *)
Lemma row_total : forall G, total (P ++ [D]) (fun e => G e * de e)%R = total P (fun p => G (vec_at p i) * dd p)%R.
Proof.
  intros G. rewrite total_vec. apply total_ext. intros p _.
  rewrite (rsum_ext D _ (fun k => if k =? i then G (vec_at p k) * dd p else 0))%R; [apply (rsum_single D i (fun k => G (vec_at p k) * dd p)%R Hi)|].
  intros k Hk. unfold de. rewrite vec_at_0, vec_at_outer. destruct (k =? i); ring.
Qed.
Lemma row_sum : forall G, (forall k, ax PA k = 1 -> indep k G) ->
  total (P ++ [D]) (fun e => G e * de e)%R = total q (fun t => G (vec_at t i) * fibre_sum P q t dd)%R.
Proof.
  intros G HG. rewrite row_total. apply (total_mul P q dd (fun p => G (vec_at p i))); [apply (q_ok M OK)|].
  intros k Hk e x. assert (E : ax PA (S k) = 1) by (unfold q, PA, n in *; rewrite <- q_ax; exact Hk).
  rewrite <- (HG (S k) E (vec_at e i) x). f_equal. apply functional_extensionality. intros l. unfold vec_at, join, upd, env0.
  destruct l as [|l]; cbn; [reflexivity|]. now replace (l - 0) with l by lia.
Qed.
Lemma row_sum_alpha : forall G, (forall k, ax PA k = 1 -> indep k G) ->
  total PA (fun s => G s * fibre_sum (P ++ [D]) PA s de)%R = total q (fun t => G (vec_at t i) * fibre_sum P q t dd)%R.
Proof. intros G HG. rewrite <- row_sum by exact HG. symmetry. apply total_mul; [apply (pa_ok M OK)|exact HG]. Qed.

(** An array that only depends on the plate of alpha, summed over all elements of X. *)
Lemma count_sum : forall G, (forall k, ax PA k = 1 -> indep k G) ->
  total (P ++ [D]) G = (INR (bm_value P [q]) * (INR (bm_value [D] [[last PA 1%nat]]) * total PA G))%R.
Proof.
  intros G HG. rewrite (total_app P [D]).
  assert (SP : PA = q ++ [last PA 1]) by apply pa_split.
  assert (QK : forall k, ax q k = 1 -> ax PA (S k) = 1) by (intros k Hk; unfold q, PA, n in *; now rewrite <- q_ax).
  rewrite (total_expand P q).
  - f_equal. rewrite SP at 2. rewrite (total_app q [last PA 1]), <- total_rscal. apply total_ext. intros t _. change (length [D]) with 1. change (length [last PA 1]) with 1.
    apply total_expand.
    + split; [reflexivity|]. intros [|[|k]]; [|now left|now left]. unfold ax; cbn. apply (pa_last M OK).
    + intros k Hk e x. destruct k as [|k].
      * assert (E : ax PA 0 = 1) by (rewrite SP, ax_last; exact Hk). rewrite <- (HG 0 E (join 1 t e) x). f_equal. apply functional_extensionality. intros [|l]; unfold join, upd; cbn; reflexivity.
      * f_equal. apply functional_extensionality. intros [|l]; unfold join, upd; cbn; reflexivity.
  - apply (q_ok M OK).
  - intros k Hk e x. apply total_ext. intros v _. rewrite <- (HG (S k) (QK k Hk) (join (length [D]) e v) x). f_equal. apply functional_extensionality. intros [|l]; unfold join, upd; cbn; [reflexivity|].
    now replace (l - 0) with l by lia.
Qed.
End Derivative.
