(** C71: the covariance shown by str() and set by initialize_from_mean_and_covariance. *)
From Coq Require Import List Arith ZArith Lia Bool Reals Lra FunctionalExtensionality.
From Verif Require Import Base Shapes SpecShapes ShapesLemmas NumPy TensorLemmas PNumeric ArrayTools SpecArrayTools PArrayTools
  AddNode GaussArrays PGaussArrays GaussPrint.
Import ListNotations.
Open Scope R_scope.

Lemma count_ones : forall n, count (repeat 1%nat n) = 1%nat.
Proof. induction n as [|n IH]; [reflexivity|]. change (1 * count (repeat 1 n) = 1)%nat. lia. Qed.
Lemma place_ones : forall n, place (repeat 1%nat n) (repeat 0%nat n) = 0%nat.
Proof. induction n as [|n IH]; [reflexivity|]. cbn [repeat place]. lia. Qed.
Lemma inside_ones : forall n, inside (repeat 1%nat n) (repeat 0%nat n).
Proof. induction n as [|n IH]; [constructor|]. constructor; [lia|exact IH]. Qed.
Lemma ax_ones : forall n k, ax (repeat 1%nat n) k = 1%nat.
Proof.
  intros n k. unfold ax. destruct (Nat.lt_ge_cases k (length (rev (repeat 1%nat n)))) as [H|H]; [|now apply nth_overflow].
  apply (repeat_spec n 1%nat). apply in_rev. now apply nth_In.
Qed.

(** The outer product of the mean with itself. *)
Lemma outer_at : forall (a : arr R) P d, ash a = P ++ d ->
  exists y, la_outer a a (length d) = Ok y /\ ash y = P ++ d ++ d /\
    forall p i j, inside P p -> inside d i -> inside d j -> at_ y (p ++ i ++ j) = at_ a (p ++ i) * at_ a (p ++ j).
Proof.
  intros a P d H. unfold la_outer. destruct (Nat.eqb_spec (length d) 0) as [Z|Z].
  - destruct d; [|discriminate]. rewrite app_nil_r in H. cbn [app]. unfold np_multiply, np_map2. rewrite np_bshape_eq, H.
    rewrite (proj2 (broadcasted_shape_ok [P; P] P) (upper_broadcast _ _ (broadcasts_to_refl _))). cbn [bind].
    eexists. split; [reflexivity|]. split; [now rewrite app_nil_r|]. intros p i j Hp Hi Hj. inversion Hi; inversion Hj; subst. cbn [app]. rewrite !app_nil_r.
    now rewrite at_arr.
  - assert (L : (length (ash a) - length d)%nat = length P) by (rewrite H, app_length; lia). unfold ndim.
    destruct (Nat.ltb_spec (length (ash a)) (length d)) as [X|_]; [rewrite H, app_length in X; lia|]. rewrite L, H.
    rewrite firstn_app, Nat.sub_diag, firstn_all, skipn_app, Nat.sub_diag, skipn_all. cbn [firstn skipn app]. rewrite app_nil_r.
    set (ones := repeat 1%nat (length d)). set (zeros := repeat 0%nat (length d)).
    destruct (reshape_some _ a ((P ++ d) ++ ones)) as (A & EA & SA); [rewrite H, !count_app; unfold ones; rewrite count_ones; lia|].
    destruct (reshape_some _ a (P ++ ones ++ d)) as (B & EB & SB); [rewrite H, !count_app; unfold ones; rewrite count_ones; lia|].
    rewrite EA, EB. cbn [bind].
    assert (N : numpy_broadcast [ash A; ash B] (P ++ d ++ d)).
    { assert (LO : length ones = length d) by apply repeat_length. rewrite SA, SB. split; [|split].
      - intros s [<- | [<- | []]]; rewrite !app_length; lia.
      - right. exists ((P ++ d) ++ ones). split; [now left|]. rewrite !app_length. lia.
      - assert (X : forall k, ax ((P ++ d) ++ ones) k = if (k <? length d)%nat then 1%nat else ax (P ++ d ++ d) k).
        { intros k. rewrite !ax_app_low, !app_length, LO. destruct (Nat.ltb_spec k (length d)); [apply ax_ones|].
          repeat match goal with |- context [(?x <? ?y)%nat] => destruct (Nat.ltb_spec x y) end; try lia; f_equal; lia. }
        assert (Y : forall k, ax (P ++ ones ++ d) k = if ((length d <=? k) && (k <? 2 * length d))%nat then 1%nat else ax (P ++ d ++ d) k).
        { intros k. rewrite !ax_app_low, !app_length, LO.
          destruct (Nat.leb_spec (length d) k), (Nat.ltb_spec k (2 * length d)); cbn [andb];
          repeat match goal with |- context [(?x <? ?y)%nat] => destruct (Nat.ltb_spec x y) end; try lia; try apply ax_ones; try reflexivity; f_equal; lia. }
        intros k. split.
        + intros s [<- | [<- | []]]; rewrite ?X, ?Y; [destruct (_ <? _)%nat|destruct (_ && _)%bool]; auto.
        + right. destruct (Nat.ltb_spec k (length d)) as [C|C].
          * exists (P ++ ones ++ d). split; [right; now left|]. rewrite Y. destruct (Nat.leb_spec (length d) k); [lia|reflexivity].
          * exists ((P ++ d) ++ ones). split; [now left|]. rewrite X. destruct (Nat.ltb_spec k (length d)); [lia|reflexivity]. }
    destruct (np_map2_total _ _ _ Rmult A B (P ++ d ++ d)) as (y & EY & SY); [now apply broadcasted_shape_ok|].
    exists y. split; [exact EY|]. split; [exact SY|]. intros p i j Hp Hi Hj. destruct (np_map2_ok _ _ _ _ _ _ _ EY) as [_ V].
    unfold at_ at 1. rewrite V.
    apply inside_length in Hp as Lp. apply inside_length in Hi as Li. apply inside_length in Hj as Lj.
    assert (LZ : length zeros = length d) by apply repeat_length.
    f_equal.
    + transitivity (at_ A ((p ++ i) ++ zeros)).
      * unfold at_. apply bget_ext. intros k Hk NK. rewrite SA in NK. rewrite ax_app_low in NK. unfold ones at 1 in NK. rewrite repeat_length in NK.
        destruct (Nat.ltb_spec k (length d)) as [C|C]; [unfold ones in NK; rewrite ax_ones in NK; contradiction|].
        change (pos (p ++ i ++ j) k = pos ((p ++ i) ++ zeros) k). rewrite app_assoc, !pos_app_low, Lj, LZ. destruct (Nat.ltb_spec k (length d)); [lia|reflexivity].
      * apply (reshape_at _ a A _ _ _ EA).
        -- rewrite H. now apply inside_app.
        -- apply inside_app; [now apply inside_app|apply inside_ones].
        -- rewrite H. rewrite (place_app (P ++ d) ones (p ++ i) zeros) by (rewrite !app_length; lia). unfold ones, zeros. rewrite count_ones, place_ones. lia.
    + transitivity (at_ B (p ++ zeros ++ j)).
      * unfold at_. apply bget_ext. intros k Hk NK. rewrite SB in NK. rewrite !ax_app_low in NK. unfold ones in NK. rewrite app_length, repeat_length in NK.
        change (pos (p ++ i ++ j) k = pos (p ++ zeros ++ j) k). rewrite !pos_app_low, !app_length, Lj, LZ, Li.
        destruct (Nat.ltb_spec k (length d + length d)) as [C|C]; [|reflexivity]. destruct (Nat.ltb_spec k (length d)) as [C'|C']; [reflexivity|].
        rewrite ax_ones in NK. contradiction.
      * apply (reshape_at _ a B _ _ _ EB).
        -- rewrite H. now apply inside_app.
        -- apply inside_app; [exact Hp|]. apply inside_app; [apply inside_ones|exact Hj].
        -- rewrite H. rewrite !place_app by (try assumption; unfold ones; now rewrite repeat_length). rewrite count_app.
           unfold ones, zeros. rewrite count_ones, place_ones. lia.
Qed.

Lemma combine_at : forall f (a o : arr R) s, ash a = s -> ash o = s -> exists y, np_map2 f a o = Ok y /\ ash y = s /\
  forall ix, at_ y ix = f (at_ a ix) (at_ o ix) :> R.
Proof.
  intros f a o s H1 H2. destruct (np_map2_total _ _ _ f a o s) as (y & E & S).
  { rewrite H1, H2. apply broadcasted_shape_ok, upper_broadcast, broadcasts_to_refl. }
  exists y. split; [exact E|]. split; [exact S|]. intros ix. destruct (np_map2_ok _ _ _ _ _ _ _ E) as [_ V]. apply V.
Qed.

(** str() of a Gaussian node shows, for every plate, the covariance of its elements. *)
Theorem C71_gaussian_shown : forall (u0 u1 : arr R) P d, ash u0 = P ++ d -> ash u1 = P ++ d ++ d ->
  exists C, gaussian_shown u0 u1 (length d) = Ok C /\ ash C = P ++ d ++ d /\
    forall p i j, inside P p -> inside d i -> inside d j -> at_ C (p ++ i ++ j) = at_ u1 (p ++ i ++ j) - at_ u0 (p ++ i) * at_ u0 (p ++ j).
Proof.
  intros u0 u1 P d H0 H1. unfold gaussian_shown. destruct (outer_at u0 P d H0) as (o & -> & SO & VO). cbn [bind].
  destruct (combine_at Rminus u1 o _ H1 SO) as (C & -> & SC & VC). exists C. split; [reflexivity|]. split; [exact SC|].
  intros p i j Hp Hi Hj. now rewrite VC, VO.
Qed.

(** So does a GaussianARD node whose variable is a vector. *)
Theorem C71_ard_shown_vector : forall (u0 u1 : arr R) P n, ash u0 = P ++ [n] -> ash u1 = P ++ [n; n] ->
  exists C, ard_shown u0 u1 = Ok C /\ ash C = P ++ [n; n] /\
    forall p i j, inside P p -> (i < n)%nat -> (j < n)%nat -> at_ C (p ++ [i; j]) = at_ u1 (p ++ [i; j]) - at_ u0 (p ++ [i]) * at_ u0 (p ++ [j]).
Proof.
  intros u0 u1 P n H0 H1. destruct (C71_gaussian_shown u0 u1 P [n] H0 H1) as (C & E & S & V). exists C. split; [exact E|]. split; [exact S|].
  intros p i j Hp Hi Hj. apply (V p [i] [j] Hp); (constructor; [assumption|constructor]).
Qed.

(** But not one whose variable is a scalar, the default: without plates str() raises, and with n plates
    (two or more) it shows an n x n matrix in which the products of the means of different plates are
    subtracted from the second moments. *)
Theorem C71_ard_shown_scalar_refuted :
  (forall u0 u1 : arr R, ash u0 = [] -> ard_shown u0 u1 = Err ValueError) /\
  (forall (u0 u1 : arr R) n, ash u0 = [n] -> ash u1 = [n] -> exists C, ard_shown u0 u1 = Ok C /\ ash C = [n; n] /\
     forall i j, (i < n)%nat -> (j < n)%nat -> at_ C [i; j] = at_ u1 [j] - at_ u0 [i] * at_ u0 [j]) /\
  (exists (u0 u1 C : arr R), ash u0 = [2%nat] /\ ash u1 = [2%nat] /\ (forall i, (i < 2)%nat -> 0 < at_ u1 [i] - at_ u0 [i] * at_ u0 [i]) /\
     ard_shown u0 u1 = Ok C /\ at_ C [1%nat; 0%nat] < 0).
Proof.
  assert (G : forall (u0 u1 : arr R) n, ash u0 = [n] -> ash u1 = [n] -> exists C, ard_shown u0 u1 = Ok C /\ ash C = [n; n] /\
     forall i j, (i < n)%nat -> (j < n)%nat -> at_ C [i; j] = at_ u1 [j] - at_ u0 [i] * at_ u0 [j]).
  { intros u0 u1 n H0 H1. unfold ard_shown. destruct (outer_at u0 [] [n] H0) as (o & E & SO & VO). cbn [length] in E. rewrite E. cbn [bind].
    destruct (np_map2_total _ _ _ Rminus u1 o [n; n]) as (C & EC & SC).
    { apply broadcasted_shape_ok. rewrite H1, SO. apply upper_broadcast. split; [cbn; lia|]. intros [|[|[|k]]]; cbn; auto. }
    exists C. split; [exact EC|]. split; [exact SC|]. intros i j Hi Hj. destruct (np_map2_ok _ _ _ _ _ _ _ EC) as [_ V]. unfold at_ at 1. rewrite V. f_equal.
    - unfold at_. apply bget_ext. intros k Hk _. rewrite H1 in Hk. cbn in Hk. assert (k = 0%nat) as -> by lia. reflexivity.
    - apply (VO [] [i] [j]); [constructor|constructor; [exact Hi|constructor]|constructor; [exact Hj|constructor]]. }
  split; [|split; [exact G|]].
  - intros u0 u1 H. unfold ard_shown, la_outer, ndim. rewrite H. reflexivity.
  - set (a := Arr [2%nat] (fun e => if (e 0 =? 0)%nat then 1 else 3)). set (b := Arr [2%nat] (fun e => if (e 0 =? 0)%nat then 2 else 10)).
    assert (A : forall i, (i < 2)%nat -> at_ a [i] = (if (i =? 0)%nat then 1 else 3) /\ at_ b [i] = (if (i =? 0)%nat then 2 else 10)).
    { intros i Hi. unfold a, b. rewrite !at_arr by (constructor; [exact Hi|constructor]). split; reflexivity. }
    destruct (G a b 2%nat eq_refl eq_refl) as (C & E & S & V). exists a, b, C. split; [reflexivity|]. split; [reflexivity|]. split; [|split; [exact E|]].
    + intros i Hi. destruct (A i Hi) as [-> ->]. destruct i as [|[|i]]; [| |lia]; cbn; lra.
    + rewrite V by lia. destruct (A 0%nat) as [-> ->]; [lia|]. destruct (A 1%nat) as [-> _]; [lia|]. cbn. lra.
Qed.

(** Nor one whose variable is a matrix: unless the two lengths are equal or one of them is 1, str() raises. *)
Theorem C71_ard_shown_matrix_refuted : forall (u0 u1 : arr R) m n, ash u0 = [m; n] -> ash u1 = [m; n; m; n] ->
  m <> n -> m <> 1%nat -> n <> 1%nat -> ard_shown u0 u1 = Err ValueError.
Proof.
  intros u0 u1 m n H0 H1 D M1 N1. unfold ard_shown. destruct (outer_at u0 [m] [n] H0) as (o & E & SO & _). cbn [length] in E. rewrite E. cbn [bind].
  unfold np_map2. rewrite np_bshape_eq, H1, SO. rewrite (proj2 (broadcasted_shape_error_iff _)); [reflexivity|].
  exists 1%nat, [m; n; m; n], [m; n; n]. cbn. repeat split; auto.
Qed.

(** The documentation of linalg.outer says that for ndim=2 and arrays of shape (..., m, n) the result has
    shape (..., m, m, n, n); its axes are (..., m, n, m, n), as the nodes above need. *)
Theorem C71_outer_documented_shape_refuted :
  (forall (a : arr R) P m n, ash a = P ++ [m; n] -> exists y, la_outer a a 2 = Ok y /\ ash y = P ++ [m; n; m; n]) /\
  (exists a y : arr R, ash a = [2; 3]%nat /\ la_outer a a 2 = Ok y /\ ash y <> [2; 2; 3; 3]%nat).
Proof.
  assert (G : forall (a : arr R) P m n, ash a = P ++ [m; n] -> exists y, la_outer a a 2 = Ok y /\ ash y = P ++ [m; n; m; n]).
  { intros a P m n H. destruct (outer_at a P [m; n] H) as (y & E & S & _). now exists y. }
  split; [exact G|]. destruct (G (ramp [2; 3]%nat) [] 2%nat 3%nat eq_refl) as (y & E & S). exists (ramp [2; 3]%nat), y.
  split; [reflexivity|]. split; [exact E|]. rewrite S. discriminate.
Qed.

(** The moments set from a mean and a covariance have that mean and that covariance. *)
Theorem C71_initialize : forall (mu Cov : arr R) P d, ash mu = P ++ d -> ash Cov = P ++ d ++ d ->
  exists u1, initial_moments mu Cov (length d) = Ok (mu, u1) /\ ash u1 = P ++ d ++ d /\
    forall p i j, inside P p -> inside d i -> inside d j -> at_ u1 (p ++ i ++ j) - at_ mu (p ++ i) * at_ mu (p ++ j) = at_ Cov (p ++ i ++ j).
Proof.
  intros mu Cov P d H0 H1. unfold initial_moments. destruct (outer_at mu P d H0) as (o & -> & SO & VO). cbn [bind].
  destruct (combine_at Rplus Cov o _ H1 SO) as (u & -> & SU & VU). exists u. split; [reflexivity|]. split; [exact SU|].
  intros p i j Hp Hi Hj. rewrite VU, VO by assumption. ring.
Qed.

Example C71_case : exists u1 C, initial_moments (ramp [4; 2; 3]%nat) (ramp [4; 2; 3; 2; 3]%nat) 2 = Ok (ramp [4; 2; 3]%nat, u1) /\
  gaussian_shown (ramp [4; 2; 3]%nat) u1 2 = Ok C /\ at_ C [3; 1; 2; 1; 0]%nat = at_ (ramp [4; 2; 3; 2; 3]%nat) [3; 1; 2; 1; 0]%nat.
Proof.
  destruct (C71_initialize (ramp [4; 2; 3]%nat) (ramp [4; 2; 3; 2; 3]%nat) [4%nat] [2; 3]%nat eq_refl eq_refl) as (u & E & S & V).
  destruct (C71_gaussian_shown (ramp [4; 2; 3]%nat) u [4%nat] [2; 3]%nat eq_refl S) as (C & E' & S' & V').
  exists u, C. split; [exact E|]. split; [exact E'|].
  assert (I : inside [4%nat] [3%nat]) by (repeat constructor). assert (I1 : inside [2; 3]%nat [1; 2]%nat) by (repeat constructor). assert (I2 : inside [2; 3]%nat [1; 0]%nat) by (repeat constructor).
  specialize (V' _ _ _ I I1 I2). specialize (V _ _ _ I I1 I2). cbn [app] in V, V'. now rewrite V'.
Qed.

Example C71_matrix_case : ard_shown (ramp [2; 3]%nat) (ramp [2; 3; 2; 3]%nat) = Err ValueError.
Proof. now apply (C71_ard_shown_matrix_refuted _ _ 2%nat 3%nat). Qed.

Print Assumptions C71_gaussian_shown.
Print Assumptions C71_ard_shown_vector.
Print Assumptions C71_ard_shown_scalar_refuted.
Print Assumptions C71_ard_shown_matrix_refuted.
Print Assumptions C71_outer_documented_shape_refuted.
Print Assumptions C71_initialize.
