(** C72: the logarithms of determinants of triangular matrices. *)
From Coq Require Import List Arith ZArith Lia Bool Reals Lra FunctionalExtensionality.
From Verif Require Import Base Shapes SpecShapes ShapesLemmas NumPy TensorLemmas ArrayTools SpecArrayTools PArrayTools
  Linalg MatBridge SpecLinalg LinalgLemmas GaussArrays PGaussArrays LogDet.
Import ListNotations.
Open Scope R_scope.

(** Matrix [p] of a collection of matrices. *)
Definition matrix_of (U : arr R) (p : list nat) : mat := fun i j => at_ U (p ++ [i; j]).

Lemma diagonal_at : forall (U : arr R) P n, ash U = P ++ [n; n] -> exists d, np_diagonal U = Ok d /\ ash d = P ++ [n] /\
  forall p i, inside P p -> (i < n)%nat -> at_ d (p ++ [i]) = at_ U (p ++ [i; i]).
Proof.
  intros U P n H. unfold np_diagonal, ndim. assert (A0 : ax (ash U) 0 = n) by (rewrite H; unfold ax; now rewrite rev_app_distr).
  assert (A1 : ax (ash U) 1 = n) by (rewrite H; unfold ax; now rewrite rev_app_distr).
  rewrite A0, A1, Nat.eqb_refl. destruct (Nat.leb_spec 2 (length (ash U))) as [_|X]; [|rewrite H, app_length in X; cbn in X; lia]. cbn [andb].
  eexists. split; [reflexivity|]. assert (S : removelast (ash U) = P ++ [n]).
  { rewrite H. change [n; n] with ([n] ++ [n]). rewrite app_assoc. apply removelast_last. }
  split; [exact S|]. rewrite S. intros p i Hp Hi. rewrite at_arr by (apply inside_app; [exact Hp|constructor; [exact Hi|constructor]]).
  unfold at_. f_equal. apply functional_extensionality. intros k. unfold pos. rewrite !rev_app_distr. cbn [rev app]. now destruct k as [|[|k]].
Qed.

Lemma sum_last_at : forall (a : arr R) P n p, ash a = P ++ [n] -> inside P p ->
  at_ (np_sum_last a) p = rsum n (fun i => at_ a (p ++ [i])).
Proof.
  intros a P n p H Hp. unfold np_sum_last. assert (A0 : ax (ash a) 0 = n) by (rewrite H; unfold ax; now rewrite rev_app_distr).
  rewrite A0, H, removelast_last. rewrite at_arr by exact Hp. apply rsum_ext. intros i Hi. unfold at_. f_equal.
  apply functional_extensionality. intros k. rewrite rev_app_distr. now destruct k.
Qed.

Lemma at_map : forall (f : R -> R) a ix, at_ (np_map f a) ix = f (at_ a ix).
Proof.
  intros f a ix. unfold at_, np_map. unfold bget at 1. cbn [ash aget]. f_equal. apply bget_ext. intros k _ N. unfold clip.
  destruct (Nat.eqb_spec (ax (ash a) k) 1); [contradiction|reflexivity].
Qed.

(** logdet_chol gives, for every matrix of the collection, the logarithm of the determinant of U'U. *)
Theorem C72_logdet_chol : forall (U : arr R) P n, ash U = P ++ [n; n] ->
  (forall p, inside P p -> triangular n (matrix_of U p)) ->
  exists y, logdet_chol U = Ok y /\ ash y = P /\
    forall p, inside P p -> at_ y p = ln (mdet n (mmdot n (transpose (matrix_of U p)) (matrix_of U p))).
Proof.
  intros U P n H T. unfold logdet_chol. destruct (diagonal_at U P n H) as (d & -> & S & V). cbn [bind]. eexists. split; [reflexivity|].
  split; [cbn [ash np_map np_sum_last]; rewrite S; apply removelast_last|]. intros p Hp. rewrite at_map.
  rewrite (sum_last_at (np_map ln d) P n p S Hp), mdet_mul, mdet_tr, mdet_tri by now apply T.
  assert (G : forall i, (i < n)%nat -> 0 < matrix_of U p i i) by (intros; now apply (tri_pos _ _ (T p Hp))).
  pose proof (prodn_pos n (fun i => matrix_of U p i i) G) as Q. rewrite ln_mult, ln_prodn by assumption.
  rewrite (rsum_ext n (fun i => at_ (np_map ln d) (p ++ [i])) (fun i => ln (matrix_of U p i i))); [ring|].
  intros i Hi. rewrite at_map. unfold matrix_of. now rewrite V.
Qed.

Lemma mdet_upper : forall n (U : mat), (forall i j, (i < n)%nat -> (j < i)%nat -> U i j = 0) -> mdet n U = prodn n (fun i => U i i).
Proof.
  induction n as [|n IH]; intros U T; [apply mdet_0|].
  rewrite mdet_first by (intros i Hi; apply T; lia). cbn [prodn]. f_equal. rewrite IH; [reflexivity|]. intros i j Hi Hj. unfold tail_m. apply T; lia.
Qed.
Lemma abs_prodn : forall n f, Rabs (prodn n f) = prodn n (fun i => Rabs (f i)).
Proof. induction n as [|n IH]; intros f; cbn [prodn]; [apply Rabs_R1|]. now rewrite Rabs_mult, IH. Qed.

(** logdet_tri of one upper or lower triangular matrix is the logarithm of the absolute value of its determinant. *)
Theorem C72_logdet_tri : forall (U : arr R) n, ash U = [n; n] ->
  (forall i j, (i < n)%nat -> (j < i)%nat -> at_ U [i; j] = 0) \/ (forall i j, (j < n)%nat -> (i < j)%nat -> at_ U [i; j] = 0) ->
  (forall i, (i < n)%nat -> at_ U [i; i] <> 0) ->
  exists y, logdet_tri U = Ok y /\ ash y = [] /\ at_ y [] = ln (Rabs (mdet n (matrix_of U []))).
Proof.
  intros U n H T NZ. unfold logdet_tri. destruct (diagonal_at U [] n H) as (d & -> & S & V). cbn [bind]. eexists. split; [reflexivity|]. split; [reflexivity|].
  assert (D : mdet n (matrix_of U []) = prodn n (fun i => at_ U [i; i])).
  { destruct T as [T|T]; [exact (mdet_upper n (matrix_of U []) T)|]. rewrite <- mdet_tr. apply (mdet_upper n (transpose (matrix_of U []))).
    intros i j Hi Hj. now apply T. }
  rewrite D, abs_prodn, ln_prodn by (intros i Hi; now apply Rabs_pos_lt, NZ).
  unfold np_sum_all. rewrite at_arr by constructor. change (ash (np_map (fun v => ln (Rabs v)) d)) with (ash d). rewrite S.
  cbn [app length seq map itersum fold_right fst snd]. unfold sumax. change (ax [n] 0) with n. apply rsum_ext. intros i Hi.
  assert (VI : at_ d [i] = at_ U [i; i]) by (apply (V [] i); [constructor|exact Hi]). rewrite <- VI. rewrite <- (at_map (fun v => ln (Rabs v))). unfold at_. apply bget_ext.
  intros k Hk _. cbn [ash np_map] in Hk. rewrite S in Hk. cbn in Hk. assert (k = 0%nat) as -> by lia. reflexivity.
Qed.

(** Of a collection of matrices it does not give one logarithm for each, unlike logdet_chol: the result is a
    single number, the sum over all of them. *)
Theorem C72_logdet_tri_collection_refuted :
  (forall (U : arr R) P n, ash U = P ++ [n; n] -> exists y, logdet_tri U = Ok y /\ ash y = []) /\
  (forall U : arr R, ash U = [2; 1; 1]%nat -> exists y, logdet_tri U = Ok y /\
     at_ y [] = ln (Rabs (at_ U [0; 0; 0]%nat)) + ln (Rabs (at_ U [1; 0; 0]%nat))).
Proof.
  split.
  - intros U P n H. unfold logdet_tri. destruct (diagonal_at U P n H) as (d & -> & S & V). eexists. split; reflexivity.
  - intros U H. unfold logdet_tri. destruct (diagonal_at U [2%nat] 1%nat H) as (d & -> & S & V). cbn [bind]. eexists. split; [reflexivity|].
    unfold np_sum_all. rewrite at_arr by constructor. change (ash (np_map (fun v => ln (Rabs v)) d)) with (ash d). rewrite S.
    assert (I0 : inside [2%nat] [0%nat]) by (repeat constructor). assert (I1 : inside [2%nat] [1%nat]) by (repeat constructor).
    pose proof (V [0%nat] 0%nat I0 Nat.lt_0_1) as V0. pose proof (V [1%nat] 0%nat I1 Nat.lt_0_1) as V1. cbn [app] in V0, V1. rewrite <- V0, <- V1.
    rewrite <- !(at_map (fun v => ln (Rabs v))). set (f := np_map _ d). assert (SF : ash f = [2; 1]%nat) by exact S.
    assert (B : forall e, bget f e = at_ f [e 1%nat; 0%nat]).
    { intros e. unfold at_. apply bget_ext. intros k Hk NK. rewrite SF in Hk, NK. cbn in Hk. destruct k as [|[|k]]; [|reflexivity|lia]. now elim NK. }
    cbn [app length seq map itersum fold_right fst snd]. unfold sumax. change (ax [2; 1]%nat 0) with 1%nat. change (ax [2; 1]%nat 1) with 2%nat.
    cbn [rsum]. rewrite !B. unfold upd. cbn [Nat.eqb]. lra.
Qed.

(** For one axis of upper triangular matrices this number is the sum of their logarithms. *)
Theorem C72_logdet_tri_collection_sum : forall (U : arr R) m n, ash U = [m; n; n] ->
  (forall p i j, (p < m)%nat -> (i < n)%nat -> (j < i)%nat -> at_ U [p; i; j] = 0) ->
  (forall p i, (p < m)%nat -> (i < n)%nat -> at_ U [p; i; i] <> 0) ->
  exists y, logdet_tri U = Ok y /\ ash y = [] /\ at_ y [] = rsum m (fun p => ln (Rabs (mdet n (matrix_of U [p])))).
Proof.
  intros U m n H T NZ. unfold logdet_tri. destruct (diagonal_at U [m] n H) as (d & -> & S & V). cbn [bind]. eexists. split; [reflexivity|]. split; [reflexivity|].
  unfold np_sum_all. rewrite at_arr by constructor. change (ash (np_map (fun v => ln (Rabs v)) d)) with (ash d). rewrite S.
  cbn [app length seq map itersum fold_right fst snd]. unfold sumax. change (ax [m; n] 0) with n. change (ax [m; n] 1) with m.
  rewrite rsum_swap. apply rsum_ext. intros p Hp.
  rewrite (mdet_upper n (matrix_of U [p]) (fun i j Hi Hj => T p i j Hp Hi Hj)), abs_prodn, ln_prodn by (intros i Hi; now apply Rabs_pos_lt, (NZ p i)).
  apply rsum_ext. intros i Hi. unfold matrix_of. 
  assert (I : inside [m] [p]) by (constructor; [exact Hp|constructor]). rewrite <- (V [p] i I Hi).
  rewrite <- (at_map (fun v => ln (Rabs v))). unfold at_. apply bget_ext. intros k Hk _. cbn [ash np_map] in Hk. rewrite S in Hk. cbn in Hk.
  destruct k as [|[|k]]; [reflexivity|reflexivity|lia].
Qed.

(** Two upper triangular matrices, and a lower triangular one with a negative determinant. *)
Definition two_factors : arr R := Arr [2; 2; 2]%nat (fun e => if (e 0 <? e 1)%nat then 0 else INR (1 + e 0 + e 1 + 4 * e 2)%nat).
Definition lower_matrix : arr R := Arr [2; 2]%nat (fun e => if (e 1 <? e 0)%nat then 0 else if (e 0 =? 0)%nat then -2 else 3).
Example C72_case :
  (exists y, logdet_chol two_factors = Ok y /\ ash y = [2%nat]) /\
  (exists y, logdet_tri lower_matrix = Ok y /\ at_ y [] = ln (Rabs (mdet 2 (matrix_of lower_matrix [])))).
Proof.
  split.
  - destruct (C72_logdet_chol two_factors [2%nat] 2%nat eq_refl) as (y & E & S & _); [|now exists y].
    intros p Hp. assert (K : forall i j, (i < 2)%nat -> (j < 2)%nat -> exists q, matrix_of two_factors p i j = if (j <? i)%nat then 0 else INR (1 + j + i + 4 * q)%nat).
    { intros i j Hi Hj. inversion Hp as [|q ? p' ? Hq Hr]; subst. inversion Hr; subst. exists q. unfold matrix_of, two_factors. rewrite at_arr; [reflexivity|].
      constructor; [exact Hq|]. constructor; [exact Hi|]. constructor; [exact Hj|constructor]. }
    split.
    + intros i j Hi Hj. destruct (K i j Hi) as [q ->]; [lia|]. destruct (Nat.ltb_spec j i); [reflexivity|lia].
    + intros i Hi. destruct (K i i Hi Hi) as [q ->]. rewrite Nat.ltb_irrefl. apply lt_0_INR. lia.
  - assert (K : forall i j, (i < 2)%nat -> (j < 2)%nat -> at_ lower_matrix [i; j] = if (i <? j)%nat then 0 else if (j =? 0)%nat then -2 else 3).
    { intros i j Hi Hj. unfold lower_matrix. rewrite at_arr; [reflexivity|]. constructor; [exact Hi|]. constructor; [exact Hj|constructor]. }
    destruct (C72_logdet_tri lower_matrix 2%nat eq_refl) as (y & E & _ & V); [| |now exists y].
    + right. intros i j Hj Hi. rewrite K by lia. destruct (Nat.ltb_spec i j); [reflexivity|lia].
    + intros i Hi. rewrite K by assumption. rewrite Nat.ltb_irrefl. destruct (_ =? _)%nat; lra.
Qed.

Example C72_collection_case : exists y, logdet_tri two_factors = Ok y /\
  at_ y [] = rsum 2 (fun p => ln (Rabs (mdet 2 (matrix_of two_factors [p])))).
Proof.
  assert (K : forall p i j, (p < 2)%nat -> (i < 2)%nat -> (j < 2)%nat -> at_ two_factors [p; i; j] = if (j <? i)%nat then 0 else INR (1 + j + i + 4 * p)%nat).
  { intros p i j Hp Hi Hj. unfold two_factors. rewrite at_arr; [reflexivity|]. constructor; [exact Hp|]. constructor; [exact Hi|]. constructor; [exact Hj|constructor]. }
  destruct (C72_logdet_tri_collection_sum two_factors 2%nat 2%nat eq_refl) as (y & E & _ & V); [| |now exists y].
  - intros p i j Hp Hi Hj. rewrite K by lia. destruct (Nat.ltb_spec j i); [reflexivity|lia].
  - intros p i Hp Hi. rewrite K by assumption. rewrite Nat.ltb_irrefl. apply not_0_INR. lia.
Qed.

Print Assumptions C72_logdet_chol.
Print Assumptions C72_logdet_tri.
Print Assumptions C72_logdet_tri_collection_refuted.
Print Assumptions C72_logdet_tri_collection_sum.
