(** C43: block_banded_solve solves block-tridiagonal systems, for any number and size
    of blocks. *)
From Coq Require Import List Arith Lia ZArith Bool Reals Lra Classical.
From Verif Require Import Base NumPy Families TensorLemmas Linalg MatBridge SpecLinalg LinalgLemmas GaussAlg PGaussian
  SchurAlg BlockBanded SpecBlock BlockShift BlockLemmas.
Import ListNotations.
Open Scope R_scope.

Lemma solve_inv : forall n A U b, symmetric n A -> cho_factor n A = Ok U -> veq n (cho_solve n U b) (mvdot n (chol_inv n U) b).
Proof.
  intros n A U b S E i Hi. destruct (chol_inv_ok n A U S E) as [_ H2]. assert (K := cho_factor_solve n A U b S E).
  transitivity (mvdot n (mmdot n (chol_inv n U) A) (cho_solve n U b) i).
  - rewrite (mvdot_ext n _ identity _ (cho_solve n U b) H2 (fun _ _ => eq_refl) i Hi). unfold mvdot, identity.
    rewrite (rsum_ext n _ (fun j => if (j =? i)%nat then cho_solve n U b i else 0)).
    { now rewrite (rsum_single n i (fun _ => cho_solve n U b i)) by exact Hi. }
    intros j Hj. rewrite Nat.eqb_sym. destruct (Nat.eqb_spec j i) as [->|]; ring.
  - rewrite <- (mvdot_assoc n _ A _ i Hi). apply mvdot_ext; [intros ? ? ? ?; reflexivity|exact K|exact Hi].
Qed.

Section TRI.
Variable D : nat.
Hypothesis HD : (1 <= D)%nat.
Lemma div_add : forall q, ((D + q) / D = S (q / D))%nat.
Proof. intros q. replace (D + q)%nat with (q + 1 * D)%nat by lia. rewrite Nat.div_add by lia. lia. Qed.
Lemma mod_add : forall q, ((D + q) mod D = q mod D)%nat.
Proof. intros q. replace (D + q)%nat with (q + 1 * D)%nat by lia. now rewrite Nat.mod_add by lia. Qed.
Lemma tri_hd : forall A B i j, (i < D)%nat -> (j < D)%nat -> tridiagonal D A B i j = A O i j.
Proof. intros. unfold tridiagonal, block_of. rewrite !Nat.div_small, !Nat.mod_small by assumption. reflexivity. Qed.
Lemma tri_top : forall A B i q, (i < D)%nat -> tridiagonal D A B i (D + q)%nat = if (q <? D)%nat then B O i q else 0.
Proof.
  intros A B i q Hi. unfold tridiagonal, block_of. rewrite div_add, mod_add, (Nat.div_small i), (Nat.mod_small i) by assumption.
  cbn [Nat.eqb]. destruct (Nat.ltb_spec q D) as [L|L].
  - now rewrite Nat.div_small, Nat.mod_small by assumption.
  - destruct (q / D)%nat eqn:E; [|reflexivity]. apply Nat.div_small_iff in E; lia.
Qed.
Lemma tri_tl : forall A B p q, tridiagonal D A B (D + p)%nat (D + q)%nat = tridiagonal D (shift_f A) (shift_f B) p q.
Proof. intros. unfold tridiagonal, block_of. rewrite !div_add, !mod_add. cbn [Nat.eqb]. reflexivity. Qed.
Lemma div_lt : forall N p, (p < N * D)%nat -> (p / D < N)%nat.
Proof. intros N p H. apply Nat.div_lt_upper_bound; lia. Qed.
Lemma tri_sym : forall N A B, (forall n, (n < N)%nat -> symmetric D (A n)) -> symmetric (N * D) (tridiagonal D A B).
Proof.
  intros N A B Sy p q Hp Hq. unfold tridiagonal, block_of. apply div_lt in Hp. apply div_lt in Hq.
  assert (p mod D < D)%nat by (apply Nat.mod_upper_bound; lia). assert (q mod D < D)%nat by (apply Nat.mod_upper_bound; lia).
  rewrite (Nat.eqb_sym (p / D) (q / D)). destruct (Nat.eqb_spec (q / D) (p / D)) as [E|E]; [rewrite E in *; now apply Sy|].
  destruct (Nat.eqb_spec (q / D) (S (p / D))) as [F|F], (Nat.eqb_spec (p / D) (S (q / D))) as [G|G]; (reflexivity || lia).
Qed.
Lemma flat_hd : forall x i, (i < D)%nat -> flat D x i = x O i.
Proof. intros. unfold flat. now rewrite Nat.div_small, Nat.mod_small. Qed.
Lemma flat_tl : forall x i, flat D x (D + i)%nat = flat D (shift_f x) i.
Proof. intros. unfold flat. now rewrite div_add, mod_add. Qed.

Section STEP.
Variables (m : nat) (A B : blocks) (U : mat).
Hypothesis SA : forall n, (n < S (S m))%nat -> symmetric D (A n).
Hypothesis EU : cho_factor D (A O) = Ok U.
Let M := tridiagonal D A B.
Let W := chol_inv D U.
Lemma A0_sym : symmetric D (A O). Proof. apply SA. lia. Qed.
Lemma M_sym : symmetric (D + S m * D)%nat M. Proof. apply (tri_sym (S (S m))). exact SA. Qed.
Lemma M_hd : meq D (A O) M. Proof. intros i j Hi Hj. symmetry. now apply tri_hd. Qed.
Lemma W_inv0 : is_inverse D (A O) W. Proof. apply chol_inv_ok; [apply A0_sym|exact EU]. Qed.
Lemma W_inv : is_inverse D M W. Proof. apply (inverse_ext D (A O)); [apply M_hd|apply W_inv0]. Qed.
Lemma solve_m : forall X i j, (i < D)%nat -> chol_solve_m D U X i j = mmdot D W X i j.
Proof. intros X i j Hi. exact (solve_inv D (A O) U (fun k => X k j) A0_sym EU i Hi). Qed.

Lemma schur_next : meq (S m * D) (schur D M W) (tridiagonal D (next_A D A B U) (shift_f B)).
Proof.
  assert (G : forall i j, schur D M W i j = tridiagonal D (shift_f A) (shift_f B) i j -
      (if (i <? D)%nat && (j <? D)%nat then mmdot D (transpose (B O)) (chol_solve_m D U (B O)) i j else 0)).
  { intros i j. unfold schur. fold (D + i)%nat (D + j)%nat. unfold M at 1. rewrite tri_tl. f_equal.
    unfold mmdot, transpose. destruct (Nat.ltb_spec i D) as [Li|Li]; cbn [andb].
    - destruct (Nat.ltb_spec j D) as [Lj|Lj].
      + apply rsum_ext. intros k Hk. unfold M. rewrite tri_top by exact Hk. rewrite (proj2 (Nat.ltb_lt i D) Li). f_equal.
        rewrite solve_m by exact Hk. unfold mmdot. apply rsum_ext. intros l Hl. rewrite tri_top by exact Hl.
        now rewrite (proj2 (Nat.ltb_lt j D) Lj).
      + apply rsum_zero. intros k Hk. rewrite (rsum_zero D); [ring|]. intros l Hl. unfold M. rewrite tri_top by exact Hl.
        rewrite (proj2 (Nat.ltb_ge j D)) by exact Lj. ring.
    - apply rsum_zero. intros k Hk. unfold M at 1. rewrite tri_top by exact Hk. rewrite (proj2 (Nat.ltb_ge i D)) by exact Li. ring. }
  assert (Sy := schur_sym D (S m * D) M W M_sym W_inv).
  intros i j Hi Hj. destruct (Nat.ltb_spec i D) as [Li|Li], (Nat.ltb_spec j D) as [Lj|Lj].
  - rewrite tri_hd by assumption. 
    change (next_A D A B U O i j) with (0.5 * ((A 1%nat i j - mmdot D (transpose (B O)) (chol_solve_m D U (B O)) i j) +
      (A 1%nat j i - mmdot D (transpose (B O)) (chol_solve_m D U (B O)) j i))).
    assert (E1 := G i j). assert (E2 := G j i). rewrite (proj2 (Nat.ltb_lt i D) Li), (proj2 (Nat.ltb_lt j D) Lj) in E1, E2. cbn [andb] in E1, E2.
    rewrite tri_hd in E1, E2 by assumption. unfold shift_f in E1, E2. rewrite <- E1, <- E2. rewrite (Sy j i Hj Hi). lra.
  - rewrite G, (proj2 (Nat.ltb_ge j D) Lj), andb_false_r, Rminus_0_r. replace j with (D + (j - D))%nat by lia.
    rewrite !tri_top by exact Li. reflexivity.
  - rewrite Sy by assumption. rewrite G, (proj2 (Nat.ltb_ge i D) Li), andb_false_r, Rminus_0_r. 
    unfold tridiagonal, block_of. rewrite (Nat.div_small j), (Nat.mod_small j) by assumption.
    replace i with (D + (i - D))%nat by lia. rewrite div_add, mod_add. cbn [Nat.eqb]. unfold next_A, cons_f, shift_f. 
    destruct ((i - D) / D)%nat; reflexivity.
  - rewrite G, (proj2 (Nat.ltb_ge j D) Lj), andb_false_r, Rminus_0_r. replace j with (D + (j - D))%nat by lia.
    replace i with (D + (i - D))%nat by lia. rewrite !tri_tl. reflexivity.
Qed.
Lemma next_sym : forall n, (n < S m)%nat -> symmetric D (next_A D A B U n).
Proof.
  intros [|n] Hn; [|apply SA; lia]. intros i j Hi Hj. unfold next_A, cons_f, next_block, symmetrise, transpose. lra.
Qed.
(** W B0, in the top rows. *)
Lemma half_eq : forall i q, (i < D)%nat -> half D M W i q = if (q <? D)%nat then chol_solve_m D U (B O) i q else 0.
Proof.
  intros i q Hi. unfold half. fold (D + q)%nat. destruct (Nat.ltb_spec q D) as [L|L].
  - rewrite solve_m by exact Hi. apply rsum_ext. intros l Hl. unfold M. rewrite tri_top by exact Hl. now rewrite (proj2 (Nat.ltb_lt q D) L).
  - apply rsum_zero. intros l Hl. unfold M. rewrite tri_top by exact Hl. rewrite (proj2 (Nat.ltb_ge q D) L). ring.
Qed.
Lemma half_sum : forall i (f : nat -> R), (i < D)%nat ->
  rsum (S m * D) (fun k => half D M W i k * f k) = rsum D (fun k => chol_solve_m D U (B O) i k * f k).
Proof.
  intros i f Hi. change (S m * D)%nat with (D + m * D)%nat. rewrite rsum_app. rewrite (rsum_zero (m * D)).
  - rewrite Rplus_0_r. apply rsum_ext. intros k Hk. rewrite half_eq by exact Hi. now rewrite (proj2 (Nat.ltb_lt k D) Hk).
  - intros k Hk. rewrite half_eq by exact Hi. rewrite (proj2 (Nat.ltb_ge (D + k) D)) by lia. ring.
Qed.
End STEP.

Definition bb_ok (N : nat) (A B : blocks) (y : rows) (x : rows) (V C : blocks) (l : R) : Prop :=
  let M := tridiagonal D A B in
  veq (N * D) (mvdot (N * D) M (flat D x)) (flat D y) /\ l = ln (mdet (N * D) M) /\ 0 < mdet (N * D) M /\
  exists W, is_inverse (N * D) M W /\ (forall n, (n < N)%nat -> meq D (V n) (block D W n n)) /\
    (forall n, (S n < N)%nat -> meq D (C n) (block D W n (S n))).

Lemma bb_main : forall m A B y x0 V0 C0, (forall n, (n < S m)%nat -> symmetric D (A n)) ->
  (posdef (S m * D) (tridiagonal D A B) ->
     exists x V C l, bb_run D m A B y x0 V0 C0 = Ok (x, V, C, l) /\ bb_ok (S m) A B y x V C l) /\
  (~ posdef (S m * D) (tridiagonal D A B) -> bb_run D m A B y x0 V0 C0 = Err PyException).
Proof.
  induction m as [|m IH]; intros A B y x0 V0 C0 SA.
  - assert (E1 : (1 * D = D)%nat) by lia. rewrite E1.
    assert (EM : meq D (A O) (tridiagonal D A B)) by (intros i j Hi Hj; symmetry; now apply tri_hd).
    assert (EM' : meq D (tridiagonal D A B) (A O)) by (intros i j Hi Hj; now apply tri_hd).
    assert (S0 : symmetric D (A O)) by (apply SA; lia).
    unfold bb_run. destruct (chol_cases D (A O) S0) as [[P [U [EU EC]]]|[P EC]]; rewrite EC; cbn [bind seq for_ rev]; split.
    + intros _. do 4 eexists; split; [reflexivity|]; unfold bb_ok; rewrite ?E1. rewrite ?put_same.
      assert (I := chol_inv_ok D (A O) U S0 EU).
      split; [|split; [|split]].
      * intros i Hi. rewrite flat_hd by exact Hi.
        rewrite (mvdot_ext D _ (A O) _ (chol_solve D U (y O)) EM').
        -- exact (cho_factor_solve D (A O) U (y O) S0 EU i Hi).
        -- intros k Hk. rewrite flat_hd by exact Hk. now rewrite put_same.
        -- exact Hi.
      * rewrite <- (mdet_ext EM). apply (chol_logdet_ok D (A O) U S0 EU).
      * rewrite <- (mdet_ext EM). apply (chol_logdet_ok D (A O) U S0 EU).
      * exists (chol_inv D U). split; [now apply (inverse_ext D (A O))|]. split; [|lia]. intros n Hn. replace n with O by lia.
        rewrite put_same. intros i j Hi Hj. reflexivity.
    + intros Q. exfalso. apply Q. now apply (posdef_ext D (A O)).
    + intros Q. exfalso. apply P. now apply (posdef_ext D _ (A O) EM').
    + reflexivity.
  - rewrite bb_run_step. set (M := tridiagonal D A B).
    assert (S0 : symmetric D (A O)) by (apply SA; lia).
    assert (EM : meq D (A O) M) by (intros i j Hi Hj; symmetry; now apply tri_hd).
    assert (EM' : meq D M (A O)) by (intros i j Hi Hj; now apply tri_hd).
    destruct (chol_cases D (A O) S0) as [[P [U [EU EC]]]|[P EC]]; rewrite EC; cbn [bind].
    2: { split; [|reflexivity]. intros Q. exfalso. apply P. apply (posdef_ext D M _ EM'). now apply (posdef_first D (S m * D)). }
    set (W := chol_inv D U). assert (SM := M_sym m A B SA). fold M in SM. assert (HW := W_inv m A B U SA EU). fold M W in HW.
    assert (SN := schur_next m A B U SA EU). fold M W in SN.
    assert (SN' : meq (S m * D) (tridiagonal D (next_A D A B U) (shift_f B)) (schur D M W)) by (intros i j Hi Hj; symmetry; now apply SN).
    destruct (IH (next_A D A B U) (shift_f B) (next_y D B y U) (shift_f x0) (shift_f V0) (shift_f C0) (next_sym m A B U SA)) as [IH1 IH2].
    assert (PS := posdef_schur D (S m * D) M W SM HW).
    split.
    2: { intros Q. rewrite IH2; [reflexivity|]. intros T. apply Q. apply PS. split; [now apply (posdef_ext D (A O))|].
      now apply (posdef_ext _ _ _ SN'). }
    intros Q. apply PS in Q. destruct Q as [_ Q].
    destruct (IH1 (posdef_ext _ _ _ SN Q)) as [x [V [C [l [E [HX [Hl [Hd [T [HT [HV HC]]]]]]]]]]]. rewrite E. cbn [bind].
    unfold lift, bb_backward. cbv zeta. rewrite !put_0. cbn [cons_f].
    do 4 eexists. split; [reflexivity|]. unfold bb_ok. fold M. change (S (S m) * D)%nat with (D + S m * D)%nat. split; [|split; [|split]].
    + (* the solution *)
      apply (schur_solve D (S m * D) M W); [exact SM|exact HW| |].
      * intros i Hi. rewrite flat_hd by exact Hi. cbn [cons_f].
        unfold chol_solve. rewrite (solve_inv D (A O) U _ S0 EU i Hi). fold W.
        apply mvdot_ext; [intros ? ? ? ?; reflexivity| |exact Hi]. intros k Hk. rewrite flat_hd by exact Hk. f_equal.
        unfold mvdot. change (S m * D)%nat with (D + m * D)%nat. rewrite rsum_app, (rsum_zero (m * D)).
        -- rewrite Rplus_0_r. apply rsum_ext. intros l' Hl'. unfold M. rewrite tri_top by exact Hk. rewrite (proj2 (Nat.ltb_lt l' D) Hl').
           f_equal. rewrite flat_tl. unfold shift_f. now rewrite flat_hd.
        -- intros l' Hl'. unfold M. rewrite tri_top by exact Hk. rewrite (proj2 (Nat.ltb_ge (D + l') D)) by lia. ring.
      * intros i Hi. rewrite (mvdot_ext _ _ _ _ (flat D x) SN (fun a _ => flat_tl _ a) i Hi).
        rewrite (HX i Hi). rewrite flat_tl. destruct (Nat.lt_ge_cases i D) as [L|L].
        -- rewrite !flat_hd by exact L. unfold next_y, cons_f, next_row, shift_f. f_equal. unfold mvdot at 1, transpose. apply rsum_ext. intros k Hk.
           unfold M. rewrite tri_top by exact Hk. rewrite (proj2 (Nat.ltb_lt i D) L). f_equal.
           unfold chol_solve. rewrite (solve_inv D (A O) U _ S0 EU k Hk). apply mvdot_ext; [intros ? ? ? ?; reflexivity| |exact Hk].
           intros a Ha. now rewrite flat_hd.
        -- replace i with (D + (i - D))%nat by lia. rewrite !flat_tl. unfold next_y, shift_f at 1. cbn [cons_f].
           rewrite rsum_zero; [rewrite Rminus_0_r; reflexivity|]. intros k Hk. unfold M. rewrite tri_top by exact Hk.
           rewrite (proj2 (Nat.ltb_ge _ D)) by lia. ring.
    + rewrite (schur_det' D (S m * D) M W SM HW). rewrite (mdet_ext SN).
      destruct (chol_logdet_ok D (A O) U S0 EU) as [K1 K2]. rewrite <- (mdet_ext EM). rewrite ln_mult by assumption. now rewrite <- Hl, K2.
    + rewrite (schur_det' D (S m * D) M W SM HW). rewrite (mdet_ext SN).
      destruct (chol_logdet_ok D (A O) U S0 EU) as [K1 K2]. rewrite <- (mdet_ext EM). now apply Rmult_lt_0_compat.
    + (* the inverse *)
      set (Z := schur_inv D (S m * D) M W T).
      assert (HZ : is_inverse (D + S m * D)%nat M Z).
      { apply schur_inverse'; [exact SM|exact HW|]. now apply (inverse_ext _ _ _ _ SN'). }
      assert (SZ := inverse_symmetric SM HZ).
      assert (Z11 : forall i j, (i < D)%nat -> (j < D)%nat -> Z i j = W i j + mmdot D (chol_solve_m D U (B O)) (mmdot D (V O) (transpose (chol_solve_m D U (B O)))) i j).
      { intros i j Hi Hj. unfold Z, schur_inv, join. rewrite (proj2 (Nat.ltb_lt i D) Hi), (proj2 (Nat.ltb_lt j D) Hj). f_equal.
        unfold W at 1. rewrite (half_sum m A B U SA EU i _ Hi). apply rsum_ext. intros k Hk. f_equal.
        rewrite (rsum_ext (S m * D) (fun l => T k l * half D M W j l) (fun l => half D M W j l * T k l)) by (intros; ring).
        unfold W. rewrite (half_sum m A B U SA EU j _ Hj). unfold mmdot, transpose. apply rsum_ext. intros a Ha.
        rewrite (HV O ltac:(lia) k a Hk Ha). unfold block. cbn [Nat.mul Nat.add]. ring. }
      assert (Z12 : forall i j, (i < D)%nat -> (j < D)%nat -> Z i (D + j)%nat = - mmdot D (chol_solve_m D U (B O)) (V O) i j).
      { intros i j Hi Hj. unfold Z, schur_inv, join. rewrite (proj2 (Nat.ltb_lt i D) Hi), (proj2 (Nat.ltb_ge (D + j) D)) by lia.
        replace (D + j - D)%nat with j by lia. f_equal. unfold W. rewrite (half_sum m A B U SA EU i _ Hi). unfold mmdot. apply rsum_ext. intros k Hk.
        rewrite (HV O ltac:(lia) k j Hk Hj). reflexivity. }
      assert (Z22 : forall p q, Z (D + p)%nat (D + q)%nat = T p q).
      { intros p q. unfold Z, schur_inv, join. rewrite !(proj2 (Nat.ltb_ge _ D)) by lia. f_equal; lia. }
      exists Z. split; [exact HZ|]. split.
      * intros [|n] Hn i j Hi Hj; cbn [cons_f].
        -- change (0.5 * ((W i j + mmdot D (chol_solve_m D U (B O)) (mmdot D (V O) (transpose (chol_solve_m D U (B O)))) i j) +
             (W j i + mmdot D (chol_solve_m D U (B O)) (mmdot D (V O) (transpose (chol_solve_m D U (B O)))) j i)) = block D Z 0 0 i j).
           rewrite <- !Z11 by assumption. unfold block. cbn [Nat.mul Nat.add].
           rewrite (SZ j i) by lia. lra.
        -- unfold shift_f. cbn [cons_f]. rewrite (HV n ltac:(lia) i j Hi Hj). unfold block.
           replace (S n * D + i)%nat with (D + (n * D + i))%nat by lia. replace (S n * D + j)%nat with (D + (n * D + j))%nat by lia.
           now rewrite Z22.
      * intros [|n] Hn i j Hi Hj; cbn [cons_f].
        -- unfold block. replace (1 * D + j)%nat with (D + j)%nat by lia. cbn [Nat.mul Nat.add]. now rewrite Z12.
        -- unfold shift_f. cbn [cons_f]. rewrite (HC n ltac:(lia) i j Hi Hj). unfold block.
           replace (S n * D + i)%nat with (D + (n * D + i))%nat by lia. replace (S (S n) * D + j)%nat with (D + (S n * D + j))%nat by lia.
           now rewrite Z22.
Qed.
End TRI.

(** Positive definite: the blocks of the inverse, the solution and the log-determinant,
    whatever np.empty returned; not positive definite: an exception. *)
Theorem C43_block_banded_solve : forall N D A B y x0 V0 C0, (1 <= N)%nat -> (1 <= D)%nat ->
  (forall n, (n < N)%nat -> symmetric D (A n)) ->
  let M := tridiagonal D A B in
  (posdef (N * D) M -> exists V C x ldet W,
     block_banded_solve N D (N, D, D) (N - 1, D, D)%nat A B y x0 V0 C0 = Ok (V, C, x, ldet) /\
     is_inverse (N * D) M W /\
     (forall n, (n < N)%nat -> meq D (V n) (block D W n n)) /\
     (forall n, (S n < N)%nat -> meq D (C n) (block D W n (S n))) /\
     veq (N * D) (mvdot (N * D) M (flat D x)) (flat D y) /\
     0 < mdet (N * D) M /\ ldet = ln (mdet (N * D) M)) /\
  (~ posdef (N * D) M ->
     block_banded_solve N D (N, D, D) (N - 1, D, D)%nat A B y x0 V0 C0 = Err PyException).
Proof.
  intros [|m] D A B y x0 V0 C0 HN HD SA M; [lia|].
  destruct (bb_main D HD m A B y x0 V0 C0 SA) as [H1 H2].
  assert (E : block_banded_solve (S m) D (S m, D, D) (S m - 1, D, D)%nat A B y x0 V0 C0 =
    (st <- bb_run D m A B y x0 V0 C0 ;; let '(x, V, C, ldet) := st in Ok (V, C, x, ldet))).
  { unfold block_banded_solve. rewrite !Nat.eqb_refl. cbn [negb andb]. replace (S m - 1)%nat with m by lia.
    replace (Z.of_nat m =? Z.of_nat (S m) - 1)%Z with true by (symmetry; apply Z.eqb_eq; lia). reflexivity. }
  rewrite E. split.
  - intros P. destruct (H1 P) as [x [V [C [l [E1 [HX [Hl [Hd [W [HW [HV HC]]]]]]]]]]]. rewrite E1. cbn [bind].
    exists V, C, x, l, W. repeat split; auto; try apply HW.
  - intros P. now rewrite (H2 P).
Qed.
(** Wrong numbers or sizes of blocks are refused. *)
Theorem C43_block_banded_shapes : forall N D sA sB A B y x0 V0 C0,
  sA <> (N, D, D) \/ (1 <= N)%nat /\ sB <> (N - 1, D, D)%nat \/ N = O ->
  block_banded_solve N D sA sB A B y x0 V0 C0 = Err ValueError.
Proof.
  intros N D [[nA a1] a2] [[nB b1] b2] A B y x0 V0 C0 H. unfold block_banded_solve.
  destruct (Nat.eqb_spec nA N) as [->|]; [|reflexivity]. cbn [negb].
  destruct (Nat.eqb_spec a1 D) as [->|]; [|reflexivity]. destruct (Nat.eqb_spec a2 D) as [->|]; [|reflexivity]. cbn [negb andb].
  destruct (Z.eqb_spec (Z.of_nat nB) (Z.of_nat N - 1)) as [E|]; [|reflexivity]. cbn [negb].
  destruct (Nat.eqb_spec b1 D) as [->|]; [|reflexivity]. destruct (Nat.eqb_spec b2 D) as [->|]; [|reflexivity].
  exfalso. destruct H as [H|[[H1 H]|H]]; [now apply H| |lia]. apply H. repeat f_equal. lia.
Qed.
Print Assumptions C43_block_banded_solve.
Print Assumptions C43_block_banded_shapes.

(** The hypotheses are met by the discrete Laplacian on three points, and violated when
    the coupling is too strong. *)
Example ex_C43_posdef : posdef (3 * 1) (tridiagonal 1 (fun _ _ _ => 2) (fun _ _ _ => -1)).
Proof.
  split; [apply (tri_sym 1 ltac:(lia) 3); intros n _ i j _ _; reflexivity|]. intros x [i [Hi Hx]].
  unfold bilinear, tridiagonal, block_of. cbn.
  assert (0 < x 0%nat * x 0%nat + (x 0%nat - x 1%nat) * (x 0%nat - x 1%nat) + (x 1%nat - x 2%nat) * (x 1%nat - x 2%nat) + x 2%nat * x 2%nat); [|nra].
  assert (Sq : forall a, 0 <= a * a) by (intros; nra). assert (Sp : forall a, a <> 0 -> 0 < a * a) by (intros; nra).
  pose proof (Sq (x 0%nat)). pose proof (Sq (x 2%nat)). pose proof (Sq (x 0%nat - x 1%nat)). pose proof (Sq (x 1%nat - x 2%nat)).
  destruct (Req_dec (x 0%nat) 0) as [E0|E0]; [|pose proof (Sp _ E0); lra].
  destruct (Req_dec (x 1%nat) 0) as [E1|E1].
  - destruct i as [|[|[|]]]; [contradiction|contradiction| |lia]. pose proof (Sp _ Hx). lra.
  - assert (x 0%nat - x 1%nat <> 0) as E2 by lra. pose proof (Sp _ E2). lra.
Qed.
Example ex_C43_indefinite : ~ posdef (2 * 1) (tridiagonal 1 (fun _ _ _ => 1) (fun _ _ _ => 2)).
Proof.
  intros [_ P]. specialize (P (fun i => if (i =? 0)%nat then 1 else -1)). unfold bilinear, tridiagonal, block_of in P. cbn in P.
  assert (nonzero 2 (fun i => if (i =? 0)%nat then 1 else -1)) as N by (exists O; cbn; split; [lia|lra]). specialize (P N). lra.
Qed.
