(** The derivative of the determinant, and of its logarithm, along a curve of matrices. *)
From Coq Require Import Reals Lra Lia Arith Ranalysis Ranalysis4.
From mathcomp Require Import all_ssreflect all_fingroup all_algebra.
From Verif Require Import RStruct NumPy TensorLemmas Linalg MatBridge SpecLinalg MarkovLemmas FamiliesLemmas FamiliesLemmas2 DetGrad.
Set Implicit Arguments.
Unset Strict Implicit.
Import GRing.Theory.

Definition tangent (n : nat) (g : R -> mat) (t0 : R) (H : mat) : Prop :=
  forall i j, (i < n)%coq_nat -> (j < n)%coq_nat -> derivable_pt_lim (fun t => g t i j) t0 (H i j).
Definition pair_sum (n : nat) (c H : mat) : R := rsum n (fun i => rsum n (fun j => (c i j * H i j)%R)).
Lemma pair_sum_add n c d H : pair_sum n (fun i j => (c i j + d i j)%R) H = (pair_sum n c H + pair_sum n d H)%R.
Proof. unfold pair_sum. rewrite -rsum_plus. apply rsum_ext; intros; rewrite -rsum_plus; apply rsum_ext; intros; ring. Qed.
Lemma pair_sum_scal n a c H : pair_sum n (fun i j => (a * c i j)%R) H = (a * pair_sum n c H)%R.
Proof. unfold pair_sum. rewrite -rsum_scal. apply rsum_ext; intros; rewrite -rsum_scal; apply rsum_ext; intros; ring. Qed.
Lemma pair_sum_0 n H : pair_sum n (fun _ _ => 0%R) H = 0%R.
Proof. unfold pair_sum. rewrite (rsum_ext n _ (fun _ => 0%R)); [apply rsum_0|]. intros. rewrite (rsum_ext n _ (fun _ => 0%R)); [apply rsum_0|intros; ring]. Qed.

Section At.
Variables (n : nat) (A : mat).
(** F has a gradient at A that gives its derivative along every curve through A. *)
Definition smooth (F : mat -> R) (c : mat) : Prop :=
  forall g t0 H, meq n (g t0) A -> tangent n g t0 H ->
    F (g t0) = F A /\ derivable_pt_lim (fun t => F (g t)) t0 (pair_sum n c H).
Lemma smooth_ext F G c : (forall M, F M = G M) -> smooth F c -> smooth G c.
Proof.
intros E S g t0 H M T. destruct (S g t0 H M T) as [V D]. split; [rewrite -!E; exact V|].
exact (dlim_ext _ _ _ _ (fun t => E (g t)) D).
Qed.
Lemma smooth_const k : exists c, smooth (fun _ => k) c.
Proof. exists (fun _ _ => 0%R). intros g t0 H _ _. split; [reflexivity|]. rewrite pair_sum_0. apply d_const. Qed.
Lemma smooth_entry i j : (i < n)%coq_nat -> (j < n)%coq_nat -> exists c, smooth (fun M => M i j) c.
Proof.
intros Hi Hj. exists (fun a b => if (Nat.eqb a i && Nat.eqb b j)%bool then 1%R else 0%R). intros g t0 H M T. split; [now apply M|].
replace (pair_sum n _ H) with (H i j); [now apply T|].
unfold pair_sum. rewrite (rsum_ext n _ (fun a => if Nat.eqb a i then H i j else 0%R)).
- symmetry. apply (rsum_single n i (fun _ => H i j) Hi).
- intros a Ha. destruct (Nat.eqb_spec a i) as [->|N]; cbn [andb].
  + rewrite (rsum_ext n _ (fun b => if Nat.eqb b j then H i j else 0%R)).
    * apply (rsum_single n j (fun _ => H i j) Hj).
    * intros b Hb. destruct (Nat.eqb_spec b j) as [->|N]; ring.
  + rewrite (rsum_ext n _ (fun _ => 0%R)); [apply rsum_0|intros; ring].
Qed.
Lemma smooth_add F G : (exists c, smooth F c) -> (exists c, smooth G c) -> exists c, smooth (fun M => (F M + G M)%R) c.
Proof.
intros [c S] [d S']. exists (fun i j => (c i j + d i j)%R). intros g t0 H M T. destruct (S g t0 H M T) as [V D]. destruct (S' g t0 H M T) as [V' D'].
split; [now rewrite V V'|]. rewrite pair_sum_add. now apply d_plus.
Qed.
Lemma smooth_mul F G : (exists c, smooth F c) -> (exists c, smooth G c) -> exists c, smooth (fun M => (F M * G M)%R) c.
Proof.
intros [c S] [d S']. exists (fun i j => (G A * c i j + F A * d i j)%R). intros g t0 H M T. destruct (S g t0 H M T) as [V D]. destruct (S' g t0 H M T) as [V' D'].
split; [now rewrite V V'|]. rewrite pair_sum_add !pair_sum_scal. eapply dlim_eq; [apply d_mult; eassumption|]. cbv beta. rewrite V V'. ring.
Qed.

Lemma smooth_prod (r : seq 'I_n) (f : 'I_n -> 'I_n) : exists c, smooth (fun M => (\prod_(i <- r) M (nat_of_ord i) (nat_of_ord (f i)))%ring : R) c.
Proof.
elim: r => [|i r IH].
- destruct (smooth_const 1%R) as [c S]. exists c. apply: smooth_ext S => M. by rewrite big_nil.
- destruct (smooth_mul (smooth_entry (i := i) (j := f i) ltac:(exact/ltP) ltac:(exact/ltP)) IH) as [c S]. exists c. apply: smooth_ext S => M. by rewrite big_cons.
Qed.
Lemma smooth_sum (T : Type) (r : seq T) (F : T -> mat -> R) : (forall s, exists c, smooth (F s) c) ->
  exists c, smooth (fun M => (\sum_(s <- r) F s M)%ring : R) c.
Proof.
move=> HF. elim: r => [|i r IH].
- destruct (smooth_const 0%R) as [c S]. exists c. apply: smooth_ext S => M. by rewrite big_nil.
- destruct (smooth_add (HF i) IH) as [c S]. exists c. apply: smooth_ext S => M. by rewrite big_cons.
Qed.
Lemma smooth_det : exists c, smooth (mdet n) c.
Proof.
have H : exists c, smooth (fun M => (\sum_(s <- index_enum [finType of 'S_n]) ((-1) ^+ s * \prod_(i <- index_enum [finType of 'I_n]) M (nat_of_ord i) (nat_of_ord (s i))))%ring : R) c.
  apply: smooth_sum => s. apply: smooth_mul; [exact: smooth_const|exact: smooth_prod].
destruct H as [c S]. exists c. apply: smooth_ext S => M. rewrite /mdet /determinant. apply: eq_bigr => s _. congr (_ * _)%ring. apply: eq_bigr => i _. by rewrite mxE.
Qed.
End At.

Lemma entry_tangent n A i j : tangent n (mupd A i j) (A i j) (fun a b => if (Nat.eqb a i && Nat.eqb b j)%bool then 1%R else 0%R).
Proof.
intros a b _ _. unfold mupd. destruct (Nat.eqb a i && Nat.eqb b j)%bool; [apply d_id|apply d_const].
Qed.
Lemma pair_sum_unit n c i j : (i < n)%coq_nat -> (j < n)%coq_nat ->
  pair_sum n c (fun a b => if (Nat.eqb a i && Nat.eqb b j)%bool then 1%R else 0%R) = c i j.
Proof.
intros Hi Hj. unfold pair_sum. rewrite (rsum_ext n _ (fun a => if Nat.eqb a i then c i j else 0%R)).
- apply (rsum_single n i (fun _ => c i j) Hi).
- intros a Ha. destruct (Nat.eqb_spec a i) as [->|N]; cbn [andb].
  + rewrite (rsum_ext n _ (fun b => if Nat.eqb b j then c i j else 0%R)).
    * apply (rsum_single n j (fun _ => c i j) Hj).
    * intros b Hb. destruct (Nat.eqb_spec b j) as [->|N]; ring.
  + rewrite (rsum_ext n _ (fun _ => 0%R)); [apply rsum_0|intros; ring].
Qed.

(** d det(g(t)) = det(A) tr(A^-1 dg). *)
Lemma det_curve n A V g t0 H : is_inverse n A V -> meq n (g t0) A -> tangent n g t0 H ->
  mdet n (g t0) = mdet n A /\
  derivable_pt_lim (fun t => mdet n (g t)) t0 (mdet n A * pair_sum n (fun i j => V j i) H)%R.
Proof.
intros I M T. destruct (smooth_det n A) as [c S]. destruct (S g t0 H M T) as [E D]. split; [exact E|].
eapply dlim_eq; [exact D|]. rewrite -pair_sum_scal. unfold pair_sum. apply rsum_ext => i Hi. apply rsum_ext => j Hj. f_equal.
assert (M0 : meq n (mupd A i j (A i j)) A).
{ intros a b _ _. unfold mupd. destruct (Nat.eqb_spec a i) as [->|N]; [|reflexivity]. destruct (Nat.eqb_spec b j) as [->|N]; reflexivity. }
destruct (S _ _ _ M0 (@entry_tangent n A i j)) as [_ D']. rewrite (pair_sum_unit c Hi Hj) in D'.
eapply uniqueness_limite; [exact D'|].
apply (dlim_ext (fun t => mdet n A * (1 + (t - A i j) * V j i))%R).
- intros t. symmetry. exact (mdet_entry t Hi Hj I).
- eapply dlim_eq; [apply d_scal; apply d_plus; [apply d_const|]; apply d_mult; [apply d_minus; [apply d_id|apply d_const]|apply d_const]|]. cbv beta. ring.
Qed.
Lemma logdet_curve n A V g t0 H : is_inverse n A V -> (0 < mdet n A)%R -> meq n (g t0) A -> tangent n g t0 H ->
  derivable_pt_lim (fun t => ln (mdet n (g t))) t0 (pair_sum n (fun i j => V j i) H).
Proof.
intros I P M T. destruct (det_curve I M T) as [E D].
eapply dlim_eq; [apply (d_comp (fun t => mdet n (g t)) ln); [exact D|]; rewrite E; apply d_ln; exact P|].
cbv beta. field. lra.
Qed.
