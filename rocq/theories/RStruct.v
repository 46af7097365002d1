(** Coq's real numbers as a field of mathcomp, so that its matrices (determinants,
    inverses) can be used.  Nothing here models code of /repo. *)
From Coq Require Import Reals ClassicalEpsilon.
From mathcomp Require Import all_ssreflect all_algebra.
Delimit Scope ring_scope with ring.
Delimit Scope R_scope with R.
Set Implicit Arguments.
Unset Strict Implicit.
Unset Printing Implicit Defensive.

Definition eqr (x y : R) : bool := if Req_EM_T x y is left _ then true else false.
Lemma eqrP : Equality.axiom eqr.
Proof. move=> x y; rewrite /eqr; case: Req_EM_T => H; by constructor. Qed.
Definition R_eqMixin := EqMixin eqrP.
Canonical R_eqType := Eval hnf in EqType R R_eqMixin.

Definition pickR (P : pred R) (n : nat) : option R :=
  let x := epsilon (inhabits 0%R) (fun x => P x) in if P x then Some x else None.
Lemma pickR_some P n x : pickR P n = Some x -> P x.
Proof. rewrite /pickR; case H: (P _) => // -[<-]; exact: H. Qed.
Lemma pickR_ex (P : pred R) : (exists x, P x) -> exists n, pickR P n.
Proof. move=> H; exists 0%nat; rewrite /pickR; by rewrite (epsilon_spec (inhabits 0%R) (fun x => is_true (P x)) H). Qed.
Lemma pickR_ext (P Q : pred R) : P =1 Q -> pickR P =1 pickR Q.
Proof.
move=> PQ n. rewrite /pickR.
have ->: (fun x : R => is_true (P x)) = (fun x => is_true (Q x)).
  by apply: FunctionalExtensionality.functional_extensionality => x; rewrite PQ.
by rewrite PQ.
Qed.
Definition R_choiceMixin : choiceMixin R := Choice.Mixin pickR_some pickR_ex pickR_ext.
Canonical R_choiceType := Eval hnf in ChoiceType R R_choiceMixin.

Lemma RaddA : associative Rplus. Proof. move=> x y z; by rewrite Rplus_assoc. Qed.
Definition R_zmodMixin := ZmodMixin RaddA Rplus_comm Rplus_0_l Rplus_opp_l.
Canonical R_zmodType := Eval hnf in ZmodType R R_zmodMixin.

Lemma RmulA : associative Rmult. Proof. move=> x y z; by rewrite Rmult_assoc. Qed.
Lemma RmulDl : left_distributive Rmult Rplus. Proof. move=> x y z; exact: Rmult_plus_distr_r. Qed.
Lemma RmulDr : right_distributive Rmult Rplus. Proof. move=> x y z; exact: Rmult_plus_distr_l. Qed.
Lemma R1_neq0 : 1%R != 0%R :> R. Proof. apply/eqP; exact: R1_neq_R0. Qed.
Definition R_ringMixin := RingMixin RmulA Rmult_1_l Rmult_1_r RmulDl RmulDr R1_neq0.
Canonical R_ringType := Eval hnf in RingType R R_ringMixin.
Canonical R_comRingType := Eval hnf in ComRingType R Rmult_comm.

Definition Rinvx (x : R) : R := if x != 0%R then (/ x)%R else x.
Definition unit_R (x : R) : bool := x != 0%R.
Lemma Rmulx : {in unit_R, left_inverse 1%R Rinvx Rmult}.
Proof. move=> x; rewrite -topredE /= /Rinvx => H. rewrite /unit_R in H. rewrite H. apply: Rinv_l. by apply/eqP. Qed.
Lemma Rxmul : {in unit_R, right_inverse 1%R Rinvx Rmult}.
Proof. move=> x; rewrite -topredE /= /Rinvx => H. rewrite /unit_R in H. rewrite H. apply: Rinv_r. by apply/eqP. Qed.
Lemma intro_unit_R x y : (y * x = 1 /\ x * y = 1)%R -> unit_R x.
Proof. move=> [_ H]; apply/eqP => H0; move: H; rewrite H0 Rmult_0_l => /esym; exact: R1_neq_R0. Qed.
Lemma Rinvx_out : {in predC unit_R, Rinvx =1 id}.
Proof. move=> x H; rewrite /Rinvx. move: H; rewrite inE /= /unit_R. by case: (x != 0%R). Qed.
Definition R_unitRingMixin := UnitRingMixin Rmulx Rxmul intro_unit_R Rinvx_out.
Canonical R_unitRingType := Eval hnf in UnitRingType R R_unitRingMixin.
Canonical R_comUnitRingType := Eval hnf in [comUnitRingType of R].
Lemma R_idomain_ax : forall x y : R, (x * y = 0)%R -> (x == 0%R) || (y == 0%R).
Proof. move=> x y /Rmult_integral [->|->]; by rewrite eqxx ?orbT. Qed.
Canonical R_idomainType := Eval hnf in IdomainType R R_idomain_ax.
Lemma R_fieldMixin : GRing.Field.mixin_of R_unitRingType. Proof. by []. Qed.
Canonical R_fieldType := Eval hnf in FieldType R R_fieldMixin.
