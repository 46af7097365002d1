(** Independent specification of the small numerical helpers. *)
From Coq Require Import List Arith ZArith Lia Bool Reals.
From Verif Require Import Base NumPy ExtReal.
Import ListNotations.

(** Sets of the given sizes laid side by side: position i of the list holds the
    number of the set that the i-th element belongs to. *)
Fixpoint set_of_from (k : nat) (sizes : list nat) : list nat :=
  match sizes with [] => [] | n :: r => repeat k n ++ set_of_from (S k) r end.
Definition set_of (sizes : list nat) : list nat := set_of_from 0 sizes.

(** Python's list indexing: negative positions count from the end. *)
Definition py_nth {A} (l : list A) (i : Z) : option A :=
  if (i <? 0)%Z
  then if (i + Z.of_nat (length l) <? 0)%Z then None
       else nth_error l (Z.to_nat (i + Z.of_nat (length l)))
  else nth_error l (Z.to_nat i).

(** A placement of [amount] intervals of length [len] in 0..N-1, at least [gap]
    apart. *)
Definition placement (N len gap : Z) (amount : nat) (starts : list Z) : Prop :=
  length starts = amount /\
  (forall s, In s starts -> 0 <= s /\ s + len <= N)%Z /\
  (forall i s t, nth_error starts i = Some s -> nth_error starts (S i) = Some t ->
     s + len + gap <= t)%Z.

(** A possible outcome of a multinomial draw: counts that add up. *)
Definition multinomial_draw (total : Z) (bins : nat) (counts : list Z) : Prop :=
  length counts = bins /\ (forall c, In c counts -> 0 <= c)%Z /\
  fold_right Z.add 0%Z counts = total.

Open Scope R_scope.

(** Log-weights: real or -inf.  The weight it stands for. *)
Definition log_weight (a : ext) : Prop := match a with Fin _ | NInf => True | _ => False end.
Definition weight (a : ext) : R := match a with Fin x => exp x | _ => 0 end.
