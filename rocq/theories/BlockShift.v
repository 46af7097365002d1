(** block_banded_solve as a recursion on the number of blocks: the first block is
    eliminated and the rest is a system of one block less. *)
From Coq Require Import List Arith Lia Bool Reals Lra FunctionalExtensionality.
From Verif Require Import Base NumPy Families Linalg BlockBanded.
Import ListNotations.
Open Scope R_scope.

Definition cons_f {T} (h : T) (f : nat -> T) : nat -> T := fun n => match n with O => h | S n => f n end.
Definition shift_f {T} (f : nat -> T) : nat -> T := fun n => f (S n).
Definition lift (hx : vec) (hV hC : mat) (l0 : R) (st : bb_state) : bb_state :=
  let '(x, V, C, l) := st in (cons_f hx x, cons_f hV V, cons_f hC C, l0 + l).

Lemma cons_shift : forall T (f : nat -> T), cons_f (f O) (shift_f f) = f.
Proof. intros. apply functional_extensionality. intros [|n]; reflexivity. Qed.
Lemma put_cons : forall T (h : T) f n v, put (cons_f h f) (S n) v = cons_f h (put f n v).
Proof. intros. apply functional_extensionality. intros [|k]; reflexivity. Qed.
Lemma put_0 : forall T (f : nat -> T) v, put f O v = cons_f v (shift_f f).
Proof. intros. apply functional_extensionality. intros [|k]; reflexivity. Qed.
Lemma put_1 : forall T (h : T) (f : nat -> T) v, put (cons_f h f) 1%nat v = cons_f h (put f O v).
Proof. intros. apply put_cons. Qed.
Lemma put_same : forall T (f : nat -> T) n v, put f n v n = v.
Proof. intros. unfold put. now rewrite Nat.eqb_refl. Qed.
Lemma put_put : forall T (f : nat -> T) n v w, put (put f n v) n w = put f n w.
Proof. intros. apply functional_extensionality. intros k. unfold put. destruct (k =? n)%nat; reflexivity. Qed.

Lemma for_ext : forall S (f g : nat -> S -> res S) l s, (forall n s, In n l -> f n s = g n s) -> for_ f l s = for_ g l s.
Proof.
  induction l as [|n l IH]; intros s H; [reflexivity|]. cbn. rewrite H by now left. destruct (g n s); [|reflexivity].
  apply IH. intros; apply H; now right.
Qed.
Lemma for_app : forall S (f : nat -> S -> res S) l l' s, for_ f (l ++ l') s = (s <- for_ f l s ;; for_ f l' s).
Proof. induction l as [|n l IH]; intros l' s; [reflexivity|]. cbn. destruct (f n s); [apply IH|reflexivity]. Qed.
(** Loops commute with a map of states. *)
Lemma for_map : forall S (f g : nat -> S -> res S) (h : S -> S) l,
  (forall n s, In n l -> f (Datatypes.S n) (h s) = (s <- g n s ;; Ok (h s))) ->
  forall s, for_ f (map Datatypes.S l) (h s) = (s <- for_ g l s ;; Ok (h s)).
Proof.
  induction l as [|n l IH]; intros H s; [reflexivity|]. cbn [map for_]. rewrite H by now left.
  destruct (g n s) as [s'|]; [|reflexivity]. apply IH. intros; apply H; now right.
Qed.

Ltac puts := repeat match goal with |- context [put ?f ?n ?v ?n] =>
  let t := fresh in let E := fresh in remember (put f n v n) as t eqn:E; rewrite put_same in E; subst t end.
Definition next_block (D : nat) (A1 B0 C0 : mat) : mat :=
  symmetrise (fun i j => A1 i j - mmdot D (transpose B0) C0 i j).
Definition next_row (D : nat) (y1 : vec) (B0 U : mat) (x0 : vec) : vec :=
  fun i => y1 i - mvdot D (transpose B0) (chol_solve D U x0) i.
Lemma forward_eq : forall D A B y n x V C l, bb_forward D A B y n (x, V, C, l) =
  (U <- chol D (next_block D (A (S n)) (B n) (chol_solve_m D (V n) (B n))) ;;
   Ok (put x (S n) (next_row D (y (S n)) (B n) (V n) (x n)), put V (S n) U, put C n (chol_solve_m D (V n) (B n)),
       l + chol_logdet D U)).
Proof. intros. unfold bb_forward. cbv zeta. puts. fold (next_block D (A (S n)) (B n) (chol_solve_m D (V n) (B n))).
  destruct (chol D _) as [U|]; [|reflexivity]. cbn [bind]. puts. rewrite !put_put. reflexivity. Qed.

Lemma forward_lift : forall D A A' B y y' hx hV hC l0, (forall n, A' (S n) = A (S (S n))) -> (forall n, y' (S n) = y (S (S n))) ->
  forall n st, bb_forward D A B y (S n) (lift hx hV hC l0 st) =
    (st <- bb_forward D A' (shift_f B) y' n st ;; Ok (lift hx hV hC l0 st)).
Proof.
  intros D A A' B y y' hx hV hC l0 EA Ey n [[[x V] C] l]. unfold lift. rewrite !forward_eq, EA, Ey. unfold shift_f at 1 2 3.
  cbn [cons_f]. destruct (chol D _) as [U|]; [|reflexivity]. cbn [bind]. rewrite !put_cons, Rplus_assoc. reflexivity.
Qed.
Lemma backward_lift : forall D B hx hV hC l0 n st, bb_backward D B (S n) (lift hx hV hC l0 st) =
  lift hx hV hC l0 (bb_backward D (shift_f B) n st).
Proof.
  intros D B hx hV hC l0 n [[[x V] C] l]. unfold lift, bb_backward. cbv zeta. rewrite !put_cons. cbn [cons_f]. reflexivity.
Qed.

Definition next_A (D : nat) (A B : blocks) (U : mat) : blocks :=
  cons_f (next_block D (A 1%nat) (B O) (chol_solve_m D U (B O))) (fun n => A (S (S n))).
Definition next_y (D : nat) (B : blocks) (y : rows) (U : mat) : rows :=
  cons_f (next_row D (y 1%nat) (B O) U (y O)) (fun n => y (S (S n))).
Lemma bb_run_step : forall D m A B y x0 V0 C0, bb_run D (S m) A B y x0 V0 C0 =
  (U <- chol D (A O) ;;
   st <- bb_run D m (next_A D A B U) (shift_f B) (next_y D B y U) (shift_f x0) (shift_f V0) (shift_f C0) ;;
   Ok (bb_backward D B O (lift (y O) U (chol_solve_m D U (B O)) (chol_logdet D U) st))).
Proof.
  intros D m A B y x0 V0 C0. unfold bb_run at 1. destruct (chol D (A O)) as [U|e]; [|reflexivity]. cbn [bind].
  change (seq 0 (S m)) with (O :: seq 1 m). rewrite <- seq_shift. cbn [for_]. rewrite !put_same, forward_eq, !put_0.
  unfold bb_run. cbn [cons_f next_A]. change (next_A D A B U O) with (next_block D (A 1%nat) (B O) (chol_solve_m D U (B O))).
  cbn [cons_f]. destruct (chol D (next_block D (A 1%nat) (B O) (chol_solve_m D U (B O)))) as [U1|e]; [|reflexivity]. cbn [bind].
  rewrite !put_1, !put_0, ?put_same.
  set (h := lift (y O) U (chol_solve_m D U (B O)) (chol_logdet D U)).
  set (s0 := ((cons_f (next_y D B y U O) (shift_f (shift_f x0)), cons_f U1 (shift_f (shift_f V0)), shift_f C0, chol_logdet D U1) : bb_state)).
  match goal with |- (st <- for_ ?f ?l ?s ;; ?k) = _ => change s with (h s0) end.
  rewrite (for_map bb_state (bb_forward D A B y) (bb_forward D (next_A D A B U) (shift_f B) (next_y D B y U)) h).
  2: { intros n s _. apply forward_lift; reflexivity. }
  match goal with |- _ = (st <- (st <- for_ ?f ?l ?s ;; ?k) ;; _) => change s with s0 end.
  match goal with |- context [for_ ?f (seq 0 m) s0] => destruct (for_ f (seq 0 m) s0) as [[[[x V] C] l]|e]; [|reflexivity] end. cbn [bind].
  unfold h at 1. unfold lift. rewrite !put_cons. cbn [cons_f rev]. rewrite for_app, <- map_rev.
  set (s1 := ((put x m (chol_solve D (V m) (x m)), put V m (chol_inv D (V m)), C, l) : bb_state)).
  match goal with |- (s <- for_ ?f ?L ?s ;; ?k) = _ => replace s with (h s1) by reflexivity end.
  rewrite (for_map bb_state (fun n st => Ok (bb_backward D B n st)) (fun n st => Ok (bb_backward D (shift_f B) n st)) h).
  2: { intros n s _. cbn. f_equal. apply backward_lift. }
  destruct (for_ _ (rev (seq 0 m)) s1) as [s|e]; reflexivity.
Qed.
