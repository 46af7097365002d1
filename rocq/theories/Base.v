(** Common vocabulary: Python exceptions as values. *)
From Coq Require Import List Arith ZArith Lia Bool.
Import ListNotations.

(** Exceptions raised by the modelled code.  [PyException] is a bare
    [raise Exception(...)].  [Killed] (the process is killed) and
    [Interrupted] (the user interrupts an endless loop) end a run as well. *)
Inductive err : Set :=
| ValueError | IndexError | TypeError | NameError | RuntimeError | KeyError
| AttributeError | NotImplementedError | NoConverterError | PyException
| OSError | Killed | Interrupted.

Inductive res (A : Type) : Type :=
| Ok (a : A)
| Err (e : err).
Arguments Ok {A} a.
Arguments Err {A} e.

Definition bind {A B} (m : res A) (f : A -> res B) : res B :=
  match m with Ok a => f a | Err e => Err e end.
Notation "x <- m ;; k" := (bind m (fun x => k))
  (at level 61, m at next level, right associativity).
Notation "' p <- m ;; k" := (bind m (fun x => match x with p => k end))
  (at level 61, p pattern, m at next level, right associativity).

Definition is_ok {A} (m : res A) : bool :=
  match m with Ok _ => true | Err _ => false end.

Definition rmap {A B} (f : A -> B) (m : res A) : res B :=
  match m with Ok a => Ok (f a) | Err e => Err e end.

(** Left-to-right evaluation of a list comprehension whose body may raise. *)
Fixpoint mapM {A B} (f : A -> res B) (l : list A) : res (list B) :=
  match l with
  | [] => Ok []
  | a :: r => b <- f a ;; bs <- mapM f r ;; Ok (b :: bs)
  end.

(** A [for] loop with one accumulator whose body may raise. *)
Fixpoint foldM {A S} (f : S -> A -> res S) (s : S) (l : list A) : res S :=
  match l with
  | [] => Ok s
  | a :: r => s' <- f s a ;; foldM f s' r
  end.

(** Body executed only for its checks. *)
Fixpoint iterM {A} (f : A -> res unit) (l : list A) : res unit :=
  match l with
  | [] => Ok tt
  | a :: r => _ <- f a ;; iterM f r
  end.

Lemma bind_ok : forall A B (m : res A) (f : A -> res B) b,
  bind m f = Ok b <-> exists a, m = Ok a /\ f a = Ok b.
Proof.
  intros A B m f b; destruct m as [a|e]; simpl; split.
  - intros H; exists a; auto.
  - intros [a' [H1 H2]]; congruence.
  - discriminate.
  - intros [a' [H1 H2]]; discriminate.
Qed.

Lemma bind_err : forall A B (m : res A) (f : A -> res B) e,
  bind m f = Err e <-> m = Err e \/ exists a, m = Ok a /\ f a = Err e.
Proof.
  intros A B m f e; destruct m as [a|e']; simpl; split.
  - intros H; right; exists a; auto.
  - intros [H|[a' [H1 H2]]]; [discriminate|congruence].
  - intros H; left; congruence.
  - intros [H|[a' [H1 H2]]]; [congruence|discriminate].
Qed.

Lemma mapM_ok_length : forall A B (f : A -> res B) l bs,
  mapM f l = Ok bs -> length bs = length l.
Proof.
  induction l as [|a r IH]; simpl; intros bs H.
  - injection H as <-. reflexivity.
  - apply bind_ok in H as [b [Hb H]]. apply bind_ok in H as [bs' [Hbs H]].
    injection H as <-. simpl. f_equal. now apply IH.
Qed.

Lemma mapM_ok_Forall2 : forall A B (f : A -> res B) l bs,
  mapM f l = Ok bs <-> Forall2 (fun a b => f a = Ok b) l bs.
Proof.
  induction l as [|a r IH]; simpl; intros bs; split; intros H.
  - injection H as <-. constructor.
  - inversion H; reflexivity.
  - apply bind_ok in H as [b [Hb H]]. apply bind_ok in H as [bs' [Hbs H]].
    injection H as <-. constructor; [assumption|]. now apply IH.
  - inversion H as [|? b ? bs' Hb Hbs]; subst. rewrite Hb. simpl.
    apply IH in Hbs. rewrite Hbs. reflexivity.
Qed.

Lemma mapM_err : forall A B (f : A -> res B) l e,
  mapM f l = Err e -> exists a, In a l /\ f a = Err e.
Proof.
  induction l as [|a r IH]; simpl; intros e H.
  - discriminate.
  - apply bind_err in H as [H|[b [Hb H]]].
    + exists a; auto.
    + apply bind_err in H as [H|[bs [Hbs H]]].
      * destruct (IH _ H) as [a' [Ha' Hf]]. exists a'; auto.
      * discriminate.
Qed.

Lemma mapM_ok_iff : forall A B (f : A -> res B) l,
  (exists bs, mapM f l = Ok bs) <-> (forall a, In a l -> exists b, f a = Ok b).
Proof.
  induction l as [|a r IH]; simpl; split.
  - intros _ a [].
  - intros _. exists []; reflexivity.
  - intros [bs H] a' [<-|Hin].
    + apply bind_ok in H as [b [Hb H]]. eauto.
    + apply bind_ok in H as [b [Hb H]]. apply bind_ok in H as [bs' [Hbs H]].
      apply IH; eauto.
  - intros H. destruct (H a (or_introl eq_refl)) as [b Hb].
    rewrite Hb; simpl.
    destruct (proj2 IH (fun a' Ha' => H a' (or_intror Ha'))) as [bs Hbs].
    rewrite Hbs. simpl. eauto.
Qed.

Lemma iterM_ok : forall A (f : A -> res unit) l,
  iterM f l = Ok tt <-> forall a, In a l -> f a = Ok tt.
Proof.
  induction l as [|a r IH]; simpl; split; intros H.
  - intros a [].
  - reflexivity.
  - apply bind_ok in H as [[] [Hb H]]. intros a' [<-|Ha']; [assumption|].
    now apply IH.
  - rewrite (H a (or_introl eq_refl)). simpl. apply IH. auto.
Qed.

Lemma iterM_err : forall A (f : A -> res unit) l e,
  iterM f l = Err e -> exists a, In a l /\ f a = Err e.
Proof.
  induction l as [|a r IH]; simpl; intros e H.
  - discriminate.
  - apply bind_err in H as [H|[b [Hb H]]].
    + eauto.
    + destruct (IH _ H) as [a' [Ha' Hf]]. eauto.
Qed.
