(** Model of the converter registry and search: node.py, class Moments.

    Classes and converter functions are numbers.  A hierarchy gives the direct
    base classes that are Moments classes, the method resolution order (the
    class itself, then its ancestors) and issubclass. *)
From Coq Require Import List Arith Lia Bool.
From Verif Require Import Base.
Import ListNotations.

Record hierarchy : Type := Hier {
  bases : nat -> list nat;      (** cls.__bases__ restricted to Moments classes *)
  mro : nat -> list nat;        (** cls.__mro__ *)
  issub : nat -> nat -> bool }. (** issubclass *)

(** A dictionary from target classes to converters, in insertion order. *)
Definition table := list (nat * nat).
Definition dict_set (d : table) (t k : nat) : table :=
  if existsb (fun e => fst e =? t) d
  then map (fun e => if fst e =? t then (t, k) else e) d
  else d ++ [(t, k)].

(** The attribute _converters in the class dictionaries; the root class has
    [_converters = {}] (node.py 73). *)
Definition registry := nat -> option table.

(** Attribute lookup cls._converters along the method resolution order. *)
Fixpoint lookup_in (r : registry) (l : list nat) : table :=
  match l with
  | [] => []
  | c :: l' => match r c with Some t => t | None => lookup_in r l' end
  end.
Definition converters (h : hierarchy) (r : registry) (c : nat) : table :=
  lookup_in r (mro h c).

(** node.py 103-107: Moments.add_converter. *)
Definition add_converter (h : hierarchy) (r : registry) (c t k : nat) : registry :=
  fun x => if x =? c then Some (dict_set (converters h r c) t k) else r x.

Definition memn (c : nat) (l : list nat) : bool := existsb (Nat.eqb c) l.

Section Search.
Variables (h : hierarchy) (r : registry) (target : nat).

(** node.py 157-166: the inner loop over the parents of one class.  Line 161
    asks [isinstance(p, Moments)] of a class object, which is always False, so
    only direct base classes are visited. *)
Fixpoint add_bases (l : list nat) (path : list nat) (visited : list nat)
  : list nat * list (nat * list nat) :=
  match l with
  | [] => (visited, [])
  | b :: l' =>
      if memn b visited then add_bases l' path visited
      else let '(v, cur) := add_bases l' path (b :: visited) in (v, (b, path) :: cur)
  end.

(** node.py 148-166: returns the path when the target is hit. *)
Fixpoint expand (conv : list (nat * list nat)) (visited : list nat)
  : option (list nat) * list nat * list (nat * list nat) :=
  match conv with
  | [] => (None, visited, [])
  | (c, path) :: l =>
      if issub h c target then (Some path, visited, [])
      else
        let '(v, cur) := add_bases (bases h c) path visited in
        let '(o, v', cur') := expand l v in
        (o, v', (c, path) :: cur ++ cur')
  end.

(** node.py 171-175: the converters of one class. *)
Fixpoint apply_table (t : table) (path : list nat) (visited : list nat)
  : list nat * list (nat * list nat) :=
  match t with
  | [] => (visited, [])
  | (d, k) :: t' =>
      if memn d visited then apply_table t' path visited
      else let '(v, new) := apply_table t' path (d :: visited) in (v, (d, path ++ [k]) :: new)
  end.

(** node.py 169-175 *)
Fixpoint apply_all (cur : list (nat * list nat)) (visited : list nat)
  : list nat * list (nat * list nat) :=
  match cur with
  | [] => (visited, [])
  | (c, path) :: l =>
      let '(v, new) := apply_table (converters h r c) path visited in
      let '(v', new') := apply_all l v in
      (v', new ++ new')
  end.

(** node.py 148-179: the while loop.  [fuel] bounds the number of iterations. *)
Fixpoint search (fuel : nat) (conv : list (nat * list nat)) (visited : list nat)
  : res (list nat) :=
  match fuel with
  | O => Err Interrupted
  | S f =>
      match conv with
      | [] => Err NoConverterError
      | _ =>
          match expand conv visited with
          | (Some path, _, _) => Ok path
          | (None, v, cur) => let '(v', conv') := apply_all cur v in search f conv' v'
          end
      end
  end.

(** node.py 110-179: Moments.get_converter for a moments object of class [c]:
    the list of converters that are composed ([] is the identity). *)
Definition get_converter (fuel : nat) (c : nat) : res (list nat) :=
  if issub h c target then Ok []
  else search fuel [(c, [])] [c].
End Search.

(** utils/misc.py 271-283: composite_function. *)
Fixpoint composite_function {X : Type} (fs : list (X -> X)) (x : X) : X :=
  match fs with
  | [] => x
  | f :: fs' => composite_function fs' (f x)
  end.
