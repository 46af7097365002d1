(** Specification of SumMultiply, independent of the model: what its arguments must satisfy,
    what it computes from values, and expectations over independent parents. *)
From Coq Require Import Ascii String List Arith Bool Reals.
From Verif Require Import Base Shapes SpecShapes NumPy MiscArray SpecArray Dot.
Import ListNotations.
Open Scope nat_scope.

(** Some parent has an axis with key [key] and length [d]. *)
Definition axis_length (dimss : list shape) (keysets : list (list nat)) (key d : nat) : Prop :=
  exists n i ks dims, nth_error keysets n = Some ks /\ nth_error dimss n = Some dims /\
    nth_error ks i = Some key /\ nth_error dims i = Some d.

(** The arguments are valid: as many key lists as parents (at least one), one key per axis,
    no key twice in a list, output keys among the input keys, and axes with the same key
    have the same length or length one. *)
Definition valid_arguments (dimss : list shape) (keysets : list (list nat)) (keys_out : list nat) : Prop :=
  dimss <> [] /\ Forall2 (fun dims ks => length dims = length ks /\ NoDup ks) dimss keysets /\
  NoDup keys_out /\ (forall k, In k keys_out -> In k (concat keysets)) /\
  forall k d d', axis_length dimss keysets k d -> axis_length dimss keysets k d' -> d = d' \/ d = 1 \/ d' = 1.

(** The common length of the axes with a key. *)
Definition key_length (dimss : list shape) (keysets : list (list nat)) (k d : nat) : Prop :=
  (forall e, axis_length dimss keysets k e -> e = 1 \/ e = d) /\ (d = 1 \/ axis_length dimss keysets k d).

(** The value at output index [o] of the sum-product of the parents' values: the sum over the
    indices of all keys that are not output keys. *)
Definition sum_product_at (size : nat -> nat) (keysets : list (list nat)) (keys_out : list nat)
           (values : list (arr R)) (o : list nat) : R :=
  itersum (map (fun k => (k, size k))
               (filter (fun k => negb (memb k keys_out)) (nodup Nat.eq_dec (concat keysets))))
          (fun index => lprod (map (fun p => bget (snd p) (at_index (map index (fst p)))) (combine keysets values)))
          (fun k => match index_of k keys_out with Some i => nth i o 0 | None => 0 end).

(** A parent in one plate: finitely many outcomes, with probability, value and scale tau
    (one unless the parent is Gaussian-gamma). *)
Record outcome := Outcome { o_prob : R; o_value : arr R; o_scale : R }.
Definition mean_of (d : list outcome) (F : outcome -> R) : R :=
  lsum (map (fun o => o_prob o * F o)%R d).
(** Expectation over independent parents. *)
Fixpoint expect (ds : list (list outcome)) (F : list outcome -> R) : R :=
  match ds with
  | [] => F []
  | d :: r => mean_of d (fun o => expect r (fun os => F (o :: os)))
  end.
Definition scale_of (os : list outcome) : R := lprod (map o_scale os).

(** [a] gives an array of shape [d] for every plate of [P], perhaps broadcast over plates. *)
Definition variable_of (P d : shape) (a : arr R) : Prop :=
  length d <= ndim a /\ (forall i, i < length d -> ax (ash a) i = ax d i) /\ broadcasts_to (ash a) (P ++ d).
(** A plate of [P]. *)
Definition plate_in (P : shape) (p : env) : Prop := forall j, ax P j <> 1 -> p j < ax P j.
Definition index_in (dims : shape) (o : list nat) : Prop := Forall2 lt o dims.

(** The moments [u] of a parent with variable shape [dims] describe its distribution
    [dist p] in every plate [p].  [gamma]: the node works with Gaussian-gamma moments. *)
Definition describes (gamma : bool) (P dims : shape) (kind : pkind) (u : pmom) (dist : env -> list outcome) : Prop :=
  (forall p, plate_in P p -> mean_of (dist p) (fun _ => 1%R) = 1%R) /\
  (forall p o, plate_in P p -> In o (dist p) -> ash (o_value o) = dims /\ (0 < o_scale o)%R) /\
  match is_delta kind, gamma, u with
  | true, _, MDelta x =>
      variable_of P dims x /\
      forall p o, plate_in P p -> In o (dist p) ->
        o_scale o = 1%R /\ forall i, index_in dims i -> bget (o_value o) (at_index i) = bget x (join (length dims) p (at_index i))
  | false, false, MGaussian x xx =>
      variable_of P dims x /\ variable_of P (dims ++ dims) xx /\
      (forall p o, plate_in P p -> In o (dist p) -> o_scale o = 1%R) /\
      (forall p i, plate_in P p -> index_in dims i ->
        bget x (join (length dims) p (at_index i)) = mean_of (dist p) (fun o => bget (o_value o) (at_index i))) /\
      (forall p i j, plate_in P p -> index_in dims i -> index_in dims j ->
        bget xx (join (length (dims ++ dims)) p (at_index (i ++ j))) =
        mean_of (dist p) (fun o => bget (o_value o) (at_index i) * bget (o_value o) (at_index j))%R)
  | false, true, MGaussianGamma x xx a la =>
      variable_of P dims x /\ variable_of P (dims ++ dims) xx /\ variable_of P [] a /\ variable_of P [] la /\
      (forall p i, plate_in P p -> index_in dims i ->
        bget x (join (length dims) p (at_index i)) = mean_of (dist p) (fun o => o_scale o * bget (o_value o) (at_index i))%R) /\
      (forall p i j, plate_in P p -> index_in dims i -> index_in dims j ->
        bget xx (join (length (dims ++ dims)) p (at_index (i ++ j))) =
        mean_of (dist p) (fun o => o_scale o * (bget (o_value o) (at_index i) * bget (o_value o) (at_index j)))%R) /\
      (forall p, plate_in P p -> bget a p = mean_of (dist p) o_scale) /\
      (forall p, plate_in P p -> bget la p = mean_of (dist p) (fun o => ln (o_scale o)))
  | _, _, _ => False
  end.

(** The set of all keys, in some order. *)
Definition enumerates (full : list nat) (keysets : list (list nat)) : Prop :=
  NoDup full /\ forall k, In k full <-> In k (concat keysets).

(** The same arrays without the distribution: only shapes. *)
Definition shaped (gamma : bool) (P dims : shape) (kind : pkind) (u : pmom) : Prop :=
  match is_delta kind, gamma, u with
  | true, _, MDelta x => variable_of P dims x
  | false, false, MGaussian x xx => variable_of P dims x /\ variable_of P (dims ++ dims) xx
  | false, true, MGaussianGamma x xx a la =>
      variable_of P dims x /\ variable_of P (dims ++ dims) xx /\ variable_of P [] a /\ variable_of P [] la
  | _, _, _ => False
  end.
Definition first_moment (u : pmom) : arr R := mom0 u.
Definition second_moment (u : pmom) : arr R :=
  match u with MDelta x => x | MGaussian _ xx => xx | MGaussianGamma _ xx _ _ => xx end.
Definition scale_moment (u : pmom) : arr R := match u with MGaussianGamma _ _ a _ => a | _ => scalar 1%R end.
Definition log_scale_moment (u : pmom) : arr R := match u with MGaussianGamma _ _ _ la => la | _ => scalar 0%R end.

(** The argument string 'ab,bc->ac' for lists of input keys and output keys. *)
Fixpoint comma_separated (ins : list (list Ascii.ascii)) : list Ascii.ascii :=
  match ins with
  | [] => []
  | [k] => k
  | k :: r => k ++ Ascii.ascii_of_nat 44 :: comma_separated r
  end.
Definition einsum_string (ins : list (list Ascii.ascii)) (out : list Ascii.ascii) : String.string :=
  String.string_of_list_ascii (comma_separated ins ++ Ascii.ascii_of_nat 45 :: Ascii.ascii_of_nat 62 :: out).
(** White space of Python's str.split(), by character code. *)
Definition white (c : Ascii.ascii) : Prop := In (Ascii.nat_of_ascii c) [9; 10; 11; 12; 13; 28; 29; 30; 31; 32; 133; 160].
(** [t] is [s] without its white space. *)
Inductive unspaced : list Ascii.ascii -> list Ascii.ascii -> Prop :=
| un_nil : unspaced [] []
| un_white : forall c s t, white c -> unspaced s t -> unspaced (c :: s) t
| un_keep : forall c s t, ~ white c -> unspaced s t -> unspaced (c :: s) (c :: t).
Definition comma : Ascii.ascii := Ascii.ascii_of_nat 44.
Definition arrow : list Ascii.ascii := [Ascii.ascii_of_nat 45; Ascii.ascii_of_nat 62].
Definition no_arrow (l : list Ascii.ascii) : Prop := forall a b, l <> a ++ arrow ++ b.
(** The argument string [s] has the keys [ins] (separated by commas) and, after an arrow, the
    keys [out]; without an arrow there are no output keys. *)
Definition argument_string (s : list Ascii.ascii) (ins : list (list Ascii.ascii)) (out : list Ascii.ascii) : Prop :=
  ins <> [] /\ (forall k, In k ins -> ~ In comma k) /\ no_arrow (comma_separated ins) /\ no_arrow out /\
  (unspaced s (comma_separated ins ++ arrow ++ out) \/ unspaced s (comma_separated ins) /\ out = []).
(** A character that can be a key: no white space, comma, minus or greater-than. *)
Definition key_char (c : Ascii.ascii) : Prop :=
  is_space c = false /\ ~ In (Ascii.nat_of_ascii c) [44; 45; 62].
