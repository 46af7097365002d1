(** Model of bayespy/inference/vmp/nodes/dot.py: SumMultiply and Dot.  No proofs here.

    Simplifications: an axis key is a natural number (for the string syntax, the code of
    the character); a parent is given by the shape of its variable and by the kind of its
    moments after _ensure_moments; the moments of the parents, the messages of the children
    and the mask are arguments.  [SumMultiply._compute_function] (drawing samples) is not
    modelled. *)
From Coq Require Import Ascii String List Arith Bool Reals.
From Verif Require Import Base Shapes NumPy MiscArray.
Import ListNotations.
Open Scope nat_scope.

(** ** Parsing the arguments *)

(** misc.py 685-686: remove_whitespace; the characters of Python's str.split(). *)
Definition is_space (c : ascii) : bool :=
  let n := nat_of_ascii c in
  (9 <=? n) && (n <=? 13) || (28 <=? n) && (n <=? 32) || (n =? 133) || (n =? 160).
Definition remove_whitespace (s : list ascii) : list ascii := filter (fun c => negb (is_space c)) s.

(** str.split(sep) for the separators "," and "->". *)
Fixpoint split_comma (s : list ascii) : list (list ascii) :=
  match s with
  | [] => [[]]
  | c :: r =>
      if Ascii.eqb c "," then [] :: split_comma r
      else match split_comma r with
           | [] => [[c]]
           | h :: t => (c :: h) :: t
           end
  end.
Fixpoint split_arrow (s : list ascii) : list (list ascii) :=
  match s with
  | [] => [[]]
  | c :: r =>
      match r with
      | d :: r' =>
          if Ascii.eqb c "-" && Ascii.eqb d ">" then [] :: split_arrow r'
          else match split_arrow r with
               | [] => [[c]]
               | h :: t => (c :: h) :: t
               end
      | [] => [[c]]
      end
  end.

(** dot.py 128-153: SumMultiply('ik,k,kj->ij', X, Y, Z). *)
Definition sm_parse (s : string) (num_nodes : nat) : res (list (list nat) * list nat) :=
  let strings := split_arrow (remove_whitespace (list_ascii_of_string s)) in
  match strings with
  | [] => Err IndexError                       (* str.split never returns an empty list *)
  | s_in :: rest =>
      if 1 <? length rest then Err ValueError
      else
        let s_out := match rest with o :: _ => o | [] => [] end in
        let s_in := split_comma s_in in
        if negb (length s_in =? num_nodes) then Err ValueError
        else Ok (map (map nat_of_ascii) s_in, map nat_of_ascii s_out)
  end.

(** ** The constructor *)

(** The moments a parent has after _ensure_moments. *)
Inductive pkind := KDelta | KGaussian | KGaussianGamma.
Definition is_delta (k : pkind) : bool := match k with KDelta => true | _ => false end.
Definition is_gamma (k : pkind) : bool := match k with KGaussianGamma => true | _ => false end.

Record sm_node := SM {
  sm_in : list (list nat);        (* self.in_keys *)
  sm_out : list nat;              (* self.out_keys *)
  sm_nkeys : nat;                 (* self.N_keys *)
  sm_const : list bool;           (* self.is_constant *)
  sm_gamma : bool;                (* self.gaussian_gamma *)
  sm_shape : shape }.             (* dims[0] *)

(** len(set(l)) = len(l) *)
Definition all_unique (l : list nat) : bool := length (nodup Nat.eq_dec l) =? length l.

(** dot.py 246-271: broadcasted_size[key]. *)
Definition broadcasted_size (key : nat) (nodes : list (shape * list nat)) : res nat :=
  foldM (fun size nk =>
           match index_of key (snd nk) with
           | None => Ok size                      (* keyset.index raises: key not used *)
           | Some i =>
               match nth_error (fst nk) i with
               | None => Err IndexError
               | Some node_size =>
                   if node_size =? size then Ok size
                   else if size =? 1 then Ok node_size
                   else if negb (node_size =? 1) then Err ValueError
                   else Ok size
               end
           end) 1 nodes.

(** list.index *)
Definition py_index (l : list nat) (k : nat) : res nat :=
  match index_of k l with Some i => Ok i | None => Err ValueError end.

(** dot.py 170-292: from the parsed arguments on.  [nodes]: shape of the variable and kind
    of moments of every parent.  [full_keyset] is list(set(...)) of all keys: Python
    enumerates a set in an unspecified order, so the order is an argument.  The kinds are those
    found by the two tries (180-205); if any parent is Gaussian-gamma, the Gaussian ones are
    converted to Gaussian-gamma moments, which the node then receives. *)
Definition sm_init (full_keyset : list nat) (nodes : list (shape * pkind))
           (keysets : list (list nat)) (keys_out : list nat) : res sm_node :=
  let nk := combine (map fst nodes) keysets in
  if (length nodes =? 0) || negb (length nodes =? length keysets) then Err ValueError
  else if negb (forallb (fun p => (length (fst p) =? length (snd p)) && all_unique (snd p)) nk)
  then Err ValueError
  else if negb (all_unique keys_out) then Err ValueError
  else if negb (forallb (fun key => memb key full_keyset) keys_out) then Err ValueError
  else
    sizes <- mapM (fun key => broadcasted_size key nk) full_keyset ;;
    shp <- mapM (fun key => i <- py_index full_keyset key ;;
                            match nth_error sizes i with
                            | Some d => Ok d
                            | None => Err KeyError
                            end) keys_out ;;
    out <- mapM (py_index full_keyset) keys_out ;;
    ins <- mapM (mapM (py_index full_keyset)) keysets ;;
    Ok (SM ins out (length full_keyset) (map (fun p => is_delta (snd p)) nodes)
           (existsb (fun p => is_gamma (snd p)) nodes) shp).

(** ** Moments *)

(** The moments of one parent: the value of a constant; <x>, <xx'>; <tau x>, <tau xx'>,
    <tau>, <log tau>. *)
Inductive pmom :=
| MDelta (x : arr R)
| MGaussian (x xx : arr R)
| MGaussianGamma (x xx a la : arr R).
Definition mom0 (u : pmom) : arr R :=
  match u with MDelta x => x | MGaussian x _ => x | MGaussianGamma x _ _ _ => x end.
Definition mom1 (u : pmom) : res (arr R) :=
  match u with MDelta _ => Err IndexError | MGaussian _ xx => Ok xx | MGaussianGamma _ xx _ _ => Ok xx end.
Definition mom2 (u : pmom) : res (arr R) :=
  match u with MGaussianGamma _ _ a _ => Ok a | _ => Err IndexError end.
Definition mom3 (u : pmom) : res (arr R) :=
  match u with MGaussianGamma _ _ _ la => Ok la | _ => Err IndexError end.

(** list(range(D+n-1, D-1, -1)) *)
Definition down_keys (D n : nat) : list nat := rev (seq D n).

(** zip(self.in_keys, u_parents, self.is_constant) *)
Definition zip3 {A B C} (a : list A) (b : list B) (c : list C) : list (A * B * C) :=
  combine (combine a b) c.

(** dot.py 319-323, 339, 344-355: the mean. *)
Definition sm_mean (g : sm_node) (us : list pmom) : res (arr R) :=
  let D := sm_nkeys g in
  let counts := map (fun p => ndim (mom0 (snd p)) - length (fst p)) (combine (sm_in g) us) in
  let N0 := list_max counts in
  einsum (combine (map mom0 us)
                  (map (fun p => down_keys D (fst p) ++ snd p) (combine counts (sm_in g))))
         (down_keys D N0 ++ sm_out g).

(** dot.py 324-340, 357-403: the second moment.  The operands of one parent: its second
    moment, or the value of a constant twice. *)
Definition sm_ops1 (D : nat) (p : list nat * pmom * bool) : res (list (arr R * list nat)) :=
  let '(keys, u, is_const) := p in
  if is_const then
    let c := down_keys (2 * D) (ndim (mom0 u) - length keys) in
    Ok [(mom0 u, c ++ map (Nat.add D) keys); (mom0 u, c ++ keys)]
  else
    xx <- mom1 u ;;
    let c := down_keys (2 * D) (ndim xx - 2 * length keys) in
    Ok [(xx, c ++ map (Nat.add D) keys ++ keys)].
Definition sm_count1 (p : list nat * pmom * bool) : res nat :=
  let '(keys, u, is_const) := p in
  if is_const then Ok (ndim (mom0 u) - length keys)
  else xx <- mom1 u ;; Ok (ndim xx - 2 * length keys).
Definition sm_second (g : sm_node) (us : list pmom) : res (arr R) :=
  let D := sm_nkeys g in
  let zs := zip3 (sm_in g) us (sm_const g) in
  counts <- mapM sm_count1 zs ;;
  let N1 := list_max counts in
  ops <- mapM (sm_ops1 D) zs ;;
  einsum (concat ops) (down_keys (2 * D) N1 ++ map (Nat.add D) (sm_out g) ++ sm_out g).

(** dot.py 408-413: the moments of the scale. *)
Definition sm_scale (g : sm_node) (us : list pmom) : res (arr R * arr R) :=
  foldM (fun acc p =>
           let '(u, is_const) := (p : pmom * bool) in
           if is_const then
             (* x2 * 1, x3 + 0 *)
             Ok (np_map (fun v => v * 1)%R (fst acc), np_map (fun v => v + 0)%R (snd acc))
           else
             a <- mom2 u ;; la <- mom3 u ;;
             x2 <- np_multiply (fst acc) a ;; x3 <- np_map2 Rplus (snd acc) la ;; Ok (x2, x3))
        (scalar 1%R, scalar 0%R) (combine us (sm_const g)).

(** dot.py 316-416: _compute_moments. *)
Definition sm_moments (g : sm_node) (us : list pmom) : res (list (arr R)) :=
  x0 <- sm_mean g us ;;
  x1 <- sm_second g us ;;
  if negb (sm_gamma g) then Ok [x0; x1]
  else '(x2, x3) <- sm_scale g us ;; Ok [x0; x1; x2; x3].

(** ** Messages *)

(** dot.py 494-531: operands from the other parents for message [ind] (0 or 1), their
    plates.  Keys of plate axes: list(range(N + num_plates, N, -1)). *)
Definition sm_other_ops (D : nat) (second : bool) (p : list nat * pmom * bool)
  : res (list (arr R * list nat) * shape) :=
  let '(keys, u, is_const) := p in
  let N := if second then 2 * D else D in
  let num_dims := if is_const then length keys
                  else (if second then 2 * length keys else length keys) in
  ui <- (if is_const then Ok (mom0 u) else if second then mom1 u else Ok (mom0 u)) ;;
  let num_plates := ndim ui - num_dims in
  let plates := firstn num_plates (ash ui) in
  let plate_keys := down_keys (S N) num_plates in
  let in_keys2 := map (fun k => k + D) keys in
  if negb second then Ok ([(ui, plate_keys ++ keys)], plates)
  else if negb is_const then Ok ([(ui, plate_keys ++ in_keys2 ++ keys)], plates)
  else Ok ([(ui, plate_keys ++ keys); (ui, plate_keys ++ in_keys2)], plates).

(** The parents other than [index]. *)
Definition others {A} (index : nat) (l : list A) : list A := firstn index l ++ skipn (S index) l.

(** dot.py 551-577: drop the keys of unit axes and the keys no operand has; also the
    positions of the dropped keys. *)
Fixpoint kept_keys (j : nat) (keys : list nat) (shp : shape) (used : list (list nat))
  : res (list nat * list nat) :=
  match keys with
  | [] => Ok ([], [])
  | k :: r =>
      match shp with
      | [] => Err IndexError
      | d :: shp' =>
          '(ks, rm) <- kept_keys (S j) r shp' used ;;
          if (d =? 1) || negb (existsb (memb k) used) then Ok (ks, j :: rm) else Ok (k :: ks, rm)
      end
  end.

(** list.insert(ax, 1) *)
Definition list_insert (s : shape) (i : nat) : shape := firstn i s ++ 1 :: skipn i s.

(** dot.py 459-612: the message [ind] (0 or 1) to parent [index]: [m] is the message from
    the children, [mask_shape] = np.shape(self.mask), [dims] = parent.dims[0],
    [parent_plates] its plates, [plates] = self.plates. *)
Definition sm_message_part (g : sm_node) (second : bool) (index : nat) (us : list pmom)
           (m : arr R) (mask_shape dims parent_plates plates : shape) : res (arr R) :=
  let D := sm_nkeys g in
  let N := if second then 2 * D else D in
  in_i <- match nth_error (sm_in g) index with Some k => Ok k | None => Err IndexError end ;;
  let parent_dims := if second then dims ++ dims else dims in
  let parent_plate_keys := down_keys (S N) (length parent_plates) in
  let parent_dim_keys := if second then map (fun k => k + D) in_i ++ in_i else in_i in
  os <- mapM (sm_other_ops D second) (others index (zip3 (sm_in g) us (sm_const g))) ;;
  let child_num_dims := (if second then 2 else 1) * length (sm_out g) in
  let child_num_plates := ndim m - child_num_dims in
  let child_plates := firstn child_num_plates (ash m) in
  let child_dim_keys := if second then map (fun k => k + D) (sm_out g) ++ sm_out g else sm_out g in
  let ops := concat (map fst os) ++ [(m, down_keys (S N) child_num_plates ++ child_dim_keys)] in
  let all_plates := mask_shape :: map snd os ++ [child_plates] in
  let result_num_plates := list_max (map (@length nat) all_plates) in
  result_plates <- foldM (fun acc s => broadcasted_shape [acc; s]) [] all_plates ;;
  '(parent_keys, removed) <- kept_keys 0 (parent_plate_keys ++ parent_dim_keys)
                                       (parent_plates ++ parent_dims) (map snd ops) ;;
  y <- einsum ops parent_keys ;;
  let message_shape := fold_left list_insert removed (ash y) in
  let message_shape := if result_num_plates <? length parent_plates
                       then skipn (length parent_plates - result_num_plates) message_shape
                       else message_shape in
  y <- np_reshape y message_shape ;;
  y <- np_multiply y (Arr parent_dims (fun _ => 1%R)) ;;
  r <- broadcasting_multiplier plates [result_plates; parent_plates] ;;
  Ok (if negb (r =? 1) then np_scale r y else y).

Definition of_mask (b : arr bool) : arr R := np_map (fun c : bool => if c then 1%R else 0%R) b.

(** dot.py 425-633: _message_to_parent.  [us]: moments of the parents (the one of [index]
    is not used), [ms]: message of the children. *)
Definition sm_message (g : sm_node) (index : nat) (us : list pmom) (ms : list (arr R))
           (mask : arr bool) (dims parent_plates plates : shape) : res (list (arr R)) :=
  match nth_error (sm_const g) index with
  | None => Err IndexError
  | Some true => Err NotImplementedError
  | Some false =>
      match ms with
      | m0 :: m1 :: rest =>
          y0 <- sm_message_part g false index us m0 (ash mask) dims parent_plates plates ;;
          y1 <- sm_message_part g true index us m1 (ash mask) dims parent_plates plates ;;
          if negb (sm_gamma g) then Ok [y0; y1]
          else
            match rest with
            | m2 :: m3 :: _ =>
                alphas <- mapM (fun p : pmom * bool =>
                                  if snd p then Ok (scalar 1%R) else mom2 (fst p))
                               (others index (combine us (sm_const g))) ;;
                y2 <- compute_message (m2 :: of_mask mask :: alphas) plates parent_plates 0 ;;
                y3 <- compute_message [m3; of_mask mask] plates parent_plates 0 ;;
                Ok [y0; y1; y2; y3]
            | _ => Err IndexError
            end
      | _ => Err IndexError
      end
  end.

(** dot.py 636-644: Dot, the keys 'i,i,...,i'. *)
Definition dot_string (n : nat) : string :=
  ("i" ++ String.concat "" (repeat ",i" (n - 1)))%string.
