(** Model of the constructors of the stochastic nodes: the _constructor class methods,
    the plates_from_parent methods of the distributions they use, and the check of the
    plates in Node.__init__ (nodes/node.py 279-286).  No proofs here.

    A parent is a node that _ensure_moments has converted: its plates and the dims of
    its moments.  What _ensure_moments does to an array is modelled in ConstNode.v; to a
    node, in Converter.v.  Only plates and dims of the new node are modelled, not its
    moments.  The axes of shapes are counted from the last one: [ax s 0] is s[-1], and
    1 if s has no axes. *)
From Coq Require Import List Arith Bool.
From Verif Require Import Base Shapes SpecShapes GaussToGauss AddAxis.
Import ListNotations.
Open Scope nat_scope.

Record par := Par { p_plates : shape; p_dims : list shape }.
(** The new node: plates and dims. *)
Definition node := (shape * list shape)%type.

(** s[-k:] and s[:-k] for k > 0 *)
Definition last_part (k : nat) (s : shape) : shape := skipn (length s - k) s.
Definition first_part (k : nat) (s : shape) : shape := firstn (length s - k) s.

Definition dims_eqb (a b : list shape) : bool :=
  if list_eq_dec (list_eq_dec Nat.eq_dec) a b then true else false.
(** X.dims[0] and X.dims[0][0] *)
Definition dim0 (p : par) : res shape :=
  match p_dims p with d :: _ => Ok d | [] => Err IndexError end.
Definition dim00 (p : par) : res nat :=
  match p_dims p with (d :: _) :: _ => Ok d | _ => Err IndexError end.

(** expfamily.py 74-91: the node keeps the plates that _constructor computed from
    [first]; node.py 279-286: Node.__init__ then computes them from all parents, which
    can fail, and does not replace them. *)
Definition build (given : option shape) (first second : list shape) (dims : list shape) : res node :=
  plates <- total_plates given first ;;
  _ <- total_plates given second ;;
  Ok (plates, dims).

(** gaussian.py 75-118, 147-151: a Gaussian parent with another number of axes. *)
Definition to_ndim (nd : nat) (p : par) : res par :=
  s <- dim0 p ;;
  if length s <? nd then Err ValueError
  else
    let t := last_part nd s in
    Ok (Par (g2g_plates_from s nd (p_plates p)) [t; t ++ t]).

(** gaussian.py 2303-2336: WrapToGaussianGamma.__init__ of a Gaussian node. *)
Definition wrap_gaussian_gamma (nd : nat) (X alpha : par) : res par :=
  X <- to_ndim nd X ;;
  s <- dim0 X ;;
  if negb (length s =? nd) then Err RuntimeError
  else
    plates <- total_plates None [p_plates X; p_plates alpha] ;;
    Ok (Par plates [s; s ++ s; []; []]).
(** gaussian.py 2385-2435: WrapToGaussianWishart.__init__ of a Gaussian and a Wishart
    node. *)
Definition wrap_gaussian_wishart (nd : nat) (X Lambda : par) : res par :=
  X <- to_ndim nd X ;;
  s <- dim0 X ;;
  if negb (dims_eqb (p_dims Lambda) [s ++ s; []]) then Err ValueError
  else
    plates <- total_plates None [p_plates X; p_plates Lambda] ;;
    Ok (Par plates [s; []; s ++ s; []]).

(** expfamily.py 142-167: the constructor of Gamma and Poisson. *)
Definition gamma_node (a b : par) (given : option shape) : res node :=
  let pp := [p_plates a; p_plates b] in build given pp pp [[]; []].
Definition poisson_node (l : par) (given : option shape) : res node :=
  build given [p_plates l] [p_plates l] [[]].

(** gaussian.py 1605-1657, 744-769: GaussianARD *)
Definition gaussian_ard (mu alpha : par) (ndim : option nat) (sh : option shape) (given : option shape) : res node :=
  mu_alpha <- wrap_gaussian_gamma 0 mu alpha ;;
  s <- match ndim, sh with
       | None, None => Ok []
       | None, Some s => Ok s
       | Some n, Some s => if negb (n =? length s) then Err ValueError else Ok s
       | Some n, None =>
           if n =? 0 then Ok []
           else if length (p_plates mu_alpha) <? n then Err ValueError
           else Ok (last_part n (p_plates mu_alpha))
       end ;;
  let pp := [if length s =? 0 then p_plates mu_alpha else first_part (length s) (p_plates mu_alpha)] in
  build given pp pp [s; s ++ s].

(** gaussian.py 1392-1416: Gaussian *)
Definition gaussian (mu Lambda : par) (nd : nat) (given : option shape) : res node :=
  mu_Lambda <- wrap_gaussian_wishart nd mu Lambda ;;
  s <- dim0 mu_Lambda ;;
  if negb (dims_eqb (p_dims mu_Lambda) [s; []; s ++ s; []]) then Err PyException
  else
    let pp := [p_plates mu_Lambda] in build given pp pp [s; s ++ s].

(** gaussian.py 1799-1846: GaussianGamma *)
Definition gaussian_gamma (mu Lambda a b : par) (nd : nat) (given : option shape) : res node :=
  mu_Lambda <- wrap_gaussian_wishart nd mu Lambda ;;
  s <- dim0 mu_Lambda ;;
  if negb (dims_eqb (p_dims mu_Lambda) [s; []; s ++ s; []]) then Err ValueError
  else if negb (dims_eqb (p_dims a) [[]; []]) then Err ValueError
  else if negb (dims_eqb (p_dims b) [[]; []]) then Err ValueError
  else
    let pp := [p_plates mu_Lambda; p_plates a; p_plates b] in
    build given pp pp [s; s ++ s; []; []].

(** gaussian.py 2169-2218: GaussianWishart *)
Definition gaussian_wishart (mu alpha n V : par) (given : option shape) : res node :=
  mu_alpha <- wrap_gaussian_gamma 1 mu alpha ;;
  D <- dim00 mu_alpha ;;
  if negb (dims_eqb (p_dims mu_alpha) [[D]; [D; D]; []; []]) then Err ValueError
  else if negb (dims_eqb (p_dims V) [[D; D]; []]) then Err ValueError
  else if negb (dims_eqb (p_dims n) [[]; []]) then Err ValueError
  else
    let pp := [p_plates mu_alpha; p_plates n; p_plates V] in
    build given pp pp [[D]; []; [D; D]; []].

(** wishart.py 263-289: Wishart; V.dims[0][-1] *)
Definition wishart (n V : par) (given : option shape) : res node :=
  d <- dim0 V ;;
  match rev d with
  | [] => Err IndexError
  | D :: _ => let pp := [p_plates n; p_plates V] in build given pp pp [[D; D]; []]
  end.

(** dirichlet.py 368-391: Dirichlet;  beta.py 151-172: Beta *)
Definition dirichlet (alpha : par) (given : option shape) : res node :=
  K <- dim00 alpha ;;
  build given [p_plates alpha] [p_plates alpha] [[K]].
Definition beta (alpha : par) (given : option shape) : res node :=
  K <- dim00 alpha ;;
  plates <- total_plates given [p_plates alpha] ;;
  if negb (dims_eqb [[K]] [[2]]) then Err ValueError
  else build given [p_plates alpha] [p_plates alpha] [[K]].
(** categorical.py 162-191: Categorical;  bernoulli.py 85-98: Bernoulli *)
Definition categorical (p : par) (given : option shape) : res node :=
  K <- dim00 p ;;
  build given [p_plates p] [p_plates p] [[K]].
Definition bernoulli (p : par) (given : option shape) : res node :=
  build given [p_plates p] [p_plates p] [[]].
(** binomial.py 215-233: Binomial;  multinomial.py 276-308: Multinomial; [n]: the shape
    of the number of trials, which is not a parent. *)
Definition binomial (n : shape) (p : par) (given : option shape) : res node :=
  build given [p_plates p; n] [p_plates p] [[]].
Definition multinomial (n : shape) (p : par) (given : option shape) : res node :=
  D <- dim00 p ;;
  build given [p_plates p; n] [p_plates p] [[D]].

(** categorical_markov_chain.py 297-357, 164-177: CategoricalMarkovChain; [states] is
    positive. *)
Definition categorical_markov_chain (p0 P : par) (states : option nat) (given : option shape) : res node :=
  D <- dim00 p0 ;;
  let l := length (p_plates P) in
  N <- (if l <? 2 then match states with None => Err ValueError | Some n => Ok n end
        else
          let m := ax (p_plates P) 1 in
          if m =? 1 then match states with None => Ok 2 | Some n => Ok n end
          else match states with
               | Some n => if negb (m + 1 =? n) then Err ValueError else Ok (m + 1)
               | None => Ok (m + 1)
               end) ;;
  if negb (dims_eqb (p_dims p0) (p_dims P)) then Err ValueError
  else if (l <? 1) || negb (ax (p_plates P) 0 =? D) then Err ValueError
  else
    let pp := [p_plates p0; first_part 2 (p_plates P)] in
    build given pp pp [[D]; [N - 1; D; D]].

(** The number of time instances: [m] of the parents, [n] given (gaussian_markov_chain.py
    841-851, 1380-1394, 1907-1921). *)
Definition chain_length (n : option nat) (m : nat) : res nat :=
  match n with
  | None => if m =? 1 then Err PyException else Ok (m + 1)
  | Some n => if negb (m =? 1) && negb (m + 1 =? n) then Err PyException else Ok n
  end.
Definition chain_dims (M D : nat) : list shape := [[M; D]; [M; D; D]; [M - 1; D; D]].

(** gaussian_markov_chain.py 796-908, 685-706: GaussianMarkovChain; [n] is positive. *)
Definition gaussian_markov_chain (mu Lambda A nu : par) (n : option nat) (inputs : option par)
    (given : option shape) : res node :=
  mu_Lambda <- wrap_gaussian_wishart 1 mu Lambda ;;
  A_nu <- wrap_gaussian_gamma 1 A nu ;;
  D <- dim00 mu_Lambda ;;
  Di <- match inputs with None => Ok 0 | Some i => dim00 i end ;;
  let n_inputs := match inputs with None => 1 | Some i => ax (p_plates i) 0 end in
  let a := p_plates A_nu in
  let n_A_nu := ax a 1 in
  if negb (n_inputs =? n_A_nu) && negb (n_inputs =? 1) && negb (n_A_nu =? 1) then Err PyException
  else
    M <- chain_length n (Nat.max n_A_nu n_inputs) ;;
    if negb (dims_eqb (p_dims mu_Lambda) [[D]; []; [D; D]; []]) then Err PyException
    else if negb (dims_eqb (p_dims A_nu) [[D + Di]; [D + Di; D + Di]; []; []]) then Err PyException
    else if (length a =? 0) || negb (ax a 0 =? D) then Err PyException
    else if (2 <=? length a) && negb (ax a 1 =? 1) && negb (ax a 1 =? M - 1) then Err ValueError
    else if match inputs with None => false | Some i => negb (dims_eqb (p_dims i) [[Di]; [Di; Di]]) end
    then Err ValueError
    else
      let pp := [p_plates mu_Lambda; first_part 2 a] in
      build given pp (pp ++ match inputs with None => [] | Some i => [first_part 1 (p_plates i)] end)
        (chain_dims M D).

(** gaussian_markov_chain.py 1331-1448, 1160-1195: VaryingGaussianMarkovChain *)
Definition varying_markov_chain (mu Lambda B S v : par) (n : option nat) (given : option shape) : res node :=
  let n_S := ax (p_plates S) 0 in
  let n_v := ax (p_plates v) 1 in
  if negb (n_v =? n_S) && negb (n_v =? 1) && negb (n_S =? 1) then Err PyException
  else
    M <- chain_length n (Nat.max n_v n_S) ;;
    D <- dim00 mu ;;
    b <- dim0 B ;;
    let K := ax b 0 in
    if negb (dims_eqb (p_dims mu) [[D]; [D; D]]) then Err ValueError
    else if negb (dims_eqb (p_dims Lambda) [[D; D]; []]) then Err ValueError
    else if negb (dims_eqb (p_dims B) [[D; K]; [D; K; D; K]]) then Err ValueError
    else if (length (p_plates B) =? 0) || negb (ax (p_plates B) 0 =? D) then Err ValueError
    else if negb (dims_eqb (p_dims S) [[K]; [K; K]]) then Err ValueError
    else if (1 <=? length (p_plates S)) && negb (ax (p_plates S) 0 =? 1) && negb (ax (p_plates S) 0 =? M - 1)
    then Err ValueError
    else if negb (dims_eqb (p_dims v) [[]; []]) then Err PyException
    else if (length (p_plates v) =? 0) || negb (ax (p_plates v) 0 =? D) then Err PyException
    else if (2 <=? length (p_plates v)) && negb (ax (p_plates v) 1 =? 1) && negb (ax (p_plates v) 1 =? M - 1)
    then Err ValueError
    else
      let pp := [p_plates mu; p_plates Lambda; first_part 1 (p_plates B); first_part 1 (p_plates S);
                 first_part 2 (p_plates v)] in
      build given pp pp (chain_dims M D).

(** gaussian_markov_chain.py 1866-1983, 1709-1738: SwitchingGaussianMarkovChain; the
    conversion of Z (categorical.py 64-70) refuses another number of categories. *)
Definition switching_markov_chain (mu Lambda B Z v : par) (n : option nat) (given : option shape) : res node :=
  if length (p_plates B) <? 2 then Err IndexError
  else
    K <- dim00 Z ;;
    if negb (K =? ax (p_plates B) 1) then Err ValueError
    else if length (p_plates Z) =? 0 then Err ValueError
    else
      let n_Z := ax (p_plates Z) 0 in
      let n_v := ax (p_plates v) 1 in
      if negb (n_v =? n_Z) && negb (n_v =? 1) && negb (n_Z =? 1) then Err PyException
      else
        M <- chain_length n (Nat.max n_v n_Z) ;;
        D <- dim00 mu ;;
        if negb (dims_eqb (p_dims mu) [[D]; [D; D]]) then Err ValueError
        else if negb (dims_eqb (p_dims Lambda) [[D; D]; []]) then Err ValueError
        else if negb (dims_eqb (p_dims B) [[D]; [D; D]]) then Err ValueError
        else if negb (ax (p_plates B) 1 =? K) || negb (ax (p_plates B) 0 =? D) then Err ValueError
        else if negb (dims_eqb (p_dims Z) [[K]]) then Err ValueError
        else if negb (ax (p_plates Z) 0 =? M - 1) then Err ValueError
        else if negb (dims_eqb (p_dims v) [[]; []]) then Err PyException
        else if (length (p_plates v) =? 0) || negb (ax (p_plates v) 0 =? D) then Err PyException
        else if (2 <=? length (p_plates v)) && negb (ax (p_plates v) 1 =? 1) && negb (ax (p_plates v) 1 =? M - 1)
        then Err ValueError
        else
          let pp := [p_plates mu; p_plates Lambda; first_part 2 (p_plates B); first_part 1 (p_plates Z);
                     first_part 2 (p_plates v)] in
          build given pp pp (chain_dims M D).

(** mixture.py 436-486, 326-342: Mixture over the plate -1-c.  [parents]: the plates of
    the parents of the mixed node, and how many of their last axes its
    plates_from_parent removes; [dims]: of the mixed node. *)
Definition pop_plate (c : nat) (s : shape) : res shape :=
  if c + 1 <=? length s then py_pop c s else Ok s.
Definition mixture (z : par) (parents : list (shape * nat)) (dims : list shape) (c : nat)
    (given : option shape) : res node :=
  let fronts := map (fun q : shape * nat => first_part (snd q) (fst q)) parents in
  mixed <- build None fronts fronts dims ;;
  let mp := fst mixed in
  if length mp <? c + 1 then Err ValueError
  else
    let K := ax mp c in
    rest <- py_pop c mp ;;
    Kz <- dim00 z ;;
    if negb (Kz =? K) then Err ValueError
    else
      popped <- mapM (pop_plate c) fronts ;;
      build given [rest; p_plates z] (p_plates z :: popped) dims.
