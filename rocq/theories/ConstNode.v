(** Model of how a plain array becomes a node: Node._ensure_moments (nodes/node.py
    361-369), from_values of the moments classes, and the constructor of Constant
    (nodes/constant.py 20-37).  No proofs here.

    A value is the array that np.asanyarray makes of it; [int] says whether its dtype
    is an integer or a boolean one.  Numbers are real.  dims is a Python value: its
    entries can be numbers or tuples. *)
From Coq Require Import List Arith ZArith Bool Reals.
From Verif Require Import Base Shapes SpecShapes NumPy MiscArray ExpFam Families AddNode.
Import ListNotations.
Open Scope nat_scope.

Inductive pyv := PI (n : nat) | PT (l : list pyv).

(** A constant node: plates, dims and moments. *)
Record const := Const { c_plates : shape; c_dims : list (list pyv); c_u : list (arr R) }.

(** s[-k:] for k > 0 *)
Definition last_axes (k : nat) (s : shape) : shape := skipn (length s - k) s.

(** np.any(p(x)) *)
Definition np_any (p : R -> bool) (x : arr R) : bool :=
  negb (np_all (np_map (fun v => negb (p v)) x)).
Definition ltb (a b : R) : bool := if Rlt_dec a b then true else false.
Definition leb (a b : R) : bool := if Rle_dec a b then true else false.

(** constant.py 25-37: the plates are what is left of the shape of the first moment;
    Node.__init__ keeps them, as a constant has no parents. *)
Definition constant (dims : list (list pyv)) (u : list (arr R)) : res const :=
  match dims, u with
  | d0 :: _, u0 :: _ =>
      let D := length d0 in
      let plates := if 0 <? D then firstn (ndim u0 - D) (ash u0) else ash u0 in
      Ok (Const plates dims u)
  | _, _ => Err IndexError
  end.

(** The extra arguments of _ensure_moments. *)
Inductive kwargs := NoKw | KwNdim (n : nat) | KwCategories (K : nat) | KwD (d : nat).

Section Special.
Variable gammaln : R -> R.
Variable multigammaln : R -> nat -> R.
(** linalg.chol and linalg.chol_logdet over the last 2 ndim axes. *)
Variable logdet : nat -> arr R -> res (arr R).

(** gaussian.py 64-72, 54-61: GaussianMoments(shape) and its compute_fixed_moments. *)
Definition gaussian_constant (nd : nat) (x : arr R) : res const :=
  let shape := if nd =? 0 then [] else last_axes nd (ash x) in
  let n := length shape in
  x <- atleast_nd x n ;;
  xx <- la_outer x x n ;;
  constant [map PI shape; map PI (shape ++ shape)] [x; xx].

(** gaussian.py 205-215, 181-202: GaussianGammaMoments of a pair (x, alpha).  With
    ndim = 0 the shape is a tuple of four empty tuples. *)
Definition gaussian_gamma_constant (nd : nat) (x alpha : arr R) : res const :=
  let shape := if nd =? 0 then [PT []; PT []; PT []; PT []]
               else map PI (last_axes nd (ash x)) in
  let n := length shape in
  u0 <- np_multiply x (add_trailing_axes alpha n) ;;
  xx <- la_outer x x n ;;
  u1 <- np_multiply xx (add_trailing_axes alpha (2 * n)) ;;
  constant [shape; shape ++ shape; []; []] [u0; u1; alpha; np_map ln alpha].

(** gaussian.py 271-284: GaussianWishartMoments.from_values(x, Lambda, ndim): a class
    method whose first parameter is called self, with [cls] in its body. *)
Definition gaussian_wishart_from_values {A} (x Lambda : arr R) (nd : nat) : res A :=
  if nd =? 0 then Err NameError
  else if ndim x <? nd then Err ValueError
  else
    let shape := last_axes nd (ash x) in
    if list_eq_dec Nat.eq_dec (last_axes (2 * nd) (ash Lambda)) (shape ++ shape)
    then Err NameError else Err ValueError.

(** gamma.py 82-87, 68-79: GammaMoments *)
Definition gamma_constant (x : arr R) : res const :=
  if np_any (fun v => ltb v 0) x then Err ValueError
  else constant [[]; []] [x; np_map ln x].
(** gamma.py 54-59, 40-51: GammaPriorMoments *)
Definition gamma_prior_constant (a : arr R) : res const :=
  if np_any (fun v => leb v 0) a then Err ValueError
  else constant [[]; []] [a; np_map gammaln a].
(** wishart.py 101-116, 52-72: WishartMoments *)
Definition wishart_constant (nd : nat) (x : arr R) : res const :=
  if ndim x <? 2 * nd then Err ValueError
  else
    let shape := last_axes nd (ash x) in
    let before := last_axes nd (firstn (ndim x - nd) (ash x)) in
    if (0 <? nd) && negb (if list_eq_dec Nat.eq_dec shape before then true else false)
    then Err ValueError
    else
      let shape := if 0 <? nd then shape else [] in
      ldet <- logdet nd x ;;
      constant [map PI (shape ++ shape); []] [x; ldet].
(** wishart.py 39-42, 31-36: WishartPriorMoments *)
Definition wishart_prior_constant (d : nat) (n : arr R) : res const :=
  constant [[]; []] [n; np_map (fun v => multigammaln (0.5 * v)%R d) n].

(** np.sum(x, axis=-1, keepdims=True), read at [e]. *)
Definition row_sum (x : arr R) (e : env) : R :=
  rsum (ax (ash x) 0) (fun k => bget x (upd e 0 k)).
(** dirichlet.py 96-103, 74-93: DirichletMoments(categories) and its
    compute_fixed_moments. *)
Definition dirichlet_moments_of (p : arr R) : res (list (arr R)) :=
  if ndim p <? 1 then Err ValueError
  else if np_any (fun v => ltb v 0) p || np_any (fun v => ltb 1 v) p then Err ValueError
  else if negb (np_all (Arr (removelast (ash p)) (fun e => allclose (row_sum p (fun k => e (k - 1))) 1)))
       then Err ValueError
  else Ok [Arr (ash p) (fun e => ln (bget p e / row_sum p e))].
Definition dirichlet_constant (p : arr R) : res const :=
  if ndim p <? 1 then Err ValueError
  else
    u <- dirichlet_moments_of p ;;
    constant [[PI (ax (ash p) 0)]] u.
(** beta.py 42-47, 30-39: BetaMoments; p[...,None] * [1,-1] + [0,1]. *)
Definition beta_array (p : arr R) : arr R :=
  Arr (ash p ++ [2]) (fun e => let v := bget p (fun k => e (S k)) in
    if e 0 =? 0 then (v * 1 + 0)%R else (v * -1 + 1)%R).
Definition beta_constant (p : arr R) : res const :=
  u <- dirichlet_moments_of (beta_array p) ;;
  constant [[PI 2]] u.
(** dirichlet.py 54-61, 36-51: ConcentrationMoments *)
Definition concentration_constant (alpha : arr R) : res const :=
  if ndim alpha <? 1 then Err ValueError
  else if np_any (fun v => ltb v 0) alpha then Err ValueError
  else
    let z := Arr (removelast (ash alpha)) (fun e =>
      let e' := fun k => e (k - 1) in
      (gammaln (row_sum alpha e') - row_sum (np_map gammaln alpha) e')%R) in
    constant [[PI (ax (ash alpha) 0)]; []] [alpha; z].
(** multinomial.py 56-59, 36-53: MultinomialMoments; the number of categories that
    from_values passes on is the tuple (D,). *)
Definition multinomial_constant (x : arr R) (int : bool) : res const :=
  if ndim x <? 1 then Err IndexError
  else if negb int then Err ValueError
  else if np_any (fun v => ltb v 0) x then Err ValueError
  else constant [[PT [PI (ax (ash x) 0)]]] [x].
(** categorical.py 49-58, 31-46: CategoricalMoments *)
Definition categorical_constant (K : nat) (x : arr R) (int : bool) : res const :=
  if negb int then Err ValueError
  else if np_any (fun v => ltb v 0) x || np_any (fun v => leb (INR K) v) x then Err ValueError
  else constant [[PI K]]
    [Arr (ash x ++ [K]) (fun e => if Req_EM_T (bget x (fun k => e (S k))) (INR (e 0)) then 1%R else 0%R)].
(** poisson.py 45-51, 32-42: PoissonMoments *)
Definition poisson_constant (x : arr R) (int : bool) : res const :=
  if negb int then Err ValueError else constant [[]] [x].

(** node.py 361-369: _ensure_moments of something that is not a node.  The value of a
    GaussianGamma parent is a pair.  A from_values that does not take the given
    argument, or lacks one, raises TypeError:
    - BinomialMoments.from_values is the one of PoissonMoments and calls cls() where
      BinomialMoments needs N (binomial.py 34, poisson.py 51);
    - CategoricalMarkovChainMoments.from_values(x, categories) makes the message of
      its NotImplementedError with [self], which it does not have
      (categorical_markov_chain.py 69-75): NameError.
    Only the combinations of class, argument and kind of value that the nodes ask for
    are modelled; a pair for a class other than GaussianGamma is not, and stands here
    with TypeError. *)
Inductive cls := Gaussian_ | GaussianGamma_ | GaussianWishart_ | Gamma_ | GammaPrior_ | Wishart_
  | WishartPrior_ | Dirichlet_ | Beta_ | Concentration_ | Multinomial_ | Categorical_ | Poisson_
  | Binomial_ | CategoricalMarkovChain_.
Inductive value := Array (x : arr R) (int : bool) | Pair (x alpha : arr R).
Definition ensure_moments (c : cls) (kw : kwargs) (v : value) : res const :=
  match c, kw, v with
  | Gaussian_, KwNdim nd, Array x _ => gaussian_constant nd x
  | GaussianGamma_, KwNdim nd, Pair x alpha => gaussian_gamma_constant nd x alpha
  | GaussianWishart_, _, _ => Err TypeError
  | Gamma_, NoKw, Array x _ => gamma_constant x
  | GammaPrior_, NoKw, Array x _ => gamma_prior_constant x
  | Wishart_, KwNdim nd, Array x _ => wishart_constant nd x
  | WishartPrior_, KwD d, Array x _ => wishart_prior_constant d x
  | Dirichlet_, NoKw, Array x _ => dirichlet_constant x
  | Beta_, NoKw, Array x _ => beta_constant x
  | Concentration_, NoKw, Array x _ => concentration_constant x
  | Multinomial_, NoKw, Array x i => multinomial_constant x i
  | Categorical_, KwCategories K, Array x i => categorical_constant K x i
  | Poisson_, NoKw, Array x i => poisson_constant x i
  | CategoricalMarkovChain_, KwCategories _, _ => Err NameError
  | _, _, _ => Err TypeError
  end.
End Special.
