(** Model of small numerical helpers of bayespy/utils/misc.py and
    bayespy/utils/random.py.  No proofs here. *)
From Coq Require Import List Arith ZArith Lia Bool Reals.
From Verif Require Import Base Shapes SpecShapes NumPy ExtReal.
Import ListNotations.
Open Scope Z_scope.

(** np.cumsum *)
Fixpoint cumsum_from (acc : Z) (l : list Z) : list Z :=
  match l with [] => [] | x :: r => (acc + x) :: cumsum_from (acc + x) r end.
Definition cumsum (l : list Z) : list Z := cumsum_from 0 l.

(** np.sum of integers *)
Definition zsum (l : list Z) : Z := fold_left Z.add l 0.

(** np.searchsorted(a, v, side='right'): first position whose element is
    greater than v (a is sorted: the code searches by bisection, which gives the
    same position on sorted input). *)
Fixpoint searchsorted_right (a : list Z) (v : Z) : nat :=
  match a with
  | [] => 0%nat
  | x :: r => if x <=? v then S (searchsorted_right r v) else 0%nat
  end.

(** misc.find_set_index, utils/misc.py 62-76.  Lengths are non-negative. *)
Definition find_set_index (index : Z) (set_lengths : list nat) : res nat :=
  let lengths := map Z.of_nat set_lengths in
  let index := if index <? 0 then index + zsum lengths else index in
  if (zsum lengths <=? index) || (index <? 0) then Err PyException
  else Ok (searchsorted_right (cumsum lengths) index).

(** misc.ceildiv, utils/misc.py 286-290 (Python's // is floor division). *)
Definition ceildiv (a b : Z) : res Z :=
  if b =? 0 then Err PyException else Ok (- ((- a) / b)).

(** random.intervals, utils/random.py 19-43.  [gaps] is the outcome of
    np.random.multinomial(total_gap, ones(amount+1)/(amount+1)): amount+1
    non-negative integers that sum to total_gap.  [amount] is not negative. *)
Definition total_gap (N length : Z) (amount : nat) (gap : Z) : Z :=
  N - length * Z.of_nat amount - gap * (Z.of_nat amount - 1).
Definition intervals (N len : Z) (amount : nat) (gap : Z) (gaps : list Z) : res (list Z) :=
  if (N <? len * Z.of_nat amount + gap * (Z.of_nat amount - 1)) then Err ValueError
  else
    let starts := cumsum (removelast gaps) in
    let offs := map (fun i => Z.of_nat i * (len + gap)) (seq 0 amount) in
    Ok (map (fun p => fst p + snd p) (combine starts offs)).

Open Scope R_scope.

(** np.searchsorted(P, x) (side='left'): first position whose element is not
    below x. *)
Fixpoint searchsorted_left (a : list R) (x : R) : nat :=
  match a with
  | [] => 0%nat
  | y :: r => if Rlt_dec y x then S (searchsorted_left r x) else 0%nat
  end.

Fixpoint rcumsum_from (acc : R) (l : list R) : list R :=
  match l with [] => [] | x :: r => (acc + x) :: rcumsum_from (acc + x) r end.
Definition rcumsum (l : list R) : list R := rcumsum_from 0 l.

(** The row of [p] (last axis) at the position [e] of the other axes. *)
Definition row (p : arr R) (e : env) : list R :=
  map (fun k => bget p (fun j => match j with O => k | S j' => e j' end))
      (seq 0 (ax (ash p) 0)).

(** random.categorical, utils/random.py 247-287.  [x] is the outcome of
    np.random.rand of shape [size].  A row that sums to zero is outside the
    model (0/0). *)
Definition categorical (p : arr R) (size : option (list nat)) (x : env -> R) : res (arr nat) :=
  match ash p with
  | [] => Err ValueError   (* AxisError, a ValueError *)
  | _ =>
    let plates := firstn (ndim p - 1) (ash p) in
    let size := match size with Some s => s | None => plates end in
    if existsb (fun v => if Rlt_dec v 0 then true else false)
         (map (fun i => bget p (unravel (ash p) i)) (seq 0 (NumPy.size (ash p))))
    then Err ValueError
    else if negb (is_shape_subset plates size) then Err ValueError
    else Ok (Arr size (fun e =>
           let r := row p e in
           searchsorted_left (rcumsum (map (fun v => v / lsum r) r)) (x e)))
  end.

(** misc.logsumexp along one axis, utils/misc.py 1366-1385; [X] holds the
    elements along the reduced axis (each position of the other axes is treated
    separately).  np.amax of an empty axis raises ValueError. *)
Definition logsumexp (X : list ext) : res ext :=
  match X with
  | [] => Err ValueError
  | x :: r =>
    let maxX := fold_left emax2 r x in
    let maxX := if is_finite maxX then maxX else Fin 0 in
    Ok (eadd (elog (esum (map (fun x => eexp (esub x maxX)) X))) maxX)
  end.

(** misc.normalized_exp, utils/misc.py 1388-1401, on one row. *)
Definition normalized_exp (phi : list ext) : res (list ext * ext) :=
  logsum_p <- logsumexp phi ;;
  let p := map (fun x => eexp (esub x logsum_p)) phi in
  Ok (map (fun x => ediv x (esum p)) p, logsum_p).
