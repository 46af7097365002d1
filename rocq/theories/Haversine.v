(** Model of dist_haversine (bayespy/utils/misc.py). *)
From Coq Require Import List Arith Bool Reals.
From Verif Require Import Base Shapes SpecShapes NumPy.
Import ListNotations.
Open Scope R_scope.

(** np.arctan2(y, x) for y and x that are not negative, the only case that occurs. *)
Definition arctan2 (y x : R) : R :=
  if Rlt_dec 0 x then atan (y / x) else if Rlt_dec 0 y then PI / 2 else 0.

(** misc.py 1358-1361: one element of A, from latitudes and longitudes in radians. *)
Definition hav (lat1 lon1 lat2 lon2 : R) : R :=
  let dlat := lat2 - lat1 in
  let dlon := lon2 - lon1 in
  sin (dlat / 2) ^ 2 + cos lat1 * cos lat2 * sin (dlon / 2) ^ 2.

(** misc.py 1362-1364: one element of the result. *)
Definition haversine (radius lat1 lon1 lat2 lon2 : R) : R :=
  let A := hav lat1 lon1 lat2 lon2 in
  let C := 2 * arctan2 (sqrt A) (sqrt (1 - A)) in
  radius * C.

(** misc.py 1350-1364: dist_haversine(c1, c2, radius).  Simplification: all latitudes and longitudes have
    one axis, and the two arrays of c1 (and those of c2) have the same length. *)
Definition dist_haversine (c1 c2 : arr R * arr R) (radius : R) : arr R :=
  let rad a := np_map (fun v => v * PI / 180) a in
  Arr [ax (ash (fst c1)) 0; ax (ash (fst c2)) 0]
    (fun e => haversine radius (bget (rad (fst c1)) (fun _ => e 1%nat)) (bget (rad (snd c1)) (fun _ => e 1%nat))
                               (bget (rad (fst c2)) (fun _ => e 0%nat)) (bget (rad (snd c2)) (fun _ => e 0%nat))).
