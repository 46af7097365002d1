(** Points of the unit sphere, for C73. *)
From Coq Require Import Reals.
Open Scope R_scope.

(** The point with this latitude and longitude, in degrees. *)
Definition degrees (d : R) : R := d * PI / 180.
Definition sphere_x (lat lon : R) : R := cos (degrees lat) * cos (degrees lon).
Definition sphere_y (lat lon : R) : R := cos (degrees lat) * sin (degrees lon).
Definition sphere_z (lat lon : R) : R := sin (degrees lat).

(** [a] is the angle between two points as seen from the centre. *)
Definition angle_between (lat1 lon1 lat2 lon2 a : R) : Prop :=
  0 <= a <= PI /\
  cos a = sphere_x lat1 lon1 * sphere_x lat2 lon2 + sphere_y lat1 lon1 * sphere_y lat2 lon2 + sphere_z lat1 lon1 * sphere_z lat2 lon2.

Definition same_point (lat1 lon1 lat2 lon2 : R) : Prop :=
  sphere_x lat1 lon1 = sphere_x lat2 lon2 /\ sphere_y lat1 lon1 = sphere_y lat2 lon2 /\ sphere_z lat1 lon1 = sphere_z lat2 lon2.
