(** Lengths on the ellipsoid, and what is expected of a projection. *)
From Coq Require Import Reals.
From Verif Require Import ProjectionModel.
Local Open Scope R_scope.

Section Ellipsoid.
(** Half the major axis and the eccentricity. *)
Variables (a e : R).
Definition root (lat : R) : R := sqrt (1 - e * e * (sin (lat * PI / 180) * sin (lat * PI / 180))).
(** The length of a degree of latitude, from the radius of curvature of the meridian. *)
Definition degree_north (lat : R) : R := PI / 180 * (a * (1 - e * e) / (root lat * root lat * root lat)).
(** The length of a degree of longitude: the radius of the parallel. *)
Definition degree_east (lat : R) : R := PI / 180 * (a / root lat * cos (lat * PI / 180)).
End Ellipsoid.

(** The latitudes are nearly the same, longitude and height are the same. *)
Definition nearly (eps : R) (p q : gps) : Prop :=
  g_lon p = g_lon q /\ g_ele p = g_ele q /\ Rabs (g_lat p - g_lat q) <= eps.
