(** Distances in space; lengths of a degree on the ellipsoid at a height. *)
From Coq Require Import Reals.
From Verif Require Import ProjectionModel.
Local Open Scope R_scope.

(** The distance of two points, squared. *)
Definition dist2 (p q : xyz) : R :=
  (x_x p - x_x q) * (x_x p - x_x q) + (x_y p - x_y q) * (x_y p - x_y q) + (x_z p - x_z q) * (x_z p - x_z q).

(** [p] lies at height [h] above the ellipsoid with half axes [a], [a] and [b]: over a point of it, in the direction [n] of its outer
    normal, a vector of length 1. *)
Definition above (a b : R) (n : xyz) (h : R) (p : xyz) : Prop :=
  exists foot c, (x_x foot * x_x foot + x_y foot * x_y foot) / (a * a) + x_z foot * x_z foot / (b * b) = 1 /\
    0 < c /\ n = XYZ (c * (x_x foot / (a * a))) (c * (x_y foot / (a * a))) (c * (x_z foot / (b * b))) /\
    x_x n * x_x n + x_y n * x_y n + x_z n * x_z n = 1 /\
    p = XYZ (x_x foot + h * x_x n) (x_y foot + h * x_y n) (x_z foot + h * x_z n).

(** The derivative of a curve in space. *)
Definition velocity (f : R -> xyz) (t : R) (v : xyz) : Prop :=
  derivable_pt_lim (fun s => x_x (f s)) t (x_x v) /\ derivable_pt_lim (fun s => x_y (f s)) t (x_y v) /\
  derivable_pt_lim (fun s => x_z (f s)) t (x_z v).

(** The ellipsoid of the world geodetic system 1984: half axes in metres, square of its numerical eccentricity. *)
Definition wgs84_a : R := 6378137.
Definition wgs84_b : R := wgs84_a * (1 - 1 / 298.257223563).
Definition wgs84_e2 : R := 1 - wgs84_b * wgs84_b / (wgs84_a * wgs84_a).
(** Radii of curvature at a latitude (radian): of the prime vertical and of the meridian. *)
Definition radius_east (phi : R) : R := wgs84_a / sqrt (1 - wgs84_e2 * (sin phi * sin phi)).
Definition radius_north (phi : R) : R := wgs84_a * (1 - wgs84_e2) / sqrt (1 - wgs84_e2 * (sin phi * sin phi)) ^ 3.
(** Degrees to radian. *)
Definition radian (x : R) : R := x * PI / 180.
