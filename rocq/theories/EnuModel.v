(** Model of GeocentricProjector and LocalCartesianProjector in exact arithmetic.

    Source: lanelet2_projection/src/Geocentric.cpp, lanelet2_projection/include/lanelet2_projection/Geocentric.h,
    lanelet2_projection/src/LocalCartesian.cpp. Both are wrappers of GeographicLib (third party); its forward
    computations and the change of coordinates are modelled by their documented formulas over real numbers, its
    computation of geodetic from geocentric coordinates (Geocentric::Reverse) is a parameter. [None]: not a number. *)
From Coq Require Import Reals.
From Verif Require Import ProjectionModel.
Local Open Scope R_scope.

(** The constants of WGS84 in GeographicLib: the equatorial radius and the flattening. *)
Definition wgs_a : R := 6378137.
Definition wgs_f : R := 1 / (298257223563 / 1000000000).
Definition wgs_e2 : R := wgs_f * (2 - wgs_f).
Definition wgs_e2m : R := (1 - wgs_f) * (1 - wgs_f).

Definition rad (x : R) : R := x * PI / 180.

(** GeographicLib::Geocentric::Forward; latitudes beyond the poles are replaced by NaN (Math::LatFix). *)
Definition geocentric (p : gps) : option xyz :=
  if Rle_dec (Rabs (g_lat p)) 90
  then let sphi := sin (rad (g_lat p)) in let cphi := cos (rad (g_lat p)) in
       let n := wgs_a / sqrt (1 - wgs_e2 * (sphi * sphi)) in
       let r := (n + g_ele p) * cphi in
       Some (XYZ (r * cos (rad (g_lon p))) (r * sin (rad (g_lon p))) ((wgs_e2m * n + g_ele p) * sphi))
  else None.

(** A frame: the origin in geocentric coordinates and the sines and cosines of its latitude and longitude, of which
    GeographicLib::Geocentric::Rotation makes the matrix. *)
Record frame := Frame { f_0 : xyz; f_sphi : R; f_cphi : R; f_slam : R; f_clam : R }.

(** GeographicLib::LocalCartesian::Reset *)
Definition frame_at (o : gps) : option frame :=
  bind (geocentric o) (fun x0 =>
  Some (Frame x0 (sin (rad (g_lat o))) (cos (rad (g_lat o))) (sin (rad (g_lon o))) (cos (rad (g_lon o))))).

(** GeographicLib::LocalCartesian::IntForward, after the geocentric coordinates: subtract the origin, multiply with the
    transposed matrix (rows east, north and up). *)
Definition to_local (f : frame) (p : xyz) : xyz :=
  let xc := x_x p - x_x (f_0 f) in let yc := x_y p - x_y (f_0 f) in let zc := x_z p - x_z (f_0 f) in
  XYZ (- f_slam f * xc + f_clam f * yc)
      (- f_clam f * f_sphi f * xc - f_slam f * f_sphi f * yc + f_cphi f * zc)
      (f_clam f * f_cphi f * xc + f_slam f * f_cphi f * yc + f_sphi f * zc).
(** GeographicLib::LocalCartesian::IntReverse, before the geodetic coordinates. *)
Definition of_local (f : frame) (q : xyz) : xyz :=
  XYZ (x_x (f_0 f) + (- f_slam f * x_x q - f_clam f * f_sphi f * x_y q + f_clam f * f_cphi f * x_z q))
      (x_y (f_0 f) + (f_clam f * x_x q - f_slam f * f_sphi f * x_y q + f_slam f * f_cphi f * x_z q))
      (x_z (f_0 f) + (f_cphi f * x_y q + f_sphi f * x_z q)).

Section Projectors.
(** GeographicLib::Geocentric::Reverse *)
Variable geodetic : xyz -> gps.

(** GeocentricProjector::forward and reverse, Geocentric.cpp:8-28 *)
Definition ecef_forward (p : gps) : option xyz := geocentric p.
Definition ecef_reverse (q : xyz) : gps := geodetic q.
(** The origin the projector pretends to have, Geocentric.h:11 *)
Definition ecef_origin : gps := GPS 90 0 (- (63567523 / 10)).

(** LocalCartesianProjector: constructor, forward and reverse, LocalCartesian.cpp:8-33 *)
Definition enu_forward (o p : gps) : option xyz :=
  bind (frame_at o) (fun f => bind (geocentric p) (fun x => Some (to_local f x))).
Definition enu_reverse (o : gps) (q : xyz) : option gps :=
  bind (frame_at o) (fun f => Some (geodetic (of_local f q))).
End Projectors.
