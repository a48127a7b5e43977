(** Model of the spherical Mercator projector in exact arithmetic.

    Source: lanelet2_io/include/lanelet2_io/Projection.h:48-75. double is modelled by real
    numbers: no rounding. [None]: the result is not a number (tan of an odd multiple of a right
    angle, log of a number that is not positive, division by zero). *)
From Coq Require Import Reals.
Local Open Scope R_scope.

Record gps := GPS { g_lat : R; g_lon : R; g_ele : R }.
Record xyz := XYZ { x_x : R; x_y : R; x_z : R }.
Definition bind {A B} (o : option A) (f : A -> option B) : option B := match o with Some a => f a | None => None end.
Definition tan_of (x : R) : option R := if Req_EM_T (cos x) 0 then None else Some (tan x).
Definition log_of (x : R) : option R := if Rlt_dec 0 x then Some (ln x) else None.
Definition quot (x y : R) : option R := if Req_EM_T y 0 then None else Some (x / y).

(** Projection.h:74. *)
Definition earth_radius : R := 6378137.
(** forward, 57-62. [o]: the latitude of the origin. *)
Definition forward (o : R) (p : gps) : option xyz :=
  let scale := cos (o * PI / 180) in
  let x := scale * g_lon p * PI * earth_radius / 180 in
  bind (tan_of ((90 + g_lat p) * PI / 360)) (fun t =>
  bind (log_of t) (fun l => Some (XYZ x (scale * earth_radius * l) (g_ele p)))).
(** reverse, 64-69. *)
Definition reverse (o : R) (p : xyz) : option gps :=
  let scale := cos (o * PI / 180) in
  bind (quot (x_x p * 180) (PI * earth_radius * scale)) (fun lon =>
  bind (quot (x_y p) (earth_radius * scale)) (fun y => Some (GPS (360 * atan (exp y) / PI - 90) lon (x_z p)))).
