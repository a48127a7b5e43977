(** Model of the elliptical Mercator projector in exact arithmetic.

    Source: lanelet2_projection/include/lanelet2_projection/Mercator.h. double is modelled by real numbers: no
    rounding. [None]: the result is not a number (tan of an odd multiple of a right angle, log of a number that
    is not positive, a power of such a number, division by zero). *)
From Coq Require Import Reals.
From Verif Require Import ProjectionModel.
Local Open Scope R_scope.

(** Mercator.h:43-45 (the minor radius is not used by the code) *)
Definition r_major : R := 6378137.
Definition eccent : R := 81819190928906924 / 1000000000000000000.

(** std::pow with a positive base *)
Definition pow_of (x y : R) : option R := if Rlt_dec 0 x then Some (Rpower x y) else None.

(** The factor of the ellipsoid, Mercator.h:20-21 and 33-34 *)
Definition con_of (phi : R) : option R :=
  let con := eccent * sin phi in
  bind (quot (1 - con) (1 + con)) (fun q => pow_of q (1 / 2 * eccent)).

(** rawForward, Mercator.h:17-26 *)
Definition raw_forward (p : gps) : option xyz :=
  let lat := Rmin (895 / 10) (Rmax (g_lat p) (- (895 / 10))) in
  let phi := lat * PI / 180 in
  bind (con_of phi) (fun con =>
  bind (tan_of (1 / 2 * (PI * (1 / 2) - phi))) (fun t =>
  bind (quot t con) (fun ts =>
  bind (log_of ts) (fun l =>
  Some (XYZ (r_major * g_lon p * PI / 180) (- r_major * l) (g_ele p)))))).

(** The loop of rawReverse, Mercator.h:31-36: [n] iterations are left; the number of iterations made is
    returned too. *)
Fixpoint refine (n : nat) (ts phi dphi : R) : option (R * nat) :=
  match n with
  | O => Some (phi, O)
  | S k =>
      if Rlt_dec (1 / 1000000000) (Rabs dphi)
      then bind (con_of phi) (fun con =>
             let d := PI / 2 - 2 * atan (ts * con) - phi in
             bind (refine k ts (phi + d) d) (fun r => Some (fst r, S (snd r))))
      else Some (phi, O)
  end.

(** rawReverse, Mercator.h:27-40; with the number of iterations. *)
Definition raw_reverse_steps (p : xyz) : option (gps * nat) :=
  let ts := exp (- x_y p / r_major) in
  let phi := PI / 2 - 2 * atan ts in
  bind (refine 15 ts phi 1) (fun r =>
  Some (GPS (180 / PI * fst r) (180 / PI * x_x p / r_major) (x_z p), snd r)).
Definition raw_reverse (p : xyz) : option gps := bind (raw_reverse_steps p) (fun r => Some (fst r)).

(** The projector: its offset is the raw projection of the origin, Mercator.h:11-15. *)
Definition merc_forward (origin : gps) (p : gps) : option xyz :=
  bind (raw_forward origin) (fun o => bind (raw_forward p) (fun q =>
  Some (XYZ (x_x q - x_x o) (x_y q - x_y o) (x_z q - x_z o)))).
Definition merc_reverse (origin : gps) (p : xyz) : option gps :=
  bind (raw_forward origin) (fun o => raw_reverse (XYZ (x_x p + x_x o) (x_y p + x_y o) (x_z p + x_z o))).
