(** What the matching of objects is supposed to deliver. *)
From Coq Require Import List Bool Arith Reals Permutation.
From Verif Require Import ArcSpec.
Import ListNotations.
Local Open Scope R_scope.

(** [delta] turns the direction (c, s) of length one into the direction of [d]; it is the
    angle between -180 (excluded) and 180 degrees. *)
Definition turned (c s : R) (d : point) (delta : R) : Prop :=
  - PI < delta <= PI /\
  exists n, 0 < n /\ fst d = n * (c * cos delta - s * sin delta) /\ snd d = n * (s * cos delta + c * sin delta).

(** The value of the quadratic form of the inverse of the matrix (xx xy; yx yy) at [d]. *)
Definition inverse_form (xx xy yx yy : R) (d : point) (m : R) : Prop :=
  exists u v, xx * u + xy * v = fst d /\ yx * u + yy * v = snd d /\ m = fst d * u + snd d * v.

(** Congruence of angles. *)
Definition same_angle (a b : R) : Prop := exists k : Z, a = b + IZR k * (2 * PI).

(** Sorting by a number: any order among equal ones. *)
Definition sorts {A} (key : A -> R) (sort : list A -> list A) : Prop :=
  forall l, Permutation l (sort l) /\
            forall l1 a l2 b l3, sort l = l1 ++ a :: l2 ++ b :: l3 -> key a <= key b.
