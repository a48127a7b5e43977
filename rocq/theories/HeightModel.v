(** Model of the tests for intersection in 3d of line strings and of lanelets.

    Source: lanelet2_core/.../geometry/impl/LineString.h:773-788, impl/Lanelet.h:110-127. Coordinates are exact rational numbers;
    distances are compared by their squares. boost::geometry::intersection of the two line strings in the plane and intersects2d
    and overlaps2d of the lanelets are parameters (the last one is modelled in C20 and C44). *)
From Coq Require Import List Bool QArith.
From Verif Require Import ClosestModel.
Import ListNotations.
Local Open Scope Q_scope.

(** traits::to2D of a line string *)
Definition flat (p : p3) : p2 := fst p.

(** distance(p, q) < tolerance *)
Definition closer (p q : solid) (tolerance : Q) : bool := qlt 0 tolerance && qlt (sqd p q) (tolerance * tolerance).

Section Lines.
(** The query on the tree of the segments of a line string with at least 50 points, see [project] *)
Variable tree : list (p3 * p3) -> p3 -> list (Q * (p3 * p3)).

(** distanceSmallerTolerance, LineString.h:780-784 *)
Definition smaller_tolerance (l1 l2 : list p3) (tolerance : Q) (p : p2) : outcome bool :=
  match project (V := solid) tree l1 (fst p, snd p, 0), project (V := solid) tree l2 (fst p, snd p, 0) with
  | Ok x, Ok y => Ok (closer x y tolerance)
  | _, _ => Undefined
  end.
(** std::any_of *)
Fixpoint any_of (f : p2 -> outcome bool) (l : list p2) : outcome bool :=
  match l with
  | [] => Ok false
  | p :: r => match f p with Ok true => Ok true | Ok false => any_of f r | Undefined => Undefined | Thrown => Thrown end
  end.
(** intersects3d of line strings, LineString.h:773-786. [cross]: boost::geometry::intersection in the plane *)
Definition lines_intersect3d (cross : list p2 -> list p2 -> list p2) (l1 l2 : list p3) (tolerance : Q) : outcome bool :=
  any_of (smaller_tolerance l1 l2 tolerance) (cross (map flat l1) (map flat l2)).
End Lines.

(** intersects3d and overlaps3d of lanelets, Lanelet.h:110-127, which differ in the test in the plane; [c1] and [c2] are the centerlines. *)
Definition lanelets_intersect3d (tree : list (p3 * p3) -> p3 * p3 -> list (Q * (p3 * p3))) (meet2d : bool) (c1 c2 : list p3) (tolerance : Q) : outcome bool :=
  if meet2d then
    match closest_points (V := solid) tree false c1 c2 with
    | Ok (x, y) => Ok (qlt (qabs (snd x - snd y)) tolerance)
    | Undefined => Undefined
    | Thrown => Thrown
    end
  else Ok false.
