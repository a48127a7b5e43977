(** Model of the signed distance of a point to a line string.

    Source: lanelet2_core/include/lanelet2_core/geometry/impl/LineString.h (LH). Exact coordinates in the plane; the distance is
    given by its square and the sign by a Boolean value. Points are compared exactly (boost::geometry::equals allows for rounding). *)
From Coq Require Import List Bool Arith QArith.
From Verif Require Import ClosestModel.
Import ListNotations.
Local Open Scope Q_scope.

(** crossProd(p1, p2).z(), LH:38-40 *)
Definition cross (p q : plane) : Q := fst p * snd q - snd p * fst q.
(** pointIsLeftOf, LH:51-54 *)
Definition point_left (a b p : plane) : bool := qlt 0 (cross (vsub b a) (vsub p a)).
Definition same_point (a b : plane) : bool := Qeq_bool (fst a) (fst b) && Qeq_bool (snd a) (snd b).
(** findPoint, LH:46-49: the rest of the line string from the first equal point on *)
Fixpoint find_point (ls : list plane) (p : plane) : list plane :=
  match ls with
  | [] => []
  | x :: r => if same_point x p then ls else find_point r p
  end.
(** isLeftOf, LH:77-95. std::next of the end is undefined. *)
Definition is_left (ls : list plane) (p : plane) (s : plane * plane) (x : plane) : outcome bool :=
  let (a, b) := s in
  let left := point_left a b p in
  if same_point b x then
    match find_point ls b with
    | [] => Undefined
    | [_] => Ok left
    | _ :: c :: _ =>
        if negb (eqb left (point_left b c p)) && eqb left (point_left a b c) then Ok (negb left) else Ok left
    end
  else Ok left.
(** signedDistanceImpl, LH:127-137, and signedDistance, LH:698-702 *)
Definition signed_distance (tree : list (plane * plane) -> plane -> list (Q * (plane * plane))) (ls : list plane) (p : plane) : outcome (bool * Q) :=
  match closest_segment tree ls p with
  | Ok s =>
      let x := project_segment (fst s) (snd s) p in
      match is_left ls p s x with
      | Ok l => Ok (l, sqd x p)
      | Undefined => Undefined
      | Thrown => Thrown
      end
  | Undefined => Undefined
  | Thrown => Thrown
  end.
