(** Model of the alignment of two bounds.

    Source: lanelet2_core/include/lanelet2_core/geometry/impl/LineString.h (LH), in the plane. OsmHandlerLoad.cpp:140 calls it with line
    strings in space, where the nearest segment is searched in space and the side is judged in the plane as here. Points are exact. *)
From Coq Require Import List Bool Arith QArith.
From Verif Require Import ClosestModel SideModel.
Import ListNotations.
Local Open Scope Q_scope.

Definition origin : plane := (0, 0).
(** getMiddlePoint, LH:815-817. Only called for line strings with a point. *)
Definition middle (ls : list plane) : plane :=
  if (2 <? length ls)%nat then nth (length ls / 2) ls origin
  else vscale (1 # 2) (vadd (hd origin ls) (last ls origin)).
(** signedDistance < 0 and signedDistance > 0. The distance of a point that is not left is negated, which leaves zero. *)
Definition negative (d : bool * Q) : bool := negb (fst d) && qlt 0 (snd d).
Definition positive (d : bool * Q) : bool := fst d && qlt 0 (snd d).
(** align, LH:808-829. LineString::invert and internal::invert, LH:56-70, give the points in reverse order. *)
Definition align (tree : list (plane * plane) -> plane -> list (Q * (plane * plane))) (left right : list plane) : outcome (list plane * list plane) :=
  if ((length left <=? 1)%nat && (length right <=? 1)%nat) || (length right =? 0)%nat || (length left =? 0)%nat then Ok (left, right)
  else
    match signed_distance tree left (middle right) with
    | Ok d =>
        let left := if negb (negative d) && (1 <? length left)%nat then rev left else left in
        match signed_distance tree right (middle left) with
        | Ok e => Ok (left, if negb (positive e) && (1 <? length right)%nat then rev right else right)
        | Undefined => Undefined
        | Thrown => Thrown
        end
    | Undefined => Undefined
    | Thrown => Thrown
    end.
