(** Model of bounding boxes and of what is computed from the extent of lanelets, areas and regulatory elements.

    Source: lanelet2_core/include/lanelet2_core/primitives/BoundingBox.h (BB), geometry/impl/Lanelet.h (GL), impl/Area.h (GA), impl/Polygon.h (GP),
    impl/LineString.h (LH), geometry/Polygon.h, geometry/BoundingBox.h, lanelet2_core/src/RegulatoryElementGeometry.cpp (RG).
    Coordinates are real numbers without rounding; [big] is the largest of them (NumTraits::highest, lowest is its negative). *)
From Coq Require Import List Bool Arith Reals.
From Verif Require Import PathModel RelateModel ArcModel.
Import ListNotations.
Local Open Scope R_scope.

(** * Boxes, one axis after the other *)
Notation range := (R * R)%type.        (* the component of min() and of max() *)
Section axis.
Variable big : R.
(** setEmpty, BB:92-95 *)
Definition no_range : range := (big, - big).
End axis.
(** extend by a point and by a box, BB:174-190; cwiseMin and cwiseMax *)
Definition extend_by (r : range) (x : R) : range := (Rmin (fst r) x, Rmax (snd r) x).
Definition extend_range (r s : range) : range := (Rmin (fst r) (fst s), Rmax (snd r) (snd s)).
(** clamp and intersection, BB:195-206 *)
Definition clamp_range (r s : range) : range := (Rmax (fst r) (fst s), Rmin (snd r) (snd s)).
Definition lt_b (x y : R) : bool := if Rlt_dec x y then true else false.
Definition le_b (x y : R) : bool := if Rle_dec x y then true else false.
(** One component of isEmpty, BB:88; of contains, BB:155-164; of intersects, BB:168-170 *)
Definition range_empty (r : range) : bool := lt_b (snd r) (fst r).
Definition range_has (r : range) (x : R) : bool := le_b (fst r) x && le_b x (snd r).
Definition range_covers (r s : range) : bool := le_b (fst r) (fst s) && le_b (snd s) (snd r).
Definition range_meets (r s : range) : bool := le_b (fst r) (snd s) && le_b (fst s) (snd r).
(** One component of Eigen's squaredExteriorDistance to a point and to a box *)
Definition range_gap (r : range) (x : R) : R := if lt_b x (fst r) then fst r - x else if lt_b (snd r) x then x - snd r else 0.
Definition range_gap_range (r s : range) : R :=
  if lt_b (snd s) (fst r) then fst r - snd s else if lt_b (snd r) (fst s) then fst s - snd r else 0.

(** A box in the plane and in space *)
Notation box := (range * range)%type.
Notation point3 := (R * R * R)%type.
Notation box3 := (range * range * range)%type.
Definition flat (p : point3) : point := fst p.                (* traits::to2D of points and boxes *)
Definition flat_box (b : box3) : box := fst b.
Definition no_box big : box := (no_range big, no_range big).
Definition no_box3 big : box3 := (no_range big, no_range big, no_range big).
Definition box_extend_by (b : box) (p : point) : box := (extend_by (fst b) (fst p), extend_by (snd b) (snd p)).
Definition box_extend (b c : box) : box := (extend_range (fst b) (fst c), extend_range (snd b) (snd c)).
Definition box3_extend_by (b : box3) (p : point3) : box3 := (box_extend_by (fst b) (fst p), extend_by (snd b) (snd p)).
Definition box3_extend (b c : box3) : box3 := (box_extend (fst b) (fst c), extend_range (snd b) (snd c)).
Definition box_clamp (b c : box) : box := (clamp_range (fst b) (fst c), clamp_range (snd b) (snd c)).
Definition box_empty (b : box) : bool := range_empty (fst b) || range_empty (snd b).
Definition box_has (b : box) (p : point) : bool := range_has (fst b) (fst p) && range_has (snd b) (snd p).
Definition box_covers (b c : box) : bool := range_covers (fst b) (fst c) && range_covers (snd b) (snd c).
Definition box_meets (b c : box) : bool := range_meets (fst b) (fst c) && range_meets (snd b) (snd c).
Definition box_gap (b : box) (p : point) : R :=
  sqrt (range_gap (fst b) (fst p) * range_gap (fst b) (fst p) + range_gap (snd b) (snd p) * range_gap (snd b) (snd p)).
Definition box_gap_box (b c : box) : R :=
  sqrt (range_gap_range (fst b) (fst c) * range_gap_range (fst b) (fst c) + range_gap_range (snd b) (snd c) * range_gap_range (snd b) (snd c)).

(** * Bounding boxes of primitives *)
Section primitives.
Variable big : R.
(** boundingBox2d and boundingBox3d of line strings, LH:743-759, and of polygons, geometry/Polygon.h:255-272 *)
Definition bounds2 (l : list point) : box := fold_left box_extend_by l (no_box big).
Definition bounds3 (l : list point3) : box3 := fold_left box3_extend_by l (no_box3 big).
(** of lanelets, GL:40-52: [left] and [right] are the points of the bounds *)
Definition lanelet_bounds2 (left right : list point3) : box := box_extend (bounds2 (map flat left)) (bounds2 (map flat right)).
Definition lanelet_bounds3 (left right : list point3) : box3 := box3_extend (bounds3 left) (bounds3 right).
(** of areas, GA:25-32: [outer] are the points of the outer bound polygon *)
Definition area_bounds2 (outer : list point3) : box := bounds2 (map flat outer).
Definition area_bounds3 (outer : list point3) : box3 := bounds3 outer.

(** Parameters of regulatory elements. [Expired]: a weak pointer whose lanelet or area is gone *)
Inductive parameter :=
| PPoint (p : point3) | PLine (l : list point3) | PPolygon (l : list point3) | PLane (left right : list point3) | PArea (outer : list point3) | Expired.
(** Bbox2dVisitor and Bbox3dVisitor, RG:14-49; applyVisitor visits the parameters of each role, RegulatoryElement.cpp:146-153.
    A point has the box from itself to itself, geometry/BoundingBox.h:32-46. *)
Definition visit_box2 (b : box) (x : parameter) : box :=
  match x with
  | PPoint (x, y, z) => box_extend b ((x, x), (y, y))
  | PLine l | PPolygon l => box_extend b (bounds2 (map flat l))
  | PLane l r => box_extend b (lanelet_bounds2 l r)
  | PArea o => box_extend b (area_bounds2 o)
  | Expired => b
  end.
Definition visit_box3 (b : box3) (x : parameter) : box3 :=
  match x with
  | PPoint (x, y, z) => box3_extend b ((x, x), (y, y), (z, z))
  | PLine l | PPolygon l => box3_extend b (bounds3 l)
  | PLane l r => box3_extend b (lanelet_bounds3 l r)
  | PArea o => box3_extend b (area_bounds3 o)
  | Expired => b
  end.
(** boundingBox2d and boundingBox3d of regulatory elements, RG:75-85, for the parameters of the roles *)
Definition rule_bounds2 (roles : list (list parameter)) : box := fold_left (fun b ps => fold_left visit_box2 ps b) roles (no_box big).
Definition rule_bounds3 (roles : list (list parameter)) : box3 := fold_left (fun b ps => fold_left visit_box3 ps b) roles (no_box3 big).
End primitives.

(** distance2d of a regulatory element and a point, RG:51-73 and 87-91. [dist] is the distance of a parameter that is not expired;
    [None] is infinity. *)
Section distance.
Variable dist : parameter -> R.
Definition nearer (d : option R) (x : parameter) : option R :=
  match x with
  | Expired => d
  | _ => Some match d with None => dist x | Some m => Rmin m (dist x) end
  end.
Definition rule_distance (roles : list (list parameter)) : option R := fold_left (fun d ps => fold_left nearer ps d) roles None.
End distance.

(** * approximatedLength2d, GL:173-185 *)
Section approximated.
Context {P : Type} (dist : P -> P -> R) (zero : P).
(** The loop; [None]: the fuel is not enough. The indices are below the size. *)
Fixpoint approx_loop (fuel : nat) (line : list P) (step i1 i2 : nat) (sum : R) : option R :=
  match fuel with
  | O => None
  | S f =>
      if Nat.ltb i2 (length line) then
        let sum := sum + dist (nth i1 line zero) (nth i2 line zero) in
        let sum := if Nat.leb (length line) (i2 + step) then sum + dist (nth i2 line zero) (nth (length line - 1) line zero) else sum in
        approx_loop f line step (i1 + step) (i2 + step) sum
      else Some sum
  end.
Definition approximated_length (line : list P) : option R :=
  let step := Nat.max 1 (length line / 10) in approx_loop (S (length line)) line step 0 step 0.
End approximated.

(** * overlaps2d *)
Section overlap.
Variable data : nat -> list nat.       (* the points of the data of a line string *)
Variable xy : nat -> point.            (* where the points are *)
Variable big : R.
(** boost::geometry::relate with the mask T********: whether the interiors of two polygons have a point in common *)
Variable relate : list point -> list point -> bool.

(** polygon2d of a lanelet, LaneletData::polygon, Lanelet.cpp:280-282 and 314-316: the left bound and the inverted right bound of the data;
    for an inverted lanelet this is the same polygon from another start. Compound polygons drop doubled points, which does not change the surface. *)
Definition lane_polygon (l : lanelet) : list point := map xy (pts data (left_bound l) ++ rev (pts data (right_bound l))).
Definition lane_box (l : lanelet) : box :=
  box_extend (bounds2 big (map xy (pts data (left_bound l)))) (bounds2 big (map xy (pts data (right_bound l)))).
(** overlaps2d of lanelets, GL:65-91; [same]: the lanelets have the same data *)
Definition overlaps_lanes (same : bool) (l m : lanelet) : bool :=
  if same then true
  else if line_eqb (right_bound l) (left_bound m) || line_eqb (left_bound l) (right_bound m)
       || line_eqb (linv (left_bound l)) (left_bound m) || line_eqb (linv (right_bound l)) (right_bound m)
       || follows data l m || follows data m l || follows data (invert l) m || follows data (invert m) l then false
  else if negb (box_meets (lane_box l) (lane_box m)) then false
  else relate (lane_polygon l) (lane_polygon m).
(** overlaps2d of polygons, GP:56-69, and of areas by their outer bounds, GA:42-45 *)
Definition overlaps_polygons (compound : bool) (l1 l2 : list nat) : outcome bool :=
  do t <- touches_2d compound l1 l2; if t then Done false else Done (relate (map xy l1) (map xy l2)).
End overlap.

(** * intersectCenterlines2d, GL:93-110 *)
Section crossings.
(** boost::geometry::intersection of two line strings: a list of points; closestSegment *)
Variable crossings : list point -> list point -> list point.
Variable closest : list point -> point -> point * point.
(** The lengths of the arc coordinates of the points *)
Fixpoint arc_lengths (ls : list point) (ps : list point) : result (list R) :=
  match ps with
  | [] => Ok []
  | p :: r =>
      match to_arc closest ls p with
      | Ok (s, _) => match arc_lengths ls r with Ok t => Ok (s :: t) | e => e end
      | Undefined => Undefined | Thrown => Thrown | NotANumber => NotANumber
      end
  end.
(** [this] and [other]: the vectors given by the caller, [None] for a null pointer. Both are extended by lengths on the first centerline. *)
Definition append_lengths (ls ps : list point) (v : option (list R)) : result (option (list R)) :=
  match v with
  | None => Ok None
  | Some d => match arc_lengths ls ps with
              | Ok t => Ok (Some (d ++ t))
              | Undefined => Undefined | Thrown => Thrown | NotANumber => NotANumber
              end
  end.
Definition intersect_centerlines (line other_line : list point) (this other : option (list R)) :
    result (list point * option (list R) * option (list R)) :=
  let ps := crossings line other_line in
  match append_lengths line ps this with
  | Ok t => match append_lengths line ps other with
            | Ok o => Ok (ps, t, o)
            | Undefined => Undefined | Thrown => Thrown | NotANumber => NotANumber
            end
  | Undefined => Undefined | Thrown => Thrown | NotANumber => NotANumber
  end.
End crossings.
