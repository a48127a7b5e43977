(** What to2D, to3D and distance of the geometry module are for. Independent of how they choose among the classes. *)
From Coq Require Import List Bool.
From Verif Require Import PyDimModel.
Import ListNotations.

(** What a class stands for: its kind of geometry, ... *)
Inductive kind := KPoint | KBasic | KVector | KBox | KLine | KHybridLine | KCompoundLine | KPolygon | KCompoundPolygon
  | KHybridPolygon | KLanelet | KArea | KOther.
Definition kind_of (c : cls) : kind :=
  match c with
  | BasicPoint2d | BasicPoint3d => KBasic | Vector2d => KVector
  | BoundingBox2d | BoundingBox3d => KBox
  | ConstPoint2d | Point2d | ConstPoint3d | Point3d => KPoint
  | ConstLineString2d | LineString2d | ConstLineString3d | LineString3d => KLine
  | ConstHybridLineString2d | ConstHybridLineString3d => KHybridLine
  | CompoundLineString2d | CompoundLineString3d => KCompoundLine
  | ConstPolygon2d | Polygon2d | ConstPolygon3d | Polygon3d => KPolygon
  | CompoundPolygon2d | CompoundPolygon3d => KCompoundPolygon
  | ConstHybridPolygon2d | ConstHybridPolygon3d => KHybridPolygon
  | ConstLanelet | Lanelet => KLanelet | ConstArea | Area => KArea
  | Foreign => KOther
  end.
(** ... its dimension, where lanelets, areas and other things have none, ... *)
Inductive dimension := Two | Three | Neither.
Definition dim (c : cls) : dimension :=
  match c with
  | BasicPoint2d | Vector2d | BoundingBox2d | ConstPoint2d | Point2d | ConstLineString2d | LineString2d
  | ConstHybridLineString2d | CompoundLineString2d | ConstPolygon2d | Polygon2d | CompoundPolygon2d
  | ConstHybridPolygon2d => Two
  | BasicPoint3d | BoundingBox3d | ConstPoint3d | Point3d | ConstLineString3d | LineString3d | ConstHybridLineString3d
  | CompoundLineString3d | ConstPolygon3d | Polygon3d | CompoundPolygon3d | ConstHybridPolygon3d => Three
  | _ => Neither
  end.
(** ... and whether it lets the data be written. *)
Definition writable (c : cls) : bool :=
  match c with Point2d | Point3d | LineString2d | LineString3d | Polygon2d | Polygon3d | Lanelet | Area => true | _ => false end.

(** The kinds that to2D and to3D know. *)
Definition known (k : kind) : bool :=
  match k with KPoint | KBasic | KLine | KCompoundLine | KPolygon | KCompoundPolygon => true | _ => false end.

Section Spec.
Context {N H : Type}.
(** Points without an id carry numbers instead of a handle. *)
Definition proper (o : obj N H) : Prop :=
  match o with OPrim c _ => kind_of c <> KBasic /\ kind_of c <> KVector | _ => True end.
Definition known_in (d : dimension) (o : obj N H) : Prop := dim (class_of o) = d /\ known (kind_of (class_of o)) = true.
Definition handle (o : obj N H) : option H := match o with OPrim _ h => Some h | _ => None end.

(** The same thing seen in dimension [d]. *)
Definition seen_in (d : dimension) (o r : obj N H) : Prop :=
  dim (class_of r) = d /\ kind_of (class_of r) = kind_of (class_of o) /\
  writable (class_of r) = writable (class_of o) /\ handle r = handle o.

(** Objects with the same geometry: the same data seen with or without the right to write, and points without an id in
    place of points with these coordinates. *)
Inductive same_geometry (coords : H -> N * N) : obj N H -> obj N H -> Prop :=
  | same o : same_geometry coords o o
  | same_prim c k h : kind_of c = kind_of k -> dim c = dim k -> same_geometry coords (OPrim c h) (OPrim k h)
  | same_vector x y : same_geometry coords (OVector2 x y) (OBasic2 x y)
  | same_point c h : kind_of c = KPoint -> dim c = Two ->
      same_geometry coords (OPrim c h) (OBasic2 (fst (coords h)) (snd (coords h))).

(** The pairs of kinds whose distance is only defined in this order. *)
Definition one_way (a b : kind) : bool :=
  match a, b with
  | KPolygon, (KBasic | KVector | KPoint) | KHybridPolygon, (KBasic | KVector) | KCompoundPolygon, KPolygon => true
  | _, _ => false
  end.

(** The distances that there are to be in both orders, in either dimension, ... *)
Definition measured (a b : kind) : bool :=
  match a, b with
  | (KBasic | KVector), (KBasic | KVector | KPoint | KLanelet | KArea)
  | KPoint, (KPoint | KLine | KHybridLine | KCompoundLine)
  | KLine, (KLine | KCompoundLine) | KHybridLine, KHybridLine | KCompoundLine, KCompoundLine => true
  | _, _ => false
  end.
(** ... in two dimensions, ... *)
Definition measured2 (a b : kind) : bool :=
  match a, b with
  | (KBasic | KVector), (KLine | KCompoundLine)
  | KPolygon, (KPolygon | KLine | KCompoundLine | KHybridPolygon) | KHybridPolygon, (KHybridPolygon | KHybridLine) => true
  | _, _ => false
  end.
Definition both (f : kind -> kind -> bool) (a b : kind) : bool := f a b || f b a.
(** ... and altogether: between things of one dimension or without one, and between lanelets. *)
Definition has_distance (a b : cls) : bool :=
  let k := kind_of a in let m := kind_of b in
  match dim a, dim b with
  | Two, Two => both measured k m || both measured2 k m || one_way k m
  | Three, Three | Two, Neither | Neither, Two | Three, Neither | Neither, Three => both measured k m
  | Neither, Neither => match k, m with KLanelet, KLanelet => true | _, _ => false end
  | _, _ => false
  end.

(** Two boxes meet above the same ground. *)
Definition meet (less : N -> N -> bool) (a b c d : N) : Prop := less b c = false /\ less d a = false.
Definition above_each_other (less : N -> N -> bool) (corners : H -> (N * N * N) * (N * N * N)) (g h : H) : Prop :=
  meet less (fst (fst (fst (corners g)))) (fst (fst (snd (corners g)))) (fst (fst (fst (corners h)))) (fst (fst (snd (corners h)))) /\
  meet less (snd (fst (fst (corners g)))) (snd (fst (snd (corners g)))) (snd (fst (fst (corners h)))) (snd (fst (snd (corners h)))).
(** The kinds that intersects2d is to compare with their own kind. *)
Definition compared (a b : cls) : bool :=
  match kind_of a, kind_of b with
  | KLine, KLine | KHybridLine, KHybridLine | KCompoundLine, KCompoundLine | KPolygon, KPolygon
  | KHybridPolygon, KHybridPolygon => match dim a, dim b with Two, Two => true | _, _ => false end
  | KLanelet, KLanelet | KArea, KArea => true
  | _, _ => false
  end.
End Spec.
