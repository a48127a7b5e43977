(** Model of the geometry module from Python: to2D, to3D and the overloads of distance and intersects2d.

    Source: lanelet2_python/python_api/geometry.cpp:66-117, 124-248 and 353-369, the classes in core.cpp:503-1204,
    lanelet2_core/include/lanelet2_core/primitives/Traits.h:94-104 and Point.h:88-95.

    Numbers and the data of primitives are parameters; a primitive is a handle to its data together with the direction in
    which it is seen. Distances themselves are a parameter (C62 and others are about them). Not modelled: classes that were
    derived in Python, the other functions of the module. *)
From Coq Require Import List Bool.
Import ListNotations.

(** The classes of core.cpp that matter here; [Foreign] is any other, such as None, a list or a LaneletSequence. *)
Inductive cls :=
  | BasicPoint2d | Vector2d | BasicPoint3d | BoundingBox2d | BoundingBox3d
  | ConstPoint2d | Point2d | ConstPoint3d | Point3d
  | ConstLineString2d | LineString2d | ConstLineString3d | LineString3d
  | ConstHybridLineString2d | ConstHybridLineString3d | CompoundLineString2d | CompoundLineString3d
  | ConstPolygon2d | Polygon2d | ConstPolygon3d | Polygon3d
  | CompoundPolygon2d | CompoundPolygon3d | ConstHybridPolygon2d | ConstHybridPolygon3d
  | ConstLanelet | Lanelet | ConstArea | Area | Foreign.
Definition cls_eqb (a b : cls) : bool. Proof. destruct (ltac:(decide equality) : {a = b} + {a <> b}); [exact true|exact false]. Defined.

(** bases<...> in core.cpp:735, 766, 811, 851, 939, 950, 1042 and 1171. *)
Definition base (c : cls) : option cls :=
  match c with
  | Point2d => Some ConstPoint2d | Point3d => Some ConstPoint3d
  | LineString2d => Some ConstLineString2d | LineString3d => Some ConstLineString3d
  | Polygon2d => Some ConstPolygon2d | Polygon3d => Some ConstPolygon3d
  | Lanelet => Some ConstLanelet | Area => Some ConstArea
  | _ => None
  end.

Section Dim.
Context {N H D : Type}.
Variables (zero : N) (coords : H -> N * N).

(** Objects in Python: points without an id, and everything else by its class and handle. *)
Inductive obj := OBasic2 (x y : N) | OVector2 (x y : N) | OBasic3 (x y z : N) | OPrim (c : cls) (h : H).
Definition class_of (o : obj) : cls :=
  match o with OBasic2 _ _ => BasicPoint2d | OVector2 _ _ => Vector2d | OBasic3 _ _ _ => BasicPoint3d | OPrim c _ => c end.

(** extract<c>(o): the object itself, the part of a base class, or the result of implicitly_convertible<Vector2d,
    BasicPoint2d> (core.cpp:528). [None] is check() = false. *)
Definition extract (c : cls) (o : obj) : option obj :=
  if cls_eqb (class_of o) c then Some o
  else match o with
       | OPrim k h => match base k with Some b => if cls_eqb b c then Some (OPrim c h) else None | None => None end
       | OVector2 x y => if cls_eqb c BasicPoint2d then Some (OBasic2 x y) else None
       | _ => None
       end.

(** TwoD<T> and ThreeD<T>, Traits.h:94-104: the typedefs TwoDType and ThreeDType of the primitives. *)
Definition twoD (c : cls) : cls :=
  match c with
  | Point3d => Point2d | ConstPoint3d => ConstPoint2d
  | LineString3d => LineString2d | ConstLineString3d => ConstLineString2d
  | Polygon3d => Polygon2d | ConstPolygon3d => ConstPolygon2d
  | CompoundLineString3d => CompoundLineString2d | CompoundPolygon3d => CompoundPolygon2d
  | _ => c
  end.
Definition threeD (c : cls) : cls :=
  match c with
  | Point2d => Point3d | ConstPoint2d => ConstPoint3d
  | LineString2d => LineString3d | ConstLineString2d => ConstLineString3d
  | Polygon2d => Polygon3d | ConstPolygon2d => ConstPolygon3d
  | CompoundLineString2d => CompoundLineString3d | CompoundPolygon2d => CompoundPolygon3d
  | _ => c
  end.
(** utils::to2D and utils::to3D: a primitive of the other type with the same data (Traits.h:96-104); Point.h:88-95. *)
Definition utils_to2D (o : obj) : obj :=
  match o with OBasic3 x y _ => OBasic2 x y | OPrim c h => OPrim (twoD c) h | _ => o end.
Definition utils_to3D (o : obj) : obj :=
  match o with OBasic2 x y => OBasic3 x y zero | OPrim c h => OPrim (threeD c) h | _ => o end.

(** The chain of TO2D_AS and TO3D_AS, geometry.cpp:67-76: the first class that can be extracted. *)
Fixpoint chain (f : obj -> obj) (l : list cls) (o : obj) : obj :=
  match l with
  | [] => o
  | c :: r => match extract c o with Some x => f x | None => chain f r o end
  end.
(** geometry.cpp:89-102 *)
Definition py_to2D : obj -> obj :=
  chain utils_to2D [Point3d; BasicPoint3d; ConstPoint3d; LineString3d; LineString3d; ConstLineString3d; Polygon3d;
    ConstPolygon3d; CompoundLineString3d; CompoundPolygon3d].
(** geometry.cpp:104-117 *)
Definition py_to3D : obj -> obj :=
  chain utils_to3D [Point2d; BasicPoint2d; ConstPoint2d; LineString2d; LineString2d; ConstLineString2d; Polygon2d;
    ConstPolygon2d; CompoundLineString2d; CompoundPolygon2d].

(** ** distance *)

Variable geo : obj -> obj -> D.
(** How a definition calls lanelet::geometry: with the arguments as they are, exchanged, or with the second one as
    basicPoint(). *)
Inductive how := Straight | Swapped | Basic.
Definition basic_point (o : obj) : obj :=
  match o with OPrim _ h => let (x, y) := coords h in OBasic2 x y | _ => o end.
Definition call (w : how) (a b : obj) : D :=
  match w with Straight => geo a b | Swapped => geo b a | Basic => geo a (basic_point b) end.

(** The definitions of "distance" in their order, geometry.cpp:127-248. *)
Definition overloads : list (cls * cls * how) := [
  (* 128-131 *)
  (BasicPoint2d, BasicPoint2d, Straight); (ConstPoint2d, ConstPoint2d, Straight);
  (ConstPoint2d, BasicPoint2d, Straight); (BasicPoint2d, ConstPoint2d, Straight);
  (* 134-145 *)
  (ConstPoint2d, ConstHybridLineString2d, Straight); (ConstHybridLineString2d, ConstPoint2d, Straight);
  (ConstPoint2d, CompoundLineString2d, Straight); (CompoundLineString2d, ConstPoint2d, Straight);
  (ConstPoint2d, ConstLineString2d, Straight); (ConstLineString2d, ConstPoint2d, Straight);
  (ConstPoint2d, CompoundLineString2d, Straight); (CompoundLineString2d, ConstPoint2d, Straight);
  (BasicPoint2d, ConstLineString2d, Straight); (ConstLineString2d, BasicPoint2d, Straight);
  (BasicPoint2d, CompoundLineString2d, Straight); (CompoundLineString2d, BasicPoint2d, Straight);
  (* 148-159 *)
  (ConstLineString2d, ConstLineString2d, Straight); (ConstHybridLineString2d, ConstHybridLineString2d, Straight);
  (CompoundLineString2d, CompoundLineString2d, Straight); (ConstLineString2d, CompoundLineString2d, Straight);
  (CompoundLineString2d, ConstLineString2d, Straight);
  (* 162-167 *)
  (ConstHybridPolygon2d, BasicPoint2d, Straight); (ConstPolygon2d, BasicPoint2d, Straight);
  (ConstPolygon2d, ConstPoint2d, Basic);
  (* 170-179 *)
  (ConstPolygon2d, ConstLineString2d, Straight); (ConstHybridPolygon2d, ConstHybridLineString2d, Straight);
  (ConstLineString2d, ConstPolygon2d, Swapped); (ConstHybridLineString2d, ConstHybridPolygon2d, Straight);
  (ConstPolygon2d, CompoundLineString2d, Straight); (CompoundLineString2d, ConstPolygon2d, Straight);
  (* 182-190 *)
  (ConstHybridPolygon2d, ConstHybridPolygon2d, Straight); (ConstPolygon2d, ConstPolygon2d, Straight);
  (ConstHybridPolygon2d, ConstPolygon2d, Straight); (CompoundPolygon2d, ConstPolygon2d, Straight);
  (ConstPolygon2d, ConstHybridPolygon2d, Straight);
  (* 193-198 *)
  (ConstLanelet, BasicPoint2d, Straight); (ConstLanelet, ConstLanelet, Straight);
  (BasicPoint2d, ConstLanelet, Swapped);
  (* 201-204 *)
  (ConstArea, BasicPoint2d, Straight); (BasicPoint2d, ConstArea, Swapped);
  (* 208-219 *)
  (ConstPoint3d, ConstPoint3d, Straight); (ConstPoint3d, BasicPoint3d, Straight);
  (BasicPoint3d, ConstPoint3d, Straight); (BasicPoint3d, BasicPoint3d, Straight);
  (ConstPoint3d, ConstHybridLineString3d, Straight); (ConstHybridLineString3d, ConstPoint3d, Straight);
  (ConstPoint3d, CompoundLineString3d, Straight); (CompoundLineString3d, ConstPoint3d, Straight);
  (ConstPoint3d, ConstLineString3d, Straight); (ConstLineString3d, ConstPoint3d, Straight);
  (* 226-238 *)
  (ConstLineString3d, ConstLineString3d, Straight); (ConstHybridLineString3d, ConstHybridLineString3d, Straight);
  (CompoundLineString3d, CompoundLineString3d, Straight); (ConstLineString3d, CompoundLineString3d, Straight);
  (CompoundLineString3d, ConstLineString3d, Straight);
  (* 241-248 *)
  (ConstLanelet, BasicPoint3d, Straight); (BasicPoint3d, ConstLanelet, Straight);
  (ConstArea, BasicPoint3d, Straight); (BasicPoint3d, ConstArea, Swapped) ].

(** Boost.Python tries the definition made last first and takes the first whose arguments can be converted. [None] is
    ArgumentError. *)
Fixpoint try (l : list (cls * cls * how)) (a b : obj) : option D :=
  match l with
  | [] => None
  | (c, d, w) :: r => match extract c a, extract d b with
                      | Some x, Some y => Some (call w x y)
                      | _, _ => try r a b
                      end
  end.
Definition py_distance : obj -> obj -> option D := try (rev overloads).

(** ** intersects2d *)

(** The numbers of a box, BoundingBox.h, and the comparison of numbers. *)
Variables (corners : H -> (N * N * N) * (N * N * N)) (less : N -> N -> bool).
Variable ground : obj -> obj -> bool.
(** boost::geometry::intersects of two boxes: no dimension in which one ends before the other begins. *)
Definition intervals (a b c d : N) : bool := negb (less b c) && negb (less d a).
Definition boxes3 (g h : H) : bool :=
  let '((x1, y1, z1), (x2, y2, z2)) := corners g in
  let '((u1, v1, w1), (u2, v2, w2)) := corners h in
  intervals x1 x2 u1 u2 && intervals y1 y2 v1 v2 && intervals z1 z2 w1 w2.
(** The definitions of "intersects2d" in their order, geometry.cpp:353-369; both parameters have the same class. The one for
    boxes is boost::geometry::intersects, for the others it is given by [ground]. *)
Definition intersects_classes : list cls :=
  [ConstLineString2d; ConstHybridLineString2d; CompoundLineString2d; ConstPolygon2d; ConstHybridPolygon2d; BoundingBox3d;
   ConstLanelet; ConstArea].
Definition intersects_as (a b : obj) : bool :=
  match a, b with OPrim BoundingBox3d g, OPrim BoundingBox3d h => boxes3 g h | _, _ => ground a b end.
Fixpoint try_classes (l : list cls) (a b : obj) : option bool :=
  match l with
  | [] => None
  | c :: r => match extract c a, extract c b with
              | Some x, Some y => Some (intersects_as x y)
              | _, _ => try_classes r a b
              end
  end.
Definition py_intersects2d : obj -> obj -> option bool := try_classes (rev intersects_classes).
End Dim.
Arguments obj : clear implicits.
