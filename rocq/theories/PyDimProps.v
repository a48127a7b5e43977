(** C127: to2D, to3D and distance of the geometry module from Python. *)
From Coq Require Import List Bool.
From Verif Require Import PyDimModel PyDimSpec PyDimProofs.
Import ListNotations.

(** to2D and to3D show the same data in the other dimension, with the same right to write it, for every class they know; ... *)
Theorem C127_other_dimension {N H} (zero : N) (o : obj N H) : proper o ->
  (known_in Three o -> seen_in Two o (py_to2D o)) /\ (known_in Two o -> seen_in Three o (py_to3D zero o)).
Proof.
  intros P. split; intros [E K]; (destruct o as [x y|x y|x y z|c h]; [| | |destruct c]); try discriminate E;
    try discriminate K; try (exfalso; destruct P as [P Q]; first [now apply P|now apply Q]); repeat split.
Qed.
Print Assumptions C127_other_dimension.

(** ... of points without an id they keep the numbers, the height being left out or zero; ... *)
Theorem C127_numbers {N H} (zero x y z : N) :
  py_to2D (OBasic3 x y z) = (OBasic2 x y : obj N H) /\ py_to3D zero (OBasic2 x y) = (OBasic3 x y zero : obj N H) /\
  py_to3D zero (OVector2 x y) = (OBasic3 x y zero : obj N H).
Proof. repeat split. Qed.
Print Assumptions C127_numbers.

(** ... and everything else is handed back as it is. *)
Theorem C127_unchanged {N H} (zero : N) (o : obj N H) : proper o ->
  (~ known_in Three o -> py_to2D o = o) /\
  (~ known_in Two o -> kind_of (class_of o) <> KVector -> py_to3D zero o = o).
Proof.
  intros P. split; [intros K|intros K V]; (destruct o as [x y|x y|x y z|c h]; [| | |destruct c]);
    try reflexivity; try (exfalso; apply K; split; reflexivity);
    try (exfalso; destruct P as [P Q]; first [now apply P|now apply Q]). exfalso. now apply V.
Qed.
Print Assumptions C127_unchanged.

(** There and back again is nothing lost but the height of points without an id. *)
Theorem C127_round_trip {N H} (zero : N) (o : obj N H) : proper o ->
  (known_in Three o -> kind_of (class_of o) <> KBasic -> py_to3D zero (py_to2D o) = o) /\
  (known_in Two o -> py_to2D (py_to3D zero o) = o) /\
  py_to2D (py_to2D o) = py_to2D o /\ py_to3D zero (py_to3D zero o) = py_to3D zero o.
Proof.
  intros P. split; [|split; [|split]].
  - intros [E K] B. destruct o as [x y|x y|x y z|c h]; [| | |destruct c]; try discriminate E; try discriminate K;
      try reflexivity; exfalso; now apply B.
  - intros [E K]. destruct o as [x y|x y|x y z|c h]; [| | |destruct c]; try discriminate E; try discriminate K;
      try reflexivity; exfalso; destruct P as [P Q]; now apply P.
  - destruct o as [x y|x y|x y z|c h]; [| | |destruct c]; try reflexivity; exfalso; destruct P as [P Q];
      first [now apply P|now apply Q].
  - destruct o as [x y|x y|x y z|c h]; [| | |destruct c]; try reflexivity; exfalso; destruct P as [P Q];
      first [now apply P|now apply Q].
Qed.
Print Assumptions C127_round_trip.

(** So the result of to2D need not be two-dimensional, although C++ can convert these too (LineString.h:591, Polygon.h:235,
    BoundingBox.h:304): hybrid lines and polygons and boxes stay as they are. *)
Theorem C127_hybrid_refuted {N H} (zero : N) (h : H) :
  Forall (fun c => dim c = Three /\ py_to2D (OPrim c h) = (OPrim c h : obj N H))
    [ConstHybridLineString3d; ConstHybridPolygon3d; BoundingBox3d] /\
  Forall (fun c => dim c = Two /\ py_to3D zero (OPrim c h) = (OPrim c h : obj N H))
    [ConstHybridLineString2d; ConstHybridPolygon2d; BoundingBox2d].
Proof. repeat constructor. Qed.
Print Assumptions C127_hybrid_refuted.

(** The distance is that of the geometries, whichever definition is taken: none looks at the right to write, ... *)
Theorem C127_distance {N H D} coords (geo : obj N H -> obj N H -> D) :
  (forall a a' b b', same_geometry coords a a' -> same_geometry coords b b' -> geo a b = geo a' b') ->
  (forall a b, geo a b = geo b a) ->
  forall a b d, py_distance coords geo a b = Some d -> d = geo a b.
Proof.
  intros G S a b d. apply try_value; [exact G|exact S|]. intros c k I. apply in_rev in I.
  cbn in I. repeat destruct I as [I|I]; try discriminate I; [now injection I|destruct I].
Qed.
Print Assumptions C127_distance.

(** ... two dimensions and three are never mixed; ... *)
Theorem C127_dimensions {N H D} coords (geo : obj N H -> obj N H -> D) a b d : proper a -> proper b ->
  py_distance coords geo a b = Some d ->
  dim (class_of a) = Neither \/ dim (class_of b) = Neither \/ dim (class_of a) = dim (class_of b).
Proof.
  intros Pa Pb E. apply dim_eqb_eq, accepts_dim, (distance_accepts coords geo a b Pa Pb). exists d. exact E.
Qed.
Print Assumptions C127_dimensions.

(** ... exactly the distances of the list exist; ... *)
Theorem C127_accepted {N H D} coords (geo : obj N H -> obj N H -> D) a b : proper a -> proper b ->
  (exists d, py_distance coords geo a b = Some d) <-> has_distance (class_of a) (class_of b) = true.
Proof. intros Pa Pb. rewrite (distance_accepts coords geo a b Pa Pb), accepts_exactly. reflexivity. Qed.
Print Assumptions C127_accepted.

(** ... among them, points, line strings and compound line strings of one dimension have a distance from each other; ... *)
Theorem C127_defined {N H D} coords (geo : obj N H -> obj N H -> D) a b : proper a -> proper b ->
  dim (class_of a) = dim (class_of b) ->
  In (kind_of (class_of a)) [KPoint; KLine; KCompoundLine] -> In (kind_of (class_of b)) [KPoint; KLine; KCompoundLine] ->
  exists d, py_distance coords geo a b = Some d.
Proof.
  intros Pa Pb E A B. apply (proj2 (distance_accepts coords geo a b Pa Pb)).
  apply accepts_line_point; [exact E|exact A|exact B].
Qed.
Print Assumptions C127_defined.

(** ... and the arguments can be exchanged, but not for a polygon and a point or a compound polygon and a polygon. *)
Theorem C127_exchange {N H D} coords (geo : obj N H -> obj N H -> D) a b d : proper a -> proper b ->
  py_distance coords geo a b = Some d ->
  (exists r, py_distance coords geo b a = Some r) <-> one_way (kind_of (class_of a)) (kind_of (class_of b)) = false.
Proof.
  intros Pa Pb E. rewrite (distance_accepts coords geo b a Pb Pa).
  rewrite (accepts_back _ _ (proj1 (distance_accepts coords geo a b Pa Pb) (ex_intro _ d E))).
  apply negb_true_iff.
Qed.
Print Assumptions C127_exchange.
Theorem C127_exchange_refuted {N H D} coords (geo : obj N H -> obj N H -> D) (g h : H) (x y : N) :
  (exists d, py_distance coords geo (OPrim Polygon2d g) (OPrim Point2d h) = Some d) /\
  py_distance coords geo (OPrim Point2d h) (OPrim Polygon2d g) = None /\
  (exists d, py_distance coords geo (OPrim Polygon2d g) (OBasic2 x y) = Some d) /\
  py_distance coords geo (OBasic2 x y) (OPrim Polygon2d g) = None /\
  (exists d, py_distance coords geo (OPrim CompoundPolygon2d g) (OPrim Polygon2d h) = Some d) /\
  py_distance coords geo (OPrim Polygon2d h) (OPrim CompoundPolygon2d g) = None.
Proof. repeat split; try (eexists; reflexivity). Qed.
Print Assumptions C127_exchange_refuted.

(** Nor is everything defined: a lanelet or an area has no distance from a point of the map, nor a hybrid line string from a
    point without an id, nor anything three-dimensional from a polygon. *)
Theorem C127_missing_refuted {N H D} coords (geo : obj N H -> obj N H -> D) (g h : H) (x y : N) o :
  py_distance coords geo (OPrim Lanelet g) (OPrim Point2d h) = None /\
  py_distance coords geo (OPrim Lanelet g) (OPrim Point3d h) = None /\
  py_distance coords geo (OPrim Area g) (OPrim Point2d h) = None /\
  py_distance coords geo (OBasic2 x y) (OPrim ConstHybridLineString2d h) = None /\
  (proper o -> py_distance coords geo (OPrim Polygon3d g) o = None /\ py_distance coords geo o (OPrim Polygon3d g) = None).
Proof.
  repeat split; (destruct o as [u v|u v|u v w|c k]; [| | |destruct c]); reflexivity.
Qed.
Print Assumptions C127_missing_refuted.

(** intersects2d compares line strings, hybrid and compound line strings, polygons, hybrid polygons, lanelets and areas with
    their own kind, and nothing else but boxes; ... *)
Theorem C127_intersects {N H} corners less (ground : obj N H -> obj N H -> bool) coords a b : proper a -> proper b ->
  (forall a a' b b', same_geometry coords a a' -> same_geometry coords b b' -> ground a b = ground a' b') ->
  (compared (class_of a) (class_of b) = true -> py_intersects2d corners less ground a b = Some (ground a b)) /\
  (compared (class_of a) (class_of b) = false -> (class_of a, class_of b) <> (BoundingBox3d, BoundingBox3d) ->
   py_intersects2d corners less ground a b = None).
Proof.
  intros Pa Pb G. split.
  - destruct a as [| |?|c h]; try discriminate. destruct b as [| |?|k g]; [destruct c; discriminate..|].
    cbn [class_of]. intros C. destruct c, k; try discriminate C; cbn; f_equal; apply G; now constructor.
  - destruct a as [| |?|c h], b as [| |?|k g]; cbn [class_of]; intros C B; try reflexivity;
      try (destruct c; reflexivity); try (destruct k; reflexivity).
    destruct c; destruct k; try reflexivity; try discriminate C. now destruct B.
Qed.
Print Assumptions C127_intersects.

(** ... three-dimensional boxes that it finds to intersect do meet above the ground, ... *)
Theorem C127_boxes {N H} corners less (ground : obj N H -> obj N H -> bool) g h :
  py_intersects2d corners less ground (OPrim BoundingBox3d g) (OPrim BoundingBox3d h) = Some true ->
  above_each_other less corners g h.
Proof.
  intros E. change (Some (boxes3 corners less g h) = Some true) in E. injection E as E. unfold boxes3, intervals in E.
  unfold above_each_other, meet. destruct (corners g) as [[[x1 y1] z1] [[x2 y2] z2]].
  destruct (corners h) as [[[u1 v1] w1] [[u2 v2] w2]]. cbn. rewrite !andb_true_iff, !negb_true_iff in E. tauto.
Qed.
Print Assumptions C127_boxes.

(** ... but not the other way round, since the heights are compared too, and two-dimensional boxes are not accepted: the
    definition is made for the wrong class. *)
Theorem C127_boxes_refuted : exists (g h : nat) corners, above_each_other Nat.ltb corners g h /\
  forall ground : obj nat nat -> obj nat nat -> bool,
  py_intersects2d corners Nat.ltb ground (OPrim BoundingBox3d g) (OPrim BoundingBox3d h) = Some false.
Proof.
  exists 0, 5, (fun z => ((0, 0, z), (1, 1, S z))). split; [repeat split|reflexivity].
Qed.
Print Assumptions C127_boxes_refuted.
Theorem C127_boxes2d_refuted {N H} corners less (ground : obj N H -> obj N H -> bool) g h :
  py_intersects2d corners less ground (OPrim BoundingBox2d g) (OPrim BoundingBox2d h) = None.
Proof. reflexivity. Qed.
Print Assumptions C127_boxes2d_refuted.
Example C127_intersects_nonvacuous :
  let corners := fun z => ((0, 0, z), (1, 1, z + 3)) in
  let ground := fun a b : obj nat nat => match a, b with OPrim _ g, OPrim _ h => Nat.eqb g h | _, _ => false end in
  py_intersects2d corners Nat.ltb ground (OPrim BoundingBox3d 0) (OPrim BoundingBox3d 2) = Some true /\
  py_intersects2d corners Nat.ltb ground (OPrim BoundingBox3d 0) (OPrim BoundingBox3d 4) = Some false /\
  py_intersects2d corners Nat.ltb ground (OPrim Lanelet 4) (OPrim ConstLanelet 4) = Some true /\
  py_intersects2d corners Nat.ltb ground (OPrim LineString2d 4) (OPrim LineString2d 5) = Some false /\
  py_intersects2d corners Nat.ltb ground (OPrim LineString2d 4) (OPrim Polygon2d 4) = None.
Proof. repeat split. Qed.

(** Not vacuous: a point of the map at (3, 4) and one without an id at (1, 1), the distance being that along the axes. *)
Definition xy (o : obj nat nat) : nat * nat :=
  match o with OBasic2 x y | OVector2 x y | OBasic3 x y _ => (x, y) | OPrim c h =>
    match kind_of c, dim c with KPoint, Two => (h, h + 1) | _, _ => (h, 0) end end.
Definition along (a b : obj nat nat) : nat :=
  let d u v := (u - v) + (v - u) in d (fst (xy a)) (fst (xy b)) + d (snd (xy a)) (snd (xy b)).
Example C127_nonvacuous :
  let coords := fun h => (h, h + 1) in
  (forall a a' b b', same_geometry coords a a' -> same_geometry coords b b' -> along a b = along a' b') /\
  (forall a b, along a b = along b a) /\
  py_distance coords along (OPrim Point2d 3) (OBasic2 1 1) = Some 5 /\
  py_distance coords along (OVector2 1 1) (OPrim Point2d 3) = Some 5 /\
  py_distance coords along (OPrim Point3d 3) (OBasic2 1 1) = None /\
  py_distance coords along (OPrim Polygon2d 7) (OPrim Point2d 3) = Some 8 /\
  py_to2D (OPrim Point3d 3) = (OPrim Point2d 3 : obj nat nat) /\
  py_to2D (OPrim ConstPolygon3d 3) = (OPrim ConstPolygon2d 3 : obj nat nat) /\
  py_to3D 0 (py_to2D (OBasic3 1 2 3)) = (OBasic3 1 2 0 : obj nat nat).
Proof.
  cbv zeta. split; [|split].
  - intros a a' b b' A B. unfold along.
    assert (E : forall p q : obj nat nat, same_geometry (fun h => (h, h + 1)) p q -> xy p = xy q).
    { intros p q []; try reflexivity.
      - cbn. now rewrite H, H0.
      - cbn. now rewrite H, H0. }
    now rewrite (E _ _ A), (E _ _ B).
  - intros a b. unfold along. f_equal; apply PeanoNat.Nat.add_comm.
  - repeat split.
Qed.
