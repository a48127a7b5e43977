# Formal model of Lanelet2 – design

This directory holds a Rocq/Coq 8.16.1 model of parts of Lanelet2 (`/repo`) and
machine-checked proofs of the properties in `properties.jsonl`.

Contents: 1 layout, 2 conventions, 3 properties one by one, 4 what is modelled
and what is not, 5 findings, 6 trusted base, 7 mutation tests.

## 1 Layout

For every topic `X` (files under `rocq/theories/`):

| file | contents |
|------|----------|
| `XModel.v` | the Gallina transcription of the C++ code; every definition cites file and lines; no proofs |
| `XSpec.v` | small independent specification the property is stated with (only where needed) |
| `XProofs.v` | lemmas |
| `XProps.v` | the property theorems, `Print Assumptions` below each and a non-vacuity `Example` beside it |

Names: theorems are called `Cnn_…`. `_partial` = weaker than the English
property, the comment says what is missing; `_refuted` = the English property is
false of the code, the theorem exhibits the counterexample (a finding, section 5).
A property has status `proved` in `MANIFEST.json` if the whole English statement
is proved under the conditions the statement or the documentation of the function
names; `partial` if a part is refuted or missing.

## 2 Conventions of the model

* C++ objects that are shared by pointer are modelled by explicit addresses.
* Undefined behaviour (dereferencing an end iterator, a null pointer or an empty
  Optional, access outside of a vector, freed memory, signed overflow) is a
  separate outcome (`None` or `UB`), never a normal value.
* Exceptions are a separate outcome.
* Loops without an obvious bound get fuel; running out of fuel is a separate
  outcome, and a theorem shows which fuel is enough (or that none is).
* Hash maps are lists in arbitrary order; theorems hold for every order.
* External code (R-tree, boost geometry, GeographicLib, lexical_cast, XML
  library, deque relocation, priority-queue tie-breaking) is a parameter of the
  definitions (a Section variable that becomes an argument); what is assumed of
  it is an explicit hypothesis of the theorems, satisfied by the instance used in
  the non-vacuity example.

## 3 Properties

Files are named by topic: `Id` = `IdModel.v`, `IdProps.v`, … `M:` what is
modelled, `P:` how it is proved and what the theorems say, `F:` finding.

### Ids and map (`Id*`, `Map*`)
* **C01** M: the atomic counter `currId`, any number of threads, each a list of
  calls, small steps fetch-add / load / compare-exchange with spurious failures.
  P: invariant over all schedules: ids never repeat; `registerId` completes when it
  runs alone.
* **C02** M: the same with signed 64-bit overflow as UB. P: registered ids are
  never issued again if they leave room for the next one. F: `registerId(INT64_MAX)`.
* **C03–C06** M: heap of points, line strings, polygons, lanelets, areas,
  regulatory elements (cyclic references allowed); `LaneletMap::add` of every kind with its
  recursion over parameters (visitors). P: invariants over all histories of `add`
  from the empty map; termination by a measure on the elements not yet in the map.
  F (C06): an id reserved for a parameter can be taken by a preset id.
* **C07, C44** M: `createMap`, `uniqueId`. F: ids of `createMap` are not registered.
* **C08, C42** M: the usage lookup (multimaps of `PrimitiveLayer::Tree`). P: exact
  multiset of users after every history of `add`.
* **C43** P: R-tree contents = layer contents with non-empty box.
* **C45** M: `LaneletSubmap::add`. F: adding twice.

### Spatial queries and geometry (`Nearest*`, `Closest*`, `Side*`, `Arc*`, `Partition*`)
* **C09** M: `NSmallestElements` (vector with insertion position), `findNearestImpl`.
  P: for every iteration order sorted by box distance with box distance ≤ distance
  the n nearest elements are returned in order; with the line string distance
  given by the minimum over the segments. F: three.
* **C10** M: `searchUntil`, `nearestUntil` with stateful predicates.
* **C46** M: `findWithin2d`. P: exact, for every box query containing the matching boxes.
* **C71, C72** M: `LineStringGeometry.cpp` complete, as templates over a space (`plane`, `solid`) with
  exact rational coordinates; the squared distances stand for the distances. The R-tree is any query
  that yields all segments by rising box distance (`query_ok`; an instance is proved in
  `ClosestTree.v`). P: the scalars of `calculateLineParams` satisfy the optimality conditions of the
  clamped minimisation (`ClosestProofs.v`, convexity); for this the thresholds 1e-10 must not matter, which coordinates on
  a grid guarantee; invariants of the loops (`ClosestLine.v`). F: five.
* **C73** M: `isLeftOf`, `signedDistance` on top of the closest segment. S: the side at a corner is
  given by the angle of the two segments (cone combinations), not by orientation tests. P: if the
  nearest point is a corner, the brute force search yields the segment in front of it; away from corners any tree will do. F: two.
* **C74–C77** M: the functions on lengths along a line string, for any points with a distance and an
  interpolation; arc coordinates in the plane over the real numbers. S: positions are given by a
  decomposition of the list of points. P: induction over the loops; the round trip since the foot point is
  at a right angle and a point is determined by its coordinates along and across a segment. F: six.
* **C78–C80** M: `PolygonTriangulationGeometry.cpp` except the construction of the Voronoi diagram (a
  list of polygons of indices). The test of convexity and the order of the gates are parameters. S: a
  polygon is *divided* if the polygons reachable from its first edge visit its points in order, have neighbours across all other
  edges, and no edge occurs twice; *fill* says that all edges but the border occur in both directions. P:
  polygons behind a gate have their points between its ends (cyclic order, `PartitionLists.v`), thus the
  recursion ends, visited polygons are never met again and merging keeps the order (`PartitionMerge.v`); the
  border follows since as many edges begin as end at each point. F: five.

### Routing (`CostAlg`, `Graph*`, `Dijkstra*`, `Routing*`, `Visit*`, `Route*`, `Double*`, `Builder*`, `Validity*`,
`RouteBuilder*`, `RouteQuery*`)
* **C11–C15** M: boost's `dijkstra_shortest_paths_no_color_map`-style loop as
  configured in `ShortestPath.h` (`DijkstraStyleSearch`, `DijkstraSearchMap`, visitors,
  `LeafFilter`), `getPath`, `reachableSet`, `possiblePaths`, `forEachSuccessor`,
  `shortestPathVia`. The priority queue is a list with an arbitrary tie-breaking
  oracle. Cost arithmetic is an abstract `CostAlg` with laws `CostLaws` (no
  associativity or cancellation). P: the classic invariant with the predecessor tree, for every
  graph.
* **C16, C17, C18, C41** M: `Graph` container with filtered views, `left`, `lefts`, `besides`, `following`,
  `previous`. P: invariants over building histories, case analysis of the 8-bit masks.
* **C19** M: `Route::remainingLane`, `fullLane`, `remainingShortestPath`. P: the
  continuation relation of lanelets is an injective partial function; the walks are its maximal
  chains, for every graph, circles included; uniqueness of maximal chains.
* **C55** M: the costs as IEEE double (Flocq), `boost::closed_plus`. P: `CostLaws` for rounded
  addition, hence C11 for doubles. F: the largest double.
* **C53, C54** M: `Route::leftRelations/rightRelations`, `checkValidity`.
* **C56–C61** M: `RoutingGraphBuilder` complete: vertices, index of end points, following, sideway
  and conflicting edges, collection of lane changes with an arbitrary iteration order of the hash map,
  areas. Box searches and polygon overlap tests are parameters with the laws `sane` (`BuilderSpec.v`).
  P: the graph is represented by the list of its edges by name (`repr`); one invariant (`state`) through the
  loop over the lanelets; walks over pairs of lanes; from it the exact set of edges of each relation.
* **C62–C64** (`Validity*`) M: `leftRelations`/`rightRelations` of the routing graph, `checkValidity`
  with its messages. P: the result of the relations is a walk to the outermost lane; the check is exact for
  the specification `consistent`; graphs of the builder are histories of graph operations, consistent and
  list the lanes of the map. F: endless loops on rings, a map with two lanelets on one side.
* **C65–C70** (`RouteBuilder*`, `RouteQueryModel.v`) M: `RouteBuilder.cpp` complete except for the debug
  map and the submap: the loop that adds lanelets (breadth-first search next to the route, counters and
  pruning of leaves, the sections out of the route found by depth-first search, the search of a path along
  them), the filters of `GraphUtils.h`, the final search that creates the route graph, lane ids (16 bits)
  and conflicts; `getRoute`, `getRouteVia`. Undefined behaviour, exceptions and endless walks are distinct
  outcomes. P: boost's breadth- and depth-first searches visit what is reachable; the
  growing set keeps an invariant (`grown_from`, `RouteBuilderSpec.v`); the final search keeps an
  invariant (`built`) that relates route graph, lane ids and routing graph; termination by the number of
  lanelets. Properties are stated on elements and edges (`joined`, `edges_from`), not on the
  vertices or visitors of the model. F: six, see below.

### Line strings, lanelets (`Line*`, `Compound*`, `Lanelet*`, `Centerline*`)
* **C20, C21** M: point vector + inverted flag, the iterator adaptor, all mutating
  members. P: refinement to operations on the list the view shows, for every history of calls through
  both views.
* **C22** M: `UniqueCompoundIterator` (forward and backward). P: it enumerates the
  concatenation without repeated adjacent points.
* **C26** M: lanelet bounds, centerline cache with custom flag and shared_ptr
  exchange, sequential and with concurrent readers. P: invariant over histories and schedules.
* **C40** M: inverted lanelets and sequences.
* **C50** M: `calculateCenterline` over abstract geometry. P: loop invariant.

### Attributes (`Hybrid*`, `Attr*`)
* **C23** M: `HybridMap` with nodes, iterators, copy/move; enum table. P: refinement to a
  plain map for every history.
* **C24, C47** M: attribute value, cache, getters, conversions; P: getters are functions
  of the value.
* **C25** M: small-step readers with reference counts. P: all schedules. F: use after free.

### Traffic rules (`Traffic*`)
* **C27–C30, C48, C49** M: `GenericTrafficRules`, German rules, lane change and
  passing tables, the override lookup, speed limits. P: case analysis and
  induction over the attribute map.

### Regulatory elements (`RegElem*`)
* **C31, C39** M: `TrafficLight`, `RightOfWay`, `TrafficSign`, `SpeedLimit`, `AllWayStop` with
  weak pointers. P: induction over histories of calls and expirations.

### OSM input and output (`Osm*`, `Boundary*`)
* **C32, C33, C35, C37** M: `osm::File`, the reader and the writer on XML trees; placeholders and
  pointers into deques with an oracle for relocation. P: the
  reader yields exactly the specified relations for every document; read ∘ write.
* **C36** M: `assembleBoundary`. P: loop invariant; completeness for rings with distinct junctions.
* **C34** M: `ToFileWriter`, `FromFileLoader`. P: load ∘ write on maps, also through XML.

### Projections (`Projection*`, `Utm*`)
* **C38, C51** M: the spherical Mercator projector over the real numbers. P: analysis
  of exp, ln, tan, atan; derivatives for conformality.
* **C52** M: `UtmProjector` over an abstract GeographicLib.

### Checks of a map (`Validation*`)

* **C81–C83** M: `CheckTags.cpp`, all four checks, with the tables of keys and values and the binary
  search. S: words, documented keys (from the Markdown files), allowed values, truth values. The texts of
  the issues are part of the statements.
* **C84–C86** M: `DuplicatedPoints.cpp`, `PointsTooClose.cpp` (the query for the nearest points is any
  correct one), `CurvatureTooBig.cpp` with `signedCurvature2d`. S: succession, distances, circles through
  three points. P: the product of the sides of a triangle is four times its area times the radius.
* **C87** M: `Validation.cpp`, `ValidatorFactory.cpp`. S: parts of a comma separated list. Regular
  expressions and the checks themselves are parameters.

### Matching, conflicts and costs (`Matching*`, `Travel*`)

* **C88** M: `Utilities.cpp` of the matching package over R, with `atan2`, `fmod` and the matrix of two
  rows. S: the angle by which a heading is turned into a direction, the form of the inverse matrix by its
  equation, both determined uniquely. The points on the centerline are those of C76 and C77 (up to the
  1e-8 m of `interpolatedPointAtDistance`).
* **C89** M: `LaneletMatching.cpp/.h`. The search is a parameter (C46), sorting is any sorting function.
* **C90** M: `RoutingGraphContainer.h`; overlap tests and search are parameters.
* **C91** M: `RoutingCost.h/.cpp`, `approximatedLength2d`; numbers are real numbers with infinities and
  NaN, an exception leaving a `noexcept` function is an outcome of its own. S: samples with bounded
  strides, sums.

### Outlines of paths (`Path*`)

* **C92** M: `LaneletPath.cpp` and the relations of `geometry/impl/Lanelet.h` and `Area.h`; points are
  identities. S: sums of a function f with f(a,b) = -f(b,a) along ways and around polygons; sides with
  opposite ends. P: the invariant of the loop says that the left part, back along the right part, is the sum of
  the outlines so far with the side open to the next primitive. Since f is arbitrary, the polygon has as a
  cycle of edges the same boundary as all primitives together.
* **C93** M: `getRemainingLane`. S: successive lanelets.

### Line strings beside a line string (`Offset*`)

The queries of the tree, the common points of two segments and the nearest segment (all from boost) are
parameters; `query_ok`, `meet_ok` and `nearest_ok` say what is assumed of them, and `query_exact_ok`,
`meet_exact_ok` and `nearest_exact_ok` give functions that satisfy it.

* **C94** M: the moving of corners, the convex parts. S: distance to segments; `moved` says which segments of
  the result belong to which segment. P: with the unit vectors p, f along both segments, all five cases come
  down to (p.f)^2 + (p x f)^2 = 1; a moved corner is beside the lines through both segments.
* **C95** M: `joinSubStrings`, `checkForInversion`. S: `walks_forward`, `no_crossing`, `tidy` and `linked`.
  P: the invariant of the walk is that the rest of the segment touches no later segment before the next point
  (`piece_clean`); the tidy parts make the position in the part and in the tree agree.
* **C96** M: `removeSelfIntersections`. S and P: as for C95.

### Binary files (`Archive*`)

* **C97** M: `Serialize.h` and `BinHandler.cpp` on a heap of objects; boost's archive is a list of tokens, with its
  numbering of objects behind pointers, where a reader knows an object before its members are read. The registry of
  constructors is a parameter; `builtin` is the one of the library. S: `copied` is an isomorphism of heaps that maps
  layers to layers. P: writer and reader run in step; the invariant gives each object a stage (not constructed, the
  first k pointers to regulatory elements read, complete) and says for each regulatory element whether it is
  unknown, in progress with waiting pointers, or done. Lemmas for each change of the state, and combinators for
  sequences and lists (`sim`), give the step for all objects by induction on the depth of the writer.

### Relations and extents (`Relate*`, `Extent*`)

* **C98** M: `touches2d`, `adjacent`, `follows`, `leftOf`, `rightOf` and the functions `determineCommonLine…` on lists of
  point ids. S: edges as unordered pairs, `closes_front`, `closes_rear`, `along_left`, `along_right`. P: `first_with` says
  that a search returns the first line string with a property, or none if there is none.
* **C99** M: boxes axis by axis, the visitors of regulatory elements. S: boxes as sets of points, `tight`. P: `spans`, an
  invariant of extending a range that also covers the empty one.
* **C100** M: the loop with its stride, with fuel. P: chords are at most as long as the way between their ends.
* **C101** M: both `overlaps2d`; `relate` of boost is a parameter. S: `inside` counts crossings of a ray,
  `common_surface` is a box inside of both. P: what is inside of a polygon is in each box around its points, since the
  edges of a polygon cross a horizontal line an even number of times.
* **C102** M: `intersectCenterlines2d` above `toArcCoordinates` (C75). S: `at_length`.

### Submaps (`Submap*`)

* **C103** M: `LaneletSubmap::add`, `trackParameters`, `createSubmap`, `laneletMap` on the heap of C03; `collect` is the heap after
  some lanelets and areas were destroyed, where weak references to them lead nowhere. S: `reaches` (closure of `references`),
  `kept_alive` (closure of shared pointers), `survives`. P: adding only adds what is in any set that has the targets and is closed
  under references (`adds_only`); the conversion reuses the specification of `createMap` (C44) and of `add` (C03).

### Debug maps (`Debug*`)

* **C104** M: `DebugMapBuilder` with its two maps, `createMap` and `add` of the map as lists of ids. S: `linked` (an edge with a shown
  relation), `single`, `distinct_ids`. P: invariant `holds` of the builder for the list of edges drawn so far.
* **C105** M: `addRelation` with the search for an unused attribute name, the marks of the shortest path, points shared by reference.
  S: `relations_between`, `attributes`, `numbered`, `on_edge`. P: invariant `drawn_route`; the order of the edges by source does not
  matter for one pair (`filter_sources`). The map of line strings is listed in the order of insertion instead of the keys, which
  decides only which line string is kept.

### Alignment of bounds (`Align*`)

* **C108** M: `align` on top of C73, in the plane. S: `left_of` (seen from every nearest point), `right_of` (left of the reversed line string),
  `in_middle` (without a choice of direction), `bounds`. P: the two sides exclude each other also at corners (`left_flip`); a point on the left of
  all segments is on the left (`all_left`). F: two.

### Journeys (`Journey*`)
* **C109** M: no new definitions; the models of C11, C12, C56 and C65 are composed. S: `way`, inductively over the lanelets, with `leads_to` (begins where the other ends, both
  usable, passing allowed) and the sum of the costs of the module; `cheapest`, `no_way`; `moves_to` adds `changeable`. No part of it mentions a graph. P: edges and steps correspond
  one to one (C57, C59), so walks in the graph are ways through the map and back. Without lane changes the result of `shortestPath`, `reachableSet` and `getRoute` is
  determined up to ties, and none of them throws or is undefined for lanelets. With lane changes the steps and the existence of a path are proved; that the lane-change costs are those of the
  stretch is C59.

### Trips with lane changes (`Trip*`)
* **C113** M: no new definitions; the models of C11, C12, C15, C56 and C65 are composed. S: `trip`, inductively over steps; a step is driving on or, for a fixed price, changing the lane
  (`drives_or_changes`); `cheapest_trip`, `stages`, `within`, `backwards`, `no_rings`. No part of it mentions a graph. P: `steps_of` says that edges and steps correspond; it is proved for
  driving on (C57), for lane changes on maps with one neighbour on each side (C59) and for the reversed graph, and the searches are carried over once for all of them. A map without rings of
  lanes has a graph without rings (`rings_unwind`), so that building a route ends. F: two.

### Submaps of graphs and routes (`Passable*`)

* **C115** M: `createConstSubmap` of the passable lanelets and areas and of the vertices of a route; layers keep the first element of an id. S: `shows` (each once, found under its
  id, nothing else). P: with the vertices of the graph (C56), of the route (C66) and the end to end theorem on routes (C109). F: opposite directions.

### The script for positive ids (`Renumber*`)

* **C116** M: `make_positive` over the six layers in any order, elements as objects named by their keys, so that a changed id is seen through every reference; the script from file to
  file over the model of C106 and C107. S: `same_but_ids`: which id an element has now is read from the two layers, position by position, and references have to follow it; `new_ids`
  are consecutive `numbers`. P: new ids of a layer lie in an interval of their own, above all old ones (C107), hence renaming is injective and all of `map_ok` carries over (rings included); then C34. Factories
  are assumed not to look at ids (`blind`). F: two.

### Exported graphs (`Dot*`)

* **C117** M: both exports with their checks and errors; the DOT file as text, the GraphML document as the texts of its nodes and edges (the XML around it is boost's); the output operators of lanelets
  and areas. Opening a file and printing a cost are parameters. S: readers, written from the grammar: `read_dot` for the statements of a DOT file, `read_thing` for the text of a lanelet
  or an area; `wanted_edge` by bits. P: a printed number, name or quoted text ends where the reader stops; induction over the lines. Equal documents give equal files
  (`C117_graphml_determines`). F: one.

### The elliptical Mercator projector (`Mercator*`)

* **C118** M: `rawForward`, the loop of `rawReverse` with its limit and tolerance, the projector with its offset, over real numbers; `None` where a double would be NaN. S: lengths of a degree
  on the ellipsoid from the radii of curvature. P: the derivative of one round of the loop is at most e² < 0.0067 (`slope_bound`), so it is a contraction (mean value theorem) whose fixed point is the
  latitude that was projected; the other derivatives by the chain rule. Rounding is not modelled. F: two.

### The geocentric and the local Cartesian projector (`Enu*`)

* **C119** M: both projectors; of GeographicLib the forward formulas, the rotation and the change of coordinates over real numbers, the geodetic coordinates of a point are a parameter. S: a point
  `above` an ellipsoid (foot point on it, outer normal by the gradient), distances, the derivative of a curve, the radii of curvature of WGS84. P: algebra with cos² + sin² = 1; the axes by derivatives:
  that of N(φ)cos φ is −M(φ)sin φ. F: one.

### Intersections in 3d (`Height*`)

* **C120** M: `intersects3d` of line strings and of lanelets, `overlaps3d` of lanelets, over the nearest points of C71 and C72; the intersection in the plane is a parameter with a contract
  (`cross_ok`). S: `crossing`, `meet_within`, from the points on the lines. P: on a level line the foot is nearest; the triangle inequality in space for `C120_ground`; the nearest points are not
  further apart than those above each other. F: three.

### Texts in Python (`Repr*`)

* **C121** M: `makeRepr` and `formatHelper` with the argument that is left out when it is empty, `__repr__` of the primitives, of attribute maps, of regulatory elements and their parameters;
  Python's own texts of lists and dicts are written out, how a double and a string are written are parameters. S: a reader for the expressions of Python that are made of literals and calls, an
  evaluator by the signatures of the constructors (`evaluate`), a contract for numbers and strings (`contracts`). P: every expression is read back from its text by induction on nested
  expressions; each text is the text of an expression; evaluation class by class. F: five.

### Calls from Python (`PyCall*`)

* **C122** M: Boost.Python's matching of positional values, keywords and defaults (`bind`, `call`), with the access to a place that holds no tuple as undefined behaviour; a table of the bindings with
  keywords in `routing.cpp`, `io.cpp`, `traffic_rules.cpp`, `geometry.cpp`, `matching.cpp` and the constructors in `core.cpp`. S: Python's rules for calls (`python_call`) and a table of the signatures
  in `typings`; `tells` says that a declaration and a binding agree. P: the places behind the positional values are filled one by one, names are distinct, so as many are taken from the call as it has
  keywords exactly if all are known; the tables by computation. Nine declarations agree with their binding but for the names (`but_for_names`). F: six.

### Points (`Point*`)

* **C123** M: `PointData` with the coordinates and the copy of x and y, and every operation of the handles on it (`step`); besides, the loads and stores of the reads on five memory cells, interleaved
  between any number of threads (`reach`). S: a point with three coordinates (`expected`); a race is a state in which two threads are about to access one cell and one to write. P: simulation; for the
  races, without a store every thread runs as if alone, and a thread in front of the store can be stopped there; the access sequences are shown to do what the operations do. For the points of a map (`mreach`) every run is, point by point, a run for this point alone, and a run for one point can be
  completed to one for the map because the accesses to other points come to an end. F: three.

### Matching from Python (`PyMatch*`)

* **C124** M: the constructors of the covariance and of objects with covariance in `matching.cpp` with a number that was never written as a value of its own; `getMahalanobisDistSq` up to
  what it reads of the covariance; `ruleCheckWrapper` with the two attempts to convert the list and the null pointer as outcome. S: the matches on passable lanelets (`compliant`), the members an object has (`members`).
  Proof: by induction over the list, using `extract_all`. The search for matches itself is C89's subject, the arguments of calls are C122's.

### Attributes in Python (`PyText*`)

* **C126** M: strict UTF-8 in both directions (`encode`, `decode`), the three ways in which attributes come from Python (`from_dict`, `init`, `set_item`) and reading (`get_item`), with the null pointer that
  `PyBytes_AsString` follows as an outcome. S: a dictionary as a function (`store`), `like`, Unicode scalar values (`scalar`). Proof: the bytes of a code point by its digits to base 64; the decoder is the inverse in both
  directions, so keys stay different; induction over the assignments.

### Scripts (`Script*`)

* **C125** M: `print_ids.py` with the truth value of `args.has_id`, the loop over the layers and the ways it can end; `create_debug_routing_graph.py` up to the parameters for loading and building. S: what is to be
  told about all ids (`tells_all`) and about one (`tells_id`), the participants in the help (`documented`). Proof: sorted lists are unique, induction over the layers. `make_ids_positive.py` is C116.

### Geometry in Python (`PyDim*`)

* **C127** M: the chains of `TO2D_AS` and `TO3D_AS` with what `extract` finds (the class itself, its base class, the implicit conversion of `Vector2d`), and the 59 definitions of `distance` in their order, tried from
  the last to the first, and those of `intersects2d`. S: kind, dimension and right to write of a class (`kind_of`, `dim`, `writable`), `seen_in`, `same_geometry`, the distances there are (`has_distance`), the pairs that are defined in one order only (`one_way`). Proof: by the classes; the
  statements about pairs of classes by computing over all of them, lifted to objects by what `extract` finds in a class.

### Routing costs in Python (`PyCost*`)

* **C128** M: the wrappers of the cost classes with an override in Python or not (`wrapped`), the same classes in C++ (`cpp_method`), leaving a noexcept function as an outcome of its own, the calls from Python
  (`python_call`), and the loops of `assignCosts` and `assignLaneChangeCosts` with `addEdge` (`build`). S: the number a cost gives (`gives`), the edges of a graph (`edges_of`), the same cost in C++ (`in_cpp`). Proof:
  a call has a value exactly if the cost gives it; induction over requests and costs, up to the first one that fails.

### Conversions between Python and C++ (`PyConv*`)

* **C129** M: `convertible` and `construct` of the converters as two steps (`convertible`, `construct`, `extract`), the choice of an overload by the first step alone (`call`), both branches of `distanceToLines`, the ways
  to Python (`to_python`), and the constructors of the two classes with a stop line with the registered Optionals (`with_stop_line`). A Python object is what the converters ask of it. S: the value an object stands
  for (inductive `represents`), what is looked at when an overload is chosen (`takes`), values of a type (`typed`). Proof: induction over the type; `convertible` is a necessary condition of `represents`, for types without a converter also a sufficient one.

### Members and parameters (`Member*`)
* **C110** M: `has` for every kind of primitive, `findUsages` by id, `find`, `getParameters`, `addParameter`, `create`; compounds are iterated by the model of C22. S: inductive
  `member_of_lanelet`, `member_of_area` and `has_member` as the comments describe them, `first_with`, `picked`. P: leaving out doubled points loses no id (`in_dedup`), the rest by
  induction over roles and parameters. F: four.

### Relations to the next lanelets (`Next*`)
* **C111** M: the loops of `followingRelations` and `previousRelations` over the models of C16 and C41; dereferencing an empty Optional and `assert(false)` are outcomes of their own.
  S: `gets_to`, in terms of the map. P: `build_batched`, an invariant of the order of edges over the whole builder: an edge of a later cost module is preceded by one of the first
  module between the same vertices, or is a successor whose cost under the first module is infinite. Hence the first edge between two vertices that are joined under the first module
  belongs to it. A graph filled in another order shows that this is needed (`C111_order_matters`). F: one.

### The validation program (`Tool*`)
* **C112** M: `runFromConfig`, `printAllIssues` and both `validateMap` in a monad with exceptions, undefined behaviour and endless loops; loader, factory, builder and checks are
  parameters, and for the program as it is those of C81 to C87, C56, C63 and the traffic rules. S: `faultless` and `content_with`, with `selected` of C87. P: by cases over the sequence of
  parts; for the program as it is with C56 (the graph is built) and C64 (it passes its check). F: four.

### Line strings in Python (`Py*`)

* **C114** M: `getItem`, `setItem`, `delItem` with the sum of `int64_t` and `size_t`, `append`, iteration; a variable holds a copy or a pointer to an element
  of the vector (`return_internal_reference`), and the vector moves when it has to grow. S: programs on a list (`list_run`), `prompt` (no use of `ls[i]` after a
  change). P: every statement through the theorem on the mutations (C20), programs by induction with what is known of each variable. F: three.

### Loading and writing by file name (`Io*`)

* **C106** M: the path functions of boost, the registries as ordered maps, `load` and `write` for arbitrary handlers, which may change the world
  (files and id counter). S: `has_extension`, `last_for`, `reports` (what the caller sees). P: induction over the registrations.
* **C107** M: `OsmParser::parse`, `OsmWriter::write` with the order in which the lists of messages are assigned, the binary handlers. The
  content of a file is the document or archive itself. P: C34 and C97 through the file system; the keys of what `read` returns are sorted and are
  the ids of the elements (`keyed`), every element of a loaded map has the id of an element of the file (`load_ids`).

## 4 What is modelled and what is not

Modelled (by file of `/repo`; the comments in the model cite the lines):

| file | covered |
|------|---------|
| `lanelet2_core/src/LaneletMap.cpp` | id generator, layers (add, find, findUsages, nearest, search, searchUntil, nearestUntil), `LaneletMap::add`, `LaneletSubmap::add`, `laneletMap`, `trackParameters`, `createMap`, `createSubmap`, `findUsagesInLanelets/Areas` |
| `lanelet2_io/src/Io.cpp`, `Factory.cpp`, `BinHandler.cpp`, `io_handlers/{Factory,IoHandler,Parser,Writer}.h` | complete but for the text of messages and the lifetime of the configuration |
| `lanelet2_core/.../geometry/impl/LaneletMap.h` | `findNearest`, `findWithin2d`, `NSmallestElements` |
| `lanelet2_core/src/LineStringGeometry.cpp` | complete |
| `lanelet2_core/.../geometry/impl/LineString.h` | `signedDistance`, lengths and ratios, points at a distance, arc coordinates, lateral shift, `offset`, `offsetNoThrow`, `removeSelfIntersections`, `align`, `intersects3d` |
| `lanelet2_core/.../geometry/impl/Polygon.h` | `distanceToBorder3d`, `overlaps3d`, `touches2d`, `overlaps2d` |
| `lanelet2_core/.../geometry/impl/Lanelet.h`, `impl/Area.h`, `src/RegulatoryElementGeometry.cpp`, `primitives/BoundingBox.h` | relations, common line strings, boxes, `approximatedLength2d`, `overlaps2d`, `intersectCenterlines2d`, `distance2d` of regulatory elements |
| `lanelet2_core/src/PolygonTriangulationGeometry.cpp` | all but `makeVoronoi`, which is boost's Voronoi diagram; `isConnectionConvex` and the order by angles are parameters, the points are not looked up |
| `lanelet2_core/.../primitives/LineString.h`, `CompoundLineString.h`, `CompoundPolygon.h`, `utility/CompoundIterator.h`, `ReverseAndForwardIterator.h` | views and mutation |
| `lanelet2_core/src/Lanelet.cpp`, `primitives/Lanelet.h`, `LaneletSequence.*` | bounds, inversion, centerline cache, `calculateCenterline`, sequences |
| `lanelet2_core/.../utility/HybridMap.h`, `Attribute.h/.cpp` | all members used by the library |
| `lanelet2_core/src/BasicRegulatoryElements.cpp` | all classes |
| `lanelet2_core/src/RegulatoryElement.cpp`, `primitives/RegulatoryElement.h` | `has`, `find`, `getParameters`, `addParameter`, factory; not output to streams |
| `lanelet2_routing/.../internal/Graph.h`, `ShortestPath.h`, `src/RoutingGraph.cpp`, `src/Route.cpp` | container, searches, paths, reachable sets, visits, neighbours, lanes, validity checks, debug maps |
| `lanelet2_routing/.../internal/RoutingGraphVisualization.h` | complete, above boost's writers |
| `lanelet2_routing/src/RoutingGraphBuilder.cpp` | complete |
| `lanelet2_routing/src/RouteBuilder.cpp` | complete |
| `lanelet2_routing/.../RoutingCost.h`, `src/RoutingCost.cpp`, `RoutingGraphContainer.h` | complete |
| `lanelet2_routing/src/LaneletPath.cpp` | complete (coordinates are looked up by the points) |
| `lanelet2_matching/src/*.cpp`, headers | complete |
| `lanelet2_traffic_rules/src/GenericTrafficRules.cpp`, `GermanTrafficRules.cpp` | complete up to the regulatory element overloads, which are empty |
| `lanelet2_validation/src/*.cpp`, `validators/*.cpp` | complete but for the parsing of the command line |
| `lanelet2_io/src/OsmFile.cpp`, `OsmHandlerLoad.cpp`, `OsmHandlerWrite.cpp` | file layer, loader, writer, ring assembly |
| `lanelet2_io/.../io_handlers/Serialize.h`, `src/BinHandler.cpp` | complete, above boost's archive |
| `lanelet2_core/.../primitives/Point.h` | complete but for the traits and the output |
| `lanelet2_python/python_api/matching.cpp` | objects with covariance, `removeNonRuleCompliantMatches`, the setter of the hull; not the poses |
| `lanelet2_python/scripts/print_ids.py`, `create_debug_routing_graph.py` | everything but argparse and the text of the lines |
| `lanelet2_python/python_api/core.cpp:103-160`, `204-257` | attributes from and to Python |
| `lanelet2_python/python_api/geometry.cpp` | `to2D`, `to3D`, `distance`, `intersects2d` (C127); the keywords of the others (C122) |
| `lanelet2_python/python_api/routing.cpp` | the cost classes (C128), the keywords (C122) |
| `lanelet2_python/.../internal/converter.h` | the converters except those of variants and weak pointers (C129) |
| `lanelet2_python/.../internal/converter.h`, `python_api/core.cpp` | access to the points of line strings and polygons |
| `lanelet2_python/.../internal/repr.h`, `python_api/core.cpp:32-95` | complete, with `__repr__` of the primitives |
| `lanelet2_python/python_api/*.cpp`, `typings/lanelet2/*.pyi` | the keywords of the bindings and the declared signatures, in part |
| `lanelet2_python/scripts/make_ids_positive.py` | complete but for the parsing of arguments |
| `lanelet2_io/include/lanelet2_io/Projection.h`, `lanelet2_projection/.../Mercator.h`, `src/UTM.cpp`, `src/Geocentric.cpp`, `src/LocalCartesian.cpp` | all projectors |

Not modelled: boost (geometry, R-tree, graph library internals beyond the
search loop, serialization, format, lexical_cast), pugixml, GeographicLib,
Eigen, the STL implementation; rounding of floating point numbers (where costs
or distances occur the theorems are generic in the arithmetic, the projections
are over exact reals); the Python bindings but for the points of line strings, `repr`, keyword arguments, attributes, parts of the matching module and the scripts; the
examples package; of the validation package the parsing of the command line;
the geometry
functions except where listed above. Memory allocation is assumed to succeed.

## 5 Findings

Statements of the properties (or of the documentation) that are false of the
code; each is a theorem `…_refuted` with a concrete witness or a general statement.

| property | finding |
|----------|---------|
| C02 | `registerId(INT64_MAX)` overflows (undefined; with wrap-around the next id is negative) |
| C06 | an id given to a rule parameter can be lost to an element with a preset id above the counter |
| C07, C08, C44 | `createMap` does not register the ids of its elements: `uniqueId` and later `add` may reuse them; elements with `InvalId` collapse |
| C09 | `findNearest` with count 0 reads `front()` of an empty vector; `NSmallestElements::insert` uses an iterator invalidated by `pop_back`; elements without a bounding box are never returned |
| C10 | `nearestUntil` truncates the size of the layer to 32 bits |
| C12 | with a negative budget the start is not part of the reachable set |
| C13 | `possiblePaths`: a returned path need not be a shortest path to its end, nor have the least number of lane changes |
| C16 | `withoutConflicting` contains the conflicting edges, so `routingRelation(…, false)` returns Conflicting |
| C18, C53, C62, C63 | `lefts`, `rights`, `leftRelations`, `rightRelations` (graph and route) and `RoutingGraph::checkValidity` do not return on cyclic neighbour relations |
| C19 | `remainingShortestPath` of a one-lanelet path is empty (the path counts as circular) |
| C21 | range insertion in an inverted line string returns the wrong iterator and is undefined for an empty range at `begin()`; assigning an rvalue vector ignores the inversion |
| C22 | `CompoundPolygon::numSegments` is 1 for zero and one points |
| C23 | a key with an embedded NUL hijacks the enum lookup of another key |
| C24 | `asDouble`/`asVelocity` of an attribute built from a number change after another getter was called, if the number does not survive `%f` |
| C25 | the raw pointer returned by the cache can dangle while another thread replaces the cache |
| C26 | custom centerlines with `InvalId` are lost when a bound changes (documented), stale cache without `resetCache` (documented) |
| C27 | an incomplete override (`lane_change:left` only) is ignored; lanelets that are left and right of each other |
| C28 | `canPass(area, area)` uses `&&`: one passable area is enough |
| C29 | every key beginning with `participant` closes the lanelet for participants it does not name; bus lanes are closed for buses |
| C30 | bus lanes have a speed limit of 0 km/h; a finer `speed_limit_mandatory` is overridden; an unrelated `speed_limit…` key yields 0 km/h |
| C31 | `AllWayStop::getStopLine` is wrong after a lanelet in front expired; `removeLanelet` undefined; the constructor counts polygons as stop lines |
| C32 | an attribute `ele` is lost or becomes the height; strings are cut at NUL; `josm_format_elevation` rounds |
| C33 | the writer's `removeAndFixPlaceholders` does not correct the positions behind a removed member: past-the-end access or overwritten members and a null pointer dereferenced by `osm::write` |
| C34 | a lanelet with an own `type` tag is silently lost, `area` decides line string/polygon, inverted centerlines and parameters lose their orientation, empty roles vanish, equal ids of different layers collide, empty line strings are lost (with error) |
| C36 | an open chain of line strings at the end is dropped without an error |
| C37 | `Relation ==` uses `&&` for `||`; roles, attributes and coordinates are not compared |
| C39 | remove operations do not keep the invariants the constructors check |
| C40 | `lanelets()` of an inverted sequence are not inverted; concatenation of inverted sequences; a one-lanelet sequence equals its inversion |
| C42 | `findUsagesInLanelets` may list a lanelet twice |
| C45 | adding twice to a submap doubles usages and index entries |
| C47 | `km/s` is read as m/s, `kmph` as mph |
| C48 | only the first common bound decides about passing |
| C50 | the closing segment of the centerline is not checked; undefined for a one-point left bound shared with the right bound; the end is missing for two and one points; the result depends on the direction |
| C53 | `leftRelations`/`rightRelations` dereference an empty Optional for a lanelet that is not on the route (documented: nothing returned) |
| C55 | `boost::closed_plus` takes DBL_MAX for infinity while the search uses `infinity()`: adding a weight is not monotone there |
| C56 | building a graph for a map with a usable lanelet with an empty bound: `front()` of an empty line string |
| C57 | the edge to a lanelet that ends where it begins is added twice (the index finds it twice); `next` then sees two successors and ends a lane change stretch |
| C59 | of two lanelets on the same side to which the lane can be changed only one gets an edge (`emplace` in the collector) |
| C59 | at merges and splits the lane change stretches, hence costs and kind of the edges, depend on the iteration order of an unordered_map |
| C60 | two overlapping lanelets usable in both directions: the conflict between their inverted directions is not marked |
| C60 | `overlaps2d`: `follows(lanelet.invert(), other)` and `follows(other.invert(), lanelet)` are the same test; lanelets that end at the same place head-on are not excluded |
| C61 | conflicts between lanelets and areas lead only from the lanelet to the area, and only in the direction of the lanelet |
| C62 | `leftRelations` of a lanelet and of its left neighbour can disagree: after an adjacent neighbour only adjacent neighbours are followed as long as there are any |
| C63 | `RoutingGraph::checkValidity(false)` throws InvalidInputError for a graph without cost modules |
| C64 | for a map with two lanelets on the same side of a lanelet the builder produces a graph that fails `checkValidity` |
| C65 | `RouteBuilder`: `forEachVertexOutOfRoute` writes to `permittedVertices_[size]` when a permitted section contains a lanelet that is not in `newConflictingVertices_` (it was pruned before) |
| C65 | `getRoute` does not return when the lanelets beside a conflicting lanelet form a ring of neighbours |
| C67 | a lanelet that was determined but is not reached on the route still counts as predecessor: one lane gets several lane ids, `numLanes` is too large |
| C68 | a circle of following lanelets beside the path becomes part of the route though nothing leads from it to the end |
| C68 | a lanelet of the route can be a dead end on the route: the lanelets behind it are not taken |
| C69 | with three lanes, a conflict of the third lane with the route removes the second one, to which the lane can be changed and back |
| C71 | `geometry::project` and `closestSegment` on an empty line string: `r.begin() + 1` beyond the end, undefined behaviour |
| C72 | `calculateLineParams`: the threshold 1e-10 is not relative; crossing segments of 3 mm count as parallel and get a positive distance |
| C72 | closest points with a line string whose points are all equal: wrong point, the result depends on the order of the arguments |
| C72 | `projectedBorderPoint2d/3d`, `distanceToBorder3d`: the closing edge of the polygons is not considered (below 50 points, and never for the smaller polygon) |
| C72 | `overlaps3d`: denies the overlap of polygons that meet in a point of that edge |
| C73 | `signedDistance`, `isLeftOf` with 50 or more points: the tree can yield the segment behind a corner first, the sign is wrong at sharp corners |
| C73 | `isLeftOf` with a doubled point: the corner is not recognised and the sign is wrong |
| C75 | `lengthRatios` of three or more equal points: not a number |
| C76 | `toArcCoordinates` on a line string that visits a point twice: the length up to the first visit is counted |
| C77 | `fromArcCoordinates` does not invert `toArcCoordinates` for points in front of a corner (shifted along the normal of the next segment) |
| C77 | `fromArcCoordinates` with negative length: the point is measured from the end, but shifted along the normal of the first segment |
| C77 | `fromArcCoordinates` at a doubled last point: no shift |
| C77 | `lateralShiftPointAtIndex` rejects the negative index of the first point |
| C54 | `Route::checkValidity`: the check of the relation back is inverted, consistent pairs are reported and inconsistent ones accepted |
| C79 | `convexPartition`: "guaranteed to deliver a partition with at most 2N+1 parts if N is minimum partition" (Polygon.h:292) is false: a polygon with four corners to the inside that three convex parts fill gets eight parts in every order of the gates (`C79_number_refuted`) |
| C80 | `triangulate` returns the Delaunay triangulation of the points, also the triangles outside of a polygon that is not convex |
| C80 | `convexPartition` throws for simple polygons with an edge that is no Delaunay edge |
| C80 | `convexPartition` recurses without end for some of them, since polygons behind closed gates are never marked as visited |
| C80 | the documented accuracy is a millimetre, but coordinates are truncated to centimetres |
| C81 | `road_name` and `road_surface` of lanelets and participants of areas are documented, but reported as unknown |
| C82 | subtypes of line strings are never checked: `type->first + key` is the string "typesubtype", not the value of the type and "subtype" |
| C82 | the documented lanelet subtype `exit` is reported |
| C84 | a polygon whose last point equals the first one is not reported |
| C85 | two points 1 cm apart are not reported if other points are above them: the query is one in the plane, the distance one in space |
| C86 | a bound that turns back on itself has curvature 0 |
| C87 | issues of severity Info are not part of the report |
| C88 | `getMahalanobisDistSq` squares kappa, although the documentation (Utilities.h) approximates the variance of the heading by 1 / kappa; for kappa = 4 the term is four times too large |
| C88 | MatchingError for a determinant below 1e-8, e.g. standard deviations of 9 mm; documented is a determinant of zero |
| C89 | `getProbabilisticMatches` does not throw for a singular covariance if no lanelet is found |
| C90 | `conflictingInGraph` of an inverted lanelet reports the lanelet itself |
| C91 | a speed limit of zero is multiplied with a default constructed (zero) velocity and stays zero: infinite travel time, or NaN without length |
| C91 | the exception for infinite speed limits leaves `getCostLaneChange`, which is `noexcept`: std::terminate |
| C91 | `approximatedLength2d` samples the left bound only, so length and costs of a lanelet and its inverse differ |
| C92 | `getEnclosingPolygon3d`: a bend in the border between the end of a lanelet and an area is lost |
| C92 | a path that leaves a primitive by the side it came in (a lanelet, an area, the inverse lanelet) has a wrong polygon, although such paths are related at every step |
| C92 | the polygon of a single area repeats its first point at the end (as every `outerBoundPolygon`), the one of longer paths does not |
| C92 | lanelets that are not related are joined without an error, since the result `{}` is `{Following, Following}` |
| C94 | `offset` to the right (negative distance) at sharp right-hand corners: the overshoot along the segment has the wrong sign (it is a function of the signed distance), so the result cuts through the segment; tests use positive distances only |
| C94 | a doubled point moves by twice the distance, since the zero vector stays zero when normalised |
| C94, C95 | `joinSubStrings` jumps to the right part, but to its first segment (`j = 0`) even if the intersection is in a later one: a point shortly behind a left-hand corner gives a point at half of the distance, and `offset` throws |
| C95 | the last point of the result is doubled if there is more than one part |
| C95 | `checkForInversion` compares with the signed distance, so negative distances are never checked: a result that runs over the line string is accepted |
| C95 | the result may cross itself and the line string, if the line string crosses itself; the documentation guarantees no self-intersections |
| C95 | `offsetNoThrow` is documented to throw InvalidInputError for fewer than two points, but returns no points |
| C97 | a regulatory element with a subtype that is not registered can be added and written, but the file cannot be read at all (InvalidInputError); the same for a traffic light after `removeTrafficLight` of its last light or a right of way without yielding lanelets |
| C97 | parameters that are lanelets or areas outside of the map (added to a regulatory element after it was added to the map) are written, but expired after reading; writing the copy throws LaneletError |
| C97 | distinct regulatory elements with the same id become one: the second is silently replaced by the first |
| C97 | the file has the next id of the process, not one above the ids of the map: ids of maps made by `createMap` with own ids may be issued again after reading |
| C98 | `touches2d` and `adjacent` miss a common edge behind a point that a polygon passes twice (`std::find` stops at the first occurrence); the result depends on the order of the arguments |
| C98 | an empty compound polygon is said to have one segment, which is accessed (undefined behaviour in `touches2d` and `adjacent`); `follows(lanelet, area)` and the searches access the ends of bounds without points |
| C98 | `determineCommonLineSideways(lanelet, area)` and `(area, lanelet)` are documented as the same, but return different line strings if the area contains both bounds |
| C98 | `follows(lanelet, area)` ignores the direction of the line string, `determineCommonLinePreceding` does not |
| C98 | `determineCommonLine` of two lanelets on the same side of a common bound finds nothing, also with `allowInverted` |
| C99 | an empty box other than that of `setEmpty` may intersect a box |
| C100 | `approximatedLength2d` is 0 for a zigzag of 41 points of any width |
| C101 | a loop ramp that begins at the end of a lanelet and crosses it does not overlap with it; polygons with a common edge never overlap, wherever else they meet |
| C102 | `distanceOther` of `intersectCenterlines2d` is computed on the first centerline, so both vectors are the same |
| C103 | `LaneletSubmap::add(lanelet)` gives an id to the lanelet only; in `laneletMap()` bounds and points without ids collapse under the invalid id |
| C103 | a submap keeps parameters alive on one level only: parameters of the regulatory elements of parameters may expire, `laneletMap()` then lacks them |
| C104 | lanelets that can be used in both directions (and a lanelet and an area with the same id) have one point in the debug map of the graph; `getPair` does not order them, so the two directions of their relation get a line string each, from the point to itself |
| C104 | a second edge from a lanelet to the same lanelet is shown as `relation_reverse` |
| C105 | the line strings of `Route::getDebugLaneletMap` are made by the default constructor; they all have the invalid id and `createMap` keeps one |
| C105 | in a route of one lanelet `vertexMap[el.id()]` makes a default point: it gets a new id and has no `lane_id` |
| C107 | the warning about the decimal point of the locale is lost: `osm::read` assigns to the list that holds it, and `buildErrorMessage` of the writer clears it; maps are loaded with wrong coordinates without an exception |
| C107 | `write` without error pointer throws `WriteError` only after the old file was replaced by an incomplete one |
| C107 | a file that can not be created makes `write` throw `ParseError` |
| C107 | loading with the default origin throws a plain `IOError`; the documented `DefaultProjectionNotAllowedError` is never thrown |
| C108 | `align`: if the middle of one bound lies on the other bound, the signed distance is zero and both bounds are inverted; every further call turns the lane around again (`C108_touching_refuted`) |
| C108 | `align`: if a lane winds around itself with a gap below its width, the wrong pass of the bound is nearest and one bound of a well oriented lane is inverted (`C108_spiral_refuted`) |
| C110 | `utils::has(ConstArea, id)` looks only at the points of the outer bound: neither at regulatory elements, as its comment says, nor at holes; `has` of a regulatory element inherits this (`C110_areas_refuted`) |
| C110 | `findUsages(laneletLayer, id)` does not find the lanelets that a line string bounds (`C110_bounds_refuted`) |
| C110 | `find<ConstRuleParameter>(InvalId)` returns an expired lanelet or area (`C110_find_refuted`) |
| C110 | `RegulatoryElementFactory::create` with an unknown rule throws, although the comment above `RegisterRegulatoryElement` promises a generic element, and has by then overwritten the subtype in the data of the caller (`C110_create_refuted`) |
| C111 | `followingRelations` reports `Conflicting` for a lanelet that follows: the opposite direction of a lanelet whose bounds begin in one point, because the conflict is inserted first and `withoutConflicting` lets it pass (C16) (`C111_conflict_refuted`) |
| C112 | `lanelet2_validate` with a participant for which no rules are registered is terminated by an uncaught exception, and the issues of the map that were found before are lost (`C112_participant_refuted`) |
| C112 | `lanelet2_validate` on a lanelet whose bounds have no points: undefined behaviour while the routing graph is built, no report (`C112_empty_bound_refuted`) |
| C112 | `lanelet2_validate` does not end on lanes that lie around a place like spokes of a wheel (`C112_ring_refuted`) |
| C112 | a check with an issue of severity Info makes the exit code 1, while "0 issues found." is printed (`C112_info_refuted`) |
| C113 | with a minimal length of lane changes, where lanes merge the iteration order of an unordered_map decides whether `shortestPath` finds a path at all (`C113_order_refuted`) |
| C113 | `getRoute` has undefined behaviour (C65, `permittedVertices_[size]`) on an ordinary map with default costs: two lanes that can be changed at the start only, the left one ends, and a lanelet leads from it back to the right lane (`C113_route_refuted`) |
| C114 | in Python `ls[0], ls[1] = ls[1], ls[0]` loses a point: both elements are the old second one (`C114_swap_refuted`) |
| C114 | in Python `p = ls[0]; del ls[0]; ls.append(p)` appends the new first point (`C114_rotate_refuted`) |
| C114 | in Python `p = ls[i]` is memory that is gone after `ls.append(q)` if the vector was full (`C114_append_refuted`, for every line string and index) |
| C115 | `passableSubmap()` lacks the opposite direction of every lanelet that can be used in both (`C115_graph_refuted`) |
| C115 | `laneletSubmap()` of a route that uses a lanelet in both directions (out, around a turning loop and back) has it in one direction only (`C115_route_refuted`) |
| C116 | `make_ids_positive.py` keeps the id 0, also that of elements without an id: ids are not negative afterwards, but not positive either (`C116_zero_refuted`) |
| C116 | `make_ids_positive.py -i` removes relations of unknown types from the file, without a message (`C116_inplace_refuted`) |
| C117 | the GraphViz export is documented to bear more than the GraphML export; it bears less: both directions of a lanelet have the same label (`C117_direction_refuted`) |
| C118 | `projection::Mercator` moves positions beyond 89.5 degrees to 89.5 degrees, without an error (`C118_pole_refuted`) |
| C118 | `projection::Mercator` does not scale by the latitude of the origin: from 45 degrees on maps are more than 40% too long, also with the right origin (`C118_length_refuted`) |
| C119 | the origin reported by `GeocentricProjector` is not projected to zero, its height is rounded (`C119_origin_refuted`) |
| C120 | `intersects3d` of line strings looks for the height at a crossing by projecting the point with height zero in space: on a slope of 10% at a height of 100 m lines that share a point count as not intersecting (`C120_slope_refuted`) |
| C120 | for the same reason lines further apart than the tolerance can count as intersecting (`C120_gap_refuted`) |
| C120 | `intersects3d` and `overlaps3d` of lanelets compare the heights of the nearest points of the centerlines: a bridge that descends beside a road counts as intersecting it (`C120_bridge_refuted`) |
| C121 | `repr` of every regulatory element writes the parameters and the attributes where the constructor wants the attributes and the parts, and `RegulatoryElement` has no constructor: evaluating the text raises, and so does that of every lanelet and area with regulatory elements (`C121_regulatory_refuted`, `C121_with_regulatory_refuted`) |
| C121 | `repr` of a `Point2d` writes the attributes where the constructor wants the height, `repr` of a `LineString2d` or `Polygon2d` writes 2D points where the constructor wants 3D points: evaluating raises (`C121_flat_refuted`) |
| C121 | the text of a `ConstLanelet` cannot be evaluated, its bounds are written as `ConstLineString3d`, which the constructor does not take (`C121_const_refuted`) |
| C121 | coordinates are written with six digits: a kilometre from the origin points a millimetre apart have the same text (`C121_precision_refuted`) |
| C121 | a coordinate that is NaN or infinite is written as a name that Python does not know (`C121_not_finite_refuted`) |
| C122 | `io.cpp:73` names the third keyword of `Origin` "lon" again: `Origin(lat=a, lon=b)` has the altitude b, and `Origin(lat=a, lon=b, alt=c)` ignores c and has the altitude b as well (`C122_origin_refuted`) |
| C122 | `possiblePaths` and `possiblePathsTowards` by cost have five keywords for four parameters, so each name stands for the parameter before: `allowLaneChanges=True` selects cost module 1 without lane changes, `routingCostId=1` allows lane changes, the minimum cost can be left out and not be named (`C122_possible_paths_refuted`) |
| C122 | `loadRobust` has one keyword for two parameters: naming both is undefined behaviour in Boost.Python, the declared default projector does not exist, `filename=` sets the projector (`C122_load_robust_refuted`) |
| C122 | `SpeedLimitInformation` is bound without `make_constructor`: no call with an argument is accepted. (The function behind it would take the parameter `speedLimitMPS` as km/h.) (`C122_speed_limit_refuted`) |
| C122 | `intersects3d` of two line strings without the tolerance is refused although a default is declared (`C122_intersects3d_refuted`) |
| C122 | declared names that the binding does not know: `lanelet_map`, `traffic_rules`, `routing_costs`, `from_` (the bound name `from` is a keyword of Python and cannot be written), `routingCostId` of `reachableSet`, `include_adjacent`, `throw_on_error`, `llt1`, `object_id` (`C122_names_refuted`) |
| C123 | `PointData::point2d()` is const and writes `point2d_` if it differs from the coordinates: after `p.x() = …`, two threads that only call const functions (`basicPoint2d()`, and with it all 2D geometry on the map) race; a point with a NaN races always (`C123_share_refuted`) |
| C123 | a reference returned by `basicPoint2d()` or by `basicPoint()` of a 2D point does not follow the point: it changes when anyone reads the point in 2D the next time, not when the point is moved (`C123_reference_refuted`) |
| C123 | a coordinate set from 0.0 to -0.0 is still 0.0 in `basicPoint2d()`, because the copy is renewed only if `!=` holds (`C123_exact_refuted`) |
| C124 | `ObjectWithCovariance2d(...)` in Python without `positionCovariance` has the default `PositionCovariance2d()` (`matching.cpp:166`), an Eigen matrix that nobody initialises; C++ has zero and reports a zero covariance. Matching such an object reads indeterminate numbers (`C124_object_refuted`) |
| C124 | `removeNonRuleCompliantMatches` of a list with both classes of matches returns the base parts only: `mahalanobisDistSq` is lost (`C124_mixed_refuted`) |
| C124 | `removeNonRuleCompliantMatches(matches, None)` follows a null pointer (`C124_none_refuted`) |
| C124 | the setter of `Object2d.absoluteHull` is a function of one parameter: every assignment raises (`C124_hull_refuted`) |
| C125 | `print_ids.py --has-id n` raises a TypeError for an id that is not in the map (a string and an integer are added, line 33) (`C125_missing_refuted`) |
| C125 | `print_ids.py --has-id 0` prints all ids, because 0 is no truth value; an id that several layers have is told for the first only (`C125_zero_refuted`, `C125_layers_refuted`) |
| C125 | `create_debug_routing_graph.py`: `--participant` is required in spite of its default; `train` is in the help but has no traffic rules; other participants raise a KeyError after the map was loaded (`C125_debug_refuted`) |
| C126 | `m["k"] = v` and `AttributeMap(d)` cut a value at its first NUL (`Attribute(const char*)`, `core.cpp:132`), while the same dictionary given as an argument keeps it (`C126_nul_refuted`) |
| C126 | assigning a value with a surrogate (e.g. a file name decoded with surrogateescape) follows a null pointer: `PyUnicode_AsUTF8String` returns null and `PyBytes_AsString` looks at the object before the check in `core.cpp:127` (`C126_surrogate_refuted`) |
| C126 | attributes whose bytes are no UTF-8 raise a UnicodeDecodeError when they are read (`C126_read_refuted`) |
| C127 | `to2D` and `to3D` in Python hand back hybrid line strings, hybrid polygons and bounding boxes unconverted, without an error; C++ converts them (`C127_hybrid_refuted`) |
| C127 | `distance(polygon, point)` works and `distance(point, polygon)` raises an ArgumentError; likewise a compound polygon and a polygon (`C127_exchange_refuted`) |
| C127 | `distance(lanelet, point)` raises unless the point is a `BasicPoint2d` or `BasicPoint3d`; polygons in 3D have no distance from anything (`C127_missing_refuted`) |
| C127 | `intersects2d` is bound for `BoundingBox3d` instead of `BoundingBox2d` (`geometry.cpp:367`): boxes that overlap on the ground but not in height do not intersect "in 2d" (`C127_boxes_refuted`), and 2D boxes raise an ArgumentError (`C127_boxes2d_refuted`) |
| C128 | a routing cost in Python whose method raises, is missing or returns no number ends the process (`std::terminate`): the wrappers in `routing.cpp:58-96` are `noexcept` (`C128_error_refuted`) |
| C128 | an infinite speed limit is an InvalidInputError for `RoutingCostTravelTime` in C++ when a graph is built, but ends the process for the same class made in Python (`C128_error_refuted`, `C128_cpp_error`) |
| C128 | None in the list of routing costs follows a null pointer when the first edge is added (`C128_none_refuted`) |
| C129 | `ConstLaneletWithStopLine` cannot be made in Python, with or without a stop line: its constructor takes an `Optional<ConstLineString3d>`, for which no conversion from Python is registered, although `typings/lanelet2/core.pyi` declares it (`C129_const_stop_line_refuted`) |
| C129 | the converters for vectors and Optionals take every iterable and every object when an overload is chosen, so that a definition made later hides earlier ones and wrong items raise (`C129_overloads_refuted`); hence the second branch of `distanceToLines` never gives a distance (`C129_distance_to_lines`). No two definitions in the repository are known to collide in this way |
| C129 | an Optional of an Optional does not come back from Python (`C129_nested_optional_refuted`); the repository has none |

Further observations without a theorem: a GeographicErr thrown in the constructor of `UtmProjector` escapes; the Mercator
projector does not map its origin to zero; `IOHandler` keeps a pointer to its configuration, which dangles if the default argument of
`ParserFactory::create` is used (no handler looks at it); the converter of attributes from Python (`core.cpp:124`) never releases the bytes object it
makes.

## 6 Trusted base

* The Coq 8.16.1 kernel (and `vm_compute` for the examples and witnesses).
* Axioms: every theorem is "Closed under the global context" except those about
  real numbers (C38, C51, C71–C80, C85, C86, C88, C91, C92, C94–C96, C99–C102, and C55 through Flocq's use of them), for which `Print Assumptions` lists only axioms of the
  standard library: `ClassicalDedekindReals.sig_not_dec`,
  `ClassicalDedekindReals.sig_forall_dec`,
  `FunctionalExtensionality.functional_extensionality_dep`,
  `Classical_Prop.classic`. There are no own axioms, no `Admitted`, no kernel flags.
* The transcription: that the definitions of the `*Model.v` files say what the
  cited C++ lines do. It was checked by reading only; the C++ code was neither
  built nor run.
* The hypotheses on external code, in particular:
  - `CostLaws` (`CostAlg.v`): order laws, adding a weight never decreases, is monotone. True of
    IEEE double with rounding to nearest and plain addition (proved, C55); `boost::closed_plus` deviates exactly
    when an operand is DBL_MAX.
  - spatial queries of the R-tree deliver the elements sorted by box distance;
  - printing and parsing of numbers (`print_id`/`parse_id` inverse; `fmt`/`parse_d` arbitrary);
  - `sane` (`BuilderSpec.v`): box searches return each usable element once and all that overlap or can be
    passed to; overlapping is symmetric;
  - `lib_laws` (`UtmModel.v`): forward and reverse of GeographicLib are inverse;
  - `geometry::align` and `is_valid` in C34 are arbitrary functions with the conditions stated there;
  - Boost.Python matches the arguments of a call as `PyCallModel.v` says (C122), and converts strings and list items as `PyTextModel.v` and `PyMatchModel.v` say (C126, C124), tries the definitions of a function from the last to the first and finds base classes and implicit conversions as `PyDimModel.v` says (C127), finds overrides and makes null pointers of None as `PyCostModel.v` says (C128), chooses overloads and extracts items as `PyConvModel.v` says (C129), taken from its published
    source, which is not part of the repository;
  - atomics are sequentially consistent in C01, C25, C26.

## 7 Mutation tests

`seeded/LOG.jsonl` records edits of the model (realistic bugs) made in a scratch
copy, the claim each edit breaks and the first lemma or theorem that failed.
