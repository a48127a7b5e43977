{"id": "C01", "title": "Generated ids never repeat, even across threads", "statement": "Calls of utils::getId() return pairwise different ids, and once utils::registerId(x) has returned, no later getId() returns a value <= x, whichever threads issue the calls (as long as no id reaches the end of the 64-bit range).", "quantifier": "for every number of threads, every program of getId/registerId calls per thread and every interleaving of their atomic steps, including spurious compare-exchange failures", "why_tests_cant": "A test runs one schedule; a lost update in the compare-exchange loop shows up only in rare interleavings.", "anchors": ["lanelet2_core/src/LaneletMap.cpp: utils::getId, utils::registerId, currId"]}
{"id": "C02", "title": "registerId protects ids for the whole id range", "statement": "For every 64-bit id x, calling registerId(x) is well defined and afterwards getId() does not return x.", "quantifier": "for every 64-bit id, including the largest", "why_tests_cant": "The boundary value is a single point of a 2^64 domain that no test picks by chance.", "anchors": ["lanelet2_core/src/LaneletMap.cpp: utils::registerId, utils::getId"]}
{"id": "C03", "title": "A LaneletMap stays self contained", "statement": "After any sequence of LaneletMap::add calls on an initially empty map, every primitive referenced by a primitive in one of the layers (points of line strings and polygons, bounds, centerlines, regulatory elements, parameters of regulatory elements that are still alive) is found in the corresponding layer of the map under its id.", "quantifier": "for every object graph (including cyclic lanelet <-> regulatory element references) and every sequence of add calls", "why_tests_cant": "Reference graphs are unbounded and cyclic; tests only use a handful of shapes.", "anchors": ["lanelet2_core/src/LaneletMap.cpp: LaneletMap::add (all overloads), AddVisitor, AssignIdVisitor", "lanelet2_core/include/lanelet2_core/LaneletMap.h: LaneletMap"]}
{"id": "C04", "title": "LaneletMap::add terminates on cyclic references", "statement": "LaneletMap::add returns for every finite object graph, also when lanelets, areas and regulatory elements refer to each other in cycles.", "quantifier": "for every finite object graph and every map state", "why_tests_cant": "Non-termination cannot be observed by a finite test, and cyclic shapes are unbounded in number.", "anchors": ["lanelet2_core/src/LaneletMap.cpp: LaneletMap::add(Lanelet), LaneletMap::add(Area), LaneletMap::add(RegulatoryElementPtr)"]}
{"id": "C05", "title": "add never replaces or removes map elements", "statement": "LaneletMap::add keeps every element that was in the map before under its id in its layer; adding a primitive whose id already exists in its layer changes nothing at all.", "quantifier": "for every map state, every primitive and every layer", "why_tests_cant": "Needs all prior states and all collision patterns.", "anchors": ["lanelet2_core/src/LaneletMap.cpp: LaneletMap::add, PrimitiveLayer::add, PrimitiveLayer::exists"]}
{"id": "C06", "title": "add gives every added primitive a valid id that collides with nothing in the map", "statement": "When a primitive (or something it references) has id InvalId, LaneletMap::add assigns it an id that is not used by any element of the map built so far through add, so that the primitive is afterwards really found in its layer under the new id.", "quantifier": "for every history of add calls and every mix of preset and invalid ids", "why_tests_cant": "Collisions depend on the history of ids handed out before.", "anchors": ["lanelet2_core/src/LaneletMap.cpp: LaneletMap::add, assignIdIfInvalid, PrimitiveLayer::uniqueId, utils::getId, utils::registerId"]}
{"id": "C07", "title": "uniqueId is unused in every layer of every map", "statement": "PrimitiveLayer::uniqueId() returns an id that is not used within this layer, however the map was created (add, utils::createMap, loading).", "quantifier": "for every way of constructing a map and every set of preset ids", "why_tests_cant": "Depends on the global id counter, i.e. on everything that happened in the process before.", "anchors": ["lanelet2_core/src/LaneletMap.cpp: PrimitiveLayer::uniqueId, PrimitiveLayer constructors, utils::createMap, utils::registerId"]}
{"id": "C08", "title": "findUsages reports exactly the users of a primitive", "statement": "layer.findUsages(x) returns exactly the elements of the layer that reference x (once for every reference), both for maps built through add and for maps built from element lists.", "quantifier": "for every history of add calls and every primitive x", "why_tests_cant": "The usage index must be right for every combination of elements and insertion orders.", "anchors": ["lanelet2_core/src/LaneletMap.cpp: UsageLookup::add, PrimitiveLayer::add, PrimitiveLayer::findUsages"]}
{"id": "C09", "title": "nearest-element search returns the true nearest elements", "statement": "geometry::findNearest2d(layer, p, n) returns min(n, layer size) different elements together with their true distances in ascending order, and no other element of the layer is strictly closer than the last one returned.", "quantifier": "for every layer contents, every query point, every n >= 1 and every tie-breaking of the bounding box search", "why_tests_cant": "Correctness rests on a pruning argument between box distances and true distances, over unbounded layers.", "anchors": ["lanelet2_core/src/LaneletMap.cpp: geometry::findNearest, NSmallestElements, findNearestImpl"]}
{"id": "C10", "title": "searchUntil / nearestUntil return the first accepted element", "statement": "searchUntil and nearestUntil return the first element in search order accepted by the predicate, nothing iff no element is accepted, and never call the predicate again after acceptance.", "quantifier": "for every layer, query and predicate (also stateful ones)", "why_tests_cant": "Predicates are arbitrary functions.", "anchors": ["lanelet2_core/src/LaneletMap.cpp: PrimitiveLayer::searchUntil, PrimitiveLayer::nearestUntil"]}
{"id": "C11", "title": "shortestPath is optimal", "statement": "If RoutingGraph::shortestPath returns a path, the path is a walk along usable edges of the graph from start to end and its accumulated cost is not larger than that of any other such walk; it returns nothing exactly if no walk exists.", "quantifier": "for every graph with non-negative edge costs, every pair of vertices, every lane change setting and every tie-breaking of the priority queue", "why_tests_cant": "Optimality quantifies over all graphs and all alternative paths.", "anchors": ["lanelet2_routing/src/RoutingGraph.cpp: shortestPathImpl, buildPath", "lanelet2_routing/include/lanelet2_routing/internal/ShortestPath.h: DijkstraStyleSearch, DijkstraSearchMap", "lanelet2_routing/include/lanelet2_routing/internal/GraphUtils.h"]}
{"id": "C12", "title": "reachableSet is exactly the set of lanelets within the cost budget", "statement": "reachableSet(start, c) contains exactly the vertices whose minimal accumulated cost from start over the allowed edges is at most c (and start itself whenever it is in the graph), each once.", "quantifier": "for every graph, start, budget and lane change setting", "why_tests_cant": "Needs the optimal distance of every vertex in every graph.", "anchors": ["lanelet2_routing/src/RoutingGraph.cpp: reachableSetImpl, RoutingGraph::reachableSet", "lanelet2_routing/include/lanelet2_routing/internal/ShortestPath.h: DijkstraStyleSearch"]}
{"id": "C13", "title": "possiblePaths are minimal prefixes satisfying the limit", "statement": "Every path returned by possiblePaths starts at the start lanelet, follows usable edges, is a shortest path to its last lanelet, satisfies the limit at its last element and not before (unless shorter paths were requested).", "quantifier": "for every graph, limit and lane change setting", "why_tests_cant": "Quantifies over all paths of all graphs.", "anchors": ["lanelet2_routing/src/RoutingGraph.cpp: possiblePathsImpl, StopIfLaneletsMoreThan, StopIfCostMoreThan, StopIfCostOrLaneletsMoreThan", "lanelet2_routing/include/lanelet2_routing/internal/ShortestPath.h: DijkstraSearchMap"]}
{"id": "C14", "title": "forEachSuccessor visits each reachable lanelet once with its minimal cost, in monotone order", "statement": "forEachSuccessor calls the function exactly once for every lanelet reachable without passing through a lanelet for which the function returned false, with monotonically non-decreasing cost, and the reported cost is the minimal one.", "quantifier": "for every graph and every (deterministic) visit function", "why_tests_cant": "The visit function prunes the search, so each function induces a different search.", "anchors": ["lanelet2_routing/src/RoutingGraph.cpp: RoutingGraph::forEachSuccessor", "lanelet2_routing/include/lanelet2_routing/internal/ShortestPath.h: DijkstraStyleSearch::query"]}
{"id": "C15", "title": "shortestPathVia visits the via points in order", "statement": "A path returned by shortestPathVia starts at start, ends at end, contains the via lanelets in the given order, consists of consecutive usable edges, has no duplicated joints, and is the concatenation of shortest sections; nothing is returned if one section has no path.", "quantifier": "for every graph and every list of via points", "why_tests_cant": "Unbounded number of via points and graphs.", "anchors": ["lanelet2_routing/src/RoutingGraph.cpp: shortestPathViaImpl, addToPath"]}
{"id": "C16", "title": "Relation filters admit exactly the advertised relations", "statement": "Each named filter (routing with/without lane changes, left, right, adjacent, successor, conflicting, without conflicting) admits an edge iff the edge belongs to the requested cost id and its relation is one of the relations named by the filter; in particular routingRelation(includeConflicting = false) never reports Conflicting.", "quantifier": "for every relation and every cost id", "why_tests_cant": "Masks are combinations of bits; tests check a few edges.", "anchors": ["lanelet2_routing/include/lanelet2_routing/internal/Graph.h: EdgeCostFilter, Graph::withoutConflicting", "lanelet2_routing/include/lanelet2_routing/Forward.h: RelationType, allRelations"]}
{"id": "C17", "title": "The routing graph only stores finite non-negative costs between known vertices", "statement": "After any sequence of addVertex/addEdge, every stored edge joins vertices that were added, has a finite non-negative cost; edges with infinite cost are dropped, negative or NaN cost never enters the graph.", "quantifier": "for every sequence of graph building operations and every cost", "why_tests_cant": "Shortest path search relies on it for all graphs.", "anchors": ["lanelet2_routing/include/lanelet2_routing/internal/Graph.h: Graph::addVertex, Graph::addEdge"]}
{"id": "C18", "title": "left/right neighbour queries terminate and list every neighbour once", "statement": "lefts/rights/adjacentLefts/adjacentRights/besides return, and the returned list follows the left (right) edges one by one without repeating a lanelet.", "quantifier": "for every routing graph that the builder can produce from a map", "why_tests_cant": "A cycle of left edges makes the query loop forever; tests use only straight roads.", "anchors": ["lanelet2_routing/src/RoutingGraph.cpp: getUntilEnd, neighboringImpl, RoutingGraph::lefts, RoutingGraph::rights, RoutingGraph::besides"]}
{"id": "C19", "title": "Route sections can be followed to the end", "statement": "Route::remainingShortestPath, remainingLane and fullLane return the lanelets from the given lanelet to the end of the lane/path, contain the given lanelet, and never loop, also for circular lanes.", "quantifier": "for every route graph and every lanelet", "why_tests_cant": "Circular lanes and all positions.", "anchors": ["lanelet2_routing/src/Route.cpp: Route::remainingShortestPath, Route::remainingLane, Route::fullLane, remainingLaneImpl"]}
{"id": "C20", "title": "An inverted line string behaves like the reversed point list", "statement": "Every read (size, at, front, back, iteration, segment) on an inverted line string gives what the same read gives on the reversed list of points, invert() twice gives the original, and data is shared between both views.", "quantifier": "for every line string, index and number of inversions", "why_tests_cant": "Index arithmetic must be right at every index and length.", "anchors": ["lanelet2_core/include/lanelet2_core/primitives/LineString.h: ConstLineStringImpl, LineStringData", "lanelet2_core/include/lanelet2_core/utility/ReverseAndForwardIterator.h"]}
{"id": "C21", "title": "Mutations through an inverted view act as on the reversed list", "statement": "push_back, pop_back, insert, erase, resize, clear and assignment on a (possibly inverted) line string change the sequence seen through this view exactly as the std::vector operation of the same name would, the other view sees the reverse, and the returned iterator points where std::vector's would.", "quantifier": "for every sequence of mutations through any mix of inverted and normal views", "why_tests_cant": "Mixed-view histories and iterator positions are unbounded.", "anchors": ["lanelet2_core/include/lanelet2_core/primitives/LineString.h: LineStringImpl::insert, LineStringImpl::erase, LineStringImpl::push_back, LineStringImpl::resize, LineStringImpl::operator="]}
{"id": "C22", "title": "Compound line strings enumerate the de-duplicated concatenation", "statement": "Iterating a compound line string (forward, backward, inverted, by index, by distance) yields the concatenation of the points of its parts in which consecutive duplicates are merged; size, front, back agree with it; empty parts are ignored.", "quantifier": "for every list of line strings including empty parts, shared end points and one-point parts", "why_tests_cant": "Boundary conditions at every part border and run of equal points.", "anchors": ["lanelet2_core/include/lanelet2_core/utility/CompoundIterator.h: UniqueCompoundIterator", "lanelet2_core/include/lanelet2_core/primitives/CompoundLineString.h"]}
{"id": "C23", "title": "HybridMap: enum and string access agree", "statement": "After any sequence of insert, erase, operator[], assignment, copy, move and clear, looking an attribute up by its enum name gives the same result as looking it up by its string name, and the contents are those of a plain std::map.", "quantifier": "for every sequence of operations", "why_tests_cant": "The cached iterator vector can dangle after any operation history.", "anchors": ["lanelet2_core/include/lanelet2_core/utility/HybridMap.h: HybridMap"]}
{"id": "C24", "title": "Attribute getters are stable", "statement": "asBool/asDouble/asInt/asId/asVelocity return the same result however often and in whatever order getters were called before; the hidden cache is not observable.", "quantifier": "for every attribute value, way of construction and history of getter calls", "why_tests_cant": "Observable only for particular orders of calls on particular values.", "anchors": ["lanelet2_core/src/Attribute.cpp: Attribute::asBool, asDouble, asId, asInt, asVelocity, setValue"]}
{"id": "C25", "title": "Concurrent attribute reads are safe", "statement": "Concurrent const getter calls on the same attribute from several threads never access freed memory and each returns the value a single-threaded call returns.", "quantifier": "for every schedule of any number of reader threads", "why_tests_cant": "Use-after-free windows are a few instructions wide.", "anchors": ["lanelet2_core/src/Attribute.cpp: load, store helpers", "lanelet2_core/include/lanelet2_core/Attribute.h: Attribute (thread safety note)"]}
{"id": "C26", "title": "The lanelet centerline cache is coherent", "statement": "centerline() always equals the custom centerline if one was set, otherwise the centerline computed from the current bounds, after any history of setLeftBound, setRightBound, setCenterline, resetCache, through inverted and normal lanelets and with concurrent readers.", "quantifier": "for every history of calls and every schedule of readers", "why_tests_cant": "Stale caches need particular orders of calls.", "anchors": ["lanelet2_core/src/Lanelet.cpp: LaneletData::centerline, setLeftBound, setRightBound, setCenterline, resetCache, hasCustomCenterline", "lanelet2_core/include/lanelet2_core/primitives/Lanelet.h"]}
{"id": "C27", "title": "Lane change rules are direction consistent", "statement": "canChangeLane(from, to) is true iff both are passable, to is directly left (right) of from and the shared line allows crossing in that direction; looking at the same line from the inverted lanelet swaps left and right.", "quantifier": "for every line type, subtype, override attribute, orientation and participant", "why_tests_cant": "Combination of line type, orientation, inversion and overrides.", "anchors": ["lanelet2_traffic_rules/src/GenericTrafficRules.cpp: canChangeLane, laneChangeType, getChangeType, getHardcodedChangeType"]}
{"id": "C28", "title": "Passing between areas requires both areas to be passable", "statement": "canPass(area, area) implies that both areas are passable for the participant, like the other canPass overloads.", "quantifier": "for every pair of areas and participant", "why_tests_cant": "Tests check only one or two combinations.", "anchors": ["lanelet2_traffic_rules/src/GenericTrafficRules.cpp: GenericTrafficRules::canPass"]}
{"id": "C29", "title": "Participant overrides", "statement": "If a lanelet carries participant:* attributes, canPass is decided by the override that matches the participant of the rules, independent of unrelated attributes; without such attributes by the participants table.", "quantifier": "for every attribute map and participant", "why_tests_cant": "Attribute maps are unbounded and ordered by string comparison.", "anchors": ["lanelet2_traffic_rules/src/GenericTrafficRules.cpp: hasOverride, getOverride, canPass"]}
{"id": "C30", "title": "Speed limit", "statement": "speedLimit(lanelet) is the limit of the first speed limit regulatory element, else the speed limit override matching the participant, else the default of the lanelet type and location; it is never a limit of 0 km/h unless an attribute says so.", "quantifier": "for every lanelet and regulatory element set", "why_tests_cant": "Many combinations of presence of attributes.", "anchors": ["lanelet2_traffic_rules/src/GenericTrafficRules.cpp: speedLimit, getSpeedLimitFromType", "lanelet2_traffic_rules/src/GermanTrafficRules.cpp"]}
{"id": "C31", "title": "AllWayStop keeps lanelets and stop lines paired", "statement": "After any history of addLanelet/removeLanelet on an AllWayStop (and lanelets going out of scope), getStopLine(l) returns the stop line with which l was added, and nothing for lanelets that are not part of it; constructor invariants (stop lines none or one per lanelet) are preserved.", "quantifier": "for every history of add/remove operations and expirations", "why_tests_cant": "Index mismatch appears only for particular histories.", "anchors": ["lanelet2_core/src/BasicRegulatoryElements.cpp: AllWayStop::getStopLine, addLanelet, removeLanelet"]}
{"id": "C32", "title": "OSM file round trip", "statement": "Reading the XML that osm::write produced gives back the same nodes, ways and relations (ids, attributes, members with roles, in order).", "quantifier": "for every OSM file value whose members refer to elements of the file", "why_tests_cant": "Unbounded documents, members forward-referencing relations.", "anchors": ["lanelet2_io/src/OsmFile.cpp: osm::write, osm::read"]}
{"id": "C33", "title": "Unresolvable members are dropped without disturbing the others", "statement": "If a relation refers to relations that do not exist (in the file when reading, in the map when writing), exactly those members are removed, all other members keep their role, target and order and no invalid memory is touched.", "quantifier": "for every relation, every position and number of missing members", "why_tests_cant": "Positions of placeholders relative to removed ones are unbounded.", "anchors": ["lanelet2_io/src/OsmFile.cpp: removeAndFixPlaceholders", "lanelet2_io/src/OsmHandlerWrite.cpp: removeAndFixPlaceholders, resolveUnparsedMembers"]}
{"id": "C34", "title": "Map write/read round trip", "statement": "Converting a map to its OSM representation and back yields the same points, line strings, polygons, lanelets, areas and regulatory elements with the same ids, attributes and references.", "quantifier": "for every well-formed map", "why_tests_cant": "Unbounded maps and attribute values.", "anchors": ["lanelet2_io/src/OsmHandlerWrite.cpp: ToFileWriter", "lanelet2_io/src/OsmHandlerLoad.cpp: FromFileLoader"]}
{"id": "C35", "title": "Decimal formatting keeps the value", "statement": "Shortening the written decimal numbers (JOSM style) does not change the number they denote.", "quantifier": "for every decimal number written with a point (as the formats %.11f and %.2f do)", "why_tests_cant": "Unbounded strings.", "anchors": ["lanelet2_io/src/OsmFile.cpp: toJosmStyle"]}
{"id": "C36", "title": "Area rings are assembled from all line strings", "statement": "When an area is loaded, every ring produced is closed, consists of line strings of the member list (possibly inverted) joined at shared end points, no line string is used twice, and if the input can not be assembled completely an error is reported.", "quantifier": "for every list of member line strings in every order and orientation", "why_tests_cant": "All permutations and orientations of unbounded lists.", "anchors": ["lanelet2_io/src/OsmHandlerLoad.cpp: assembleBoundary, getOuterRing, getInnerRing"]}
{"id": "C37", "title": "OSM relation equality", "statement": "Two osm::Relation objects compare equal only if they have the same id, attributes' type and members.", "quantifier": "for every pair of relations", "why_tests_cant": "Pairs differing in just one part.", "anchors": ["lanelet2_io/src/OsmFile.cpp: operator==(Relation, Relation)"]}
{"id": "C38", "title": "Mercator projection round trip", "statement": "For the spherical Mercator projector reverse(forward(p)) = p and forward(reverse(q)) = q (in exact arithmetic).", "quantifier": "for every origin latitude with non-zero cosine and every point with latitude in (-90, 90)", "why_tests_cant": "Continuous domain.", "anchors": ["lanelet2_io/include/lanelet2_io/Projection.h: SphericalMercatorProjector"]}
{"id": "C39", "title": "Regulatory element stop line and parameter updates", "statement": "TrafficLight/RightOfWay/TrafficSign set/remove operations keep the constructor invariants and change exactly the named role: after removeX(e), one occurrence of e less, others unchanged; after add, one more.", "quantifier": "for every history of set/remove/add calls", "why_tests_cant": "Histories are unbounded.", "anchors": ["lanelet2_core/src/BasicRegulatoryElements.cpp: findAndErase, TrafficLight, RightOfWay, TrafficSign"]}
{"id": "C40", "title": "Lanelet and lanelet sequence inversion", "statement": "invert() on lanelets swaps and reverses the bounds, twice gives the original; setLeftBound on an inverted lanelet is seen as right bound of the normal one; the bounds of an inverted sequence are the bounds of its lanelets in order.", "quantifier": "for every lanelet, history of bound changes and sequence", "why_tests_cant": "Histories through mixed views.", "anchors": ["lanelet2_core/include/lanelet2_core/primitives/Lanelet.h: ConstLanelet, Lanelet", "lanelet2_core/include/lanelet2_core/primitives/LaneletSequence.h"]}
{"id": "C41", "title": "following and previous are exact mirror images", "statement": "following(a) lists exactly the lanelets to which a stored edge of the first cost module with an allowed relation leads, previous(a) exactly those from which such an edge comes; hence b is in following(a) iff a is in previous(b).", "quantifier": "for every graph that can be built, every element and lane change setting", "why_tests_cant": "Unbounded graphs, parallel edges and duplicated vertices.", "anchors": ["lanelet2_routing/src/RoutingGraph.cpp: RoutingGraph::following, RoutingGraph::previous, getAllEdgesFromGraph, getLaneletEdgesFromGraph"]}
{"id": "C42", "title": "findUsagesInLanelets and findUsagesInAreas", "statement": "findUsagesInLanelets(map, p) lists exactly the lanelets of the map one of whose bounds is in the map and contains p, each once.", "quantifier": "for every map built by adds and every point", "why_tests_cant": "Two level usage lookup with inverted handles.", "anchors": ["lanelet2_core/src/LaneletMap.cpp: utils::findUsagesInLanelets, findUsagesImpl"]}
{"id": "C43", "title": "Spatial index agrees with the element map", "statement": "After any history of LaneletMap::add the R-tree of each layer holds exactly the elements of the layer that have a non-empty bounding box (points: all), each once.", "quantifier": "for every heap and history of add calls", "why_tests_cant": "Unbounded histories; a wrong tree only shows in spatial queries.", "anchors": ["lanelet2_core/src/LaneletMap.cpp: PrimitiveLayer::add, PrimitiveLayer::Tree, LaneletMap::add"]}
{"id": "C44", "title": "utils::createMap is self contained", "statement": "utils::createMap(lanelets, areas) terminates and gives a map in which every primitive referenced by an element is found by its id, and which contains all given lanelets and areas.", "quantifier": "for every heap and pair of lists whose elements have valid ids known to the id counter", "why_tests_cant": "Arbitrary sharing and cycles through regulatory elements.", "anchors": ["lanelet2_core/src/LaneletMap.cpp: utils::createMap, createMapFrom..., toMap"]}
{"id": "C45", "title": "LaneletSubmap::add", "statement": "LaneletSubmap::add gives the element a valid id, makes it retrievable, removes nothing, and adding an element twice has no effect.", "quantifier": "for every submap state and element", "why_tests_cant": "Histories of adds.", "anchors": ["lanelet2_core/src/LaneletMap.cpp: LaneletSubmap::add"]}
{"id": "C46", "title": "findWithin2d is exact", "statement": "findWithin2d(layer, p, d) returns exactly the elements of the spatial index whose distance to p is at most d, each once with its true distance, in ascending order.", "quantifier": "for every layer, query point, d >= 0 and every order in which the index delivers the box matches", "why_tests_cant": "Continuous domain, unbounded layers.", "anchors": ["lanelet2_core/include/lanelet2_core/geometry/impl/LaneletMap.h: findWithin2d"]}
{"id": "C47", "title": "Units of velocity attributes", "statement": "asVelocity of \"<number><blanks><unit>\" returns the number in that unit for the documented units (km/h, kmh, m/s, mps, m/h, mph; none means km/h); texts with another unit give no value.", "quantifier": "for every number text, number of blanks and unit text", "why_tests_cant": "Free text input; a substring search accepts and misreads units the author did not think of.", "anchors": ["lanelet2_core/src/Attribute.cpp: getUnit, Attribute::asVelocity"]}
{"id": "C48", "title": "Passing between lanelets and areas uses the common bound", "statement": "canPass(lanelet, area), canPass(area, lanelet) and canPass(area, area) are true only if a common bound (beside the lanelet or at its end, outer bounds being clockwise) may be crossed in that direction by the participant, and are true if both are passable and a common bound may be crossed.", "quantifier": "for every lanelet, area and participant, every orientation of the lines", "why_tests_cant": "Orientation conventions of clockwise outer bounds, inverted lanelets and inverted line strings multiply.", "anchors": ["lanelet2_traffic_rules/src/GenericTrafficRules.cpp: GenericTrafficRules::canPass, determineCommonLine", "lanelet2_core/include/lanelet2_core/geometry/impl/Area.h: leftOf, rightOf"]}
{"id": "C49", "title": "Driving direction", "statement": "A lanelet can always be driven in its own direction; against it iff one_way=no, or the one_way override of the participant (or of a more general participant) is no, or there is no one_way tag and the participant is a pedestrian; isOneWay is true iff one of the directions is closed.", "quantifier": "for every attribute map with documented one_way tags and every participant", "why_tests_cant": "Interplay of general tag, overrides at several levels and defaults.", "anchors": ["lanelet2_traffic_rules/src/GenericTrafficRules.cpp: isDrivingDir, isOneWay, hasOverride, getOverride"]}
{"id": "C50", "title": "The computed centerline follows the bounds", "statement": "calculateCenterline ends without undefined behaviour; every point of the result is the middle of a point of the left and a point of the right bound, never going back on either; it begins in the middle of the first and ends in the middle of the last points and does not cross the bounds.", "quantifier": "for all bounds, all point positions and every outcome of the intersection tests", "why_tests_cant": "The greedy search depends on the geometry of all points; degenerate bounds are rarely tested.", "anchors": ["lanelet2_core/src/Lanelet.cpp: calculateCenterline, findClosestNonintersectingPoint, BoundChecker"]}
{"id": "C51", "title": "Mercator projection is conformal and true to scale at the origin", "statement": "The spherical Mercator projector stretches lengths along meridians and along parallels by the same factor cos(origin latitude)/cos(latitude); at the latitude of the origin lengths are kept.", "quantifier": "for every origin and every point with latitude in (-90, 90)", "why_tests_cant": "A statement about derivatives.", "anchors": ["lanelet2_io/include/lanelet2_io/Projection.h: SphericalMercatorProjector"]}
{"id": "C52", "title": "UTM projector: round trip, origin and zone", "statement": "reverse(forward(p)) = p whenever forward succeeds; forward(reverse(q)) = q whenever reverse and forward succeed; with useOffset the origin has the coordinates zero; with throwInPaddingArea only points in the zone and hemisphere of the origin are converted, in both directions; forward throws only ForwardProjectionError and reverse only ReverseProjectionError.", "quantifier": "for every origin, point and combination of options, given a GeographicLib whose Reverse inverts Forward and Transfer", "why_tests_cant": "Continuous domain; combinations of offset, zone change and hemisphere.", "anchors": ["lanelet2_projection/src/UTM.cpp: UtmProjector"]}
{"id": "C53", "title": "Neighbour relations of a route", "statement": "Route::leftRelations and rightRelations return the relations to all lanelets left (right) of a lanelet of the route, one after the other up to the outermost one, nothing for a lanelet that is not on the route, and they return.", "quantifier": "for every route graph and every lanelet", "why_tests_cant": "Foreign lanelets and cyclic neighbour relations do not occur in test maps.", "anchors": ["lanelet2_routing/src/Route.cpp: Route::leftRelations, Route::rightRelations, getNextVertex"]}
{"id": "C54", "title": "Validity check of a route", "statement": "Route::checkValidity reports an error exactly if a lanelet of the shortest path is not on the route or a neighbour relation has no consistent counterpart (left/right, conflicting/conflicting).", "quantifier": "for every route graph and shortest path", "why_tests_cant": "The tests only check that no exception is thrown, and errors are not thrown by default.", "anchors": ["lanelet2_routing/src/Route.cpp: Route::checkValidity, checkRelationIs"]}
{"id": "C55", "title": "Routing with double precision costs", "statement": "The double precision cost arithmetic of the search (boost::closed_plus<double>, std::less<double>, infinity) is monotone, so that the search is correct in terms of the rounded sums although rounded addition is not associative.", "quantifier": "for every graph with finite non-negative double weights", "why_tests_cant": "Rounding errors accumulate differently along different paths.", "anchors": ["lanelet2_routing/include/lanelet2_routing/internal/ShortestPath.h: DijkstraStyleSearch::query"]}
{"id": "C56", "title": "The routing graph is built for every map, and its vertices", "statement": "RoutingGraph::build returns a graph for every map without negative costs; its vertices are exactly the lanelets and areas the participant can use, lanelets that can be used in both directions once for each direction.", "quantifier": "for every map, traffic rules and list of cost modules", "why_tests_cant": "Maps are unbounded; a lanelet without points does not occur in test maps.", "anchors": ["lanelet2_routing/src/RoutingGraphBuilder.cpp: build, getPassableLanelets, getPassableAreas, appendBidirectionalLanelets, addLaneletsToGraph, addAreasToGraph, addPointsToSearchIndex"]}
{"id": "C57", "title": "Successor edges of the routing graph", "statement": "The built graph has a successor edge for a module exactly from a usable lanelet to a usable lanelet that begins at the points where it ends and to which the rules allow to pass, with the cost of the module; no edge (source, target, relation, module) occurs twice.", "quantifier": "for every map, traffic rules and list of cost modules; uniqueness for lanelets that do not end where they begin", "why_tests_cant": "Neighbouring lanelets are found through an index by point ids whose collisions tests do not exercise.", "anchors": ["lanelet2_routing/src/RoutingGraphBuilder.cpp: addFollowingEdges, assignCosts, addPointsToSearchIndex"]}
{"id": "C58", "title": "Adjacent edges of the routing graph", "statement": "An adjacent edge joins a lanelet with one that shares the bound on this side in the same direction, costs one, and exists exactly where the lane cannot be changed or the module gives an infinite cost to the change.", "quantifier": "for every map, traffic rules and list of cost modules", "why_tests_cant": "Depends on the order in which lanelets are visited and on edges that exist already.", "anchors": ["lanelet2_routing/src/RoutingGraphBuilder.cpp: addSidewayEdges, addSidewayEdge, hasEdge"]}
{"id": "C59", "title": "Lane change edges of the routing graph", "statement": "Lanelets between which the lane can be changed are grouped in stretches of directly following pairs; each pair gets a left/right edge with the cost the module gives to the rest of the stretch, or an adjacent edge if this is infinite; pairs that continue each other without a branch are in the same stretch.", "quantifier": "for every map in which a lanelet has at most one neighbour on each side, and every iteration order of the hash map", "why_tests_cant": "The iteration order of an unordered_map is not under control of a test.", "anchors": ["lanelet2_routing/src/RoutingGraphBuilder.cpp: LaneChangeLaneletsCollector, addLaneChangeEdges, assignLaneChangeCosts"]}
{"id": "C60", "title": "Conflicting edges of the routing graph", "statement": "Two usable lanelets are joined by conflicting edges, in both directions and for every module, exactly if they are the two directions of the same lanelet or overlap and do not touch as neighbours.", "quantifier": "for every map and traffic rules", "why_tests_cant": "Combinations of directions, boxes and existing edges.", "anchors": ["lanelet2_routing/src/RoutingGraphBuilder.cpp: addConflictingEdge", "lanelet2_core/include/lanelet2_core/geometry/impl/Lanelet.h: overlaps2d"]}
{"id": "C61", "title": "Area edges of the routing graph", "statement": "Area edges join usable areas with usable lanelets and areas exactly where the rules allow to pass, with the cost of the module; elements that overlap and cannot be passed are joined by conflicting edges in both directions.", "quantifier": "for every map, traffic rules and list of cost modules", "why_tests_cant": "Combinations of directions and rules.", "anchors": ["lanelet2_routing/src/RoutingGraphBuilder.cpp: addAreaEdge"]}
{"id": "C62", "title": "Neighbour relations of the routing graph", "statement": "RoutingGraph::leftRelations and rightRelations return the lanelets met on a walk over neighbour edges to the outermost lane, each with the kind of its edge; they return this walk for every lanelet, every module.", "quantifier": "for every history of graph operations with neighbour edges between lanelets", "why_tests_cant": "Unbounded graphs; alternation of changeable and adjacent lanes and rings are not in the test map.", "anchors": ["lanelet2_routing/src/RoutingGraph.cpp: leftRelations, rightRelations, lefts, adjacentLefts, rights, adjacentRights, getUntilEnd"]}
{"id": "C63", "title": "Validity check of the routing graph", "statement": "RoutingGraph::checkValidity returns; it reports an error exactly if some lanelet has more than one neighbour edge to a side or is not the only neighbour of its neighbour on the other side, and throws exactly in this case if asked to.", "quantifier": "for every history of graph operations with neighbour edges between lanelets", "why_tests_cant": "The tests only check that the graphs of the test map have no errors.", "anchors": ["lanelet2_routing/src/RoutingGraph.cpp: checkValidity, neighboringImpl, neighboringLaneletImpl"]}
{"id": "C64", "title": "Built routing graphs pass their validity check", "statement": "The graph built for a map passes checkValidity, and leftRelations/rightRelations on it list the lanelets of the map beside a lanelet in their order up to the border of the road.", "quantifier": "for every map with at most one lanelet beside another on each side and without rings of lanes, all rules and modules", "why_tests_cant": "Relates the builder, the queries and the check on arbitrary maps.", "anchors": ["lanelet2_routing/src/RoutingGraphBuilder.cpp: build", "lanelet2_routing/src/RoutingGraph.cpp: checkValidity, leftRelations, rightRelations"]}
{"id": "C65", "title": "Route construction ends", "statement": "Building a route for a path ends with a route: the builder has no undefined behaviour, does not throw and does not loop forever; getRoute returns a route exactly if there is a way.", "quantifier": "for every graph, path, cost module, with and without lane changes", "why_tests_cant": "Unbounded graphs; the builder has a fixpoint loop over an unordered set of lanelets and walks over neighbours without a bound.", "anchors": ["lanelet2_routing/src/RouteBuilder.cpp: getRouteFromShortestPath, forEachVertexOutOfRoute", "lanelet2_routing/include/lanelet2_routing/internal/GraphUtils.h: anySidewayNeighbourIs", "lanelet2_routing/src/RoutingGraph.cpp: getRoute"]}
{"id": "C66", "title": "A route is a part of the routing graph", "statement": "The route contains its path and starts with it; all its lanelets can be reached by driving from its start; between its lanelets it has exactly the edges of the routing graph in their order, with their costs and relations; conflictingInMap lists exactly the conflicts in the graph.", "quantifier": "for every graph, path, cost module, with and without lane changes", "why_tests_cant": "Relates two graphs of arbitrary size; order of edges depends on the order of discovery.", "anchors": ["lanelet2_routing/src/RouteBuilder.cpp: RouteConstructionVisitor, finalizeRoute", "lanelet2_routing/src/Route.cpp: conflictingInMap, contains"]}
{"id": "C67", "title": "Lane ids of a route", "statement": "Two lanelets of a route have the same lane id exactly if they belong to the same lane (as listed by fullLane), and numLanes is the number of lanes.", "quantifier": "for every graph, path, cost module, with and without lane changes, routes with at most 65536 lanelets", "why_tests_cant": "Lanes are merged in the order of discovery; circular lanes; arbitrary branching.", "anchors": ["lanelet2_routing/src/RouteBuilder.cpp: RouteConstructionVisitor (lane ids)", "lanelet2_routing/src/Route.cpp: numLanes, fullLane"]}
{"id": "C68", "title": "Lanelets of a route lead to its end", "statement": "From every lanelet of a route its end can be reached by driving on and changing the lane.", "quantifier": "for every graph, path, cost module, with and without lane changes", "why_tests_cant": "A property of all paths in arbitrary graphs.", "anchors": ["lanelet2_routing/src/RouteBuilder.cpp: addAdjacentLaneletsToRoute, pruneLeafsExcluding, forEachVertexOutOfRoute"]}
{"id": "C69", "title": "Parallel lanes belong to the route", "statement": "If the lane can be changed from a lanelet of the route to another one and back, the other one belongs to the route too.", "quantifier": "for every graph, path, cost module", "why_tests_cant": "The set of candidates is pruned repeatedly for sections that leave the route.", "anchors": ["lanelet2_routing/src/RouteBuilder.cpp: addAdjacentLaneletsToRoute, remove, forEachVertexOutOfRoute", "lanelet2_routing/include/lanelet2_routing/internal/GraphUtils.h: ConflictingSectionFilter"]}
{"id": "C70", "title": "Which lanelets join a route", "statement": "Every lanelet of a route that is not on its path was reached next to the route, continues next to the route, and does not leave it, except along a section that is beside the route or returns to it while the route leads along it.", "quantifier": "for every graph without rings of neighbours, path, cost module, with and without lane changes", "why_tests_cant": "The criterion refers to sections of arbitrary length and to the growing set of lanelets itself.", "anchors": ["lanelet2_routing/src/RouteBuilder.cpp: VisitedLaneletGraph, PathsOutOfRouteFinder, RouteUnderConstruction"]}
{"id": "C71", "title": "A point is projected to a nearest point of a line string", "statement": "project and closestSegment return a point of the line string, respectively its segment, such that no point of the line string is nearer; with brute force and with the R-tree.", "quantifier": "for every line string with at least one point, every point, in the plane and in space, and every order in which an R-tree may yield the segments", "why_tests_cant": "The line string has any length and the nearest of infinitely many points is asked for; the tree search stops early.", "anchors": ["lanelet2_core/src/LineStringGeometry.cpp: projectedPoint, distForAllSegments, ProjectedPointL2PResult::update, projectedPointL2PBruteForce, projectedPointL2PWithTree, project, closestSegment"]}
{"id": "C72", "title": "Closest points of two line strings or polygon borders", "statement": "projectedPoint2d/3d return one point on each line string such that no other pair of points is closer, in the order of the arguments; the same for the borders of polygons.", "quantifier": "for all line strings with at least one point; all coordinates", "why_tests_cant": "Case analysis over two clamped parameters per pair of segments, thresholds, and line strings of any length.", "anchors": ["lanelet2_core/src/LineStringGeometry.cpp: calculateLineParams, projectedPoint, ProjectedPoint2L2Result::update, projectedPointL2LBruteForce, projectedPointL2LWithTree, projectedPointOrdered, projectedPointL2LImpl, projectedBorderPoint3d", "lanelet2_core/include/lanelet2_core/geometry/impl/Polygon.h: overlaps3d, distanceToBorder3d"]}
{"id": "C73", "title": "The sign of signedDistance tells the side of the line string", "statement": "signedDistance returns the distance of a point to the nearest point of the line string; it is positive exactly if the point lies left of the segment that contains the nearest point, and at a corner exactly if it lies left of the way around the corner.", "quantifier": "for every line string with two or more points without repeated points or reversals, and every point; the absolute value for every line string", "why_tests_cant": "The corner case depends on the order in which segments are found and on three orientation tests; wrong signs occur in regions of the plane only.", "anchors": ["lanelet2_core/include/lanelet2_core/geometry/impl/LineString.h: pointIsLeftOf, findPoint, isLeftOf, signedDistanceImpl, signedDistance"]}
{"id": "C74", "title": "Points at a distance along a line string", "statement": "interpolatedPointAtDistance returns the point at the given length along the line string, from the end for negative lengths, and the end point beyond; nearestPointAtDistance returns the point of the line string that is closest to this position along it.", "quantifier": "for every line string with two or more points (nearestPointAtDistance: one), in the plane and in space, and every distance", "why_tests_cant": "The position is a real number and the line string has any length; mistakes show at the ends, at exact point positions and for negative values only.", "anchors": ["lanelet2_core/include/lanelet2_core/geometry/impl/LineString.h: interpolatedPointAtDistance, nearestPointAtDistance"]}
{"id": "C75", "title": "Length ratios of a line string", "statement": "lengthRatios and accumulatedLengthRatios return one number per segment: its share of the length, which add up to 1, and the share of the length up to its end, the last being 1.", "quantifier": "for every line string with two or more points", "why_tests_cant": "Holds for every number of segments; tests use a few points.", "anchors": ["lanelet2_core/include/lanelet2_core/geometry/impl/LineString.h: rangedLength, lengthRatios, accumulatedLengthRatios"]}
{"id": "C76", "title": "toArcCoordinates gives position and distance of the nearest point", "statement": "The length in the result of toArcCoordinates is the length along the line string up to a nearest point, and the absolute value of the distance is the distance to it.", "quantifier": "for every line string with two or more points and every point", "why_tests_cant": "The length is found by searching for equal coordinates, which goes wrong exactly if the line string visits a point twice.", "anchors": ["lanelet2_core/include/lanelet2_core/geometry/impl/LineString.h: toArcCoordinates"]}
{"id": "C77", "title": "fromArcCoordinates lies beside the line string and inverts toArcCoordinates", "statement": "fromArcCoordinates returns the point at the given distance, left if positive, at a right angle to the segment at the given length; applied to the arc coordinates of a point it returns the point. lateralShiftPointAtIndex moves a point of the line string at a right angle to the line through its neighbours.", "quantifier": "for all line strings with two or more points, all lengths and distances, and all points", "why_tests_cant": "The segment and the foot point are computed by two different loops with different comparisons; the inverse holds on an infinite set of points.", "anchors": ["lanelet2_core/include/lanelet2_core/geometry/impl/LineString.h: fromArcCoords, fromArcCoordinates, lateralShiftPointAtIndex"]}
{"id": "C78", "title": "The convex partition fills the polygon", "statement": "convexPartition returns parts that together are the polygon: every Delaunay triangle (Voronoi polygon) inside is used in exactly one part, and the edges of the parts are those of the polygon and inner edges used once in each direction, so that the areas add up; the traversal ends.", "quantifier": "for every polygon with three or more points whose edges are edges of its Delaunay triangulation, every order in which the gates are visited and every test of convexity", "why_tests_cant": "The traversal is a recursion over a graph of any size that changes a polygon in place; termination and the bookkeeping of visited polygons cannot be tested exhaustively.", "anchors": ["lanelet2_core/src/PolygonTriangulationGeometry.cpp: isBorder, getAlignedIterators, getAdjacent, getSegmentsExcept, insertPolygonExcept, merge, findGates, updateState, traverse, mergeTriangulation, convexPartitionImpl"]}
{"id": "C79", "title": "The parts of the convex partition are convex", "statement": "Every turn of every part that convexPartition returns passes the test of convexity, and (as documented) there are at most 2N+1 parts if N is the smallest possible number of convex parts.", "quantifier": "for every polygon as above whose Voronoi polygons are convex", "why_tests_cant": "Merging happens at two corners at a time while the polygon grows; that later merges do not spoil earlier corners is an invariant.", "anchors": ["lanelet2_core/src/PolygonTriangulationGeometry.cpp: connectionConvex, isConnectionConvex, getMetricAdjacentSegmentPair, traverse"]}
{"id": "C80", "title": "Triangulation and partition of every simple polygon", "statement": "triangulate returns triangles that together are the polygon and convexPartition returns a partition, for every simple polygon.", "quantifier": "for every simple polygon with three or more points", "why_tests_cant": "Fails exactly for polygons with edges that are no Delaunay edges; tests use star shapes where all are.", "anchors": ["lanelet2_core/src/PolygonTriangulationGeometry.cpp: triangulateImpl, subdivide, makeVoronoi, toVoronoi, traverse", "lanelet2_core/include/lanelet2_core/geometry/Polygon.h: convexPartition, triangulate"]}
{"id": "C81", "title": "Unknown tags of a map are reported", "statement": "The check for unknown tags gives a warning, with kind and id of the primitive, for exactly the tags whose key begins with none of the known words for the kind of primitive; keys described in the documentation are accepted.", "quantifier": "for every map (points, line strings, lanelets, areas and regulatory elements with any attributes)", "why_tests_cant": "The set of keys is infinite (prefixes), and every kind of primitive has its own table.", "anchors": ["lanelet2_validation/src/validators/CheckTags.cpp: checkKnownTags, UnknownTags, known*Tags", "lanelet2_core/doc/LaneletAndAreaTagging.md", "lanelet2_core/doc/LinestringTagging.md"]}
{"id": "C82", "title": "Unknown values of tags are reported", "statement": "The check for unknown tag values gives a warning for exactly the tags whose value is not one of the allowed values for the key; for subtypes of line strings the allowed values depend on the type.", "quantifier": "for every map with any attributes", "why_tests_cant": "Any string can be a value; the lookup is a binary search in tables that have to be sorted.", "anchors": ["lanelet2_validation/src/validators/CheckTags.cpp: checkKnownTagValues, UnknownTagValue, known*Values"]}
{"id": "C83", "title": "Missing tags and bad truth values are reported", "statement": "The check for mandatory tags gives a warning for exactly the missing ones; the check for bool tags gives one for exactly the tags with a yes/no key whose value is no truth value.", "quantifier": "for every map with any attributes", "why_tests_cant": "Truth values are yes, no, true, false and numbers with any number of leading zeros; keys are any strings with a certain beginning.", "anchors": ["lanelet2_validation/src/validators/CheckTags.cpp: checkMandatoryTags, checkAttribute, MandatoryTags, BoolTags"]}
{"id": "C84", "title": "Points that follow themselves are reported", "statement": "A line string or polygon is reported as an error exactly if a point follows itself in it, once, with the id of the first such point; the boundary of a polygon is closed.", "quantifier": "for all line strings and polygons of any length", "why_tests_cant": "Position and number of the doubled points are arbitrary.", "anchors": ["lanelet2_validation/src/validators/DuplicatedPoints.cpp: hasDuplicates, DuplicatedPointsChecker"]}
{"id": "C85", "title": "Points that are too close are reported", "statement": "A warning is given for a point exactly if another point is less than 5 cm away.", "quantifier": "for every set of points with any coordinates and every correct query for the nearest points", "why_tests_cant": "The query looks at two dimensions and the distance at three; this shows only for particular positions.", "anchors": ["lanelet2_validation/src/validators/PointsTooClose.cpp: PointsTooCloseChecker"]}
{"id": "C86", "title": "Bounds with sharp bends are reported", "statement": "A warning is given for a lanelet exactly for the successive three points of its bounds that lie on a circle with a radius of less than two metres.", "quantifier": "for all lanelets, all bounds of any length and all coordinates", "why_tests_cant": "The curvature is computed from an area and three distances; that this is the circle through the points is an identity over the real numbers.", "anchors": ["lanelet2_validation/src/validators/CurvatureTooBig.cpp: checkCurvature, CurvatureTooBigChecker", "lanelet2_core/include/lanelet2_core/geometry/impl/LineString.h: curvature2d, signedCurvature2d"]}
{"id": "C87", "title": "The filter selects the checks and the report lists what they found", "statement": "The checks that run are exactly the registered ones that a non-empty part of the comma separated filter matches, or all if there is none, each once; the result of validateMap lists exactly the checks that found something, and the report has a line for each error and warning.", "quantifier": "for every filter, every set of checks, every list of traffic rules and every result of the checks", "why_tests_cant": "Filters are arbitrary strings with repeated and empty parts; the number of checks, rules and issues is not bounded.", "anchors": ["lanelet2_validation/src/Validation.cpp: parseFilterString, runValidators, runRoutingGraphValidators, validateMap, buildReport, availabeChecks, DetectedIssues", "lanelet2_validation/src/ValidatorFactory.cpp: matchValidators, availableValidators"]}
{"id": "C88", "title": "Mahalanobis distance between an object and a lanelet", "statement": "getMahalanobisDistSq is the squared angle between the heading of the object and the direction of the centerline beside it, weighted by kappa squared, plus the position term of the inverse covariance; it throws exactly if the determinant of the covariance is below 1e-8. The angle is the one between -180 and 180 degrees; for the two directions of a lanelet the angles add up to 180 degrees.", "quantifier": "for all centerlines without repeated points, all poses and all covariances", "why_tests_cant": "Angles wrap around, and centerlines and covariances are arbitrary real numbers.", "anchors": ["lanelet2_matching/src/Utilities.cpp: getMahalanobisDistSq, normalizeAngleRadians, angleDifference, positiveFloatModulo, yawFromIsometry2d"]}
{"id": "C89", "title": "Matches of an object are the lanelets nearby in both directions, sorted", "statement": "getDeterministicMatches and getProbabilisticMatches return every lanelet within the distance and its inverse, sorted by distance or Mahalanobis distance; isCloseTo holds exactly if a primitive is that close; removeNonRuleCompliantMatches keeps exactly the matches that may be passed, in order.", "quantifier": "for all objects, layers, distances and sorting functions", "why_tests_cant": "Number and order of the lanelets found is arbitrary.", "anchors": ["lanelet2_matching/src/LaneletMatching.cpp: toMatchVector, getProbabilisticMatchesImpl, getDeterministicMatches, getProbabilisticMatches", "lanelet2_matching/include/lanelet2_matching/LaneletMatching.h: isCloseTo, isWithin, removeNonRuleCompliantMatches", "lanelet2_matching/include/lanelet2_matching/Utilities.h: findWithin"]}
{"id": "C90", "title": "Conflicting lanelets in the graphs of a container", "statement": "conflictingInGraph returns exactly the other overlapping lanelets of the graph or refuses the index; conflictingInGraphs has one entry for each graph; conflictingOfRouteInGraph is the union over the lanelets of the route without repetitions.", "quantifier": "for all containers, lanelets, routes and heights", "why_tests_cant": "Graphs and routes are of any size.", "anchors": ["lanelet2_routing/include/lanelet2_routing/RoutingGraphContainer.h: conflictingInGraph, conflictingInGraphs, conflictingOfRouteInGraph, conflictingOfRouteInGraphs"]}
{"id": "C91", "title": "Costs by distance and travel time", "statement": "The approximated length of a lanelet lies between the distance of the ends and the length of its left bound, and is that length below 20 points. The cost of a transition is the mean of both lengths or travel times; a lane change has the fixed cost if the lanelets together are long enough, else infinity; negative costs are refused.", "quantifier": "for all lanelets and areas, all speed limits, all costs and thresholds", "why_tests_cant": "Line strings are of any length and speed limits may be zero, infinite or no number.", "anchors": ["lanelet2_routing/include/lanelet2_routing/RoutingCost.h: RoutingCostDistance, RoutingCostTravelTime", "lanelet2_routing/src/RoutingCost.cpp: speedLimit, travelTime, length", "lanelet2_core/include/lanelet2_core/geometry/impl/Lanelet.h: approximatedLength2d"]}
{"id": "C92", "title": "The enclosing polygon of a path is the sum of the outlines of its primitives", "statement": "getEnclosingPolygon3d of a path of successive lanelets and areas, no primitive of which is left by the side it was entered, is a polygon around which every orientation dependent quantity of the edges (such as the area) sums up to that of the outlines of the primitives. Its points are points of the primitives, no two successive ones the same. It fails exactly if an area is not related to the primitive before or after it.", "quantifier": "for all paths of any length, all lanelets and areas with any number of points, all functions of directed edges", "why_tests_cant": "The polygon is assembled from pieces depending on twelve kinds of transitions in every order; a reversed or doubled piece shows only for certain sequences.", "anchors": ["lanelet2_routing/src/LaneletPath.cpp: getEnclosingPolygon3d, appendTail, appendBounds, appendLaneletBounds, extractBounds, extractExceptBorder, appendLineStrings, getLaneletAdjacency", "lanelet2_core/include/lanelet2_core/geometry/impl/Area.h: determineCommonLine, determineCommonLinePreceding, determineCommonLineFollowing, leftOf, rightOf", "lanelet2_core/include/lanelet2_core/geometry/impl/Lanelet.h: leftOf, rightOf, follows"]}
{"id": "C93", "title": "The remaining lane of a path is its longest piece without lane changes", "statement": "getRemainingLane returns the longest piece of the path from the position on in which every lanelet succeeds the one before.", "quantifier": "for all paths and positions", "why_tests_cant": "Paths are of any length with lane changes at any place.", "anchors": ["lanelet2_routing/src/LaneletPath.cpp: getRemainingLane", "lanelet2_core/include/lanelet2_core/geometry/impl/Lanelet.h: follows"]}
{"id": "C94", "title": "A line string beside another one keeps its distance", "statement": "offsetNoThrow of a line string without doubled points that turns away from the side of the offset (for negative distances by at most a right angle at each corner) runs along each segment at the given distance; every point of the result is between one and the square root of 2 times the distance away from its segment. For every line string without doubled points, no point of the result is further away than the square root of 2 times the distance, and it starts and ends right beside the first and last points.", "quantifier": "for all line strings of any length, all distances of either sign", "why_tests_cant": "The shift of a corner has five cases depending on two angles; the wrong distance shows only for certain signs and angles, and tests compare single examples.", "anchors": ["lanelet2_core/include/lanelet2_core/geometry/impl/LineString.h: makeVincinity, shiftLateral, isConvex, getConvexity, shiftPerpendicular, shiftConvexSharp, shiftPoint, extractConvex, offsetNoThrow"]}
{"id": "C95", "title": "offset returns a line string that is nowhere too near, or throws", "statement": "For a positive distance, the points of the result of offset have at least the given distance (up to 1e-7) to all points of the line string, and GeometryError is thrown exactly if a point of the result of offsetNoThrow does not. Fewer than two points give InvalidInputError. The joined parts lead forward from the first point of the first part to the last point of the last part without crossing themselves, provided that parts meet later parts only, and in their first segment.", "quantifier": "for all line strings, distances, parts, answers of the tree in any order", "why_tests_cant": "The walk along the parts depends on all intersections of all segments, and on the order in which the tree returns them.", "anchors": ["lanelet2_core/include/lanelet2_core/geometry/impl/LineString.h: checkForInversion, joinSubStrings, makeTree, findNextIntersection, offset, offsetNoThrow"]}
{"id": "C96", "title": "removeSelfIntersections returns a line string without self-intersections", "statement": "The result leads from the first to the last point, forward along pieces of the segments, each of a later segment than the one before. If no two segments share more than one point, no segment of the result meets the inside of another one.", "quantifier": "for all line strings of any length, answers of the tree in any order", "why_tests_cant": "Loops may be nested and interleaved in any way, with several intersections on a segment.", "anchors": ["lanelet2_core/include/lanelet2_core/geometry/impl/LineString.h: removeSelfIntersections, findNextIntersection, getLowestSAbove, getIntersections"]}
{"id": "C97", "title": "A map read from a binary file is a copy of the map that was written", "statement": "For every map whose regulatory elements have distinct ids and known subtypes that their constructors accept, and whose parameters that are lanelets and areas are part of the map, BinParser::parse of a file of BinWriter::write gives a map with the same elements in each layer: every object has exactly one copy with the same id, attributes and members, shared objects stay shared, and pointers between lanelets, areas and regulatory elements that refer to each other in circles lead to the copies. Only the subtype of a regulatory element without one is added. The next id is at least the next id of the writer. Writing a map with an expired parameter throws LaneletError.", "quantifier": "for all maps, with any number of objects and any circles of references", "why_tests_cant": "Circles make the reader meet objects that are not yet complete, in an order that depends on where the circle is entered; tests read one map with one circle.", "anchors": ["lanelet2_io/include/lanelet2_io/io_handlers/Serialize.h", "lanelet2_io/src/BinHandler.cpp: BinWriter::write, BinParser::parse", "lanelet2_core/src/RegulatoryElement.cpp: RegulatoryElementFactory::create", "lanelet2_core/src/BasicRegulatoryElements.cpp: constructors"]}
{"id": "C98", "title": "Relations of lanelets and areas agree with the line strings they have in common", "statement": "touches2d and adjacent are true exactly if the polygons have a common edge (up to direction), for polygons that pass no point twice. determineCommonLine of areas, and its variants Preceding, Following, Left, Right, Sideways for a lanelet and an area, return the first line string of the area (or the bound of the lanelet) that closes the front or the rear of the lanelet or runs along the side in question, and none if there is no such line string; leftOf, rightOf and follows agree with them. The direction of the lanelet does not matter for the search in all places, and the order of the arguments does not matter for whether something is found.", "quantifier": "for all lanelets, areas and line strings, of any number of points and bounds", "why_tests_cant": "Whether a line string is found depends on its direction, on the ends of both bounds and on the position in the area; tests try one constellation per function.", "anchors": ["lanelet2_core/include/lanelet2_core/geometry/impl/Area.h", "lanelet2_core/include/lanelet2_core/geometry/impl/Polygon.h: touches2d", "lanelet2_core/include/lanelet2_core/geometry/impl/Lanelet.h: determineCommonLine"]}
{"id": "C99", "title": "Bounding boxes are the smallest boxes around the points", "statement": "boundingBox2d and boundingBox3d of line strings, polygons, lanelets, areas and regulatory elements enclose all their points and have a point on each side; without points they are empty. They do not depend on the order of points or parameters; expired parameters count for nothing, and the box in the plane is the projection of the box in space. contains, intersects, clamp, extend and exteriorDistance of boxes agree with boxes as sets of points, and distance2d of a regulatory element is that of its nearest parameter.", "quantifier": "for all primitives and boxes, coordinates real numbers within the range of the number type", "why_tests_cant": "Wrong results come from empty parts, from expired parameters and from single coordinates outside of the tested positions.", "anchors": ["lanelet2_core/include/lanelet2_core/primitives/BoundingBox.h", "lanelet2_core/include/lanelet2_core/geometry/BoundingBox.h", "lanelet2_core/include/lanelet2_core/geometry/impl/Lanelet.h: boundingBox2d, boundingBox3d", "lanelet2_core/src/RegulatoryElementGeometry.cpp"]}
{"id": "C100", "title": "The approximated length of a lanelet lies between the distance of the ends and the length of the left bound", "statement": "approximatedLength2d never leaves the points of the left bound, returns at least the distance of its ends and at most its length, and exactly the length for fewer than 20 points and for straight bounds of any number of points.", "quantifier": "for all bounds and all distances that satisfy the triangle inequality", "why_tests_cant": "The last step is only taken when the stride does not divide the number of points; the number of cases has no bound.", "anchors": ["lanelet2_core/include/lanelet2_core/geometry/impl/Lanelet.h: approximatedLength2d"]}
{"id": "C101", "title": "Lanelets overlap if they have a surface in common and are not neighbours", "statement": "overlaps2d of two different lanelets that are not side by side or one after the other (in either direction) is true exactly if some surface is inside of both; the test of the bounding boxes before it never changes the result. Neighbours do not overlap. Polygons overlap exactly if they have no common edge and their interiors meet.", "quantifier": "for all lanelets and polygons in the plane", "why_tests_cant": "The shortcut by boxes and by shared bounds is correct or wrong depending on shapes that tests do not enumerate.", "anchors": ["lanelet2_core/include/lanelet2_core/geometry/impl/Lanelet.h: overlaps2d", "lanelet2_core/include/lanelet2_core/geometry/impl/Polygon.h: overlaps2d"]}
{"id": "C102", "title": "Distances of the crossings of two centerlines are lengths along the centerlines", "statement": "intersectCenterlines2d appends to the vector for the first lanelet, in the order of the crossings, the length along its centerline at which each crossing lies. (For the second vector this is refuted.)", "quantifier": "for all centerlines without doubled points and all crossings on them", "why_tests_cant": "The tested crossing lies in the middle of both centerlines, where both lengths agree.", "anchors": ["lanelet2_core/include/lanelet2_core/geometry/impl/Lanelet.h: intersectCenterlines2d"]}
{"id": "C103", "title": "A submap keeps alive what its regulatory elements refer to and becomes a complete map", "statement": "However a LaneletSubmap was built (createSubmap, then any calls of add), its elements have different ids in each layer that are known to the id counter. Every existing lanelet or area that is a parameter of a regulatory element of the submap is kept alive by it. laneletMap() returns a map in which every element of the submap is found under its id, whose references all lead to elements of the map, and which has nothing that is not reached from an element of the submap; the ids stay. This also holds after any lanelets and areas that the submap does not keep alive were destroyed, and the map then still has the parameters of the regulatory elements. LaneletMap::add adds nothing that is not reached from what was added.", "quantifier": "for all heaps of primitives (any graph of references), all sequences of calls and all sets of destroyed objects", "why_tests_cant": "Losing an object depends on who else holds it and on chains of references of any length; tests hold all objects in local variables.", "anchors": ["lanelet2_core/src/LaneletMap.cpp: LaneletSubmap::add, laneletMap, trackParameters, createSubmap", "lanelet2_core/include/lanelet2_core/LaneletMap.h: LaneletSubmap"]}
{"id": "C104", "title": "The debug map of a routing graph shows exactly the relations of the graph", "statement": "RoutingGraph::getDebugLaneletMap throws exactly if the routing cost id is unknown. Otherwise, if lanelets and areas have different ids and at most one relation is shown from one to another, the map has exactly one point per lanelet and area, with its id, and exactly one line string per pair with a shown relation. The attributes of the line string are the relation and costs in its direction and, as reverse attributes, the relation and costs of the edge in the other direction if there is one. Successor, Left, Right and Area are always shown, adjacent and conflicting relations on request.", "quantifier": "for all graphs (any sequence of additions), all cost ids, both flags and every order in which the vertices are visited", "why_tests_cant": "The result depends on the order of an unordered map and on which direction of a pair is met first; tests look at the number of elements of one map.", "anchors": ["lanelet2_routing/src/RoutingGraph.cpp: getDebugLaneletMap, DebugMapBuilder, createLineString, createPoint, allowedRelationsfromConfiguration"]}
{"id": "C105", "title": "The debug map of a route shows the lanelets and relations of the route", "statement": "If the lanelets of a route have different ids and those of the shortest path have relations, Route::getDebugLaneletMap has exactly one point per lanelet with a relation, with its id and lane id, marked exactly if the lanelet is on the shortest path. The line strings between lanelets list the relations in their direction as relation_1, relation_2, ... and those against it as relation_reverse_1, ..., in the order of the edges.", "quantifier": "for all routes, shortest paths and ids", "why_tests_cant": "Tests print the map or count its points; line strings that are lost and lanelets without relations are not looked at.", "anchors": ["lanelet2_routing/src/Route.cpp: getDebugLaneletMap, addRelation, createAndAddPoint", "lanelet2_core/src/LaneletMap.cpp: createMap, add"]}
{"id": "C106", "title": "A map is read and written by the handler of the file extension or name, and its messages reach the caller", "statement": "load and write use the parser or writer that was registered last for the extension of the file (the part of the file name from its last dot on, never empty) or for the given name. load throws FileNotFoundError if there is no such file, then UnsupportedExtensionError or UnsupportedIOHandlerError if there is no such handler; in these cases nothing is changed. Otherwise exceptions of the handler reach the caller and leave the error pointer alone; if it returns, its messages are assigned to the error pointer without throwing, or, without a pointer, thrown as ParseError or WriteError exactly if there are any. The supported parsers, writers and extensions are listed sorted and complete.", "quantifier": "for all paths, registrations in any order, handlers, files, projectors and error pointers", "why_tests_cant": "Tests load a few files with the two built-in handlers; registration order, odd paths and combinations of pointer and exception are not enumerated.", "anchors": ["lanelet2_io/src/Io.cpp: load, write, extension, handleErrorsOrThrow", "lanelet2_io/src/Factory.cpp: ParserFactory, WriterFactory"]}
{"id": "C107", "title": "A map that is written to a file and loaded from it comes back, and its ids are known afterwards", "statement": "Writing a well-formed map by file name to an .osm or .bin file changes no other file, has no messages, and loading the file later in any process gives the same map without messages. After an .osm file has been loaded the id counter is beyond every id of a node, way or relation of the file that is not deleted and not raised further than necessary, and all elements of the loaded map have such ids. The messages are exactly the problems found while reading the document and while loading its elements.", "quantifier": "for all maps, documents, file systems, names with these extensions, projectors and configurations", "why_tests_cant": "Round trips are tested for single maps and one file at a time; the registration of ids and the loss of messages depend on the state of the process.", "anchors": ["lanelet2_io/src/OsmHandlerLoad.cpp: OsmParser::parse, registerIds, testAndPrintLocaleWarning", "lanelet2_io/src/OsmHandlerWrite.cpp: OsmWriter::write, buildErrorMessage", "lanelet2_io/src/BinHandler.cpp: BinParser::parse, BinWriter::write", "lanelet2_io/include/lanelet2_io/io_handlers/IoHandler.h: projector"]}
{"id": "C108", "title": "Aligned bounds have the direction in which the lane lies between them", "statement": "geometry::align returns the given line strings, each as it is or inverted, and never fails. If the middle of the right one is on the right of the left one and the middle of the left one is on the left of the right one for one choice of the directions, then exactly this choice is returned, in whatever directions the line strings are given.", "quantifier": "for all pairs of line strings, including empty ones and single points, and all spatial indices", "why_tests_cant": "Tests align two straight line strings; whether the result depends on the given directions, the number of points or the shape is not visible there.", "anchors": ["lanelet2_core/include/lanelet2_core/geometry/impl/LineString.h: align", "lanelet2_core/include/lanelet2_core/geometry/LineString.h: align"]}
{"id": "C109", "title": "Paths, reachable sets and routes are the cheapest ways through the map", "statement": "The shortest path between two lanelets in the routing graph of a map, without lane changes, is a way through the map itself: each lanelet begins where the one before ends, the traffic rules allow to use both and to pass from one to the other, no lanelet occurs twice, and no other such way is cheaper; there is no path only if no such way has a finite cost. The reachable set are the lanelets to which such a way leads within the budget. A route contains a cheapest way and only lanelets to which one can drive. With lane changes, a path exists if and only if one can get to the goal by driving on and changing lanes, and each of its steps is one of both.", "quantifier": "for all maps, traffic rules, cost modules, pairs of lanelets, orders of hash maps and of equal entries of the priority queue", "why_tests_cant": "Tests look at the graph and at the search separately, and on one map; that the composition neither loses nor invents ways for any map cannot be observed.", "anchors": ["lanelet2_routing/src/RoutingGraphBuilder.cpp: RoutingGraphBuilder::build", "lanelet2_routing/src/RoutingGraph.cpp: RoutingGraph::shortestPath", "lanelet2_routing/src/RoutingGraph.cpp: RoutingGraph::reachableSet", "lanelet2_routing/src/RoutingGraph.cpp: RoutingGraph::getRoute"]}
{"id": "C110", "title": "Ids of members and parameters of regulatory elements are found where they are", "statement": "utils::has finds an id in a line string, polygon, compound, lanelet, sequence, area or regulatory element if and only if it is the id of one of the members that the comments list: points of line strings; points of the bounds and regulatory elements of lanelets and areas; parameters of regulatory elements that still exist and their members. findUsages by id returns exactly the primitives of the layer that have such a member, each once. find returns the first parameter of the kind and id by the order of roles, and nothing if none exists any more; getParameters the existing parameters of a role and kind in their order; addParameter appends to a role and leaves others as they are. The factory returns an element of the named rule with this rule as its subtype exactly if the rule is registered and accepts the data.", "quantifier": "for all primitives, ids, maps of parameters (also with expired references), layers and registries", "why_tests_cant": "Tests look up a few ids in one regulatory element; that nothing is missed or invented for any nesting of primitives cannot be enumerated.", "anchors": ["lanelet2_core/src/RegulatoryElement.cpp: utils::has", "lanelet2_core/src/Lanelet.cpp: has", "lanelet2_core/include/lanelet2_core/primitives/Area.h: has", "lanelet2_core/include/lanelet2_core/primitives/RegulatoryElement.h: RegulatoryElement::find", "lanelet2_core/src/RegulatoryElement.cpp: RegulatoryElementFactory::create", "lanelet2_core/src/LaneletMap.cpp: findUsages"]}
{"id": "C111", "title": "Following and previous relations always name how one gets there", "statement": "On the graph of any map, followingRelations and previousRelations return exactly the lanelets of following and previous, in the same order, each with the relation of an edge between the two under the first cost module. No empty Optional is dereferenced, no assertion fails and no lanelet is left out, although routingRelation looks only at the first edge between two vertices regardless of its cost module. The relation is the way one gets there: Successor only if the one continues the other and passing is allowed, Left or Right only if lane changes are asked for and possible on that side.", "quantifier": "for all maps, traffic rules, non-empty lists of cost modules, lanelets of the graph and both settings of lane changes and assertions", "why_tests_cant": "The dereference is safe only because of the order in which the builder inserts edges over all modules; tests have one or two modules with finite costs everywhere.", "anchors": ["lanelet2_routing/src/RoutingGraph.cpp: RoutingGraph::followingRelations", "lanelet2_routing/src/RoutingGraph.cpp: RoutingGraph::previousRelations", "lanelet2_routing/src/RoutingGraph.cpp: RoutingGraph::routingRelation", "lanelet2_routing/src/RoutingGraphBuilder.cpp: RoutingGraphBuilder::addFollowingEdges"]}
{"id": "C112", "title": "The exit code and the output of the validation program agree with what was found", "statement": "If lanelet2_validate ends by itself, its exit code is 0 or 1, and it is 0 exactly if only help or a list of checks was asked for, or the file was read without errors and no check selected by the filter finds anything for the map, the rules of the participants and their routing graphs. It prints one line for each error and each warning and at the end their number; this number is 0 exactly if the exit code is 0. On every map that can be read it ends by itself.", "quantifier": "for all configurations, files, registered checks, filters and participants; with the checks of the repository for all maps", "why_tests_cant": "The program is only tried on one map; whether code, number and lines agree for every set of findings and whether a bad map can stop the program needs the loader, rules, graph builder and checks together.", "anchors": ["lanelet2_validation/src/Cli.cpp: runFromConfig", "lanelet2_validation/src/Cli.cpp: printAllIssues", "lanelet2_validation/src/Validation.cpp: validateMap", "lanelet2_validation/src/validators/RoutingGraphIsValid.cpp: RoutingGraphIsValid::operator()"]}
{"id": "C113", "title": "With lane changes at a fixed price, shortest paths, reachable sets and routes are the cheapest trips through the map", "statement": "On a map on which each lanelet has at most one neighbour on each side, and with a cost module that asks the same price for every lane change (as the modules of defaultRoutingCosts), shortestPath with lane changes returns a trip (each step goes on to the next lanelet or changes to the one beside it) of least total cost and none only if no trip has a finite cost; shortestPathVia does so between each two consecutive points; reachableSet and reachableSetTowards return exactly the lanelets to and from which a trip within the budget leads; getRoute returns a route that contains a cheapest trip and only lanelets that can be driven to.", "quantifier": "for all maps, traffic rules, sums of costs, start, goal and intermediate lanelets and budgets; for the paths and sets all tie-breaks", "why_tests_cant": "The tests query hand-made maps. That the answers of a search in a derived graph are the optimum over all trips of the map, of unbounded length and number, cannot be tested, and the map on which a route has undefined behaviour only follows from how the parts interact.", "anchors": ["lanelet2_routing/src/RoutingGraph.cpp: RoutingGraph::shortestPath", "lanelet2_routing/src/RoutingGraph.cpp: RoutingGraph::getRoute", "lanelet2_routing/src/RoutingGraphBuilder.cpp: RoutingGraphBuilder::addSidewayEdge", "lanelet2_routing/include/lanelet2_routing/RoutingCost.h: RoutingCostDistance::getCostLaneChange", "lanelet2_routing/src/RouteBuilder.cpp: PathsOutOfRouteFinder::forEachVertexOutOfRoute"]}
{"id": "C114", "title": "From Python, line strings and polygons behave like lists", "statement": "ls[i], ls[i] = p, del ls[i], ls.append(p) and list(ls) on a line string or polygon, and on its inverted view, do what they do on a Python list of its points: the same point, the same contents afterwards, an IndexError for the same indices (negative ones count from the end), for whole programs and never with undefined behaviour.", "quantifier": "for all line strings, both directions, all int64 indices, all capacities of the vector and all programs of these statements", "why_tests_cant": "The tests index a line string of a few points. The points returned by ls[i] are pointers into a vector, and only in combination with a later change of the line string, and for some capacities only, do they name another point or memory that is gone.", "anchors": ["lanelet2_python/include/lanelet2_python/internal/converter.h: wrappers::getItem", "lanelet2_python/include/lanelet2_python/internal/converter.h: wrappers::delItem", "lanelet2_python/python_api/core.cpp: IsLineString::visit", "lanelet2_core/include/lanelet2_core/primitives/LineString.h: LineStringImpl::erase"]}
{"id": "C115", "title": "The submaps of a routing graph and of a route show exactly its lanelets and areas", "statement": "passableSubmap() of a routing graph contains all lanelets and areas of the graph and nothing else, laneletSubmap() of a route all lanelets of the route and nothing else: each is found under its id and by iteration, once.", "quantifier": "for all maps, traffic rules, cost modules and routes, with and without lane changes", "why_tests_cant": "The layers are keyed by ids, the graphs by lanelets with their direction. The tests look up lanelets that are used in one direction.", "anchors": ["lanelet2_routing/include/lanelet2_routing/RoutingGraph.h: RoutingGraph::passableSubmap", "lanelet2_routing/include/lanelet2_routing/Route.h: Route::laneletSubmap", "lanelet2_routing/src/RoutingGraphBuilder.cpp: RoutingGraphBuilder::build", "lanelet2_routing/src/RouteBuilder.cpp: finalizeRoute", "lanelet2_core/src/LaneletMap.cpp: createConstSubmap"]}
{"id": "C116", "title": "The script for positive ids replaces negative ids consistently and nothing else", "statement": "make_ids_positive.py writes a file that loads to the map of its input, except that every element with a negative id has a new id, different from all others, in every place where it is referred to; ids that are not negative are kept, and no id is negative afterwards. With -i the input is replaced by this file.", "quantifier": "for all files that can be loaded and written, all iteration orders of the layers, with and without -i", "why_tests_cant": "The script has no tests. Whether references follow depends on the sharing of data between all handles of six layers, on the counter having been told about all ids, and on the writer reading ids from elements instead of layers.", "anchors": ["lanelet2_python/scripts/make_ids_positive.py: make_positive", "lanelet2_core/src/LaneletMap.cpp: PrimitiveLayer::uniqueId", "lanelet2_python/python_api/core.cpp: IsPrimitive", "lanelet2_io/src/OsmHandlerLoad.cpp: OsmParser::parse", "lanelet2_io/src/OsmHandlerWrite.cpp: OsmWriter::write"]}
{"id": "C117", "title": "Exported graph files contain the graph", "statement": "exportGraphViz writes a DOT file from which all vertices with their ids and exactly the edges of the chosen cost module whose relation is not excluded can be read, with relation, colour, module and cost; exportGraphML writes a document from which the same edges and every lanelet and area with direction and bounds can be read. Without a file name, with a module that does not exist or if the file cannot be opened, the documented error is thrown and nothing is written. The DOT file bears at least the information of the GraphML document.", "quantifier": "for all routing graphs, file names, excluded relations, cost modules and all ways to print a cost without quotation marks", "why_tests_cant": "The tests only check that the export throws or does not throw; no test reads an exported file.", "anchors": ["lanelet2_routing/src/RoutingGraph.cpp: RoutingGraph::exportGraphViz, exportGraphML", "lanelet2_routing/include/lanelet2_routing/internal/RoutingGraphVisualization.h: VertexWriterGraphViz, EdgeWriterGraphViz, exportGraphVizImpl, exportGraphMLImpl", "lanelet2_routing/include/lanelet2_routing/Forward.h: relationToString, relationToColor", "lanelet2_core/src/Lanelet.cpp: operator<<", "lanelet2_core/include/lanelet2_core/primitives/Area.h: operator<<"]}
{"id": "C118", "title": "The elliptical Mercator projection is invertible, keeps angles and converges", "statement": "projection::Mercator projects every position forward and every point backward; going there and back changes longitude and height not at all and the latitude by less than 1e-9 degrees, back and there changes the point by less than a tenth of a millimetre; the iteration of the reverse projection ends by its tolerance, not by its limit of 15 rounds; the origin is projected to zero; the projection keeps angles on the ellipsoid and, close to the origin, lengths.", "quantifier": "for all origins, positions and points, over exact real numbers", "why_tests_cant": "The tests check the origin and one position there and back. Convergence for all inputs, the bound of the error and conformality are analytic facts (a contraction and derivatives).", "anchors": ["lanelet2_projection/include/lanelet2_projection/Mercator.h: Mercator::rawForward, rawReverse, forward, reverse"]}
{"id": "C119", "title": "The geocentric and local Cartesian projectors are true to the ellipsoid and keep distances", "statement": "GeocentricProjector::forward gives the point at the height of the position over the WGS84 ellipsoid, where the outer normal points to the latitude and longitude; LocalCartesianProjector keeps all distances in space, sends its origin to zero, what is above the origin to the third axis, east to the first and north to the second axis with their true lengths; there and back and back and there are exact where GeographicLib's are; both are defined exactly for latitudes between the poles.", "quantifier": "for all origins and positions, over exact real numbers", "why_tests_cant": "Neither projector has more than a handful of numbers tested; that distances are kept for all positions and that the axes point east and north for every origin are facts of geometry and derivatives.", "anchors": ["lanelet2_projection/src/Geocentric.cpp: GeocentricProjector::forward, reverse", "lanelet2_projection/src/LocalCartesian.cpp: LocalCartesianProjector::forward, reverse", "lanelet2_projection/include/lanelet2_projection/Geocentric.h: GeocentricProjector"]}
{"id": "C120", "title": "The tests for intersection in 3d tell whether lines and lanelets meet within the height tolerance", "statement": "geometry::intersects3d of two line strings is true exactly if they cross when seen from above and their heights at a crossing differ by less than the tolerance; intersects3d and overlaps3d of lanelets are true only if the lanelets meet in the plane, compare the heights where the centerlines meet, and miss no place where the centerlines meet within the tolerance.", "quantifier": "for all line strings in space, centerlines and tolerances, over exact numbers", "why_tests_cant": "The tests use lines at the height zero and a bridge straight above them; that the answer depends on the slope, on the height of the whole map and on other places of the centerlines needs all positions.", "anchors": ["lanelet2_core/include/lanelet2_core/geometry/impl/LineString.h: intersects3d", "lanelet2_core/include/lanelet2_core/geometry/impl/Lanelet.h: intersects3d, overlaps3d"]}
{"id": "C121", "title": "In Python the text of a primitive is an expression that gives the primitive back", "statement": "For points, line strings, polygons, lanelets, areas, regulatory elements and attribute maps, repr returns a text that is a Python expression; evaluating it with the constructors of the module returns a primitive with the same ids, attributes, points in the same order and regulatory elements, whatever the attributes contain.", "quantifier": "for all primitives with finite coordinates, all attributes, all ways to write numbers and strings that can be read back", "why_tests_cant": "The test evaluates the text of one lanelet with one attribute, points at zero and no regulatory elements; quoting, nesting and left out arguments depend on the content of all parts.", "anchors": ["lanelet2_python/include/lanelet2_python/internal/repr.h: makeRepr, formatHelper", "lanelet2_python/python_api/core.cpp: makeLaneletRepr, makeAreaRepr, repr", "lanelet2_python/test/test_lanelet2.py: test_lanelet_repr"]}
{"id": "C122", "title": "A call from Python by keywords means what the declared signature says", "statement": "For every function, method and constructor of the Python modules that is bound with keyword arguments, a call is accepted exactly if it is legal for the signature in typings/lanelet2, and then every C++ parameter gets the value that Python's rules for calls give to the parameter of that name: by position, by keyword or by default.", "quantifier": "for all calls: any number of positional values, any keywords, all values", "why_tests_cant": "Tests call with a few positional arguments; which name reaches which parameter is decided at run time by the number of keywords relative to the arity, and no type checker sees the bindings.", "anchors": ["lanelet2_python/python_api/routing.cpp: RoutingGraph, possiblePaths", "lanelet2_python/python_api/io.cpp: Origin, loadRobust", "lanelet2_python/python_api/traffic_rules.cpp: SpeedLimitInformation", "lanelet2_python/python_api/geometry.cpp: intersects3d", "lanelet2_python/typings/lanelet2"]}
{"id": "C123", "title": "What is read from a point is what was written last, and reading is possible from several threads", "statement": "All handles of a point (ConstPoint2d, ConstPoint3d, Point2d, Point3d) share one set of coordinates: whatever is read through any of them, as single coordinates, as 2D or 3D basic point or through a reference, is what was written last through any of them. Operations on const points only read: threads that only use const operations do not race.", "quantifier": "for all sequences of assignments and reads with all doubles; for any number of threads with all programs of reads, in all interleavings of their accesses to memory", "why_tests_cant": "The copy of x and y is renewed lazily within a const function; a test in one thread that reads by value sees correct coordinates, a race shows only under an unlucky schedule.", "anchors": ["lanelet2_core/include/lanelet2_core/primitives/Point.h: PointData::point2d, ConstPoint2d, ConstPoint3d, Point2d, Point3d"]}
{"id": "C124", "title": "Objects and matches from Python are those of C++", "statement": "An object made in Python has the members given and otherwise those that a new object has in C++, so that matching it gives what it gives in C++; its members can be assigned. removeNonRuleCompliantMatches, called from Python with a list of matches, returns exactly the matches on lanelets that can be passed, in their order, with all they hold, and raises for anything else.", "quantifier": "for all lists of matches of either class or both and other values, all traffic rules and None, all combinations of constructor arguments given or left out", "why_tests_cant": "Tests match one object with a covariance given and filter lists of one class; a default argument that was never initialised often holds zeros by chance.", "anchors": ["lanelet2_python/python_api/matching.cpp: ruleCheckWrapper, ObjectWithCovariance2d, Object2d.absoluteHull", "lanelet2_matching/include/lanelet2_matching/Types.h", "lanelet2_matching/include/lanelet2_matching/LaneletMatching.h: removeNonRuleCompliantMatches", "lanelet2_matching/src/Utilities.cpp: getMahalanobisDistSq"]}
{"id": "C125", "title": "The Python scripts tell the ids of a map and write the debug map of a participant", "statement": "print_ids.py prints all ids of every layer in increasing order, independent of the order in which the layers list their elements; with --has-id it tells a layer that has the id, or that the map has no such id. create_debug_routing_graph.py writes the debug map of the graph for the participant given, which is one of those in its help and a vehicle by default.", "quantifier": "for all maps, all ids and all values of the options", "why_tests_cant": "The scripts have no tests; the branch for an id that is missing, the id 0, and the participant train are reached by particular arguments only.", "anchors": ["lanelet2_python/scripts/print_ids.py", "lanelet2_python/scripts/create_debug_routing_graph.py", "lanelet2_traffic_rules/src/TrafficRulesFactory.cpp: TrafficRulesFactory::create"]}
{"id": "C126", "title": "Attributes in Python behave like a dictionary of strings", "statement": "Attributes given as a dictionary, made by AttributeMap(d), or assigned one by one are read like a Python dictionary that was filled in the same way: every string comes back as it was stored last, a missing key raises a KeyError, and what cannot be stored or read raises an exception.", "quantifier": "for all strings of Python (all sequences of code points) as keys and values, all dictionaries and all sequences of assignments, all byte strings stored by C++", "why_tests_cant": "Tests use short ASCII values; encodings of one to four bytes, NUL characters, surrogates and bytes that are no UTF-8 each take another path through the converters.", "anchors": ["lanelet2_python/python_api/core.cpp: AttributeFromPythonStr, AttributeToPythonStr, DictToAttributeMapConverter, MapItem::init, IsHybridMap"]}
{"id": "C127", "title": "Converting between two and three dimensions and measuring distances in Python", "statement": "to2D and to3D of the geometry module give the same data in the other dimension with the same right to write it, or hand back what they do not know; distance gives the distance of its two arguments for every pair of classes it accepts, in either order, and never mixes dimensions; intersects2d tells for two of a kind whether they intersect above the ground.", "quantifier": "for all objects of the 29 geometric classes and of any other class, all data and numbers, and every symmetric distance of geometries", "why_tests_cant": "There are 900 pairs of classes, 59 definitions that are tried from the last to the first, and classes derived from one another; tests look at a handful.", "anchors": ["lanelet2_python/python_api/geometry.cpp: to2D, to3D, distance, intersects2d", "lanelet2_python/python_api/core.cpp: class_, bases, implicitly_convertible", "lanelet2_core/include/lanelet2_core/primitives/Traits.h: to2D, to3D"]}
{"id": "C128", "title": "Routing costs written in Python count like those in C++", "statement": "A graph built with routing costs whose classes are written in Python, or derived from the two classes of the library, has the edges that the same costs in C++ give: the numbers of the methods of the derived class where it has one, of the base class otherwise, for each cost id; an error in a method reaches the caller as an exception.", "quantifier": "for all lists of costs in Python and C++, all methods (any answer, an exception or no method at all), all sequences of edges, all numbers", "why_tests_cant": "Only the tutorial has such a class, a constant one, and no test; methods that raise, are missing or give no number end the test process itself.", "anchors": ["lanelet2_python/python_api/routing.cpp: RoutingCostBaseWrapper, RoutingCostWrapper", "lanelet2_routing/src/RoutingGraphBuilder.cpp: assignCosts, assignLaneChangeCosts", "lanelet2_routing/include/lanelet2_routing/internal/Graph.h: addEdge", "lanelet2_routing/include/lanelet2_routing/RoutingCost.h"]}
{"id": "C129", "title": "Objects passed between Python and C++ keep their value", "statement": "A Python object given for a vector, an Optional or a pair becomes exactly the C++ value it stands for (the items of any iterable in their order, None as an empty Optional, a tuple of two as a pair) or raises, and a C++ value handed to Python and back is unchanged; an overloaded function takes the arguments whenever one of its definitions does; a lanelet with a stop line can be made from a lanelet and a stop line, None or nothing.", "quantifier": "for all Python objects (any items, iterators that raise, nested in any way), all types built of vectors, Optionals and pairs, all lists of overloads and arguments", "why_tests_cant": "The tests pass lists of the right class to a few functions; nested types, wrong items, overloads in every order and each registered converter are not covered, and ConstLaneletWithStopLine is never made.", "anchors": ["lanelet2_python/include/lanelet2_python/internal/converter.h: IterableConverter, ToOptionalConverter, VectorToList, OptionalToObject, PythonToPairConverter", "lanelet2_python/python_api/geometry.cpp: distancePointToLss", "lanelet2_python/python_api/core.cpp: LaneletWithStopLine, ConstLaneletWithStopLine"]}
