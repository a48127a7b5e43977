(** What a call means in Python: the rules for a function [def f(p0, p1 = d1, ...)] (Python language reference,
    "Calls"), and the signatures that lanelet2_python/typings/lanelet2/*.pyi declare. *)
From Coq Require Import String List Arith.
From Verif Require Import PyCallModel.
Import ListNotations.
Open Scope string_scope.

Section Python.
Context {V : Type}.

(** A parameter of a declared function with its value if it has one; [self] is the first parameter of a method. *)
Definition signature := list (string * option V).

(** Parameter [i] of the declaration gets [s]. *)
Definition gets (sig : signature) (pos : list V) (kws : list (string * V)) (i : nat) (s : V) : Prop :=
  exists name default, nth_error sig i = Some (name, default) /\
    ((i < length pos /\ nth_error pos i = Some s) \/
     (length pos <= i /\ In (name, s) kws) \/
     (length pos <= i /\ (forall v, ~ In (name, v) kws) /\ default = Some s)).

(** The call is legal and the parameters get the values [slots]: not more values than parameters, every keyword names
    a parameter that has not got a value by its position, and every parameter gets a value. *)
Definition python_call (sig : signature) (pos : list V) (kws : list (string * V)) (slots : list V) : Prop :=
  length pos <= length sig /\
  length slots = length sig /\
  (forall i s, nth_error slots i = Some s -> gets sig pos kws i s) /\
  (forall k v, In (k, v) kws -> exists i default, length pos <= i /\ nth_error sig i = Some (k, default)).

(** A declaration [front ++ ...] tells the same as a binding: the parameters after [front] are the keywords. *)
Definition tells (sig : signature) (front : nat) (b : binding V) : Prop :=
  b_arity b = length sig /\
  skipn front sig = map (fun k => (kw_name k, kw_default k)) (b_keywords b) /\
  NoDup (map fst sig).
End Python.
Arguments signature : clear implicits.

Notation need n := ((n, None) : string * option pyval).
Notation may n v := ((n, Some v) : string * option pyval).
Notation self := (need "self").

(** typings/lanelet2/routing.pyi:40, 52, 64, 146. *)
Definition d_cost_distance := [self; need "laneChangeCost"; may "minLaneChangeDistance" (Num 0)].
Definition d_cost_time := [self; need "laneChangeCost"; may "minLaneChangeTime" (Num 0)].
Definition d_lanelet_path := [self; need "lanelets"].
Definition d_possible_paths_params :=
  [self; may "routingCostLimit" NoneV; may "elementLimit" NoneV; may "routingCostId" (Num 0);
   may "includeLaneChanges" (Bool false); may "includeShorterPaths" (Bool false)].
(** routing.pyi:185: RoutingGraph. *)
Definition d_routing_graph := [self; need "lanelet_map"; need "traffic_rules"; may "routing_costs" NoneV].
(** routing.pyi:193, 199, 205, 211, 217. *)
Definition d_get_route := [self; need "from_"; need "to"; may "routingCostId" (Num 0); may "withLaneChanges" (Bool true)].
Definition d_get_route_via :=
  [self; need "from_"; need "via"; need "to"; may "routingCostId" (Num 0); may "withLaneChanges" (Bool true)].
Definition d_shortest_path_with_via :=
  [self; need "start"; need "via"; need "end"; may "routingCostId" (Num 0); may "withLaneChanges" (Bool true)].
Definition d_routing_relation := [self; need "from_"; need "to"; may "includeConflicting" (Bool false)].
(** routing.pyi:223-241 and 247-307. *)
Definition d_llt_and_lc := [self; need "lanelet"; may "withLaneChanges" (Bool false)].
Definition d_llt_and_routing_cost := [self; need "lanelet"; may "routingCostId" (Num 0)].
(** routing.pyi:313, 321, 327. *)
Definition d_conflicting := [self; need "lanelet"].
Definition d_reachable_set :=
  [self; need "lanelet"; need "maxRoutingCost"; may "routingCostId" (Num 0); may "allowLaneChanges" (Bool true)].
(** routing.pyi:334, 348 and 341, 355 and 361, 367. *)
Definition d_possible_paths :=
  [self; need "lanelet"; need "minRoutingCost"; may "routingCostId" (Num 0); may "allowLaneChanges" (Bool false)].
Definition d_possible_paths_param := [self; need "lanelet"; need "parameters"].
Definition d_possible_paths_min_len :=
  [self; need "lanelet"; need "minLanelets"; may "allowLaneChanges" (Bool false); may "routingCostId" (Num 0)].
(** routing.pyi:373-395, 417, 429, 555-565. *)
Definition d_for_each :=
  [self; need "lanelet"; need "func"; may "allowLaneChanges" (Bool true); may "routingCostId" (Num 0)].
Definition d_debug_map :=
  [self; may "routingCostId" (Num 0); may "include_adjacent" (Bool false); may "includeConflicting" (Bool false)].
Definition d_check_validity := [self; may "throw_on_error" (Bool true)].
Definition d_route_for_each := [self; need "lanelet"; need "func"].
(** io.pyi:15-16, 27, 42, 56, 74, 91, 106. *)
Definition d_origin := [self; may "lat" (Num 0); may "lon" (Num 0); may "alt" (Num 0)].
Definition d_load_projector := [need "filename"; may "projector" (Obj "DefaultProjector()")].
Definition d_load_origin := [need "filename"; need "origin"].
Definition d_load_robust := [need "filename"; may "projector" (Obj "DefaultProjector()")].
Definition d_write_projector := [need "filename"; need "map"; need "projector"; may "params" NoneV].
Definition d_write_origin := [need "filename"; need "map"; need "origin"; may "params" NoneV].
(** traffic_rules.pyi:10, 152. *)
Definition d_speed_limit := [self; need "speedLimitMPS"; may "isMandatory" (Bool true)].
Definition d_create_rules := [need "location"; need "participant"].
(** geometry.pyi:737, 757, 796, 885-. *)
Definition d_find_within := [need "layer"; need "geometry"; may "maxDist" (Num 0)].
Definition d_intersects3d_lines := [need "ls1"; need "ls2"; may "heightTolerance" (Num 3)].
Definition d_intersects3d_lanelets := [need "lanelet1"; need "lanelet2"; may "heightTolerance" (Num 3)].
Definition d_overlaps3d := [need "llt1"; need "llt2"; may "heightTolerance" (Num 3)].
(** matching.pyi:12, 30, 46. *)
Definition d_pose2d := [self; may "x" (Num 0); may "y" (Num 0); may "yaw" (Num 0)].
Definition d_object2d := [self; may "object_id" (Num 0); may "pose" (Obj "Pose2d()"); may "absoluteHull" (Obj "[]")].
Definition d_covariance2d := [self; may "varX" (Num 0); may "varY" (Num 0); may "covXY" (Num 0)].
(** core.pyi:29, 44, 62, 98, 513, 563, 574, 612, 635, 661, 697, 725, 746, 826-. *)
Definition d_basic_point2d := [self; may "x" (Num 0); may "y" (Num 0)].
Definition d_basic_point3d := [self; may "x" (Num 0); may "y" (Num 0); may "z" (Num 0)].
Definition d_bounding_box := [self; need "min"; need "max"].
Definition d_point2d := [self; need "id"; need "x"; need "y"; may "z" (Num 0); may "attributes" (Obj "AttributeMap()")].
Definition d_lanelet :=
  [self; need "id"; need "leftBound"; need "rightBound"; may "attributes" (Obj "AttributeMap()"); may "regelems" (Obj "[]")].
Definition d_with_stop_line := [self; need "lanelet"; may "stopLine" NoneV].
Definition d_area :=
  [self; need "id"; need "outerBound"; may "innerBounds" (Obj "[]"); may "attributes" (Obj "AttributeMap()");
   may "regulatoryElements" (Obj "[]")].
Definition d_gps_point := [self; may "lat" (Num 0); may "lon" (Num 0); may "ele" (Num 0)].
Definition d_traffic_light := [self; need "id"; need "attributes"; need "trafficLights"; may "stopLine" NoneV].
Definition d_right_of_way :=
  [self; need "id"; need "attributes"; need "rightOfWayLanelets"; need "yieldLanelets"; may "stopLine" NoneV].
Definition d_all_way_stop := [self; need "id"; need "attributes"; need "lltsWithStop"; may "signs" (Obj "[]")].
Definition d_layer_id := [self; need "id"].
Definition d_layer_search := [self; need "boundingBox"].

(** The bindings whose declaration says the same, with the number of parameters in front of the keywords (1 for a
    method or a constructor, 0 for a function of the module). *)
Definition declared : list (string * (nat * binding pyval * signature pyval)) :=
  [("RoutingCostDistance", (1, cost_distance, d_cost_distance));
   ("RoutingCostTravelTime", (1, cost_time, d_cost_time));
   ("LaneletPath", (1, lanelet_path, d_lanelet_path));
   ("PossiblePathsParams", (1, possible_paths_params, d_possible_paths_params));
   ("RoutingGraph.shortestPathWithVia", (1, shortest_path_with_via, d_shortest_path_with_via));
   ("RoutingGraph.following", (1, llt_and_lc, d_llt_and_lc));
   ("RoutingGraph.followingRelations", (1, llt_and_lc, d_llt_and_lc));
   ("RoutingGraph.previous", (1, llt_and_lc, d_llt_and_lc));
   ("RoutingGraph.previousRelations", (1, llt_and_lc, d_llt_and_lc));
   ("RoutingGraph.besides", (1, llt_and_routing_cost, d_llt_and_routing_cost));
   ("RoutingGraph.left", (1, llt_and_routing_cost, d_llt_and_routing_cost));
   ("RoutingGraph.right", (1, llt_and_routing_cost, d_llt_and_routing_cost));
   ("RoutingGraph.adjacentLeft", (1, llt_and_routing_cost, d_llt_and_routing_cost));
   ("RoutingGraph.adjacentRight", (1, llt_and_routing_cost, d_llt_and_routing_cost));
   ("RoutingGraph.lefts", (1, llt_and_routing_cost, d_llt_and_routing_cost));
   ("RoutingGraph.rights", (1, llt_and_routing_cost, d_llt_and_routing_cost));
   ("RoutingGraph.adjacentLefts", (1, llt_and_routing_cost, d_llt_and_routing_cost));
   ("RoutingGraph.adjacentRights", (1, llt_and_routing_cost, d_llt_and_routing_cost));
   ("RoutingGraph.leftRelations", (1, llt_and_routing_cost, d_llt_and_routing_cost));
   ("RoutingGraph.rightRelations", (1, llt_and_routing_cost, d_llt_and_routing_cost));
   ("RoutingGraph.conflicting", (1, conflicting, d_conflicting));
   ("RoutingGraph.possiblePaths(parameters)", (1, possible_paths_param, d_possible_paths_param));
   ("RoutingGraph.possiblePathsTowards(parameters)", (1, possible_paths_param, d_possible_paths_param));
   ("RoutingGraph.possiblePathsMinLen", (1, possible_paths_min_len, d_possible_paths_min_len));
   ("RoutingGraph.possiblePathsTowardsMinLen", (1, possible_paths_min_len, d_possible_paths_min_len));
   ("RoutingGraph.forEachSuccessor", (1, for_each, d_for_each));
   ("RoutingGraph.forEachSuccessorIncludingAreas", (1, for_each, d_for_each));
   ("RoutingGraph.forEachPredecessor", (1, for_each, d_for_each));
   ("RoutingGraph.forEachPredecessorIncludingAreas", (1, for_each, d_for_each));
   ("Route.forEachSuccessor", (1, route_for_each, d_route_for_each));
   ("Route.forEachPredecessor", (1, route_for_each, d_route_for_each));
   ("load(projector)", (0, load_projector, d_load_projector));
   ("load(origin)", (0, load_origin, d_load_origin));
   ("write(projector)", (0, write_projector, d_write_projector));
   ("write(origin)", (0, write_origin, d_write_origin));
   ("writeRobust", (0, write_projector, d_write_projector));
   ("traffic_rules.create", (0, create_rules, d_create_rules));
   ("findWithin2d", (0, find_within, d_find_within));
   ("findWithin3d", (0, find_within, d_find_within));
   ("intersects3d(lanelets)", (0, intersects3d_lanelets, d_intersects3d_lanelets));
   ("Pose2d", (1, pose2d, d_pose2d));
   ("PositionCovariance2d", (1, covariance2d, d_covariance2d));
   ("BasicPoint2d", (1, basic_point2d, d_basic_point2d));
   ("BasicPoint3d", (1, basic_point3d, d_basic_point3d));
   ("BoundingBox2d", (1, bounding_box, d_bounding_box));
   ("BoundingBox3d", (1, bounding_box, d_bounding_box));
   ("Point2d", (1, point_xyz, d_point2d));
   ("GPSPoint", (1, gps_point, d_gps_point));
   ("Lanelet", (1, lanelet_init, d_lanelet));
   ("ConstLaneletWithStopLine", (1, with_stop_line, d_with_stop_line));
   ("LaneletWithStopLine", (1, with_stop_line, d_with_stop_line));
   ("ConstArea", (1, area_init, d_area));
   ("Area", (1, area_init, d_area));
   ("TrafficLight", (1, traffic_light, d_traffic_light));
   ("RightOfWay", (1, right_of_way, d_right_of_way));
   ("AllWayStop", (1, all_way_stop, d_all_way_stop));
   ("layer.exists", (1, layer_id, d_layer_id));
   ("layer.get", (1, layer_id, d_layer_id));
   ("layer.search", (1, layer_search, d_layer_search))].

(** Declarations with a keyword that the binding does not know, and that keyword. *)
Definition misnamed : list (string * (binding pyval * signature pyval * string)) :=
  [("RoutingGraph", (routing_graph, d_routing_graph, "lanelet_map"));
   ("RoutingGraph(submap)", (routing_graph_submap, d_routing_graph, "lanelet_map"));
   ("RoutingGraph", (routing_graph, d_routing_graph, "traffic_rules"));
   ("RoutingGraph", (routing_graph, d_routing_graph, "routing_costs"));
   ("RoutingGraph.getRoute", (get_route, d_get_route, "from_"));
   ("RoutingGraph.getRouteVia", (get_route_via, d_get_route_via, "from_"));
   ("RoutingGraph.shortestPath", (shortest_path, d_get_route, "from_"));
   ("RoutingGraph.routingRelation", (routing_relation, d_routing_relation, "from_"));
   ("RoutingGraph.reachableSet", (reachable_set, d_reachable_set, "routingCostId"));
   ("RoutingGraph.getDebugLaneletMap", (debug_map, d_debug_map, "include_adjacent"));
   ("RoutingGraph.checkValidity", (check_validity, d_check_validity, "throw_on_error"));
   ("loadRobust", (load_robust, d_load_robust, "projector"));
   ("overlaps3d", (overlaps3d, d_overlaps3d, "llt1"));
   ("intersects3d(line strings)", (intersects3d_lines, d_intersects3d_lines, "heightTolerance"));
   ("Object2d", (object2d, d_object2d, "object_id"))].

(** A declaration with other names for some of its parameters. *)
Definition renamed (names : list (string * string)) (sig : signature pyval) : signature pyval :=
  map (fun p => (match find (fun n => String.eqb (fst n) (fst p)) names with Some n => snd n | None => fst p end, snd p)) sig.
(** Of these the declarations above tell all but the names. *)
Definition but_for_names : list (string * (nat * binding pyval * signature pyval * list (string * string))) :=
  [("RoutingGraph.getRoute", (1, get_route, d_get_route, [("from_", "from")]));
   ("RoutingGraph.getRouteVia", (1, get_route_via, d_get_route_via, [("from_", "from")]));
   ("RoutingGraph.shortestPath", (1, shortest_path, d_get_route, [("from_", "from")]));
   ("RoutingGraph.routingRelation", (1, routing_relation, d_routing_relation, [("from_", "from")]));
   ("RoutingGraph.reachableSet", (1, reachable_set, d_reachable_set, [("routingCostId", "RoutingCostId")]));
   ("RoutingGraph.getDebugLaneletMap", (1, debug_map, d_debug_map, [("include_adjacent", "includeAdjacent")]));
   ("RoutingGraph.checkValidity", (1, check_validity, d_check_validity, [("throw_on_error", "throwOnError")]));
   ("overlaps3d", (0, overlaps3d, d_overlaps3d, [("llt1", "lanelet1"); ("llt2", "lanelet2")]));
   ("Object2d", (1, object2d, d_object2d, [("object_id", "objectId")]))].
(** core.pyi:836, 859, 882: nearest of a layer. *)
Definition d_layer_nearest := [self; need "point"; need "n"].
