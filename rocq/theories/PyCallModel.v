(** Model of a call from Python into a bound function.

    Source: the definitions with [arg(...)] in lanelet2_python/python_api/{routing,io,traffic_rules,geometry,matching,
    core}.cpp. What a call does with them is Boost.Python's [objects::function] (libs/python/src/object/function.cpp:
    the constructor, [call] and [add_overload]). Boost.Python is not part of the repository; it is modelled here from
    its published source and belongs to the trusted base.

    Arity counts [self] for a method and for a constructor. The C++ signature behind a binding is reduced to its arity
    and, per overload, to the test whether the values can be converted to the C++ types.

    Not modelled: reference counts, docstrings, call policies, [raw_function] (not used by lanelet2). *)
From Coq Require Import String List Bool Arith.
Import ListNotations.

Section Call.
Context {V : Type}.

(** One [arg("name")] or [arg("name") = value] (boost::python::detail::keyword). *)
Record keyword := Kw { kw_name : string; kw_default : option V }.

(** A function given to [def], [make_constructor] or [init] together with its keywords. *)
Record binding := Binding { b_arity : nat; b_keywords : list keyword }.

(** [m_arg_names] as the constructor of [function] fills it: the keywords belong to the last parameters
    ([keyword_offset]), the places before hold Python's None. Without keywords there is no tuple. *)
Definition arg_names (b : binding) : option (list (option keyword)) :=
  match b_keywords b with
  | [] => None
  | ks => Some (repeat None (b_arity b - length ks) ++ map Some ks)
  end.

(** [m_nkeyword_values]: how many keywords have a value. *)
Definition keyword_values (b : binding) : nat :=
  length (filter (fun k => match kw_default k with Some _ => true | None => false end) (b_keywords b)).

(** PyDict_GetItem on the keywords of the call. *)
Fixpoint dict_get (n : string) (kws : list (string * V)) : option V :=
  match kws with
  | [] => None
  | (m, v) :: r => if String.eqb n m then Some v else dict_get n r
  end.

(** The loop over the remaining places of the argument tuple ([for arg_pos = n_unnamed_actual ...] in [call]): the
    values and how many came from the keywords of the call; [NoValue] where the matching fails; [NotATuple] where
    [PyTuple_GET_ITEM] is applied to None, which is undefined behaviour. *)
Inductive filled := Filled (vs : list V) (n : nat) | NoValue | NotATuple.

Fixpoint fill (names : list (option keyword)) (kws : list (string * V)) : filled :=
  match names with
  | [] => Filled [] 0
  | None :: _ => NotATuple
  | Some k :: r =>
      match dict_get (kw_name k) kws with
      | Some v => match fill r kws with Filled vs n => Filled (v :: vs) (S n) | o => o end
      | None =>
          match kw_default k with
          | Some d => match fill r kws with Filled vs n => Filled (d :: vs) n | o => o end
          | None => NoValue
          end
      end
  end.

(** One round of the loop over the overloads in [function::call], up to the conversion of the values. *)
Inductive outcome := Bound (slots : list V) | Refused | Undefined.

Definition bind (b : binding) (pos : list V) (kws : list (string * V)) : outcome :=
  let n_actual := length pos + length kws in
  if (b_arity b <=? n_actual + keyword_values b) && (n_actual <=? b_arity b) then
    if (0 <? length kws) || (n_actual <? b_arity b) then
      match arg_names b with
      | None => Refused
      | Some names =>
          match fill (skipn (length pos) names) kws with
          | Filled vs n => if length pos + n <? n_actual then Refused else Bound (pos ++ vs)
          | NoValue => Refused
          | NotATuple => Undefined
          end
      end
    else Bound pos
  else Refused.

(** The whole of [function::call]: the overloads in the order in which they are tried, that is the latest [def]
    first, each with the test of the conversions. *)
Inductive result := Called (i : nat) (slots : list V) | ArgumentError | UndefinedCall.

Fixpoint call_from (i : nat) (fs : list (binding * (list V -> bool))) (pos : list V) (kws : list (string * V)) : result :=
  match fs with
  | [] => ArgumentError
  | (b, converts) :: r =>
      match bind b pos kws with
      | Bound slots => if converts slots then Called i slots else call_from (S i) r pos kws
      | Refused => call_from (S i) r pos kws
      | Undefined => UndefinedCall
      end
  end.

Definition call := call_from 0.
End Call.
Arguments keyword : clear implicits. Arguments binding : clear implicits. Arguments filled : clear implicits.
Arguments outcome : clear implicits. Arguments result : clear implicits.

Open Scope string_scope.

(** Values as far as the tables below need them: numbers (0 and 0.0 are the same here), truth values, None and other
    objects by the text that makes them. *)
Inductive pyval := Num (n : nat) | Bool (b : bool) | NoneV | Obj (text : string).

Notation req n := (@Kw pyval n None).
Notation opt n v := (@Kw pyval n (Some v)).

(** routing.cpp:141, 153: RoutingCostDistance, RoutingCostTravelTime. *)
Definition cost_distance := Binding 3 [req "laneChangeCost"; opt "minLaneChangeDistance" (Num 0)].
Definition cost_time := Binding 3 [req "laneChangeCost"; opt "minLaneChangeTime" (Num 0)].
(** routing.cpp:179-182: LaneletPath. *)
Definition lanelet_path := Binding 2 [req "lanelets"].
(** routing.cpp:221-233: PossiblePathsParams. *)
Definition possible_paths_params :=
  Binding 6 [opt "routingCostLimit" NoneV; opt "elementLimit" NoneV; opt "routingCostId" (Num 0);
             opt "includeLaneChanges" (Bool false); opt "includeShorterPaths" (Bool false)].
(** routing.cpp:255-262: the two constructors of RoutingGraph. *)
Definition routing_graph := Binding 4 [req "laneletMap"; req "trafficRules"; opt "routingCost" (Obj "defaultRoutingCosts()")].
Definition routing_graph_submap := Binding 4 [req "laneletSubmap"; req "trafficRules"; opt "routingCost" (Obj "defaultRoutingCosts()")].
(** routing.cpp:263-273. *)
Definition get_route := Binding 5 [req "from"; req "to"; opt "routingCostId" (Num 0); opt "withLaneChanges" (Bool true)].
Definition get_route_via :=
  Binding 6 [req "from"; req "via"; req "to"; opt "routingCostId" (Num 0); opt "withLaneChanges" (Bool true)].
Definition shortest_path := Binding 5 [req "from"; req "to"; opt "routingCostId" (Num 0); opt "withLaneChanges" (Bool true)].
Definition shortest_path_with_via :=
  Binding 6 [req "start"; req "via"; req "end"; opt "routingCostId" (Num 0); opt "withLaneChanges" (Bool true)].
Definition routing_relation := Binding 4 [req "from"; req "to"; opt "includeConflicting" (Bool false)].
(** routing.cpp:248, 274-277: [lltAndLc], given to following, followingRelations, previous, previousRelations. *)
Definition llt_and_lc := Binding 3 [req "lanelet"; opt "withLaneChanges" (Bool false)].
(** routing.cpp:249, 278-291: [lltAndRoutingCost], given to besides, left, right, adjacentLeft, adjacentRight, lefts,
    rights, adjacentLefts, adjacentRights, leftRelations, rightRelations. *)
Definition llt_and_routing_cost := Binding 3 [req "lanelet"; opt "routingCostId" (Num 0)].
(** routing.cpp:292: conflicting. *)
Definition conflicting := Binding 2 [req "lanelet"].
(** routing.cpp:293-296: reachableSet and reachableSetTowards. *)
Definition reachable_set :=
  Binding 5 [req "lanelet"; req "maxRoutingCost"; opt "RoutingCostId" (Num 0); opt "allowLaneChanges" (Bool true)].
(** routing.cpp:297-299, 302-305: possiblePaths and possiblePathsTowards by cost. The function has four parameters and
    [self], and five keywords are given. *)
Definition possible_paths :=
  Binding 5 [req "lanelet"; req "minRoutingCost"; opt "RoutingCostId" (Num 0); opt "allowLaneChanges" (Bool false);
             opt "routingCostId" (Num 0)].
(** routing.cpp:300-301, 306-307: the overloads with PossiblePathsParams. *)
Definition possible_paths_param := Binding 3 [req "lanelet"; req "parameters"].
(** routing.cpp:308-312: possiblePathsMinLen and possiblePathsTowardsMinLen. *)
Definition possible_paths_min_len :=
  Binding 5 [req "lanelet"; req "minLanelets"; opt "allowLaneChanges" (Bool false); opt "routingCostId" (Num 0)].
(** routing.cpp:313-345: forEachSuccessor, forEachPredecessor and the variants with areas. *)
Definition for_each := Binding 5 [req "lanelet"; req "func"; opt "allowLaneChanges" (Bool true); opt "routingCostId" (Num 0)].
(** routing.cpp:351-356: getDebugLaneletMap and checkValidity. *)
Definition debug_map :=
  Binding 4 [opt "routingCostId" (Num 0); opt "includeAdjacent" (Bool false); opt "includeConflicting" (Bool false)].
Definition check_validity := Binding 2 [opt "throwOnError" (Bool true)].
(** routing.cpp:404-415: forEachSuccessor and forEachPredecessor of a Route. *)
Definition route_for_each := Binding 3 [req "lanelet"; req "func"].

(** io.cpp:67-73: the three constructors of Origin. *)
Definition origin_numbers := Binding 4 [opt "lat" (Num 0); opt "lon" (Num 0); opt "lon" (Num 0)].
Definition origin_point := @Binding pyval 2 [].
Definition origin_default := @Binding pyval 1 [].
(** io.cpp:76-90. *)
Definition load_projector := Binding 2 [req "filename"; opt "projector" (Obj "DefaultProjector()")].
Definition load_origin := Binding 2 [req "filename"; req "origin"].
Definition load_robust := Binding 2 [req "filename"].
Definition write_projector := Binding 4 [req "filename"; req "map"; req "projector"; opt "params" NoneV].
Definition write_origin := Binding 4 [req "filename"; req "map"; req "origin"; opt "params" NoneV].

(** traffic_rules.cpp:12-14, 56-59: [makeSpeedLimit] takes two parameters and is given to [def("__init__", ...)]
    without [make_constructor]; the class also has the constructor without parameters. *)
Definition speed_limit := Binding 2 [req "speedLimitMPS"; opt "isMandatory" (Bool true)].
Definition speed_limit_default := @Binding pyval 1 [].
(** traffic_rules.cpp:105: create. *)
Definition create_rules := Binding 2 [req "location"; req "participant"].

(** geometry.cpp:40, 48: findWithin2d and findWithin3d; 371-377: intersects3d; 387-388: overlaps3d. *)
Definition find_within := Binding 3 [req "layer"; req "geometry"; opt "maxDist" (Num 0)].
Definition intersects3d_lines := @Binding pyval 3 [].
Definition intersects3d_boxes := @Binding pyval 2 [].
Definition intersects3d_lanelets := Binding 3 [req "lanelet1"; req "lanelet2"; opt "heightTolerance" (Num 3)].
Definition overlaps3d := Binding 3 [req "lanelet1"; req "lanelet2"; opt "heightTolerance" (Num 3)].

(** matching.cpp:125, 128-135, 143-144. *)
Definition pose2d := Binding 4 [opt "x" (Num 0); opt "y" (Num 0); opt "yaw" (Num 0)].
Definition object2d := Binding 4 [opt "objectId" (Num 0); opt "pose" (Obj "Pose2d()"); opt "absoluteHull" (Obj "[]")].
Definition covariance2d := Binding 4 [opt "varX" (Num 0); opt "varY" (Num 0); opt "covXY" (Num 0)].

(** core.cpp:503, 531, 546, 743, 774, 789, 818-819, 856, 942, 1003, 1045, 1097, 1113, 1149, 1174, 1229, 1259, 1293. *)
Definition basic_point2d := Binding 3 [opt "x" (Num 0); opt "y" (Num 0)].
Definition basic_point3d := Binding 4 [opt "x" (Num 0); opt "y" (Num 0); opt "z" (Num 0)].
Definition bounding_box := Binding 3 [req "min"; req "max"].
Definition point_xyz :=
  Binding 6 [req "id"; req "x"; req "y"; opt "z" (Num 0); opt "attributes" (Obj "AttributeMap()")].
Definition gps_point := Binding 4 [opt "lat" (Num 0); opt "lon" (Num 0); opt "ele" (Num 0)].
Definition lanelet_init :=
  Binding 6 [req "id"; req "leftBound"; req "rightBound"; opt "attributes" (Obj "AttributeMap()"); opt "regelems" (Obj "[]")].
Definition with_stop_line := Binding 3 [req "lanelet"; opt "stopLine" NoneV].
Definition area_init :=
  Binding 6 [req "id"; req "outerBound"; opt "innerBounds" (Obj "[]"); opt "attributes" (Obj "AttributeMap()");
             opt "regulatoryElements" (Obj "[]")].
Definition traffic_light := Binding 5 [req "id"; req "attributes"; req "trafficLights"; opt "stopLine" NoneV].
Definition right_of_way :=
  Binding 6 [req "id"; req "attributes"; req "rightOfWayLanelets"; req "yieldLanelets"; opt "stopLine" NoneV].
Definition all_way_stop := Binding 5 [req "id"; req "attributes"; req "lltsWithStop"; opt "signs" (Obj "[]")].
(** core.cpp:438, 450, 451: exists (also get, __getitem__), search and nearest of a layer. *)
Definition layer_id := Binding 2 [req "id"].
Definition layer_search := Binding 2 [req "boundingBox"].
Definition layer_nearest := Binding 3 [req "point"; opt "n" (Num 1)].
