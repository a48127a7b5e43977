(** Model of the submaps of a routing graph and of a route.

    Sources: lanelet2_routing/src/RoutingGraphBuilder.cpp:94-104, lanelet2_routing/src/RouteBuilder.cpp:421-423,
    lanelet2_core/src/LaneletMap.cpp:75-80 (toMap), 912-922 (createSubmap), 924-933 (createConstSubmap),
    lanelet2_routing/include/lanelet2_routing/RoutingGraph.h:463 (passableSubmap), Route.h:86 (laneletSubmap).
    The objects that a submap keeps alive are those of SubmapModel.v and left out here. A layer is a map from ids, the first element
    with an id stays. *)
From Coq Require Import ZArith NArith List Bool.
From Verif Require Import CostAlg GraphModel RouteBuilderModel BuilderModel DebugModel.
Import ListNotations.

Section Passable.
(** Ids of the data of lanelets and areas *)
Variables (idl ida : N -> Z).

(** The layers of lanelets and areas; all others are empty. *)
Record submap := Submap { sm_lanelets : list (Z * lref); sm_areas : list (Z * N) }.
(** createConstSubmap, LaneletMap.cpp:924-933 *)
Definition create_submap (lanelets : list lref) (areas : list N) : submap :=
  Submap (keep_first (map (fun l => (idl (fst l), l)) lanelets)) (keep_first (map (fun a => (ida a, a)) areas)).
(** RoutingGraphBuilder.cpp:95-97 *)
Definition passable_submap (w : world) (ru : rules) : submap := create_submap (passable w ru) (passable_areas w ru).
(** RouteBuilder.cpp:421-422; the vertices of a route are lanelets *)
Definition lanelets_of (l : list elem) : list lref :=
  flat_map (fun e => match e with ELanelet d i => [(d, i)] | EArea _ => [] end) l.
Definition route_submap {A : CostAlg} (r : route A) : submap := create_submap (lanelets_of (g_verts (r_graph r))) [].
(** PrimitiveLayer::find by id *)
Definition find_lanelet (s : submap) (i : Z) : option lref := find_key i (sm_lanelets s).
Definition find_area (s : submap) (i : Z) : option N := find_key i (sm_areas s).
(** Iteration over a layer, in some order *)
Definition all_lanelets (s : submap) : list lref := map snd (sm_lanelets s).
Definition all_areas (s : submap) : list N := map snd (sm_areas s).
End Passable.
