(** Model of RoutingGraph::getRoute and getRouteVia, lanelet2_routing/src/RoutingGraph.cpp:386-402. *)
From Coq Require Import NArith List Bool Arith.
From Verif Require Import CostAlg GraphModel DijkstraModel RouteBuilderModel.
Import ListNotations.

Section Query.
Context {A : CostAlg}.
(** A search that broke its own conditions counts as undefined. *)
Definition route_for (o : qres (option (list elem))) (g : graph A) (costid : N) (lane_changes : bool) : result (option (route A)) :=
  match o with
  | QRet None => Done None
  | QRet (Some p) => build_route g p lane_changes costid
  | QThrow => Thrown
  | QBroken => Undefined
  end.
Definition get_route (tie : nat -> nat) (g : graph A) (from to : elem) (costid : N) (lane_changes : bool) : result (option (route A)) :=
  route_for (shortest_path tie g from to costid lane_changes false) g costid lane_changes.
Definition get_route_via (tie : nat -> nat) (g : graph A) (from : elem) (via : list elem) (to : elem) (costid : N)
           (lane_changes : bool) : result (option (route A)) :=
  route_for (shortest_path_via tie g from via to costid lane_changes false) g costid lane_changes.
End Query.
