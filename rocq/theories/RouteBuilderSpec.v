(** What a route is, stated on the elements and edges of the routing graph. *)
From Coq Require Import NArith List Bool Relations.
From Verif Require Import CostAlg GraphModel RouteSpec.
Import ListNotations.

(** The relations a route is made of: without lane changes only following and conflicting lanelets. *)
Definition in_view (lane_changes : bool) (r : relation) : bool :=
  match r with
  | Successor | Conflicting => true
  | RLeft | RRight | AdjacentLeft | AdjacentRight => lane_changes
  | _ => false
  end.
Definition driving (r : relation) : bool := match r with Successor | RLeft | RRight => true | _ => false end.
Definition following (r : relation) : bool := match r with Successor => true | _ => false end.
Definition changing (r : relation) : bool := match r with RLeft | RRight => true | _ => false end.
Definition to_left (r : relation) : bool := match r with RLeft => true | _ => false end.
Definition to_right (r : relation) : bool := match r with RRight => true | _ => false end.
Definition crossing (r : relation) : bool := match r with Conflicting => true | _ => false end.
Definition any_relation (r : relation) : bool := true.

Section Spec.
Context {A : CostAlg}.
Variable g : graph A.
Variable costid : N.
Variable lane_changes : bool.

(** An edge of the cost module, of a relation the route is made of. *)
Definition used (e : edge A) : bool := N.eqb (ei_costid (e_info e)) costid && in_view lane_changes (ei_rel (e_info e)).
(** An edge of a kind leads from a to b. *)
Definition joined (kind : relation -> bool) (a b : elem) : Prop :=
  exists e, In e (g_edges g) /\ vertex_elem g (e_src e) = Some a /\ vertex_elem g (e_tgt e) = Some b /\
    used e = true /\ kind (ei_rel (e_info e)) = true.

(** The path a route is built for: known lanelets, each reached from the previous one by driving on or changing the lane. *)
Definition route_path (p : list elem) : Prop :=
  p <> [] /\ (forall a, In a p -> is_lanelet a = true /\ exists v, get_vertex g a = Some v) /\ linked (joined driving) p.
(** Driving on or changing the lane leads to lanelets. *)
Definition lanes_only : Prop := forall a b, is_lanelet a = true -> joined driving a b -> is_lanelet b = true.
(** The path is a circle, or it does not pass its end, nor, if the lane can be changed, a lanelet beside it. *)
Definition ends_once (p : list elem) : Prop :=
  forall f z, hd_error p = Some f -> hd_error (rev p) = Some z ->
    f = z \/ forall a, In a (removelast p) -> ~ clos_refl_trans elem (joined changing) z a.
(** No lanelet lies left or right of itself. *)
Definition lanes_unwind : Prop :=
  (forall a, ~ clos_trans elem (joined to_left) a a) /\ (forall a, ~ clos_trans elem (joined to_right) a a).
(** The lane can be changed in at most one way. *)
Definition two_lanes : Prop :=
  forall v, length (filter (fun e => Nat.eqb (e_src e) v && used e && changing (ei_rel (e_info e))) (g_edges g)) <= 1.

(** The edges of a graph that leave an element, in their order. *)
Definition edges_from (h : graph A) (a : elem) : list (edge A) := filter (fun e => is_elem h (e_src e) a) (g_edges h).
(** What an edge tells about its target. *)
Definition told (h : graph A) (e : edge A) : option elem * cost A * relation :=
  (vertex_elem h (e_tgt e), ei_cost (e_info e), ei_rel (e_info e)).
End Spec.

(** * How a route grows beside its path *)
Definition beside (r : relation) : bool :=
  match r with RLeft | RRight | AdjacentLeft | AdjacentRight => true | _ => false end.
Definition meeting (r : relation) : bool := match r with Conflicting | AdjacentLeft | AdjacentRight => true | _ => false end.
Definition changing_or_meeting (r : relation) : bool := changing r || meeting r.
Definition not_crossing (r : relation) : bool := negb (crossing r).

Section Growth.
(** [J kind] relates an element to those an edge of the kind leads to. *)
Variable T : Type.
Variable J : (relation -> bool) -> T -> T -> Prop.
(** The lanelets behind which the route ends, and where it starts. *)
Variable beyond : T -> Prop.
Variable start : T.

Section At.
Variable on : list T.
Definition next_to (v : T) : Prop := In v on \/ exists u, In u on /\ J any_relation v u.
(** Driven next to the route, without following the lanelets at its end. *)
Definition driven (u t : T) : Prop := next_to t /\ (J changing u t \/ J following u t /\ ~ beyond u).
(** Related to the route, but no lane change leads to the route and back. *)
Definition off_route (v : T) : Prop :=
  ~ In v on /\ (exists u, In u on /\ J changing_or_meeting v u) /\ ~ (exists u, In u on /\ J changing v u /\ J changing u v).
(** A section of lanelets off the route that begins at the route. *)
Definition detour (p : list T) : Prop :=
  linked (J driving) p /\ (forall v, In v p -> off_route v) /\ exists f u, hd_error p = Some f /\ In u on /\ J driving u f.
(** Each of its lanelets has a neighbour on the route. *)
Definition all_beside_route (p : list T) : Prop :=
  forall v, In v p -> exists u, In u on /\ (J beside u v \/ J beside v u).
(** It comes back to the route, and the route leads along it from the one end to the other: each lanelet on the way, or one left or right
    of it, meets the section. *)
Definition along_route (p : list T) : Prop := exists f z from to,
  hd_error p = Some f /\ hd_error (rev p) = Some z /\ In from on /\ In to on /\ J driving from f /\ J driving z to /\
  clos_refl_trans T (fun u v => J not_crossing u v /\ In v on /\ exists w,
      (clos_refl_trans T (J to_left) v w \/ clos_refl_trans T (J to_right) v w) /\
      (w = from \/ w = to \/ exists t, In t p /\ J meeting w t)) from to.
(** A lanelet may join the route: it is reached next to the route, it is followed by a lanelet next to the route, or the lane can be changed to
    the route; and it is not off the route, or only for a section that is permitted. *)
Record may_join (v : T) : Prop := {
  mj_new : ~ In v on;
  mj_reached : clos_refl_trans T driven start v;
  mj_goes_on : exists t, driven v t /\ (J following v t \/ In t on);
  mj_stays : ~ off_route v \/ exists p, detour p /\ (all_beside_route p \/ along_route p) /\ In v p }.
End At.
(** A set of lanelets that comes from the path by adding lanelets that may join. *)
Inductive grown_from (path : list T) : list T -> Prop :=
| gf_path : grown_from path path
| gf_more on new : grown_from path on -> (forall v, In v new -> may_join on v) -> grown_from path (new ++ on).
End Growth.
