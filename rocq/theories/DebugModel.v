(** Model of the debug maps of routing graphs and of routes.

    Source: lanelet2_routing/src/RoutingGraph.cpp (RG), lanelet2_routing/src/Route.cpp (RT), lanelet2_core/src/LaneletMap.cpp (LM).
    Positions are left out: the position of a point is the centroid of the lanelet or area that it represents. *)
From Coq Require Import ZArith NArith List Bool.
From Verif Require Import CostAlg GraphModel RouteBuilderModel.
Import ListNotations.
Open Scope Z_scope.

(** An unordered_map or map from ids, made from a range: the first entry of an id stays (toMap, LM:75-80). *)
Definition has_key {T} (i : Z) (m : list (Z * T)) : bool := existsb (fun x => Z.eqb (fst x) i) m.
Definition put {T} (m : list (Z * T)) (e : Z * T) : list (Z * T) := if has_key (fst e) m then m else m ++ [e].
Definition keep_first {T} (l : list (Z * T)) : list (Z * T) := fold_left put l [].
(** Layers of points and line strings of a map, and the id counter *)
Record dmap (P L : Type) := DMap { d_points : list (Z * P); d_lines : list (Z * L); d_next : Z }.
Arguments DMap {P L}. Arguments d_points {P L}. Arguments d_lines {P L}. Arguments d_next {P L}.
(** createMap(LineStrings3d), LM:818-822; the arguments are the line strings and their points with their ids *)
Definition create_map_lines {P L} (points : list (Z * P)) (lines : list (Z * L)) (next : Z) : dmap P L :=
  DMap (keep_first points) (keep_first lines) next.
(** LaneletMap::add(Point3d), LM:675-684: a point without id gets one, a known id is skipped *)
Definition add_map_point {P L} (m : dmap P L) (e : Z * P) : dmap P L :=
  if fst e =? 0 then DMap (put (d_points m) (d_next m, snd e)) (d_lines m) (d_next m + 1)
  else if has_key (fst e) (d_points m) then m
  else DMap (put (d_points m) e) (d_lines m) (Z.max (d_next m) (fst e + 1)).

Section Debug.
Context {A : CostAlg}.
Notation graph := (graph A).
Notation edge := (edge A).
Notation einfo := (einfo A).
Notation gview := (gview A).
Notation route := (route A).
(** ids of lanelets and areas; an inverted lanelet has the id of the lanelet *)
Variable idof : elem -> Z.

(** * Routing graph *)

(** createPoint, RG:85-98: the id and the attribute id are those of the element *)
Record gpoint := GPoint { gp_id : Z; gp_of : elem }.
Definition create_point (e : elem) : gpoint := GPoint (idof e) e.
(** createLineString, RG:775-783, with the attributes relation, routing_cost, and relation_reverse, routing_cost_reverse of addEdge *)
Record gline := GLine { gl_id : Z; gl_from : gpoint; gl_to : gpoint; gl_rel : relation; gl_cost : cost A; gl_back : option (relation * cost A) }.
(** DebugMapBuilder, RG:785-842: pointMap_, lineStringMap_ and the id counter *)
Record builder := Builder { b_points : list (elem * gpoint); b_lines : list ((elem * elem) * gline); b_next : Z }.
Definition pair_eqb (a b : elem * elem) : bool := elem_eqb (fst a) (fst b) && elem_eqb (snd a) (snd b).
Fixpoint find_point (e : elem) (l : list (elem * gpoint)) : option gpoint :=
  match l with [] => None | (k, p) :: r => if elem_eqb k e then Some p else find_point e r end.
Fixpoint find_line (k : elem * elem) (l : list ((elem * elem) * gline)) : option gline :=
  match l with [] => None | (k', x) :: r => if pair_eqb k' k then Some x else find_line k r end.
(** getPair, RG:816-818 *)
Definition get_pair (a b : elem) : elem * elem := if idof a <? idof b then (a, b) else (b, a).
(** addPoint, RG:820-825 *)
Definition add_point (e : elem) (b : builder) : builder :=
  match find_point e (b_points b) with
  | Some _ => b
  | None => Builder (b_points b ++ [(e, create_point e)]) (b_lines b) (b_next b)
  end.
(** addEdge, RG:827-840. None is the std::out_of_range of at. *)
Definition set_back (k : elem * elem) (v : relation * cost A) (l : list ((elem * elem) * gline)) : list ((elem * elem) * gline) :=
  map (fun x => if pair_eqb (fst x) k
                then (fst x, GLine (gl_id (snd x)) (gl_from (snd x)) (gl_to (snd x)) (gl_rel (snd x)) (gl_cost (snd x)) (Some v)) else x) l.
Definition draw_edge (from to : elem) (i : einfo) (b : builder) : option builder :=
  let k := get_pair from to in
  match find_line k (b_lines b) with
  | Some _ => Some (Builder (b_points b) (set_back k (ei_rel i, ei_cost i) (b_lines b)) (b_next b))
  | None =>
      match find_point from (b_points b), find_point to (b_points b) with
      | Some p, Some q =>
          Some (Builder (b_points b) (b_lines b ++ [(k, GLine (b_next b) p q (ei_rel i) (ei_cost i) None)]) (b_next b + 1))
      | _, _ => None
      end
  end.
(** visitVertex, RG:804-814; None also for a target that is no vertex, which boost would not return *)
Fixpoint draw_edges (g : graph) (from : elem) (es : list edge) (b : builder) : option builder :=
  match es with
  | [] => Some b
  | e :: r =>
      match vertex_elem g (e_tgt e) with
      | None => None
      | Some to =>
          match draw_edge from to (e_info e) (add_point to b) with
          | None => None
          | Some b' => draw_edges g from r b'
          end
      end
  end.
Definition visit_vertex (w : gview) (x : elem * nat) (b : builder) : option builder :=
  draw_edges (v_graph w) (fst x) (out_edges w (snd x)) (add_point (fst x) b).
Fixpoint visit_all (w : gview) (order : list (elem * nat)) (b : builder) : option builder :=
  match order with
  | [] => Some b
  | x :: r => match visit_vertex w x b with None => None | Some b' => visit_all w r b' end
  end.
(** run, RG:789-801; [order] is the lookup in the order of iteration *)
Definition line_points (l : gline) : list (Z * gpoint) := [(gp_id (gl_from l), gl_from l); (gp_id (gl_to l), gl_to l)].
Definition run_debug (w : gview) (order : list (elem * nat)) (next : Z) : option (dmap gpoint gline) :=
  match visit_all w order (Builder [] [] next) with
  | None => None
  | Some b =>
      let lines := map snd (b_lines b) in
      Some (fold_left add_map_point (map (fun x => (gp_id (snd x), snd x)) (b_points b))
              (create_map_lines (flat_map line_points lines) (map (fun l => (gl_id l, l)) lines) (b_next b)))
  end.
(** allowedRelationsfromConfiguration, RG:761-773 *)
Definition debug_mask (adjacent conflict : bool) : N :=
  let m := mask_or (mask_or (mask_or (bits Successor) (bits RLeft)) (bits RRight)) (bits RArea) in
  let m := if adjacent then mask_or (mask_or m (bits AdjacentLeft)) (bits AdjacentRight) else m in
  if conflict then mask_or m (bits Conflicting) else m.
(** RoutingGraph::getDebugLaneletMap, RG:844-853 *)
Definition graph_debug_map (g : graph) (costid : N) (adjacent conflict : bool) (order : list (elem * nat)) (next : Z) : outcome (option (dmap gpoint gline)) :=
  if N.leb (g_numcosts g) costid then Throws else Ret (run_debug (GView g costid (debug_mask adjacent conflict)) order next).

(** * Route *)

(** A point of vertexMap: its id, the attributes lane_id and shortest_path *)
Record rpoint := RPoint { rp_id : Z; rp_lane : option N; rp_short : bool }.
(** A line string of edgeMap: the ids of its points, which are shared with vertexMap, and the attributes relation_i (false, i) and
    relation_reverse_i (true, i). All of them are made by the default constructor and have the invalid id. *)
Record rline := RLine { rl_front : Z; rl_back : Z; rl_attrs : list ((bool * nat) * relation) }.
Fixpoint find_key {T} (i : Z) (m : list (Z * T)) : option T :=
  match m with [] => None | (k, x) :: r => if k =? i then Some x else find_key i r end.
Definition edge_map := list ((Z * Z) * rline).
Definition key_eqb (a b : Z * Z) : bool := (fst a =? fst b) && (snd a =? snd b).
Fixpoint find_edge (k : Z * Z) (m : edge_map) : option rline :=
  match m with [] => None | (k', x) :: r => if key_eqb k' k then Some x else find_edge k r end.
(** createAndAddPoint, RT:33-42 *)
Definition create_and_add (m : list (Z * rpoint)) (x : elem * N) : list (Z * rpoint) :=
  put m (idof (fst x), RPoint (idof (fst x)) (Some (snd x)) false).
Definition ensure (m : list (Z * rpoint)) (x : elem * N) : list (Z * rpoint) :=
  match find_key (idof (fst x)) m with Some _ => m | None => create_and_add m x end.
(** The loop for the next unused attribute, RT:71-77; None if the fuel is used up *)
Definition attr_eqb (a b : bool * nat) : bool := Bool.eqb (fst a) (fst b) && Nat.eqb (snd a) (snd b).
Fixpoint next_attr (fuel : nat) (dir : bool) (i : nat) (l : list ((bool * nat) * relation)) : option nat :=
  match fuel with
  | O => None
  | S k => if existsb (fun x => attr_eqb (fst x) (dir, i)) l then next_attr k dir (S i) l else Some i
  end.
(** std::minmax, RT:55 *)
Definition minmax (a b : Z) : Z * Z := if b <? a then (b, a) else (a, b).
(** addRelation, RT:49-78 *)
Definition add_relation (from to : elem * N) (rel : relation) (st : list (Z * rpoint) * edge_map) : option (list (Z * rpoint) * edge_map) :=
  let a := idof (fst from) in
  let b := idof (fst to) in
  let vm := ensure (fst st) from in
  match find_edge (minmax a b) (snd st) with
  | None =>
      let vm := ensure vm to in
      match find_key a vm, find_key b vm with
      | Some p, Some q => Some (vm, snd st ++ [(minmax a b, RLine (rp_id p) (rp_id q) [((false, 1%nat), rel)])])
      | _, _ => None
      end
  | Some l =>
      let dir := negb (rl_front l =? a) in
      match next_attr (S (length (rl_attrs l))) dir 1 (rl_attrs l) with
      | None => None
      | Some i =>
          Some (vm, map (fun x => if key_eqb (fst x) (minmax a b)
                                  then (fst x, RLine (rl_front l) (rl_back l) (rl_attrs l ++ [((dir, i), rel)])) else x) (snd st))
      end
  end.
Definition vertex_at (r : route) (v : nat) : option (elem * N) :=
  match vertex_elem (r_graph r) v, nth_error (r_lanes r) v with Some e, Some l => Some (e, l) | _, _ => None end.
Fixpoint add_relations (r : route) (es : list edge) (st : list (Z * rpoint) * edge_map) : option (list (Z * rpoint) * edge_map) :=
  match es with
  | [] => Some st
  | e :: k =>
      match vertex_at r (e_src e), vertex_at r (e_tgt e) with
      | Some a, Some b =>
          match add_relation a b (ei_rel (e_info e)) st with None => None | Some st' => add_relations r k st' end
      | _, _ => None
      end
  end.
(** The edges in the order of the loops, RT:207-213 *)
Definition route_edges (r : route) : list edge :=
  flat_map (fun v => filter (fun e => Nat.eqb (e_src e) v) (g_edges (r_graph r))) (seq 0 (length (g_verts (r_graph r)))).
(** vertexMap[el.id()].setAttribute, RT:215-217: a missing point is made by the default constructor *)
Definition mark (vm : list (Z * rpoint)) (e : elem) : list (Z * rpoint) :=
  map (fun x => if fst x =? idof e then (fst x, RPoint (rp_id (snd x)) (rp_lane (snd x)) true) else x)
      (put vm (idof e, RPoint 0 None false)).
(** Route::getDebugLaneletMap, RT:202-223. The maps are listed in the order of insertion, not of their keys. *)
Definition shared_point (vm : list (Z * rpoint)) (i : Z) : list (Z * rpoint) :=
  match find_key i vm with Some p => [(i, p)] | None => [] end.
Definition route_debug_map (r : route) (path : list elem) (next : Z) : option (dmap rpoint rline) :=
  match add_relations r (route_edges r) ([], []) with
  | None => None
  | Some (vm, em) =>
      let vm := fold_left mark path vm in
      let lines := map snd em in
      Some (fold_left add_map_point (map (fun x => (rp_id (snd x), snd x)) vm)
              (create_map_lines (flat_map (fun l => shared_point vm (rl_front l) ++ shared_point vm (rl_back l)) lines)
                 (map (fun l => (0, l)) lines) next))
  end.
End Debug.
