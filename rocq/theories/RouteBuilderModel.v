(** Model of the construction of a route from the shortest path.

    Source: lanelet2_routing/src/RouteBuilder.cpp (RB) and
    lanelet2_routing/include/lanelet2_routing/internal/GraphUtils.h (GU).

    A std::set of vertices is a list in which only membership is looked at; a std::map with vertices as keys is a
    list sorted by its keys. boost's filtered graphs are predicates on edges and vertices: out_edges keeps the
    edges that pass whose target passes, in_edges those whose source passes. *)
From Coq Require Import NArith List Bool Arith.
From Verif Require Import CostAlg GraphModel.
Import ListNotations.
Local Open Scope nat_scope.

(** [Undefined]: an access beyond the end of a vector or the use of an empty Optional. [Thrown]: an exception
    (boost::bad_get for an area, RoutingGraphError). [Endless]: the given number of iterations was not sufficient. *)
Inductive result (T : Type) := Done (x : T) | Undefined | Thrown | Endless.
Arguments Done {T} x. Arguments Undefined {T}. Arguments Thrown {T}. Arguments Endless {T}.
Definition rbind {T U} (o : result T) (f : T -> result U) : result U :=
  match o with Done x => f x | Undefined => Undefined | Thrown => Thrown | Endless => Endless end.

Definition mem (v : nat) (l : list nat) : bool := existsb (Nat.eqb v) l.
(** (type & mask) != RelationType::None *)
Definition has_rel (mask : N) (r : relation) : bool := negb (N.eqb (mask_and (bits r) mask) 0).
Definition m_changes : N := mask_or (bits RLeft) (bits RRight).
Definition m_drivable : N := mask_or (bits Successor) m_changes.
Definition m_adjacent : N := mask_or (bits AdjacentLeft) (bits AdjacentRight).
Definition m_conflict : N := mask_or (bits Conflicting) m_adjacent.
Definition m_beside : N := mask_or m_changes m_adjacent.

(** boost::breadth_first_visit: the vertices in the order of examine_vertex. A vertex enters the queue when it is
    seen for the first time. *)
Fixpoint unseen (seen l : list nat) : list nat :=
  match l with
  | [] => []
  | t :: r => if mem t seen then unseen seen r else t :: unseen (t :: seen) r
  end.
Fixpoint bfs_loop (next : nat -> list nat) (fuel : nat) (queue seen : list nat) : option (list nat) :=
  match queue with
  | [] => Some []
  | u :: q => match fuel with
              | 0 => None
              | S k => let new := unseen seen (next u) in
                       option_map (cons u) (bfs_loop next k (q ++ new) (new ++ seen))
              end
  end.
Definition bfs (next : nat -> list nat) (fuel : nat) (start : nat) : option (list nat) :=
  bfs_loop next fuel [start] [start].

(** boost::depth_first_visit with the PathVisitor of ConnectedPathIterator::forEachPath, GU:330-366: the paths from
    the start to the vertices behind which nothing new was discovered, in the order of the calls, and the vertices
    discovered. [stop] says for which path the function throws; then the last path is this one and the flag is set.
    The successors of a vertex are looked up when it is discovered. *)
Fixpoint dfs (next : nat -> result (list nat)) (stop : list nat -> bool) (fuel : nat) (path : list nat) (v : nat)
  (seen : list nat) : result (bool * list (list nat) * list nat) :=
  match fuel with
  | 0 => Endless
  | S k =>
      let path' := path ++ [v] in
      let fix children (ts : list nat) (seen : list nat) (acc : list (list nat)) :=
        match ts with
        | [] => match acc with
                | [] => Done (stop path', [path'], seen)
                | _ => Done (false, acc, seen)
                end
        | t :: r => if mem t seen then children r seen acc
                    else match dfs next stop k path' t seen with
                         | Done (true, ps, seen') => Done (true, acc ++ ps, seen')
                         | Done (false, ps, seen') => children r seen' (acc ++ ps)
                         | o => o
                         end
        end in
      rbind (next v) (fun ts => children ts (v :: seen) [])
  end.

Section Builder.
Context {A : CostAlg}.
Notation edge := (edge A).
Notation graph := (graph A).

(** OriginalGraphFilter, GU:108-129 *)
Definition orig_mask (lane_changes : bool) : N :=
  if lane_changes then mask_or (mask_or (bits Successor) (bits Conflicting)) m_beside
  else mask_or (bits Successor) (bits Conflicting).
Definition orig_edges (g : graph) (lane_changes : bool) (costid : N) : list edge :=
  filter (fun e => N.eqb (ei_costid (e_info e)) costid && has_rel (orig_mask lane_changes) (ei_rel (e_info e))) (g_edges g).

Definition rel (mask : N) (e : edge) : bool := has_rel mask (ei_rel (e_info e)).

(** The original graph is given by its edges [es] and the number [n] of its vertices, which bounds the loops. *)
Section Original.
Variable es : list edge.
Variable n : nat.
Definition outs (v : nat) : list edge := filter (fun e => Nat.eqb (e_src e) v) es.
Definition ins (v : nat) : list edge := filter (fun e => Nat.eqb (e_tgt e) v) es.

(** getLeftAndRightLanelets and lastLanelets, RB:148-174 *)
Definition last_lanelets (path : list nat) : result (list nat) :=
  match path, rev path with
  | f :: _, b :: _ =>
      if Nat.eqb f b then Done []
      else match bfs (fun v => map e_tgt (filter (rel m_changes) (outs v))) (S n) b with
           | Some l => Done l
           | None => Endless
           end
  | _, _ => Done []
  end.

Section OnRoute.
(** [on]: laneletsOnRoute_, [last]: the lanelets given to the OnlyDrivableEdgesWithinFilter. *)
Variables on last : list nat.

(** NextToRouteFilter, GU:177-200 *)
Definition next_to_route (v : nat) : bool :=
  mem v on || existsb (fun e => mem (e_tgt e) on || mem (e_src e) on) (outs v).
(** OnlyDrivableEdgesWithinFilter, GU:203-218 *)
Definition within (e : edge) : bool := rel m_drivable e && (negb (rel (bits Successor) e) || negb (mem (e_src e) last)).
(** NextToRouteGraph, GU:399 *)
Definition near_out (v : nat) : list edge := filter (fun e => within e && next_to_route (e_tgt e)) (outs v).
Definition near_in (v : nat) : list edge := filter (fun e => within e && next_to_route (e_src e)) (ins v).

(** VisitationCount and VisitedLaneletGraph, RB:23-59. An entry whose Optional is empty is left out: every use of
    the map skips it. *)
Definition counter := (nat * nat)%type.
Definition visited := list (nat * counter).
Definition is_leaf (c : counter) : bool := Nat.eqb (fst c + snd c) 0.
Definition count_edge (c : counter) (e : edge) : counter :=
  if rel m_changes e then (if mem (e_tgt e) on then (fst c, S (snd c)) else c)
  else if relation_eqb (ei_rel (e_info e)) Successor then (S (fst c), snd c)
  else c.
Definition counts (v : nat) : counter := fold_left count_edge (near_out v) (0, 0).
Fixpoint put (v : nat) (c : counter) (m : visited) : visited :=
  match m with
  | [] => [(v, c)]
  | (w, d) :: r => if v <? w then (v, c) :: m else if w <? v then (w, d) :: put v c r else (v, c) :: r
  end.
Fixpoint look (v : nat) (m : visited) : option counter :=
  match m with
  | [] => None
  | (w, c) :: r => if Nat.eqb w v then Some c else look v r
  end.
(** The search of addAdjacentLaneletsToRoute, RB:393-396 with NeighbouringGraphVisitor, RB:125-146 *)
Definition visit (begin : nat) : option visited :=
  option_map (fun order => fold_left (fun m v => put v (counts v) m) order [])
             (bfs (fun v => map e_tgt (near_out v)) (S n) begin).

(** VisitedLaneletGraph::remove, RB:94-119 *)
Definition update (v : nat) (f : counter -> counter) (m : visited) : visited :=
  map (fun x => if Nat.eqb (fst x) v then (fst x, f (snd x)) else x) m.
Definition drop_edge (e : edge) (c : counter) : counter :=
  if relation_eqb (ei_rel (e_info e)) Successor && (0 <? fst c) then (pred (fst c), snd c)
  else if 0 <? snd c then (fst c, pred (snd c)) else c.
Definition remove (v : nat) (m : visited) : visited :=
  fold_left (fun m e => if rel m_drivable e then update (e_src e) (drop_edge e) m else m)
            (near_in v) (filter (fun x => negb (Nat.eqb (fst x) v)) m).
(** pruneLeafsExcluding, RB:62-74: one pass over the map, and the loop *)
Definition prune_pass (keep : nat) (m : visited) : visited * bool :=
  fold_left (fun (s : visited * bool) v =>
               match look v (fst s) with
               | Some c => if Nat.eqb v keep || negb (is_leaf c) then s else (remove v (fst s), true)
               | None => s
               end) (map fst m) (m, false).
Fixpoint prune (fuel : nat) (keep : nat) (m : visited) : option visited :=
  match fuel with
  | 0 => None
  | S k => let (m', progress) := prune_pass keep m in if progress then prune k keep m' else Some m'
  end.
(** forAllValidLanelets, RB:84-91 *)
Definition valid (m : visited) : list nat := map fst (filter (fun x => negb (is_leaf (snd x))) m).

(** ConflictingSectionFilter, GU:221-262 *)
Definition section_step (s : bool * bool) (e : edge) : bool * bool :=
  if negb (mem (e_tgt e) on) then s
  else
    let '(nb, cf) := s in
    let '(nb, cf) :=
      if rel m_changes e then
        let back := existsb (fun o => Nat.eqb (e_tgt o) (e_src e) && rel m_changes o) (outs (e_tgt e)) in
        let nb' := nb || back in (nb', cf || negb nb')
      else (nb, cf) in
    (nb, cf || rel m_conflict e).
Definition conflicts_with_route (v : nat) : bool :=
  if mem v on then false
  else let '(nb, cf) := fold_left section_step (outs v) (false, false) in cf && negb nb.
(** ConflictOrAdjacentToRouteGraph, GU:400-401 *)
Definition section_next (v : nat) : list nat :=
  map e_tgt (filter (fun e => rel m_drivable e && conflicts_with_route (e_tgt e)) (outs v)).

(** neverConflictsWithRoute, RB:232-245 *)
Definition beside_route (v : nat) : bool :=
  existsb (fun e => rel m_beside e && mem (e_src e) on) (filter (fun e => negb (relation_eqb (ei_rel (e_info e)) Conflicting)) (ins v)) ||
  existsb (fun e => rel m_beside e && mem (e_tgt e) on) (filter (fun e => negb (relation_eqb (ei_rel (e_info e)) Conflicting)) (outs v)).
Definition never_conflicts (path : list nat) : bool := forallb beside_route path.

(** getNext and anySidewayNeighbourIs, GU:28-36, 76-90 *)
Definition get_next (mask : N) (v : nat) : option nat := option_map e_tgt (find (rel mask) (outs v)).
Fixpoint sideway (mask : N) (f : nat -> bool) (fuel : nat) (cur : option nat) : option bool :=
  match cur with
  | None => Some false
  | Some v => if f v then Some true
              else match fuel with 0 => None | S k => sideway mask f k (get_next mask v) end
  end.
Definition any_sideway (f : nat -> bool) (v : nat) : option bool :=
  match sideway (bits RLeft) f n (Some v) with
  | Some false => sideway (bits RRight) f n (get_next (bits RRight) v)
  | o => o
  end.
(** OnRouteAndConflictFilter, GU:265-298 *)
Definition on_route_and_conflict (path : list nat) (from to : nat) (v : nat) : option bool :=
  any_sideway (fun u => mem v on &&
                        (Nat.eqb u from || Nat.eqb u to ||
                         existsb (fun e => rel m_conflict e && mem (e_tgt e) path) (outs u))) v.
(** ConflictsWithPathGraph, GU:402 *)
Fixpoint filter_res (f : nat -> option bool) (l : list nat) : result (list nat) :=
  match l with
  | [] => Done []
  | t :: r => match f t with
              | None => Endless
              | Some b => rbind (filter_res f r) (fun r' => Done (if b then t :: r' else r'))
              end
  end.
Definition path_next (path : list nat) (from to : nat) (v : nat) : result (list nat) :=
  filter_res (on_route_and_conflict path from to)
             (map e_tgt (filter (fun e => negb (relation_eqb (ei_rel (e_info e)) Conflicting)) (outs v))).
(** hasPathFromTo, GU:369-385 *)
Definition has_path (next : nat -> result (list nat)) (from to : nat) : result bool :=
  rbind (dfs next (mem to) (S n) [] from []) (fun x => Done (fst (fst x))).
(** alwaysConflictsWithRoute, RB:246-263 *)
Definition always_conflicts (path : list nat) : result bool :=
  match path, rev path with
  | f :: _, b :: _ =>
      match find (fun e => mem (e_src e) on) (filter (rel m_drivable) (ins f)),
            find (fun e => mem (e_tgt e) on) (filter (rel m_drivable) (outs b)) with
      | Some e1, Some e2 => has_path (path_next path (e_src e1) (e_tgt e2)) (e_src e1) (e_tgt e2)
      | _, _ => Done false
      end
  | _, _ => Undefined
  end.

(** forEachVertexOutOfRoute, RB:196-229. [permitted] lists the vertices of newConflictingVertices_ whose flag is set;
    to set the flag of another vertex is an access to the element behind the last one. *)
Definition permit (fresh permitted path : list nat) : result (list nat) :=
  rbind (if never_conflicts path then Done true else always_conflicts path) (fun b =>
    if b then (if forallb (fun v => mem v fresh) path then Done (path ++ permitted) else Undefined)
    else Done permitted).
Fixpoint permit_paths (fresh permitted : list nat) (paths : list (list nat)) : result (list nat) :=
  match paths with
  | [] => Done permitted
  | p :: r => rbind (permit fresh permitted p) (fun permitted => permit_paths fresh permitted r)
  end.
Definition connects_to_route (v : nat) : bool :=
  existsb (fun e => rel m_drivable e && mem (e_src e) on) (filter (rel m_drivable) (ins v)).
Fixpoint permit_all (fresh permitted : list nat) (l : list nat) : result (list nat) :=
  match l with
  | [] => Done permitted
  | v :: r =>
      rbind (if connects_to_route v
             then rbind (dfs (fun u => Done (section_next u)) (fun _ => false) (S n) [] v [])
                        (fun x => permit_paths fresh permitted (snd (fst x)))
             else Done permitted) (fun permitted => permit_all fresh permitted r)
  end.
Definition out_of_route (m : visited) : result (list nat) :=
  let fresh := filter conflicts_with_route (valid m) in
  rbind (permit_all fresh [] fresh) (fun permitted => Done (filter (fun v => negb (mem v permitted)) fresh)).

(** addAdjacentLaneletsToRoute, RB:392-409: the lanelets that are inserted *)
Definition add_adjacent (begin end_ : nat) : result (list nat) :=
  match visit begin with
  | None => Endless
  | Some m =>
      match prune (S n) end_ m with
      | None => Endless
      | Some m =>
          rbind (out_of_route m) (fun gone =>
            Done (filter (fun v => negb (mem v on)) (valid (fold_left (fun m v => remove v m) gone m))))
      end
  end.
End OnRoute.

(** The loop of getRouteFromShortestPath, RB:450-453 *)
Fixpoint grow (fuel : nat) (last : list nat) (begin end_ : nat) (on : list nat) : result (list nat) :=
  match fuel with
  | 0 => Endless
  | S k => rbind (add_adjacent on last begin end_) (fun new =>
             match new with
             | [] => Done on
             | _ => grow k last begin end_ (new ++ on)
             end)
  end.
End Original.

(** The route: its graph (RouteGraph with one cost module), and for every vertex the lane id and conflictingInMap
    (RouteVertexInfo, Graph.h:27-33). [r_next] is laneId_, [r_source] sourceElem_ of the visitor. *)
Record route := Route {
  r_graph : graph;
  r_lanes : list N;
  r_conflicts : list (list elem);
  r_next : N;
  r_source : nat }.
(** LaneId is a uint16_t, Forward.h:23 *)
Definition next_lane (l : N) : N := ((l + 1) mod 65536)%N.
(** The visitor before the search, RB:369 *)
Definition empty_route : route := Route (empty_graph 1) [] [] 1000 0.

Fixpoint set_nth {T} (i : nat) (f : T -> T) (l : list T) : list T :=
  match l with
  | [] => []
  | x :: r => match i with 0 => f x :: r | S j => x :: set_nth j f r end
  end.

Section Finalize.
Variable g : graph.
Variable es : list edge.
Variable on : list nat.
Notation outs := (outs es).
Notation ins := (ins es).
(** OnRouteGraph, GU:395 *)
Definition route_out (v : nat) : list edge := filter (fun e => mem (e_tgt e) on) (outs v).
Definition route_in (v : nat) : list edge := filter (fun e => mem (e_src e) on) (ins v).

(** hasOneSuccessor, RB:355-366 *)
Fixpoint one_successor (has_one : bool) (l : list edge) : bool :=
  match l with
  | [] => has_one
  | e :: r => let more := relation_eqb (ei_rel (e_info e)) Successor in
              if more && has_one then false else one_successor (has_one || more) r
  end.
(** isDifferentLane, RB:334-346 *)
Definition different_lane (e : edge) : bool :=
  if negb (relation_eqb (ei_rel (e_info e)) Successor) then true
  else if negb (one_successor false (route_in (e_tgt e))) then true
  else negb (one_successor false (route_out (e_src e))).

(** g[v].lanelet(), Graph.h:20 *)
Definition lanelet_at (v : nat) : result elem :=
  match vertex_elem g v with
  | Some (ELanelet d i) => Done (ELanelet d i)
  | Some (EArea _) => Thrown
  | None => Undefined
  end.
Definition add_lanelet (r : route) (a : elem) (lane next : N) : route :=
  Route (add_vertex (r_graph r) a) (r_lanes r ++ [lane]) (r_conflicts r ++ [[]]) next (r_source r).
(** examine_vertex, RB:283-292 *)
Definition examine_vertex (r : route) (v : nat) : result route :=
  rbind (lanelet_at v) (fun a =>
    match g_lookup (r_graph r) with
    | [] => let r' := add_lanelet r a (r_next r) (r_next r) in
            Done (Route (r_graph r') (r_lanes r') (r_conflicts r') (r_next r') (length (g_verts (r_graph r))))
    | _ => match get_vertex (r_graph r) a with
           | Some u => Done (Route (r_graph r) (r_lanes r) (r_conflicts r) (r_next r) u)
           | None => Undefined
           end
    end).
(** setLaneIdFromTo, RB:325-332 *)
Definition set_lane (from to : N) (l : list N) : list N := map (fun i => if N.eqb i from then to else i) l.
(** routeGraph()[v].laneId *)
Definition lane_at (r : route) (v : nat) : result N :=
  match nth_error (r_lanes r) v with Some l => Done l | None => Undefined end.
(** examine_edge, RB:295-313 *)
Definition examine_edge (r : route) (e : edge) : result route :=
  rbind (lanelet_at (e_tgt e)) (fun a =>
  rbind (lane_at r (r_source r)) (fun own =>
  rbind (match get_vertex (r_graph r) a with
         | None =>
             let r' := if different_lane e then add_lanelet r a (next_lane (r_next r)) (next_lane (r_next r))
                       else add_lanelet r a own (r_next r) in
             Done (length (g_verts (r_graph r)), r')
         | Some u =>
             rbind (lane_at r u) (fun other =>
             if negb (different_lane e) && relation_eqb (ei_rel (e_info e)) Successor && negb (N.eqb own other)
             then Done (u, Route (r_graph r) (set_lane other own (r_lanes r)) (r_conflicts r) (r_next r) (r_source r))
             else Done (u, r))
         end) (fun x =>
  let '(u, r') := x in
  match add_edge_v (r_graph r') (r_source r') u (EInfo (ei_cost (e_info e)) 0 (ei_rel (e_info e))) with
  | (_, ThrowsRoutingGraphError) => Thrown
  | (h, _) => Done (Route h (r_lanes r') (r_conflicts r') (r_next r') (r_source r'))
  end))).
Fixpoint examine_edges (r : route) (l : list edge) : result route :=
  match l with
  | [] => Done r
  | e :: t => rbind (examine_edge r e) (fun r => examine_edges r t)
  end.
(** finish_vertex, RB:314-321: the elements in conflict in the whole graph *)
Fixpoint elems_at (vs : list nat) : result (list elem) :=
  match vs with
  | [] => Done []
  | v :: t => match vertex_elem g v with
              | None => Undefined
              | Some a => rbind (elems_at t) (fun l => Done (a :: l))
              end
  end.
Definition finish_vertex (r : route) (v : nat) : result route :=
  rbind (elems_at (map e_tgt (filter (rel (bits Conflicting)) (outs v)))) (fun l =>
    Done (Route (r_graph r) (r_lanes r) (set_nth (r_source r) (fun old => old ++ l) (r_conflicts r)) (r_next r) (r_source r))).
Fixpoint construct (r : route) (order : list nat) : result route :=
  match order with
  | [] => Done r
  | v :: t => rbind (examine_vertex r v) (fun r =>
              rbind (examine_edges r (route_out v)) (fun r =>
              rbind (finish_vertex r v) (fun r => construct r t)))
  end.
(** finalizeRoute, RB:412-424. The path and the submap of the lanelets are determined by the arguments and the
    vertices. *)
Definition finalize (begin : nat) (goal : elem) : result (option route) :=
  match bfs (fun v => map e_tgt (route_out v)) (S (length (g_verts g))) begin with
  | None => Endless
  | Some order =>
      rbind (construct empty_route order) (fun r =>
        Done (match get_vertex (r_graph r) goal with Some _ => Some r | None => None end))
  end.
End Finalize.

(** getRouteFromShortestPath, RB:440-455. [fuel] bounds the number of rounds. *)
Fixpoint vertices_of (g : graph) (path : list elem) : result (list nat) :=
  match path with
  | [] => Done []
  | a :: r => match get_vertex g a with
              | None => Undefined
              | Some v => rbind (vertices_of g r) (fun l => Done (v :: l))
              end
  end.
Definition route_lanelets (g : graph) (path : list elem) (lane_changes : bool) (costid : N) : result (list nat) :=
  rbind (vertices_of g path) (fun vs =>
    match vs, rev vs with
    | b :: _, e :: _ =>
        let es := orig_edges g lane_changes costid in
        let n := length (g_verts g) in
        rbind (last_lanelets es n vs) (fun last => grow es n (S n) last b e vs)
    | _, _ => Undefined
    end).
Definition build_route (g : graph) (path : list elem) (lane_changes : bool) (costid : N) : result (option route) :=
  rbind (route_lanelets g path lane_changes costid) (fun on =>
  rbind (vertices_of g path) (fun vs =>
    match vs, rev path with
    | b :: _, goal :: _ => finalize g (orig_edges g lane_changes costid) on b goal
    | _, _ => Undefined
    end)).

(** Route::numLanes, lanelet2_routing/src/Route.cpp:193-200; Route::size, 225; Route::conflictingInMap, 336-342;
    Route::conflictingInRoute, 328-334 with getLanelets, 107-112; Route::contains, 352 *)
Definition num_lanes (r : route) : nat := length (nodup N.eq_dec (r_lanes r)).
(** RouteVertexInfo::laneId of a lanelet *)
Definition lane_of (r : route) (a : elem) : option N :=
  match get_vertex (r_graph r) a with Some v => nth_error (r_lanes r) v | None => None end.
Definition route_size (r : route) : nat := length (g_verts (r_graph r)).
Definition conflicting_in_map (r : route) (a : elem) : list elem :=
  match get_vertex (r_graph r) a with
  | None => []
  | Some v => nth v (r_conflicts r) []
  end.
Definition contains (r : route) (a : elem) : bool :=
  match get_vertex (r_graph r) a with Some _ => true | None => false end.
End Builder.
Arguments route : clear implicits.
