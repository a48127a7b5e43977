(** The routing graph container: vertices, edges, filtered views and the direct
    neighbour queries of RoutingGraph. *)
From Coq Require Import NArith List Bool Arith.
From Verif Require Import CostAlg.
Import ListNotations.

(** ConstLaneletOrArea (lanelet2_core/include/lanelet2_core/primitives/LaneletOrArea.h:15-100).
    Equality of lanelets is equality of the shared data and of the inverted flag
    (lanelet2_core/include/lanelet2_core/primitives/Lanelet.h:369-376), equality of areas is
    equality of the shared data. A data object is represented by a number. *)
Inductive elem := ELanelet (data : N) (inverted : bool) | EArea (data : N).

Definition elem_eqb (a b : elem) : bool :=
  match a, b with
  | ELanelet d i, ELanelet d' i' => N.eqb d d' && Bool.eqb i i'
  | EArea d, EArea d' => N.eqb d d'
  | _, _ => false
  end.

(** LaneletOrArea.h:35 *)
Definition is_lanelet (a : elem) : bool := match a with ELanelet _ _ => true | EArea _ => false end.

(** lanelet2_routing/include/lanelet2_routing/Forward.h:56-65 *)
Inductive relation :=
| RNone | Successor | RLeft | RRight | AdjacentLeft | AdjacentRight | Conflicting | RArea.

Definition relation_eqb (a b : relation) : bool :=
  match a, b with
  | RNone, RNone | Successor, Successor | RLeft, RLeft | RRight, RRight
  | AdjacentLeft, AdjacentLeft | AdjacentRight, AdjacentRight
  | Conflicting, Conflicting | RArea, RArea => true
  | _, _ => false
  end.

(** The uint8_t value of the enumerators, Forward.h:57-64 *)
Definition bits (r : relation) : N :=
  match r with
  | RNone => 0 | Successor => 1 | RLeft => 2 | RRight => 4
  | AdjacentLeft => 8 | AdjacentRight => 16 | Conflicting => 32 | RArea => 64
  end%N.

(** Forward.h:69 *)
Definition all_relations : N := 127%N.
(** Forward.h:72: complement of an uint8_t (after integer promotion and conversion back) *)
Definition mask_not (m : N) : N := N.lxor m 255.
(** Forward.h:73-75, 77-79 *)
Definition mask_and (a b : N) : N := N.land a b.
Definition mask_or (a b : N) : N := N.lor a b.

Section WithCost.
Context {A : CostAlg}.

(** EdgeInfo, lanelet2_routing/include/lanelet2_routing/internal/Graph.h:41-45. The builder stores
    single enumerators as relation, never combinations. *)
Record einfo := EInfo { ei_cost : cost A; ei_costid : N; ei_rel : relation }.
Record edge := Edge { e_src : nat; e_tgt : nat; e_info : einfo }.

(** Graph<BaseGraphT>, Graph.h:106-243. boost::adjacency_list with vecS storage: vertices are numbered
    in insertion order, parallel edges are kept, edges of a vertex are listed in insertion order.
    The lookup is an unordered_map; [emplace] keeps the first entry of a key. *)
Record graph := Graph {
  g_verts : list elem;
  g_lookup : list (elem * nat);
  g_edges : list edge;
  g_numcosts : N }.

(** Graph.h:114 *)
Definition empty_graph (n : N) : graph := Graph [] [] [] n.

Fixpoint assoc (k : elem) (l : list (elem * nat)) : option nat :=
  match l with
  | [] => None
  | (k', v) :: r => if elem_eqb k k' then Some v else assoc k r
  end.

(** Graph::getVertex, Graph.h:224-231 *)
Definition get_vertex (g : graph) (e : elem) : option nat := assoc e (g_lookup g).

(** graph_[v].laneletOrArea *)
Definition vertex_elem (g : graph) (v : nat) : option elem := nth_error (g_verts g) v.

(** Graph::addVertex, Graph.h:171-177 *)
Definition add_vertex (g : graph) (e : elem) : graph :=
  let vd := length (g_verts g) in
  Graph (g_verts g ++ [e])
        (match assoc e (g_lookup g) with Some _ => g_lookup g | None => g_lookup g ++ [(e, vd)] end)
        (g_edges g) (g_numcosts g).

Inductive add_result := Added | Dropped | ThrowsRoutingGraphError.

(** Graph::addEdge(Vertex, Vertex, EdgeInfo), Graph.h:189-199. The descriptors are assumed to come from
    getVertex/addVertex (boost would silently enlarge the graph otherwise). *)
Definition add_edge_v (g : graph) (u v : nat) (i : einfo) : graph * add_result :=
  if negb (cfinite A (ei_cost i)) then (g, Dropped)
  else if cltb A (ei_cost i) (czero A) then (g, ThrowsRoutingGraphError)
  else (Graph (g_verts g) (g_lookup g) (g_edges g ++ [Edge u v i]) (g_numcosts g), Added).

(** Graph::addEdge(ConstLaneletOrArea, ConstLaneletOrArea, EdgeInfo), Graph.h:179-187. The assertion for
    an unknown element is taken as disabled (release build). *)
Definition add_edge (g : graph) (a b : elem) (i : einfo) : graph * add_result :=
  match get_vertex g a, get_vertex g b with
  | Some u, Some v => add_edge_v g u v i
  | _, _ => (g, Dropped)
  end.

(** Histories of building operations (what RoutingGraphBuilder does with the graph,
    lanelet2_routing/src/RoutingGraphBuilder.cpp:148-163, 341-378). A caller may continue after an
    exception. *)
Inductive gop := OpVertex (e : elem) | OpEdge (a b : elem) (i : einfo).
Definition gstep (g : graph) (o : gop) : graph :=
  match o with
  | OpVertex e => add_vertex g e
  | OpEdge a b i => fst (add_edge g a b i)
  end.
Definition gresult (g : graph) (o : gop) : add_result :=
  match o with
  | OpVertex e => Added
  | OpEdge a b i => snd (add_edge g a b i)
  end.
Definition gbuild (n : N) (ops : list gop) : graph := fold_left gstep ops (empty_graph n).

(** The named views, Graph.h:121-166 *)
Inductive view_name :=
| WithLaneChanges | WithoutLaneChanges | WithAreasAndLaneChanges | WithAreasWithoutLaneChanges
| VLeft | SomehowLeft | VRight | SomehowRight | VAdjacentLeft | VAdjacentRight
| VConflicting | WithoutConflicting.

Definition view_mask (n : view_name) : N :=
  match n with
  | WithLaneChanges => mask_or (mask_or (bits Successor) (bits RLeft)) (bits RRight)
  | WithoutLaneChanges => bits Successor
  | WithAreasAndLaneChanges => mask_or (mask_or (mask_or (bits Successor) (bits RLeft)) (bits RRight)) (bits RArea)
  | WithAreasWithoutLaneChanges => mask_or (bits Successor) (bits RArea)
  | VLeft => bits RLeft
  | SomehowLeft => mask_or (bits RLeft) (bits AdjacentLeft)
  | VRight => bits RRight
  | SomehowRight => mask_or (bits RRight) (bits AdjacentRight)
  | VAdjacentLeft => bits AdjacentLeft
  | VAdjacentRight => bits AdjacentRight
  | VConflicting => bits Conflicting
  | WithoutConflicting => mask_or all_relations (mask_not (bits Conflicting))
  end.

(** EdgeCostFilter::operator(), Graph.h:88-91 *)
Definition edge_passes (costid mask : N) (i : einfo) : bool :=
  N.eqb (ei_costid i) costid &&
  (N.eqb mask all_relations || negb (N.eqb (mask_and mask (bits (ei_rel i))) 0)).

(** A filtered view of the graph. *)
Record gview := GView { v_graph : graph; v_costid : N; v_mask : N }.

(** Graph::getFilteredGraph, Graph.h:234-239; None is the InvalidInputError. *)
Definition get_filtered (g : graph) (n : view_name) (costid : N) : option gview :=
  if N.leb (g_numcosts g) costid then None else Some (GView g costid (view_mask n)).

(** boost::out_edges / boost::in_edges of a filtered graph *)
Definition out_edges (v : gview) (u : nat) : list edge :=
  filter (fun e => Nat.eqb (e_src e) u && edge_passes (v_costid v) (v_mask v) (e_info e)) (g_edges (v_graph v)).
Definition in_edges (v : gview) (u : nat) : list edge :=
  filter (fun e => Nat.eqb (e_tgt e) u && edge_passes (v_costid v) (v_mask v) (e_info e)) (g_edges (v_graph v)).

(** boost::make_reverse_graph: out edges are the in edges with source and target swapped
    (GetGraph<true>, lanelet2_routing/src/RoutingGraph.cpp:195-201). *)
Definition flip_edge (e : edge) : edge := Edge (e_tgt e) (e_src e) (e_info e).
Definition directed_out (backw : bool) (v : gview) (u : nat) : list edge :=
  if backw then map flip_edge (in_edges v u) else out_edges v u.

(** boost::edge(u, v, g) of an adjacency_list: the first edge between the vertices. *)
Definition first_edge (g : graph) (u v : nat) : option edge :=
  find (fun e => Nat.eqb (e_src e) u && Nat.eqb (e_tgt e) v) (g_edges g).

(** Graph::getEdgeInfo, Graph.h:203-205, 210-221 (unfiltered graph) *)
Definition get_edge_info (g : graph) (a b : elem) : option einfo :=
  match get_vertex g a, get_vertex g b with
  | Some u, Some v => option_map e_info (first_edge g u v)
  | _, _ => None
  end.
(** Graph::getEdgeInfoFor on a filtered view: boost::edge of a filtered_graph looks up the first edge of
    the underlying graph and then applies the predicate to this edge only. *)
Definition get_edge_info_for (w : gview) (a b : elem) : option einfo :=
  match get_vertex (v_graph w) a, get_vertex (v_graph w) b with
  | Some u, Some v =>
      match first_edge (v_graph w) u v with
      | Some e => if edge_passes (v_costid w) (v_mask w) (e_info e) then Some (e_info e) else None
      | None => None
      end
  | _, _ => None
  end.

(** Outcomes of queries: a result or an exception (InvalidInputError, or boost::bad_get of a cast). *)
Inductive outcome (T : Type) := Ret (x : T) | Throws.
Arguments Ret {T} x. Arguments Throws {T}.

(** RoutingGraph::routingRelation, RoutingGraph.cpp:436-444 *)
Definition routing_relation (g : graph) (a b : elem) (include_conflicting : bool) : outcome (option relation) :=
  if include_conflicting then Ret (option_map ei_rel (get_edge_info g a b))
  else match get_filtered g WithoutConflicting 0 with
       | None => Throws
       | Some w => Ret (option_map ei_rel (get_edge_info_for w a b))
       end.

(** getAllEdgesFromGraph, RoutingGraph.cpp:160-178 *)
Definition all_edges_from (g : graph) (w : gview) (a : elem) (edges_out : bool) : list (option elem) :=
  match get_vertex g a with
  | None => []
  | Some v => if edges_out then map (fun e => vertex_elem g (e_tgt e)) (out_edges w v)
              else map (fun e => vertex_elem g (e_src e)) (in_edges w v)
  end.
(** getLaneletEdgesFromGraph, RoutingGraph.cpp:180-191 *)
Fixpoint keep_lanelets (l : list (option elem)) : list elem :=
  match l with
  | [] => []
  | Some (ELanelet d i) :: r => ELanelet d i :: keep_lanelets r
  | _ :: r => keep_lanelets r
  end.
(** RoutingGraph::following / previous, RoutingGraph.cpp:446-449, 460-463 *)
Definition following (g : graph) (a : elem) (lane_changes : bool) : outcome (list elem) :=
  match get_filtered g (if lane_changes then WithLaneChanges else WithoutLaneChanges) 0 with
  | None => Throws
  | Some w => Ret (keep_lanelets (all_edges_from g w a true))
  end.
Definition previous (g : graph) (a : elem) (lane_changes : bool) : outcome (list elem) :=
  match get_filtered g (if lane_changes then WithLaneChanges else WithoutLaneChanges) 0 with
  | None => Throws
  | Some w => Ret (keep_lanelets (all_edges_from g w a false))
  end.
(** RoutingGraph::conflicting, RoutingGraph.cpp:570-572 *)
Definition conflicting (g : graph) (a : elem) : outcome (list (option elem)) :=
  match get_filtered g VConflicting 0 with
  | None => Throws
  | Some w => Ret (all_edges_from g w a true)
  end.

(** neighboringImpl (throwOnError = false) and neighboringLaneletImpl, RoutingGraph.cpp:106-130 *)
Definition neighbouring (w : gview) (v : nat) : option elem :=
  match out_edges w v with
  | [] => None
  | e :: _ => vertex_elem (v_graph w) (e_tgt e)
  end.
Definition neighbouring_lanelet (w : gview) (v : nat) : option elem :=
  match neighbouring w v with
  | Some (ELanelet d i) => Some (ELanelet d i)
  | _ => None
  end.

(** RoutingGraph::left/right/adjacentLeft/adjacentRight, RoutingGraph.cpp:141-148, 492-512 *)
Definition neighbour_query (n : view_name) (g : graph) (a : elem) (costid : N) : outcome (option elem) :=
  match get_vertex g a with
  | None => Ret None
  | Some v => match get_filtered g n costid with
              | None => Throws
              | Some w => Ret (neighbouring_lanelet w v)
              end
  end.

(** getUntilEnd, RoutingGraph.cpp:150-158; the fuel bounds the number of iterations, None means that
    it was not sufficient. *)
Fixpoint until_end {T} (next : T -> option T) (fuel : nat) (cur : T) : option (list T) :=
  match fuel with
  | 0 => None
  | S k => match next cur with
           | None => Some []
           | Some x => option_map (cons x) (until_end next k x)
           end
  end.

(** RoutingGraph::lefts/rights/adjacentLefts/adjacentRights, RoutingGraph.cpp:514-520, 542-548.
    [Ret None] means that the fuel was not sufficient. *)
Definition neighbours_until_end (n : view_name) (g : graph) (a : elem) (costid : N) (fuel : nat)
  : outcome (option (list elem)) :=
  match get_vertex g a with
  | None => match fuel with 0 => Ret None | S _ => Ret (Some []) end
  | Some _ =>
      match get_filtered g n costid with
      | None => Throws
      | Some w => Ret (until_end (fun x => match get_vertex g x with
                                           | None => None
                                           | Some v => neighbouring_lanelet w v
                                           end) fuel a)
      end
  end.

(** RoutingGraph::besides, RoutingGraph.cpp:480-490 *)
Definition besides (g : graph) (a : elem) (costid : N) (fuel : nat) : outcome (option (list elem)) :=
  match neighbours_until_end VLeft g a costid fuel, neighbours_until_end VRight g a costid fuel with
  | Ret (Some l), Ret (Some r) => Ret (Some (rev l ++ a :: r))
  | Ret _, Ret _ => Ret None
  | _, _ => Throws
  end.
End WithCost.
Arguments einfo : clear implicits.
Arguments edge : clear implicits.
Arguments graph : clear implicits.
Arguments gop : clear implicits.
Arguments gview : clear implicits.
Arguments Ret {T} x. Arguments Throws {T}.
