(** DijkstraStyleSearch and the graph queries built on it. *)
From Coq Require Import NArith List Bool Arith.
From stdpp Require Import gmap.
From Verif Require Import CostAlg GraphModel.
Import ListNotations.

Section Search.
Context {A : CostAlg}.

(** VertexState, lanelet2_routing/include/lanelet2_routing/internal/ShortestPath.h:23-30 *)
Record vstate := VS {
  vs_pred : nat; vs_cost : cost A; vs_len : nat; vs_nlc : nat; vs_predicate : bool; vs_leaf : bool }.
(** VertexState{} with the default member initialisers (double{} is 0.) *)
Definition vs_default : vstate := VS 0 (czero A) 0 0 true true.

(** VertexVisitInformation, ShortestPath.h:15-21 *)
Record vinfo := VI { vi_vertex : nat; vi_pred : nat; vi_cost : cost A; vi_len : nat; vi_nlc : nat }.

Local Notation smap := (gmap nat vstate).

(** DijkstraCostMap: get, ShortestPath.h:45-51 *)
Definition dist (m : smap) (v : nat) : cost A :=
  match m !! v with Some s => vs_cost s | None => cinf A end.
(** operator[] of the map: inserts a default state if the key is missing *)
Definition at_or_new (m : smap) (v : nat) : vstate :=
  match m !! v with Some s => s | None => vs_default end.
(** put, ShortestPath.h:54-56 *)
Definition put_cost (m : smap) (v : nat) (c : cost A) : smap :=
  let s := at_or_new m v in
  <[v := VS (vs_pred s) c (vs_len s) (vs_nlc s) (vs_predicate s) (vs_leaf s)]> m.

(** Visitor::edge_relaxed, ShortestPath.h:95-103; None: map_->at throws (source unknown) *)
Definition edge_relaxed (m : smap) (e : edge A) : option smap :=
  match m !! e_src e with
  | None => None
  | Some p =>
      let f := at_or_new m (e_tgt e) in
      Some (<[e_tgt e := VS (e_src e) (vs_cost f) (S (vs_len p))
                            (vs_nlc p + if relation_eqb (ei_rel (e_info e)) Successor then 0 else 1)
                            (vs_predicate f) (vs_leaf f)]> m)
  end.

(** What can stop the search. [Broken] stands for undefined behaviour or an unexpected exception inside
    the search: updating a vertex that is not in the queue, pushing one that already is, a failing
    map::at, negative edge weights (boost::negative_edge). *)
Inductive relaxed := RelOk (m : smap) (q : list nat) | RelBroken.

(** One iteration over the out edges inside boost::dijkstra_shortest_paths_no_color_map_no_init
    (called at ShortestPath.h:123-126; the boost sources are not part of the repository, the loop is
    modelled from the boost documentation/implementation: negative weight check, relax_target,
    edge_relaxed, push or update of the queue). *)
Definition relax_edge (m : smap) (q : list nat) (e : edge A) : relaxed :=
  let w := ei_cost (e_info e) in
  if cltb A w (czero A) then RelBroken
  else
    let dv := dist m (e_tgt e) in
    let undiscovered := negb (cltb A dv (cinf A)) in
    let d := cplus A (dist m (e_src e)) w in
    if cltb A d dv then
      match edge_relaxed (put_cost m (e_tgt e) d) e with
      | None => RelBroken
      | Some m' =>
          let queued := existsb (Nat.eqb (e_tgt e)) q in
          if undiscovered then (if queued then RelBroken else RelOk m' (e_tgt e :: q))
          else (if queued then RelOk m' q else RelBroken)
      end
    else RelOk m q.

Fixpoint relax_edges (m : smap) (q : list nat) (es : list (edge A)) : relaxed :=
  match es with
  | [] => RelOk m q
  | e :: r => match relax_edge m q e with
              | RelOk m' q' => relax_edges m' q' r
              | RelBroken => RelBroken
              end
  end.

(** The d-ary heap (boost::d_ary_heap_indirect): top() returns some vertex of minimal distance. Which one
    of several minimal ones is left to the oracle [tie], so that every heap layout is covered. *)
Definition minimal_in (m : smap) (q : list nat) (v : nat) : bool :=
  forallb (fun w => negb (cltb A (dist m w) (dist m v))) q.
Definition pop (m : smap) (q : list nat) (choice : nat) : option (nat * list nat) :=
  match List.filter (minimal_in m q) q with
  | [] => None
  | x :: r =>
      let v := nth (choice mod S (length r)) (x :: r) x in
      Some (v, List.filter (fun w => negb (Nat.eqb w v)) q)
  end.

Section Query.
Context {St : Type}.
(** The view that is searched, as list of out edges per vertex. *)
Variable out : nat -> list (edge A).
(** The visit function: may keep a state, may throw (None). *)
Variable cb : St -> vinfo -> St * option bool.
Variable tie : nat -> nat.

Record search := Search {
  s_map : smap; s_queue : list nat; s_cb : St;
  s_log : list (vinfo * option bool)   (* calls of the visit function with the answers, oldest first *)
}.

Inductive sresult := Running (s : search) | Finished (s : search) | Aborted (s : search) | Broken.

(** examine_vertex, ShortestPath.h:88-93, followed by the loop over the out edges that the LeafFilter
    (ShortestPath.h:67-76) lets pass. *)
Definition visit (s : search) (v : nat) (q : list nat) : sresult :=
  match s_map s !! v with
  | None => Broken
  | Some vs =>
      let info := VI v (vs_pred vs) (vs_cost vs) (vs_len vs) (vs_nlc vs) in
      let '(st', ans) := cb (s_cb s) info in
      let log' := s_log s ++ [(info, ans)] in
      match ans with
      | None => Aborted (Search (s_map s) q st' log')
      | Some b =>
          let m1 := <[v := VS (vs_pred vs) (vs_cost vs) (vs_len vs) (vs_nlc vs) b (vs_leaf vs)]> (s_map s) in
          match m1 !! vs_pred vs with
          | None => Broken
          | Some ps =>
              let m2 := <[vs_pred vs := VS (vs_pred ps) (vs_cost ps) (vs_len ps) (vs_nlc ps) (vs_predicate ps)
                                           (Nat.eqb v (vs_pred vs))]> m1 in
              if negb (cltb A (dist m2 v) (cinf A)) then Finished (Search m2 q st' log')
              else
                match relax_edges m2 q (if b then out v else []) with
                | RelBroken => Broken
                | RelOk m3 q3 => Running (Search m3 q3 st' log')
                end
          end
      end
  end.

Definition sstep (s : search) : sresult :=
  match pop (s_map s) (s_queue s) (tie (length (s_log s))) with
  | None => Finished s
  | Some (v, q) => visit s v q
  end.

(** The main loop; [Running] as result means that the fuel was not sufficient. *)
Fixpoint srun (fuel : nat) (s : search) : sresult :=
  match fuel with
  | 0 => Running s
  | S k => match sstep s with
           | Running s' => srun k s'
           | r => r
           end
  end.

(** DijkstraStyleSearch::query, ShortestPath.h:117-127 *)
Definition query_init (start : nat) (st : St) : search :=
  Search (<[start := VS start (czero A) 1 0 true true]> ∅) [start] st [].
Definition query (fuel start : nat) (st : St) : sresult := srun fuel (query_init start st).
End Query.
Arguments search : clear implicits.
Arguments sresult : clear implicits.

(** buildPath, lanelet2_routing/src/RoutingGraph.cpp:210-225. The result vector is created with default
    constructed entries (None) and written by index; [BPBroken]: map.at throws or an index is out of
    bounds; [BPLoop]: the predecessor chain did not end within the fuel. *)
Inductive bpres := BPPath (p : list (option nat)) | BPBroken | BPLoop.

Definition set_at (i : nat) (x : nat) (p : list (option nat)) : option (list (option nat)) :=
  if i <? length p then Some (firstn i p ++ Some x :: skipn (S i) p) else None.

Fixpoint build_loop (backw : bool) (m : smap) (size : nat) (fuel : nat) (v : nat) (p : list (option nat)) : bpres :=
  match fuel with
  | 0 => BPLoop
  | S k =>
      match m !! v with
      | None => BPBroken
      | Some s =>
          (* size_t arithmetic: a length larger than size or equal to 0 wraps to a huge index *)
          let idx := if backw then (if size <? vs_len s then None else Some (size - vs_len s))
                     else (match vs_len s with 0 => None | S i => Some i end) in
          match idx with
          | None => BPBroken
          | Some i =>
              match set_at i v p with
              | None => BPBroken
              | Some p' => if Nat.eqb (vs_pred s) v then BPPath p'
                           else build_loop backw m size k (vs_pred s) p'
              end
          end
      end
  end.

Definition build_path (backw : bool) (m : smap) (v : nat) : bpres :=
  match m !! v with
  | None => BPBroken
  | Some s => build_loop backw m (vs_len s) (S (vs_len s)) v (repeat None (vs_len s))
  end.

End Search.
Arguments vstate : clear implicits.
Arguments vinfo : clear implicits.
Notation smap A := (gmap nat (vstate A)).
Arguments search : clear implicits.
Arguments sresult : clear implicits.
Arguments relaxed : clear implicits.

Section Queries.
Context {A : CostAlg}.

(** Results of the graph queries: a value, an exception, or a failure of the search. *)
Inductive qres (T : Type) := QRet (x : T) | QThrow | QBroken.
Arguments QRet {T} x. Arguments QThrow {T}. Arguments QBroken {T}.

(** The search needs at most one iteration per vertex. *)
Definition search_fuel (g : graph A) : nat := S (length (g_verts g)).

(** static_cast<OutVertexT>(g[vertex].laneletOrArea): for ConstLanelet the cast throws on an area
    (LaneletOrArea.h:38). *)
Definition cast (lanelets_only : bool) (e : elem) : option elem :=
  if lanelets_only && negb (is_lanelet e) then None else Some e.

(** Elements of a vertex path; QBroken if an entry was never written or is not a vertex. *)
Fixpoint cast_path (g : graph A) (lanelets_only : bool) (p : list (option nat)) : qres (list elem) :=
  match p with
  | [] => QRet []
  | None :: _ => QBroken
  | Some v :: r =>
      match vertex_elem g v with
      | None => QBroken
      | Some e =>
          match cast lanelets_only e with
          | None => QThrow
          | Some x => match cast_path g lanelets_only r with
                      | QRet l => QRet (x :: l)
                      | QThrow => QThrow
                      | QBroken => QBroken
                      end
          end
      end
  end.

Definition path_elems (g : graph A) (backw lanelets_only : bool) (m : smap A) (v : nat) : qres (list elem) :=
  match build_path backw m v with
  | BPPath p => cast_path g lanelets_only p
  | BPBroken => QBroken
  | BPLoop => QBroken
  end.

(** Selection of the view, RoutingGraph.cpp:336-339 and 580, 590, 600, 609, ... *)
Definition routing_view (lane_changes areas : bool) : view_name :=
  match lane_changes, areas with
  | true, true => WithAreasAndLaneChanges
  | true, false => WithLaneChanges
  | false, true => WithAreasWithoutLaneChanges
  | false, false => WithoutLaneChanges
  end.

(** shortestPathImpl, RoutingGraph.cpp:328-353. The visit function throws DestinationReached. *)
Definition dest_cb (target : nat) (st : unit) (i : vinfo A) : unit * option bool :=
  if Nat.eqb (vi_vertex i) target then (st, None) else (st, Some true).

Definition shortest_path (tie : nat -> nat) (g : graph A) (from to : elem) (costid : N)
           (lane_changes areas : bool) : qres (option (list elem)) :=
  match get_vertex g from, get_vertex g to with
  | Some s, Some t =>
      match get_filtered g (routing_view lane_changes areas) costid with
      | None => QThrow
      | Some w =>
          match query (directed_out false w) (dest_cb t) tie (search_fuel g) s tt with
          | Aborted r => match path_elems g false (negb areas) (s_map r) t with
                         | QRet l => QRet (Some l)
                         | QThrow => QThrow
                         | QBroken => QBroken
                         end
          | Finished _ => QRet None
          | Running _ => QBroken
          | Broken => QBroken
          end
      end
  | _, _ => QRet None
  end.

(** addToPath, RoutingGraph.cpp:76-83 ([++begin()] of an empty path is undefined) and
    shortestPathViaImpl, RoutingGraph.cpp:355-368. *)
Fixpoint via_loop (sp : elem -> elem -> qres (option (list elem))) (cur : elem) (rest : list elem)
         (path : list elem) : qres (option (list elem)) :=
  match rest with
  | [] => QRet (Some path)
  | nxt :: rest' =>
      match sp cur nxt with
      | QThrow => QThrow
      | QBroken => QBroken
      | QRet None => QRet None
      | QRet (Some []) => QBroken
      | QRet (Some (x :: xs)) =>
          let path1 := match path with [] => [x] | _ => path end in
          via_loop sp nxt rest' (path1 ++ xs)
      end
  end.

(** RoutingGraph::shortestPathVia / shortestPathIncludingAreasVia, RoutingGraph.cpp:404-434 *)
Definition shortest_path_via (tie : nat -> nat) (g : graph A) (from : elem) (via : list elem) (to : elem)
           (costid : N) (lane_changes areas : bool) : qres (option (list elem)) :=
  via_loop (fun a b => shortest_path tie g a b costid lane_changes areas) from (via ++ [to]) [].

(** StopIfCostMoreThan, StopIfLaneletsMoreThan, RoutingGraph.cpp:238-261 *)
Definition cost_within (eq : bool) (c : cost A) (i : vinfo A) : bool :=
  if eq then negb (cltb A c (vi_cost i)) else cltb A (vi_cost i) c.
Definition length_within (eq : bool) (n : nat) (i : vinfo A) : bool :=
  if eq then vi_len i <=? n else vi_len i <? n.
Definition crit_cb (crit : vinfo A -> bool) (st : unit) (i : vinfo A) : unit * option bool :=
  (st, Some (crit i)).

(** std::map iterates in increasing order of the vertices. *)
Definition map_vertices (g : graph A) (m : smap A) (keep : vstate A -> bool) : list nat :=
  List.filter (fun v => match m !! v with Some s => keep s | None => false end) (seq 0 (length (g_verts g))).

(** reachableSetImpl, RoutingGraph.cpp:312-326 *)
Definition reachable_set_impl (backw lanelets_only : bool) (tie : nat -> nat) (w : gview A) (s : nat)
           (crit : vinfo A -> bool) : qres (list elem) :=
  let g := v_graph w in
  match query (directed_out backw w) (crit_cb crit) tie (search_fuel g) s tt with
  | Finished r => cast_path g lanelets_only (map Some (map_vertices g (s_map r) vs_predicate))
  | _ => QBroken
  end.

(** RoutingGraph::reachableSet (backw = false, areas = false), reachableSetTowards (backw = true) and
    reachableSetIncludingAreas (areas = true, lane changes = true), RoutingGraph.cpp:574-602.
    The comparison v.cost <= c is false for NaN; a NaN budget is not modelled. *)
Definition reachable_set (backw areas : bool) (tie : nat -> nat) (g : graph A) (start : elem) (c : cost A)
           (costid : N) (lane_changes : bool) : qres (list elem) :=
  match get_vertex g start with
  | None => QRet []
  | Some s => match get_filtered g (routing_view lane_changes areas) costid with
              | None => QThrow
              | Some w => reachable_set_impl backw (negb areas) tie w s (cost_within true c)
              end
  end.

Fixpoint collect (f : nat -> qres (list elem)) (l : list nat) : qres (list (list elem)) :=
  match l with
  | [] => QRet []
  | v :: r => match f v with
              | QRet p => match collect f r with
                          | QRet ps => QRet (p :: ps)
                          | QThrow => QThrow
                          | QBroken => QBroken
                          end
              | QThrow => QThrow
              | QBroken => QBroken
              end
  end.

(** possiblePathsImpl, RoutingGraph.cpp:263-280 *)
Definition possible_paths_impl (backw keep_shorter lanelets_only : bool) (tie : nat -> nat) (w : gview A)
           (s : nat) (crit : vinfo A -> bool) : qres (list (list elem)) :=
  let g := v_graph w in
  match query (directed_out backw w) (crit_cb crit) tie (search_fuel g) s tt with
  | Finished r =>
      collect (path_elems g backw lanelets_only (s_map r))
              (map_vertices g (s_map r) (fun vs => vs_leaf vs && (keep_shorter || negb (vs_predicate vs))))
  | _ => QBroken
  end.

(** PossiblePathsParams, lanelet2_routing/include/lanelet2_routing/Types.h, and the choice of the stop
    criterion, RoutingGraph.cpp:282-310 *)
Record pp_params := PPParams {
  pp_cost : option (cost A); pp_elems : option nat; pp_costid : N; pp_lane_changes : bool; pp_shorter : bool }.

Definition pp_criterion (p : pp_params) : option (vinfo A -> bool) :=
  match pp_cost p, pp_elems p with
  | Some c, None => Some (cost_within false c)
  | None, Some n => Some (length_within false n)
  | Some c, Some n => Some (fun i => cost_within false c i && length_within false n i)
  | None, None => None
  end.

(** RoutingGraph::possiblePaths, possiblePathsTowards (backw), possiblePathsIncludingAreas (areas),
    RoutingGraph.cpp:604-669 *)
Definition possible_paths (backw areas : bool) (tie : nat -> nat) (g : graph A) (start : elem) (p : pp_params)
  : qres (list (list elem)) :=
  match get_vertex g start with
  | None => QRet []
  | Some s => match get_filtered g (routing_view (pp_lane_changes p) areas) (pp_costid p) with
              | None => QThrow
              | Some w => match pp_criterion p with
                          | None => QThrow
                          | Some crit => possible_paths_impl backw (pp_shorter p) (negb areas) tie w s crit
                          end
              end
  end.

(** RoutingGraph::forEachSuccessor/forEachPredecessor (IncludingAreas), RoutingGraph.cpp:671-734. The
    user function is [cb]; its view of a vertex is the vertex number (the element is vertex_elem).
    The result is the log of the calls. *)
Definition for_each (backw areas : bool) {St} (tie : nat -> nat) (g : graph A) (start : elem)
           (cb : St -> vinfo A -> St * option bool) (st : St) (lane_changes : bool) (costid : N)
  : qres (option (list (vinfo A * option bool) * St)) :=
  match get_vertex g start with
  | None => QRet None
  | Some s => match get_filtered g (routing_view lane_changes areas) costid with
              | None => QThrow
              | Some w => match query (directed_out backw w) cb tie (search_fuel g) s st with
                          | Finished r => QRet (Some (s_log r, s_cb r))
                          | Aborted r => QRet (Some (s_log r, s_cb r))
                          | _ => QBroken
                          end
              end
  end.
End Queries.
Arguments QRet {T} x. Arguments QThrow {T}. Arguments QBroken {T}.
Arguments pp_params : clear implicits.
