(** Model of the queries of Route.

    Source: lanelet2_routing/src/Route.cpp. The graph of a route is the container of GraphModel with
    one cost module (RouteGraph, lanelet2_routing/include/lanelet2_routing/internal/Graph.h:53-70); the vertex
    information is the lanelet. *)
From Coq Require Import NArith List Bool Arith.
From Verif Require Import CostAlg GraphModel.
Import ListNotations.

(** [UB]: a vertex that is not in the graph, or an empty Optional, is used. *)
Inductive lane_result (T : Type) := Lane (x : T) | UB | OutOfFuel | LaneThrows.
Arguments Lane {T}. Arguments UB {T}. Arguments OutOfFuel {T}. Arguments LaneThrows {T}.

Section Route.
Context {A : CostAlg}.

Fixpoint all_elems (g : graph A) (vs : list nat) : lane_result (list elem) :=
  match vs with
  | [] => Lane []
  | v :: r => match vertex_elem g v, all_elems g r with
              | Some e, Lane l => Lane (e :: l)
              | Some _, o => o
              | None, _ => UB
              end
  end.

(** remainingLaneImpl, Route.cpp:80-98: the vertices of the lane. *)
Fixpoint remaining_impl (w : gview A) (fuel : nat) (start v : nat) (lane : list nat) : option (list nat) :=
  match fuel with
  | 0 => None
  | S k =>
    let lane' := lane ++ [v] in
    match out_edges w v with
    | [e] => let v' := e_tgt e in
             if negb (Nat.eqb (length (in_edges w v')) 1) then Some lane'
             else if Nat.eqb v' start then Some lane' else remaining_impl w k start v' lane'
    | _ => Some lane'
    end
  end.
(** The loop of fullLane, Route.cpp:163-176: the vertex at which it ends. *)
Fixpoint back_impl (w : gview A) (fuel : nat) (start v : nat) : option nat :=
  match fuel with
  | 0 => None
  | S k =>
    match in_edges w v with
    | [e] => let next := e_src e in
             if negb (Nat.eqb (length (out_edges w next)) 1) then Some v
             else if Nat.eqb next start then Some next else back_impl w k start next
    | _ => Some v
    end
  end.
(** The fuel is sufficient for every graph (see RouteProofs). *)
Definition lane_fuel (g : graph A) : nat := S (length (g_verts g)).
Definition lane_of (g : graph A) (w : gview A) (v : nat) : lane_result (list elem) :=
  match remaining_impl w (lane_fuel g) v v [] with
  | None => OutOfFuel
  | Some vs => all_elems g vs
  end.
(** remainingLane, Route.cpp:180-186. *)
Definition remaining_lane (g : graph A) (a : elem) : lane_result (list elem) :=
  match get_vertex g a with
  | None => Lane []
  | Some v => match get_filtered g WithoutLaneChanges 0 with None => LaneThrows | Some w => lane_of g w v end
  end.
(** fullLane, Route.cpp:154-178. *)
Definition full_lane (g : graph A) (a : elem) : lane_result (list elem) :=
  match get_vertex g a with
  | None => Lane []
  | Some v => match get_filtered g WithoutLaneChanges 0 with
              | None => LaneThrows
              | Some w => match back_impl w (lane_fuel g) v v with None => OutOfFuel | Some b => lane_of g w b end
              end
  end.

(** remainingShortestPath, Route.cpp:140-152. std::rotate with the position of the lanelet as new
    beginning. *)
Fixpoint index_of (a : elem) (p : list elem) : option nat :=
  match p with
  | [] => None
  | b :: r => if elem_eqb b a then Some 0 else option_map S (index_of a r)
  end.
Definition remaining_path (p : list elem) (a : elem) : list elem :=
  match index_of a p with
  | None => []
  | Some i =>
    match p, rev p with
    | f :: _, b :: _ =>
      if elem_eqb f b then let l := removelast p in skipn i l ++ firstn i l
      else skipn i p
    | _, _ => skipn i p
    end
  end.

(** leftRelations and rightRelations, Route.cpp:267-279, 289-301 (with getNextVertex, 123-130); the view is somehowLeft or
    somehowRight. *)
Fixpoint side_loop (w : gview A) (fuel : nat) (v : nat) : lane_result (list (nat * relation)) :=
  match fuel with
  | 0 => OutOfFuel
  | S k =>
    match out_edges w v with
    | [] => Lane []
    | e :: _ => match side_loop w k (e_tgt e) with
                | Lane l => Lane ((e_tgt e, ei_rel (e_info e)) :: l)
                | o => o
                end
    end
  end.
Definition side_relations (n : view_name) (g : graph A) (a : elem) (fuel : nat) : lane_result (list (option elem * relation)) :=
  match get_vertex g a with
  | None => UB
  | Some v => match get_filtered g n 0 with
              | None => LaneThrows
              | Some w => match side_loop w fuel v with
                          | Lane l => Lane (map (fun x => (vertex_elem g (fst x), snd x)) l)
                          | UB => UB | OutOfFuel => OutOfFuel | LaneThrows => LaneThrows
                          end
              end
  end.

(** checkValidity, Route.cpp:354-421: which errors are found. *)
Inductive verror :=
| NotOnRoute (a : elem) | NoRelationBack (u v : nat) | WrongRelation (u v : nat) | Unsupported (u : nat).
Definition check_is (expect : N) (u v : nat) (target : relation) : list verror :=
  if negb (N.eqb (mask_and expect (bits target)) 0) then [WrongRelation u v] else [].
Definition check_edge (g : graph A) (e : edge A) : list verror :=
  match first_edge g (e_tgt e) (e_src e) with
  | None => if relation_eqb (ei_rel (e_info e)) Successor then [] else [NoRelationBack (e_src e) (e_tgt e)]
  | Some r =>
    let t := ei_rel (e_info r) in
    match ei_rel (e_info e) with
    | Conflicting => check_is (bits Conflicting) (e_src e) (e_tgt e) t
    | RLeft | AdjacentLeft => check_is (mask_or (bits RRight) (bits AdjacentRight)) (e_src e) (e_tgt e) t
    | RRight | AdjacentRight => check_is (mask_or (bits RLeft) (bits AdjacentLeft)) (e_src e) (e_tgt e) t
    | Successor => []
    | _ => [Unsupported (e_src e)]
    end
  end.
Definition check_validity (g : graph A) (path : list elem) : list verror :=
  flat_map (fun a => match get_vertex g a with Some _ => [] | None => [NotOnRoute a] end) path ++
  flat_map (check_edge g) (g_edges g).
End Route.
