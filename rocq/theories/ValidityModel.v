(** Model of the neighbour relations and of the validity check of the routing graph
    (lanelet2_routing/src/RoutingGraph.cpp). *)
From Coq Require Import NArith List Bool Arith.
From Verif Require Import CostAlg GraphModel BuilderModel.
Import ListNotations.
Local Open Scope nat_scope.

Section WithCost.
Context {A : CostAlg}.
Notation graph := (graph A).

(** The filtered graphs of the neighbours on a side: left()/right() and adjacentLeft()/adjacentRight(),
    lanelet2_routing/include/lanelet2_routing/internal/Graph.h:138-157 *)
Definition change_view (s : side) : view_name := match s with SLeft => VLeft | SRight => VRight end.
Definition adjacent_view (s : side) : view_name := match s with SLeft => VAdjacentLeft | SRight => VAdjacentRight end.
Definition opposite (s : side) : side := match s with SLeft => SRight | SRight => SLeft end.

(** RoutingGraph::leftRelations / rightRelations, RoutingGraph.cpp:522-540, 550-568. The two functions are the
    same up to the side. [inner] bounds the iterations of lefts/adjacentLefts, [fuel] those of the while loop;
    [Ret None] means that a bound was not sufficient. [List.last l cur] is [current] after the loops that append the
    lanelets of a list. *)
Fixpoint relations_from (g : graph) (s : side) (costid : N) (inner fuel : nat) (cur : elem)
  : outcome (option (list (elem * relation))) :=
  match fuel with
  | 0 => Ret None
  | S k =>
      match neighbours_until_end (change_view s) g cur costid inner with
      | Throws => Throws
      | Ret None => Ret None
      | Ret (Some l) =>
          let cur' := List.last l cur in
          match neighbours_until_end (adjacent_view s) g cur' costid inner with
          | Throws => Throws
          | Ret None => Ret None
          | Ret (Some la) =>
              if match l, la with [], [] => true | _, _ => false end then Ret (Some [])
              else match relations_from g s costid inner k (List.last la cur') with
                   | Ret (Some rest) => Ret (Some (map (fun x => (x, changing s)) l ++ map (fun x => (x, adjacent s)) la ++ rest))
                   | Ret None => Ret None
                   | Throws => Throws
                   end
          end
      end
  end.
Definition relations (g : graph) (s : side) (a : elem) (costid : N) (fuel : nat)
  : outcome (option (list (elem * relation))) := relations_from g s costid fuel fuel a.

(** The messages of checkValidity; [n] is the relation the message is about. *)
Inductive flaw :=
| Several (n : view_name)      (* "More than one neighboring lanelet" *)
| BothKinds (s : side)         (* "has both 'left' and 'adjacent_left'" *)
| NoWayBack (n : view_name)    (* "but no relation back" *)
| NotClosest (n : view_name).  (* "isn't the closest lanelet the other way round" *)

(** neighboringImpl / neighboringLaneletImpl with throwOnError = true, RoutingGraph.cpp:106-130; None is the
    RoutingGraphError. *)
Definition neighbouring_strict (w : gview A) (v : nat) : option (option elem) :=
  if Nat.ltb 1 (length (out_edges w v)) then None else Some (neighbouring_lanelet w v).
(** One of the four try blocks, RoutingGraph.cpp:863-875, 902-913: the neighbour and the error message. *)
Definition look (w : gview A) (n : view_name) (v : nat) : option elem * list flaw :=
  match neighbouring_strict w v with
  | None => (None, [Several n])
  | Some o => (o, [])
  end.
(** One of the four blocks after [if (left)], RoutingGraph.cpp:880-899, 918-937. [rel.front().lanelet != ll]
    compares with the lanelet of the vertex; for an area there is none and the comparison holds. *)
Definition check_back (g : graph) (s : side) (n : view_name) (a : elem) (o : option elem) (fuel : nat)
  : outcome (option (list flaw)) :=
  match o with
  | None => Ret (Some [])
  | Some b =>
      match relations g (opposite s) b 0 fuel with
      | Throws => Throws
      | Ret None => Ret None
      | Ret (Some []) => Ret (Some [NoWayBack n])
      | Ret (Some ((y, _) :: _)) => Ret (Some (if elem_eqb y a then [] else [NotClosest n]))
      end
  end.
Definition is_some {T} (o : option T) : bool := match o with Some _ => true | None => false end.
(** The checks of one side of a vertex, RoutingGraph.cpp:861-899, 900-937 *)
Definition check_side (g : graph) (s : side) (a : elem) (v : nat) (fuel : nat) : outcome (option (list flaw)) :=
  match get_filtered g (change_view s) 0, get_filtered g (adjacent_view s) 0 with
  | Some w, Some wa =>
      let (o, e1) := look w (change_view s) v in
      let (oa, e2) := look wa (adjacent_view s) v in
      let e3 := if is_some o && is_some oa then [BothKinds s] else [] in
      match check_back g s (change_view s) a o fuel, check_back g s (adjacent_view s) a oa fuel with
      | Ret (Some e4), Ret (Some e5) => Ret (Some (e1 ++ e2 ++ e3 ++ e4 ++ e5))
      | Throws, _ | Ret (Some _), Throws => Throws
      | _, _ => Ret None
      end
  | _, _ => Throws
  end.
(** The loop over the vertices (an unordered map, taken in the order of insertion), RoutingGraph.cpp:857-939 *)
Fixpoint check_all (g : graph) (l : list (elem * nat)) (fuel : nat) : outcome (option (list (elem * flaw))) :=
  match l with
  | [] => Ret (Some [])
  | (a, v) :: r =>
      match check_side g SLeft a v fuel with
      | Throws => Throws
      | Ret None => Ret None
      | Ret (Some e1) =>
          match check_side g SRight a v fuel with
          | Throws => Throws
          | Ret None => Ret None
          | Ret (Some e2) =>
              match check_all g r fuel with
              | Ret (Some e) => Ret (Some (map (pair a) (e1 ++ e2) ++ e))
              | o => o
              end
          end
      end
  end.
(** RoutingGraph::checkValidity, RoutingGraph.cpp:855-948; [Throws] is the RoutingGraphError at the end or the
    InvalidInputError of the filtered graphs, [Ret None] an insufficient bound. *)
Definition check_validity (g : graph) (throw_on_error : bool) (fuel : nat) : outcome (option (list (elem * flaw))) :=
  match check_all g (g_lookup g) fuel with
  | Ret (Some e) => if throw_on_error && negb (match e with [] => true | _ => false end) then Throws else Ret (Some e)
  | o => o
  end.
End WithCost.
