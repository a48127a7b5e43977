(** Specification of the graph container and of the named views (C16, C17). *)
From Coq Require Import NArith List Bool.
From Verif Require Import CostAlg GraphModel.
Import ListNotations.

Section Spec.
Context {A : CostAlg}.

(** The relations a view is documented to contain
    (lanelet2_routing/include/lanelet2_routing/internal/Graph.h:121-166, names of the functions;
    doc of RoutingGraph.h). *)
Definition advertised (n : view_name) : list relation :=
  match n with
  | WithLaneChanges => [Successor; RLeft; RRight]
  | WithoutLaneChanges => [Successor]
  | WithAreasAndLaneChanges => [Successor; RLeft; RRight; RArea]
  | WithAreasWithoutLaneChanges => [Successor; RArea]
  | VLeft => [RLeft]
  | SomehowLeft => [RLeft; AdjacentLeft]
  | VRight => [RRight]
  | SomehowRight => [RRight; AdjacentRight]
  | VAdjacentLeft => [AdjacentLeft]
  | VAdjacentRight => [AdjacentRight]
  | VConflicting => [Conflicting]
  | WithoutConflicting => [Successor; RLeft; RRight; AdjacentLeft; AdjacentRight; RArea]
  end.

(** The edges a history of building operations asks for: both elements were added before, the cost is
    finite and not negative. *)
Fixpoint known (a : elem) (seen : list elem) : bool :=
  match seen with [] => false | b :: r => elem_eqb a b || known a r end.
Definition good_cost (c : cost A) : bool := cfinite A c && negb (cltb A c (czero A)).
Fixpoint wanted (seen : list elem) (ops : list (gop A)) : list (elem * elem * einfo A) :=
  match ops with
  | [] => []
  | OpVertex e :: r => wanted (e :: seen) r
  | OpEdge a b i :: r =>
      if known a seen && known b seen && good_cost (ei_cost i) then (a, b, i) :: wanted seen r
      else wanted seen r
  end.

(** b follows a directly in the driving direction (optionally also by changing the lane), according to
    the first cost module. *)
Definition next_lanelet (g : graph A) (lane_changes : bool) (a b : elem) : Prop :=
  exists e, In e (g_edges g) /\ vertex_elem g (e_src e) = Some a /\ vertex_elem g (e_tgt e) = Some b /\
    ei_costid (e_info e) = 0%N /\
    (ei_rel (e_info e) = Successor \/
     (lane_changes = true /\ (ei_rel (e_info e) = RLeft \/ ei_rel (e_info e) = RRight))).

(** [neighbour_chain f a l]: l lists what f yields starting at a, one after the other, up to the end. *)
Inductive neighbour_chain {T} (f : T -> option T) : T -> list T -> Prop :=
| nc_end a : f a = None -> neighbour_chain f a []
| nc_more a b l : f a = Some b -> neighbour_chain f b l -> neighbour_chain f a (b :: l).
(** b can be reached from a by at least one step. *)
Inductive neighbour_reach {T} (f : T -> option T) : T -> T -> Prop :=
| nr_one a b : f a = Some b -> neighbour_reach f a b
| nr_more a b c : f a = Some b -> neighbour_reach f b c -> neighbour_reach f a c.
End Spec.
