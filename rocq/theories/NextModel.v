(** Model of followingRelations and previousRelations.

    Source: lanelet2_routing/src/RoutingGraph.cpp:451-458 and 465-478. *)
From Coq Require Import NArith List.
From Verif Require Import CostAlg GraphModel.
Import ListNotations.

Section Next.
Context {A : CostAlg}.

Inductive answer (T : Type) :=
| Got (x : T)
| Thrown              (* InvalidInputError of the filtered graph *)
| Undefined           (* an empty Optional is dereferenced *)
| Aborted.            (* assert(false) *)
Arguments Got {T} x. Arguments Thrown {T}. Arguments Undefined {T}. Arguments Aborted {T}.
Definition and_then {T U} (r : answer T) (f : T -> answer U) : answer U :=
  match r with Got x => f x | Thrown => Thrown | Undefined => Undefined | Aborted => Aborted end.
Definition asked {T} (o : outcome T) : answer T := match o with Ret x => Got x | Throws => Thrown end.

(** The loop in followingRelations, 454-456 *)
Fixpoint with_relation (g : graph A) (a : elem) (l : list elem) : answer (list (elem * relation)) :=
  match l with
  | [] => Got []
  | b :: r =>
      and_then (asked (routing_relation g a b false)) (fun o =>
      match o with
      | None => Undefined
      | Some x => and_then (with_relation g a r) (fun rest => Got ((b, x) :: rest))
      end)
  end.
Definition following_relations (g : graph A) (a : elem) (lane_changes : bool) : answer (list (elem * relation)) :=
  and_then (asked (following g a lane_changes)) (with_relation g a).

(** The loop in previousRelations, 469-476. [checked]: assertions are compiled in; otherwise the lanelet is left out. *)
Fixpoint with_relation_back (checked : bool) (g : graph A) (a : elem) (l : list elem) : answer (list (elem * relation)) :=
  match l with
  | [] => Got []
  | b :: r =>
      and_then (asked (routing_relation g b a false)) (fun o =>
      match o with
      | None => if checked then Aborted else with_relation_back checked g a r
      | Some x => and_then (with_relation_back checked g a r) (fun rest => Got ((b, x) :: rest))
      end)
  end.
Definition previous_relations (checked : bool) (g : graph A) (a : elem) (lane_changes : bool) : answer (list (elem * relation)) :=
  and_then (asked (previous g a lane_changes)) (with_relation_back checked g a).
End Next.
Arguments Got {T} x. Arguments Thrown {T}. Arguments Undefined {T}. Arguments Aborted {T}.
