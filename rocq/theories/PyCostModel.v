(** Model of routing costs written in Python and of the edges that a graph gets from them.

    Source: lanelet2_python/python_api/routing.cpp:56-102 and 128-160, lanelet2_routing/src/RoutingGraphBuilder.cpp:341-384,
    lanelet2_routing/include/lanelet2_routing/internal/Graph.h:189-199 and RoutingCost.h.

    The two ends of an edge (or lists of lanelets) are a parameter [Q], numbers a parameter [D] with the tests the code
    makes. Not modelled: which edges are asked for (C29 and others), the argument for the traffic rules, and what a method
    does beside answering. *)
From Coq Require Import List Bool.
Import ListNotations.

Section Cost.
Context {Q D : Type}.
Variables (finite negative : D -> bool) (one : D).

(** getCostSucceeding and getCostLaneChange. *)
Inductive method := Succeeding | LaneChange.
(** What a method of a Python class answers: something that converts to double, something else, or an exception. *)
Inductive answer := Number (d : D) | NoNumber | Raises.
(** What a C++ implementation does: a value, or an exception (None), such as the InvalidInputError in RoutingCost.cpp:18. *)
Definition implementation := method -> Q -> option D.

(** The elements of a list of costs. [Py base over]: an object of RoutingCost ([base] is None), RoutingCostDistance or
    RoutingCostTravelTime or of a class derived from one of these in Python, with the methods the derived class defines.
    [Cpp f]: an object of the two classes in C++ made without Python. [Null]: None in a Python list, of which Boost.Python
    makes a null pointer. *)
Inductive cost :=
  | Py (base : option implementation) (over : method -> option (Q -> answer))
  | Cpp (f : implementation)
  | Null.

(** What a call from C++ does. An exception that leaves a noexcept function ends the process. *)
Inductive outcome := Value (d : D) | Throws | Terminates | NullPointer.
Definition noexcept (o : outcome) : outcome := match o with Throws => Terminates | _ => o end.
Definition throwing (r : option D) : outcome := match r with Some d => Value d | None => Throws end.
(** The result of an override is converted to double; a failure throws error_already_set. *)
Definition converted (a : answer) : outcome := match a with Number d => Value d | NoNumber | Raises => Throws end.

(** RoutingCostDistance and RoutingCostTravelTime, RoutingCost.h:57-71 and 96-116: getCostLaneChange is noexcept. *)
Definition cpp_method (f : implementation) (m : method) (q : Q) : outcome :=
  match m with Succeeding => throwing (f m q) | LaneChange => noexcept (throwing (f m q)) end.
(** The wrappers, routing.cpp:56-67, 75-82 and 89-96, all noexcept. Without an override the first calls None, a
    TypeError; the others call the implementation of the base. *)
Definition wrapped (base : option implementation) (over : method -> option (Q -> answer)) (m : method) (q : Q) : outcome :=
  noexcept (match over m, base with
            | Some f, _ => converted (f q)
            | None, None => Throws
            | None, Some b => cpp_method b m q
            end).
Definition virtual_call (c : cost) (m : method) (q : Q) : outcome :=
  match c with Py b o => wrapped b o m q | Cpp f => cpp_method f m q | Null => NullPointer end.

(** What a call of the method in Python does: the method of the derived class, the error of pure_virtual (routing.cpp:132
    and 134), or defaultGetCost..., routing.cpp:84-87 and 98-101, which are not noexcept. *)
Inductive py_outcome := Answers (a : answer) | EndsProcess.
Definition from_outcome (o : outcome) : py_outcome :=
  match o with Value d => Answers (Number d) | Throws => Answers Raises | Terminates | NullPointer => EndsProcess end.
Definition python_call (base : option implementation) (over : method -> option (Q -> answer)) (m : method) (q : Q)
  : py_outcome :=
  match over m, base with
  | Some f, _ => Answers (f q)
  | None, None => Answers Raises
  | None, Some b => from_outcome (cpp_method b m q)
  end.

(** ** Edges *)

(** What is asked for: an edge to a successor or an area, a step of a lane change, another edge. *)
Inductive request := Follow (q : Q) | Change (q : Q) | Plain (q : Q).
(** An edge has its request, the id of the cost, the cost, and whether it became an adjacent one. *)
Record edge := Edge { e_request : request; e_id : nat; e_cost : D; e_adjacent : bool }.
Inductive built := Built (l : list edge) | Exception | Terminated | NullFollowed.

(** Graph::addEdge, Graph.h:189-199 *)
Definition add_edge (l : list edge) (e : edge) : built :=
  if negb (finite (e_cost e)) then Built l else if negative (e_cost e) then Exception else Built (l ++ [e]).
Definition with_value (o : outcome) (f : D -> built) : built :=
  match o with Value d => f d | Throws => Exception | Terminates => Terminated | NullPointer => NullFollowed end.
(** One pass of the loop in assignCosts, RoutingGraphBuilder.cpp:361-383, or of the inner loop in assignLaneChangeCosts,
    345-355. assignCosts takes a reference to the cost object for every relation. *)
Definition assign (l : list edge) (r : request) (id : nat) (c : cost) : built :=
  match r with
  | Follow q => with_value (virtual_call c Succeeding q) (fun d => add_edge l (Edge r id d false))
  | Change q => with_value (virtual_call c LaneChange q)
      (fun d => if negb (finite d) then add_edge l (Edge r id one true) else add_edge l (Edge r id d false))
  | Plain q => match c with Null => NullFollowed | _ => add_edge l (Edge r id one false) end
  end.
Definition and_then (b : built) (f : list edge -> built) : built := match b with Built l => f l | _ => b end.
Fixpoint assign_all (l : list edge) (r : request) (id : nat) (cs : list cost) : built :=
  match cs with
  | [] => Built l
  | c :: t => and_then (assign l r id c) (fun l => assign_all l r (S id) t)
  end.
Fixpoint build_from (l : list edge) (rs : list request) (cs : list cost) : built :=
  match rs with
  | [] => Built l
  | r :: t => and_then (assign_all l r 0 cs) (fun l => build_from l t cs)
  end.
Definition build : list request -> list cost -> built := build_from [].
End Cost.
Arguments cost : clear implicits.
Arguments answer : clear implicits.
Arguments implementation : clear implicits.
Arguments request : clear implicits.
Arguments edge : clear implicits.
Arguments built : clear implicits.
