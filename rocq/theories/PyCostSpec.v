(** What a graph is to get from costs, whatever language they are written in. *)
From Coq Require Import List Bool.
From Verif Require Import PyCostModel.
Import ListNotations.

Section Spec.
Context {Q D : Type}.
Variables (finite negative : D -> bool) (one : D).

(** The number a cost gives: that of the method in Python if there is one, otherwise that of the C++ class. *)
Inductive gives : cost Q D -> method -> Q -> D -> Prop :=
  | gives_over b o m f q d : o m = Some f -> f q = Number d -> gives (Py b o) m q d
  | gives_base b o m q d : o m = None -> b m q = Some d -> gives (Py (Some b) o) m q d
  | gives_cpp f m q d : f m q = Some d -> gives (Cpp f) m q d.

(** The cost can be used for the request: it gives a number that is not negative, unless it is not finite. *)
Definition usable (c : cost Q D) (m : method) (q : Q) : Prop :=
  exists d, gives c m q d /\ (finite d = true -> negative d = false).
Definition fine (c : cost Q D) (r : request Q) : Prop :=
  match r with Follow q => usable c Succeeding q | Change q => usable c LaneChange q | Plain _ => c <> Null end.

(** The edges for a request and a cost. *)
Inductive edges_for (r : request Q) (id : nat) (c : cost Q D) : list (edge Q D) -> Prop :=
  | plain q : r = Plain q -> edges_for r id c [Edge r id one false]
  | follow q d : r = Follow q -> gives c Succeeding q d -> finite d = true -> edges_for r id c [Edge r id d false]
  | follow_not q d : r = Follow q -> gives c Succeeding q d -> finite d = false -> edges_for r id c []
  | change q d : r = Change q -> gives c LaneChange q d -> finite d = true -> edges_for r id c [Edge r id d false]
  | change_not q d : r = Change q -> gives c LaneChange q d -> finite d = false -> edges_for r id c [Edge r id one true].
(** The edges of a graph: for every request in turn, for every cost in turn. *)
Inductive edges_of_costs (r : request Q) : nat -> list (cost Q D) -> list (edge Q D) -> Prop :=
  | no_cost id : edges_of_costs r id [] []
  | next_cost id c cs l m : edges_for r id c l -> edges_of_costs r (S id) cs m -> edges_of_costs r id (c :: cs) (l ++ m).
Inductive edges_of (cs : list (cost Q D)) : list (request Q) -> list (edge Q D) -> Prop :=
  | no_request : edges_of cs [] []
  | next_request r rs l m : edges_of_costs r 0 cs l -> edges_of cs rs m -> edges_of cs (r :: rs) (l ++ m).

(** The same costs in C++. *)
Definition in_cpp (c c' : cost Q D) : Prop := exists f, c' = Cpp f /\ forall m q d, gives c m q d <-> f m q = Some d.

(** The method and the ends that a request asks a cost for. *)
Definition asks (r : request Q) : option (method * Q) :=
  match r with Follow q => Some (Succeeding, q) | Change q => Some (LaneChange, q) | Plain _ => None end.
End Spec.
