(** Model of the Python scripts print_ids.py and create_debug_routing_graph.py.

    Source: lanelet2_python/scripts/print_ids.py (PI), lanelet2_python/scripts/create_debug_routing_graph.py (CD). make_ids_positive.py is in
    RenumberModel.v. Lines printed are kept in parts instead of as text. Loading, building the graph and its map are parameters. argparse is
    modelled by which options are given. The dictionary of layers keeps the order in which it is written (Python 3.7 or later). *)
From Coq Require Import List Bool ZArith String.
From Verif Require Import TrafficModel.
Import ListNotations.
Local Open Scope string_scope.

(** ** print_ids.py *)

(** The layers of a map with the ids of their elements, in the order in which the layer lists them (any order). *)
Record layers := Layers {
  points : list Z; line_strings : list Z; polygons : list Z; lanelets : list Z; areas : list Z; regulatory : list Z }.
(** PI:21-22 *)
Definition named (m : layers) : list (string * list Z) :=
  [("Points", points m); ("Line Strings", line_strings m); ("Polygons", polygons m); ("Lanelets", lanelets m);
   ("Areas", areas m); ("Regulatory Elements", regulatory m)].

(** What is printed: the two lines of print_layer (PI:8-10), the line of PI:30, the line meant in PI:33. *)
Inductive line := Ids (layer : string) (ids : list Z) | FoundId (id : Z) (layer : string) | NotFound (id : Z).
(** How the script ends: at its end, by sys.exit(0), or by an exception that is not caught. *)
Inductive ending := End | Exit0 | TypeError.

(** sorted, for integers *)
Fixpoint insert (x : Z) (l : list Z) : list Z :=
  match l with [] => [x] | y :: r => if (x <=? y)%Z then x :: l else y :: insert x r end.
Definition sorted_ids (l : list Z) : list Z := fold_right insert [] l.

(** "not args.has_id", PI:25: None and 0 are both false. *)
Definition asked (has_id : option Z) : option Z :=
  match has_id with Some n => if (n =? 0)%Z then None else Some n | None => None end.
(** The loop, PI:24-31, and what follows, PI:32-33: "ID " + args.has_id adds a string and an integer. *)
Fixpoint print_loop (q : option Z) (ls : list (string * list Z)) : list line * ending :=
  match ls with
  | [] => ([], match q with Some _ => TypeError | None => End end)
  | (name, ids) :: r =>
      match q with
      | None => let '(out, e) := print_loop q r in (Ids name (sorted_ids ids) :: out, e)
      | Some n => if existsb (Z.eqb n) ids then ([FoundId n name], Exit0) else print_loop q r
      end
  end.
Definition print_ids (has_id : option Z) (m : layers) : list line * ending := print_loop (asked has_id) (named m).

(** ** create_debug_routing_graph.py *)
Section Debug.
Context {M G D : Type}.
Variable load : option M.                     (* lanelet2.io.load; None: an exception *)
Variable build : M -> kind -> string -> option G.  (* RoutingGraph for the rules of a participant; None: an exception *)
Variable debug_map : G -> D.                  (* getDebugLaneletMap *)

(** Ways to end: the message of argparse, exceptions, the map written. *)
Inductive debug_ending := Usage | LoadFails | KeyError | NoRules | BuildFails | Writes (d : D).
(** rules_map, CD:21-24 with the names in Attribute.h:253-264 *)
Definition rules_map (p : string) : option string :=
  if String.eqb p "vehicle" then Some "vehicle" else if String.eqb p "bicycle" then Some "bicycle"
  else if String.eqb p "pedestrian" then Some "pedestrian" else if String.eqb p "train" then Some "train" else None.
(** CD:19-34; the option is required, so that the default of CD:16 is never used. *)
Definition create_debug (participant : option string) : debug_ending :=
  match participant with
  | None => Usage
  | Some p =>
      match load with
      | None => LoadFails
      | Some m =>
          match rules_map p with
          | None => KeyError
          | Some name =>
              match rules_for name with
              | None => NoRules
              | Some k => match build m k name with None => BuildFails | Some g => Writes (debug_map g) end
              end
          end
      end
  end.
End Debug.
Arguments debug_ending : clear implicits.
