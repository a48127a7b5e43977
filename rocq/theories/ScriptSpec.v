(** What the scripts are expected to tell. *)
From Coq Require Import List Bool ZArith String Sorted Permutation.
From Verif Require Import TrafficModel ScriptModel.
Import ListNotations.
Local Open Scope string_scope.

(** The six layers with their names. *)
Inductive layer_of (m : layers) : string -> list Z -> Prop :=
| in_points : layer_of m "Points" (points m)
| in_line_strings : layer_of m "Line Strings" (line_strings m)
| in_polygons : layer_of m "Polygons" (polygons m)
| in_lanelets : layer_of m "Lanelets" (lanelets m)
| in_areas : layer_of m "Areas" (areas m)
| in_regulatory : layer_of m "Regulatory Elements" (regulatory m).
Definition has (m : layers) (n : Z) (name : string) : Prop := exists ids, layer_of m name ids /\ In n ids.

(** All ids of a layer in increasing order *)
Definition lists (ids out : list Z) : Prop := Permutation ids out /\ StronglySorted Z.le out.

(** What is told without an id: every layer once, with all its ids. *)
Definition tells_all (m : layers) (r : list line * ending) : Prop :=
  snd r = End /\
  (forall name ids, layer_of m name ids -> exists out, In (Ids name out) (fst r) /\ lists ids out) /\
  (forall l, In l (fst r) -> exists name ids out, layer_of m name ids /\ lists ids out /\ l = Ids name out) /\
  List.length (fst r) = 6.
(** What is told about an id: a layer that has it, or that there is none. *)
Definition tells_id (m : layers) (n : Z) (r : list line * ending) : Prop :=
  ((exists name, has m n name /\ r = ([FoundId n name], Exit0)) \/
   ((forall name, ~ has m n name) /\ r = ([NotFound n], End))).
(** What print_ids is for. *)
Definition tells (m : layers) (has_id : option Z) (r : list line * ending) : Prop :=
  match has_id with None => tells_all m r | Some n => tells_id m n r end.

(** Two maps with the same ids, listed in any order *)
Definition same_ids (a b : layers) : Prop :=
  forall name x y, layer_of a name x -> layer_of b name y -> Permutation x y.

(** The participants in the help of create_debug_routing_graph.py, and the one in effect: the default if none is given. *)
Definition documented := ["vehicle"; "bicycle"; "pedestrian"; "train"].
Definition in_effect (o : option string) : string := match o with Some p => p | None => "vehicle" end.
