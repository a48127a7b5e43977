(** Model of the export of the routing graph as GraphViz (DOT) and GraphML file.

    Source: lanelet2_routing/src/RoutingGraph.cpp:736-758,
    lanelet2_routing/include/lanelet2_routing/internal/RoutingGraphVisualization.h,
    lanelet2_routing/include/lanelet2_routing/Forward.h:83-127.

    Not modelled: the file system; whether a file can be opened for writing is a parameter, writing
    an opened file succeeds. Costs are printed by [ostream << double], a parameter. The XML syntax around
    a GraphML document is boost's, a document is the list of its nodes and of its edges. *)
From Coq Require Import NArith ZArith List Bool String Ascii.
From Verif Require Import CostAlg GraphModel AttrModel.
Import ListNotations.
Open Scope string_scope.

(** What [operator<<] of a lanelet or an area prints: lanelet2_core/src/Lanelet.cpp:290-304,
    lanelet2_core/include/lanelet2_core/primitives/Area.h:333-354. The ids of the bounds as the handle
    shows them, and whether the bounds are inverted line strings. *)
Inductive described :=
| DLanelet (id : Z) (inverted : bool) (left : Z) (left_inverted : bool) (right : Z) (right_inverted : bool)
| DArea (id : Z) (outer : list Z) (inner : list (list Z)).

(** ConstLaneletOrArea::id, lanelet2_core/include/lanelet2_core/primitives/LaneletOrArea.h:52-54 *)
Definition described_id (d : described) : Z := match d with DLanelet i _ _ _ _ _ => i | DArea i _ _ => i end.

(** std::copy into an ostream_iterator with separator ",": it follows every number, also the last. *)
Fixpoint copied (l : list Z) : string := match l with [] => "" | z :: r => print_Z z ++ "," ++ copied r end.
Fixpoint copied_rings (l : list (list Z)) : string :=
  match l with [] => "" | r :: rest => "[" ++ copied r ++ "]" ++ copied_rings rest end.

(** Lanelet.cpp:290-304, Area.h:333-354, chosen by LaneletOrArea.h:104-112 *)
Definition described_text (d : described) : string :=
  match d with
  | DLanelet i inv l li r ri =>
      "[id: " ++ print_Z i ++ (if inv then ", inverted" else "") ++
      ", left id: " ++ print_Z l ++ (if li then " (inverted)" else "") ++
      ", right id: " ++ print_Z r ++ (if ri then " (inverted)" else "") ++ "]"
  | DArea i outer inner =>
      "[id: " ++ print_Z i ++
      match outer with [] => "" | _ => " outer: [" ++ copied outer ++ "]" end ++
      match inner with [] => "" | _ => " inner: " ++ copied_rings inner end ++ "]"
  end.

(** relationToString, Forward.h:83-104. The graph stores single enumerators only. *)
Definition relation_text (r : relation) : string :=
  match r with
  | RNone => "None" | Successor => "Successor" | RLeft => "Left" | RRight => "Right"
  | AdjacentLeft => "AdjacentLeft" | AdjacentRight => "AdjacentRight"
  | Conflicting => "Conflicting" | RArea => "Area"
  end.

(** relationToColor, Forward.h:106-126 *)
Definition relation_color (r : relation) : string :=
  match r with
  | RNone => "" | Successor => "green" | RLeft => "blue" | RRight => "magenta"
  | Conflicting => "red" | AdjacentLeft | AdjacentRight => "black" | RArea => "yellow"
  end.

Definition newline : string := String "010"%char EmptyString.
Definition print_nat (n : nat) : string := print_Z (Z.of_nat n).

(** What becomes of a call: InvalidInputError, ExportError (then no file was opened) or a written file. *)
Inductive written (D : Type) := InvalidInput (message : string) | ExportFails (message : string) | Wrote (file : D).
Arguments InvalidInput {D}. Arguments ExportFails {D}. Arguments Wrote {D}.

(** A GraphML document (boost::write_graphml, third party): the property "info" of every node in the order of the
    vertices; source, target, "relation" and "routingCost" of every edge. *)
Record graphml := GraphML { ml_nodes : list string; ml_edges : list (nat * nat * string * string) }.

Section Dot.
Context {A : CostAlg}.
(** The lanelets and areas behind the vertices. *)
Variable describe : elem -> described.
(** [ostream << double] *)
Variable show : cost A -> string.
(** Whether [std::ofstream::open] succeeds for a name. *)
Variable opens : string -> bool.

(** VertexWriterGraphViz, RoutingGraphVisualization.h:22-34; the index before it, ";" and the end of line behind it
    are boost::write_graphviz's. *)
Definition vertex_line (n : nat) (e : elem) : string :=
  let id := print_Z (described_id (describe e)) in
  print_nat n ++ "[label=""" ++ id ++ """ lanelet=""" ++ id ++ """]" ++ ";" ++ newline.

(** EdgeWriterGraphViz, RoutingGraphVisualization.h:38-57 *)
Definition edge_text (i : einfo A) : string :=
  "[label=""" ++ relation_text (ei_rel i) ++ """ color=""" ++ relation_color (ei_rel i) ++
  (if negb (relation_eqb (ei_rel i) AdjacentLeft) && negb (relation_eqb (ei_rel i) AdjacentRight) &&
      negb (relation_eqb (ei_rel i) Conflicting)
   then """ weight=""" ++ show (ei_cost i) else "") ++
  """ routingCostId=""" ++ print_Z (Z.of_N (ei_costid i)) ++ """]".

Definition edge_line (e : edge A) : string :=
  print_nat (e_src e) ++ "->" ++ print_nat (e_tgt e) ++ " " ++ edge_text (e_info e) ++ ";" ++ newline.

(** The vertices of a directed graph with vecS storage, numbered in the order of insertion. *)
Fixpoint vertex_lines (n : nat) (l : list elem) : string :=
  match l with [] => "" | e :: r => vertex_line n e ++ vertex_lines (S n) r end.
Fixpoint edge_lines (l : list (edge A)) : string :=
  match l with [] => "" | e :: r => edge_line e ++ edge_lines r end.

(** boost::filtered_graph with an EdgeCostFilter, RoutingGraphVisualization.h:86-90: all vertices, the passing edges. *)
Definition passing (costid mask : N) (g : graph A) : list (edge A) :=
  filter (fun e => edge_passes costid mask (e_info e)) (g_edges g).

(** boost::write_graphviz (third party), called at RoutingGraphVisualization.h:75 *)
Definition write_graphviz (costid mask : N) (g : graph A) : string :=
  "digraph G {" ++ newline ++ vertex_lines 0 (g_verts g) ++ edge_lines (passing costid mask g) ++ "}" ++ newline.

(** boost::write_graphml (third party), called at RoutingGraphVisualization.h:107-118 *)
Definition write_graphml (costid mask : N) (g : graph A) : graphml :=
  GraphML (map (fun e => described_text (describe e)) (g_verts g))
          (map (fun e => (e_src e, e_tgt e, relation_text (ei_rel (e_info e)), show (ei_cost (e_info e))))
               (passing costid mask g)).

(** The checks of RoutingGraph.cpp:738-744, 750-756 and RoutingGraphVisualization.h:66-70, 100-104 *)
Definition export {D} (write : N -> N -> graph A -> D) (name : string) (exclude costid : N) (g : graph A) : written D :=
  match name with
  | EmptyString => InvalidInput "No filename passed"
  | _ =>
      if N.leb (g_numcosts g) costid
      then InvalidInput "Routing Cost ID is higher than the number of routing modules."
      else let relations := mask_and all_relations (mask_not exclude) in
           if opens name then Wrote (write costid relations g)
           else ExportFails ("Could not open file at " ++ name ++ ".")
  end.

(** RoutingGraph::exportGraphViz, RoutingGraph.cpp:748-758 *)
Definition export_graphviz : string -> N -> N -> graph A -> written string := export write_graphviz.
(** RoutingGraph::exportGraphML, RoutingGraph.cpp:736-746 *)
Definition export_graphml : string -> N -> N -> graph A -> written graphml := export write_graphml.
End Dot.
