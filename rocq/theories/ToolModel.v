(** Model of the program lanelet2_validate: what it prints and with which code it exits.

    Source: lanelet2_validation/src/Cli.cpp, Validation.cpp, validators/RoutingGraphIsValid.cpp,
    tools/lanelet2_validate/main.cpp.

    Parsing of the command line (boost::program_options) is not modelled: a configuration is given.
    Loading, traffic rules, building of graphs and the checks are parameters that may fail; the
    parts of the repository are put in at the end of the file. *)
From Coq Require Import List Arith Bool String Ascii ZArith Reals.
From Verif Require CostAlg GraphModel BuilderModel ValidityModel TrafficModel.
From Verif Require Import AttrModel ValidationModel.
Import ListNotations.
Open Scope string_scope.
Open Scope list_scope.

(** CommandLineConfig and ValidationConfig, Cli.h:7-12, Validation.h:24-29; the origin is reduced to
    whether UtmProjector can be constructed for it, Validation.cpp:136. *)
Record tool_config := ToolConfig {
  c_help : bool; c_print : bool; c_file : string; c_filter : string; c_location : string;
  c_participants : list string; c_origin_ok : bool }.

(** What happens when a part of the program runs. main() catches nothing, so an exception that leaves
    runFromConfig ends the program by std::terminate. *)
Inductive exception := BadRegex | BadOrigin | NoRules (location participant : string) | OtherException.
Inductive run (T : Type) := Value (x : T) | Uncaught (e : exception) | Crash | Endless.
Arguments Value {T} x. Arguments Uncaught {T} e. Arguments Crash {T}. Arguments Endless {T}.
Definition seq {T U} (r : run T) (f : T -> run U) : run U :=
  match r with Value x => f x | Uncaught e => Uncaught e | Crash => Crash | Endless => Endless end.

(** lanelet::load with a list for the errors: a map and errors, a LaneletError, or another exception. *)
Inductive loaded (M : Type) := Loaded (m : M) (errors : list string) | LoadError (what : string) | LoadThrows.
Arguments Loaded {M} m errors. Arguments LoadError {M} what. Arguments LoadThrows {M}.
(** RoutingGraph::build: a graph, a LaneletError, undefined behaviour. *)
Inductive building (G : Type) := Built (g : G) | BuildError (what : string) | BuildCrash.
Arguments Built {G} g. Arguments BuildError {G} what. Arguments BuildCrash {G}.

Section Tool.
Context {M G Rule : Type}.
Variable regex_ok : string -> bool.                 (* the constructor of std::regex does not throw *)
Variable matches : string -> string -> bool.
Variables map_names rule_names graph_names : list string.
Variable load : string -> loaded M.
Variable create : string -> string -> option Rule.  (* TrafficRulesFactory::create; None: InvalidInputError *)
Variable rule_text : Rule -> string.
Variable build : M -> Rule -> building G.
Variable run_map : M -> string -> run (list issue).
Variable run_rules : M -> list Rule -> string -> run (list issue).
Variable run_graph : G -> Rule -> string -> run (list issue).

(** parseFilterString, Validation.cpp:14-27 *)
Definition parse_checked (flt : string) : run (list string) :=
  if forallb regex_ok (parse_filter flt) then Value (parse_filter flt) else Uncaught BadRegex.

(** runValidators, Validation.cpp:34-45 *)
Fixpoint run_each (names : list string) (f : string -> run (list issue)) : run (list detected) :=
  match names with
  | [] => Value []
  | n :: r =>
      seq (f n) (fun i =>
      seq (run_each r f) (fun rest => Value (match i with [] => rest | _ => Detected n i :: rest end)))
  end.

(** utils::transform over the participants, Validation.cpp:125-127 *)
Fixpoint create_all (location : string) (ps : list string) : run (list Rule) :=
  match ps with
  | [] => Value []
  | p :: r =>
      match create location p with
      | None => Uncaught (NoRules location p)
      | Some x => seq (create_all location r) (fun rest => Value (x :: rest))
      end
  end.

(** runRoutingGraphValidators, Validation.cpp:58-78 *)
Fixpoint graph_loop (m : M) (names : list string) (rules : list Rule) : run (list detected) :=
  match rules with
  | [] => Value []
  | r :: rest =>
      seq (match build m r with
           | Built g => run_each names (run_graph g r)
           | BuildError what =>
               Value [Detected "general" [plain_issue Error ("Failed to create routing graph for " ++ rule_text r ++ ": " ++ what)%string]]
           | BuildCrash => Crash
           end) (fun here => seq (graph_loop m names rest) (fun later => Value (here ++ later)))
  end.
Definition run_graphs (m : M) (names : list string) (rules : list Rule) : run (list detected) :=
  match names with [] => Value [] | _ => graph_loop m names rules end.

(** validateMap(map, config), Validation.cpp:119-131 *)
Definition validate (m : M) (c : tool_config) : run (list detected) :=
  seq (parse_checked (c_filter c)) (fun re =>
  seq (run_each (match_validators matches re map_names) (run_map m)) (fun a =>
  seq (create_all (c_location c) (c_participants c)) (fun rules =>
  seq (run_each (match_validators matches re rule_names) (run_rules m rules)) (fun b =>
  seq (run_graphs m (match_validators matches re graph_names) rules) (fun d => Value (a ++ b ++ d)))))).

(** validateMap(filename, config), Validation.cpp:133-153 *)
Definition validate_file (c : tool_config) : run (list detected) :=
  seq (parse_checked (c_filter c)) (fun _ =>
  if negb (c_origin_ok c) then Uncaught BadOrigin else
  match load (c_file c) with
  | LoadError what => Value [Detected "general" [plain_issue Error ("Failed to load map: " ++ what)%string]]
  | LoadThrows => Uncaught OtherException
  | Loaded m errs =>
      seq (validate m c) (fun l => Value (match errs with [] => [] | _ => [Detected "general" (map (plain_issue Error) errs)] end ++ l))
  end).

(** A finished program: exit code, lines on the error stream and lines on the output stream. *)
Record finished := Finished { f_code : nat; f_err : list string; f_out : list string }.

(** printAllIssues, Cli.cpp:55-64: lines on the error stream and on the output stream *)
Definition print_all (l : list detected) : list string * list string :=
  let r := build_report l in
  (fst r, snd r ++ [(print_Z (Z.of_nat (List.length (snd r) + List.length (fst r))) ++ " issues found.")%string]).

(** runFromConfig, Cli.cpp:66-88 *)
Definition run_from_config (c : tool_config) : run finished :=
  if c_help c then Value (Finished 0 [] [])
  else if c_print c then
    seq (parse_checked (c_filter c)) (fun _ =>
    Value (Finished 0 [] (match available_checks matches map_names rule_names graph_names (c_filter c) with
                          | [] => [("No checks found matching '" ++ c_filter c ++ "'")%string]
                          | l => "Will use following checks:" :: l
                          end)))
  else if String.eqb (c_file c) "" then Value (Finished 1 [] [])
  else seq (validate_file c) (fun l =>
       let p := print_all l in
       Value (Finished (match l with [] => 0 | _ => 1 end) (fst p) (snd p))).
End Tool.

(** * The parts of the repository *)

(** What the checks of the repository look at in a map *)
Record tool_map := ToolMap {
  tm_tags : tag_map; tm_line_points : list (Z * list vpoint); tm_polygon_points : list (Z * list vpoint);
  tm_points : list vpoint; tm_nearest : vpoint -> list vpoint; tm_lanelets : list (Z * list vpoint * list vpoint);
  tm_world : BuilderModel.world }.
(** The registered checks in the order of their names; the headers in lanelet2_validation/validators *)
Definition own_map_names : list string :=
  ["mapping.bool_tags"; "mapping.curvature_too_big"; "mapping.duplicated_points"; "mapping.mandatory_tags";
   "mapping.points_too_close"; "mapping.unknown_tag_value"; "mapping.unknown_tags"].
Definition own_rule_names : list string := [].
Definition own_graph_names : list string := ["routing.graph_is_valid"].
Definition own_run_map (m : tool_map) (n : string) : run (list issue) :=
  Value
    (if String.eqb n "mapping.bool_tags" then bool_tags (tm_tags m)
     else if String.eqb n "mapping.curvature_too_big" then curvature_too_big (tm_lanelets m)
     else if String.eqb n "mapping.duplicated_points" then duplicated_points (tm_line_points m) (tm_polygon_points m)
     else if String.eqb n "mapping.mandatory_tags" then mandatory_tags (tm_tags m)
     else if String.eqb n "mapping.points_too_close" then points_too_close (tm_nearest m) (tm_points m)
     else if String.eqb n "mapping.unknown_tag_value" then unknown_tag_values (tm_tags m)
     else if String.eqb n "mapping.unknown_tags" then unknown_tags (tm_tags m)
     else []).

Section Own.
Context {A : CostAlg.CostAlg}.
Variable one : CostAlg.cost A.
Variable costs : list (@BuilderModel.module A).
Variable order : list (BuilderModel.lref * BuilderModel.lref) -> list (BuilderModel.lref * BuilderModel.lref).
(** The answers of the traffic rules of a kind on a map *)
Variable rules_of : tool_map -> TrafficModel.kind -> BuilderModel.rules.
Variable negative_text : string.
Variable flaw_text : GraphModel.elem * ValidityModel.flaw -> string.

(** TrafficRulesFactory::create, TrafficRulesFactory.cpp:10-25: rules are registered for Germany only. *)
Definition own_create (location participant : string) : option TrafficModel.kind :=
  if String.eqb location "de" then TrafficModel.rules_for participant else None.
(** RoutingGraph::build(map, rules), RoutingGraph.cpp:375-378; a negative cost is a RoutingGraphError. *)
Definition own_build (m : tool_map) (k : TrafficModel.kind) : building (GraphModel.graph A) :=
  match BuilderModel.build one (tm_world m) (rules_of m k) costs order with
  | BuilderModel.Ok g => Built g
  | BuilderModel.ThrowsNegative => BuildError negative_text
  | _ => BuildCrash
  end.
(** RoutingGraphIsValid, RoutingGraphIsValid.cpp:14-18. [fuel] bounds the loops of checkValidity: the
    check does not end if no bound suffices; an exception would not be caught. *)
Definition own_run_graph (fuel : nat) (g : GraphModel.graph A) (k : TrafficModel.kind) (n : string) : run (list issue) :=
  match ValidityModel.check_validity g false fuel with
  | GraphModel.Ret (Some e) => Value (map (fun x => plain_issue Error (flaw_text x)) e)
  | GraphModel.Ret None => Endless
  | GraphModel.Throws => Uncaught OtherException
  end.
(** main(), main.cpp:3-6, without parsing of the command line *)
Definition own_program (regex_ok : string -> bool) (matches : string -> string -> bool) (load : string -> loaded tool_map)
    (rule_text : TrafficModel.kind -> string) (fuel : nat) (c : tool_config) : run finished :=
  run_from_config regex_ok matches own_map_names own_rule_names own_graph_names load own_create rule_text own_build
    own_run_map (fun _ _ _ => Value []) (own_run_graph fuel) c.
End Own.
