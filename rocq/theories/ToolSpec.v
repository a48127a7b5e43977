(** When the program should be content with a map. *)
From Coq Require Import List String.
From Verif Require Import ValidationModel ValidationSpec ToolModel.
Import ListNotations.
Open Scope string_scope.

Section Spec.
Context {M G Rule : Type}.
Variable matches : string -> string -> bool.
Variables map_names rule_names graph_names : list string.
Variable load : string -> loaded M.
Variable create : string -> string -> option Rule.
Variable build : M -> Rule -> building G.
Variable run_map : M -> string -> run (list issue).
Variable run_rules : M -> list Rule -> string -> run (list issue).
Variable run_graph : G -> Rule -> string -> run (list issue).

(** No check that the filter selects has anything to say. *)
Definition faultless (c : tool_config) (m : M) : Prop :=
  (forall n, In n map_names -> selected matches (c_filter c) n -> run_map m n = Value []) /\
  exists rules, Forall2 (fun p r => create (c_location c) p = Some r) (c_participants c) rules /\
    (forall n, In n rule_names -> selected matches (c_filter c) n -> run_rules m rules n = Value []) /\
    (forall n r, In n graph_names -> selected matches (c_filter c) n -> In r rules ->
       exists g, build m r = Built g /\ run_graph g r n = Value []).
Definition content_with (c : tool_config) : Prop := exists m, load (c_file c) = Loaded m [] /\ faultless c m.
(** All parts of the program return. *)
Definition returns {T} (r : run T) : Prop := exists x, r = Value x.
End Spec.
