(** Model of the checks of a map: tags, doubled points, points too close, curvature,
    and of the selection of the checks and of the report.

    Source: lanelet2_validation/src/validators/*.cpp, Validation.cpp,
    ValidatorFactory.cpp, lanelet2_core/.../geometry/impl/LineString.h:703-722.

    An attribute map is the list of its entries in the order of the keys (std::map).
    Coordinates are exact real numbers. Regular expressions are a parameter. *)
From Coq Require Import List Arith Bool String Ascii ZArith Reals.
From Verif Require Import AttrModel.
Import ListNotations.
Open Scope string_scope.
Open Scope list_scope.

(** * Issues *)

(** Severity and Primitive, Issue.h:10-11. *)
Inductive severity := Error | Warning | Info.
Inductive primitive := PPoint | PLineString | PPolygon | PLanelet | PArea | PRegulatoryElement | PPrimitive.

(** struct Issue, Issue.h:46-66. *)
Record issue := Issue { i_severity : severity; i_primitive : primitive; i_id : Z; i_message : string }.

(** Issue(severity, message), Issue.h:48: the other members have their defaults. *)
Definition plain_issue (s : severity) (m : string) : issue := Issue s PPoint 0 m.

(** toString, Issue.h:13-44. *)
Definition severity_text (s : severity) : string :=
  match s with Error => "Error" | Warning => "Warning" | Info => "info" end.
Definition primitive_text (p : primitive) : string :=
  match p with
  | PPoint => "point" | PLineString => "linestring" | PPolygon => "polygon" | PLanelet => "lanelet"
  | PArea => "area" | PRegulatoryElement => "regulatory element" | PPrimitive => "primitive"
  end.

(** Issue::buildReport, Issue.h:51-59. *)
Definition build_text (i : issue) : string :=
  (severity_text (i_severity i) ++ ": "
   ++ (if (i_id i =? 0)%Z then "" else primitive_text (i_primitive i) ++ " " ++ print_Z (i_id i) ++ " ")
   ++ i_message i)%string.

(** * Tags: CheckTags.cpp *)

(** The entries of an attribute map: key and value string. *)
Definition attrs := list (string * string).

(** A primitive of a layer as far as the tag checks look at it. *)
Record tagged := Tagged { t_id : Z; t_attrs : attrs }.

(** startsWith, CheckTags.cpp:19-21. *)
Definition starts_with (s sub : string) : bool := prefix sub s.

(** AttributeMap::find(string). *)
Fixpoint find_attr (k : string) (m : attrs) : option string :=
  match m with
  | [] => None
  | (k', v) :: r => if String.eqb k k' then Some v else find_attr k r
  end.

(** The tables of keys, CheckTags.cpp:23-27, 36-41, 43-47, 81-86, 88-92, 107-112,
    128-132, 134-139, 141-145. *)
Definition known_point_tags := ["ele"; "type"; "subtype"].
Definition known_line_string_tags := ["type"; "subtype"; "lane_change"; "width"; "height"; "temporary"; "color"].
Definition mandatory_line_string_tags := ["type"].
Definition known_lanelet_tags :=
  ["type"; "subtype"; "one_way"; "name"; "region"; "speed_limit"; "location"; "participant"].
Definition mandatory_lanelet_tags := ["type"; "subtype"; "location"].
Definition known_area_tags := ["type"; "subtype"; "speed_limit"; "location"; "region"; "name"].
Definition mandatory_area_tags := ["type"; "subtype"; "location"].
Definition known_regelem_tags := ["dynamic"; "fallback"; "sign_type"; "speed_limit"; "subtype"; "type"].
Definition mandatory_regelem_tags := ["type"; "subtype"].
(** boolAttributes, CheckTags.cpp:210-211. *)
Definition bool_attributes := ["one_way"; "dynamic"; "lane_change"; "participant"; "fallback"; "temporary"].

(** The tables of values, CheckTags.cpp:29-34, 49-79, 94-105, 114-126, 199-204. *)
Definition value_map := list (string * list string).
Definition known_point_values : value_map := [("type", ["dot"; "end"; "pole"; "post"; "start"])].
Definition line_subtypes := ["dashed"; "dashed_solid"; "solid"; "solid_dashed"; "solid_solid"].
Definition known_line_string_values : value_map :=
  [("type", ["arrow"; "bike_marking"; "bump"; "curbstone"; "door"; "fence"; "gate"; "guard_rail";
             "jersey_barrier"; "keepout"; "lift_gate"; "line_thick"; "line_thin"; "pedestrian_marking";
             "rail"; "road_border"; "stop_line"; "symbol"; "traffic_light"; "traffic_sign"; "trajectory";
             "virtual"; "visualization"; "wall"; "zebra_marking"; "zig-zag"]);
   (("line_thick" ++ "subtype")%string, line_subtypes);
   (("line_thin" ++ "subtype")%string, line_subtypes);
   (("curbstone" ++ "subtype")%string, ["high"; "low"]);
   (("arrow" ++ "subtype")%string, ["left"; "left_right"; "right"; "straight"; "straight_left"; "straight_right"]);
   (("bike_marking" ++ "subtype")%string, ["dashed"; "solid"]);
   (("pedestrian_marking" ++ "subtype")%string, ["dashed"; "solid"]);
   (("stop_line" ++ "subtype")%string, ["dashed"; "solid"]);
   (("bump" ++ "subtype")%string, []);
   (("traffic_light" ++ "subtype")%string, ["red"; "red_green"; "red_yellow"; "red_yellow_green"]);
   (("virtual" ++ "subtype")%string, [])].
Definition known_lanelet_values : value_map :=
  [("type", ["lanelet"]);
   ("subtype", ["bicycle_lane"; "bus_lane"; "crosswalk"; "emergency_lane"; "highway"; "play_street"; "rail";
                "road"; "shared_walkway"; "stairs"; "walkway"]);
   ("location", ["nonurban"; "private"; "urban"])].
Definition known_area_values : value_map :=
  [("type", ["multipolygon"]);
   ("subtype", ["bicycle_lane"; "building"; "bus_lane"; "crosswalk"; "emergency_lane"; "exit"; "freespace";
                "highway"; "keepout"; "parking"; "play_street"; "road"; "shared_walkway"; "stairs";
                "traffic_island"; "vegetation"; "walkway"]);
   ("location", ["nonurban"; "private"; "urban"])].
Definition known_regelem_values : value_map := [("type", ["regulatory_element"])].

(** ValueMap::find. *)
Fixpoint find_values (k : string) (m : value_map) : option (list string) :=
  match m with
  | [] => None
  | (k', v) :: r => if String.eqb k k' then Some v else find_values k r
  end.

(** operator< of std::string. *)
Definition string_lt (a b : string) : bool := match String.compare a b with Lt => true | _ => false end.

(** std::lower_bound as in libstdc++: halve the range until it is empty. [fuel] is at
    least the length of the range. *)
Fixpoint lower_bound (fuel first len : nat) (v : string) (l : list string) : nat :=
  match fuel with
  | 0 => first
  | S f =>
      match len with
      | 0 => first
      | _ => let half := Nat.div2 len in
             let middle := first + half in
             if string_lt (nth middle l "") v then lower_bound f (S middle) (len - half - 1) v l
             else lower_bound f first half v l
      end
  end.
(** std::binary_search. *)
Definition binary_search (v : string) (l : list string) : bool :=
  let i := lower_bound (List.length l) 0 (List.length l) v l in
  (i <? List.length l)%nat && negb (string_lt v (nth i l "")).

(** checkKnownTags, CheckTags.cpp:147-158. *)
Definition check_known_tags (a : attrs) (known : list string) (id : Z) (p : primitive) : list issue :=
  flat_map (fun e => if existsb (fun k => starts_with (fst e) k) known then []
                     else [Issue Warning p id ("attribute " ++ fst e ++ " is not a known lanelet2 tag.")%string]) a.

(** checkMandatoryTags, CheckTags.cpp:160-169. *)
Definition check_mandatory_tags (a : attrs) (mandatory : list string) (id : Z) (p : primitive) : list issue :=
  flat_map (fun t => match find_attr t a with
                     | Some _ => []
                     | None => [Issue Warning p id ("should have a " ++ t ++ " attribute.")%string]
                     end) mandatory.

(** checkKnownTagValues, CheckTags.cpp:171-197. [type->first] is the key of the entry
    found, "type". *)
Definition check_known_tag_values (a : attrs) (known : value_map) (id : Z) (p : primitive) (combine : bool)
  : list issue :=
  let type := match find_attr "type" a with Some _ => Some "type" | None => None end in
  flat_map (fun e =>
      let key := match type with
                 | Some t => if combine && String.eqb (fst e) "subtype" then (t ++ fst e)%string else fst e
                 | None => fst e
                 end in
      match find_values key known with
      | None => []
      | Some values =>
          if binary_search (snd e) values then []
          else [Issue Warning p id ("value " ++ snd e ++ " is not a known value for " ++ fst e)%string]
      end) a.

(** checkAttribute, CheckTags.cpp:206-226. The attributes were made from strings (or
    read from a file), asBool is [conv_bool] of AttrModel. *)
Definition check_attribute (a : attrs) (id : Z) (p : primitive) : list issue :=
  flat_map (fun e =>
      if existsb (fun k => starts_with (fst e) k) bool_attributes then
        match conv_bool (snd e) with
        | Some _ => []
        | None => [Issue Warning p id ("attribute " ++ fst e ++ ": " ++ snd e
                                       ++ " should be convertible to bool, but isn't.")%string]
        end
      else []) a.

(** The layers of a map as the tag checks see them. *)
Record tag_map := TagMap {
  m_points : list tagged; m_lines : list tagged; m_lanelets : list tagged; m_areas : list tagged;
  m_regelems : list tagged }.

(** BoolTags, CheckTags.cpp:233-248. *)
Definition bool_tags (m : tag_map) : list issue :=
  flat_map (fun e => check_attribute (t_attrs e) (t_id e) PLineString) (m_lines m)
  ++ flat_map (fun e => check_attribute (t_attrs e) (t_id e) PLanelet) (m_lanelets m)
  ++ flat_map (fun e => check_attribute (t_attrs e) (t_id e) PArea) (m_areas m)
  ++ flat_map (fun e => check_attribute (t_attrs e) (t_id e) PRegulatoryElement) (m_regelems m).

(** UnknownTags, CheckTags.cpp:250-268. *)
Definition unknown_tags (m : tag_map) : list issue :=
  flat_map (fun e => check_known_tags (t_attrs e) known_point_tags (t_id e) PPoint) (m_points m)
  ++ flat_map (fun e => check_known_tags (t_attrs e) known_line_string_tags (t_id e) PLineString) (m_lines m)
  ++ flat_map (fun e => check_known_tags (t_attrs e) known_lanelet_tags (t_id e) PLanelet) (m_lanelets m)
  ++ flat_map (fun e => check_known_tags (t_attrs e) known_area_tags (t_id e) PArea) (m_areas m)
  ++ flat_map (fun e => check_known_tags (t_attrs e) known_regelem_tags (t_id e) PRegulatoryElement) (m_regelems m).

(** UnknownTagValue, CheckTags.cpp:270-290. *)
Definition unknown_tag_values (m : tag_map) : list issue :=
  flat_map (fun e => check_known_tag_values (t_attrs e) known_point_values (t_id e) PPoint false) (m_points m)
  ++ flat_map (fun e => check_known_tag_values (t_attrs e) known_line_string_values (t_id e) PLineString true)
              (m_lines m)
  ++ flat_map (fun e => check_known_tag_values (t_attrs e) known_lanelet_values (t_id e) PLanelet false)
              (m_lanelets m)
  ++ flat_map (fun e => check_known_tag_values (t_attrs e) known_area_values (t_id e) PArea false) (m_areas m)
  ++ flat_map (fun e => check_known_tag_values (t_attrs e) known_regelem_values (t_id e) PRegulatoryElement false)
              (m_regelems m).

(** MandatoryTags, CheckTags.cpp:292-307. *)
Definition mandatory_tags (m : tag_map) : list issue :=
  flat_map (fun e => check_mandatory_tags (t_attrs e) mandatory_line_string_tags (t_id e) PLineString) (m_lines m)
  ++ flat_map (fun e => check_mandatory_tags (t_attrs e) mandatory_lanelet_tags (t_id e) PLanelet) (m_lanelets m)
  ++ flat_map (fun e => check_mandatory_tags (t_attrs e) mandatory_area_tags (t_id e) PArea) (m_areas m)
  ++ flat_map (fun e => check_mandatory_tags (t_attrs e) mandatory_regelem_tags (t_id e) PRegulatoryElement)
              (m_regelems m).

(** * Points *)

(** A point: its identity (the data it shares) and its id. *)
Record vpoint := VPoint { p_data : nat; p_id : Z; p_x : R; p_y : R; p_z : R }.

(** operator== of points compares the data. *)
Definition same_point (p q : vpoint) : bool := Nat.eqb (p_data p) (p_data q).

(** hasDuplicates, DuplicatedPoints.cpp:13-24. *)
Fixpoint has_duplicates (l : list vpoint) : option Z :=
  match l with
  | p :: (q :: _) as r => if same_point p q then Some (p_id p) else has_duplicates r
  | _ => None
  end.

(** DuplicatedPointsChecker, DuplicatedPoints.cpp:27-46: line strings and polygons as
    id and points. *)
Definition duplicated_points (lines polygons : list (Z * list vpoint)) : list issue :=
  flat_map (fun l => match has_duplicates (snd l) with
                     | Some d => [Issue Error PLineString (fst l)
                                    ("Linestring contains the point " ++ print_Z d
                                     ++ " multiple times in succession. This is not allowed!")%string]
                     | None => []
                     end) lines
  ++ flat_map (fun l => match has_duplicates (snd l) with
                        | Some d => [Issue Error PPolygon (fst l)
                                       ("Polygon contains the point " ++ print_Z d
                                        ++ " multiple times in succession. This is not allowed!")%string]
                        | None => []
                        end) polygons.

Local Open Scope R_scope.
Local Open Scope list_scope.

(** geometry::distance of two points of three dimensions. *)
Definition distance3 (p q : vpoint) : R :=
  sqrt ((p_x p - p_x q) * (p_x p - p_x q) + (p_y p - p_y q) * (p_y p - p_y q)
        + (p_z p - p_z q) * (p_z p - p_z q)).

(** PointsTooCloseChecker, PointsTooClose.cpp:14-28. [nearest p] is what
    pointLayer.nearest(p, 2) delivers, see the spec. *)
Definition points_too_close (nearest : vpoint -> list vpoint) (points : list vpoint) : list issue :=
  flat_map (fun p =>
      match nearest p with
      | [a; b] =>
          let next := if same_point a p then b else a in
          if Rlt_dec (distance3 p next) (5 / 100)
          then [Issue Warning PPoint (p_id p)
                  ("Point is very close to point " ++ print_Z (p_id next)
                   ++ ". This can lead to defects in the map")%string]
          else []
      | _ => []
      end) points.

(** A coordinate or a positive infinity, the result of signedCurvature2d. *)
Inductive curvature := Infinite | Finite (c : R).

Definition distance2 (p q : vpoint) : R :=
  sqrt ((p_x p - p_x q) * (p_x p - p_x q) + (p_y p - p_y q) * (p_y p - p_y q)).

(** signedCurvature2d, LineString.h:709-721. *)
Definition signed_curvature (p1 p2 p3 : vpoint) : curvature :=
  let area := 1 / 2 * ((p_x p2 - p_x p1) * (p_y p3 - p_y p1) - (p_y p2 - p_y p1) * (p_x p3 - p_x p1)) in
  let product := distance2 p1 p2 * distance2 p1 p3 * distance2 p2 p3 in
  if Rlt_dec product (1 / 10 ^ 20) then Infinite else Finite (4 * area / product).

(** curvature2d, LineString.h:704-707, compared with 0.5 as in CurvatureTooBig.cpp:28. *)
Definition too_curved (p1 p2 p3 : vpoint) : bool :=
  match signed_curvature p1 p2 p3 with
  | Infinite => true
  | Finite c => if Rlt_dec (1 / 2) (Rabs (Rabs c)) then true else false
  end.

(** checkCurvature, CurvatureTooBig.cpp:24-36. *)
Fixpoint check_curvature (id : Z) (l : list vpoint) : list issue :=
  match l with
  | p1 :: (p2 :: p3 :: _) as r =>
      (if too_curved p1 p2 p3
       then [Issue Warning PLanelet id
               ("Curvature at point " ++ print_Z (p_id p2)
                ++ " is bigger than 0.5. This can confuse algorithms using this map.")%string]
       else []) ++ check_curvature id r
  | _ => []
  end.

(** CurvatureTooBigChecker, CurvatureTooBig.cpp:15-22: id, left and right bound. *)
Definition curvature_too_big (lanelets : list (Z * list vpoint * list vpoint)) : list issue :=
  flat_map (fun l => (check_curvature (fst (fst l)) (snd (fst l)) ++ check_curvature (fst (fst l)) (snd l))%list)
           lanelets.

Local Close Scope R_scope.

(** * Selection of the checks and report *)

(** getline(ss, substr, ',') until the stream ends, Validation.cpp:14-25: the pieces
    between the commas; empty ones are skipped. *)
Fixpoint split_commas (s : string) : list string :=
  match s with
  | EmptyString => [""]
  | String c r =>
      if Ascii.eqb c "," then "" :: split_commas r
      else match split_commas r with
           | [] => [String c ""]
           | h :: t => String c h :: t
           end
  end.
Definition parse_filter (s : string) : list string := filter (fun t => negb (String.eqb t "")) (split_commas s).

(** std::sort of strings and std::unique. *)
Fixpoint insert_sorted (v : string) (l : list string) : list string :=
  match l with
  | [] => [v]
  | h :: t => if string_lt h v then h :: insert_sorted v t else v :: l
  end.
Definition sort_strings (l : list string) : list string := fold_right insert_sorted [] l.
Fixpoint unique (l : list string) : list string :=
  match l with
  | a :: ((b :: _) as r) => if String.eqb a b then unique r else a :: unique r
  | _ => l
  end.

Section select.
(** std::regex_match(name, regex) for a regex (basic, ignoring case) given as text. *)
Variable matches : string -> string -> bool.

(** matchSingleRegex and matchValidators, ValidatorFactory.cpp:8-30. [names] are the
    keys of the registry, a std::map. *)
Definition match_validators (regexes names : list string) : list string :=
  match regexes with
  | [] => names
  | _ => unique (sort_strings (flat_map (fun r => filter (fun n => matches r n) names) regexes))
  end.

(** availabeChecks, Validation.cpp:99-101, with availableValidators, ValidatorFactory.cpp:60-65. *)
Definition available_checks (map_names rule_names graph_names : list string) (flt : string) : list string :=
  let re := parse_filter flt in
  match_validators re map_names ++ match_validators re rule_names ++ match_validators re graph_names.

(** struct DetectedIssues, Validation.h. *)
Record detected := Detected { d_check : string; d_issues : list issue }.

(** runValidators, Validation.cpp:32-43: [run] is what the check of that name finds. *)
Definition run_validators (names : list string) (run : string -> list issue) : list detected :=
  flat_map (fun n => match run n with [] => [] | l => [Detected n l] end) names.

(** runRoutingGraphValidators, Validation.cpp:56-76. A rule is given as its text; [build]
    is RoutingGraph::build, an exception (LaneletError) carries its text. *)
Definition run_graph_validators {G Rule} (names : list string) (rules : list Rule) (rule_text : Rule -> string)
    (build : Rule -> G + string) (run : G -> Rule -> string -> list issue) : list detected :=
  match names with
  | [] => []
  | _ => flat_map (fun r => match build r with
                            | inl g => run_validators names (run g r)
                            | inr what => [Detected "general"
                                             [plain_issue Error ("Failed to create routing graph for "
                                                                 ++ rule_text r ++ ": " ++ what)%string]]
                            end) rules
  end.

(** validateMap, Validation.cpp:119-131. *)
Definition validate_map {G Rule} (map_names rule_names graph_names : list string) (flt : string)
    (run_map : string -> list issue) (run_rules : list Rule -> string -> list issue)
    (rules : list Rule) (rule_text : Rule -> string) (build : Rule -> G + string)
    (run_graph : G -> Rule -> string -> list issue) : list detected :=
  let re := parse_filter flt in
  run_validators (match_validators re map_names) run_map
  ++ run_validators (match_validators re rule_names) (run_rules rules)
  ++ run_graph_validators (match_validators re graph_names) rules rule_text build run_graph.
End select.

(** DetectedIssues::errors and warnings, Validation.cpp:79-97. *)
Definition errors (d : detected) : list issue :=
  filter (fun i => match i_severity i with Error => true | _ => false end) (d_issues d).
Definition warnings (d : detected) : list issue :=
  filter (fun i => match i_severity i with Warning => true | _ => false end) (d_issues d).

(** buildReport, Validation.cpp:103-117: errors and warnings. *)
Definition report_line (d : detected) (i : issue) : string :=
  (build_text i ++ " [" ++ d_check d ++ "]")%string.
Definition build_report (l : list detected) : list string * list string :=
  fold_left (fun r d => (fst r ++ map (report_line d) (errors d), snd r ++ map (report_line d) (warnings d)))%list
            l ([], []).
