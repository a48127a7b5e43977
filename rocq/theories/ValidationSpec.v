(** What the checks of a map are supposed to report. Of the model only the data types
    are used: issues, primitives with their tags, points. *)
From Coq Require Import List Bool String Ascii ZArith Reals.
From Verif Require Import ValidationModel.
Import ListNotations.
Open Scope string_scope.
Open Scope list_scope.

(** The primitives of one kind in a map. *)
Definition of_kind (p : primitive) (m : tag_map) : list tagged :=
  match p with
  | PPoint => m_points m | PLineString => m_lines m | PLanelet => m_lanelets m | PArea => m_areas m
  | PRegulatoryElement => m_regelems m | _ => []
  end.

(** A string begins with another one. *)
Definition begins (s w : string) : Prop := exists r, s = (w ++ r)%string.

(** The words a key may begin with, for each kind of primitive. *)
Definition key_words (p : primitive) : list string :=
  match p with
  | PPoint => ["ele"; "type"; "subtype"]
  | PLineString => ["type"; "subtype"; "lane_change"; "width"; "height"; "temporary"; "color"]
  | PLanelet => ["type"; "subtype"; "one_way"; "name"; "region"; "speed_limit"; "location"; "participant"]
  | PArea => ["type"; "subtype"; "speed_limit"; "location"; "region"; "name"]
  | PRegulatoryElement => ["dynamic"; "fallback"; "sign_type"; "speed_limit"; "subtype"; "type"]
  | _ => []
  end.

(** The keys described in the documentation (LaneletAndAreaTagging.md,
    LinestringTagging.md, RegulatoryElementTagging.md). *)
Inductive documented : primitive -> string -> Prop :=
| doc_type p : documented p "type"
| doc_subtype p : documented p "subtype"
| doc_line k : In k ["lane_change"; "lane_change:left"; "lane_change:right"; "width"; "height"; "temporary"; "color"] ->
    documented PLineString k
| doc_region p k : p = PLanelet \/ p = PArea ->
    In k ["location"; "region"; "road_name"; "road_surface"; "speed_limit"; "speed_limit_mandatory"] ->
    documented p k
| doc_participant p who : p = PLanelet \/ p = PArea -> documented p ("participant:" ++ who)
| doc_speed p who : p = PLanelet \/ p = PArea -> documented p ("speed_limit:" ++ who)
| doc_mandatory p who : p = PLanelet \/ p = PArea -> documented p ("speed_limit_mandatory:" ++ who)
| doc_direction : documented PLanelet "one_way"
| doc_direction_of who : documented PLanelet ("one_way:" ++ who)
| doc_rule k : In k ["dynamic"; "fallback"; "sign_type"] -> documented PRegulatoryElement k.

(** The values a key may have, where they are restricted; [t] is the type tag. *)
Definition allowed_values (p : primitive) (t : option string) (k : string) : option (list string) :=
  match p with
  | PPoint => if String.eqb k "type" then Some ["dot"; "end"; "pole"; "post"; "start"] else None
  | PLineString =>
      if String.eqb k "type" then
        Some ["arrow"; "bike_marking"; "bump"; "curbstone"; "door"; "fence"; "gate"; "guard_rail"; "jersey_barrier";
              "keepout"; "lift_gate"; "line_thick"; "line_thin"; "pedestrian_marking"; "rail"; "road_border";
              "stop_line"; "symbol"; "traffic_light"; "traffic_sign"; "trajectory"; "virtual"; "visualization";
              "wall"; "zebra_marking"; "zig-zag"]
      else if String.eqb k "subtype" then
        match t with
        | Some "line_thick" | Some "line_thin" => Some ["solid"; "solid_solid"; "dashed"; "dashed_solid"; "solid_dashed"]
        | Some "curbstone" => Some ["high"; "low"]
        | Some "arrow" => Some ["left"; "right"; "straight"; "straight_left"; "straight_right"; "left_right"]
        | Some "bike_marking" | Some "pedestrian_marking" | Some "stop_line" => Some ["dashed"; "solid"]
        | Some "bump" | Some "virtual" => Some []
        | Some "traffic_light" => Some ["red_yellow_green"; "red_yellow"; "red_green"; "red"]
        | _ => None
        end
      else None
  | PLanelet =>
      if String.eqb k "type" then Some ["lanelet"]
      else if String.eqb k "subtype" then
        Some ["road"; "highway"; "play_street"; "emergency_lane"; "bus_lane"; "bicycle_lane"; "walkway";
              "shared_walkway"; "crosswalk"; "stairs"; "rail"]
      else if String.eqb k "location" then Some ["urban"; "nonurban"; "private"]
      else None
  | PArea =>
      if String.eqb k "type" then Some ["multipolygon"]
      else if String.eqb k "subtype" then
        Some ["road"; "highway"; "play_street"; "emergency_lane"; "bus_lane"; "bicycle_lane"; "exit"; "walkway";
              "shared_walkway"; "crosswalk"; "stairs"; "parking"; "freespace"; "vegetation"; "keepout"; "building";
              "traffic_island"]
      else if String.eqb k "location" then Some ["urban"; "nonurban"; "private"]
      else None
  | PRegulatoryElement => if String.eqb k "type" then Some ["regulatory_element"] else None
  | _ => None
  end.
(** The value of the first tag with a key; a map has one at most. *)
Definition tag (k : string) (a : attrs) : option string := option_map snd (find (fun e => String.eqb k (fst e)) a).
(** A tag whose value is not one of the allowed ones. *)
Definition bad_value (p : primitive) (e : tagged) (k v : string) : Prop :=
  In (k, v) (t_attrs e)
  /\ exists l, allowed_values p (tag "type" (t_attrs e)) k = Some l /\ ~ In v l.

(** The tags a primitive must have. *)
Definition required (p : primitive) : list string :=
  match p with
  | PLineString => ["type"]
  | PLanelet | PArea => ["type"; "subtype"; "location"]
  | PRegulatoryElement => ["type"; "subtype"]
  | _ => []
  end.

(** The words that keys of yes/no tags begin with. *)
Definition yes_no_words : list string :=
  ["one_way"; "dynamic"; "lane_change"; "participant"; "fallback"; "temporary"].
(** The texts of truth values: the words, or a number 0 or 1 with leading zeros and
    perhaps a sign (but not minus one). *)
Fixpoint zeros (n : nat) : string := match n with 0 => "" | S n => String "0" (zeros n) end.
Definition truth_value (s : string) : Prop :=
  In s ["yes"; "no"; "true"; "false"]
  \/ (exists n, In s [(zeros n ++ "0")%string; (zeros n ++ "1")%string; ("+" ++ zeros n ++ "0")%string;
                      ("+" ++ zeros n ++ "1")%string; ("-" ++ zeros n ++ "0")%string]).

(** * Points *)

(** Two points in succession in a list. *)
Definition in_succession {A} (p q : A) (l : list A) : Prop := exists a b, l = a ++ p :: q :: b.

(** What a query for the two nearest points in the plane may deliver: two points (or
    all, if there are less), no other one is nearer. *)
Definition flat_distance (p q : vpoint) : R :=
  sqrt ((p_x p - p_x q) ^ 2 + (p_y p - p_y q) ^ 2).
Definition two_nearest (points : list vpoint) (p : vpoint) (l : list vpoint) : Prop :=
  NoDup l /\ incl l points /\ List.length l = Nat.min 2 (List.length points)
  /\ forall a b, In a l -> In b points -> ~ In b l -> (flat_distance p a <= flat_distance p b)%R.

(** Distance in space. *)
Definition space_distance (p q : vpoint) : R :=
  sqrt ((p_x p - p_x q) ^ 2 + (p_y p - p_y q) ^ 2 + (p_z p - p_z q) ^ 2).

(** A circle through three points. *)
Definition on_circle (cx cy r : R) (p : vpoint) : Prop := ((p_x p - cx) ^ 2 + (p_y p - cy) ^ 2 = r ^ 2)%R.
Definition circle_below (limit : R) (p q s : vpoint) : Prop :=
  exists cx cy r, (0 < r < limit)%R /\ on_circle cx cy r p /\ on_circle cx cy r q /\ on_circle cx cy r s.

(** * Filter *)

(** A piece of a comma separated list. *)
Fixpoint no_comma (s : string) : Prop :=
  match s with "" => True | String c r => c <> ","%char /\ no_comma r end.
Definition piece (t s : string) : Prop :=
  no_comma t /\ exists a b, s = (a ++ t ++ b)%string
                 /\ (a = "" \/ exists a', a = (a' ++ ",")%string)
                 /\ (b = "" \/ exists b', b = ("," ++ b')%string).

(** The checks a filter selects: all if it names none, else those a piece matches. *)
Definition selected (matches : string -> string -> bool) (flt n : string) : Prop :=
  (forall t, piece t flt -> t = "") \/ (exists t, t <> "" /\ piece t flt /\ matches t n = true).
