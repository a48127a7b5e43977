(** Model of the traffic rules: which participant may use a lanelet or area, change
    lanes, pass between primitives, and how fast.

    Source: lanelet2_traffic_rules/src/GenericTrafficRules.cpp, GermanTrafficRules.cpp and
    .h, TrafficRulesFactory.cpp; geometry/impl/Lanelet.h and Area.h for the relations.

    Attribute values [V] are given with their conversions (C24); an attribute map is the
    list of its entries in key order (C23). Velocities [Vel] are opaque, [kmh n] is n
    km/h. Regulatory elements are reduced to what speedLimit looks at; the overloads of
    canPass on regulatory elements return nothing in all classes of the repository
    (GermanTrafficRules.h:20, 34, 50) and are left out. Points are identified by their
    data pointer. *)
From Coq Require Import List Arith Bool String Ascii.
Import ListNotations.
Open Scope string_scope.

Section Traffic.
Context {V Vel : Type}.
Variable as_string : V -> string.
Variable as_bool : V -> option bool.
Variable as_vel : V -> option Vel.
Variable parse_vel : string -> option Vel.      (* Attribute(s).asVelocity() *)
Variable kmh : nat -> Vel.

Definition attrs := list (string * V).
Definition afind (a : attrs) (k : string) : option V :=
  match find (fun e => String.eqb (fst e) k) a with Some (_, v) => Some v | None => None end.
(** Primitive.h:143-175, attributeOr with a string and a bool default. *)
Definition attr_string (a : attrs) (k : string) (d : string) : string :=
  match afind a k with Some v => as_string v | None => d end.
Definition attr_bool (a : attrs) (k : string) (d : bool) : bool :=
  match afind a k with
  | Some v => match as_bool v with Some b => b | None => d end
  | None => d
  end.
Definition has_attr (a : attrs) (k : string) : bool := match afind a k with Some _ => true | None => false end.

(** Line strings: shared data and orientation. *)
Record ldata := LData { d_attrs : attrs; d_points : list nat }.
Record line := Line { l_data : nat; l_inv : bool }.
Definition linv (l : line) : line := Line (l_data l) (negb (l_inv l)).
(** LineString.h:714-716. *)
Definition line_eqb (a b : line) : bool := Nat.eqb (l_data a) (l_data b) && Bool.eqb (l_inv a) (l_inv b).
Variable lines : nat -> ldata.
Definition points (l : line) : list nat :=
  if l_inv l then rev (d_points (lines (l_data l))) else d_points (lines (l_data l)).
Definition lattrs (l : line) : attrs := d_attrs (lines (l_data l)).
(** front and back are undefined for empty line strings. *)
Definition front (l : line) : option nat := hd_error (points l).
Definition back (l : line) : option nat := hd_error (rev (points l)).

Record reg := Reg {
  r_speed : bool;                      (* dynamic_cast to SpeedLimit succeeds *)
  r_signs : list (option string);      (* subtype of the traffic signs (role refers) *)
  r_sign_type : option string }.       (* attribute sign_type *)
Record lanelet := Lanelet { ll_left : line; ll_right : line; ll_attrs : attrs; ll_regs : list reg; ll_inv : bool }.
Definition linvert (l : lanelet) : lanelet :=
  Lanelet (ll_left l) (ll_right l) (ll_attrs l) (ll_regs l) (negb (ll_inv l)).
(** Lanelet.h:164-175. *)
Definition left_bound (l : lanelet) : line := if ll_inv l then linv (ll_right l) else ll_left l.
Definition right_bound (l : lanelet) : line := if ll_inv l then linv (ll_left l) else ll_right l.
Record area := Area { ar_outer : list line; ar_attrs : attrs; ar_regs : list reg }.

(** GenericTrafficRules.h:10. *)
Inductive change := ToRight | ToLeft | Both | NoChange.
Definition to_left (c : change) : bool := match c with Both | ToLeft => true | _ => false end.
Definition to_right (c : change) : bool := match c with Both | ToRight => true | _ => false end.

(** startswith, 26-28. *)
Definition startswith (s sub : string) : bool := prefix sub s.

(** getChangeType, 30-56. *)
Definition table_change (t : list (string * string * change)) (type subtype : string) : change :=
  match find (fun e => String.eqb (fst (fst e)) type && String.eqb (snd (fst e)) subtype) t with
  | Some (_, c) => c
  | None => NoChange
  end.
Definition vehicle_change : string -> string -> change :=
  table_change [("line_thin", "dashed", Both); ("line_thick", "dashed", Both);
                ("line_thin", "dashed_solid", ToRight); ("line_thick", "dashed_solid", ToRight);
                ("line_thin", "solid_dashed", ToLeft); ("line_thick", "solid_dashed", ToLeft)].
Definition pedestrian_change : string -> string -> change := table_change [("curbstone", "low", Both)].
Definition change_type (type subtype participant : string) : change :=
  if startswith participant "vehicle" then vehicle_change type subtype
  else if String.eqb participant "pedestrian" then pedestrian_change type subtype
  else if String.eqb participant "bicycle" then
    match vehicle_change type subtype with
    | NoChange => pedestrian_change type subtype
    | c => c
    end
  else NoChange.

(** getHardcodedChangeType, 58-80. *)
Definition hardcoded_change (a : attrs) : option change :=
  if has_attr a "lane_change" then
    Some (if attr_bool a "lane_change" false then Both else NoChange)
  else if has_attr a "lane_change:left" && attr_bool a "lane_change:left" false then
    Some (if attr_bool a "lane_change:right" false then Both else ToLeft)
  else if has_attr a "lane_change:right" then
    Some (if attr_bool a "lane_change:right" false then ToRight else NoChange)
  else None.

(** laneChangeType, 161-185. *)
Definition lane_change_type (participant : string) (l : line) (virtual : bool) : change :=
  let a := lattrs l in
  let turn c := if l_inv l then match c with ToLeft => ToRight | ToRight => ToLeft | _ => c end else c in
  match hardcoded_change a with
  | Some c => turn c
  | None =>
    let type := attr_string a "type" "" in
    if virtual && String.eqb type "virtual" then Both
    else turn (change_type type (attr_string a "subtype" "") participant)
  end.

(** hasOverride, 82-84. *)
Definition has_override (a : attrs) (pre : string) : bool := existsb (fun e => startswith (fst e) pre) a.
(** getOverride, 86-100. *)
Definition get_override {T} (conv : V -> option T) (a : attrs) (pre over : string) (d : T) : T :=
  match find (fun e => if Nat.ltb (String.length (fst e)) (String.length pre) then false
                       else startswith over (fst e)) a with
  | None => d
  | Some (_, v) => match conv v with Some x => x | None => d end
  end.

(** isDrivingDir, 102-115. *)
Definition driving_dir (l : lanelet) (p : string) : bool :=
  if negb (ll_inv l) then true else
  match (match afind (ll_attrs l) "one_way" with Some v => as_bool v | None => None end) with
  | Some b => negb b
  | None =>
    if has_override (ll_attrs l) "one_way"
    then negb (get_override as_bool (ll_attrs l) "one_way" ("one_way:" ++ p) true)
    else String.eqb p "pedestrian"
  end.
(** isOneWay, 350-352. *)
Definition is_one_way (p : string) (l : lanelet) : bool :=
  negb (Bool.eqb (driving_dir l p) (driving_dir (linvert l) p)).

(** canPass(type, location), 327-348. *)
Definition participants_table : list (string * list string) :=
  [("", ["vehicle"]); ("road", ["vehicle"; "bicycle"]); ("highway", ["vehicle"]); ("bicycle_lane", ["bicycle"]);
   ("play_street", ["pedestrian"; "bicycle"; "vehicle"]); ("emergency_lane", ["vehicle:emergency"]);
   ("exit", ["pedestrian"; "bicycle"; "vehicle"]); ("walkway", ["pedestrian"]); ("crosswalk", ["pedestrian"]);
   ("stairs", ["pedestrian"]); ("shared_walkway", ["pedestrian"; "bicycle"])].
Definition pass_type (p type : string) : option bool :=
  match find (fun e => String.eqb (fst e) type) participants_table with
  | None => None
  | Some (_, ps) => Some (existsb (fun q => startswith p q) ps)
  end.
Definition pass_attrs (p : string) (a : attrs) : bool :=
  if has_override a "participant"
  then get_override as_bool a "participant" ("participant:" ++ p) false
  else match pass_type p (attr_string a "subtype" "") with Some b => b | None => false end.

(** canPass(lanelet), 133-146. *)
Definition pass_ll (p : string) (l : lanelet) : bool := driving_dir l p && pass_attrs p (ll_attrs l).
(** canPass(area), 148-159; GermanVehicle: GermanTrafficRules.h:16. *)
Inductive kind := Vehicle | Pedestrian | Bicycle.
Definition pass_ar (k : kind) (p : string) (a : area) : bool :=
  match k with Vehicle => false | _ => pass_attrs p (ar_attrs a) end.

(** geometry/impl/Lanelet.h:128-143. *)
Definition left_of (left right : lanelet) : bool := line_eqb (right_bound left) (left_bound right).
Definition right_of (right left : lanelet) : bool := left_of left right.
Definition is_empty (l : line) : bool := match points l with [] => true | _ => false end.
Definition oeqb (a b : option nat) : bool :=
  match a, b with Some x, Some y => Nat.eqb x y | _, _ => false end.
Definition follows (prev next : lanelet) : bool :=
  negb (is_empty (left_bound prev)) && negb (is_empty (right_bound prev)) &&
  negb (is_empty (left_bound next)) && negb (is_empty (right_bound next)) &&
  oeqb (back (left_bound prev)) (front (left_bound next)) &&
  oeqb (back (right_bound prev)) (front (right_bound next)).
(** geometry/impl/Area.h:62-66. *)
Definition left_of_ar (right : lanelet) (left : area) : bool :=
  existsb (fun b => line_eqb (linv b) (left_bound right)) (ar_outer left).
Definition right_of_ar (left : lanelet) (a : area) : bool := left_of_ar (linvert left) a.

(** canPass(lanelet, lanelet), 187-189. *)
Definition pass_ll_ll (p : string) (from to : lanelet) : bool := follows from to && pass_ll p from && pass_ll p to.

(** determineCommonLine, 191-201. [None]: front or back of an empty line string. *)
Definition common_ll_ar (l : lanelet) (a : area) : option (option line) :=
  match back (left_bound l), back (right_bound l) with
  | Some p1, Some p2 =>
    fold_left (fun acc b =>
      match acc with
      | Some None =>
        match back b with
        | None => None
        | Some e => if Nat.eqb e p1 then
                      match front b with None => None | Some f => if Nat.eqb f p2 then Some (Some b) else Some None end
                    else Some None
        end
      | _ => acc
      end) (ar_outer a) (Some None)
  | _, _ => None
  end.
Definition common_ar_ar (a b : area) : option line :=
  find (fun l => match find (fun m => line_eqb m (linv l)) (ar_outer b) with Some _ => true | None => false end) (ar_outer a).

(** canPass(lanelet, area), 203-218. *)
Definition pass_ll_ar (k : kind) (p : string) (from : lanelet) (to : area) : option bool :=
  if negb (pass_ll p from) || negb (pass_ar k p to) then Some false
  else if left_of_ar from to then Some (to_left (lane_change_type p (left_bound from) true))
  else if right_of_ar from to then Some (to_right (lane_change_type p (right_bound from) true))
  else match common_ll_ar from to with
       | None => None
       | Some (Some l) => Some (to_right (lane_change_type p l true))
       | Some None => Some false
       end.
(** canPass(area, lanelet), 220-235. *)
Definition pass_ar_ll (k : kind) (p : string) (from : area) (to : lanelet) : option bool :=
  if negb (pass_ar k p from) || negb (pass_ll p to) then Some false
  else if left_of_ar to from then Some (to_right (lane_change_type p (left_bound to) true))
  else if right_of_ar to from then Some (to_left (lane_change_type p (right_bound to) true))
  else match common_ll_ar (linvert to) from with
       | None => None
       | Some (Some l) => Some (to_left (lane_change_type p l true))
       | Some None => Some false
       end.
(** canPass(area, area), 237-246. *)
Definition pass_ar_ar (k : kind) (p : string) (from to : area) : bool :=
  if negb (pass_ar k p from) && pass_ar k p to then false
  else match common_ar_ar from to with
       | None => false
       | Some l => to_left (lane_change_type p l true)
       end.

(** canChangeLane, 248-260. *)
Definition can_change_lane (p : string) (from to : lanelet) : bool :=
  if negb (pass_ll p from) || negb (pass_ll p to) then false
  else if left_of from to then to_right (lane_change_type p (right_bound from) false)
  else if right_of from to then to_left (lane_change_type p (left_bound from) false)
  else false.

(** SpeedLimitInformation, TrafficRules.h:8-11. The default has the velocity 0. *)
Record info := Info { i_limit : Vel; i_mandatory : bool }.
(** CountrySpeedLimits, GenericTrafficRules.h:11-19; germanSpeedLimits,
    GermanTrafficRules.cpp:52-55. *)
Record country := Country { c_urban_road : info; c_nonurban_road : info; c_urban_highway : info;
  c_nonurban_highway : info; c_play_street : info; c_pedestrian : info; c_bicycle : info }.
Definition german : country :=
  Country (Info (kmh 50) true) (Info (kmh 100) true) (Info (kmh 130) false) (Info (kmh 130) false)
          (Info (kmh 7) true) (Info (kmh 5) true) (Info (kmh 20) true).

(** getSpeedLimitFromType, 262-292. *)
Definition speed_table (c : country) : list (string * string * info) :=
  [("urban", "road", c_urban_road c); ("nonurban", "road", c_nonurban_road c);
   ("urban", "highway", c_urban_highway c); ("nonurban", "highway", c_nonurban_highway c);
   ("urban", "play_street", c_play_street c); ("nonurban", "play_street", c_play_street c);
   ("urban", "exit", c_urban_road c)].
Definition limit_from_type (a : attrs) (c : country) (p : string) : info :=
  if String.eqb p "pedestrian" then c_pedestrian c
  else if String.eqb p "bicycle" then c_bicycle c
  else if startswith p "vehicle" then
    match find (fun e => String.eqb (fst (fst e)) (attr_string a "location" "urban") &&
                         String.eqb (snd (fst e)) (attr_string a "subtype" "road")) (speed_table c) with
    | Some (_, i) => i
    | None => Info (kmh 0) true
    end
  else Info (kmh 0) true.

(** TrafficSign::type, BasicRegulatoryElements.cpp:285-299. [None]: throws. *)
Definition sign_type (r : reg) : option string :=
  match r_signs r with
  | s :: _ => s
  | [] => r_sign_type r
  end.
(** trafficSignToVelocity, GermanTrafficRules.cpp:19-40. *)
Definition sign_table : list (string * nat) :=
  [("de274", 30); ("de274-5", 5); ("de274-10", 10); ("de274-15", 15); ("de274-20", 20); ("de274-30", 30);
   ("de274-40", 40); ("de274-50", 50); ("de274-60", 60); ("de274-70", 70); ("de274-80", 80); ("de274-90", 90);
   ("de274-100", 100); ("de274-110", 110); ("de274-120", 120); ("de274-130", 130); ("de274_1", 30);
   ("de274_1-20", 20); ("de310", 50)].
Definition sign_velocity (s : string) : option Vel :=
  match find (fun e => String.eqb (fst e) s) sign_table with
  | Some (_, n) => Some (kmh n)
  | None => parse_vel s
  end.
(** GermanVehicle::speedLimit(regelems), 43-51; GermanPedestrian and GermanBicycle
    return nothing (GermanTrafficRules.h). [None]: throws. *)
Fixpoint limit_from_regs (k : kind) (rs : list reg) : option (option info) :=
  match k with
  | Vehicle =>
    match rs with
    | [] => Some None
    | r :: t =>
      if r_speed r then
        match sign_type r with
        | None => None
        | Some s => match sign_velocity s with None => None | Some v => Some (Some (Info v true)) end
        end
      else limit_from_regs k t
    end
  | _ => Some None
  end.

(** speedLimit, 294-321. *)
Definition or_else {A} (o : option A) (d : A) : A := match o with Some x => x | None => d end.
Definition speed_limit (k : kind) (p : string) (rs : list reg) (a : attrs) : option info :=
  match limit_from_regs k rs with
  | None => None
  | Some (Some i) => Some i
  | Some None =>
    if has_override a "speed_limit" || has_override a "speed_limit_mandatory" then
      let d := or_else (match afind a "speed_limit" with None => Some (kmh 0) | Some v => as_vel v end) (kmh 0) in
      let limit := get_override as_vel a "speed_limit:" ("speed_limit:" ++ p) d in
      let mandatory := get_override as_bool a "speed_limit_mandatory" ("speed_limit_mandatory:" ++ p) true in
      Some (Info limit mandatory)
    else Some (limit_from_type a german p)
  end.

(** TrafficRulesFactory::create, TrafficRulesFactory.cpp:10-25, for Germany: the class
    chosen for a participant; [None]: throws. *)
Definition rules_for (p : string) : option kind :=
  if String.eqb p "vehicle" then Some Vehicle
  else if String.eqb p "pedestrian" then Some Pedestrian
  else if String.eqb p "bicycle" then Some Bicycle
  else if startswith p "vehicle" then Some Vehicle
  else None.
End Traffic.
