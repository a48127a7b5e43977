(** What the tagging documentation says (lanelet2_core/doc/LaneletAndAreaTagging.md,
    LinestringTagging.md), independent of the model functions. *)
From Coq Require Import List Bool String.
Import ListNotations.
Open Scope string_scope.

(** Participants of the documentation; [p] is [q] or a special kind of it. *)
Definition known_participants : list string :=
  ["vehicle"; "vehicle:bus"; "vehicle:car"; "vehicle:car:electric"; "vehicle:car:combustion"; "vehicle:truck";
   "vehicle:motorcycle"; "vehicle:taxi"; "vehicle:emergency"; "pedestrian"; "bicycle"; "train"].
Definition covers (q p : string) : Prop := q = p \/ exists r, p = q ++ ":" ++ r.

Section Spec.
Context {V : Type}.
Variable str : V -> string.
Variable bool_of : V -> option bool.

Definition entry (a : list (string * V)) (k : string) (v : V) : Prop := In (k, v) a.
Definition absent (a : list (string * V)) (k : string) : Prop := forall v, ~ In (k, v) a.
Definition tag_is (a : list (string * V)) (k s : string) : Prop :=
  (exists v, entry a k v /\ str v = s) \/ (absent a k /\ s = "").
Definition unique (a : list (string * V)) : Prop := NoDup (map fst a).

(** Crossing a line as seen along the direction in which its points are stored. *)
Inductive crossing := LeftToRight | RightToLeft.

(** "lane change?" column of the table of markings; low curbstones for pedestrians and
    bicycles as in the code. *)
Definition marking_allows (p type subtype : string) (d : crossing) : Prop :=
  ((covers "vehicle" p \/ p = "bicycle") /\ (type = "line_thin" \/ type = "line_thick") /\
   (subtype = "dashed" \/ (subtype = "dashed_solid" /\ d = LeftToRight) \/ (subtype = "solid_dashed" /\ d = RightToLeft)))
  \/ ((p = "pedestrian" \/ p = "bicycle") /\ type = "curbstone" /\ subtype = "low").

(** Overrides of the line; [virtual]: virtual lines may be passed. *)
Definition line_allows (p : string) (virtual : bool) (a : list (string * V)) (d : crossing) : Prop :=
  (exists v, entry a "lane_change" v /\ bool_of v = Some true)
  \/ (absent a "lane_change" /\
      exists vl vr, entry a "lane_change:left" vl /\ entry a "lane_change:right" vr /\
                    bool_of (match d with RightToLeft => vl | LeftToRight => vr end) = Some true)
  \/ (absent a "lane_change" /\ absent a "lane_change:left" /\ absent a "lane_change:right" /\
      exists type subtype, tag_is a "type" type /\ tag_is a "subtype" subtype /\
        (marking_allows p type subtype d \/ (virtual = true /\ type = "virtual"))).
(** "Both pairs have to be set if this is used." *)
Definition complete_override (a : list (string * V)) : Prop :=
  (exists v, entry a "lane_change" v) \/
  ((exists v, entry a "lane_change:left" v) <-> (exists v, entry a "lane_change:right" v)).

(** Inferred participants. *)
Definition inferred (subtype p : string) : Prop :=
  (In subtype [""; "road"; "highway"; "play_street"; "exit"] /\ covers "vehicle" p) \/
  (In subtype ["road"; "play_street"; "bicycle_lane"; "exit"; "shared_walkway"] /\ p = "bicycle") \/
  (In subtype ["play_street"; "exit"; "walkway"; "shared_walkway"; "crosswalk"; "stairs"] /\ p = "pedestrian") \/
  (subtype = "emergency_lane" /\ p = "vehicle:emergency") \/
  (subtype = "bus_lane" /\ (p = "vehicle:bus" \/ p = "vehicle:emergency" \/ p = "vehicle:taxi")).

(** Overrides [pre]:participant are used as documented: known participants, and not at
    different levels for the same participant. *)
Definition good_overrides (pre : string) (p : string) (a : list (string * V)) : Prop :=
  (forall k v, entry a k v -> prefix (pre ++ ":") k = true -> exists q, In q known_participants /\ k = pre ++ ":" ++ q) /\
  (forall q r v w, entry a (pre ++ ":" ++ q) v -> entry a (pre ++ ":" ++ r) w -> covers q p -> covers r p -> q = r).
Definition overridden (pre p : string) (a : list (string * V)) (v : V) : Prop :=
  exists q, covers q p /\ entry a (pre ++ ":" ++ q) v.

(** May the participant use a lanelet or area with these tags? *)
Definition may_use (p : string) (a : list (string * V)) : Prop :=
  ((exists q v, entry a ("participant:" ++ q) v) /\ exists v, overridden "participant" p a v /\ bool_of v = Some true)
  \/ ((forall q, absent a ("participant:" ++ q)) /\ exists subtype, tag_is a "subtype" subtype /\ inferred subtype p).
(** No other keys that begin like an override. *)
Definition only_overrides (pre : string) (a : list (string * V)) : Prop :=
  forall k v, entry a k v -> prefix pre k = true -> prefix (pre ++ ":") k = true.
End Spec.
