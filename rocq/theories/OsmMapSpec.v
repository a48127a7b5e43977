(** Which file belongs to a map, stated without writer or loader. *)
From Coq Require Import List Arith Bool String Ascii ZArith Sorted.
From Verif Require Import OsmModel OsmSpec OsmMapModel.
Import ListNotations.
Local Open Scope string_scope.
Local Open Scope list_scope.

Definition has {V} (m : list (Z * V)) (i : Z) : bool := existsb (Z.eqb i) (map fst m).
(** [a'] is [a] with the tag [k]=[v] if there is none with key [k]. *)
Definition tagged (k v : string) (a a' : attributes) : Prop :=
  is_map String.ltb a' (fun k' v' => In (k', v') a \/ (k' = k /\ v' = v /\ ~ In k (map fst a))).

Section Relations.
Context {P N W : Type}.
Variable m : @mmap P.
Variable nodes : list (Z * N).
Variable ways : list (Z * W).

Definition rel_ids : list Z := map fst (m_regs m) ++ map fst (m_lanelets m) ++ map fst (m_areas m).
Definition rel_in (i : Z) : bool := existsb (Z.eqb i) rel_ids.
Definition way_member (role : string) (i : Z) : list (string * ref) := if has ways i then [(role, RWay i)] else [].
Definition reg_member (i : Z) : list (string * ref) := if has (m_regs m) i then [("regulatory_element", RRel i)] else [].
Definition param_member (role : string) (p : param) : list (string * ref) :=
  match p with
  | PPoint i => if has nodes i then [(role, RNode i)] else []
  | PLine i _ | PPoly i => way_member role i
  | PLanelet (Some i) | PArea (Some i) => if rel_in i then [(role, RRel i)] else []
  | PLanelet None | PArea None => []
  end.
Definition params (r : mreg) : list (string * param) := flat_map (fun rp => map (pair (fst rp)) (snd rp)) (re_params r).
Definition reg_members (r : mreg) : list (string * ref) := flat_map (fun x => param_member (fst x) (snd x)) (params r).
Definition custom (l : mlanelet) : list Z :=
  match ll_center l with Some c => if Z.eqb (bid c) 0 then [] else [bid c] | None => [] end.
Definition lanelet_members (l : mlanelet) : list (string * ref) :=
  way_member "left" (bid (ll_left l)) ++ way_member "right" (bid (ll_right l)) ++
  flat_map (way_member "centerline") (custom l) ++ flat_map reg_member (ll_regs l).
Definition inner_ids (a : marea) : list Z := flat_map (map fst) (ar_inner a).
Definition area_members (a : marea) : list (string * ref) :=
  flat_map (way_member "outer") (map fst (ar_outer a)) ++ flat_map (way_member "inner") (inner_ids a) ++
  flat_map reg_member (ar_regs a).
(** The relation with id [k]. *)
Definition rel_of (k : Z) (r : relation) : Prop :=
  r_id r = k /\
  ((exists x, In (k, x) (m_regs m) /\ tagged "type" "regulatory_element" (re_attrs x) (r_attrs r) /\ r_members r = reg_members x) \/
   (exists x, In (k, x) (m_lanelets m) /\ tagged "type" "lanelet" (ll_attrs x) (r_attrs r) /\ r_members r = lanelet_members x) \/
   (exists x, In (k, x) (m_areas m) /\ tagged "type" "multipolygon" (ar_attrs x) (r_attrs r) /\ r_members r = area_members x)).

(** Errors: members that are not in the map when they are looked at, then lanelets and
    areas that are missing in the end. *)
Definition way_error (k i : Z) : list error := if has ways i then [] else [EMember k i].
Definition reg_error (k i : Z) : list error := if has (m_regs m) i then [] else [EMember k i].
Definition param_error (k : Z) (p : param) : list error :=
  match p with
  | PPoint i => if has nodes i then [] else [EMember k i]
  | PLine i _ | PPoly i => way_error k i
  | PLanelet (Some _) | PArea (Some _) => []
  | PLanelet None | PArea None => [EExpired k]
  end.
Definition weak (p : param) : list Z := match p with PLanelet (Some i) | PArea (Some i) => [i] | _ => [] end.
Definition later_error (k : Z) (p : param) : list error :=
  flat_map (fun i => if rel_in i then [] else [ERelation k i]) (weak p).
Definition rel_errors : list error :=
  flat_map (fun e => flat_map (fun x => param_error (fst e) (snd x)) (params (snd e))) (m_regs m) ++
  flat_map (fun e => way_error (fst e) (bid (ll_left (snd e))) ++ way_error (fst e) (bid (ll_right (snd e))) ++
                     flat_map (way_error (fst e)) (custom (snd e)) ++ flat_map (reg_error (fst e)) (ll_regs (snd e))) (m_lanelets m) ++
  flat_map (fun e => flat_map (way_error (fst e)) (map fst (ar_outer (snd e))) ++ flat_map (way_error (fst e)) (inner_ids (snd e)) ++
                     flat_map (reg_error (fst e)) (ar_regs (snd e))) (m_areas m) ++
  flat_map (fun e => flat_map (fun x => later_error (fst e) (snd x)) (params (snd e))) (m_regs m).

(** Relations have different ids; regulatory elements of lanelets and areas do not have the
    id of a lanelet or area. *)
Definition ids_distinct : Prop :=
  List.NoDup rel_ids /\
  (forall k l i, In (k, l) (m_lanelets m) -> In i (ll_regs l) -> ~ In i (map fst (m_lanelets m) ++ map fst (m_areas m))) /\
  (forall k a i, In (k, a) (m_areas m) -> In i (ar_regs a) -> ~ In i (map fst (m_lanelets m) ++ map fst (m_areas m))).
(** Attribute maps are ordered by their keys. *)
Definition sorted_attrs (a : attributes) : Prop := StronglySorted (fun x y => String.ltb x y = true) (map fst a).
Definition attrs_sorted : Prop :=
  (forall k x, In (k, x) (m_regs m) -> sorted_attrs (re_attrs x)) /\
  (forall k x, In (k, x) (m_lanelets m) -> sorted_attrs (ll_attrs x)) /\
  (forall k x, In (k, x) (m_areas m) -> sorted_attrs (ar_attrs x)).
(** In every regulatory element, no lanelet or area follows a missing one. *)
Definition missing_last : Prop :=
  forall k r a x b i, In (k, r) (m_regs m) -> params r = a ++ x :: b -> weak (snd x) = [i] -> rel_in i = false ->
    flat_map (fun y => weak (snd y)) b = [].
End Relations.

(** Nodes and ways. *)
Section Ways.
Context {P D : Type}.
Variable to_geo : P -> option (D * D * D).
Variable m : @mmap P.
Definition node_of (k : Z) (n : @node D) : Prop :=
  exists p lat lon ele, In (k, p) (m_points m) /\ to_geo (p_xyz p) = Some (lat, lon, ele) /\ n = Node k (p_attrs p) lat lon ele.
Definition node_errors : list error :=
  flat_map (fun e => match to_geo (p_xyz (snd e)) with Some _ => [] | None => [EProjection (fst e)] end) (m_points m).
(** The point is in the map and can be projected. *)
Definition known (i : Z) : bool :=
  existsb (fun e => Z.eqb i (fst e) && match to_geo (p_xyz (snd e)) with Some _ => true | None => false end) (m_points m).
(** Points are written in the order of the data; a way is missing if a point is. *)
Definition way_of (k : Z) (w : way) : Prop :=
  w_id w = k /\
  ((exists l, In (k, l) (m_lines m) /\ w_attrs w = ml_attrs l /\ w_nodes w = ml_pts l) \/
   (exists g, In (k, g) (m_polys m) /\ tagged "area" "true" (mg_attrs g) (w_attrs w) /\ w_nodes w = mg_pts g)) /\
  forall i, In i (w_nodes w) -> known i = true.
Definition way_errors : list error :=
  flat_map (fun e => if forallb known (ml_pts (snd e)) then [] else [EWay (fst e)]) (m_lines m) ++
  flat_map (fun e => if forallb known (mg_pts (snd e)) then [] else [EWay (fst e)]) (m_polys m).
Definition way_ids : list Z := map fst (m_lines m) ++ map fst (m_polys m).
(** Every element of a layer has its own id; the attributes are ordered. *)
Definition layers_ok : Prop :=
  List.NoDup (map fst (m_points m)) /\ List.NoDup way_ids /\ (forall k g, In (k, g) (m_polys m) -> sorted_attrs (mg_attrs g)).
End Ways.
