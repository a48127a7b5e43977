(** When a map comes back from its OSM representation, and what coming back means. Independent
    of writer and loader. *)
From Coq Require Import List Arith Bool String Ascii ZArith Sorted Permutation.
From Verif Require Import AttrModel OsmModel BoundaryModel OsmSpec OsmMapModel BoundarySpec OsmMapSpec.
Import ListNotations.
Local Open Scope string_scope.
Local Open Scope list_scope.

Section Trip.
Context {P D : Type}.
Variable to_geo : P -> option (D * D * D).
Variable from_geo : D * D * D -> option P.
Variable align : list P -> list P -> bool * bool.
Variable ring_valid : list P -> bool.
Variable create : string -> mreg -> bool.

(** * The same map *)
(** [r2] is [r1] entered at another line string. *)
Definition turned {A} (r1 r2 : list A) : Prop := exists a b, r1 = a ++ b /\ r2 = b ++ a.
Definition same_lanelet (x y : mlanelet) : Prop :=
  tagged "type" "lanelet" (ll_attrs x) (ll_attrs y) /\ ll_left y = ll_left x /\ ll_right y = ll_right x /\
  ll_center y = ll_center x /\ ll_regs y = ll_regs x.
Definition same_area (x y : marea) : Prop :=
  tagged "type" "multipolygon" (ar_attrs x) (ar_attrs y) /\ turned (ar_outer x) (ar_outer y) /\
  (exists l, Permutation (ar_inner x) l /\ Forall2 turned l (ar_inner y)) /\ ar_regs y = ar_regs x.
Definition same_reg (x y : mreg) : Prop :=
  tagged "type" "regulatory_element" (re_attrs x) (re_attrs y) /\ re_params y = re_params x.
Definition same_line (x y : mline) : Prop := y = MLine (ml_attrs x) (ml_pts x) false.
Definition same_poly (x y : mpoly) : Prop := tagged "area" "true" (mg_attrs x) (mg_attrs y) /\ mg_pts y = mg_pts x.
(** The elements of two layers correspond, with the same ids. *)
Definition same_layer {X} (same : X -> X -> Prop) (l l' : list (Z * X)) : Prop :=
  Permutation (map fst l) (map fst l') /\ forall k x y, In (k, x) l -> In (k, y) l' -> same x y.
Definition same_map (m m' : @mmap P) : Prop :=
  same_layer eq (m_points m) (m_points m') /\ same_layer same_line (m_lines m) (m_lines m') /\
  same_layer same_poly (m_polys m) (m_polys m') /\ same_layer same_lanelet (m_lanelets m) (m_lanelets m') /\
  same_layer same_area (m_areas m) (m_areas m') /\ same_layer same_reg (m_regs m) (m_regs m').

(** * Well-formed maps *)
Variable m : @mmap P.
Definition in_layer {X} (l : list (Z * X)) (i : Z) : Prop := In i (map fst l).
(** An attribute [k], if there is one, has the value [v]. *)
Definition only (k v : string) (a : attributes) : Prop := forall w, In (k, w) a -> w = v.
Definition point_ok (p : mpoint) : Prop := exists g, to_geo (p_xyz p) = Some g /\ from_geo g = Some (p_xyz p).
Definition line_ok (l : mline) : Prop :=
  ml_pts l <> [] /\ (forall i, In i (ml_pts l) -> in_layer (m_points m) i) /\ sorted_attrs (ml_attrs l) /\
  forall v, In ("area", v) (ml_attrs l) -> conv_bool v <> Some true.
Definition poly_ok (g : mpoly) : Prop :=
  mg_pts g <> [] /\ (forall i, In i (mg_pts g) -> in_layer (m_points m) i) /\
  forall v, In ("area", v) (mg_attrs g) -> conv_bool v = Some true.
(** The positions of the points of the line string [i], in the order of its data. *)
Definition positions (pts : list Z) (ps : list P) : Prop :=
  Forall2 (fun j p => exists q, In (j, q) (m_points m) /\ p_xyz q = p) pts ps.
Definition positions_of (i : Z) (ps : list P) : Prop := exists l, In (i, l) (m_lines m) /\ positions (ml_pts l) ps.
Definition regs_ok (l : list Z) : Prop := forall i, In i l -> in_layer (m_regs m) i.
(** geometry::align finds the orientation of the bounds; the centerline is not inverted. *)
Definition lanelet_ok (x : mlanelet) : Prop :=
  only "type" "lanelet" (ll_attrs x) /\ regs_ok (ll_regs x) /\
  (exists l il r ir, ll_left x = Bound l il /\ ll_right x = Bound r ir /\ in_layer (m_lines m) l /\ in_layer (m_lines m) r /\
     forall pl pr, positions_of l pl -> positions_of r pr -> align pl pr = (il, ir)) /\
  (forall c, ll_center x = Some c -> exists i, c = Bound i false /\ i <> 0%Z /\ in_layer (m_lines m) i).
(** Rings of areas: see C36. *)
Definition with_points (h : Z * bool) (x : ls) : Prop := exists l, In (fst h, l) (m_lines m) /\ x = LS (fst h) (ml_pts l) (snd h).
Definition ring_ok (r : list ls) : Prop :=
  ring r /\
  forall s t ps, rotation r s -> reversed s t ->
    (positions (List.concat (map points s)) ps -> ring_valid ps = true) /\
    (positions (List.concat (map points t)) ps -> ring_valid ps = false).
Definition area_ok (x : marea) : Prop :=
  only "type" "multipolygon" (ar_attrs x) /\ regs_ok (ar_regs x) /\
  (exists r, Forall2 with_points (ar_outer x) r /\ ring_ok r /\ List.NoDup (junctions r)) /\
  (exists rs, Forall2 (Forall2 with_points) (ar_inner x) rs /\ (forall r, In r rs -> ring_ok r) /\ List.NoDup (junctions (List.concat rs))).
Definition param_ok (p : param) : Prop :=
  match p with
  | PPoint i => in_layer (m_points m) i
  | PLine i inv => inv = false /\ in_layer (m_lines m) i
  | PPoly i => in_layer (m_polys m) i
  | PLanelet o => exists i, o = Some i /\ in_layer (m_lanelets m) i
  | PArea o => exists i, o = Some i /\ in_layer (m_areas m) i
  end.
(** The factory accepts the element; there is no role without parameters. *)
Definition reg_ok (x : mreg) : Prop :=
  only "type" "regulatory_element" (re_attrs x) /\
  (exists st, In ("subtype", st) (re_attrs x) /\
     forall a, tagged "type" "regulatory_element" (re_attrs x) a -> create st (MReg a (re_params x)) = true) /\
  StronglySorted (fun a b => String.ltb a b = true) (map fst (re_params x)) /\
  (forall role l, In (role, l) (re_params x) -> l <> []) /\
  (forall role l p, In (role, l) (re_params x) -> In p l -> param_ok p).
Definition map_ok : Prop :=
  layers_ok m /\ attrs_sorted m /\ List.NoDup (rel_ids m) /\
  (forall k x, In (k, x) (m_points m) -> point_ok x) /\ (forall k x, In (k, x) (m_lines m) -> line_ok x) /\
  (forall k x, In (k, x) (m_polys m) -> poly_ok x) /\ (forall k x, In (k, x) (m_lanelets m) -> lanelet_ok x) /\
  (forall k x, In (k, x) (m_areas m) -> area_ok x) /\ (forall k x, In (k, x) (m_regs m) -> reg_ok x).
End Trip.

(** * Maps that can be written as text *)
Section Texts.
Context {P : Type}.
Variable print_id : Z -> string.
Variable parse_id : string -> Z.
Definition text_ok (k : Z) (a : attributes) : Prop := id_ok print_id parse_id k /\ attrs_ok a.
Definition texts_ok (m : @mmap P) : Prop :=
  (forall k x, In (k, x) (m_points m) -> text_ok k (p_attrs x)) /\
  (forall k x, In (k, x) (m_lines m) -> text_ok k (ml_attrs x)) /\
  (forall k x, In (k, x) (m_polys m) -> text_ok k (mg_attrs x)) /\
  (forall k x, In (k, x) (m_lanelets m) -> text_ok k (ll_attrs x)) /\
  (forall k x, In (k, x) (m_areas m) -> text_ok k (ar_attrs x)) /\
  (forall k x, In (k, x) (m_regs m) -> text_ok k (re_attrs x) /\ forall role l, In (role, l) (re_params x) -> no_nul role).
End Texts.
(** What is read for coordinates that were written. *)
Definition as_text {D} (zero_d : D) (is_zero : D -> bool) (fmt : bool -> D -> string) (parse_d : string -> D) (josm : bool) (g : D * D * D) : D * D * D :=
  let '(lat, lon, ele) := g in
  (parse_d (cstr (fmt false lat)), parse_d (cstr (fmt false lon)), if is_zero ele then zero_d else parse_d (cstr (fmt josm ele))).
