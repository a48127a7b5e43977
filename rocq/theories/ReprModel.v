(** Model of the texts that [repr] returns in Python for the primitives.

    Source: lanelet2_python/include/lanelet2_python/internal/repr.h,
    lanelet2_python/python_api/core.cpp:32-95 and the definitions of [__repr__] in the same file.

    Parameters: [show] writes a double the way [ostream << double] does, with six significant digits; [quote] is
    Python's [repr] of a string. Python's [repr] of a list and of a dict are written out.

    Not modelled: which objects are shared between primitives (a point of two line strings is written twice), the
    hybrid and compound types, the map and its layers, attributes that are no valid UTF-8. *)
From Coq Require Import ZArith List Bool String Ascii.
From Verif Require Import AttrModel.
Import ListNotations.
Open Scope string_scope.

(** An AttributeMap in the order of iteration. *)
Definition attrs := list (string * string).

(** What the primitives hold as far as it is written; the order of points is that of the handle, so an inverted
    line string has them reversed. *)
Record pt (N : Type) := Pt { pt_id : Z; pt_x : N; pt_y : N; pt_z : N; pt_attrs : attrs }.
Arguments Pt {N}. Arguments pt_id {N}. Arguments pt_x {N}. Arguments pt_y {N}. Arguments pt_z {N}. Arguments pt_attrs {N}.
Record ln (N : Type) := Ln { ln_id : Z; ln_pts : list (pt N); ln_attrs : attrs }.
Arguments Ln {N}. Arguments ln_id {N}. Arguments ln_pts {N}. Arguments ln_attrs {N}.
Record lane (N : Type) := Lane { la_id : Z; la_left : ln N; la_right : ln N; la_attrs : attrs }.
Arguments Lane {N}. Arguments la_id {N}. Arguments la_left {N}. Arguments la_right {N}. Arguments la_attrs {N}.
Record area (N : Type) := Area { ar_id : Z; ar_outer : list (ln N); ar_inner : list (list (ln N)); ar_attrs : attrs }.
Arguments Area {N}. Arguments ar_id {N}. Arguments ar_outer {N}. Arguments ar_inner {N}. Arguments ar_attrs {N}.

(** A parameter of a regulatory element as Python sees it (VariantConverter, core.cpp:592 and
    converter.h:139-147); an expired lanelet or area is None (converter.h:171-180). *)
Inductive param (N : Type) :=
| PPoint (p : pt N) | PLine (l : ln N) | PPolygon (l : ln N) | PLanelet (l : lane N) | PArea (a : area N) | PNone.
Arguments PPoint {N}. Arguments PLine {N}. Arguments PPolygon {N}. Arguments PLanelet {N}. Arguments PArea {N}. Arguments PNone {N}.

(** The classes of regulatory elements with a [__repr__] of their own. *)
Inductive kind := KBase | KTrafficLight | KRightOfWay | KAllWayStop | KTrafficSign | KSpeedLimit.
Record reg (N : Type) := Reg { rg_kind : kind; rg_id : Z; rg_params : list (string * list (param N)); rg_attrs : attrs }.
Arguments Reg {N}. Arguments rg_kind {N}. Arguments rg_id {N}. Arguments rg_params {N}. Arguments rg_attrs {N}.

(** * repr.h *)
(** An argument of [makeRepr]: overload resolution chooses the first [formatHelper] for a std::string. *)
Inductive arg := Num (s : string) | Txt (s : string).

(** formatHelper, repr.h:8-26 *)
Fixpoint format_helper (l : list arg) : string :=
  match l with
  | [] => ""
  | Txt s :: r => (match s with EmptyString => "" | _ => ", " end) ++ s ++ format_helper r
  | Num s :: r => ", " ++ s ++ format_helper r
  end.

(** format and makeRepr, repr.h:28-43 *)
Definition make_repr (name first : string) (l : list arg) : string := name ++ "(" ++ first ++ format_helper l ++ ")".

(** Python's own [repr] of a list and of a dict, from the texts of the members. *)
Fixpoint follow (l : list string) : string := match l with [] => "" | s :: r => ", " ++ s ++ follow r end.
Definition commas (l : list string) : string := match l with [] => "" | s :: r => s ++ follow r end.
Definition py_list (l : list string) : string := "[" ++ commas l ++ "]".
Definition py_dict (l : list (string * string)) : string := "{" ++ commas (map (fun kv => fst kv ++ ": " ++ snd kv) l) ++ "}".

Section Repr.
Context {N : Type} (show : N -> string) (quote : string -> string).

(** [__repr__] of AttributeMap, core.cpp:710 *)
Definition attribute_map_repr (a : attrs) : string :=
  make_repr "AttributeMap" (py_dict (map (fun kv => (quote (fst kv), quote (snd kv))) a)) [].

(** repr(AttributeMap), core.cpp:44-49 *)
Definition attrs_repr (a : attrs) : string := match a with [] => "" | _ => attribute_map_repr a end.

(** [__repr__] of the points, core.cpp:732 and 747 (2D), 759-762 and 779-780 (3D) *)
Definition point2d_repr (name : string) (p : pt N) : string :=
  make_repr name (print_Z (pt_id p)) [Num (show (pt_x p)); Num (show (pt_y p)); Txt (attrs_repr (pt_attrs p))].
Definition point3d_repr (name : string) (p : pt N) : string :=
  make_repr name (print_Z (pt_id p))
    [Num (show (pt_x p)); Num (show (pt_y p)); Num (show (pt_z p)); Txt (attrs_repr (pt_attrs p))].

(** [__repr__] of line strings and polygons, core.cpp:827-830, 844-847, 863-866, 945-946 and 955-956: [point] is the
    text of a point of the class that the sequence holds. *)
Definition sequence_repr (name : string) (point : pt N -> string) (l : ln N) : string :=
  make_repr name (print_Z (ln_id l)) [Txt (py_list (map point (ln_pts l))); Txt (attrs_repr (ln_attrs l))].

Definition line3d_repr := sequence_repr "LineString3d" (point3d_repr "Point3d").
Definition polygon3d_repr := sequence_repr "Polygon3d" (point3d_repr "Point3d").
Definition line2d_repr := sequence_repr "LineString2d" (point2d_repr "Point2d").
Definition polygon2d_repr := sequence_repr "Polygon2d" (point2d_repr "Point2d").
Definition const_line3d_repr := sequence_repr "ConstLineString3d" (point3d_repr "ConstPoint3d").

(** makeLaneletRepr, core.cpp:58-66: [regs] is the text of the regulatory elements, none without them.
    The display name is not used. *)
Definition make_lanelet_repr (l : lane N) (regs : option string) : string :=
  make_repr "Lanelet" (print_Z (la_id l))
    ([Txt (line3d_repr (la_left l)); Txt (line3d_repr (la_right l)); Txt (attrs_repr (la_attrs l))]
     ++ match regs with Some t => [Txt t] | None => [] end)%list.

(** makeAreaRepr, core.cpp:68-76. The text of the bounds: [__repr__] of InnerBounds, core.cpp:1141. *)
Definition make_area_repr (a : area N) (regs : option string) : string :=
  make_repr "Area" (print_Z (ar_id a))
    ([Txt (py_list (map line3d_repr (ar_outer a)));
      Txt (py_list (map (fun l => py_list (map line3d_repr l)) (ar_inner a))); Txt (attrs_repr (ar_attrs a))]
     ++ match regs with Some t => [Txt t] | None => [] end)%list.

(** The text of a parameter: lanelets and areas without their regulatory elements, core.cpp:85-92 *)
Definition param_repr (p : param N) : string :=
  match p with
  | PPoint p => point3d_repr "Point3d" p
  | PLine l => line3d_repr l
  | PPolygon l => polygon3d_repr l
  | PLanelet l => make_lanelet_repr l None
  | PArea a => make_area_repr a None
  | PNone => "None"
  end.

(** repr(RuleParameterMap), core.cpp:78-95 *)
Definition params_repr (l : list (string * list (param N))) : string :=
  py_dict (map (fun kv => (quote (fst kv), py_list (map param_repr (snd kv)))) l).

(** The name that the [__repr__] of a class writes, core.cpp:1222, 1245, 1284, 1316, 1378 and 1394 *)
Definition kind_name (k : kind) : string :=
  match k with
  | KBase => "RegulatoryElement" | KTrafficLight => "TrafficLight" | KRightOfWay => "RightOfWay"
  | KAllWayStop => "AllWayStop" | KTrafficSign => "TrafficSign" | KSpeedLimit => "SpeedLimit"
  end.
Definition reg_repr (r : reg N) : string :=
  make_repr (kind_name (rg_kind r)) (print_Z (rg_id r)) [Txt (params_repr (rg_params r)); Txt (attrs_repr (rg_attrs r))].

(** repr(RegulatoryElementConstPtrs), core.cpp:51-56 *)
Definition regs_repr (l : list (reg N)) : string := match l with [] => "" | _ => py_list (map reg_repr l) end.

(** [__repr__] of Lanelet and Area, core.cpp:1072 and 1201 *)
Definition lanelet_repr (l : lane N) (regs : list (reg N)) : string := make_lanelet_repr l (Some (regs_repr regs)).
Definition area_repr (a : area N) (regs : list (reg N)) : string := make_area_repr a (Some (regs_repr regs)).

(** [__repr__] of ConstLanelet, core.cpp:1033-1036 *)
Definition const_lanelet_repr (l : lane N) (regs : list (reg N)) : string :=
  make_repr "ConstLanelet" (print_Z (la_id l))
    [Txt (const_line3d_repr (la_left l)); Txt (const_line3d_repr (la_right l)); Txt (attrs_repr (la_attrs l));
     Txt (regs_repr regs)].
End Repr.
