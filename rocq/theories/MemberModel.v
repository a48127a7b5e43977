(** Model of looking for ids in primitives and of the parameters of regulatory elements.

    Source: lanelet2_core/include/lanelet2_core/primitives/RegulatoryElement.h (RE), lanelet2_core/src/RegulatoryElement.cpp (RC),
    primitives/{LineString,CompoundLineString,Area,LaneletSequence}.h, src/Lanelet.cpp, src/LaneletMap.cpp, utility/Utilities.h.

    Points are the data they share; [pid] is the id that a point has. An expired weak reference is [None].
    Inverted views of line strings and lanelets name the same members in another order, so that they have no flag here. The cached polygon of
    an area always belongs to its bounds (Area.h:85-98). Parameters are the entries of the std::map inside of the HybridMap in its order. *)
From Coq Require Import List Bool ZArith String.
From Verif Require Import LineModel.
Import ListNotations.
Local Open Scope Z_scope.

Record line := Line { l_id : Z; l_pts : list nat }.
Record lanelet := Lanelet { ll_id : Z; ll_left : line; ll_right : line; ll_regs : list Z }.
Record area := Area { ar_id : Z; ar_outer : list line; ar_inner : list (list line); ar_regs : list Z }.
(** RuleParameter, RE:90 *)
Inductive param :=
| PPoint (p : nat) | PLine (l : line) | PPolygon (l : line) | PLanelet (l : option lanelet) | PArea (a : option area).
Definition params := list (string * list param).
Record regelem := Reg { re_id : Z; re_params : params }.

Section Ids.
Variable pid : nat -> Z.

(** utils::has of line strings and polygons, LineString.h:789-792 *)
Definition has_line (l : line) (i : Z) : bool := existsb (fun p => Z.eqb (pid p) i) (l_pts l).
(** utils::has of compound line strings and compound polygons, CompoundLineString.h:354-357; [None] does not occur: the iteration would leave
    the points *)
Definition has_compound (ls : list line) (i : Z) : option bool :=
  option_map (existsb (fun p => Z.eqb (pid p) i)) (cl_points Nat.eqb false (map l_pts ls)).
(** utils::has of lanelets, Lanelet.cpp:307-311 *)
Definition has_lanelet (l : lanelet) (i : Z) : bool :=
  has_line (ll_left l) i || has_line (ll_right l) i || existsb (fun r => Z.eqb r i) (ll_regs l).
(** utils::has of areas, Area.h:324 *)
Definition has_area (a : area) (i : Z) : option bool := has_compound (ar_outer a) i.
(** utils::has of lanelet sequences, LaneletSequence.h:256; the bounds are the compounds of those of the lanelets *)
Definition has_sequence (ls : list lanelet) (i : Z) : option bool :=
  match has_compound (map ll_left ls) i with
  | Some true => Some true
  | Some false => has_compound (map ll_right ls) i
  | None => None
  end.

(** HasIdVisitor, RC:11-37 *)
Definition visit_id (i : Z) (p : param) : option bool :=
  match p with
  | PPoint p => Some (Z.eqb (pid p) i)
  | PLine l | PPolygon l => Some (Z.eqb (l_id l) i || has_line l i)
  | PLanelet None | PArea None => Some false
  | PLanelet (Some l) => Some (Z.eqb (ll_id l) i || has_lanelet l i)
  | PArea (Some a) => if Z.eqb (ar_id a) i then Some true else has_area a i
  end.
(** applyVisitor, RE RC:146-153, with found_ |= ... *)
Fixpoint visit_params (i : Z) (ps : list param) (found : bool) : option bool :=
  match ps with
  | [] => Some found
  | p :: r => match visit_id i p with None => None | Some b => visit_params i r (found || b) end
  end.
Fixpoint visit_roles (i : Z) (m : params) (found : bool) : option bool :=
  match m with
  | [] => Some found
  | (_, ps) :: r => match visit_params i ps found with None => None | Some b => visit_roles i r b end
  end.
(** utils::has of regulatory elements, RC:164-168 *)
Definition has_reg (r : regelem) (i : Z) : option bool := visit_roles i (re_params r) false.

(** findUsages of a layer by id, LaneletMap.cpp:776-783: std::copy_if over the layer. [layer] is in the order of iteration. *)
Definition usages {T} (has : T -> Z -> bool) (layer : list T) (i : Z) : list T := filter (fun x => has x i) layer.
Fixpoint usages_reg (layer : list regelem) (i : Z) : option (list regelem) :=
  match layer with
  | [] => Some []
  | r :: l => match has_reg r i, usages_reg l i with
              | Some true, Some u => Some (r :: u)
              | Some false, Some u => Some u
              | _, _ => None
              end
  end.

(** GetIdVisitor, RC:39-65; id_ starts as 0, which is InvalId *)
Definition get_id (p : param) : Z :=
  match p with
  | PPoint p => pid p
  | PLine l | PPolygon l => l_id l
  | PLanelet (Some l) => ll_id l
  | PArea (Some a) => ar_id a
  | PLanelet None | PArea None => 0
  end.

(** What find and getParameters are asked for *)
Inductive wanted := WPoint | WLine | WPolygon | WLanelet | WArea | WAny.
(** The test of a parameter in find: the general template, RE:405-416, for points, line strings and polygons; RE:421-431 for rule parameters;
    RE:433-457 for lanelets and areas *)
Definition hit (w : wanted) (i : Z) (p : param) : bool :=
  match w, p with
  | WAny, p => Z.eqb (get_id p) i
  | WPoint, PPoint p => Z.eqb (pid p) i
  | WLine, PLine l => Z.eqb (l_id l) i
  | WPolygon, PPolygon l => Z.eqb (l_id l) i
  | WLanelet, PLanelet (Some l) => Z.eqb (ll_id l) i
  | WArea, PArea (Some a) => Z.eqb (ar_id a) i
  | _, _ => false
  end.
Fixpoint find_in (t : param -> bool) (ps : list param) : option param :=
  match ps with [] => None | p :: r => if t p then Some p else find_in t r end.
Fixpoint find_param (w : wanted) (i : Z) (m : params) : option param :=
  match m with
  | [] => None
  | (_, ps) :: r => match find_in (hit w i) ps with Some p => Some p | None => find_param w i r end
  end.
End Ids.

(** getVariant, Utilities.h:315-326, and strong for lanelets and areas (RE:462-494); [WAny] is not used, since getParameters<ConstRuleParameter>
    does not exist. *)
Definition variant (w : wanted) (p : param) : bool :=
  match w, p with
  | WPoint, PPoint _ | WLine, PLine _ | WPolygon, PPolygon _ | WLanelet, PLanelet (Some _) | WArea, PArea (Some _) => true
  | _, _ => false
  end.
Fixpoint lookup (r : string) (m : params) : option (list param) :=
  match m with [] => None | (k, ps) :: l => if String.eqb k r then Some ps else lookup r l end.
(** getParameters<T>(role), RE:195-216 and 459-494 *)
Definition get_parameters (w : wanted) (r : string) (m : params) : list param :=
  match lookup r m with None => [] | Some ps => filter (variant w) ps end.
(** roles(), size() and empty(), RE:219-231 *)
Definition roles (m : params) : list string := map fst m.
(** addParameter, RE:395-403: operator[] creates an empty entry at its place in the order *)
Fixpoint add_parameter (r : string) (p : param) (m : params) : params :=
  match m with
  | [] => [(r, [p])]
  | (k, ps) :: l => if String.eqb k r then (k, ps ++ [p]) :: l
                    else if String.ltb r k then (r, [p]) :: m
                    else (k, ps) :: add_parameter r p l
  end.

(** RegulatoryElementFactory::create, RC:115-126. [registry]: the registered rules with what their constructors say about the data: [true] if
    they accept it. The data is shared with the caller, who sees its attributes afterwards. *)
Section Create.
Variable attrs : Type.
Variable set_subtype : string -> attrs -> attrs.
Variable registry : string -> option (attrs -> bool).
Inductive created := Element (rule : string) | InvalidInput.
Definition create (rule : string) (t : attrs) : created * attrs :=
  let rule := if String.eqb rule "" then "regulatory_element"%string else rule in
  let t := set_subtype rule t in
  match registry rule with
  | Some accepts => (if accepts t then Element rule else InvalidInput, t)
  | None => (InvalidInput, t)
  end.
End Create.
