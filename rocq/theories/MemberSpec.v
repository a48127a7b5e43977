(** What looking for ids in primitives and for parameters of regulatory elements is about. *)
From Coq Require Import List ZArith String Sorted.
From Verif Require Import MemberModel.
Import ListNotations.
Local Open Scope Z_scope.

Section Ids.
Variable pid : nat -> Z.

(** One of the points of a line string or polygon has the id. *)
Definition a_point_of (l : line) (i : Z) : Prop := exists p, In p (l_pts l) /\ pid p = i.

(** The members of lanelets and areas by the comments above utils::has (Lanelet.h:354-365, Area.h:312-323): points of the bounds, and the
    regulatory elements themselves. *)
Inductive member_of_lanelet (l : lanelet) (i : Z) : Prop :=
| left_point : a_point_of (ll_left l) i -> member_of_lanelet l i
| right_point : a_point_of (ll_right l) i -> member_of_lanelet l i
| its_rule : In i (ll_regs l) -> member_of_lanelet l i.
Inductive member_of_area (a : area) (i : Z) : Prop :=
| outer_point l : In l (ar_outer a) -> a_point_of l i -> member_of_area a i
| inner_point h l : In h (ar_inner a) -> In l h -> a_point_of l i -> member_of_area a i
| area_rule : In i (ar_regs a) -> member_of_area a i.
Definition outer_member (a : area) (i : Z) : Prop := exists l, In l (ar_outer a) /\ a_point_of l i.

(** The id of a parameter that still exists *)
Inductive has_id : param -> Z -> Prop :=
| id_point p : has_id (PPoint p) (pid p)
| id_line l : has_id (PLine l) (l_id l)
| id_polygon l : has_id (PPolygon l) (l_id l)
| id_lanelet l : has_id (PLanelet (Some l)) (ll_id l)
| id_area a : has_id (PArea (Some a)) (ar_id a).
(** A member of a parameter; for areas only the points of the outer bound. *)
Inductive has_member : param -> Z -> Prop :=
| in_line l i : a_point_of l i -> has_member (PLine l) i
| in_polygon l i : a_point_of l i -> has_member (PPolygon l) i
| in_lanelet l i : member_of_lanelet l i -> has_member (PLanelet (Some l)) i
| in_area a i : outer_member a i -> has_member (PArea (Some a)) i.
End Ids.

Definition parameter_of (m : params) (p : param) : Prop := exists r ps, In (r, ps) m /\ In p ps.

(** Kinds that can be asked for *)
Inductive of_kind : wanted -> param -> Prop :=
| a_point p : of_kind WPoint (PPoint p)
| a_line l : of_kind WLine (PLine l)
| a_polygon l : of_kind WPolygon (PPolygon l)
| a_lanelet l : of_kind WLanelet (PLanelet (Some l))
| an_area a : of_kind WArea (PArea (Some a))
| anything p : of_kind WAny p.

(** All parameters in the order of roles *)
Definition in_order (m : params) : list param := flat_map snd m.
Definition first_with (P : param -> Prop) (l : list param) (p : param) : Prop :=
  exists l1 l2, l = l1 ++ p :: l2 /\ P p /\ forall q, In q l1 -> ~ P q.

(** The parameters of a kind in the same order *)
Inductive picked (P : param -> Prop) : list param -> list param -> Prop :=
| picked_nil : picked P [] []
| picked_take p l s : P p -> picked P l s -> picked P (p :: l) (p :: s)
| picked_skip p l s : ~ P p -> picked P l s -> picked P (p :: l) s.

(** A std::map: roles are ascending, hence different. *)
Definition ordered (m : params) : Prop := StronglySorted (fun a b => String.ltb a b = true) (map fst m).
