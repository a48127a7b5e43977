(** Model of the relations between lanelets and areas and of the search for common line strings.

    Source: lanelet2_core/include/lanelet2_core/geometry/impl/Lanelet.h (GL), impl/Area.h (GA), impl/Polygon.h (GP). Points and the
    data of line strings are numbers (identities), as in PathModel.v; coordinates play no role here. *)
From Coq Require Import List Bool Arith.
From Verif Require Import LineModel PathModel.
Import ListNotations.

(** * Polygons with a common segment *)

(** segment(idx) of a polygon, LineString.h:325-330, CompoundLineString.h:195-200: from the last point back to the first one.
    Undefined beyond the points; this is an assertion only. *)
Definition segment (l : list nat) (i : nat) : outcome (nat * nat) :=
  match nth_error l i, nth_error l (if Nat.eqb (S i) (length l) then 0 else S i) with
  | Some a, Some b => Done (a, b)
  | _, _ => Undefined
  end.
(** std::find and rotatedNext, GP:46-49: what follows the first occurrence of [x] *)
Fixpoint after_first (first : nat) (l : list nat) (x : nat) : option nat :=
  match l with
  | [] => None
  | y :: r => if Nat.eqb y x then Some match r with [] => first | z :: _ => z end else after_first first r x
  end.
Definition next_of (l : list nat) (x : nat) : option nat :=
  match l with
  | [] => None
  | y :: _ => after_first y l x
  end.
(** The loop over the segments i, i+1, ... of which [n] are left, GP:47-53, GA:83-89 *)
Fixpoint touch_loop (l1 l2 : list nat) (n i : nat) : outcome bool :=
  match n with
  | O => Done false
  | S n' =>
      do s <- segment l1 i;
      match next_of l2 (snd s) with
      | Some z => if Nat.eqb z (fst s) then Done true else touch_loop l1 l2 n' (S i)
      | None => touch_loop l1 l2 n' (S i)
      end
  end.
(** numSegments of polygons (Polygon.h:113) and of compound polygons (CompoundPolygon.h:30, 58) *)
Definition num_segments (compound : bool) (l : list nat) : nat :=
  if compound then Nat.max 1 (length l) else if Nat.ltb (length l) 2 then 0 else length l.
(** touches2d, GP:44-54 *)
Definition touches_2d (compound : bool) (l1 l2 : list nat) : outcome bool := touch_loop l1 l2 (num_segments compound l1) 0.

Section relate.
Variable data : nat -> list nat.       (* the points of the data of a line string *)

(** outerBoundPolygon, Area.h:96: a compound polygon of the outer bound *)
Definition outer_polygon (ar : list line) : outcome (list nat) :=
  match cl_points Nat.eqb false (map (pts data) ar) with Some l => Done l | None => Undefined end.
(** adjacent, GA:79-91 *)
Definition adjacent_areas (ar1 ar2 : list line) : outcome bool :=
  do l1 <- outer_polygon ar1; do l2 <- outer_polygon ar2; touch_loop l1 l2 (num_segments true l1) 0.

(** * Lanelets and areas *)

(** follows of a lanelet and an area, GA:68-75, and of an area and a lanelet, GA:77 *)
Fixpoint any_ends (p1 p2 : nat) (bounds : list line) : outcome bool :=
  match bounds with
  | [] => Done false
  | b :: r =>
      do f <- front data b; do e <- back data b;
      if (Nat.eqb f p1 && Nat.eqb e p2) || (Nat.eqb f p2 && Nat.eqb e p1) then Done true else any_ends p1 p2 r
  end.
Definition follows_area (prev : lanelet) (next : list line) : outcome bool :=
  do p1 <- back data (left_bound prev); do p2 <- back data (right_bound prev); any_ends p1 p2 next.
Definition area_follows (prev : list line) (next : lanelet) : outcome bool := follows_area (invert next) prev.

(** determineCommonLineFollowingOrPreceding, GA:103-109 *)
Fixpoint find_either (p1 p2 p3 p4 : nat) (bounds : list line) : outcome (option line) :=
  match bounds with
  | [] => Done None
  | b :: r =>
      do e <- back data b; do f <- front data b;
      if (Nat.eqb e p2 && Nat.eqb f p1) || (Nat.eqb e p3 && Nat.eqb f p4) then Done (Some b) else find_either p1 p2 p3 p4 r
  end.
Definition common_either (ar : list line) (l : lanelet) : outcome (option line) :=
  do p1 <- front data (left_bound l); do p2 <- front data (right_bound l);
  do p3 <- back data (left_bound l); do p4 <- back data (right_bound l);
  find_either p1 p2 p3 p4 ar.

(** determineCommonLineRight, GA:141-143, and determineCommonLineLeft, GA:133-139 *)
Definition common_right (left : lanelet) (right : list line) : option line :=
  find (fun b => line_eqb b (right_bound left)) right.
Definition common_left (right : lanelet) (left : list line) : option line :=
  match common_right (invert right) left with Some r => Some (linv r) | None => None end.
(** determineCommonLineSideways of a lanelet and an area, GA:111-114, and of an area and a lanelet, GA:116-120 *)
Definition common_sideways (l : lanelet) (ar : list line) : option line :=
  match common_left l ar with Some r => Some r | None => common_right l ar end.
Definition common_sideways_ar (ar : list line) (l : lanelet) : option line :=
  find (fun b => line_eqb b (linv (left_bound l)) || line_eqb b (right_bound l)) ar.
(** determineCommonLine of an area and a lanelet, GA:128-131 *)
Definition common_anywhere (ar : list line) (l : lanelet) : outcome (option line) :=
  do res <- common_either ar l;
  match res with Some b => Done (Some b) | None => Done (common_sideways_ar ar l) end.
End relate.

(** * Lanelets *)

(** determineCommonLine of lanelets, GL:146-166 *)
Definition common_lanelets (l other : lanelet) (allow_inverted : bool) : option line :=
  if left_of other l then Some (left_bound l)
  else if right_of other l then Some (right_bound l)
  else if allow_inverted then
    if left_of (invert other) l then Some (left_bound l)
    else if right_of (invert other) l then Some (right_bound l)
    else None
  else None.
