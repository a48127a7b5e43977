(** Model of paths of lanelets and areas.

    Source: lanelet2_routing/src/LaneletPath.cpp, the relations of
    lanelet2_core/include/lanelet2_core/geometry/impl/Lanelet.h and Area.h. Points are
    numbers (identities); the coordinates of the result are those of its points. *)
From Coq Require Import List Bool Arith.
From Verif Require Import LineModel.
Import ListNotations.

(** A line string: the data and whether it is inverted. A lanelet: its left and right bound as they
    are seen (the bounds of an inverted lanelet are exchanged and inverted). An area: its outer bound. *)
Record line := Line { l_data : nat; l_inv : bool }.
Record lanelet := Lanelet { left_bound : line; right_bound : line }.
Inductive prim := Lane (l : lanelet) | Region (bounds : list line).

Definition linv (l : line) : line := Line (l_data l) (negb (l_inv l)).
(** LineString.h:714-716 *)
Definition line_eqb (a b : line) : bool := Nat.eqb (l_data a) (l_data b) && Bool.eqb (l_inv a) (l_inv b).
(** Lanelet.h:164-175 *)
Definition invert (l : lanelet) : lanelet := Lanelet (linv (right_bound l)) (linv (left_bound l)).

(** What a call gives: a value, undefined behaviour, InvalidInputError, GeometryError, std::runtime_error. *)
Inductive outcome (A : Type) := Done (x : A) | Undefined | InvalidInput | NoGeometry | RuntimeFailure.
Arguments Done {A}. Arguments Undefined {A}. Arguments InvalidInput {A}. Arguments NoGeometry {A}. Arguments RuntimeFailure {A}.
Definition bind {A B} (x : outcome A) (f : A -> outcome B) : outcome B :=
  match x with
  | Done a => f a
  | Undefined => Undefined | InvalidInput => InvalidInput | NoGeometry => NoGeometry | RuntimeFailure => RuntimeFailure
  end.
Notation "'do' x <- a ; b" := (bind a (fun x => b)) (at level 200, x pattern, right associativity).

Section path.
Variable data : nat -> list nat.       (* the points of the data of a line string *)
Definition pts (l : line) : list nat := if l_inv l then rev (data (l_data l)) else data (l_data l).
(** front and back, undefined for empty line strings *)
Definition front (l : line) : outcome nat := match pts l with [] => Undefined | p :: _ => Done p end.
Definition back (l : line) : outcome nat := match rev (pts l) with [] => Undefined | p :: _ => Done p end.

(** * Relations, geometry/impl/Lanelet.h:128-143 *)
Definition left_of (left right : lanelet) : bool := line_eqb (right_bound left) (left_bound right).
Definition right_of (right left : lanelet) : bool := left_of left right.
Definition same (a b : outcome nat) : bool := match a, b with Done x, Done y => Nat.eqb x y | _, _ => false end.
Definition is_empty (l : line) : bool := match pts l with [] => true | _ => false end.
Definition follows (prev next : lanelet) : bool :=
  negb (is_empty (left_bound prev)) && negb (is_empty (right_bound prev)) &&
  negb (is_empty (left_bound next)) && negb (is_empty (right_bound next)) &&
  same (back (left_bound prev)) (front (left_bound next)) &&
  same (back (right_bound prev)) (front (right_bound next)).

(** leftOf and rightOf of areas, geometry/impl/Area.h:62-66 *)
Definition left_of_ar (right : lanelet) (left : list line) : bool :=
  existsb (fun b => line_eqb (linv b) (left_bound right)) left.
Definition right_of_ar (left : lanelet) (ar : list line) : bool := left_of_ar (invert left) ar.

(** The search in determineCommonLinePreceding, Area.h:92-96 *)
Fixpoint find_ends (p1 p2 : nat) (bounds : list line) : outcome (option line) :=
  match bounds with
  | [] => Done None
  | b :: r =>
      do e <- back b;
      if Nat.eqb e p1
      then do f <- front b; if Nat.eqb f p2 then Done (Some b) else find_ends p1 p2 r
      else find_ends p1 p2 r
  end.
Definition common_preceding (l : lanelet) (ar : list line) : outcome (option line) :=
  do p1 <- back (left_bound l); do p2 <- back (right_bound l); find_ends p1 p2 ar.
(** determineCommonLineFollowing, Area.h:98-100 *)
Definition common_following (ar : list line) (l : lanelet) : outcome (option line) := common_preceding (invert l) ar.
(** determineCommonLine of areas, Area.h:121-126 *)
Definition common_areas (ar1 ar2 : list line) : option line :=
  find (fun b => existsb (fun c => line_eqb c (linv b)) ar2) ar1.

(** * getRemainingLane, LaneletPath.cpp:326-336, from the lanelets at the position on *)
Fixpoint remaining_lane (path : list lanelet) : list lanelet :=
  match path with
  | [] => []
  | l :: r =>
      l :: match r with
           | [] => []
           | n :: _ => if negb (follows l n) then [] else remaining_lane r
           end
  end.

(** * Parts of the outer bound of an area *)

(** extractBetween, LaneletPath.cpp:11-24 *)
Definition extract_between (l : list line) (start end_ : nat) : list line :=
  if Nat.leb end_ start then skipn (S start) l ++ firstn end_ l
  else firstn (end_ - S start) (skipn (S start) l).
(** std::find: the position *)
Fixpoint find_line (l : list line) (x : line) : option nat :=
  match l with
  | [] => None
  | y :: r => if line_eqb y x then Some 0 else option_map S (find_line r x)
  end.
(** extractBounds, LaneletPath.cpp:26-41 *)
Definition extract_bounds (bounds : list line) (rear front_ : line) : outcome (list line * list line) :=
  match find_line bounds front_ with
  | None => InvalidInput
  | Some start =>
      match find_line bounds rear with
      | None => InvalidInput
      | Some end_ => Done (extract_between bounds end_ start, extract_between bounds start end_)
      end
  end.
(** extractExceptBorder, LaneletPath.cpp:43-51 *)
Definition extract_except (bounds : list line) (border : line) : outcome (list line) :=
  match find_line bounds border with
  | None => InvalidInput
  | Some i => Done (extract_between bounds i i)
  end.

(** appendLineStrings, LaneletPath.cpp:53-67, for the target [t]; the points of the compound line string
    as in LineModel.v. *)
Definition drop_ends (omit_first omit_last : bool) (l : list nat) : list nat :=
  let l := if omit_first then tl l else l in if omit_last then removelast l else l.
Definition append_lines (lss : list line) (t : list nat) (reversed omit_last omit_first : bool) : outcome (list nat) :=
  match cl_points Nat.eqb false (map pts lss) with
  | None => Undefined
  | Some c =>
      let least := if omit_last || omit_first then (if omit_first && omit_last then 3 else 2) else 1 in
      if Nat.ltb (length c) least then Done t
      else Done (t ++ drop_ends omit_first omit_last (if reversed then rev c else c))
  end.

(** * Sides of a lanelet *)

(** LaneletAdjacency, LaneletPath.cpp:86. [Following] is the front end of the lanelet, [Preceding] the back
    end, [Right] its left and [Left] its right bound. *)
Inductive side := Following | Preceding | Left | Right.
Definition side_eqb (a b : side) : bool :=
  match a, b with
  | Following, Following | Preceding, Preceding | Left, Left | Right, Right => true
  | _, _ => false
  end.

(** getLaneletAdjacency of a lanelet and an area, LaneletPath.cpp:102-118 *)
Definition adjacency_area (l : lanelet) (ar : list line) : outcome (option (side * line)) :=
  do res <- common_following ar l;
  match res with
  | Some b => Done (Some (Following, b))
  | None =>
      do res <- common_preceding l ar;
      match res with
      | Some b => Done (Some (Preceding, b))
      | None =>
          if left_of_ar l ar then Done (Some (Right, linv (left_bound l)))
          else if right_of_ar l ar then Done (Some (Left, right_bound l))
          else Done None
      end
  end.

(** getLaneletAdjacency of two lanelets, LaneletPath.cpp:120-134; [{}] is the first value twice. *)
Definition adjacency_lanelet (l other : lanelet) : side * side :=
  if follows l other then (Preceding, Following)
  else if follows other l then (Following, Preceding)
  else if left_of other l then (Right, Left)
  else if right_of other l then (Left, Right)
  else (Following, Following).

(** The points of a line string but the first; basicBegin() + 1 is undefined if it is empty. *)
Definition but_first (l : line) : outcome (list nat) := match pts l with [] => Undefined | _ :: r => Done r end.
Definition single (p : outcome nat) : outcome (list nat) := do x <- p; Done [x].

(** appendExtractedClockwise, LaneletPath.cpp:136-148 *)
Definition clockwise (l : lanelet) (s : side) : outcome (list nat) :=
  match s with
  | Right => but_first (left_bound l)
  | Preceding => single (back (right_bound l))
  | Left => but_first (linv (right_bound l))
  | Following => single (front (left_bound l))
  end.
(** appendExtractedCounterClockwise, LaneletPath.cpp:150-162 *)
Definition counter_clockwise (l : lanelet) (s : side) : outcome (list nat) :=
  match s with
  | Right => but_first (linv (left_bound l))
  | Preceding => single (back (left_bound l))
  | Left => but_first (right_bound l)
  | Following => single (front (right_bound l))
  end.
(** appendFirst, LaneletPath.cpp:164-176 *)
Definition first_point (l : lanelet) (s : side) : outcome nat :=
  match s with
  | Following => front (left_bound l)
  | Right => back (left_bound l)
  | Preceding => back (right_bound l)
  | Left => front (right_bound l)
  end.

(** appendLaneletBoundsLeft and ...Right, LaneletPath.cpp:178-203. The loops run at most three times; [None]
    of the fuel is [Undefined]. *)
Definition cw (s : side) : side :=
  match s with Left => Following | Following => Right | Right => Preceding | Preceding => Left end.
Definition ccw (s : side) : side :=
  match s with Left => Preceding | Preceding => Right | Right => Following | Following => Left end.
Fixpoint walk (next : side -> side) (extract : side -> outcome (list nat)) (fuel : nat) (cur out : side) (t : list nat)
  : outcome (list nat) :=
  match fuel with
  | O => Undefined
  | S f =>
      if side_eqb cur out then Done t
      else do e <- extract cur; walk next extract f (next cur) out (t ++ e)
  end.
Definition bounds_left (l : lanelet) (in_ out : side) (t : list nat) : outcome (list nat) :=
  walk cw (clockwise l) 4 (cw in_) out t.
Definition bounds_right (l : lanelet) (in_ out : side) (t : list nat) : outcome (list nat) :=
  walk ccw (counter_clockwise l) 4 (ccw in_) out t.

(** * The loop *)

(** BoundsResult, LaneletPath.cpp:95-100 *)
Record bounds_result := Bounds { prev_border : option line; ll_adjacency : option side; left : list nat; right : list nat }.

(** appendLaneletBounds, LaneletPath.cpp:205-211 *)
Definition append_lanelet (br : bounds_result) (l : lanelet) (in_ out : side) : outcome bounds_result :=
  do lft <- bounds_left l in_ out (left br);
  if negb (side_eqb in_ out)
  then do rgt <- bounds_right l in_ out (right br); Done (Bounds (prev_border br) (ll_adjacency br) lft rgt)
  else Done (Bounds (prev_border br) (ll_adjacency br) lft (right br)).

(** getBorder, LaneletPath.cpp:218-232 *)
Definition get_border (br : bounds_result) (cur : list line) (next : prim) : outcome (bounds_result * line) :=
  match next with
  | Region n =>
      match common_areas n cur with
      | None => NoGeometry
      | Some b => Done (Bounds (Some b) (ll_adjacency br) (left br) (right br), linv b)
      end
  | Lane l =>
      do adj <- adjacency_area l cur;
      match adj with
      | None => NoGeometry
      | Some (s, b) => Done (Bounds (prev_border br) (Some s) (left br) (right br), b)
      end
  end.

(** The side by which the lanelet was entered: the result so far, or the one it is left by for the first. *)
Definition entered (not_tail : bool) (br : bounds_result) (out : side) : outcome side :=
  if not_tail then match ll_adjacency br with Some s => Done s | None => Undefined end else Done out.
Definition start_left (not_tail : bool) (br : bounds_result) (l : lanelet) (s : side) : outcome bounds_result :=
  if not_tail then Done br
  else do p <- first_point l s; Done (Bounds (prev_border br) (ll_adjacency br) (left br ++ [p]) (right br)).

(** addLaneletPair, LaneletPath.cpp:234-241 *)
Definition add_lanelet_pair (br : bounds_result) (cur next : lanelet) (not_tail : bool) : outcome bounds_result :=
  let (s, other) := adjacency_lanelet cur next in
  do br <- start_left not_tail br cur s;
  do in_ <- entered not_tail br s;
  do br <- append_lanelet br cur in_ s;
  Done (Bounds (prev_border br) (Some other) (left br) (right br)).
(** addLaneletAreaHead, LaneletPath.cpp:243-253 *)
Definition add_lanelet_area (br : bounds_result) (cur : lanelet) (next : list line) (not_tail : bool) : outcome bounds_result :=
  do adj <- adjacency_area cur next;
  match adj with
  | None => RuntimeFailure
  | Some (s, b) =>
      do br <- start_left not_tail br cur s;
      do in_ <- entered not_tail br s;
      do br <- append_lanelet br cur in_ s;
      Done (Bounds (Some b) (ll_adjacency br) (left br) (right br))
  end.

(** appendTail with addFirstArea and addFirstLanelet, LaneletPath.cpp:266-283, 293-304 *)
Definition append_tail (cur next : prim) : outcome bounds_result :=
  let br := Bounds None None [] [] in
  match cur with
  | Region bounds =>
      do (br, this) <- get_border br bounds next;
      do rest <- extract_except bounds this;
      do lft <- append_lines rest (left br) false false false;
      Done (Bounds (prev_border br) (ll_adjacency br) lft (right br))
  | Lane l =>
      match next with
      | Lane n => add_lanelet_pair br l n false
      | Region n => add_lanelet_area br l n false
      end
  end.

(** appendBounds with addLanelet, addArea and appendFinalArea, LaneletPath.cpp:255-264, 285-291, 306-323 *)
Definition append_bounds (cur : prim) (next : option prim) (br : bounds_result) : outcome bounds_result :=
  match cur, next with
  | Lane l, None =>
      match ll_adjacency br with
      | None => Undefined
      | Some s =>
          do br <- append_lanelet br l s s;
          match left br with
          | [] => Undefined
          | _ => Done (Bounds (prev_border br) (ll_adjacency br) (removelast (left br)) (right br))
          end
      end
  | Lane l, Some (Lane n) => add_lanelet_pair br l n true
  | Lane l, Some (Region n) => add_lanelet_area br l n true
  | Region bounds, None =>
      match prev_border br with
      | None => InvalidInput
      | Some b =>
          do rest <- extract_except bounds b;
          do lft <- append_lines rest (left br) false true true;
          Done (Bounds (prev_border br) (ll_adjacency br) lft (right br))
      end
  | Region bounds, Some n =>
      match prev_border br with
      | None => Undefined
      | Some old =>
          do (br, border) <- get_border br bounds n;
          do (b1, b2) <- extract_bounds bounds old border;
          do lft <- append_lines b1 (left br) false false true;
          do rgt <- append_lines b2 (right br) true false true;
          Done (Bounds (prev_border br) (ll_adjacency br) lft rgt)
      end
  end.

(** The loop of getEnclosingPolygon3d over the primitives after the first *)
Fixpoint append_all (path : list prim) (br : bounds_result) : outcome bounds_result :=
  match path with
  | [] => Done br
  | p :: r => do br <- append_bounds p (hd_error r) br; append_all r br
  end.

(** boundingPolygon, LaneletOrArea.h:90-95; Lanelet.cpp: polygon3d is made of the left bound and the
    inverted right bound. *)
Definition bounding_polygon (p : prim) : outcome (list nat) :=
  let lss := match p with Lane l => [left_bound l; linv (right_bound l)] | Region b => b end in
  match cl_points Nat.eqb false (map pts lss) with Some c => Done c | None => Undefined end.

(** getEnclosingPolygon3d, LaneletPath.cpp:338-352 *)
Definition enclosing_polygon (path : list prim) : outcome (list nat) :=
  match path with
  | [] => Done []
  | [p] => bounding_polygon p
  | p :: (n :: _) as r =>
      do br <- append_tail p n;
      do br <- append_all r br;
      Done (left br ++ rev (right br))
  end.
End path.
