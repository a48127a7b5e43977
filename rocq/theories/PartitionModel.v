(** Model of the partition of polygons into convex parts and triangles.

    Source: lanelet2_core/src/PolygonTriangulationGeometry.cpp (PT). Polygons are lists of indices of the points. The Voronoi
    diagram is given from outside: the list of the polygons of makeVoronoi (PT:390-416), one for each vertex of the diagram. *)
From Coq Require Import List Bool Arith ZArith QArith.
Import ListNotations.
Local Open Scope nat_scope.

(** [Thrown]: an exception (InvalidInputError, GeometryError, std::runtime_error); [Undefined]: undefined behaviour. *)
Inductive outcome (T : Type) := Ok (x : T) | Thrown | Undefined | OutOfFuel.
Arguments Ok {T} x. Arguments Thrown {T}. Arguments Undefined {T}. Arguments OutOfFuel {T}.
Definition bind {A B} (x : outcome A) (f : A -> outcome B) : outcome B :=
  match x with Ok a => f a | Thrown => Thrown | Undefined => Undefined | OutOfFuel => OutOfFuel end.
Notation "'do' x <- e1 ; e2" := (bind e1 (fun x => e2)) (at level 200, x pattern, e1 at level 100, e2 at level 200).

Definition segment : Type := (nat * nat)%type.
(** flip, PT:105 *)
Definition flip (s : segment) : segment := (snd s, fst s).
Definition same_segment (s t : segment) : bool := (fst s =? fst t) && (snd s =? snd t).
(** isBorder, PT:106-112 *)
Definition is_border (s : segment) (size : nat) : bool :=
  let distance := if snd s <? fst s then fst s - snd s else snd s - fst s in
  if distance =? 1 then true else ((fst s =? 0) || (snd s =? 0)) && (distance + 1 =? size).

(** std::find *)
Fixpoint find_index (poly : list nat) (x : nat) : option nat :=
  match poly with
  | [] => None
  | y :: r => if y =? x then Some 0 else option_map S (find_index r x)
  end.
(** getAlignedIterators, PT:118-133. Iterators are given by their positions. *)
Definition aligned (poly : list nat) (s : segment) : outcome (nat * nat) :=
  if length poly <? 3 then Thrown
  else
    match find_index poly (fst s), find_index poly (snd s) with
    | Some i, Some j =>
        if (i =? j + 1) || (j =? i + (length poly - 1)) then Ok (j, i) else Ok (i, j)
    | _, _ => Thrown
    end.
Definition at_index (poly : list nat) (i : nat) : outcome nat := match nth_error poly i with Some x => Ok x | None => Undefined end.
(** getAdjacent, PT:135-139 *)
Definition adjacent (poly : list nat) (s : segment) : outcome (segment * segment) :=
  do (i, j) <- aligned poly s;
  do first <- at_index poly i;
  do previous <- at_index poly (if i =? 0 then length poly - 1 else i - 1);
  do second <- at_index poly j;
  do next <- at_index poly (if j =? length poly - 1 then 0 else j + 1);
  Ok ((first, previous), (second, next)).
(** The segments of a polygon, p.at(i) and p.at((i + 1) % p.size()) *)
Definition segments (poly : list nat) : list segment :=
  match poly with
  | [] => []
  | x :: r => combine poly (r ++ [x])
  end.
(** getSegmentsExcept, PT:141-151 *)
Definition segments_except (poly : list nat) (excluded : segment) : list segment :=
  filter (fun s => negb (same_segment s excluded) && negb (same_segment s (flip excluded))) (segments poly).

(** The range of iterators from position i to position j. It is undefined if j is in front of i or behind the end. *)
Definition range (l : list nat) (i j : nat) : outcome (list nat) :=
  if (i <=? j) && (j <=? length l) then Ok (firstn (j - i) (skipn i l)) else Undefined.
Definition insert_at (l : list nat) (i : nat) (x : list nat) : outcome (list nat) :=
  if i <=? length l then Ok (firstn i l ++ x ++ skipn i l) else Undefined.
(** insertPolygonExcept, PT:179-188. The memory is reserved before (PT:192), thus the iterator npIt.second is used as a position. *)
Definition insert_polygon (poly to_merge : list nat) (border : segment) : outcome (list nat) :=
  do (m1, m2) <- aligned to_merge border;
  do (_, n2) <- aligned poly border;
  let no_wrap := m1 + 1 =? length to_merge in
  do part1 <- range to_merge (m2 + 1) (if no_wrap then m1 else length to_merge);
  do poly1 <- insert_at poly n2 part1;
  if no_wrap then Ok poly1
  else
    do part2 <- range to_merge 0 m1;
    insert_at poly1 (n2 + (length to_merge - (m2 + 1))) part2.
(** merge, PT:190-196 *)
Definition merge (poly to_merge : list nat) (border : segment) : outcome (list nat * list segment) :=
  do merged <- insert_polygon poly to_merge border; Ok (merged, segments_except to_merge border).

Section Traverse.
(** The polygons of the Voronoi diagram *)
Variable cells : list (list nat).
(** isConnectionConvex, PT:98-101, for two directed segments between points of the polygon *)
Variable convex : segment -> segment -> bool.
(** The number of points of the polygon *)
Variable size : nat.

(** Adjacencies, PT:242-302: the map is filled with the flipped segments of all polygons and sorted; at returns the
    smallest index with the key and throws if there is none. *)
Fixpoint owner_from (i : nat) (cs : list (list nat)) (s : segment) : option nat :=
  match cs with
  | [] => None
  | c :: r => if existsb (same_segment (flip s)) (segments c) then Some i else owner_from (S i) r s
  end.
Definition destination (s : segment) : outcome nat := match owner_from 0 cells s with Some i => Ok i | None => Thrown end.
Definition polygon_by_index (i : nat) : outcome (list nat) := match nth_error cells i with Some c => Ok c | None => Thrown end.

Record connection := Connection { c_border : segment; c_first : segment; c_second : segment; c_new : nat }.
(** The order by opposingAngle (std::sort, PT:321-322) *)
Variable order : list connection -> list connection.

(** findGates, PT:304-324. Visited polygons are a list without order. *)
Fixpoint find_gates_loop (candidates : list segment) (visited : list nat) : outcome (list connection) :=
  match candidates with
  | [] => Ok []
  | g :: r =>
      if is_border g size then find_gates_loop r visited
      else
        do d <- destination g;
        if existsb (Nat.eqb d) visited then find_gates_loop r visited
        else
          do poly <- polygon_by_index d;
          do (a, b) <- adjacent poly g;
          do rest <- find_gates_loop r visited;
          Ok (Connection g a b d :: rest)
  end.
Definition find_gates (candidates : list segment) (visited : list nat) : outcome (list connection) :=
  do l <- find_gates_loop candidates visited; Ok (order l).
(** connectionConvex, PT:211-213. The first segments of the pairs run backwards. *)
Definition connection_convex (local extension : segment * segment) : bool :=
  convex (flip (fst local)) (snd extension) && convex (flip (fst extension)) (snd local).

(** Head, PT:224-227, and TraversalResult, PT:236-239 *)
Record state := State { poly : list nat; parts : list (list nat); visited : list nat }.
(** updateState and traverse, PT:326-360. The fuel bounds the depth of the recursion. A polygon behind a closed gate is not marked as visited. The first loop goes over the gates and collects the
    closed gates, the second one starts new polygons. *)
Section Loops.
Variable recurse : list nat -> list segment -> bool -> list (list nat) -> list nat -> outcome state.
Fixpoint open_loop (gates : list connection) (s : state) (closed : list connection) : outcome (state * list connection) :=
  match gates with
  | [] => Ok (s, closed)
  | c :: r =>
      if existsb (Nat.eqb (c_new c)) (visited s) then open_loop r s closed
      else
        do local <- adjacent (poly s) (c_border c);
        if connection_convex local (c_first c, c_second c) then
          do new <- polygon_by_index (c_new c);
          do (merged, added) <- merge (poly s) new (c_border c);
          do s' <- recurse merged added false (parts s) (c_new c :: visited s);
          open_loop r s' closed
        else open_loop r s (closed ++ [c])
  end.
Fixpoint closed_loop (gates : list connection) (s : state) : outcome state :=
  match gates with
  | [] => Ok s
  | c :: r =>
      if existsb (Nat.eqb (c_new c)) (visited s) then closed_loop r s
      else
        do new <- polygon_by_index (c_new c);
        do s' <- recurse new (segments_except new (c_border c)) true (parts s) (visited s);
        closed_loop r (State (poly s) (parts s') (visited s'))
  end.
End Loops.
Fixpoint traverse (fuel : nat) (head : list nat) (gates : list segment) (origin : bool) (ps : list (list nat)) (vs : list nat) : outcome state :=
  match fuel with
  | O => OutOfFuel
  | S fuel =>
      do found <- find_gates gates vs;
      do (s, closed) <- open_loop (traverse fuel) found (State head ps vs) [];
      closed_loop (traverse fuel) closed (if origin then State (poly s) (parts s ++ [poly s]) (visited s) else s)
  end.
(** mergeTriangulation, PT:362-370 *)
Definition merge_triangulation : outcome (list (list nat)) :=
  do first <- destination (1, 0);
  do c <- polygon_by_index first;
  do s <- traverse size c (segments_except c (1, 0)) true [] [first];
  Ok (parts s).
(** convexPartitionImpl, PT:418-430, without the lookup of the points *)
Definition convex_partition : outcome (list (list nat)) := if size <? 3 then Thrown else merge_triangulation.
End Traverse.

(** subdivide, PT:380-386 *)
Fixpoint fan (front : nat) (l : list nat) : list (nat * nat * nat) :=
  match l with
  | a :: (b :: _) as r => (front, a, b) :: fan front r
  | _ => []
  end.
Definition subdivide (poly : list nat) : list (nat * nat * nat) := match poly with [] => [] | x :: r => fan x r end.
(** triangulateImpl, PT:432-447 *)
Definition triangulate (cells : list (list nat)) (size : nat) : outcome (list (nat * nat * nat)) :=
  if size <? 3 then Thrown else Ok (flat_map subdivide cells).
(** toVoronoi, PT:8: coordinates are truncated to hundredths. *)
Definition to_voronoi (v : Q) : Z := Z.quot (Qnum v * 100) (Zpos (Qden v)).
