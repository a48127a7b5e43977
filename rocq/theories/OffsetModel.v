(** Model of moving a line string sideways ([offset]) and of the removal of self-intersections.

    Source: lanelet2_core/include/lanelet2_core/geometry/impl/LineString.h (LH). Coordinates are real numbers without rounding; an index
    of type size_t is a natural number, M_PI is the number pi and the largest double is larger than every length. *)
From Coq Require Import List Bool Arith Reals.
From Verif Require Import ArcModel.
Import ListNotations.
Local Open Scope R_scope.

Notation segment := (point * point)%type.

(** [Invalid]: InvalidInputError. [Geometry]: GeometryError. [Undef]: undefined behaviour. [NoFuel]: the loop does not end. *)
Inductive outcome (T : Type) := Done (x : T) | Invalid | Geometry | Undef | NoFuel.
Arguments Done {T} x. Arguments Invalid {T}. Arguments Geometry {T}. Arguments Undef {T}. Arguments NoFuel {T}.
Definition bind {A B} (x : outcome A) (f : A -> outcome B) : outcome B :=
  match x with Done a => f a | Invalid => Invalid | Geometry => Geometry | Undef => Undef | NoFuel => NoFuel end.
Notation "'do' x <- e ; f" := (bind e (fun x => f)) (at level 200, x pattern, e at level 100, f at level 200).

(** * Moving the points *)

(** normalized() of Eigen: the zero vector is left as it is. *)
Definition normalized (v : point) : point := if Rlt_dec 0 (pdot v v) then pscale (/ norm v) v else v.
Definition turned (v : point) : point := (- snd v, fst v).
(** lineString[i]. The callers stay inside of the line string. *)
Definition at_index (l : list point) (i : nat) : point := nth i l (0, 0).

(** makeVincinity, LH:168-180: the steps to a point and from it *)
Definition vicinity (l : list point) (i : nat) : point * point :=
  if (i =? 0)%nat then ((0, 0), psub (at_index l (i + 1)) (at_index l i))
  else if (i + 1 =? length l)%nat then (psub (at_index l i) (at_index l (i - 1)), (0, 0))
  else (psub (at_index l i) (at_index l (i - 1)), psub (at_index l (i + 1)) (at_index l i)).

(** shiftLateral, LH:190-208 *)
Definition shift_lateral (l : list point) (i : nat) (offset : R) (pv : point * point) : point :=
  let (preceding, following) := pv in
  let inner := padd (normalized following) (normalized preceding) in
  let minussin2 := norm inner / 2 in
  let (perpendicular, real) :=
    if (i =? 0)%nat then (following, offset)
    else if (i + 1 =? length l)%nat then (preceding, offset)
    else (inner, if Rlt_dec (/ 100000) minussin2 then offset / minussin2 else 0) in
  padd (at_index l i) (pscale real (normalized (turned perpendicular))).

(** isConvex, LH:213-220 *)
Definition is_convex (l : list point) (i : nat) (positive : bool) : bool :=
  if negb (i =? 0)%nat && negb (i + 1 =? length l)%nat then
    let is_left := left_of_line (at_index l (i - 1)) (at_index l i) (at_index l (i + 1)) in
    if positive then negb is_left else is_left
  else true.
Inductive convexity := Concave | Convex | ConvexSharp.
(** getConvexity, LH:224-234 *)
Definition get_convexity (l : list point) (i : nat) (pv : point * point) (positive : bool) : convexity :=
  if negb (is_convex l i positive) then Concave
  else if Rlt_dec (pdot (snd pv) (fst pv)) 0 then ConvexSharp
  else Convex.

(** shiftPerpendicular, LH:444-456 *)
Definition shift_perpendicular (l : list point) (i : nat) (distance : R) (as_last : bool) (pv : point * point) : outcome point :=
  if (i =? 0)%nat && as_last then Geometry
  else if (i + 1 =? length l)%nat && negb as_last then Geometry
  else
    let perpendicular := if as_last then normalized (fst pv) else normalized (snd pv) in
    Done (padd (at_index l i) (pscale distance (turned perpendicular))).
(** shiftConvexSharp, LH:467-481 *)
Definition shift_sharp (l : list point) (i : nat) (distance : R) (pv : point * point) : outcome (list point) :=
  let (preceding, following) := pv in
  if (i =? 0)%nat then Geometry
  else if (i + 1 =? length l)%nat then Geometry
  else
    do first <- shift_perpendicular l i distance true pv;
    do last <- shift_perpendicular l i distance false pv;
    let alpha := PI - acos (pdot following preceding / (norm preceding * norm following)) in
    let overshoot := distance * tan (PI / 4 - alpha / 4) in
    Done [padd first (pscale overshoot (normalized preceding)); psub last (pscale overshoot (normalized following))].
(** shiftPoint, LH:491-505. The flag tells that the line string is still convex. *)
Definition shift_point (l : list point) (distance : R) (i : nat) (pv : point * point) : outcome (list point * bool) :=
  match get_convexity l i pv (if Rlt_dec 0 distance then true else false) with
  | Concave => do p <- shift_perpendicular l i distance true pv; Done ([p], false)
  | Convex => Done ([shift_lateral l i distance pv], true)
  | ConvexSharp => do ps <- shift_sharp l i distance pv; Done (ps, true)
  end.

(** The inner loop of extractConvex, LH:520-528, for the indices from [i] on. The result has the index where it ended. *)
Fixpoint convex_part (l : list point) (distance : R) (n i : nat) : outcome (list point * nat) :=
  match n with
  | O => Done ([], i - 1)%nat
  | S n =>
      do (ps, still) <- shift_point l distance i (vicinity l i);
      if still : bool then do (rest, e) <- convex_part l distance n (S i); Done (ps ++ rest, e)
      else Done (ps, i)
  end.
(** extractConvex, LH:514-532. Every round of the outer loop goes on by at least one point. *)
Fixpoint convex_parts (l : list point) (distance : R) (fuel cur : nat) : outcome (list (list point)) :=
  if (cur + 1 <? length l)%nat then
    match fuel with
    | O => NoFuel
    | S fuel =>
        do p <- shift_perpendicular l cur distance false (vicinity l cur);
        do (ps, e) <- convex_part l distance (length l - (cur + 1)) (cur + 1);
        do rest <- convex_parts l distance fuel e;
        Done ((p :: ps) :: rest)
    end
  else Done [].
Definition extract_convex (l : list point) (distance : R) : outcome (list (list point)) := convex_parts l distance (length l) 0.

(** * Walking along the segments *)

Fixpoint segments_of (l : list point) : list segment :=
  match l with
  | a :: (b :: _) as r => (a, b) :: segments_of r
  | _ => []
  end.

Section Walk.
(** [query]: all elements of a tree with segments that have a point in common with a given one, in the order of the tree.
    [meet]: the points of boost::geometry::intersection. *)
Variable query : list (segment * nat) -> segment -> list (segment * nat).
Variable meet : segment -> segment -> list point.

(** SelfIntersection2d, LH:14-23: its firstSegment.s, lastSegment and intersectionPoint *)
Record crossing := Crossing { own_s : R; other_index : nat; other_s : R; common : point }.

(** getSelfIntersectionsAt, LH:347-366. The front of an empty list is undefined. *)
Fixpoint crossings_of (k : nat) (s : segment) (found : list (segment * nat)) : outcome (list crossing) :=
  match found with
  | [] => Done []
  | (o, i) :: rest =>
      if (if point_dec (fst o) (snd s) then false else true) && (if point_dec (snd o) (fst s) then false else true) &&
         (if point_dec (fst o) (fst s) then false else true) && (k <? i)%nat then
        match meet s o with
        | [] => Undef
        | p :: _ => do cs <- crossings_of k s rest; Done (Crossing (distance p (fst s)) i (distance p (fst o)) p :: cs)
        end
      else crossings_of k s rest
  end.
Definition crossings_at (tree : list (segment * nat)) (k : nat) (s : segment) : outcome (list crossing) := crossings_of k s (query tree s).

(** getLowestSAbove, LH:327-338: [best] is the best one so far. *)
Fixpoint lowest_above (cs : list crossing) (least : R) (best : option crossing) : option crossing :=
  match cs with
  | [] => best
  | c :: rest =>
      let lower := match best with None => true | Some b => if Rlt_dec (own_s c) (own_s b) then true else false end in
      lowest_above rest least (if (if Rlt_dec least (own_s c) then true else false) && lower then Some c else best)
  end.
(** findNextPoint, LH:382-392: the next point, the index of its segment and the length along that segment *)
Definition find_next (cs : list crossing) (s : segment) (last_s : R) (i : nat) : point * nat * R :=
  match lowest_above cs last_s None with
  | Some c => (common c, other_index c, other_s c)
  | None => (snd s, (i + 1)%nat, 0)
  end.

(** removeSelfIntersections, LH:394-412. Every round of the loop raises the index. *)
Fixpoint remove_loop (l : list point) (tree : list (segment * nat)) (fuel i : nat) (last_s : R) : outcome (list point) :=
  if (i <? length l - 2)%nat then
    match fuel with
    | O => NoFuel
    | S fuel =>
        let s := (at_index l i, at_index l (i + 1)) in
        do cs <- crossings_at tree i s;
        let '(p, i', s') := find_next cs s last_s i in
        do rest <- remove_loop l tree fuel i' s';
        Done (p :: rest)
    end
  else Done [last l (0, 0)].
Definition indexed (l : list segment) : list (segment * nat) := combine l (seq 0 (length l)).
Definition remove_self_intersections (l : list point) : outcome (list point) :=
  if (length l <=? 3)%nat then Done l
  else
    do rest <- remove_loop l (indexed (segments_of l)) (length l) 0 0;
    Done (at_index l 0 :: rest).

(** The map of makeTree, LH:547-561: for every segment the part it belongs to. The index in the part is never used. *)
Fixpoint owners (i : nat) (parts : list (list point)) : list nat :=
  match parts with
  | [] => []
  | p :: rest => repeat i (length (segments_of p)) ++ owners (S i) rest
  end.
(** joinSubStrings, LH:572-605. [i] and [j] are the variables of the loops, [idx] is the index of the segment of the walk. *)
Fixpoint join_loop (parts : list (list point)) (tree : list (segment * nat)) (owner : list nat) (fuel i j idx : nat) (last_s : R)
  : outcome (list point) :=
  match nth_error parts i with
  | None => Done []
  | Some ls =>
      match fuel with
      | O => NoFuel
      | S fuel =>
          match nth_error ls j, nth_error ls (S j) with
          | Some a, Some b =>
              do cs <- crossings_at tree idx (a, b);
              let '(p, idx', s') := find_next cs (a, b) last_s idx in
              match nth_error owner idx' with
              | None => Done [p]
              | Some i' =>
                  do rest <- (if (i' =? i)%nat then join_loop parts tree owner fuel i (S j) idx' s'
                              else join_loop parts tree owner fuel i' 0 idx' s');
                  Done (p :: rest)
              end
          | _, _ => join_loop parts tree owner fuel i 0 idx last_s
          end
      end
  end.
Definition join_parts (parts : list (list point)) : outcome (list point) :=
  match parts with
  | [] => Done []
  | [p] => Done p
  | p :: _ =>
      let segments := flat_map segments_of parts in
      match p with
      | [] => Undef
      | a :: _ =>
          do rest <- join_loop parts (indexed segments) (owners 0 parts) (S (length segments)) 0 0 0 0;
          match last parts [] with
          | [] => Undef
          | b => Done (a :: rest ++ [last b (0, 0)])
          end
      end
  end.

(** offsetNoThrow, LH:856-862 *)
Definition offset_no_throw (l : list point) (distance : R) : outcome (list point) :=
  do parts <- extract_convex l distance; join_parts parts.

(** [nearest]: the segment of the tree that is nearest to a point. checkForInversion, LH:423-433 *)
Variable nearest : list segment -> point -> segment.
Fixpoint inverted (l : list segment) (distance : R) (ps : list point) : bool :=
  match ps with
  | [] => false
  | p :: rest =>
      let (a, b) := nearest l p in
      let pd := ArcModel.distance (project_to a b p) p in
      if Rlt_dec (pd + / 10000000) distance then true else inverted l distance rest
  end.
(** offset, LH:864-869; makeSegmentTree, LH:285-288, needs two points. *)
Definition offset (l : list point) (distance : R) : outcome (list point) :=
  do r <- offset_no_throw l distance;
  if (length l <? 2)%nat then Invalid
  else if inverted (segments_of l) distance r then Geometry
  else Done r.
End Walk.
