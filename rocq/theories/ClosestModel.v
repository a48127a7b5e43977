(** Model of the nearest points between points and line strings.

    Source: lanelet2_core/src/LineStringGeometry.cpp (LG), geometry/impl/Polygon.h (PH).

    Coordinates are exact rational numbers. Only the squares of distances occur: the code compares distances with each other and
    with zero, and the square root is monotone. An R-tree is given by the order in which it yields the segments together with the
    (squared) distances of their boxes. *)
From Coq Require Import List Bool Arith QArith.
Import ListNotations.
Local Open Scope Q_scope.

(** The operations of Eigen on BasicPoint2d and BasicPoint3d that the templates use. *)
Record space := Space {
  pt :> Type;
  vadd : pt -> pt -> pt;
  vsub : pt -> pt -> pt;
  vscale : Q -> pt -> pt;
  dot : pt -> pt -> Q }.
Arguments vadd {s} p q : rename. Arguments vsub {s} p q : rename. Arguments vscale {s} k p : rename. Arguments dot {s} p q : rename.

Definition p2 : Type := (Q * Q)%type.
Definition p3 : Type := (Q * Q * Q)%type.
(** BasicPoint2d *)
Definition plane : space := Space p2
  (fun p q => (fst p + fst q, snd p + snd q)) (fun p q => (fst p - fst q, snd p - snd q))
  (fun k p => (k * fst p, k * snd p)) (fun p q => fst p * fst q + snd p * snd q).
(** BasicPoint3d *)
Definition solid : space := Space p3
  (fun p q => (fst (fst p) + fst (fst q), snd (fst p) + snd (fst q), snd p + snd q))
  (fun p q => (fst (fst p) - fst (fst q), snd (fst p) - snd (fst q), snd p - snd q))
  (fun k p => (k * fst (fst p), k * snd (fst p), k * snd p))
  (fun p q => fst (fst p) * fst (fst q) + snd (fst p) * snd (fst q) + snd p * snd q).

(** [Undefined]: an iterator is moved beyond the end. [Thrown]: InvalidInputError. *)
Inductive outcome (T : Type) := Ok (x : T) | Undefined | Thrown.
Arguments Ok {T} x. Arguments Undefined {T}. Arguments Thrown {T}.

Definition qlt (x y : Q) : bool := negb (Qle_bool y x).
Definition qabs (x : Q) : Q := if qlt x 0 then - x else x.

Section Closest.
Context {V : space}.
(** (p - q).norm(), squared *)
Definition sqd (p q : V) : Q := dot (vsub p q) (vsub p q).

(** projectedPoint of a point to a segment, LG:104-120 *)
Definition project_segment (l1 l2 p : V) : V :=
  let v := vsub l2 l1 in
  let w := vsub p l1 in
  let c1 := dot w v in
  if Qle_bool c1 0 then l1
  else
    let c2 := dot v v in
    if Qle_bool c2 c1 then l2
    else vadd (vscale (c1 / c2) v) l1.

(** SmallNum, LG:28 *)
Definition small : Q := 1 # 10000000000.
(** LineParams and calculateLineParams, LG:21-56 *)
Record params := Params { sN : Q; sD : Q; tN : Q; tD : Q }.
Definition line_params (a b c d e den : Q) : params :=
  if qlt den small then Params 0 1 e c
  else
    let sn := b * e - c * d in
    let tn := a * e - b * d in
    if qlt sn 0 then Params 0 den e c
    else if qlt den sn then Params den den (e + b) c
    else Params sn den tn den.
(** The second parameter is clamped and the first one adjusted, LG:74-96 *)
Definition clamp_params (a b d : Q) (lp : params) : params :=
  if qlt (tN lp) 0 then
    if qlt (- d) 0 then Params 0 (sD lp) 0 (tD lp)
    else if qlt a (- d) then Params (sD lp) (sD lp) 0 (tD lp)
    else Params (- d) a 0 (tD lp)
  else if qlt (tD lp) (tN lp) then
    if qlt (- d + b) 0 then Params 0 (sD lp) (tD lp) (tD lp)
    else if qlt a (- d + b) then Params (sD lp) (sD lp) (tD lp) (tD lp)
    else Params (- d + b) a (tD lp) (tD lp)
  else lp.
(** sc and tc, LG:98-99 *)
Definition ratio (n m : Q) : Q := if qlt (qabs n) small then 0 else n / m.
(** projectedPoint of two segments, LG:58-102 *)
Definition project_pair (p1 p2 q1 q2 : V) : V * V :=
  let w := vsub p1 q1 in
  let u := vsub p2 p1 in
  let v := vsub q2 q1 in
  let a := dot u u in
  let b := dot u v in
  let c := dot v v in
  let d := dot u w in
  let e := dot v w in
  let den := a * c - b * b in
  let lp := clamp_params a b d (line_params a b c d e den) in
  (vadd p1 (vscale (ratio (sN lp) (sD lp)) u), vadd q1 (vscale (ratio (tN lp) (tD lp)) v)).

Definition seg := (V * V)%type.
Fixpoint pairs (l : list V) : list seg :=
  match l with
  | a :: (b :: _) as r => (a, b) :: pairs r
  | _ => []
  end.
(** distForAllSegments, LG:122-132: the segments f is called for; [scan] stops after a call that returned zero.
    For an empty range [r.begin() + 1] is undefined. *)
Definition segments (r : list V) : outcome (list seg) :=
  match r with
  | [] => Undefined
  | [a] => Ok [(a, a)]
  | _ => Ok (pairs r)
  end.
Fixpoint scan {S : Type} (f : S -> seg -> S * Q) (l : list seg) (s : S) : S :=
  match l with
  | [] => s
  | x :: r => let (s', d) := f s x in if Qeq_bool d 0 then s' else scan f r s'
  end.

(** ProjectedPointL2PResult::update, LG:183-192. The result is empty or holds the distance, the segment and the point. *)
Definition near_p := option (Q * seg * V).
Definition update_p (p : V) (best : near_p) (s : seg) : near_p * Q :=
  let x := project_segment (fst s) (snd s) p in
  let d := sqd x p in
  match best with
  | None => (Some (d, s, x), d)
  | Some (old, _, _) => if qlt d old then (Some (d, s, x), d) else (best, old)
  end.
(** projectedPointL2PBruteForce, LG:263-269 *)
Definition point_brute (ls : list V) (p : V) : outcome near_p :=
  match segments ls with
  | Ok l => Ok (scan (update_p p) l None)
  | Undefined => Undefined
  | Thrown => Thrown
  end.
(** The loop of projectedPointL2PWithTree, LG:288-298; the list is what the query yields: the distance of a box and its segment. *)
Fixpoint point_loop (p : V) (l : list (Q * seg)) (best : near_p) : near_p :=
  match l with
  | [] => best
  | (dbox, s) :: r =>
      if match best with Some (d, _, _) => qlt d dbox | None => false end then best
      else let (best', d) := update_p p best s in
           if Qeq_bool d 0 then best' else point_loop p r best'
  end.
(** RtreeThres, LG:29 *)
Definition rtree_thres : nat := 50.
(** projectedPointL2PImpl, LG:321-327. [tree] is the query on the R-tree of the segments. *)
Definition closest_to_point (tree : list seg -> V -> list (Q * seg)) (ls : list V) (p : V) : outcome near_p :=
  if (length ls <? rtree_thres)%nat then point_brute ls p
  else Ok (point_loop p (tree (pairs ls) p) None).
(** project, LG:418-437, and closestSegment, LG:442-475. A result that was never updated holds a BasicPoint
    that is not initialised. *)
Definition project (tree : list seg -> V -> list (Q * seg)) (ls : list V) (p : V) : outcome V :=
  match closest_to_point tree ls p with
  | Ok (Some (_, _, x)) => Ok x
  | Ok None | Undefined => Undefined
  | Thrown => Thrown
  end.
Definition closest_segment (tree : list seg -> V -> list (Q * seg)) (ls : list V) (p : V) : outcome seg :=
  match closest_to_point tree ls p with
  | Ok (Some (_, s, _)) => Ok s
  | Ok None | Undefined => Undefined
  | Thrown => Thrown
  end.

(** ProjectedPoint2L2Result::update, LG:147-159 *)
Definition near_l := option (Q * (V * V)).
Definition update_l (best : near_l) (s1 s2 : seg) : near_l * Q :=
  let x := project_pair (fst s1) (snd s1) (fst s2) (snd s2) in
  let d := sqd (fst x) (snd x) in
  match best with
  | None => (Some (d, x), d)
  | Some (old, _) => if qlt d old then (Some (d, x), d) else (best, old)
  end.
Definition distance_of (best : near_l) : Q := match best with Some (d, _) => d | None => 0 end.
(** projectedPointL2LBruteForce, LG:250-261 *)
Definition lines_brute (smaller greater : list V) : outcome near_l :=
  match segments smaller, segments greater with
  | Ok l1, Ok l2 => Ok (scan (fun best s1 => let best' := scan (fun best s2 => update_l best s1 s2) l2 best in (best', distance_of best')) l1 None)
  | _, _ => Undefined
  end.
(** projectedPointL2LWithTree, LG:214-248. The range is a line string or a ring; bg::segments_begin includes the closing segment of a ring
    (closure is open). *)
Definition ring_segments (ring : bool) (l : list V) : list seg :=
  pairs l ++ match l, rev l with
             | f :: _, z :: _ => if ring then [(z, f)] else []
             | _, _ => []
             end.
Fixpoint lines_loop (s1 : seg) (l : list (Q * seg)) (best : near_l) : near_l :=
  match l with
  | [] => best
  | (dbox, s2) :: r =>
      if match best with Some (d, _) => qlt d dbox | None => false end then best
      else lines_loop s1 r (fst (update_l best s1 s2))
  end.
Definition lines_tree (tree : list seg -> seg -> list (Q * seg)) (ring : bool) (smaller greater : list V) : outcome near_l :=
  match segments smaller with
  | Ok l1 => Ok (scan (fun best s1 => let best' := lines_loop s1 (tree (ring_segments ring greater) s1) best in (best', distance_of best')) l1 None)
  | Undefined => Undefined
  | Thrown => Thrown
  end.
(** projectedPointOrdered, LG:302-311, and projectedPointL2LImpl, LG:313-319 *)
Definition closest_ordered tree (ring : bool) (smaller greater : list V) : outcome near_l :=
  match smaller with
  | [] => Thrown
  | _ => if (length greater <? rtree_thres)%nat then lines_brute smaller greater else lines_tree tree ring smaller greater
  end.
(** projectedPoint2d and projectedPoint3d (ring = false), projectedBorderPoint2d and projectedBorderPoint3d (ring = true), LG:332-415 *)
Definition closest_points tree (ring : bool) (l1 l2 : list V) : outcome (V * V) :=
  let swap := negb (length l1 <? length l2)%nat in
  match (if swap then closest_ordered tree ring l2 l1 else closest_ordered tree ring l1 l2) with
  | Ok (Some (_, x)) => Ok (if swap then (snd x, fst x) else x)
  | Ok None | Undefined => Undefined
  | Thrown => Thrown
  end.
End Closest.

(** overlaps3d, PH:71-79. [overlap2d]: the test of the projections to the plane. The height tolerance is compared with the distance of the
    heights. *)
Definition overlaps3d tree (overlap2d : list p3 -> list p3 -> bool) (a b : list p3) (tolerance : Q) : outcome bool :=
  if overlap2d a b then
    match closest_points (V := solid) tree true a b with
    | Ok (x, y) => Ok (qlt (qabs (snd x - snd y)) tolerance)
    | Undefined => Undefined
    | Thrown => Thrown
    end
  else Ok false.
