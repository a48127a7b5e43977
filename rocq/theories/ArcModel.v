(** Model of lengths along a line string and of arc coordinates.

    Source: lanelet2_core/include/lanelet2_core/geometry/impl/LineString.h (LH), geometry/GeometryHelper.h. Coordinates are real numbers
    without rounding. *)
From Coq Require Import List Bool Arith Reals.
Import ListNotations.
Local Open Scope R_scope.

(** [Undefined]: an empty line string is accessed. [Thrown]: InvalidInputError. [NotANumber]: division by zero. *)
Inductive result (T : Type) := Ok (x : T) | Undefined | Thrown | NotANumber.
Arguments Ok {T} x. Arguments Undefined {T}. Arguments Thrown {T}. Arguments NotANumber {T}.

Section Along.
(** Points with the function distance and p1 + t * (p2 - p1). *)
Context {P : Type} (dist : P -> P -> R) (move : P -> P -> R -> P).

(** rangedLength, LH:609-614, and boost::geometry::length *)
Fixpoint range_length (l : list P) : R :=
  match l with
  | a :: (b :: _) as r => dist a b + range_length r
  | _ => 0
  end.
Fixpoint pair_ratios (total : R) (l : list P) : list R :=
  match l with
  | a :: (b :: _) as r => dist a b / total :: pair_ratios total r
  | _ => []
  end.
(** lengthRatios, LH:616-631 *)
Definition length_ratios (l : list P) : result (list R) :=
  match l with
  | [] | [_] => Ok []
  | [_; _] => Ok [1]
  | _ => if Req_EM_T (range_length l) 0 then NotANumber else Ok (pair_ratios (range_length l) l)
  end.
(** The loop of accumulatedLengthRatios, LH:636: each ratio is increased by the one in front of it. *)
Fixpoint add_previous (previous : R) (l : list R) : list R :=
  match l with
  | [] => []
  | x :: r => x + previous :: add_previous (x + previous) r
  end.
Definition accumulate (l : list R) : list R := match l with [] => [] | x :: r => x :: add_previous x r end.
(** accumulatedLengthRatios, LH:633-638 *)
Definition accumulated_ratios (l : list P) : result (list R) :=
  match length_ratios l with Ok r => Ok (accumulate r) | NotANumber => NotANumber | Undefined => Undefined | Thrown => Thrown end.

(** interpolatedPointAtDistance, LH:640-664. An empty line string is excluded by an assertion only. *)
Fixpoint interpolate_loop (l : list P) (total d : R) : result P :=
  match l with
  | [] => Undefined
  | a :: r =>
      match r with
      | [] => Ok a
      | b :: _ =>
          let current := dist a b in
          let total := total + current in
          if Rle_dec d total then
            let remaining := d - (total - current) in
            if Rlt_dec remaining (/ 100000000) then Ok a else Ok (move a b (remaining / current))
          else interpolate_loop r total d
      end
  end.
Definition interpolated_point (l : list P) (d : R) : result P :=
  if Rlt_dec d 0 then interpolate_loop (rev l) 0 (- d) else interpolate_loop l 0 d.

(** nearestPointAtDistance, LH:666-690 *)
Fixpoint nearest_loop (l : list P) (total d : R) : result P :=
  match l with
  | [] => Undefined
  | a :: r =>
      match r with
      | [] => Ok a
      | b :: _ =>
          let current := dist a b in
          let total := total + current in
          if Rle_dec d total then
            let remaining := d - (total - current) in
            if Rlt_dec (current / 2) remaining then Ok b else Ok a
          else nearest_loop r total d
      end
  end.
Definition nearest_vertex (l : list P) (d : R) : result P :=
  if Rlt_dec d 0 then nearest_loop (rev l) 0 (- d) else nearest_loop l 0 d.
End Along.

(** * Arc coordinates, in the plane *)
Notation point := (R * R)%type.
Definition psub (p q : point) : point := (fst p - fst q, snd p - snd q).
Definition padd (p q : point) : point := (fst p + fst q, snd p + snd q).
Definition pscale (k : R) (p : point) : point := (k * fst p, k * snd p).
Definition pdot (p q : point) : R := fst p * fst q + snd p * snd q.
Definition norm (p : point) : R := sqrt (pdot p p).
Definition distance (p q : point) : R := norm (psub p q).
Definition on_way (p q : point) (t : R) : point := padd p (pscale t (psub q p)).
Definition point_dec (p q : point) : {p = q} + {p <> q}.
Proof. destruct p as [a b], q as [c d]. destruct (Req_EM_T a c), (Req_EM_T b d); subst; (left; reflexivity) || (right; congruence). Defined.

(** projectedPoint of a point to a segment, LineStringGeometry.cpp:104-120 *)
Definition project_to (l1 l2 p : point) : point :=
  let v := psub l2 l1 in
  let w := psub p l1 in
  if Rle_dec (pdot w v) 0 then l1
  else if Rle_dec (pdot v v) (pdot w v) then l2
  else padd (pscale (pdot w v / pdot v v) v) l1.
(** pointIsLeftOf, LH:51-54 *)
Definition left_of_line (a b p : point) : bool :=
  if Rlt_dec 0 (fst (psub b a) * snd (psub p a) - snd (psub b a) * fst (psub p a)) then true else false.
(** isLeftOf, LH:77-95 (as in SideModel.v) *)
Fixpoint find_from (ls : list point) (p : point) : list point :=
  match ls with
  | [] => []
  | x :: r => if point_dec x p then ls else find_from r p
  end.
Definition left_of (ls : list point) (p a b x : point) : result bool :=
  let l := left_of_line a b p in
  if point_dec b x then
    match find_from ls b with
    | [] => Undefined
    | [_] => Ok l
    | _ :: c :: _ => if negb (eqb l (left_of_line b c p)) && eqb l (left_of_line a b c) then Ok (negb l) else Ok l
    end
  else Ok l.

(** closestSegment without tree, LineStringGeometry.cpp:175-193 (update) and 263-269 *)
Fixpoint scan_segments (ls : list point) (p : point) (best : (point * point) * R) : point * point :=
  match ls with
  | a :: (b :: _) as r =>
      let d := distance (project_to a b p) p in
      scan_segments r p (if Rlt_dec d (snd best) then ((a, b), d) else best)
  | _ => fst best
  end.
Definition closest_scan (ls : list point) (p : point) : point * point :=
  match ls with
  | a :: (b :: _) as r => scan_segments r p ((a, b), distance (project_to a b p) p)
  | a :: _ => (a, a)
  | [] => ((0, 0), (0, 0))
  end.
(** The lambda accumulateLength in toArcCoordinates, LH:730-737: the length up to the first point equal to [a] *)
Fixpoint length_until (ls : list point) (a : point) : R :=
  match ls with
  | x :: (y :: _) as r => if point_dec x a then 0 else distance x y + length_until r a
  | _ => 0
  end.
(** toArcCoordinates, LH:723-740. [closest] is closestSegment. *)
Definition to_arc (closest : list point -> point -> point * point) (ls : list point) (p : point) : result (R * R) :=
  let (a, b) := closest ls p in
  let x := project_to a b p in
  match left_of ls p a b x with
  | Ok l => Ok (length_until ls a + distance a x, if l then distance x p else - distance x p)
  | Undefined => Undefined
  | Thrown => Thrown
  | NotANumber => NotANumber
  end.

(** fromArcCoords, LH:139-160. Eigen's normalized() leaves the zero vector as it is. *)
Definition shift_left (a b x : point) (d : R) : point :=
  let dx := fst b - fst a in
  let dy := snd b - snd a in
  let n := sqrt (dx * dx + dy * dy) in
  if Req_EM_T n 0 then x else padd x (pscale d (pscale (/ n) (- dy, dx))).
(** The loop of fromArcCoordinates, LH:841-847: the index of the first ratio beyond the length *)
Fixpoint find_ratio (rs : list R) (total d : R) : option nat :=
  match rs with
  | [] => None
  | r :: rest => if Rlt_dec d (r * total) then Some O else option_map S (find_ratio rest total d)
  end.
(** fromArcCoordinates, LH:831-854 *)
Definition from_arc (ls : list point) (len d : R) : result point :=
  if (length ls <? 2)%nat then Thrown
  else
    let start := match (match accumulated_ratios distance ls with Ok rs => find_ratio rs (range_length distance ls) len | _ => None end) with
                 | Some i => i
                 | None => (length ls - 2)%nat
                 end in
    match nth_error ls start, nth_error ls (S start), interpolated_point distance on_way ls len with
    | Some a, Some b, Ok x => Ok (shift_left a b x d)
    | _, _, _ => Undefined
    end.

(** lateralShiftPointAtIndex, LH:254-266. Negative indices count from the back. *)
Definition lateral_shift (ls : list point) (idx : Z) (d : R) : result point :=
  let n := Z.of_nat (length ls) in
  if (n <? Z.abs idx + 1)%Z then Thrown
  else
    let i := if (0 <=? idx)%Z then idx else (n + idx)%Z in
    let first := Z.max 0 (i - 1) in
    let last := Z.min (i + 1) (n - 1) in
    if (first =? last)%Z then Thrown
    else
      match nth_error ls (Z.to_nat first), nth_error ls (Z.to_nat last), nth_error ls (Z.to_nat i) with
      | Some a, Some b, Some x => Ok (shift_left a b x d)
      | _, _, _ => Undefined
      end.
