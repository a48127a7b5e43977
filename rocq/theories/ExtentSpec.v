(** Vocabulary for extents: boxes as sets of points, surfaces of polygons. *)
From Coq Require Import List Bool Arith Reals.
From Verif Require Import PathModel PathSpec ArcSpec ExtentModel.
Import ListNotations.
Local Open Scope R_scope.

Definition in_range (r : range) (x : R) : Prop := fst r <= x <= snd r.
Definition in_box (b : box) (p : point) : Prop := in_range (fst b) (fst p) /\ in_range (snd b) (snd p).
Definition in_box3 (b : box3) (p : point3) : Prop := in_box (fst b) (fst p) /\ in_range (snd b) (snd p).

(** A range encloses numbers, and two of them are its ends. A box encloses points, each side with one of them on it. *)
Definition tight_range (r : range) (xs : list R) : Prop := (forall x, In x xs -> in_range r x) /\ In (fst r) xs /\ In (snd r) xs.
Definition tight (b : box) (ps : list point) : Prop := tight_range (fst b) (map fst ps) /\ tight_range (snd b) (map snd ps).
Definition tight3 (b : box3) (ps : list point3) : Prop := tight (fst b) (map fst ps) /\ tight_range (snd b) (map snd ps).
(** Coordinates are within the numbers. *)
Definition bounded (big : R) (ps : list point) : Prop := forall p, In p ps -> - big <= fst p <= big /\ - big <= snd p <= big.
Definition bounded3 (big : R) (ps : list point3) : Prop := bounded big (map fst ps) /\ forall p, In p ps -> - big <= snd p <= big.

(** The points of a parameter; expired ones have none. *)
Definition points_of (x : parameter) : list point3 :=
  match x with
  | PPoint p => [p]
  | PLine l | PPolygon l | PArea l => l
  | PLane l r => l ++ r
  | Expired => []
  end.
Definition rule_points (roles : list (list parameter)) : list point3 := concat (map points_of (concat roles)).

(** A box without points, and the distance of a point from a box and of two boxes as that of the nearest points *)
Definition void (b : box) : Prop := forall p, ~ in_box b p.
Definition least (P : R -> Prop) (d : R) : Prop := P d /\ forall e, P e -> d <= e.

(** A metric *)
Record triangular {P} (dist : P -> P -> R) : Prop := {
  tri_zero : forall a, dist a a = 0;
  tri_pos : forall a b, 0 <= dist a b;
  tri_ineq : forall a b c, dist a c <= dist a b + dist b c }.

(** The inside of a polygon: a ray to the right crosses an odd number of edges. Edges are those between successive points and that
    from the last to the first. *)
Definition above (p a : point) : bool := if Rlt_dec (snd p) (snd a) then true else false.
Definition crosses (p a b : point) : bool :=
  if Bool.eqb (above p a) (above p b) then false
  else if Rlt_dec (fst p) (fst a + (snd p - snd a) / (snd b - snd a) * (fst b - fst a)) then true else false.
Definition edges (l : list point) : list (point * point) := combine l (tl l ++ firstn 1 l).
Definition inside (l : list point) (p : point) : Prop := fold_right xorb false (map (fun e => crosses p (fst e) (snd e)) (edges l)) = true.
(** Two polygons have a surface in common: all points of some box with a surface are inside of both. *)
Definition common_surface (k l : list point) : Prop :=
  exists b : box, fst (fst b) < snd (fst b) /\ fst (snd b) < snd (snd b) /\ forall p, in_box b p -> inside k p /\ inside l p.

(** Lanelets side by side, in either direction, or one after the other, in either direction *)
Definition other_way (l : lanelet) : lanelet := Lanelet (turned (right_bound l)) (turned (left_bound l)).
Definition next_to (data : nat -> list nat) (l m : lanelet) : Prop :=
  right_bound l = left_bound m \/ left_bound l = right_bound m \/ turned (left_bound l) = left_bound m \/ turned (right_bound l) = right_bound m
  \/ in_succession data l m \/ in_succession data m l \/ in_succession data (other_way l) m \/ in_succession data (other_way m) l.
(** The points of the bounds are within the numbers. *)
Definition placed (data : nat -> list nat) (xy : nat -> point) (big : R) (l : lanelet) : Prop :=
  bounded big (map xy (seen data (left_bound l) ++ seen data (right_bound l))).
(** The surface of a lanelet: along the left bound and back along the right one *)
Definition surface (data : nat -> list nat) (xy : nat -> point) (l : lanelet) : list point :=
  map xy (seen data (left_bound l) ++ rev (seen data (right_bound l))).
