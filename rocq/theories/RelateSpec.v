(** Vocabulary for the relations of lanelets and areas. *)
From Coq Require Import List Bool Arith.
From Verif Require Import PathModel PathSpec.
Import ListNotations.

(** The edges of a polygon, closed by the one from the last point to the first *)
Definition edge (l : list nat) (a b : nat) : Prop :=
  (exists l1 l2, l = l1 ++ a :: b :: l2) \/ (exists m, l = b :: m ++ [a]).
(** Two polygons share an edge, which they pass in opposite directions. *)
Definition share_edge (l1 l2 : list nat) : Prop := exists a b, a <> b /\ edge l1 a b /\ edge l2 b a.
(** No point is passed twice, unless the last point is the first one again. *)
Definition simple (l : list nat) : Prop := NoDup l \/ exists a m, l = a :: m ++ [a] /\ NoDup (a :: m).

(** The first element of a list with a property, if there is one *)
Definition first_with {A} (P : A -> Prop) (l : list A) (r : option A) : Prop :=
  match r with
  | Some x => P x /\ exists l1 l2, l = l1 ++ x :: l2 /\ forall y, In y l1 -> ~ P y
  | None => forall y, In y l -> ~ P y
  end.

Section spec.
Variable data : nat -> list nat.
(** A line string runs from [a] to [b]. *)
Definition runs (l : line) (a b : nat) : Prop := from_to (seen data l) a b.
Definition ends_with (l : line) (a : nat) : Prop := exists r, seen data l = r ++ [a].
Definition starts_with (l : line) (a : nat) : Prop := exists r, seen data l = a :: r.
(** A line string in the outer bound of an area closes the front of a lanelet: clockwise around the area it runs from the right to
    the left bound. It closes the rear if it runs from the left to the right bound there. *)
Definition closes_front (l : lanelet) (b : line) : Prop :=
  exists p q, ends_with (left_bound l) p /\ ends_with (right_bound l) q /\ runs b q p.
Definition closes_rear (l : lanelet) (b : line) : Prop :=
  exists p q, starts_with (left_bound l) p /\ starts_with (right_bound l) q /\ runs b p q.
(** It is a bound of the lanelet; clockwise around an area on the left the bound is turned. *)
Definition along_left (l : lanelet) (b : line) : Prop := b = turned (left_bound l).
Definition along_right (l : lanelet) (b : line) : Prop := b = right_bound l.
(** It borders the lanelet in one of these ways. *)
Definition borders (l : lanelet) (b : line) : Prop := closes_front l b \/ closes_rear l b \/ along_left l b \/ along_right l b.

Definition drawn (l : line) : Prop := seen data l <> [].
Definition all_drawn (ls : list line) : Prop := forall b, In b ls -> drawn b.
Definition lane_drawn (l : lanelet) : Prop := drawn (left_bound l) /\ drawn (right_bound l).
End spec.
(** The same lanelet in the other direction *)
Definition opposite_lane (l m : lanelet) : Prop := left_bound m = turned (right_bound l) /\ right_bound m = turned (left_bound l).
