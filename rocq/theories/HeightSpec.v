(** When two lines in space meet up to a tolerance in height. *)
From Coq Require Import List QArith Qabs.
From Verif Require Import ClosestModel ClosestSpec.
Import ListNotations.
Local Open Scope Q_scope.

Definition height (p : p3) : Q := snd p.
(** [p] is above or below the place [q] of the plane. *)
Definition over (p : p3) (q : p2) : Prop := fst (fst p) == fst q /\ snd (fst p) == snd q.

(** A place where the lines cross if seen from above, and points of them there. *)
Definition crossing (l1 l2 : list p3) (p1 p2 : p3) : Prop :=
  on_line (V := solid) l1 p1 /\ on_line (V := solid) l2 p2 /\ over p1 (fst p2).
(** They meet within a tolerance: at a crossing the heights differ by less. *)
Definition meet_within (tolerance : Q) (l1 l2 : list p3) : Prop :=
  exists p1 p2, crossing l1 l2 p1 p2 /\ Qabs (height p1 - height p2) < tolerance.
(** A line at one height *)
Definition level (h : Q) (l : list p3) : Prop := Forall (fun p => height p == h) l.

(** What an intersection in the plane promises: the points are common points, and there is one if the lines have one. *)
Definition cross_ok (cross : list p2 -> list p2 -> list p2) (l1 l2 : list p3) : Prop :=
  (forall q, In q (cross (map fst l1) (map fst l2)) -> exists p1 p2, crossing l1 l2 p1 p2 /\ over p1 q) /\
  ((exists p1 p2, crossing l1 l2 p1 p2) -> cross (map fst l1) (map fst l2) <> []).
(** Raised by a height. *)
Definition raised (h : Q) (l : list p3) : list p3 := map (fun p => (fst p, snd p + h)) l.
