(** Positions along a line string. *)
From Coq Require Import List Bool Arith Reals.
Import ListNotations.
Local Open Scope R_scope.

Section Along.
Context {P : Type} (dist : P -> P -> R) (move : P -> P -> R -> P).

(** The sum of the distances of consecutive points *)
Definition way_length (l : list P) : R := fold_right Rplus 0 (map (fun ab => dist (fst ab) (snd ab)) (combine l (tl l))).
(** [x] lies on the line string at the distance [s] along it from the first point. *)
Definition at_length (l : list P) (s : R) (x : P) : Prop :=
  exists l1 a b l2 t, l = l1 ++ a :: b :: l2 /\ 0 <= t <= 1 /\ x = move a b t /\ s = way_length (l1 ++ [a]) + t * dist a b.
(** [v] is a point of the list at the distance [s] along it. *)
Definition vertex_at (l : list P) (s : R) (v : P) : Prop := exists l1 l2, l = l1 ++ v :: l2 /\ s = way_length (l1 ++ [v]).
(** Distances beyond the end mean the end; negative distances are measured from the end, beyond the start they mean the start. *)
Definition wanted (l : list P) (d : R) : R :=
  if Rlt_dec d 0 then Rmax 0 (way_length l + d) else Rmin (way_length l) d.
(** Distances as of points in a space *)
Record metric_ok : Prop := {
  dist_pos : forall a b, 0 <= dist a b;
  dist_sym : forall a b, dist a b = dist b a;
  move_0 : forall a b, move a b 0 = a;
  move_1 : forall a b, move a b 1 = b;
  move_rev : forall a b t, move a b t = move b a (1 - t) }.
End Along.

(** * In the plane *)
Notation point := (R * R)%type.
Definition euclid (p q : point) : R := sqrt ((fst q - fst p) * (fst q - fst p) + (snd q - snd p) * (snd q - snd p)).
Definition between (p q : point) (t : R) : point := ((1 - t) * fst p + t * fst q, (1 - t) * snd p + t * snd q).
Definition nearest_foot (ls : list point) (p x : point) : Prop :=
  (exists s, at_length euclid between ls s x) /\ forall s y, at_length euclid between ls s y -> euclid x p <= euclid y p.
(** What a search for the closest segment must provide *)
Definition closest_ok (closest : list point -> point -> point * point) : Prop :=
  forall ls p, (2 <= length ls)%nat ->
  exists a b l1 l2 t, closest ls p = (a, b) /\ ls = l1 ++ a :: b :: l2 /\ 0 <= t <= 1 /\ nearest_foot ls p (between a b t).
(** [q] lies beside [x] at the distance [d], at a right angle to the direction from [a] to [b]; on the left if [d] is positive. *)
Definition beside (a b x : point) (d : R) (q : point) : Prop :=
  (fst b - fst a) * (fst q - fst x) + (snd b - snd a) * (snd q - snd x) = 0 /\
  (fst b - fst a) * (snd q - snd x) - (snd b - snd a) * (fst q - fst x) = d * euclid a b.
(** No nearest point is a corner, or very close behind one. *)
Definition feet_inside (ls : list point) (p : point) : Prop :=
  forall l1 a b l2 t, ls = l1 ++ a :: b :: l2 -> 0 <= t <= 1 -> nearest_foot ls p (between a b t) -> / 100000000 <= t * euclid a b /\ t < 1.
