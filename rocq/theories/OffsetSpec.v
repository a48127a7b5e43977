(** Line strings beside a line string, and walks along segments without crossings. *)
From Coq Require Import List Bool Arith Reals Sorted.
From Verif Require Import ArcSpec.
Import ListNotations.
Local Open Scope R_scope.

Notation segment := (point * point)%type.
Definition on_segment (s : segment) (x : point) : Prop := exists t, 0 <= t <= 1 /\ x = between (fst s) (snd s) t.
Definition inside (s : segment) (x : point) : Prop := on_segment s x /\ x <> fst s /\ x <> snd s.
(** The segments of a line string *)
Definition pairs (l : list point) : list segment := combine l (tl l).
Definition on_line (l : list point) (x : point) : Prop := exists s, In s (pairs l) /\ on_segment s x.
Definition touch (s o : segment) : Prop := exists p, on_segment s p /\ on_segment o p.

(** What the library must provide: a search for the segments that have a point in common with a segment, such points, and a search for
    the nearest segment. *)
Definition query_ok (query : list (segment * nat) -> segment -> list (segment * nat)) : Prop :=
  forall tree s x, In x (query tree s) <-> In x tree /\ touch s (fst x).
Definition meet_ok (meet : segment -> segment -> list point) : Prop :=
  forall s o, touch s o -> meet s o <> [] /\ forall p, In p (meet s o) -> on_segment s p /\ on_segment o p.
Definition nearest_ok (nearest : list segment -> point -> segment) : Prop :=
  forall l p, l <> [] -> In (nearest l p) l /\
  exists x, on_segment (nearest l p) x /\ forall s y, In s l -> on_segment s y -> euclid x p <= euclid y p.

(** * Walks *)

(** [u] is a part of [s] in the same direction. *)
Definition part_of (s u : segment) : Prop :=
  exists t t', 0 <= t <= t' /\ t' <= 1 /\ fst u = between (fst s) (snd s) t /\ snd u = between (fst s) (snd s) t'.
(** The segments of [r] are parts of segments of a list, each of a later one than the one before. *)
Definition walks_forward (segments : list segment) (r : list point) : Prop :=
  exists ks, StronglySorted lt ks /\ Forall2 (fun k u => exists s, nth_error segments k = Some s /\ part_of s u) ks (pairs r).
Definition no_crossing (r : list point) : Prop :=
  forall m n u v x, (m < n)%nat -> nth_error (pairs r) m = Some u -> nth_error (pairs r) n = Some v -> inside u x -> ~ on_segment v x.
(** Two segments have at most one point in common. *)
Definition single_crossings (segments : list segment) : Prop :=
  forall i j s o p q, (i < j)%nat -> nth_error segments i = Some s -> nth_error segments j = Some o ->
  on_segment s p -> on_segment o p -> on_segment s q -> on_segment o q -> p = q.

(** A segment of a part touches later segments only where it ends in the next segment of the part, and in the first segments of later
    parts. *)
Definition tidy (parts : list (list point)) : Prop :=
  forall i j i' j' p p' s s', (i < i' \/ i = i' /\ j < j')%nat -> nth_error parts i = Some p -> nth_error parts i' = Some p' ->
  nth_error (pairs p) j = Some s -> nth_error (pairs p') j' = Some s' -> touch s s' ->
  (i < i' /\ j' = 0 \/ i = i' /\ j' = S j)%nat.

(** Every part but the last one has a point in common with a later one, behind all points it has in common with earlier ones. *)
Definition linked (parts : list (list point)) : Prop :=
  forall i p, nth_error parts i = Some p -> (S i < length parts)%nat ->
  exists j s i' p' s' x, nth_error (pairs p) j = Some s /\ (i < i')%nat /\ nth_error parts i' = Some p' /\ nth_error (pairs p') 0 = Some s' /\
    on_segment s x /\ on_segment s' x /\ x <> fst s /\ fst s' <> snd s /\ snd s' <> fst s /\ fst s' <> fst s /\
    (j = 0%nat -> forall i0 p0 o y, (i0 < i)%nat -> nth_error parts i0 = Some p0 -> In o (pairs p0) -> on_segment o y -> on_segment s y ->
      euclid (fst s) y < euclid (fst s) x).

(** * Distances *)

Definition step (s : segment) : point := (fst (snd s) - fst (fst s), snd (snd s) - snd (fst s)).
Definition cross (v w : point) : R := fst v * snd w - snd v * fst w.
Definition dot (v w : point) : R := fst v * fst w + snd v * snd w.
(** All points of [s] are at least [r] away. *)
Definition away (s : segment) (r : R) (x : point) : Prop := forall y, on_segment s y -> r <= euclid x y.
Definition near (s : segment) (r : R) (x : point) : Prop := exists y, on_segment s y /\ euclid x y <= r.
(** [u] runs beside all of [s], at the distance [d], on the left if [d] is positive. *)
Definition alongside (d : R) (s u : segment) : Prop :=
  cross (step s) (step (fst s, fst u)) = d * euclid (fst s) (snd s) /\
  cross (step s) (step (fst s, snd u)) = d * euclid (fst s) (snd s) /\
  dot (step s) (step (fst s, fst u)) <= 0 /\ 0 <= dot (step s) (step (snd s, snd u)) /\
  euclid (fst u) (fst s) <= sqrt 2 * Rabs d /\ euclid (snd u) (snd s) <= sqrt 2 * Rabs d.
(** [c] runs around the corner where [s] ends and [s'] starts. *)
Definition around (d : R) (s s' c : segment) : Prop :=
  forall x, on_segment c x -> away s (Rabs d) x /\ away s' (Rabs d) x /\ euclid x (snd s) <= sqrt 2 * Rabs d.
(** The segments of a line string beside a line string: one beside every segment, and perhaps one around a corner. *)
Inductive moved (d : R) : list segment -> list segment -> Prop :=
| moved_last s u : alongside d s u -> moved d [s] [u]
| moved_corner s s' r u u' r' : alongside d s u -> snd u = fst u' -> moved d (s' :: r) (u' :: r') -> moved d (s :: s' :: r) (u :: u' :: r')
| moved_around s s' r u c u' r' : alongside d s u -> snd u = fst c -> around d s s' c -> snd c = fst u' ->
    moved d (s' :: r) (u' :: r') -> moved d (s :: s' :: r) (u :: c :: u' :: r').
(** The line string turns away from the side of [d]: to the right for a line string on the left of it. *)
Definition turns_away (d : R) (s s' : segment) : Prop :=
  0 < d /\ cross (step s) (step s') <= 0 \/ d < 0 /\ 0 < cross (step s) (step s') /\ 0 <= dot (step s) (step s').
Definition no_doubled (l : list point) : Prop := forall s, In s (pairs l) -> fst s <> snd s.
