(** Partitions of polygons, by indices of the points. *)
From Coq Require Import List Bool Arith Sorted Permutation.
Import ListNotations.

(** The directed edges of a closed polygon *)
Definition edges (l : list nat) : list (nat * nat) := combine l (tl l ++ firstn 1 l).
Definition turned (e : nat * nat) : nat * nat := (snd e, fst e).
(** The edges of the outer polygon with the points 0 .. n-1, in either direction *)
Definition outer (n : nat) (e : nat * nat) : Prop := In e (edges (seq 0 n)) \/ In (turned e) (edges (seq 0 n)).
(** A polygon that visits points of the outer polygon in their order *)
Definition inside (n : nat) (l : list nat) : Prop :=
  3 <= length l /\ (forall x, In x l -> x < n) /\ exists l1 l2, l = l1 ++ l2 /\ StronglySorted lt (l2 ++ l1).
(** The polygons that can be reached from the inner side of the first edge without crossing the outer polygon *)
Inductive reached (cells : list (list nat)) (n : nat) : nat -> Prop :=
| reached_first i c : nth_error cells i = Some c -> In (0, 1) (edges c) -> reached cells n i
| reached_next i c e j d : reached cells n i -> nth_error cells i = Some c -> In e (edges c) -> ~ outer n e ->
    nth_error cells j = Some d -> In (turned e) (edges d) -> reached cells n j.
(** A division of the plane whose edges contain those of the outer polygon *)
Record divided (cells : list (list nat)) (n : nat) : Prop := {
  first_edge : exists i c, nth_error cells i = Some c /\ In (0, 1) (edges c);
  cells_inside : forall i c, reached cells n i -> nth_error cells i = Some c -> inside n c;
  cells_adjacent : forall i c e, reached cells n i -> nth_error cells i = Some c -> In e (edges c) -> ~ outer n e ->
                     exists j d, nth_error cells j = Some d /\ In (turned e) (edges d);
  edges_once : forall i c j d e, nth_error cells i = Some c -> nth_error cells j = Some d -> In e (edges c) -> In e (edges d) -> i = j }.
(** The polygons together have the border [border]: all other edges occur in both directions. *)
Definition fill (polys : list (list nat)) (border : list (nat * nat)) : Prop :=
  exists inner, Permutation (flat_map edges polys) (border ++ inner ++ map turned inner).
(** All turns of a polygon satisfy [convex]. *)
Definition turns (convex : nat * nat -> nat * nat -> bool) (l : list nat) : Prop :=
  forall a b c, In (a, b) (edges l) -> In (b, c) (edges l) -> convex (a, b) (b, c) = true.

(** * Points with integral coordinates *)
From Coq Require Import ZArith.
Local Open Scope Z_scope.
Definition at_point (pts : list (Z * Z)) (i : nat) : Z * Z := nth i pts (0, 0).
(** Positive if [r] is left of the line from [p] to [q] *)
Definition side (p q r : Z * Z) : Z := (fst q - fst p) * (snd r - snd p) - (snd q - snd p) * (fst r - fst p).
(** Twice the signed area of a polygon, from its edges; positive if counterclockwise *)
Definition sum_edges (f : nat * nat -> Z) (es : list (nat * nat)) : Z := fold_right (fun e s => f e + s) 0 es.
Definition area (pts : list (Z * Z)) (l : list nat) : Z :=
  sum_edges (fun e => fst (at_point pts (fst e)) * snd (at_point pts (snd e)) - snd (at_point pts (fst e)) * fst (at_point pts (snd e))) (edges l).
(** Twice the area of a triangle *)
Definition triangle_area (pts : list (Z * Z)) (t : nat * nat * nat) : Z := let '(a, b, c) := t in side (at_point pts a) (at_point pts b) (at_point pts c).
(** The second of two directed segments does not turn to the left. *)
Definition right_turn (pts : list (Z * Z)) (s t : nat * nat) : bool :=
  let d1 := (fst (at_point pts (snd s)) - fst (at_point pts (fst s)), snd (at_point pts (snd s)) - snd (at_point pts (fst s))) in
  let d2 := (fst (at_point pts (snd t)) - fst (at_point pts (fst t)), snd (at_point pts (snd t)) - snd (at_point pts (fst t))) in
  fst d1 * snd d2 - snd d1 * fst d2 <=? 0.
(** Positive if [d] is outside of the circle through the clockwise triangle [a], [b], [c] *)
Definition outside_circle (a b c d : Z * Z) : Z :=
  let row (p : Z * Z) := (fst p - fst d, snd p - snd d, (fst p - fst d) * (fst p - fst d) + (snd p - snd d) * (snd p - snd d)) in
  let '(a1, a2, a3) := row a in let '(b1, b2, b3) := row b in let '(c1, c2, c3) := row c in
  a1 * (b2 * c3 - b3 * c2) - a2 * (b1 * c3 - b3 * c1) + a3 * (b1 * c2 - b2 * c1).
(** The clockwise triangles, smallest index first, whose circle has all other points strictly outside *)
Definition delaunay (pts : list (Z * Z)) : list (list nat) :=
  let ids := seq 0 (length pts) in
  flat_map (fun a => flat_map (fun b => flat_map (fun c =>
    if ((a <? b) && (a <? c))%nat && (side (at_point pts a) (at_point pts b) (at_point pts c) <? 0) &&
       forallb (fun d => ((d =? a) || (d =? b) || (d =? c))%nat || (0 <? outside_circle (at_point pts a) (at_point pts b) (at_point pts c) (at_point pts d))) ids
    then [[a; b; c]] else []) ids) ids) ids.
(** No four points are on a circle. *)
Definition general_position (pts : list (Z * Z)) : bool :=
  let ids := seq 0 (length pts) in
  forallb (fun a => forallb (fun b => forallb (fun c => forallb (fun d =>
    negb (((a <? b) && (b <? c) && (c <? d))%nat) || negb (outside_circle (at_point pts a) (at_point pts b) (at_point pts c) (at_point pts d) =? 0)) ids) ids) ids) ids.
(** No two edges without a common point intersect; the points next to each other are not on a line. *)
Definition disjoint_edges (pts : list (Z * Z)) (e f : nat * nat) : bool :=
  let p := at_point pts in
  let s1 := side (p (fst e)) (p (snd e)) (p (fst f)) in let s2 := side (p (fst e)) (p (snd e)) (p (snd f)) in
  let s3 := side (p (fst f)) (p (snd f)) (p (fst e)) in let s4 := side (p (fst f)) (p (snd f)) (p (snd e)) in
  (0 <? s1 * s2) || (0 <? s3 * s4).
Definition simple (pts : list (Z * Z)) : bool :=
  let es := edges (seq 0 (length pts)) in
  forallb (fun e => forallb (fun f =>
    if ((fst e =? fst f) || (fst e =? snd f) || (snd e =? fst f) || (snd e =? snd f))%nat
    then negb ((snd e =? fst f)%nat && (side (at_point pts (fst e)) (at_point pts (snd e)) (at_point pts (snd f)) =? 0))
    else disjoint_edges pts e f) es) es.
(** All points in clockwise order *)
Definition clockwise (pts : list (Z * Z)) : bool := area pts (seq 0 (length pts)) <? 0.
