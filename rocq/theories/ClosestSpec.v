(** What a nearest point of a line string is, independently of how it is found. *)
From Coq Require Import List Bool Arith QArith Sorting.Sorted Sorting.Permutation.
From Verif Require Import ClosestModel.
Import ListNotations.
Local Open Scope Q_scope.

Section Spec.
Context {V : space}.
(** The square of the length of the vector from [q] to [p]. *)
Definition sq (p q : V) : Q := dot (vsub p q) (vsub p q).
(** The point of the segment at parameter [t]. *)
Definition at_param (a b : V) (t : Q) : V := vadd a (vscale t (vsub b a)).
Definition on_segment (a b x : V) : Prop := exists t, 0 <= t /\ t <= 1 /\ sq x (at_param a b t) == 0.
(** A single point is a line string as well. *)
Definition on_line (l : list V) (x : V) : Prop :=
  (exists a, l = [a] /\ sq x a == 0) \/ exists l1 a b l2, l = l1 ++ a :: b :: l2 /\ on_segment a b x.
(** The border of a polygon: a closed chain. *)
Definition on_ring (l : list V) (x : V) : Prop :=
  on_line l x \/ exists a m z, l = a :: m ++ [z] /\ on_segment z a x.
Definition nearest_on (l : list V) (p x : V) : Prop :=
  on_line l x /\ forall y, on_line l y -> sq x p <= sq y p.
Definition closest_pair (on1 on2 : V -> Prop) (x y : V) : Prop :=
  on1 x /\ on2 y /\ forall x' y', on1 x' -> on2 y' -> sq x y <= sq x' y'.
(** One point, or not all points equal. *)
Definition proper (l : list V) : Prop := length l = 1%nat \/ exists a b, In a l /\ In b l /\ ~ sq a b == 0.

(** What an R-tree promises: every segment once, by rising distance of the boxes, and a box contains its segment. *)
Definition query_ok {A : Type} (tree : list (V * V) -> A -> list (Q * (V * V))) (bound : Q -> V * V -> A -> Prop) : Prop :=
  forall l q, Permutation (map snd (tree l q)) l /\
    StronglySorted (fun x y => fst x <= fst y) (tree l q) /\
    forall d s, In (d, s) (tree l q) -> bound d s q.
Definition bound_point (d : Q) (s : V * V) (p : V) : Prop := forall x, on_segment (fst s) (snd s) x -> d <= sq x p.
Definition bound_segment (d : Q) (s r : V * V) : Prop :=
  forall x y, on_segment (fst s) (snd s) x -> on_segment (fst r) (snd r) y -> d <= sq y x.
End Spec.

(** The coordinates are multiples of [h]. *)
Definition multiple (h x : Q) : Prop := exists z : Z, x == inject_Z z * h.
Definition on_grid2 (h : Q) (p : p2) : Prop := multiple h (fst p) /\ multiple h (snd p).
Definition on_grid3 (h : Q) (p : p3) : Prop := multiple h (fst (fst p)) /\ multiple h (snd (fst p)) /\ multiple h (snd p).

(** The laws of vectors, which hold in the plane and in space. *)
Record lawful (V : space) : Prop := Lawful {
  dot_comm : forall x y : V, dot x y == dot y x;
  dot_add : forall x y z : V, dot (vadd x y) z == dot x z + dot y z;
  dot_sub : forall x y z : V, dot (vsub x y) z == dot x z - dot y z;
  dot_scale : forall k (x z : V), dot (vscale k x) z == k * dot x z;
  dot_pos : forall x : V, 0 <= dot x x }.
