(** The side of a line string on which a point lies. *)
From Coq Require Import List Bool Arith QArith.
From Verif Require Import ClosestModel ClosestSpec.
Import ListNotations.
Local Open Scope Q_scope.

(** Twice the oriented area of the triangle a, b, c: positive if c is left of the line from a to b. *)
Definition turn (a b c : plane) : Q := (fst b - fst a) * (snd c - snd b) - (snd b - snd a) * (fst c - fst b).
(** p - b = s (c - b) + t (a - b) *)
Definition combined (a b c p : plane) (s t : Q) : Prop :=
  fst p - fst b == s * (fst c - fst b) + t * (fst a - fst b) /\ snd p - snd b == s * (snd c - snd b) + t * (snd a - snd b).
(** The way leads from [a] over [b] to [c]. If it turns left, the points on its left side near [b] are those inside the angle of the two segments; if it turns right,
    those outside of it. *)
Definition left_of_corner (a b c p : plane) : Prop :=
  (0 < turn a b c /\ exists s t, 0 < s /\ 0 < t /\ combined a b c p s t) \/
  (turn a b c < 0 /\ ~ exists s t, 0 <= s /\ 0 <= t /\ combined a b c p s t) \/
  (turn a b c == 0 /\ 0 < turn a b p).
(** Where a point of a line string lies: inside a segment (or at an open end), or at a corner; and which points are left of the line string there. *)
Inductive place := Inside (a b : plane) | Corner (a b c : plane).
Definition place_of (ls : list plane) (x : plane) (pl : place) : Prop :=
  match pl with
  | Inside a b => exists l1 l2, ls = l1 ++ a :: b :: l2 /\ on_segment a b x /\ (l1 <> [] -> ~ sq x a == 0) /\ (l2 <> [] -> ~ sq x b == 0)
  | Corner a b c => (exists l1 l2, ls = l1 ++ a :: b :: c :: l2) /\ sq x b == 0
  end.
Definition left_at (pl : place) (p : plane) : Prop :=
  match pl with
  | Inside a b => 0 < turn a b p
  | Corner a b c => left_of_corner a b c p
  end.
(** No point is repeated at once and the way does not turn back on itself. *)
Definition regular (ls : list plane) : Prop :=
  (forall l1 a b l2, ls = l1 ++ a :: b :: l2 -> ~ sq a b == 0) /\
  (forall l1 a b c l2, ls = l1 ++ a :: b :: c :: l2 -> ~ (turn a b c == 0 /\ 0 < dot (vsub a b) (vsub c b))).
(** The points nearest to [p] are not at a corner, and the line string is not closed. *)
Definition off_corners (ls : list plane) (p : plane) : Prop :=
  (forall l1 v l2, ls = l1 ++ v :: l2 -> l1 <> [] -> l2 <> [] -> ~ nearest_on ls p v) /\
  (forall v m w, ls = v :: m ++ [w] -> ~ sq v w == 0).
