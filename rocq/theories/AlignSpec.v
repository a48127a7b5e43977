(** When two line strings are the left and the right bound of a lane. *)
From Coq Require Import List Bool Arith QArith.
From Verif Require Import ClosestModel ClosestSpec SideSpec.
Import ListNotations.
Local Open Scope Q_scope.

(** A point in the middle: of two points the point halfway, else a point with as many points before as behind it, or one more. *)
Definition in_middle (ls : list plane) (m : plane) : Prop :=
  (exists a b, (ls = [a; b] \/ ls = [a] /\ b = a) /\ fst m * 2 == fst a + fst b /\ snd m * 2 == snd a + snd b) \/
  (3 <= length ls)%nat /\ exists l1 l2, ls = l1 ++ m :: l2 /\
    (length l1 = length l2 \/ length l1 = S (length l2) \/ S (length l1) = length l2).
(** Seen from all nearest points, [p] is on the left of the line string; on the right if it is on the left of the reversed one. *)
Definition left_of (ls : list plane) (p : plane) : Prop := forall x pl, nearest_on ls p x -> place_of ls x pl -> left_at pl p.
Definition right_of (ls : list plane) (p : plane) : Prop := left_of (rev ls) p.
(** The side of [p] is well defined: the line string is short and regular, or the points nearest to [p] are not at corners. *)
Definition clear (ls : list plane) (p : plane) : Prop :=
  (2 <= length ls)%nat /\ ((length ls < 50)%nat /\ regular ls \/ off_corners ls p).
(** The line strings as bounds of a lane; a single point has no direction. *)
Definition bounds (left right : list plane) : Prop :=
  left <> [] /\ right <> [] /\
  ((2 <= length left)%nat -> forall m, in_middle right m -> clear left m /\ right_of left m) /\
  ((2 <= length right)%nat -> forall m, in_middle left m -> clear right m /\ left_of right m).
Definition either_way (ls ls' : list plane) : Prop := ls' = ls \/ ls' = rev ls.
