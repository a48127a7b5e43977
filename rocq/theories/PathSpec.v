(** Outlines of paths of lanelets and areas. *)
From Coq Require Import List Bool Arith Reals.
From Verif Require Import PathModel.
Import ListNotations.
Local Open Scope R_scope.

(** Sums along a way and around a polygon, for functions of the directed edges *)
Fixpoint along (f : nat -> nat -> R) (l : list nat) : R :=
  match l with
  | a :: (b :: _) as r => f a b + along f r
  | _ => 0
  end.
Definition around (f : nat -> nat -> R) (l : list nat) : R := along f (l ++ firstn 1 l).
(** The other direction counts negative. *)
Definition oriented (f : nat -> nat -> R) : Prop := forall a b, f a b = - f b a.
Definition total (l : list R) : R := fold_right Rplus 0 l.

Section spec.
Variable data : nat -> list nat.
(** The points of a line string as it is seen *)
Definition seen (l : line) : list nat := if l_inv l then rev (data (l_data l)) else data (l_data l).
Definition from_to (l : list nat) (a b : nat) : Prop := exists r r', l = a :: r /\ l = r' ++ [b].

(** The outline of a primitive, clockwise *)
Definition outline (p : prim) : list nat :=
  match p with
  | Lane l => seen (left_bound l) ++ rev (seen (right_bound l))
  | Region bs => concat (map seen bs)
  end.

(** Bounds have points; the outer bound of an area has at least two line strings, each from the end
    of the last to the start of the next, the last of them to the start of the first. *)
Fixpoint linked (a : nat) (bs : list line) (b : nat) : Prop :=
  match bs with
  | [] => a = b
  | l :: r => exists m, from_to (seen l) a m /\ linked m r b
  end.
Definition well_formed (p : prim) : Prop :=
  match p with
  | Lane l => seen (left_bound l) <> [] /\ seen (right_bound l) <> []
  | Region bs => (2 <= length bs)%nat /\ exists a, linked a bs a
  end.

(** No two successive points are the same, along a way and around a polygon; the ends of the line strings of
    an area are different. *)
Fixpoint steps (l : list nat) : Prop :=
  match l with
  | a :: (b :: _) as r => a <> b /\ steps r
  | _ => True
  end.
Definition tidy (l : list nat) : Prop := steps (l ++ firstn 1 l).
Definition neat (p : prim) : Prop :=
  match p with
  | Lane l => tidy (outline p)
  | Region bs => forall l a b, In l bs -> from_to (seen l) a b -> a <> b
  end.

(** The ends of a lanelet, clockwise *)
Inductive lane_end (l : lanelet) : list nat -> Prop :=
| end_back r a r' b : seen (left_bound l) = r ++ [a] -> seen (right_bound l) = r' ++ [b] -> lane_end l [a; b]
| end_front a r b r' : seen (left_bound l) = a :: r -> seen (right_bound l) = b :: r' -> lane_end l [b; a].
(** The sides of a primitive, clockwise: bounds and ends of a lanelet, line strings of an area *)
Inductive has_side : prim -> list nat -> Prop :=
| side_left l : has_side (Lane l) (seen (left_bound l))
| side_right l : has_side (Lane l) (rev (seen (right_bound l)))
| side_end l s : lane_end l s -> has_side (Lane l) s
| side_area bs l : In l bs -> has_side (Region bs) (seen l).
(** Two sides with the same ends, in opposite directions *)
Definition opposite (s t : list nat) : Prop := exists a b, from_to s a b /\ from_to t b a.

(** Two primitives are related: lanelets in succession or side by side; a lanelet with a bound in the outer
    bound of an area or an end where a line string of it has its ends; areas with a common line string. *)
Definition turned (l : line) : line := Line (l_data l) (negb (l_inv l)).
Definition in_succession (a b : lanelet) : Prop :=
  exists r1 p s1 r2 q s2, seen (left_bound a) = r1 ++ [p] /\ seen (left_bound b) = p :: s1
    /\ seen (right_bound a) = r2 ++ [q] /\ seen (right_bound b) = q :: s2.
Definition beside (a b : lanelet) : Prop := right_bound a = left_bound b.
Definition touches (l : lanelet) (bs : list line) : Prop :=
  (exists b s, In b bs /\ lane_end l s /\ opposite s (seen b))
  \/ In (turned (left_bound l)) bs \/ In (right_bound l) bs.
Definition related (p q : prim) : Prop :=
  match p, q with
  | Lane a, Lane b => in_succession a b \/ in_succession b a \/ beside a b \/ beside b a
  | Lane a, Region b | Region b, Lane a => touches a b
  | Region a, Region b => exists l, In l a /\ In (turned l) b
  end.

(** Properties of successive primitives *)
Fixpoint chained (path : list prim) : Prop :=
  match path with
  | p :: (q :: _) as r => related p q /\ chained r
  | _ => True
  end.
(** No primitive is left by the side it was entered. *)
Fixpoint no_return (path : list prim) : Prop :=
  match path with
  | p :: (q :: (o :: _)) as r =>
      (forall s t u, has_side p s -> has_side q t -> has_side o u -> opposite s t -> opposite t u -> False) /\ no_return r
  | _ => True
  end.

(** The points of a line string of an area which has its ends at an end of the lanelet before or after *)
Definition crossing (p q : prim) (b : list nat) : Prop :=
  exists bs l ll s, (p = Lane ll /\ q = Region bs \/ p = Region bs /\ q = Lane ll)
    /\ In l bs /\ b = seen l /\ lane_end ll s /\ opposite s b.
(** For each pair of successive primitives such points or none *)
Fixpoint crossings (path : list prim) (gs : list (list nat)) : Prop :=
  match path, gs with
  | p :: (q :: _) as r, g :: gs => (g = [] \/ crossing p q g) /\ crossings r gs
  | p :: q :: _, [] => False
  | _, _ => gs = []
  end.

(** Areas are related to what comes before and after them. *)
Definition joined (p q : prim) : Prop := match p, q with Lane _, Lane _ => True | _, _ => related p q end.
Fixpoint areas_joined (path : list prim) : Prop :=
  match path with
  | p :: (q :: _) as r => joined p q /\ areas_joined r
  | _ => True
  end.
End spec.

(** Twice the signed area for coordinates of the points (positive if counterclockwise) *)
Definition shoelace (xy : nat -> R * R) (a b : nat) : R := fst (xy a) * snd (xy b) - snd (xy a) * fst (xy b).

(** * The lane from a position of a path *)
Fixpoint successive (data : nat -> list nat) (lane : list lanelet) : Prop :=
  match lane with
  | a :: (b :: _) as r => in_succession data a b /\ successive data r
  | _ => True
  end.
