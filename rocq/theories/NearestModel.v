(** Model of the spatial queries of a layer: searchUntil, nearestUntil, findNearest
    and findWithin2d.

    Source: lanelet2_core/src/LaneletMap.cpp,
            lanelet2_core/include/lanelet2_core/geometry/impl/LaneletMap.h.

    The R-tree (boost::geometry::index) is not modelled: a query is the list of
    elements in the order in which the query iterator of boost delivers them. The
    theorems hold for every such order that is sorted by box distance (nearest) or
    that contains exactly the intersecting elements (intersects).
    Distances are elements of an arbitrary type with a comparison, NaN excluded. *)
From Coq Require Import List Bool NArith.
Import ListNotations.

(** * std::find_if with a predicate with state.
    The predicate is called with the state it left behind at its last call; [None]
    is an outcome in which it has undefined behaviour. The list of calls is logged. *)
Section FindIf.
Context {S A : Type}.
Variable f : S -> A -> option (bool * S).

Fixpoint find_if (s : S) (l : list A) : option (option A * S * list A) :=
  match l with
  | [] => Some (None, s, [])
  | x :: l' =>
    match f s x with
    | None => None
    | Some (true, s') => Some (Some x, s', [x])
    | Some (false, s') =>
      match find_if s' l' with
      | None => None
      | Some (r, s'', calls) => Some (r, s'', x :: calls)
      end
    end
  end.

(** findUntilImpl, LaneletMap.cpp:171-182. [q] is what qbegin(intersects(area))
    iterates over; the query on an empty tree is not started. *)
Definition find_until (s : S) (tree q : list A) : option (option A * S * list A) :=
  match tree with [] => Some (None, s, []) | _ => find_if s q end.

(** nearestUntilImpl, LaneletMap.cpp:184-195. [q] lists the whole tree in the order
    of the distance; bgi::nearest(point, k) delivers the first k of it, and k is the
    size of the tree converted to unsigned (32 bits). *)
Definition to_unsigned (n : nat) : nat := N.to_nat (N.modulo (N.of_nat n) (2 ^ 32)).
Definition nearest_until (s : S) (q : list A) : option (option A * S * list A) :=
  match q with [] => Some (None, s, []) | _ => find_if s (firstn (to_unsigned (length q)) q) end.
End FindIf.

(** * findNearest *)
Section Nearest.
Context {D A : Type}.
Variable leb : D -> D -> bool.
Definition ltb (a b : D) : bool := negb (leb b a).

(** std::lower_bound over the stored values, LaneletMap.cpp:944: the index of the
    first value that is not smaller. (The values are sorted, NearestProofs.v.) *)
Fixpoint lower_bound (vs : list (D * A)) (m : D) : nat :=
  match vs with
  | [] => 0
  | v :: vs' => if ltb (fst v) m then Datatypes.S (lower_bound vs' m) else 0
  end.

Definition emplace (pos : nat) (v : D * A) (vs : list (D * A)) : list (D * A) :=
  firstn pos vs ++ v :: skipn pos vs.

(** NSmallestElements::insert, LaneletMap.cpp:942-953. The iterator pos is modelled
    by its index. *)
Definition ins (n : nat) (vs : list (D * A)) (m : D) (x : A) : list (D * A) :=
  let pos := lower_bound vs m in
  if negb (Nat.eqb pos (length vs)) || Nat.ltb (length vs) n then
    emplace pos (m, x) (if Nat.leb n (length vs) then removelast vs else vs)
  else vs.

(** Whether [ins] hands an iterator to emplace that the pop_back before has
    invalidated (it pointed to the removed last element; [vector.modifiers]). *)
Definition stale_iterator (n : nat) (vs : list (D * A)) (m : D) : bool :=
  let pos := lower_bound vs m in
  negb (Nat.eqb pos (length vs)) && Nat.leb n (length vs) && Nat.eqb (Datatypes.S pos) (length vs).

(** The lambda of findNearestImpl, LaneletMap.cpp:973-980; values().back() on an
    empty vector is undefined. *)
Definition visit (n : nat) (bdist dist : A -> D) (vs : list (D * A)) (x : A)
    : option (bool * list (D * A)) :=
  if Nat.leb n (length vs) then
    match rev vs with
    | [] => None
    | v :: _ => if ltb (fst v) (bdist x) then Some (true, vs) else Some (false, ins n vs (dist x) x)
    end
  else Some (false, ins n vs (dist x) x).

(** findNearestImpl, LaneletMap.cpp:965-983. *)
Definition find_nearest (n : nat) (bdist dist : A -> D) (q : list A) : option (list (D * A)) :=
  match nearest_until (visit n bdist dist) [] q with
  | None => None
  | Some (_, vs, _) => Some vs
  end.

(** findWithin2d, impl/LaneletMap.h:13-36. [q] is the result of layer.search with the
    (buffered) bounding box; [sort] is std::sort. *)
Definition find_within (sort : list (D * A) -> list (D * A)) (dist : A -> D) (max : D) (q : list A)
    : list (D * A) :=
  sort (filter (fun v => leb (fst v) max) (map (fun x => (dist x, x)) q)).
End Nearest.

(** * Distances in exact arithmetic
    Squared distances over the rationals; the order is that of the distances. *)
From Coq Require Import QArith Qminmax.
Open Scope Q_scope.
Definition pt := (Q * Q)%type.
Definition sq (x : Q) : Q := x * x.
Definition sqdist (p q : pt) : Q := sq (fst p - fst q) + sq (snd p - snd q).

(** boost::geometry::strategy::distance::projected_point: distance of a point to a
    segment. *)
Definition seg_sqdist (p a b : pt) : Q :=
  let vx := fst b - fst a in let vy := snd b - snd a in
  let c1 := (fst p - fst a) * vx + (snd p - snd a) * vy in
  let c2 := vx * vx + vy * vy in
  if Qle_bool c1 0 then sqdist p a
  else if Qle_bool c2 c1 then sqdist p b
  else sqdist p (fst a + c1 / c2 * vx, snd a + c1 / c2 * vy).

(** Distance to a line string: the smallest distance to one of its segments. *)
Fixpoint line_sqdist (p a : pt) (l : list pt) : Q :=
  match l with
  | [] => sqdist p a
  | [b] => seg_sqdist p a b
  | b :: l' => Qmin (seg_sqdist p a b) (line_sqdist p b l')
  end.

(** geometry::boundingBox2d of a line string, geometry/impl/LineString.h: the
    extension of an empty box by all points. *)
Record box := Box { x_lo : Q; x_hi : Q; y_lo : Q; y_hi : Q }.
Definition box_of (a : pt) (l : list pt) : box :=
  fold_left (fun b p => Box (Qmin (x_lo b) (fst p)) (Qmax (x_hi b) (fst p))
                            (Qmin (y_lo b) (snd p)) (Qmax (y_hi b) (snd p)))
            l (Box (fst a) (fst a) (snd a) (snd a)).

(** Squared distance of a point to a box, boost::geometry::distance. *)
Definition axis_dist (lo hi x : Q) : Q :=
  if Qle_bool lo x then if Qle_bool x hi then 0 else x - hi else lo - x.
Definition box_sqdist (b : box) (p : pt) : Q :=
  sq (axis_dist (x_lo b) (x_hi b) (fst p)) + sq (axis_dist (y_lo b) (y_hi b) (snd p)).

(** boost::geometry::buffer of a box, and the intersects query with the box around
    a point. *)
Definition around (p : pt) (d : Q) : box := Box (fst p - d) (fst p + d) (snd p - d) (snd p + d).
Definition boxes_meet (a b : box) : bool :=
  Qle_bool (x_lo a) (x_hi b) && Qle_bool (x_lo b) (x_hi a) &&
  Qle_bool (y_lo a) (y_hi b) && Qle_bool (y_lo b) (y_hi a).
