(** Model of calculateCenterline, lanelet2_core/src/Lanelet.cpp:16-240.

    Points are abstract. The geometric primitives are parameters: distances (with the
    comparisons the code makes), the R-tree query for the nearest points [near] and the
    intersection tests of BoundChecker (35-98). Iterators are indices; [UB] is undefined
    behaviour, [Fuel] means that the loop did not end within the given number of rounds. *)
From Coq Require Import List Arith Bool ZArith.
Import ListNotations.

Section Centerline.
Context {P D : Type}.
Variable same : P -> P -> bool.            (* operator== of points, 201 *)
Variable center : P -> P -> P.             (* makeCenterpoint, 27-29 *)
Variable hdist : P -> P -> D.              (* bg::distance(a, b) / 2 *)
Variable dleb : D -> D -> bool.            (* <= *)
Variable stops : P -> P -> P -> D -> bool.
  (* 150: distance(other, candidate) / 2 - distance(other, last) > best *)
Variable near : P -> list P -> list nat.   (* indices, nearest first: 107-114 *)
Variable bounds_intersect : P -> P -> bool.     (* BoundChecker::intersects 45-48 *)
Variable second_crosses : bool -> P -> P -> bool.
  (* BoundChecker::secondCrossesBounds 68-77; first argument: left *)

Inductive res (A : Type) := Ok (a : A) | UB | Fuel.
Arguments Ok {A}. Arguments UB {A}. Arguments Fuel {A}.

(** findClosestNonintersectingPoint 131-178: the lambda 139-172 called for the points of
    one bound ([pts]) in the order of [near]. *)
Definition admissible (isleft : bool) (other last cand : P) : bool :=
  negb (bounds_intersect last (center other cand)) &&
  negb (second_crosses isleft other cand) && negb (second_crosses (negb isleft) cand other).
Fixpoint scan (isleft : bool) (pts : list P) (cur : nat) (other last : P) (order : list nat)
    (best : option (nat * D)) : option (nat * D) :=
  match order with
  | [] => best
  | i :: r =>
    match nth_error pts i with
    | None => best   (* excluded: the query returns iterators into [pts] *)
    | Some cand =>
      if Nat.ltb i cur then scan isleft pts cur other last r best
      else
        let d := hdist cand other in
        match best with
        | Some (_, b) =>
          if stops other cand last b then best
          else if dleb b d then scan isleft pts cur other last r best
          else if admissible isleft other last cand then scan isleft pts cur other last r (Some (i, d))
          else scan isleft pts cur other last r best
        | None =>
          if admissible isleft other last cand then scan isleft pts cur other last r (Some (i, d))
          else scan isleft pts cur other last r best
        end
    end
  end.
(** [cur]: the position that std::next is applied to; [o]: index of *otherPoint in [opts]. *)
Definition closest (isleft : bool) (pts : list P) (cur : nat) (opts : list P) (o : nat) (last : P) : res (option (nat * D)) :=
  if Nat.ltb cur (length pts) then
    match nth_error opts o with
    | None => UB
    | Some other => Ok (scan isleft pts (S cur) other last (near other pts) None)
    end
  else UB.

(** The loop 204-231. [acc]: centerlinePoints, the last one first. *)
Fixpoint walk (fuel : nat) (L R : list P) (li ri : nat) (last : P) (acc : list P) : res (list P * (nat * nat)) :=
  match fuel with
  | O => Fuel
  | S f =>
    if Nat.eqb li (length L) && Nat.eqb ri (length R) then Ok (acc, (li, ri)) else
    match closest true L li R ri last, closest false R ri L li last with
    | Ok lc, Ok rc =>
      let go_left i :=
        match nth_error L i, nth_error R ri with
        | Some a, Some b => walk f L R i ri (center a b) (center a b :: acc)
        | _, _ => UB
        end in
      let go_right j :=
        match nth_error L li, nth_error R j with
        | Some a, Some b => walk f L R li j (center a b) (center a b :: acc)
        | _, _ => UB
        end in
      match lc, rc with
      | Some (i, _), None => go_left i
      | Some (i, dl), Some (j, dr) => if dleb dl dr then go_left i else go_right j
      | None, Some (j, _) => go_right j
      | None, None => Ok (acc, (li, ri))
      end
    | _, _ => UB
    end
  end.

(** calculateCenterline 180-240. *)
Definition back (l : list P) : option P := nth_error l (length l - 1).
Definition calculate (L R : list P) : res (list P) :=
  match L, R with
  | [], _ | _, [] => Ok []
  | l0 :: _, r0 :: _ =>
    let c0 := center l0 r0 in
    let li := if same l0 r0 then 1 else 0 in
    match walk (S (length L + length R)) L R li 0 c0 [c0] with
    | UB => UB
    | Fuel => Fuel
    | Ok (acc, (li, ri)) =>
      if Nat.eqb li (length L - 1) && Nat.eqb ri (length R - 1) then Ok (rev acc)
      else match back L, back R with
           | Some a, Some b => Ok (rev (center a b :: acc))
           | _, _ => UB
           end
    end
  end.
End Centerline.
Arguments Ok {A}. Arguments UB {A}. Arguments Fuel {A}.

(** * Exact planar geometry
    The parameters for points with integer coordinates (doubles for which no rounding
    occurs). Distances are compared through their squares; the R-tree returns the points
    sorted by distance; the order of equally distant points is the one in the line. The
    early stop 150-152 is left out (CenterlineProps: it makes no difference). *)
Record pt := Pt { p_id : Z; p_x : Z; p_y : Z; p_z : Z }.
Local Open Scope Z_scope.
Definition psame (a b : pt) : bool := Z.eqb (p_id a) (p_id b).
(** centerpoint 21-25: sum times 0.5; exact for even coordinates. *)
Definition pcenter (a b : pt) : pt := Pt 0 ((p_x a + p_x b) / 2) ((p_y a + p_y b) / 2) ((p_z a + p_z b) / 2).
Definition d2 (a b : pt) : Z := (p_x a - p_x b) * (p_x a - p_x b) + (p_y a - p_y b) * (p_y a - p_y b).
Definition cross (o a b : pt) : Z := (p_x a - p_x o) * (p_y b - p_y o) - (p_y a - p_y o) * (p_x b - p_x o).
Definition between (a b x : Z) : bool := Z.leb (Z.min a b) x && Z.leb x (Z.max a b).
Definition on_seg (a b p : pt) : bool :=
  Z.eqb (cross a b p) 0 && between (p_x a) (p_x b) (p_x p) && between (p_y a) (p_y b) (p_y p).
Definition opposite (x y : Z) : bool := Z.ltb (x * y) 0.
(** Crossing in inner points of both segments. *)
Definition crosses (a b c d : pt) : bool :=
  opposite (cross a b c) (cross a b d) && opposite (cross c d a) (cross c d b).
(** boost::geometry::intersects of two closed segments. *)
Definition intersects (a b c d : pt) : bool :=
  crosses a b c d || on_seg a b c || on_seg a b d || on_seg c d a || on_seg c d b.
Definition eq2 (a b : pt) : bool := Z.eqb (p_x a) (p_x b) && Z.eqb (p_y a) (p_y b).
Fixpoint segs (l : list pt) : list (pt * pt) :=
  match l with
  | a :: r => match r with b :: _ => (a, b) :: segs r | [] => [] end
  | [] => []
  end.
(** intersectsLeft / intersectsRight 50-66. *)
Definition hits (l : list pt) (a b : pt) : bool :=
  existsb (fun s => intersects a b (fst s) (snd s) && negb (eq2 (fst s) a)) (segs l).
(** pointIsLeftOf, geometry/impl/LineString.h: positive cross product. *)
Definition is_left_of (a b p : pt) : bool := Z.ltb 0 (cross a b p).
(** crossesEntry / crossesExit 79-92. *)
Definition crosses_line (e1 e2 a b : pt) : bool := intersects a b e1 e2 && is_left_of e1 e2 b.
Definition pfront (l : list pt) : pt := hd (Pt 0 0 0 0) l.
Definition pback (l : list pt) : pt := last l (Pt 0 0 0 0).
Definition checker_intersects (L R : list pt) (a b : pt) : bool :=
  hits L a b || hits R a b || crosses_line (pfront R) (pfront L) a b || crosses_line (pback L) (pback R) a b.
Definition checker_second (L R : list pt) (isleft : bool) (a b : pt) : bool :=
  existsb (fun s => intersects a b (fst s) (snd s) && negb (eq2 (fst s) b) && negb (eq2 (snd s) b))
          (segs (if isleft then L else R)).
Fixpoint insert_by (k : nat -> Z) (i : nat) (l : list nat) : list nat :=
  match l with
  | [] => [i]
  | j :: r => if Z.leb (k i) (k j) then i :: l else j :: insert_by k i r
  end.
Definition near2 (p : pt) (pts : list pt) : list nat :=
  let k i := d2 (nth i pts (Pt 0 0 0 0)) p in
  fold_right (insert_by k) [] (seq 0 (length pts)).
Definition calculate2 (L R : list pt) : res (list pt) :=
  calculate psame pcenter d2 Z.leb (fun _ _ _ _ => false) near2 (checker_intersects L R) (checker_second L R) L R.
