(** Model of the matching of objects to lanelets.

    Source: lanelet2_matching/src/LaneletMatching.cpp, Utilities.cpp and the headers
    LaneletMatching.h, Utilities.h, Types.h. Coordinates and angles are real numbers
    without rounding. Positions along the centerline as in ArcModel.v; the outcome
    [Thrown] stands for MatchingError here. *)
From Coq Require Import List Bool Arith Reals.
From Verif Require Import ArcModel.
Import ListNotations.
Local Open Scope R_scope.

(** * Angles *)

(** std::trunc as used by std::fmod. *)
Definition truncate (x : R) : R :=
  if Rle_dec 0 x then IZR (Int_part x) else - IZR (Int_part (- x)).
(** std::fmod *)
Definition float_mod (x y : R) : R := x - truncate (x / y) * y.

(** positiveFloatModulo, Utilities.cpp:44-52 *)
Definition positive_mod (x y : R) : R :=
  let m := float_mod x y in
  if Rlt_dec 0 m then m else m + Rabs y.

(** normalizeAngleRadians, Utilities.cpp:55 *)
Definition normalize_angle (x : R) : R := positive_mod (x + PI) (2 * PI) - PI.

(** angleDifference, Utilities.cpp:58-61 *)
Definition angle_difference (target source : R) : R := normalize_angle (target - source).

(** std::atan2 (without signed zeros) *)
Definition atan2 (y x : R) : R :=
  if Rlt_dec 0 x then atan (y / x)
  else if Rlt_dec x 0 then (if Rle_dec 0 y then atan (y / x) + PI else atan (y / x) - PI)
  else if Rlt_dec 0 y then PI / 2
  else if Rlt_dec y 0 then - (PI / 2)
  else 0.

(** * Objects *)

(** Object2d and ObjectWithCovariance2d, Types.h:55-66. The rotation is given by its
    first column (cosine and sine). *)
Record object := Object {
  o_position : point; o_cos : R; o_sin : R; o_hull : list point;
  o_xx : R; o_xy : R; o_yx : R; o_yy : R;   (* positionCovariance *)
  o_kappa : R }.

(** yawFromIsometry2d, Utilities.cpp:64-68: Eigen computes atan2 of the first column;
    the smallest angle is this one. *)
Definition yaw_of (o : object) : R := atan2 (o_sin o) (o_cos o).

(** isZero of Eigen: no coefficient above the precision 1e-12. *)
Definition cov_zero (o : object) : bool :=
  forallb (fun x => if Rle_dec (Rabs x) (1 / 10 ^ 12) then true else false) [o_xx o; o_xy o; o_yx o; o_yy o].
(** determinant of Eigen *)
Definition cov_det (o : object) : R := o_xx o * o_yy o - o_xy o * o_yx o.
(** d^T * inverse * d; Eigen inverts a matrix of two rows by the cofactors. *)
Definition cov_form (o : object) (d : point) : R :=
  let k := / cov_det o in
  let ix := k * o_yy o * fst d + - (k * o_xy o) * snd d in
  let iy := - (k * o_yx o) * fst d + k * o_xx o * snd d in
  fst d * ix + snd d * iy.

(** getMahalanobisDistSq, Utilities.cpp:76-104. [center] is the centerline of the lanelet
    in two dimensions, [closest] is closestSegment. *)
Definition mahalanobis (closest : list point -> point -> point * point) (center : list point) (o : object)
  : result R :=
  if cov_zero o then Thrown
  else if Rlt_dec (Rabs (cov_det o)) (10 / 10 ^ 9) then Thrown
  else
    match to_arc closest center (o_position o) with
    | Ok (len, _) =>
        match interpolated_point distance on_way center len,
              interpolated_point distance on_way center (Rmax (len - 1 / 2) 0),
              interpolated_point distance on_way center (len + 1 / 2) with
        | Ok p_at, Ok p_before, Ok p_after =>
            let direction := psub p_after p_before in
            let yaw_center := normalize_angle (atan2 (snd direction) (fst direction)) in
            let yaw_obj := normalize_angle (yaw_of o) in
            let yaw_diff := angle_difference yaw_center yaw_obj in
            let d_yaw := yaw_diff * yaw_diff * (o_kappa o * o_kappa o) in
            let diff := psub (o_position o) p_at in
            Ok (d_yaw + cov_form o diff)
        | _, _, _ => Undefined
        end
    | Undefined => Undefined
    | Thrown => Thrown
    | NotANumber => NotANumber
    end.

(** * Matches *)

Section matches.
Context {L : Type} (invert : L -> L).

(** LaneletMatch and LaneletMatchProbabilistic, Types.h:68-87 *)
Record match_of := Match { m_lanelet : L; m_distance : R }.
Record prob_match := ProbMatch { pm_lanelet : L; pm_distance : R; pm_maha : R }.

(** toMatchVector, LaneletMatching.cpp:43-60. [sort] is std::sort with the comparison
    of distances. *)
Definition to_match_vector (sort : list match_of -> list match_of) (pairs : list (R * L)) : list match_of :=
  sort (flat_map (fun p => [Match (snd p) (fst p); Match (invert (snd p)) (fst p)]) pairs).

(** The loop of getProbabilisticMatchesImpl, LaneletMatching.cpp:62-83; [maha] is
    getMahalanobisDistSq for the object. *)
Fixpoint prob_loop (maha : L -> result R) (pairs : list (R * L)) : result (list prob_match) :=
  match pairs with
  | [] => Ok []
  | (d, l) :: r =>
      match maha l with
      | Ok m1 =>
          match maha (invert l) with
          | Ok m2 =>
              match prob_loop maha r with
              | Ok ms => Ok (ProbMatch l d m1 :: ProbMatch (invert l) d m2 :: ms)
              | e => e
              end
          | Undefined => Undefined | Thrown => Thrown | NotANumber => NotANumber
          end
      | Undefined => Undefined | Thrown => Thrown | NotANumber => NotANumber
      end
  end.
Definition prob_matches (sort : list prob_match -> list prob_match) (maha : L -> result R) (pairs : list (R * L))
  : result (list prob_match) :=
  match prob_loop maha pairs with Ok l => Ok (sort l) | e => e end.

(** findWithin, Utilities.h:47-55. [within_point] and [within_hull] are
    geometry::findWithin2d of the layer with a point or a polygon. *)
Definition find_object (within_point : point -> R -> list (R * L)) (within_hull : list point -> R -> list (R * L))
    (o : object) (max : R) : list (R * L) :=
  match o_hull o with [] => within_point (o_position o) max | h => within_hull h max end.

(** getDeterministicMatches and getProbabilisticMatches, LaneletMatching.cpp:89-112 *)
Definition deterministic_matches sort within_point within_hull (o : object) (max : R) : list match_of :=
  to_match_vector sort (find_object within_point within_hull o max).
Definition probabilistic_matches sort within_point within_hull closest (center : L -> list point) (o : object)
    (max : R) : result (list prob_match) :=
  prob_matches sort (fun l => mahalanobis closest (center l) o) (find_object within_point within_hull o max).

(** isCloseTo and isWithin, LaneletMatching.h:69-81 *)
Definition is_close_to within_point within_hull (o : object) (max : R) : bool :=
  match find_object within_point within_hull o max with [] => false | _ => true end.
Definition is_within within_point within_hull (o : object) : bool := is_close_to within_point within_hull o 0.

(** std::remove_if and erase in removeNonRuleCompliantMatches, LaneletMatching.h:83-95:
    the elements that stay are moved to the front, the rest is erased. *)
Fixpoint remove_if {A} (p : A -> bool) (l : list A) : list A :=
  match l with
  | [] => []
  | x :: r => if p x then remove_if p r else x :: remove_if p r
  end.
Definition remove_non_compliant (can_pass : L -> bool) (l : list match_of) : list match_of :=
  remove_if (fun m => negb (can_pass (m_lanelet m))) l.
End matches.

(** * Conflicts in several routing graphs: RoutingGraphContainer.h *)

(** A lanelet as handle: the data and whether it is inverted. [==] compares both. *)
Record handle := Handle { h_data : nat; h_inverted : bool }.
Definition same_handle (a b : handle) : bool := Nat.eqb (h_data a) (h_data b) && Bool.eqb (h_inverted a) (h_inverted b).

Section container.
(** overlaps2d and overlaps3d (with a height); [search] is laneletLayer.search with the
    bounding box of the lanelet in the map of passable lanelets of a graph. *)
Variables (overlaps2 : handle -> handle -> bool) (overlaps3 : handle -> handle -> R -> bool).
Context {G : Type} (search : G -> handle -> list handle).

(** conflictingInGraph, RoutingGraphContainer.h:40-58. [None] is InvalidInputError. *)
Definition conflicting_in_graph (graphs : list G) (l : handle) (i : nat) (height : R) : option (list handle) :=
  match nth_error graphs i with
  | None => None
  | Some g =>
      let not_overlapping x := if Req_EM_T height 0 then negb (overlaps2 l x) else negb (overlaps3 l x height) in
      Some (remove_if not_overlapping (remove_if (fun x => same_handle x l) (search g l)))
  end.

(** conflictingInGraphs, RoutingGraphContainer.h:60-70 *)
Definition conflicting_in_graphs (graphs : list G) (l : handle) (height : R) : list (nat * option (list handle)) :=
  map (fun i => (i, conflicting_in_graph graphs l i height)) (seq 0 (length graphs)).

(** conflictingOfRouteInGraph, RoutingGraphContainer.h:72-87. The std::unordered_set is a
    list without repetitions; [route] are the lanelets of the route. *)
Definition insert_handle (x : handle) (s : list handle) : list handle :=
  if existsb (same_handle x) s then s else x :: s.
Fixpoint route_loop (graphs : list G) (i : nat) (height : R) (route : list handle) (s : list handle)
  : option (list handle) :=
  match route with
  | [] => Some s
  | l :: r =>
      match conflicting_in_graph graphs l i height with
      | None => None
      | Some c => route_loop graphs i height r (fold_left (fun s x => insert_handle x s) c s)
      end
  end.
Definition conflicting_of_route (graphs : list G) (route : list handle) (i : nat) (height : R) : option (list handle) :=
  route_loop graphs i height route [].
End container.
