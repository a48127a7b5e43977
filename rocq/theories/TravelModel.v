(** Model of the costs of a routing graph: length and travel time.

    Source: lanelet2_routing/include/lanelet2_routing/RoutingCost.h,
    lanelet2_routing/src/RoutingCost.cpp and approximatedLength2d in
    lanelet2_core/include/lanelet2_core/geometry/impl/Lanelet.h. Finite numbers are real
    numbers without rounding; infinities and NaN are separate values. *)
From Coq Require Import List Bool Arith Reals.
From Verif Require Import ArcModel.
Import ListNotations.
Local Open Scope R_scope.

(** * Numbers *)
Inductive num := Fin (x : R) | PosInf | NegInf | NaN.

(** Addition, division and comparison of double *)
Definition nadd (a b : num) : num :=
  match a, b with
  | Fin x, Fin y => Fin (x + y)
  | NaN, _ | _, NaN => NaN
  | PosInf, NegInf | NegInf, PosInf => NaN
  | PosInf, _ | _, PosInf => PosInf
  | NegInf, _ | _, NegInf => NegInf
  end.
(** Division by a zero (taken as positive) and by infinities *)
Definition ndiv (a b : num) : num :=
  match a, b with
  | Fin x, Fin y =>
      if Req_EM_T y 0 then (if Rlt_dec 0 x then PosInf else if Rlt_dec x 0 then NegInf else NaN) else Fin (x / y)
  | NaN, _ | _, NaN => NaN
  | Fin _, _ => Fin 0
  | PosInf, Fin y => if Rlt_dec y 0 then NegInf else PosInf
  | NegInf, Fin y => if Rlt_dec y 0 then PosInf else NegInf
  | _, _ => NaN
  end.
Definition nltb (a b : num) : bool :=
  match a, b with
  | NaN, _ | _, NaN => false
  | Fin x, Fin y => if Rlt_dec x y then true else false
  | NegInf, NegInf => false
  | NegInf, _ => true
  | Fin _, PosInf => true
  | _, _ => false
  end.
Definition nleb (a b : num) : bool :=
  match a, b with
  | NaN, _ | _, NaN => false
  | _, _ => negb (nltb b a)
  end.
(** std::isinf *)
Definition is_inf (a : num) : bool := match a with PosInf | NegInf => true | _ => false end.
Definition is_zero (a : num) : bool := match a with Fin x => if Req_EM_T x 0 then true else false | _ => false end.

(** * Length *)

(** approximatedLength2d, geometry/impl/Lanelet.h:173-185, for the left bound [line].
    [size_t] does not overflow. [None]: out of fuel. *)
Fixpoint length_loop (line : list point) (step fuel i1 i2 : nat) (len : R) : option R :=
  match fuel with
  | O => None
  | S f =>
      if Nat.ltb i2 (length line) then
        let len := len + distance (nth i1 line (0, 0)) (nth i2 line (0, 0)) in
        let len := if Nat.leb (length line) (i2 + step)
                   then len + distance (nth i2 line (0, 0)) (nth (length line - 1) line (0, 0)) else len in
        length_loop line step f (i1 + step) (i2 + step) len
      else Some len
  end.
Definition approximated_length (line : list point) : option R :=
  let step := Nat.max 1 (length line / 10) in
  length_loop line step (S (length line)) 0 step 0.

(** boost::geometry::perimeter of the outer bound of an area: the ring is closed. *)
Definition perimeter (ring : list point) : R :=
  match ring with
  | [] => 0
  | p :: _ => fold_right Rplus 0 (map (fun ab => distance (fst ab) (snd ab)) (combine ring (tl ring ++ [p])))
  end.

(** A lanelet or area: its length as above. *)
Definition extent := R.

(** * The cost modules *)

(** The outcome: a number, an exception, or std::terminate (an exception leaving a
    function that is noexcept). *)
Inductive outcome := Value (x : num) | Invalid | Terminated.

(** The constructors of RoutingCostDistance and RoutingCostTravelTime,
    RoutingCost.h:54-59, 94-99: InvalidInputError for a negative cost ([None]). *)
Record costs := Costs { lane_change_cost : num; min_change : num }.
Definition make_costs (cost min : num) : option costs :=
  if nltb cost (Fin 0) then None else Some (Costs cost min).

(** RoutingCostDistance::getCostSucceeding and getCostLaneChange, RoutingCost.h:60-73 *)
Definition distance_succeeding (from to : extent) : num := ndiv (nadd (Fin from) (Fin to)) (Fin 2).
Definition distance_change (c : costs) (from : list extent) : num :=
  if nleb (min_change c) (Fin 0) then lane_change_cost c
  else
    let total := fold_left (fun acc l => nadd acc (Fin l)) from (Fin 0) in
    if nleb (min_change c) total then lane_change_cost c else PosInf.

(** speedLimit, RoutingCost.cpp:12-21. A limit of zero becomes the largest double times a
    default constructed Velocity, which is zero again. [None] is InvalidInputError. *)
Definition speed_limit (rules : num) : option num :=
  let limit := if is_zero rules then Fin 0 else rules in
  if is_inf limit then None else Some limit.

(** travelTime, RoutingCost.cpp:24-33: [fst] is the length, [snd] the limit of the rules. *)
Definition travel_time (la : extent * num) : option num :=
  match speed_limit (snd la) with
  | None => None
  | Some v => Some (ndiv (Fin (fst la)) v)
  end.

(** RoutingCostTravelTime::getCostSucceeding, RoutingCost.h:111-117 *)
Definition time_succeeding (from to : extent * num) : outcome :=
  match travel_time from, travel_time to with
  | Some a, Some b => Value (ndiv (nadd a b) (Fin 2))
  | _, _ => Invalid
  end.

(** RoutingCostTravelTime::getCostLaneChange, RoutingCost.h:101-110, which is noexcept *)
Fixpoint time_sum (from : list (extent * num)) (acc : num) : option num :=
  match from with
  | [] => Some acc
  | la :: r => match travel_time la with None => None | Some t => time_sum r (nadd acc t) end
  end.
Definition time_change (c : costs) (from : list (extent * num)) : outcome :=
  if nleb (min_change c) (Fin 0) then Value (lane_change_cost c)
  else
    match time_sum from (Fin 0) with
    | None => Terminated
    | Some t => Value (if nleb (min_change c) t then lane_change_cost c else PosInf)
    end.
