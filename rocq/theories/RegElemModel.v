(** Model of the regulatory elements TrafficLight, RightOfWay, TrafficSign (and
    SpeedLimit) and AllWayStop.

    Source: lanelet2_core/src/BasicRegulatoryElements.cpp,
    lanelet2_core/include/lanelet2_core/primitives/RegulatoryElement.h.

    The parameters of a regulatory element are a HybridMap from role names to vectors
    of rule parameters. HybridMap is modelled in HybridModel.v and shown there to behave
    as a map (C23); here it is the function from role names to the stored vector.
    Primitives are handles: the address of the shared data and, where there is one, the
    inversion flag. Lanelets and areas are held by weak pointers; [al] and [ar] say which
    lanelet and area data still exist. Addresses of expired data are not used again (a
    weak pointer does not confuse them). Exceptions leave the object unchanged, because
    all of them are thrown before the first modification. *)
From Coq Require Import List Arith Bool String.
Import ListNotations.
Local Open Scope string_scope.
Local Open Scope list_scope.

(** RuleParameter, RegulatoryElement.h:90. *)
Inductive param :=
| PPoint (d : nat)
| PLine (d : nat) (inv : bool)
| PPoly (d : nat) (inv : bool)
| PLanelet (d : nat) (inv : bool)
| PArea (d : nat).

(** A handle of data with an inversion flag: LineString3d, Lanelet. *)
Definition handle := (nat * bool)%type.
(** LineStringOrPolygon3d, LineStringOrPolygon.h:86, and asRuleParameter, 91-93. *)
Inductive lsop := Ls (h : handle) | Po (h : handle).
Definition as_param (x : lsop) : param :=
  match x with Ls (d, i) => PLine d i | Po (d, i) => PPoly d i end.

Inductive res (A : Type) := Ok (a : A) | Throw | UB.
Arguments Ok {A}. Arguments Throw {A}. Arguments UB {A}.

(** RoleNameString, RegulatoryElement.h:66-85. *)
Definition Refers := "refers".
Definition RefLine := "ref_line".
Definition RightOfWayR := "right_of_way".
Definition Yield := "yield".
Definition Cancels := "cancels".
Definition CancelLine := "cancel_line".

Definition rmap := string -> option (list param).
Definition rset (m : rmap) (r : string) (v : list param) : rmap :=
  fun x => if String.eqb r x then Some v else m x.
Definition rerase (m : rmap) (r : string) : rmap :=
  fun x => if String.eqb r x then None else m x.
Definition rempty : rmap := fun _ => None.
(** operator[] default-constructs a missing vector, HybridMap.h:161-176. *)
Definition rindex (m : rmap) (r : string) : list param :=
  match m r with Some v => v | None => [] end.
(** parameters()[role].emplace_back(p). *)
Definition radd (m : rmap) (r : string) (p : param) : rmap := rset m r (rindex m r ++ [p]).

Record st := St {
  rp : rmap;
  al : nat -> bool;                       (* lanelet data that is not expired *)
  ar : nat -> bool;                       (* area data that is not expired *)
  sub : bool -> nat -> option string;     (* subtype attribute of line strings (false), polygons (true) *)
  sign_type : option string               (* attribute sign_type of the regulatory element *)
}.
Definition with_rp (s : st) (m : rmap) : st := St m (al s) (ar s) (sub s) (sign_type s).

(** operator== of the variant: same alternative and equal value. Points, line strings
    and polygons: Primitive.h:85, LineString.h:714-716; weak lanelets and areas:
    Lanelet.h:373-375, Area.h:329-331. *)
Definition param_eqb (s : st) (a b : param) : bool :=
  match a, b with
  | PPoint x, PPoint y => Nat.eqb x y
  | PLine x i, PLine y j | PPoly x i, PPoly y j => Nat.eqb x y && Bool.eqb i j
  | PLanelet x i, PLanelet y j => al s x && al s y && (Nat.eqb x y && Bool.eqb i j)
  | PArea x, PArea y => ar s x && ar s y && Nat.eqb x y
  | _, _ => false
  end.

(** std::find: the distance of the first equal element, if there is one. *)
Fixpoint find_idx (s : st) (p : param) (v : list param) : option nat :=
  match v with
  | [] => None
  | a :: r => if param_eqb s a p then Some 0
              else match find_idx s p r with None => None | Some i => Some (S i) end
  end.
(** vector::erase(begin() + i). Erasing the end iterator or beyond is undefined. *)
Fixpoint erase_at {A} (i : nat) (v : list A) : option (list A) :=
  match i, v with
  | _, [] => None
  | 0, _ :: r => Some r
  | S i', a :: r => match erase_at i' r with None => None | Some r' => Some (a :: r') end
  end.

(** findAndErase, 18-34. *)
Definition find_and_erase (s : st) (p : param) (r : string) : res (st * bool) :=
  match rp s r with
  | None => Ok (s, false)
  | Some v =>
    match find_idx s p v with
    | None => Ok (s, false)
    | Some i =>
      match erase_at i v with
      | None => UB
      | Some [] => Ok (with_rp s (rerase (rp s) r), true)
      | Some v' => Ok (with_rp s (rset (rp s) r v'), true)
      end
    end
  end.

(** utils::getVariant (Utilities.h:315-326) for line strings, and weak lanelets that
    are not expired (utils::strong, 346-356); getParameters, RegulatoryElement.h:247-254,
    460-476. *)
Definition get_line (p : param) : list handle := match p with PLine d i => [(d, i)] | _ => [] end.
Definition lines (s : st) (r : string) : list handle := flat_map get_line (rindex (rp s) r).
Definition get_weak (p : param) : list handle := match p with PLanelet d i => [(d, i)] | _ => [] end.
Definition weak_lanelets (s : st) (r : string) : list handle := flat_map get_weak (rindex (rp s) r).
Definition strong (s : st) (v : list handle) : list handle := filter (fun h => al s (fst h)) v.
Definition lanelets (s : st) (r : string) : list handle := strong s (weak_lanelets s r).

(** getLsOrPoly, 53-71. *)
Definition get_lsop (p : param) : list lsop :=
  match p with PLine d i => [Ls (d, i)] | PPoly d i => [Po (d, i)] | _ => [] end.
Definition ls_or_poly (s : st) (r : string) : list lsop := flat_map get_lsop (rindex (rp s) r).

(** tryGetFront, 36-42. *)
Definition try_front {A} (v : list A) : option A := match v with [] => None | a :: _ => Some a end.

(** A lanelet or line goes out of scope / its last owner is destroyed. *)
Definition expire (d : nat) (s : st) : st :=
  St (rp s) (fun x => if Nat.eqb d x then false else al s x) (ar s) (sub s) (sign_type s).

Definition h_eqb (a b : handle) : bool := Nat.eqb (fst a) (fst b) && Bool.eqb (snd a) (snd b).
Definition lan (h : handle) : param := PLanelet (fst h) (snd h).
Definition lin (h : handle) : param := PLine (fst h) (snd h).

(** * TrafficLight *)
(** Constructor from data, 168-175. *)
Definition tl_ctor (s : st) : res st :=
  match ls_or_poly s Refers with
  | [] => Throw
  | _ => if Nat.ltb 1 (List.length (lines s RefLine)) then Throw else Ok s
  end.
(** constructTrafficLightData 86-97 and constructor 177-179. *)
Definition tl_make (s : st) (lights : list lsop) (stop : option handle) : res st :=
  let m := rset rempty Refers (map as_param lights) in
  tl_ctor (with_rp s (match stop with None => m | Some l => rset m RefLine [lin l] end)).
(** stopLine 181-185, trafficLights 187-191. *)
Definition stop_line (s : st) : option handle := try_front (lines s RefLine).
Definition traffic_lights (s : st) : list lsop := ls_or_poly s Refers.

Inductive tl_op := TLAdd (x : lsop) | TLRemove (x : lsop) | TLSetStop (l : handle) | TLRemoveStop.
(** addTrafficLight .. removeStopLine, 193-203. *)
Definition tl_step (o : tl_op) (s : st) : res (st * bool) :=
  match o with
  | TLAdd x => Ok (with_rp s (radd (rp s) Refers (as_param x)), true)
  | TLRemove x => find_and_erase s (as_param x) Refers
  | TLSetStop l => Ok (with_rp s (rset (rp s) RefLine [lin l]), true)
  | TLRemoveStop => Ok (with_rp s (rset (rp s) RefLine []), true)
  end.

(** * RightOfWay *)
(** Constructor from data, 205-212: expired lanelets count. *)
Definition row_ctor (s : st) : res st :=
  match weak_lanelets s RightOfWayR, weak_lanelets s Yield with
  | [], _ | _, [] => Throw
  | _, _ => Ok s
  end.
(** constructRightOfWayData 122-134 and constructor 214-216. *)
Definition row_make (s : st) (row yield : list handle) (stop : option handle) : res st :=
  let m := rset (rset rempty RightOfWayR (map lan row)) Yield (map lan yield) in
  row_ctor (with_rp s (match stop with None => m | Some l => rset m RefLine [lin l] end)).
Inductive maneuver := MRightOfWay | MYield | MUnknown.
(** getManeuver, 218-226. *)
Definition get_maneuver (s : st) (l : handle) : maneuver :=
  if existsb (fun h => h_eqb h l) (lanelets s RightOfWayR) then MRightOfWay
  else if existsb (fun h => h_eqb h l) (lanelets s Yield) then MYield else MUnknown.
Inductive row_op :=
| RAddRow (l : handle) | RAddYield (l : handle) | RRemoveRow (l : handle) | RRemoveYield (l : handle)
| RSetStop (l : handle) | RRemoveStop | RExpire (d : nat).
(** 252-268. *)
Definition row_step (o : row_op) (s : st) : res (st * bool) :=
  match o with
  | RAddRow l => Ok (with_rp s (radd (rp s) RightOfWayR (lan l)), true)
  | RAddYield l => Ok (with_rp s (radd (rp s) Yield (lan l)), true)
  | RRemoveRow l => find_and_erase s (lan l) RightOfWayR
  | RRemoveYield l => find_and_erase s (lan l) Yield
  | RSetStop l => Ok (with_rp s (rset (rp s) RefLine [lin l]), true)
  | RRemoveStop => Ok (with_rp s (rset (rp s) RefLine []), true)
  | RExpire d => Ok (expire d s, true)
  end.

(** * TrafficSign *)
Definition subtype (s : st) (x : lsop) : option string :=
  match x with Ls h => sub s false (fst h) | Po h => sub s true (fst h) end.
(** type, 285-299. *)
Definition sign_type_of (s : st) : res string :=
  match ls_or_poly s Refers with
  | x :: _ => match subtype s x with Some t => Ok t | None => Throw end
  | [] => match sign_type s with Some t => Ok t | None => Throw end
  end.
(** updateTrafficSigns, 78-85: an empty type changes nothing. *)
Definition set_sub (t : string) (s : st) (x : lsop) : st :=
  let '(k, d) := match x with Ls h => (false, fst h) | Po h => (true, fst h) end in
  St (rp s) (al s) (ar s)
     (fun b n => if Bool.eqb k b && Nat.eqb d n then Some t else sub s b n) (sign_type s).
Definition update_signs (s : st) (signs : list lsop) (t : string) : st :=
  if String.eqb t "" then s else fold_left (set_sub t) signs s.
(** constructTrafficSignData 98-113 and constructors 270-279. *)
Definition ts_ctor (s : st) : res st :=
  match sign_type_of s with Ok _ => Ok s | Throw => Throw | UB => UB end.
Definition ts_make (s : st) (signs : list lsop) (t : string) (cancels : list lsop) (tc : string)
    (refs cls : list handle) : res st :=
  let s' := update_signs (update_signs s signs t) cancels tc in
  ts_ctor (with_rp s' (rset (rset (rset (rset rempty Refers (map as_param signs)) Cancels (map as_param cancels))
                                  RefLine (map lin refs)) CancelLine (map lin cls))).
(** cancelTypes, 352-362: std::sort and std::unique. attribute() throws for a sign
    without subtype. *)
Fixpoint sort_insert (t : string) (v : list string) : list string :=
  match v with [] => [t] | a :: r => if String.ltb t a then t :: v else a :: sort_insert t r end.
Fixpoint unique (v : list string) : list string :=
  match v with
  | a :: r => match unique r with
              | b :: r' => if String.eqb a b then b :: r' else a :: b :: r'
              | [] => [a]
              end
  | [] => []
  end.
Fixpoint subtypes (s : st) (v : list lsop) : res (list string) :=
  match v with
  | [] => Ok []
  | x :: r => match subtype s x, subtypes s r with
              | Some t, Ok ts => Ok (t :: ts)
              | _, _ => Throw
              end
  end.
Definition cancel_types (s : st) : res (list string) :=
  match subtypes s (ls_or_poly s Cancels) with
  | Ok ts => Ok (unique (fold_right sort_insert [] ts))
  | Throw => Throw
  | UB => UB
  end.
Inductive ts_op :=
| SAdd (x : lsop) | SRemove (x : lsop)
| SAddRef (l : handle) | SRemoveRef (l : handle)
| SAddCancelLine (l : handle) | SRemoveCancelLine (l : handle)
| SAddCancel (xs : list lsop) (t : string) | SRemoveCancel (x : lsop).
(** 305-325, 335-344. *)
Definition ts_step (o : ts_op) (s : st) : res (st * bool) :=
  match o with
  | SAdd x => Ok (with_rp s (radd (rp s) Refers (as_param x)), true)
  | SRemove x => find_and_erase s (as_param x) Refers
  | SAddRef l => Ok (with_rp s (radd (rp s) RefLine (lin l)), true)
  | SRemoveRef l => find_and_erase s (lin l) RefLine
  | SAddCancelLine l => Ok (with_rp s (radd (rp s) CancelLine (lin l)), true)
  | SRemoveCancelLine l => find_and_erase s (lin l) CancelLine
  | SAddCancel xs t =>
    Ok (fold_left (fun s x => with_rp s (radd (rp s) Cancels (as_param x))) xs (update_signs s xs t), true)
  | SRemoveCancel x => find_and_erase s (as_param x) Cancels
  end.

(** * AllWayStop *)
(** Constructor from data, 453-467. *)
Definition aws_ctor (s : st) : res st :=
  if negb (Nat.eqb (List.length (rindex (rp s) RightOfWayR)) 0) then Throw
  else match rindex (rp s) RefLine with
       | [] => Ok s
       | ls => match rp s Yield with
               | None => Throw
               | Some v => if Nat.eqb (List.length ls) (List.length v) then Ok s else Throw
               end
       end.
(** constructAllWayStopData 135-151 and constructor 449-451. *)
Definition aws_make (s : st) (v : list (handle * option handle)) (signs : list lsop) : res st :=
  aws_ctor (with_rp s
    (rset (rset (rset rempty Yield (map (fun x => lan (fst x)) v))
                RefLine (flat_map (fun x => match snd x with None => [] | Some l => [lin l] end) v))
          Refers (map as_param signs))).
(** getStopLine, 376-401; vector::at throws out_of_range. *)
Fixpoint handle_idx (l : handle) (v : list handle) : option nat :=
  match v with
  | [] => None
  | a :: r => if h_eqb a l then Some 0 else match handle_idx l r with None => None | Some i => Some (S i) end
  end.
Definition get_stop_line (s : st) (l : handle) : res (option handle) :=
  match lines s RefLine with
  | [] => Ok None
  | sl => match handle_idx l (lanelets s Yield) with
          | None => Ok None
          | Some i => match nth_error sl i with None => Throw | Some x => Ok (Some x) end
          end
  end.
(** addLanelet, 417-429. *)
Definition aws_add (s : st) (l : handle) (stop : option handle) : res (st * bool) :=
  let sl := lines s RefLine in
  match sl, lanelets s Yield, stop with
  | [], _ :: _, Some _ => Throw
  | _ :: _, _, None => Throw
  | _, _, _ =>
    let m := radd (rp s) Yield (lan l) in
    Ok (with_rp s (match stop with None => m | Some x => radd m RefLine (lin x) end), true)
  end.
(** removeLanelet, 431-447. *)
Definition aws_remove (s : st) (l : handle) : res (st * bool) :=
  match rp s Yield with
  | None => Ok (s, false)
  | Some v =>
    match find_idx s (lan l) v with
    | None => Ok (s, false)
    | Some i =>
      let m := match rp s RefLine with
               | None | Some [] => Some (rp s)
               | Some ls => match erase_at i ls with None => None | Some ls' => Some (rset (rp s) RefLine ls') end
               end in
      match m, erase_at i v with
      | Some m', Some v' => Ok (with_rp s (rset m' Yield v'), true)
      | _, _ => UB
      end
    end
  end.
Inductive aws_op :=
| AAdd (l : handle) (stop : option handle) | ARemove (l : handle) | AExpire (d : nat)
| AAddSign (x : lsop) | ARemoveSign (x : lsop).
Definition aws_step (o : aws_op) (s : st) : res (st * bool) :=
  match o with
  | AAdd l stop => aws_add s l stop
  | ARemove l => aws_remove s l
  | AExpire d => Ok (expire d s, true)
  | AAddSign x => Ok (with_rp s (radd (rp s) Refers (as_param x)), true)
  | ARemoveSign x => find_and_erase s (as_param x) Refers
  end.

(** A sequence of calls. An exception is caught by the caller, who carries on. The
    results of the calls are collected; undefined behaviour ends the run. *)
Section Run.
Context {O : Type}.
Variable step : O -> st -> res (st * bool).
Fixpoint run (os : list O) (s : st) : option (st * list (option bool)) :=
  match os with
  | [] => Some (s, [])
  | o :: r =>
    match step o s with
    | UB => None
    | Throw => match run r s with None => None | Some (s', bs) => Some (s', None :: bs) end
    | Ok (s1, b) => match run r s1 with None => None | Some (s', bs) => Some (s', Some b :: bs) end
    end
  end.
End Run.

(** find<T> by id is not modelled; the factory, RegulatoryElement.cpp:112-125: *)
Inductive kind := KTrafficLight | KRightOfWay | KTrafficSign | KSpeedLimit | KAllWayStop | KGeneric.
Definition registry : list (string * kind) :=
  [("traffic_light", KTrafficLight); ("right_of_way", KRightOfWay); ("traffic_sign", KTrafficSign);
   ("speed_limit", KSpeedLimit); ("all_way_stop", KAllWayStop); ("regulatory_element", KGeneric)].
Definition ctor (k : kind) (s : st) : res st :=
  match k with
  | KTrafficLight => tl_ctor s
  | KRightOfWay => row_ctor s
  | KTrafficSign | KSpeedLimit => ts_ctor s
  | KAllWayStop => aws_ctor s
  | KGeneric => Ok s
  end.
Definition create (rule : string) (s : st) : res (kind * st) :=
  let rule := if String.eqb rule "" then "regulatory_element" else rule in
  match find (fun e => String.eqb (fst e) rule) registry with
  | None => Throw
  | Some (_, k) => match ctor k s with Ok s' => Ok (k, s') | Throw => Throw | UB => UB end
  end.
