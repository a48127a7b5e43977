(** What it means to evaluate such a text: a reader for the expressions of Python that are made of literals and calls,
    and the constructors that the module offers, by their signatures
    (lanelet2_python/python_api/core.cpp:707-1394). *)
From Coq Require Import NArith ZArith List Bool String Ascii.
From Verif Require Import DotSpec ReprModel.
Import ListNotations.
Open Scope string_scope.

(** * Expressions *)
Inductive expr :=
| ENum (token : string) | EStr (s : string) | EName (n : string)
| EList (l : list expr) | EDict (l : list (expr * expr)) | ECall (f : string) (l : list expr).

Definition is_numeric (c : ascii) : bool := is_sign c || Ascii.eqb c "." || Ascii.eqb c "e" || Ascii.eqb c "+".
Definition is_word (c : ascii) : bool := is_letter c || is_digit c || Ascii.eqb c "_".
Definition is_mark (c : ascii) : bool := Ascii.eqb c "'" || Ascii.eqb c """".

Section Reader.
(** Reads a string literal. *)
Context (unquote : string -> option (string * string)).

Fixpoint expression (fuel : nat) (s : string) {struct fuel} : option (expr * string) :=
  match fuel with
  | O => None
  | S f =>
    match s with
    | EmptyString => None
    | String c r =>
      if Ascii.eqb c "[" then match expressions f "]" r with Some (l, r') => Some (EList l, r') | None => None end
      else if Ascii.eqb c "{" then match entries f r with Some (l, r') => Some (EDict l, r') | None => None end
      else if is_sign c then let (t, r') := take is_numeric s in Some (ENum t, r')
      else if is_mark c then match unquote s with Some (t, r') => Some (EStr t, r') | None => None end
      else if is_word c then
        let (n, r') := take is_word s in
        match behind "(" r' with
        | Some r2 => match expressions f ")" r2 with Some (l, r3) => Some (ECall n l, r3) | None => None end
        | None => Some (EName n, r')
        end
      else None
    end
  end
with expressions (fuel : nat) (close s : string) {struct fuel} : option (list expr * string) :=
  match fuel with
  | O => None
  | S f =>
    match behind close s with
    | Some r => Some ([], r)
    | None =>
      match expression f s with
      | None => None
      | Some (e, r) =>
        match behind close r, behind ", " r with
        | Some r', _ => Some ([e], r')
        | None, Some r' => match expressions f close r' with Some (l, r2) => Some (e :: l, r2) | None => None end
        | None, None => None
        end
      end
    end
  end
with entries (fuel : nat) (s : string) {struct fuel} : option (list (expr * expr) * string) :=
  match fuel with
  | O => None
  | S f =>
    match behind "}" s with
    | Some r => Some ([], r)
    | None =>
      match expression f s with
      | None => None
      | Some (k, r) =>
        match behind ": " r with
        | None => None
        | Some r1 =>
          match expression f r1 with
          | None => None
          | Some (v, r2) =>
            match behind "}" r2, behind ", " r2 with
            | Some r', _ => Some ([(k, v)], r')
            | None, Some r' => match entries f r' with Some (l, r3) => Some ((k, v) :: l, r3) | None => None end
            | None, None => None
            end
          end
        end
      end
    end
  end.

Definition read (s : string) : option expr :=
  match expression (2 * String.length s) s with Some (e, EmptyString) => Some e | _ => None end.
End Reader.

(** * Values *)
Inductive val (N : Type) :=
| VNum (token : string) | VStr (s : string) | VNone | VList (l : list (val N)) | VDict (l : list (val N * val N))
| VAttrs (a : attrs) | VPoint2 (p : pt N) | VPoint (p : pt N)
| VLine2 (l : ln N) | VPolygon2 (l : ln N) | VLine (l : ln N) | VPolygon (l : ln N) | VConstLine (l : ln N)
| VLanelet (l : lane N) (regs : list (val N)) | VConstLanelet (l : lane N) (regs : list (val N))
| VArea (a : area N) (regs : list (val N))
| VLight (id : Z) (a : attrs) (lights : list (val N)) (stop : val N)
| VYield (id : Z) (a : attrs) (first yielding : list (val N)) (stop : val N).
Arguments VNum {N}. Arguments VStr {N}. Arguments VNone {N}. Arguments VList {N}. Arguments VDict {N}.
Arguments VAttrs {N}. Arguments VPoint2 {N}. Arguments VPoint {N}. Arguments VLine2 {N}. Arguments VPolygon2 {N}.
Arguments VLine {N}. Arguments VPolygon {N}. Arguments VConstLine {N}. Arguments VLanelet {N}. Arguments VConstLanelet {N}.
Arguments VArea {N}. Arguments VLight {N}. Arguments VYield {N}.

Fixpoint all {A} (l : list (option A)) : option (list A) :=
  match l with
  | [] => Some []
  | Some x :: r => match all r with Some t => Some (x :: t) | None => None end
  | None :: _ => None
  end.

Definition bind {A B} (o : option A) (f : A -> option B) : option B := match o with Some x => f x | None => None end.
Notation "'do' x <- o ; r" := (bind o (fun x => r)) (at level 200, x name, o at level 100, r at level 200).

Section Evaluation.
Context {N : Type} (num : string -> option N).

(** Conversions of arguments. *)
Definition as_id (v : val N) : option Z := match v with VNum t => number t | _ => None end.
Definition as_num (v : val N) : option N := match v with VNum t => num t | _ => None end.
Definition as_str (v : val N) : option string := match v with VStr s => Some s | _ => None end.
Definition as_items (v : val N) : option (list (val N)) := match v with VList l => Some l | _ => None end.

(** A key that comes again replaces the value. *)
Fixpoint put (k v : string) (a : attrs) : attrs :=
  match a with
  | [] => [(k, v)]
  | (k', v') :: r => if String.eqb k k' then (k, v) :: r else (k', v') :: put k v r
  end.
Fixpoint from_items (a : attrs) (l : list (val N * val N)) : option attrs :=
  match l with
  | [] => Some a
  | (k, v) :: r => do k' <- as_str k; do v' <- as_str v; from_items (put k' v' a) r
  end.
(** An AttributeMap or a dict from strings to strings. *)
Definition as_attrs (v : val N) : option attrs :=
  match v with VAttrs a => Some a | VDict l => from_items [] l | _ => None end.

Definition as_point (v : val N) : option (pt N) := match v with VPoint p => Some p | _ => None end.
Definition as_line (v : val N) : option (ln N) := match v with VLine l => Some l | _ => None end.
Definition as_points (v : val N) : option (list (pt N)) := do l <- as_items v; all (map as_point l).
Definition as_lines (v : val N) : option (list (ln N)) := do l <- as_items v; all (map as_line l).
Definition as_holes (v : val N) : option (list (list (ln N))) := do l <- as_items v; all (map as_lines l).
(** Regulatory elements, lanelets, line strings or polygons: kept as they are. *)
Definition only (p : val N -> bool) (v : val N) : option (list (val N)) :=
  do l <- as_items v; if forallb p l then Some l else None.
Definition is_reg (v : val N) : bool := match v with VLight _ _ _ _ | VYield _ _ _ _ _ => true | _ => false end.
Definition is_lanelet (v : val N) : bool := match v with VLanelet _ _ => true | _ => false end.
Definition is_light (v : val N) : bool := match v with VLine _ | VPolygon _ => true | _ => false end.
Definition as_stop (v : val N) : option (val N) := match v with VNone | VLine _ => Some v | _ => None end.

(** Arguments with a default value at the end. *)
Definition optional {A} (conv : val N -> option A) (default : A) (args : list (val N)) : option (A * list (val N)) :=
  match args with [] => Some (default, []) | v :: r => do x <- conv v; Some (x, r) end.
Definition needed {A} (conv : val N -> option A) (args : list (val N)) : option (A * list (val N)) :=
  match args with [] => None | v :: r => do x <- conv v; Some (x, r) end.
Definition done {A} (args : list (val N)) (x : A) : option A := match args with [] => Some x | _ => None end.

(** Point2d and Point3d: id, x, y, z = 0, attributes = {}. The overload with a BasicPoint3d is left out, no text of
    these has one. *)
Definition call_point (zero : N) (args : list (val N)) : option (pt N) :=
  do i <- needed as_id args; do x <- needed as_num (snd i); do y <- needed as_num (snd x);
  do z <- optional as_num zero (snd y); do a <- optional as_attrs [] (snd z);
  done (snd a) (Pt (fst i) (fst x) (fst y) (fst z) (fst a)).

(** Line strings and polygons: id, points, attributes = {}. All of them want 3D points. LineString3d has
    defaults for the id and the points as well, which no text needs. *)
Definition call_sequence (args : list (val N)) : option (ln N) :=
  do i <- needed as_id args; do p <- needed as_points (snd i); do a <- optional as_attrs [] (snd p);
  done (snd a) (Ln (fst i) (fst p) (fst a)).

(** Lanelet and ConstLanelet: id, leftBound, rightBound, attributes = {}, regelems = []. *)
Definition call_lanelet (args : list (val N)) : option (lane N * list (val N)) :=
  do i <- needed as_id args; do l <- needed as_line (snd i); do r <- needed as_line (snd l);
  do a <- optional as_attrs [] (snd r); do g <- optional (only is_reg) [] (snd a);
  done (snd g) (Lane (fst i) (fst l) (fst r) (fst a), fst g).

(** Area: id, outerBound, innerBounds = [], attributes = {}, regulatoryElements = []. *)
Definition call_area (args : list (val N)) : option (area N * list (val N)) :=
  do i <- needed as_id args; do o <- needed as_lines (snd i); do h <- optional as_holes [] (snd o);
  do a <- optional as_attrs [] (snd h); do g <- optional (only is_reg) [] (snd a);
  done (snd g) (Area (fst i) (fst o) (fst h) (fst a), fst g).

(** TrafficLight: id, attributes, trafficLights, stopLine = None. *)
Definition call_light (args : list (val N)) : option (val N) :=
  do i <- needed as_id args; do a <- needed as_attrs (snd i); do l <- needed (only is_light) (snd a);
  do s <- optional as_stop VNone (snd l); done (snd s) (VLight (fst i) (fst a) (fst l) (fst s)).

(** RightOfWay: id, attributes, rightOfWayLanelets, yieldLanelets, stopLine = None. *)
Definition call_yield (args : list (val N)) : option (val N) :=
  do i <- needed as_id args; do a <- needed as_attrs (snd i); do l <- needed (only is_lanelet) (snd a);
  do y <- needed (only is_lanelet) (snd l);
  do s <- optional as_stop VNone (snd y); done (snd s) (VYield (fst i) (fst a) (fst l) (fst y) (fst s)).

(** A call by name. ConstPoint2d, ConstPoint3d and RegulatoryElement have no constructor. AllWayStop, TrafficSign and
    SpeedLimit want a list of LaneletWithStopLine and a TrafficSignsWithType as third argument, which are no values
    here. *)
Definition call (zero : N) (f : string) (args : list (val N)) : option (val N) :=
  if String.eqb f "AttributeMap" then match args with [VDict l] => option_map VAttrs (from_items [] l) | _ => None end
  else if String.eqb f "Point2d" then option_map VPoint2 (call_point zero args)
  else if String.eqb f "Point3d" then option_map VPoint (call_point zero args)
  else if String.eqb f "LineString2d" then option_map VLine2 (call_sequence args)
  else if String.eqb f "Polygon2d" then option_map VPolygon2 (call_sequence args)
  else if String.eqb f "LineString3d" then option_map VLine (call_sequence args)
  else if String.eqb f "Polygon3d" then option_map VPolygon (call_sequence args)
  else if String.eqb f "ConstLineString3d" then option_map VConstLine (call_sequence args)
  else if String.eqb f "Lanelet" then option_map (fun x => VLanelet (fst x) (snd x)) (call_lanelet args)
  else if String.eqb f "ConstLanelet" then option_map (fun x => VConstLanelet (fst x) (snd x)) (call_lanelet args)
  else if String.eqb f "Area" then option_map (fun x => VArea (fst x) (snd x)) (call_area args)
  else if String.eqb f "TrafficLight" then call_light args
  else if String.eqb f "RightOfWay" then call_yield args
  else None.

Fixpoint eval (zero : N) (e : expr) : option (val N) :=
  match e with
  | ENum t => Some (VNum t)
  | EStr s => Some (VStr s)
  | EName n => if String.eqb n "None" then Some VNone else None
  | EList l => option_map VList (all (map (eval zero) l))
  | EDict l => option_map VDict (all (map (fun kv => do k <- eval zero (fst kv); do v <- eval zero (snd kv); Some (k, v)) l))
  | ECall f l => do args <- all (map (eval zero) l); call zero f args
  end.
End Evaluation.

Inductive outcome (N : Type) := Unreadable | Raises | Value (v : val N).
Arguments Unreadable {N}. Arguments Raises {N}. Arguments Value {N}.

(** Python's [eval] of a text. *)
Definition evaluate {N} (unquote : string -> option (string * string)) (num : string -> option N) (zero : N)
    (s : string) : outcome N :=
  match read unquote s with
  | None => Unreadable
  | Some e => match eval num zero e with Some v => Value v | None => Raises end
  end.

(** * Coordinates that went through their text *)
Definition back_pt {N} (back : N -> N) (p : pt N) : pt N :=
  Pt (pt_id p) (back (pt_x p)) (back (pt_y p)) (back (pt_z p)) (pt_attrs p).
Definition back_ln {N} (back : N -> N) (l : ln N) : ln N := Ln (ln_id l) (map (back_pt back) (ln_pts l)) (ln_attrs l).
Definition back_lane {N} (back : N -> N) (l : lane N) : lane N :=
  Lane (la_id l) (back_ln back (la_left l)) (back_ln back (la_right l)) (la_attrs l).
Definition back_area {N} (back : N -> N) (a : area N) : area N :=
  Area (ar_id a) (map (back_ln back) (ar_outer a)) (map (map (back_ln back)) (ar_inner a)) (ar_attrs a).

(** * What is there to be written: every key once, every coordinate finite *)
Definition keys_once (a : attrs) : Prop := NoDup (map fst a).
Definition fine_pt {N} (finite : N -> Prop) (p : pt N) : Prop :=
  finite (pt_x p) /\ finite (pt_y p) /\ finite (pt_z p) /\ keys_once (pt_attrs p).
Definition fine_ln {N} (finite : N -> Prop) (l : ln N) : Prop := Forall (fine_pt finite) (ln_pts l) /\ keys_once (ln_attrs l).
Definition fine_lane {N} (finite : N -> Prop) (l : lane N) : Prop :=
  fine_ln finite (la_left l) /\ fine_ln finite (la_right l) /\ keys_once (la_attrs l).
Definition fine_area {N} (finite : N -> Prop) (a : area N) : Prop :=
  Forall (fine_ln finite) (ar_outer a) /\ Forall (Forall (fine_ln finite)) (ar_inner a) /\ keys_once (ar_attrs a).
Definition fine_param {N} (finite : N -> Prop) (p : param N) : Prop :=
  match p with
  | PPoint p => fine_pt finite p | PLine l | PPolygon l => fine_ln finite l
  | PLanelet l => fine_lane finite l | PArea a => fine_area finite a | PNone => True
  end.
Definition fine_reg {N} (finite : N -> Prop) (r : reg N) : Prop :=
  NoDup (map fst (rg_params r)) /\ Forall (fun kv => Forall (fine_param finite) (snd kv)) (rg_params r) /\ keys_once (rg_attrs r).

(** How doubles and strings are written, and read. *)
Record contracts {N} (finite : N -> Prop) (show : N -> string) (num : string -> option N) (back : N -> N)
    (quote : string -> string) (unquote : string -> option (string * string)) : Prop := {
  show_token : forall x, finite x -> exists c r, show x = String c r /\ is_sign c = true;
  show_all : forall x, finite x -> forall c pre post, show x = pre ++ String c post -> is_numeric c = true;
  show_num : forall x, finite x -> num (show x) = Some (back x);
  quote_mark : forall s, exists c r, quote s = String c r /\ is_mark c = true;
  quote_read : forall s rest, unquote (quote s ++ rest) = Some (s, rest)
}.
