(** Model of lanelets, their inverted views, the centerline cache and lanelet
    sequences.

    Sources: lanelet2_core/include/lanelet2_core/primitives/Lanelet.h,
             lanelet2_core/src/Lanelet.cpp,
             lanelet2_core/include/lanelet2_core/primitives/LaneletSequence.h,
             lanelet2_core/src/LaneletSequence.cpp.

    Line strings and lanelets are numbered data objects; handles hold a number and the
    inverted flag. [compute] stands for calculateCenterline (Lanelet.cpp:180-240),
    modelled in CenterlineModel.v; [None] is undefined behaviour. Attributes and
    regulatory elements are left out. *)
From Coq Require Import List Arith ZArith Bool.
From Verif Require Import LineModel.
Import ListNotations.

(** ConstLineString3d: the shared data and the flag inverted_. *)
Record ls := Ls { ls_data : nat; ls_inv : bool }.
(** ConstLineString::invert, LineString.h:532, 546. *)
Definition ls_invert (l : ls) : ls := Ls (ls_data l) (negb (ls_inv l)).
(** operator==, LineString.h:714-716. *)
Definition ls_eqb (a b : ls) : bool := Nat.eqb (ls_data a) (ls_data b) && Bool.eqb (ls_inv a) (ls_inv b).

(** ConstLanelet: the shared data and the flag inverted_, Lanelet.h:215. *)
Record llh := Ll { ll_data : nat; ll_inv : bool }.
(** invert, Lanelet.h:157 and 232. *)
Definition ll_invert (h : llh) : llh := Ll (ll_data h) (negb (ll_inv h)).
(** operator==, Lanelet.h:369-371. *)
Definition ll_eqb (a b : llh) : bool := Nat.eqb (ll_data a) (ll_data b) && Bool.eqb (ll_inv a) (ll_inv b).

Section Lanelet.
Context {P : Type}.
Variable compute : list P -> list P -> option (list P).

(** LineStringData: id and points. *)
Record lsdata := LsD { ls_id : Z; ls_pts : list P }.
(** What centerline_ points to, Lanelet.h:82: a line given by setCenterline, or a
    computed one. A computed line is a fresh LineString3d with InvalId to which nobody
    else has a mutable handle; [n] tells the objects apart. *)
Inductive cl := Cust (l : ls) | Comp (n : nat) (pts : list P).
(** LaneletData, Lanelet.h:22-82. *)
Record lldata := LlD { d_left : ls; d_right : ls; d_center : option cl }.
Record world := World { w_ls : nat -> lsdata; w_ll : nat -> lldata; w_next : nat }.

Definition upd {A} (f : nat -> A) (k : nat) (v : A) : nat -> A := fun j => if Nat.eqb k j then v else f j.
Definition put_ll (x : nat) (d : lldata) (w : world) : world := World (w_ls w) (upd (w_ll w) x d) (w_next w).

(** The points of a line as seen through its handle. *)
Definition line_pts (w : world) (l : ls) : list P :=
  let p := ls_pts (w_ls w (ls_data l)) in if ls_inv l then rev p else p.
Definition cl_pts (w : world) (c : cl) : list P :=
  match c with Cust l => line_pts w l | Comp _ p => p end.

(** leftBound3d / rightBound3d, Lanelet.h:164-166, 173-175, 244, 256. *)
Definition left_bound (w : world) (h : llh) : ls :=
  if ll_inv h then ls_invert (d_right (w_ll w (ll_data h))) else d_left (w_ll w (ll_data h)).
Definition right_bound (w : world) (h : llh) : ls :=
  if ll_inv h then ls_invert (d_left (w_ll w (ll_data h))) else d_right (w_ll w (ll_data h)).

(** LaneletData::hasCustomCenterline, Lanelet.cpp:275-278. *)
Definition has_custom (w : world) (x : nat) : bool :=
  match d_center (w_ll w x) with
  | Some (Cust l) => negb (Z.eqb (ls_id (w_ls w (ls_data l))) 0)
  | _ => false
  end.
(** LaneletData::resetCache, 284-288. *)
Definition reset_cache (x : nat) (w : world) : world :=
  if has_custom w x then w
  else let d := w_ll w x in put_ll x (LlD (d_left d) (d_right d) None) w.
(** LaneletData::setLeftBound / setRightBound, 257-269. *)
Definition data_set_left (x : nat) (b : ls) (w : world) : world :=
  if ls_eqb b (d_left (w_ll w x)) then w
  else let w := reset_cache x w in
       let d := w_ll w x in put_ll x (LlD b (d_right d) (d_center d)) w.
Definition data_set_right (x : nat) (b : ls) (w : world) : world :=
  if ls_eqb b (d_right (w_ll w x)) then w
  else let w := reset_cache x w in
       let d := w_ll w x in put_ll x (LlD (d_left d) b (d_center d)) w.
(** LaneletData::setCenterline, 271-273. *)
Definition data_set_center (x : nat) (l : ls) (w : world) : world :=
  let d := w_ll w x in put_ll x (LlD (d_left d) (d_right d) (Some (Cust l))) w.
(** LaneletData::centerline, 247-255. *)
Definition data_centerline (x : nat) (w : world) : option (cl * world) :=
  let d := w_ll w x in
  match d_center d with
  | Some c => Some (c, w)
  | None =>
    match compute (line_pts w (d_left d)) (line_pts w (d_right d)) with
    | None => None
    | Some q =>
      let c := Comp (w_next w) q in
      Some (c, World (w_ls w) (upd (w_ll w) x (LlD (d_left d) (d_right d) (Some c))) (S (w_next w)))
    end
  end.

(** Lanelet::setLeftBound, setRightBound, setCenterline, Lanelet.h:262-280. *)
Definition set_left (h : llh) (b : ls) (w : world) : world :=
  if ll_inv h then data_set_right (ll_data h) (ls_invert b) w else data_set_left (ll_data h) b w.
Definition set_right (h : llh) (b : ls) (w : world) : world :=
  if ll_inv h then data_set_left (ll_data h) (ls_invert b) w else data_set_right (ll_data h) b w.
Definition set_center (h : llh) (l : ls) (w : world) : world :=
  data_set_center (ll_data h) (if ll_inv h then ls_invert l else l) w.
(** ConstLanelet::centerline3d, Lanelet.h:193-195: which object, and its points as seen
    through the handle. *)
Definition centerline (h : llh) (w : world) : option (cl * list P * world) :=
  match data_centerline (ll_data h) w with
  | None => None
  | Some (c, w') => Some (c, (if ll_inv h then rev (cl_pts w c) else cl_pts w c), w')
  end.

(** The calls a program can make. [OEdit] stands for any change of the points of a line
    (through any handle to the line or to its points), [OSetId] for
    LineString3d::setId. *)
Inductive op :=
| OSetLeft (h : llh) (b : ls)
| OSetRight (h : llh) (b : ls)
| OSetCenter (h : llh) (l : ls)
| OReset (h : llh)                         (* ConstLanelet::resetCache, Lanelet.h:212 *)
| ORead (h : llh)
| OEdit (l : nat) (pts : list P)
| OSetId (l : nat) (i : Z).
Definition step (o : op) (w : world) : option world :=
  match o with
  | OSetLeft h b => Some (set_left h b w)
  | OSetRight h b => Some (set_right h b w)
  | OSetCenter h l => Some (set_center h l w)
  | OReset h => Some (reset_cache (ll_data h) w)
  | ORead h => match centerline h w with None => None | Some (_, _, w') => Some w' end
  | OEdit l pts => Some (World (upd (w_ls w) l (LsD (ls_id (w_ls w l)) pts)) (w_ll w) (w_next w))
  | OSetId l i => Some (World (upd (w_ls w) l (LsD i (ls_pts (w_ls w l)))) (w_ll w) (w_next w))
  end.
Fixpoint run (os : list op) (w : world) : option world :=
  match os with
  | [] => Some w
  | o :: r => match step o w with None => None | Some w' => run r w' end
  end.

(** * Concurrent readers
    Threads that call centerline() or resetCache() on the same lanelet. Every atomic
    access to centerline_ is one step; the bounds do not change meanwhile (that would be
    a data race by itself). *)
Inductive thread :=
| RLoad                      (* atomic_load, 249 *)
| RCalc                      (* saw null: compute, 251 *)
| RStore (c : cl)            (* atomic_store, 252 *)
| RDone (c : cl)             (* returned *centerline, 254 *)
| CLoad                      (* hasCustomCenterline, 285 *)
| CStore                     (* atomic_store of null, 286 *)
| CDone.
Record cstate := CState { c_cache : option cl; c_next : nat; c_thr : list thread }.
Variables (lpts rpts : list P) (ids : nat -> Z).
Definition tset (i : nat) (t : thread) (l : list thread) : list thread := firstn i l ++ t :: skipn (S i) l.
Definition is_custom (c : option cl) : bool :=
  match c with Some (Cust l) => negb (Z.eqb (ids (ls_data l)) 0) | _ => false end.
(** Thread [i] makes one step; [None]: the computation has undefined behaviour. *)
Definition tstep (i : nat) (s : cstate) : option cstate :=
  match nth_error (c_thr s) i with
  | None => Some s
  | Some t =>
    match t with
    | RLoad =>
      match c_cache s with
      | Some c => Some (CState (c_cache s) (c_next s) (tset i (RDone c) (c_thr s)))
      | None => Some (CState (c_cache s) (c_next s) (tset i RCalc (c_thr s)))
      end
    | RCalc =>
      match compute lpts rpts with
      | None => None
      | Some q => Some (CState (c_cache s) (S (c_next s)) (tset i (RStore (Comp (c_next s) q)) (c_thr s)))
      end
    | RStore c => Some (CState (Some c) (c_next s) (tset i (RDone c) (c_thr s)))
    | CLoad =>
      Some (CState (c_cache s) (c_next s) (tset i (if is_custom (c_cache s) then CDone else CStore) (c_thr s)))
    | CStore => Some (CState None (c_next s) (tset i CDone (c_thr s)))
    | RDone _ | CDone => Some s
    end
  end.
Fixpoint trun (sched : list nat) (s : cstate) : option cstate :=
  match sched with
  | [] => Some s
  | i :: r => match tstep i s with None => None | Some s' => trun r s' end
  end.

(** * Lanelet sequences *)
Variable peq : P -> P -> bool.             (* operator== of points *)

(** CompoundLineString3d: the parts (handles) and the flag inverted_. *)
Record cmp := Cmp { cm_parts : list ls; cm_inv : bool }.
Definition cmp_invert (c : cmp) : cmp := Cmp (cm_parts c) (negb (cm_inv c)).
Definition cmp_points (w : world) (c : cmp) : option (list P) :=
  cl_points peq (cm_inv c) (map (line_pts w) (cm_parts c)).

(** LaneletSequenceData, LaneletSequence.h:22-73; the bounds are taken from the lanelets
    when the object is constructed, LaneletSequence.cpp:5-8. *)
Record sqdata := SqD { sq_lls : list llh; sq_left : cmp; sq_right : cmp }.
Definition mk_sqdata (w : world) (lls : list llh) : sqdata :=
  SqD lls (Cmp (map (left_bound w) lls) false) (Cmp (map (right_bound w) lls) false).
Record sq := Sq { sq_data : sqdata; sq_inv : bool }.
(** invert 134, leftBound3d 140-142, rightBound3d 149-151, lanelets 206 (utils::invert
    reverses the container, Utilities.h:169-173), begin/end 209-212, resetCache 238. *)
Definition sq_invert (s : sq) : sq := Sq (sq_data s) (negb (sq_inv s)).
Definition sq_left_bound (s : sq) : cmp :=
  if sq_inv s then cmp_invert (sq_right (sq_data s)) else sq_left (sq_data s).
Definition sq_right_bound (s : sq) : cmp :=
  if sq_inv s then cmp_invert (sq_left (sq_data s)) else sq_right (sq_data s).
Definition sq_lanelets (s : sq) : list llh :=
  if sq_inv s then rev (sq_lls (sq_data s)) else sq_lls (sq_data s).
Definition sq_reset (w : world) (s : sq) : sq := Sq (mk_sqdata w (sq_lls (sq_data s))) (sq_inv s).
(** Constructor from lanelets 107-108 and from sequences 114-115. *)
Definition mk_sq (w : world) (lls : list llh) : sq := Sq (mk_sqdata w lls) false.
Definition mk_sq_of (w : world) (ss : list sq) : sq := mk_sq w (concat (map sq_lanelets ss)).
(** operator==, 259-261: compares lanelets(). *)
Fixpoint lls_eqb (a b : list llh) : bool :=
  match a, b with
  | [], [] => true
  | x :: a, y :: b => ll_eqb x y && lls_eqb a b
  | _, _ => false
  end.
Definition sq_eqb (a b : sq) : bool := lls_eqb (sq_lanelets a) (sq_lanelets b).
End Lanelet.
Arguments op : clear implicits.
Arguments cl : clear implicits.
Arguments world : clear implicits.
