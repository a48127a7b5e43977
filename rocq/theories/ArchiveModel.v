(** Model of the binary format of a map.

    Source: lanelet2_io/include/lanelet2_io/io_handlers/Serialize.h (SH), lanelet2_io/src/BinHandler.cpp (BH) and
    lanelet2_core/src/RegulatoryElement.cpp (RE). The archive of boost is a list of tokens: one for each number, truth value, string,
    attribute map, size and object number. Reading a token of another kind is undefined. A pointer is saved as in basic_oarchive and
    basic_iarchive of boost: every object gets the next number when it is first met and is written right behind it; it gets its number in the
    reader before its members are read. A regulatory element is identified with its data. A double is the number of its bits. *)
From Coq Require Import List Bool Arith ZArith String.
Import ListNotations.

Notation attributes := (list (string * string)).
(** A line string, polygon or lanelet: the flag of inversion and the address of its data *)
Notation sref := (bool * nat)%type.

(** RuleParameter, RegulatoryElement.h:90. [None] is an expired pointer. *)
Inductive param := PPoint (a : nat) | PLine (r : sref) | PPolygon (r : sref) | PLanelet (r : option sref) | PArea (a : option nat).
(** PointData, LineStringData, LaneletData, AreaData and RegulatoryElementData. [R]: pointers to regulatory elements. The centerline of a lanelet is
    the one that was set (hasCustomCenterline); a cached one is not part of the data. *)
Inductive obj (R : Type) :=
| Point (id : Z) (attrs : attributes) (x y z : Z)
| Line (id : Z) (attrs : attributes) (points : list nat)
| Lanelet (id : Z) (attrs : attributes) (left right : sref) (regs : list R) (center : option sref)
| Area (id : Z) (attrs : attributes) (inner : list (list sref)) (outer : list sref) (regs : list R)
| Reg (id : Z) (attrs : attributes) (params : list (string * list param)).
Arguments Point {R}. Arguments Line {R}. Arguments Lanelet {R}. Arguments Area {R}. Arguments Reg {R}.
Definition id_of {R} (o : obj R) : Z :=
  match o with Point i _ _ _ _ | Line i _ _ | Lanelet i _ _ _ _ _ | Area i _ _ _ _ | Reg i _ _ => i end.
Definition attrs_of {R} (o : obj R) : attributes :=
  match o with Point _ t _ _ _ | Line _ t _ | Lanelet _ t _ _ _ _ | Area _ t _ _ _ | Reg _ t _ => t end.

(** [Expired]: LaneletError. [Invalid]: InvalidInputError. [Undef]: undefined behaviour. [NoFuel]: does not end. *)
Inductive outcome (T : Type) := Done (x : T) | Expired | Invalid | Undef | NoFuel.
Arguments Done {T} x. Arguments Expired {T}. Arguments Invalid {T}. Arguments Undef {T}. Arguments NoFuel {T}.
Definition bind {A B} (x : outcome A) (f : A -> outcome B) : outcome B :=
  match x with Done a => f a | Expired => Expired | Invalid => Invalid | Undef => Undef | NoFuel => NoFuel end.
Notation "'do' x <- e ; f" := (bind e (fun x => f)) (at level 200, x pattern, e at level 100, f at level 200).

Inductive token := TInt (z : Z) | TBool (b : bool) | TAttrs (l : attributes) | TSize (n : nat) | TStr (s : string) | TObj (n : nat).

(** * Writing *)

Section Write.
Variable heap : list (obj nat).

(** The objects written so far, by their number, and RegelemSerialization::serializing_ *)
Record wstate := WState { seen : list nat; sent : list Z }.
Definition writes := wstate -> outcome (list token * wstate).
Definition put (t : token) : writes := fun s => Done ([t], s).
Definition skip : writes := fun s => Done ([], s).
Definition seq_ (f g : writes) : writes := fun s => do (u, s1) <- f s; do (v, s2) <- g s1; Done (u ++ v, s2).
Infix ";;" := seq_ (at level 60, right associativity).
Fixpoint put_all {T} (f : T -> writes) (l : list T) : writes :=
  match l with [] => skip | x :: r => f x ;; put_all f r end.
(** A vector or map: its size and its elements *)
Definition put_list {T} (f : T -> writes) (l : list T) : writes := put (TSize (List.length l)) ;; put_all f l.

Fixpoint index_of (a : nat) (l : list nat) : option nat :=
  match l with [] => None | b :: r => if Nat.eqb a b then Some 0 else option_map S (index_of a r) end.

Section Members.
(** How a pointer is written *)
Variable ptr : nat -> writes.
(** SH:110-116, SH:173-178, SH:188-193 *)
Definition put_ref (r : sref) : writes := put (TBool (fst r)) ;; ptr (snd r).
(** SH:413-423 *)
Definition put_reg (a : nat) : writes := fun s =>
  match nth_error heap a with
  | Some o =>
      (put (TInt (id_of o)) ;;
       fun s => if existsb (Z.eqb (id_of o)) (sent s) then Done ([], s) else ptr a (WState (seen s) (id_of o :: sent s))) s
  | None => Undef
  end.
(** save of boost::variant, SH:139-145, SH:312-318 *)
Definition put_param (p : param) : writes :=
  match p with
  | PPoint a => put (TSize 0) ;; ptr a
  | PLine r => put (TSize 1) ;; put_ref r
  | PPolygon r => put (TSize 2) ;; put_ref r
  | PLanelet r => put (TSize 3) ;; match r with None => fun _ => Expired | Some r => put_ref r end
  | PArea a => put (TSize 4) ;; match a with None => fun _ => Expired | Some a => ptr a end
  end.
(** save_construct_data: points SH:241-243, line strings SH:156-159, lanelets SH:75-86, areas SH:279-286, regulatory elements SH:396-398 *)
Definition put_members (o : obj nat) : writes :=
  match o with
  | Point i t x y z => put (TInt i) ;; put (TAttrs t) ;; put (TInt x) ;; put (TInt y) ;; put (TInt z)
  | Line i t points => put (TInt i) ;; put (TAttrs t) ;; put_list ptr points
  | Lanelet i t lft rgt regs center =>
      put (TInt i) ;; put (TAttrs t) ;; put_ref lft ;; put_ref rgt ;; put_list put_reg regs ;;
      match center with None => put (TBool false) | Some c => put (TBool true) ;; put_ref c end
  | Area i t inner outer regs =>
      put (TInt i) ;; put (TAttrs t) ;; put_list (put_list put_ref) inner ;; put_list put_ref outer ;; put_list put_reg regs
  | Reg i t params => put (TInt i) ;; put (TAttrs t) ;; put_list (fun e => put (TStr (fst e)) ;; put_list put_param (snd e)) params
  end.
End Members.

(** save_pointer of boost: the number, and the object if it is new. The depth is at most the number of objects. *)
Fixpoint put_ptr (fuel : nat) (a : nat) : writes := fun s =>
  match index_of a (seen s) with
  | Some n => Done ([TObj n], s)
  | None =>
      match fuel with
      | O => NoFuel
      | S fuel =>
          match nth_error heap a with
          | Some o => (put (TObj (List.length (seen s))) ;; put_members (put_ptr fuel) o) (WState (seen s ++ [a]) (sent s))
          | None => Undef
          end
      end
  end.

(** The layers of a map, in the order of their iteration *)
Record layers := Layers { points_ : list nat; lines : list sref; polygons : list sref; areas : list nat; lanelets : list sref; regs_ : list nat }.
(** SH:448-464 *)
Definition put_map (m : layers) : writes :=
  let ptr := put_ptr (List.length heap) in
  put_list ptr (points_ m) ;; put_list (put_ref ptr) (lines m) ;; put_list (put_ref ptr) (polygons m) ;; put_list ptr (areas m) ;;
  put_list (put_ref ptr) (lanelets m) ;; put_list (put_reg ptr) (regs_ m).
End Write.

(** BinWriter::write, BH:22-31. [counter] is the next id of the process, which is issued. *)
Definition write_file (heap : list (obj nat)) (m : layers) (counter : Z) : outcome (list token * Z) :=
  do (u, _) <- put_map heap m (WState [] []); Done (u ++ [TInt counter], (counter + 1)%Z).

(** * Reading *)

Section Read.
(** What constructors of regulatory elements look at: their attributes, and kind and attributes of their parameters; nothing for expired ones and
    those that may be incomplete. *)
Inductive view := VPoint | VLine (t : attributes) | VPolygon (t : attributes) | VLanelet | VArea.
(** The registry of RegulatoryElementFactory: [None] is an unknown rule, [Some false] a constructor that throws. *)
Variable registry : string -> option (attributes -> list (string * list view) -> bool).

(** [objs]: object_id_vector, [None] for an object whose constructor did not run yet. Pointers to regulatory elements may be null.
    [pending]: RegelemDeserialization, SH:352-390: by id the result and the pointers waiting for it, given by object and position. *)
Definition entry := (option nat * list (nat * nat))%type.
Record rstate := RState { input : list token; objs : list (option (obj (option nat))); pending : list (Z * entry) }.
Definition reads (T : Type) := rstate -> outcome (T * rstate).
Definition next : reads token := fun l =>
  match input l with [] => Undef | t :: r => Done (t, RState r (objs l) (pending l)) end.
Definition get_int : reads Z := fun l => do (t, l) <- next l; match t with TInt z => Done (z, l) | _ => Undef end.
Definition get_bool : reads bool := fun l => do (t, l) <- next l; match t with TBool b => Done (b, l) | _ => Undef end.
Definition get_attrs : reads attributes := fun l => do (t, l) <- next l; match t with TAttrs b => Done (b, l) | _ => Undef end.
Definition get_size : reads nat := fun l => do (t, l) <- next l; match t with TSize n => Done (n, l) | _ => Undef end.
Definition get_str : reads string := fun l => do (t, l) <- next l; match t with TStr s => Done (s, l) | _ => Undef end.
Fixpoint get_all {T} (f : reads T) (n : nat) : reads (list T) := fun l =>
  match n with
  | O => Done ([], l)
  | S n => do (x, l) <- f l; do (r, l) <- get_all f n l; Done (x :: r, l)
  end.
Definition get_list {T} (f : reads T) : reads (list T) := fun l => do (n, l) <- get_size l; get_all f n l.

Fixpoint replace {T} (n : nat) (x : T) (l : list T) : list T :=
  match l, n with
  | [], _ => []
  | _ :: r, O => x :: r
  | y :: r, S n => y :: replace n x r
  end.
Definition set_obj (n : nat) (o : obj (option nat)) (l : rstate) : rstate := RState (input l) (replace n (Some o) (objs l)) (pending l).
(** Assignment to a pointer of a lanelet or area *)
Definition set_slot (n i : nat) (v : option nat) (os : list (option (obj (option nat)))) : list (option (obj (option nat))) :=
  match nth_error os n with
  | Some (Some (Lanelet id t lft rgt regs c)) => replace n (Some (Lanelet id t lft rgt (replace i v regs) c)) os
  | Some (Some (Area id t inner outer regs)) => replace n (Some (Area id t inner outer (replace i v regs))) os
  | _ => os
  end.
Fixpoint set_slots (ps : list (nat * nat)) (v : option nat) (os : list (option (obj (option nat)))) : list (option (obj (option nat))) :=
  match ps with [] => os | (n, i) :: r => set_slots r v (set_slot n i v os) end.

Fixpoint find_entry (id : Z) (p : list (Z * entry)) : option entry :=
  match p with [] => None | (i, e) :: r => if Z.eqb id i then Some e else find_entry id r end.
Fixpoint set_entry (id : Z) (e : entry) (p : list (Z * entry)) : list (Z * entry) :=
  match p with [] => [(id, e)] | (i, x) :: r => if Z.eqb id i then (i, e) :: r else (i, x) :: set_entry id e r end.

Fixpoint lookup (k : string) (t : attributes) : option string :=
  match t with [] => None | (k', v) :: r => if String.eqb k k' then Some v else lookup k r end.
Fixpoint set_attr (k v : string) (t : attributes) : attributes :=
  match t with [] => [(k, v)] | (k', v') :: r => if String.eqb k k' then (k', v) :: r else (k', v') :: set_attr k v r end.

(** What a constructor sees of its parameters; line strings are complete, since they lead to points only. *)
Definition view_param (os : list (option (obj (option nat)))) (p : param) : outcome view :=
  match p with
  | PPoint _ => Done VPoint
  | PLine r => match nth_error os (snd r) with Some (Some o) => Done (VLine (attrs_of o)) | _ => Undef end
  | PPolygon r => match nth_error os (snd r) with Some (Some o) => Done (VPolygon (attrs_of o)) | _ => Undef end
  | PLanelet _ => Done VLanelet
  | PArea _ => Done VArea
  end.
Fixpoint map_out {A B} (f : A -> outcome B) (l : list A) : outcome (list B) :=
  match l with [] => Done [] | x :: r => do y <- f x; do ys <- map_out f r; Done (y :: ys) end.
(** RegulatoryElementFactory::create, RE:112-123, with the lookup of the subtype, SH:434-436 *)
Definition rule_of (t : attributes) : string :=
  match lookup "subtype" t with None => "regulatory_element" | Some v => if String.eqb v "" then "regulatory_element" else v end.
Definition create (n : nat) (l : rstate) : outcome rstate :=
  match nth_error (objs l) n with
  | Some (Some (Reg i t params)) =>
      let t' := set_attr "subtype" (rule_of t) t in
      match registry (rule_of t) with
      | None => Invalid
      | Some accepts =>
          do vs <- map_out (fun e => do v <- map_out (view_param (objs l)) (snd e); Done (fst e, v)) params;
          if accepts t' vs then Done (set_obj n (Reg i t' params) l) else Invalid
      end
  | _ => Undef
  end.

Inductive kind := KPoint | KLine | KLanelet | KArea | KReg.
Section Pointers.
(** How a pointer to an object of a kind is read *)
Variable ptr : kind -> reads nat.
(** SH:117-123, SH:179-186, SH:194-201 *)
Definition get_ref (k : kind) : reads sref := fun l => do (b, l) <- get_bool l; do (a, l) <- ptr k l; Done ((b, a), l).
(** SH:425-438 for the pointer at position [slot]. The result is the value of the pointer afterwards; the caller stores it. currentlyDeserializing,
    SH:359-373; deserializationDone, SH:374-380. *)
Definition get_reg (slot : option (nat * nat)) : reads (option nat) := fun l =>
  do (id, l) <- get_int l;
  match find_entry id (pending l) with
  | Some (Some r, _) => Done (Some r, l)
  | Some (None, ps) =>
      Done (None, RState (input l) (objs l) (set_entry id (None, match slot with Some p => ps ++ [p] | None => ps end) (pending l)))
  | None =>
      do (n, l) <- ptr KReg (RState (input l) (objs l) (set_entry id (None, []) (pending l)));
      do l <- create n l;
      match nth_error (objs l) n with
      | Some (Some o) =>
          match find_entry (id_of o) (pending l) with
          | Some (_, ps) => Done (Some n, RState (input l) (set_slots ps (Some n) (objs l)) (set_entry (id_of o) (Some n, ps) (pending l)))
          | None => Undef
          end
      | _ => Undef
      end
  end.
(** load of boost::variant, SH:146-151, SH:319-324 *)
Definition get_param : reads param := fun l =>
  do (w, l) <- get_size l;
  match w with
  | 0 => do (a, l) <- ptr KPoint l; Done (PPoint a, l)
  | 1 => do (r, l) <- get_ref KLine l; Done (PLine r, l)
  | 2 => do (r, l) <- get_ref KLine l; Done (PPolygon r, l)
  | 3 => do (r, l) <- get_ref KLanelet l; Done (PLanelet (Some r), l)
  | 4 => do (a, l) <- ptr KArea l; Done (PArea (Some a), l)
  | _ => Undef
  end.
(** loadRegelems, SH:28-36: the vector has its size before its elements are read. [n]: the object, [i]: the next position *)
Fixpoint get_regs (n i count : nat) : reads unit := fun l =>
  match count with
  | O => Done (tt, l)
  | S count =>
      do (v, l) <- get_reg (Some (n, i)) l;
      get_regs n (S i) count (RState (input l) (match v with Some _ => set_slot n i v (objs l) | None => objs l end) (pending l))
  end.
(** load_construct_data of the object number [n]: points SH:245-253, line strings SH:161-170, lanelets SH:88-107, areas SH:288-299,
    regulatory elements SH:400-409 *)
Definition get_members (k : kind) (n : nat) : reads unit := fun l =>
  do (i, l) <- get_int l; do (t, l) <- get_attrs l;
  match k with
  | KPoint => do (x, l) <- get_int l; do (y, l) <- get_int l; do (z, l) <- get_int l; Done (tt, set_obj n (Point i t x y z) l)
  | KLine => do (ps, l) <- get_list (ptr KPoint) l; Done (tt, set_obj n (Line i t ps) l)
  | KLanelet =>
      do (lft, l) <- get_ref KLine l; do (rgt, l) <- get_ref KLine l;
      do (size, l) <- get_size l;
      do (_, l) <- get_regs n 0 size (set_obj n (Lanelet i t lft rgt (repeat None size) None) l);
      do (has, l) <- get_bool l;
      if has : bool then
        do (c, l) <- get_ref KLine l;
        match nth_error (objs l) n with
        | Some (Some (Lanelet i t lft rgt regs _)) => Done (tt, set_obj n (Lanelet i t lft rgt regs (Some c)) l)
        | _ => Undef
        end
      else Done (tt, l)
  | KArea =>
      do (inner, l) <- get_list (get_list (get_ref KLine)) l; do (outer, l) <- get_list (get_ref KLine) l;
      do (size, l) <- get_size l;
      get_regs n 0 size (set_obj n (Area i t inner outer (repeat None size)) l)
  | KReg =>
      do (ps, l) <- get_list (fun l => do (r, l) <- get_str l; do (v, l) <- get_list get_param l; Done ((r, v), l)) l;
      Done (tt, set_obj n (Reg i t ps) l)
  end.
End Pointers.

(** load_pointer of boost: an old object, or a new one with the next number *)
Fixpoint get_ptr (fuel : nat) (k : kind) : reads nat := fun l =>
  match fuel with
  | O => NoFuel
  | S fuel =>
      do (t, l) <- next l;
      match t with
      | TObj n =>
          if n <? List.length (objs l) then Done (n, l)
          else
            let m := List.length (objs l) in
            do (_, l) <- get_members (get_ptr fuel) k m (RState (input l) (objs l ++ [None]) (pending l));
            Done (m, l)
      | _ => Undef
      end
  end.

(** loadLayer, SH:468-477: the layer has an element for each id; [key] is the address of the element. *)
Fixpoint get_layer {T} (f : reads T) (key : T -> nat) (n : nat) (acc : list T) : reads (list T) := fun l =>
  match n with
  | O => Done (acc, l)
  | S n =>
      do (x, l) <- f l;
      match nth_error (objs l) (key x) with
      | Some (Some o) =>
          let known := existsb (fun y => match nth_error (objs l) (key y) with Some (Some p) => Z.eqb (id_of o) (id_of p) | _ => false end) acc in
          get_layer f key n (if known then acc else acc ++ [x]) l
      | _ => Undef
      end
  end.
(** SH:466-491 *)
Definition get_map : reads layers := fun l =>
  let ptr := get_ptr (List.length (input l)) in
  let layer {T} (f : reads T) (key : T -> nat) : reads (list T) := fun l => do (n, l) <- get_size l; get_layer f key n [] l in
  do (ps, l) <- layer (ptr KPoint) (fun a => a) l;
  do (ls, l) <- layer (get_ref ptr KLine) snd l;
  do (gs, l) <- layer (get_ref ptr KLine) snd l;
  do (ars, l) <- layer (ptr KArea) (fun a => a) l;
  do (lls, l) <- layer (get_ref ptr KLanelet) snd l;
  do (rs, l) <- layer (fun l => do (v, l) <- get_reg ptr None l; match v with Some r => Done (r, l) | None => Undef end) (fun a => a) l;
  Done (Layers ps ls gs ars lls rs, l).

(** The pointers of parameters to lanelets and areas are weak (SH:146-151, SH:319-327): when the archive is gone, those that are in no layer are expired. *)
Definition keep (m : layers) (p : param) : param :=
  match p with
  | PLanelet (Some r) => if existsb (Nat.eqb (snd r)) (map snd (lanelets m)) then p else PLanelet None
  | PArea (Some a) => if existsb (Nat.eqb a) (areas m) then p else PArea None
  | _ => p
  end.
Definition settle (m : layers) (os : list (option (obj (option nat)))) : list (option (obj (option nat))) :=
  map (option_map (fun o => match o with Reg i t ps => Reg i t (map (fun e => (fst e, map (keep m) (snd e))) ps) | _ => o end)) os.

(** registerId, LaneletMap.cpp:885-891, without overflow (see C02) *)
Definition register (id counter : Z) : Z := if (counter <? id + 1)%Z then (id + 1)%Z else counter.
(** BinParser::parse, BH:33-45: the map and the next id of the process *)
Definition read_file (u : list token) (counter : Z) : outcome (list (option (obj (option nat))) * layers * Z) :=
  do (m, l) <- get_map (RState u [] []);
  do (c, _) <- get_int l;
  Done (settle m (objs l), m, register c counter).
End Read.

(** * The registered constructors *)

Definition role (r : string) (ps : list (string * list view)) : list view :=
  match find (fun e => String.eqb r (fst e)) ps with Some e => snd e | None => [] end.
Definition is_shape (v : view) : bool := match v with VLine _ | VPolygon _ => true | _ => false end.
Definition is_vline (v : view) : bool := match v with VLine _ => true | _ => false end.
Definition is_vlanelet (v : view) : bool := match v with VLanelet => true | _ => false end.
(** BasicRegulatoryElements.cpp:168-175 *)
Definition traffic_light (ps : list (string * list view)) : bool :=
  existsb is_shape (role "refers" ps) && (List.length (filter is_vline (role "ref_line" ps)) <=? 1).
(** BasicRegulatoryElements.cpp:205-212 *)
Definition right_of_way (ps : list (string * list view)) : bool :=
  existsb is_vlanelet (role "right_of_way" ps) && existsb is_vlanelet (role "yield" ps).
(** BasicRegulatoryElements.cpp:270-272, 286-300 *)
Definition traffic_sign (t : attributes) (ps : list (string * list view)) : bool :=
  match filter is_shape (role "refers" ps) with
  | VLine t' :: _ | VPolygon t' :: _ => match lookup "subtype" t' with Some _ => true | None => false end
  | _ => match lookup "sign_type" t with Some _ => true | None => false end
  end.
(** BasicRegulatoryElements.cpp:453-468 *)
Definition all_way_stop (ps : list (string * list view)) : bool :=
  (List.length (role "right_of_way" ps) =? 0) &&
  ((List.length (role "ref_line" ps) =? 0) || (List.length (role "ref_line" ps) =? List.length (role "yield" ps))).
(** RegulatoryElement.cpp:87, BasicRegulatoryElements.cpp:155-159 and the rule names of the classes *)
Definition builtin (rule : string) : option (attributes -> list (string * list view) -> bool) :=
  if String.eqb rule "regulatory_element" then Some (fun _ _ => true)
  else if String.eqb rule "traffic_light" then Some (fun _ => traffic_light)
  else if String.eqb rule "right_of_way" then Some (fun _ => right_of_way)
  else if String.eqb rule "traffic_sign" then Some traffic_sign
  else if String.eqb rule "speed_limit" then Some traffic_sign
  else if String.eqb rule "all_way_stop" then Some (fun _ => all_way_stop)
  else None.
