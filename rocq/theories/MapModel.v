(** Model of lanelet::LaneletMap: layers, id assignment, LaneletMap::add,
    LaneletSubmap::add, utils::createMap and the usage lookup.

    Source: lanelet2_core/src/LaneletMap.cpp.

    The primitives live on a heap of immutable structure; only the ids change
    (setId). Addresses are shared by all kinds of primitives. Simplifications:
    - coordinates and attributes are not part of the heap, whether the bounding
      box of a primitive is empty is a parameter ([hp_boxless]);
    - ids are unbounded integers, the overflow of the id counter is the subject
      of IdModel.v;
    - the calls run in one thread;
    - the list of regulatory elements of a lanelet or area holds no null pointer
      (addRegulatoryElement refuses them, Lanelet.h:286-291, Area.h:240-245). *)
From Coq Require Import ZArith List Bool.
Import ListNotations.
Open Scope Z_scope.

Inductive kind := KPoint | KLine | KPoly | KLanelet | KArea | KReg.

Definition kind_eqb (a b : kind) : bool :=
  match a, b with
  | KPoint, KPoint | KLine, KLine | KPoly, KPoly
  | KLanelet, KLanelet | KArea, KArea | KReg, KReg => true
  | _, _ => false
  end.

(** A primitive as the user holds it: the address of the data object and the
    flag "inverted" (only line strings and lanelets can be inverted;
    LineString.h:298, Lanelet.h:128). *)
Definition handle := (nat * bool)%type.
Definition h_addr (h : handle) : nat := fst h.
Definition flip (h : handle) : handle := (fst h, negb (snd h)).
Definition handle_eqb (a b : handle) : bool :=
  Nat.eqb (fst a) (fst b) && Bool.eqb (snd a) (snd b).

(** RuleParameter, RegulatoryElement.h:24: lanelets and areas are weak references.
    A weak reference to a lanelet remembers the inverted flag, Lanelet.h:316-338. *)
Inductive param :=
| ParPoint (a : nat)
| ParLine (h : handle)
| ParPoly (a : nat)
| ParLanelet (h : handle)
| ParArea (a : nat).

(** The data objects. The parameters of a regulatory element are listed in the
    order in which begin()/end() and applyVisitor walk through the roles
    (RegulatoryElement.h:242, RegulatoryElement.cpp:146-162). *)
Inductive object :=
| OPoint
| OLine (pts : list nat)
| OPoly (pts : list nat)
| OLanelet (left right : handle) (center : option handle) (regs : list nat)
| OArea (outer : list handle) (inner : list (list handle)) (regs : list nat)
| OReg (params : list param).

Record heap := Heap {
  hp_objs : list object;         (* the address is the position *)
  hp_boxless : nat -> bool       (* boundingBox2d(...).isEmpty() *)
}.

Definition obj (hp : heap) (a : nat) : option object := nth_error (hp_objs hp) a.

Definition kind_of (o : object) : kind :=
  match o with
  | OPoint => KPoint | OLine _ => KLine | OPoly _ => KPoly
  | OLanelet _ _ _ _ => KLanelet | OArea _ _ _ => KArea | OReg _ => KReg
  end.

(** not expired(): the object a weak reference points to still exists. *)
Definition alive (hp : heap) (k : kind) (a : nat) : bool :=
  match obj hp a with Some o => kind_eqb (kind_of o) k | None => false end.

(** Iteration over a line string or polygon, LineString.h:298-306. *)
Definition points_of (hp : heap) (h : handle) : list nat :=
  match obj hp (h_addr h) with
  | Some (OLine pts) => if snd h then rev pts else pts
  | Some (OPoly pts) => pts
  | _ => []
  end.

(** ConstLanelet::leftBound / rightBound, Lanelet.h:164-175. *)
Definition left_of (hp : heap) (h : handle) : handle :=
  match obj hp (h_addr h) with
  | Some (OLanelet l r _ _) => if snd h then flip r else l
  | _ => (0%nat, false)
  end.
Definition right_of (hp : heap) (h : handle) : handle :=
  match obj hp (h_addr h) with
  | Some (OLanelet l r _ _) => if snd h then flip l else r
  | _ => (0%nat, false)
  end.

(** The stored centerline as seen through the handle, Lanelet.h:193-195.
    [None]: nothing stored. *)
Definition center_of (hp : heap) (h : handle) : option handle :=
  match obj hp (h_addr h) with
  | Some (OLanelet _ _ c _) =>
    match c with Some x => Some (if snd h then flip x else x) | None => None end
  | _ => None
  end.

Definition regs_of (hp : heap) (a : nat) : list nat :=
  match obj hp a with
  | Some (OLanelet _ _ _ regs) => regs
  | Some (OArea _ _ regs) => regs
  | _ => []
  end.
(** outerBound() followed by all innerBounds(). *)
Definition rings_of (hp : heap) (a : nat) : list handle :=
  match obj hp a with
  | Some (OArea outer inner _) => outer ++ concat inner
  | _ => []
  end.
Definition params_of (hp : heap) (a : nat) : list param :=
  match obj hp a with Some (OReg ps) => ps | _ => [] end.

(** Keys of the usage lookup. *)
Definition ukey := (kind * handle)%type.

Definition param_key (p : param) : ukey :=
  match p with
  | ParPoint a => (KPoint, (a, false))
  | ParLine h => (KLine, h)
  | ParPoly a => (KPoly, (a, false))
  | ParLanelet h => (KLanelet, h)
  | ParArea a => (KArea, (a, false))
  end.

(** What UsageLookup<T>::add inserts for one primitive, LaneletMap.cpp:221-275. *)
Definition usage_keys (hp : heap) (h : handle) : list ukey :=
  match obj hp (h_addr h) with
  | None | Some OPoint => []
  | Some (OLine _) | Some (OPoly _) => map (fun p => (KPoint, (p, false))) (points_of hp h)
  | Some (OLanelet _ _ _ regs) =>
    (KLine, left_of hp h) :: (KLine, right_of hp h) :: map (fun r => (KReg, (r, false))) regs
  | Some (OArea outer inner regs) =>
    map (fun l => (KLine, l)) (rings_of hp (h_addr h)) ++ map (fun r => (KReg, (r, false))) regs
  | Some (OReg ps) => map param_key ps
  end.

Record layer := Layer {
  l_elems : list (Z * handle);             (* elements_, in order of insertion *)
  l_usage : list (ukey * Z * handle);      (* multimap: key, hash at insertion, user *)
  l_tree : list handle                     (* contents of the R-tree *)
}.

Definition empty_layer : layer := Layer [] [] [].

Record mstate := MState {
  m_ids : nat -> Z;           (* id of each data object *)
  m_next : Z;                 (* currId, LaneletMap.cpp:880 *)
  m_layer : kind -> layer
}.

(** InvalId = 0, Forward.h. *)
Definition inval : Z := 0.

Definition set_id (a : nat) (i : Z) (s : mstate) : mstate :=
  MState (fun b => if Nat.eqb b a then i else m_ids s b) (m_next s) (m_layer s).

(** utils::getId, LaneletMap.cpp:883; PrimitiveLayer::uniqueId, 552-555. *)
Definition get_id (s : mstate) : Z * mstate :=
  (m_next s, MState (m_ids s) (m_next s + 1) (m_layer s)).

(** utils::registerId, LaneletMap.cpp:885-891. *)
Definition register_id (i : Z) (s : mstate) : mstate :=
  MState (m_ids s) (if m_next s <? i + 1 then i + 1 else m_next s) (m_layer s).

Fixpoint lookup (i : Z) (l : list (Z * handle)) : option handle :=
  match l with
  | [] => None
  | (j, h) :: r => if j =? i then Some h else lookup i r
  end.

(** PrimitiveLayer::exists, LaneletMap.cpp:353-356. *)
Definition exists_in (k : kind) (i : Z) (s : mstate) : bool :=
  negb (i =? inval) &&
  match lookup i (l_elems (m_layer s k)) with Some _ => true | None => false end.

(** PrimitiveLayer::get, LaneletMap.cpp:358-380; [None]: NoSuchPrimitiveError. *)
Definition get (k : kind) (i : Z) (s : mstate) : option handle :=
  if i =? inval then None else lookup i (l_elems (m_layer s k)).

(** std::unordered_map::insert: no effect if the key is present. *)
Definition insert_elem (i : Z) (h : handle) (l : list (Z * handle)) : list (Z * handle) :=
  match lookup i l with Some _ => l | None => l ++ [(i, h)] end.

(** std::hash of the keys: by id for primitives (Primitive.h:329), by pointer for
    regulatory elements (modelled as a constant, it never changes), by
    IdVisitor for parameters, where expired references count as InvalId
    (LaneletMap.cpp:41-63, 88-97). *)
Definition hash (hp : heap) (s : mstate) (key : ukey) : Z :=
  match fst key with
  | KReg => 0
  | KLanelet | KArea => if alive hp (fst key) (h_addr (snd key)) then m_ids s (h_addr (snd key)) else inval
  | _ => m_ids s (h_addr (snd key))
  end.

(** operator== of the keys: data pointer and inverted flag (LineString.h:714,
    Primitive.h:85); weak references are equal only if both are alive
    (Lanelet.h:373, Area.h:329). *)
Definition key_eqb (hp : heap) (x y : ukey) : bool :=
  kind_eqb (fst x) (fst y) && handle_eqb (snd x) (snd y) &&
  match fst x with
  | KLanelet | KArea => alive hp (fst x) (h_addr (snd x))
  | _ => true
  end.

Definition usage_entries (hp : heap) (s : mstate) (h : handle) : list (ukey * Z * handle) :=
  map (fun key => (key, hash hp s key, h)) (usage_keys hp h).

Definition in_tree (hp : heap) (k : kind) (h : handle) : bool :=
  match k with KPoint => true | _ => negb (hp_boxless hp (h_addr h)) end.

(** PrimitiveLayer::add (all specialisations), LaneletMap.cpp:382-417:
    usage lookup and R-tree are always extended, the element map only if the id
    is not yet a key. Tree::insert 295-300, 318. *)
Definition layer_add (hp : heap) (k : kind) (h : handle) (s : mstate) : mstate :=
  let l := m_layer s k in
  let l' := Layer (insert_elem (m_ids s (h_addr h)) h (l_elems l))
                  (l_usage l ++ usage_entries hp s h)
                  (l_tree l ++ (if in_tree hp k h then [h] else [])) in
  MState (m_ids s) (m_next s) (fun k' => if kind_eqb k' k then l' else m_layer s k').

(** The common head of every LaneletMap::add overload, e.g. LaneletMap.cpp:569-575:
    [None]: the id exists, return. *)
Definition begin_add (k : kind) (a : nat) (s : mstate) : option mstate :=
  if m_ids s a =? inval then
    let '(i, s') := get_id s in Some (set_id a i s')
  else if exists_in k (m_ids s a) s then None
  else Some (register_id (m_ids s a) s).

(** assignIdIfInvalid, LaneletMap.cpp:111-118 and the loops 581-585, 609-613. *)
Definition assign_id (a : nat) (s : mstate) : mstate :=
  if m_ids s a =? inval then let '(i, s') := get_id s in set_id a i s' else s.

(** LaneletMap::add(Point3d), LaneletMap.cpp:675-684. *)
Definition add_point (hp : heap) (a : nat) (s : mstate) : mstate :=
  match begin_add KPoint a s with
  | None => s
  | Some s1 => layer_add hp KPoint (a, false) s1
  end.

Definition add_points (hp : heap) (pts : list nat) (s : mstate) : mstate :=
  fold_left (fun s p => add_point hp p s) pts s.

(** LaneletMap::add(LineString3d), LaneletMap.cpp:661-673. *)
Definition add_line (hp : heap) (h : handle) (s : mstate) : mstate :=
  match begin_add KLine (h_addr h) s with
  | None => s
  | Some s1 => layer_add hp KLine h (add_points hp (points_of hp h) s1)
  end.

Definition add_lines (hp : heap) (l : list handle) (s : mstate) : mstate :=
  fold_left (fun s h => add_line hp h s) l s.

(** LaneletMap::add(Polygon3d), LaneletMap.cpp:647-659. *)
Definition add_poly (hp : heap) (a : nat) (s : mstate) : mstate :=
  match begin_add KPoly a s with
  | None => s
  | Some s1 => layer_add hp KPoly (a, false) (add_points hp (points_of hp (a, false)) s1)
  end.

(** ConstLanelet::hasCustomCenterline, Lanelet.cpp:275-278. *)
Definition custom_center (hp : heap) (h : handle) (s : mstate) : option handle :=
  match center_of hp h with
  | Some c => if m_ids s (h_addr c) =? inval then None else Some c
  | None => None
  end.

Definition assign_ids (l : list nat) (s : mstate) : mstate :=
  fold_left (fun s a => assign_id a s) l s.

(** A loop whose body may run out of fuel. *)
Fixpoint fold_opt {A} (f : A -> mstate -> option mstate) (l : list A) (s : mstate) : option mstate :=
  match l with
  | [] => Some s
  | x :: r => match f x s with None => None | Some s' => fold_opt f r s' end
  end.

(** LaneletMap::add(Lanelet), LaneletMap.cpp:568-592; [add_reg] is the call of
    LaneletMap::add(RegulatoryElementPtr). *)
Definition add_lanelet (hp : heap) (add_reg : nat -> mstate -> option mstate)
    (h : handle) (s : mstate) : option mstate :=
  match begin_add KLanelet (h_addr h) s with
  | None => Some s
  | Some s1 =>
    let s2 := add_line hp (left_of hp h) s1 in
    let s3 := add_line hp (right_of hp h) s2 in
    let s4 := match custom_center hp h s3 with
              | Some c => add_line hp c s3
              | None => s3
              end in
    let s5 := assign_ids (regs_of hp (h_addr h)) s4 in
    let s6 := layer_add hp KLanelet h s5 in
    fold_opt add_reg (regs_of hp (h_addr h)) s6
  end.

(** LaneletMap::add(Area), LaneletMap.cpp:594-621. *)
Definition add_area (hp : heap) (add_reg : nat -> mstate -> option mstate)
    (a : nat) (s : mstate) : option mstate :=
  match begin_add KArea a s with
  | None => Some s
  | Some s1 =>
    let s2 := add_lines hp (rings_of hp a) s1 in
    let s3 := assign_ids (regs_of hp a) s2 in
    let s4 := layer_add hp KArea (a, false) s3 in
    fold_opt add_reg (regs_of hp a) s4
  end.

(** AssignIdVisitor, LaneletMap.cpp:120-140. *)
Definition assign_param (hp : heap) (p : param) (s : mstate) : mstate :=
  match p with
  | ParPoint a | ParPoly a => assign_id a s
  | ParLine h => assign_id (h_addr h) s
  | ParLanelet h => if alive hp KLanelet (h_addr h) then assign_id (h_addr h) s else s
  | ParArea a => if alive hp KArea a then assign_id a s else s
  end.

(** AddVisitor, LaneletMap.cpp:142-163. *)
Definition add_param (hp : heap) (add_ll : handle -> mstate -> option mstate)
    (add_ar : nat -> mstate -> option mstate)
    (p : param) (s : mstate) : option mstate :=
  match p with
  | ParPoint a => Some (add_point hp a s)
  | ParLine h => Some (add_line hp h s)
  | ParPoly a => Some (add_poly hp a s)
  | ParLanelet h => if alive hp KLanelet (h_addr h) then add_ll h s else Some s
  | ParArea a => if alive hp KArea a then add_ar a s else Some s
  end.

(** LaneletMap::add(RegulatoryElementPtr), LaneletMap.cpp:623-645 (not null). *)
Definition add_reg (hp : heap) (add_ll : handle -> mstate -> option mstate)
    (add_ar : nat -> mstate -> option mstate)
    (a : nat) (s : mstate) : option mstate :=
  match begin_add KReg a s with
  | None => Some s
  | Some s1 =>
    let s2 := fold_left (fun s p => assign_param hp p s) (params_of hp a) s1 in
    let s3 := layer_add hp KReg (a, false) s2 in
    fold_opt (add_param hp add_ll add_ar) (params_of hp a) s3
  end.

(** A call of one of the overloads of LaneletMap::add. *)
Inductive target :=
| TPoint (a : nat)
| TLine (h : handle)
| TPoly (a : nat)
| TLanelet (h : handle)
| TArea (a : nat)
| TReg (a : nat).

(** The overloads call each other; [fuel] bounds the depth of the recursion,
    [None] means it was too small. *)
Fixpoint add (hp : heap) (fuel : nat) (t : target) (s : mstate) : option mstate :=
  match fuel with
  | O => None
  | S f =>
    match t with
    | TPoint a => Some (add_point hp a s)
    | TLine h => Some (add_line hp h s)
    | TPoly a => Some (add_poly hp a s)
    | TLanelet h => add_lanelet hp (fun r => add hp f (TReg r)) h s
    | TArea a => add_area hp (fun r => add hp f (TReg r)) a s
    | TReg a => add_reg hp (fun l => add hp f (TLanelet l))
                        (fun l => add hp f (TArea l)) a s
    end
  end.

(** A sequence of calls. *)
Definition add_all (hp : heap) (fuel : nat) (ts : list target) (s : mstate) : option mstate :=
  fold_opt (add hp fuel) ts s.

(** LaneletMap() = default. *)
Definition empty_map (ids : nat -> Z) (next : Z) : mstate :=
  MState ids next (fun _ => empty_layer).

(** PrimitiveLayer::findUsages (primitives and regulatory elements),
    LaneletMap.cpp:165-169, 419-461: equal_range of the multimap. *)
Definition find_usages (hp : heap) (k : kind) (x : ukey) (s : mstate) : list handle :=
  map snd (filter (fun e => (snd (fst e) =? hash hp s x) && key_eqb hp (fst (fst e)) x)
                  (l_usage (m_layer s k))).

(** utils::findUsagesInLanelets / findUsagesInAreas, LaneletMap.cpp:793-811;
    [k] is the layer. std::unique drops equal neighbours. *)
Fixpoint unique (l : list handle) : list handle :=
  match l with
  | [] => []
  | x :: r =>
    match r with
    | [] => [x]
    | y :: _ => if handle_eqb x y then unique r else x :: unique r
    end
  end.
Definition find_usages_in (hp : heap) (k : kind) (p : nat) (s : mstate) : list handle :=
  let ls := find_usages hp KLine (KPoint, (p, false)) s in
  unique (flat_map (fun l => find_usages hp k (KLine, l) s) ls ++
          flat_map (fun l => find_usages hp k (KLine, flip l) s) ls).

(** toMap, LaneletMap.cpp:74-80: the first element of an id wins. *)
Definition to_map (s : mstate) (l : list handle) : list (Z * handle) :=
  fold_left (fun m h => insert_elem (m_ids s (h_addr h)) h m) l [].

(** PrimitiveLayer(const Map&), LaneletMap.cpp:328-351 and Tree(const Map&) 282-293:
    only the layer of areas registers the ids. *)
Definition make_layer (hp : heap) (k : kind) (m : list (Z * handle)) (s : mstate) : mstate :=
  let l := Layer m (flat_map (fun e => usage_entries hp s (snd e)) m)
                 (filter (in_tree hp k) (map snd m)) in
  let s' := MState (m_ids s) (m_next s) (fun k' => if kind_eqb k' k then l else m_layer s k') in
  match k with
  | KArea => fold_left (fun s e => register_id (fst e) s) m s'
  | _ => s'
  end.

(** utils::createMap(Points3d), LaneletMap.cpp:813-816. *)
Definition create_points (hp : heap) (pts : list nat) (s : mstate) : mstate :=
  make_layer hp KPoint (to_map s (map (fun p => (p, false)) pts)) s.

(** utils::createMap(LineStrings3d), LaneletMap.cpp:818-822. *)
Definition create_lines (hp : heap) (ls : list handle) (s : mstate) : mstate :=
  make_layer hp KPoint (to_map s (map (fun p => (p, false)) (flat_map (points_of hp) ls)))
    (make_layer hp KLine (to_map s ls) s).

(** utils::createMap(Polygons3d), LaneletMap.cpp:869-873. *)
Definition create_polys (hp : heap) (ps : list nat) (s : mstate) : mstate :=
  let hs := map (fun p => (p, false)) ps in
  make_layer hp KPoint (to_map s (map (fun p => (p, false)) (flat_map (points_of hp) hs)))
    (make_layer hp KPoly (to_map s hs) s).

(** The line strings createMap(Lanelets, Areas) collects, LaneletMap.cpp:824-843. *)
Definition lines_of_lanelet (hp : heap) (s : mstate) (h : handle) : list handle :=
  left_of hp h :: right_of hp h ::
  match custom_center hp h s with Some c => [c] | None => [] end.

(** utils::createMap(Lanelets, Areas), LaneletMap.cpp:824-865. *)
Definition create_map (hp : heap) (fuel : nat) (lls : list handle) (ars : list nat) (s : mstate)
    : option mstate :=
  let ls := flat_map (lines_of_lanelet hp s) lls ++ flat_map (rings_of hp) ars in
  let pts := map (fun p => (p, false)) (flat_map (points_of hp) ls) in
  let regs := flat_map (fun h => regs_of hp (h_addr h)) lls ++ flat_map (regs_of hp) ars in
  let s1 := make_layer hp KLanelet (to_map s lls) s in
  let s2 := make_layer hp KArea (to_map s (map (fun a => (a, false)) ars)) s1 in
  let s3 := make_layer hp KLine (to_map s ls) s2 in
  let s4 := make_layer hp KPoint (to_map s pts) s3 in
  fold_opt (add hp fuel) (map TReg regs) s4.

(** LaneletSubmap::add, LaneletMap.cpp:197-204, 685-716: checkId assigns or
    registers the id, then the layer is extended; nothing else is added. *)
Definition submap_add (hp : heap) (k : kind) (h : handle) (s : mstate) : mstate :=
  let a := h_addr h in
  layer_add hp k h
    (if m_ids s a =? inval then assign_id a s else register_id (m_ids s a) s).
