(** Model of the conversion between LaneletMap and osm::File: ToFileWriter and FromFileLoader.

    Source: lanelet2_io/src/OsmHandlerWrite.cpp:55-272, lanelet2_io/src/OsmHandlerLoad.cpp:59-387.

    A map is given by its layers: lists of (id, element) in the order of iteration (an
    unordered_map: any order). Elements refer to each other by id. std::map and
    unordered_map of the loader are ordered lists (the order is not used). Not modelled: pointer
    identity of elements, the text of error messages. *)
From Coq Require Import List Arith Bool String Ascii ZArith.
From Verif Require Import AttrModel OsmModel BoundaryModel.
Import ListNotations.
Local Open Scope string_scope.
Local Open Scope list_scope.

(** A line string as a bound: an element of the layer and the orientation of the handle, or a
    new empty line string with this id (LineString3d(id), OsmHandlerLoad.cpp:241, 247, 385). *)
Inductive bound := Bound (id : Z) (inv : bool) | Dummy (id : Z).
Definition bid (b : bound) : Z := match b with Bound i _ => i | Dummy i => i end.
(** RuleParameter; [None]: the lanelet or area has expired. *)
Inductive param := PPoint (id : Z) | PLine (id : Z) (inv : bool) | PPoly (id : Z) | PLanelet (id : option Z) | PArea (id : option Z).

Section Map.
Context {P D : Type}.
Record mpoint := MPoint { p_attrs : attributes; p_xyz : P }.
(** Points in the order of the data, orientation of the handle in the layer. *)
Record mline := MLine { ml_attrs : attributes; ml_pts : list Z; ml_inv : bool }.
Record mpoly := MPoly { mg_attrs : attributes; mg_pts : list Z }.
(** Bounds as seen through the handle in the layer; the custom centerline. *)
Record mlanelet := MLanelet { ll_attrs : attributes; ll_left : bound; ll_right : bound; ll_center : option bound; ll_regs : list Z }.
Record marea := MArea { ar_attrs : attributes; ar_outer : list (Z * bool); ar_inner : list (list (Z * bool)); ar_regs : list Z }.
(** Parameters by role, in the order of the roles. *)
Record mreg := MReg { re_attrs : attributes; re_params : list (string * list param) }.
Record mmap := MMap { m_points : list (Z * mpoint); m_lines : list (Z * mline); m_polys : list (Z * mpoly);
                      m_lanelets : list (Z * mlanelet); m_areas : list (Z * marea); m_regs : list (Z * mreg) }.

(** * ToFileWriter *)
Section Write.
Variable to_geo : P -> option (D * D * D).       (* Projector::reverse; None: ReverseProjectionError *)
Variable reloc : list nat -> nat -> list nat.    (* see OsmModel *)

(** writeNodes, 76-86. *)
Definition write_nodes (l : list (Z * mpoint)) : list (Z * @node D) * list error :=
  fold_left (fun acc e => let '(m, errs) := acc in
    match to_geo (p_xyz (snd e)) with
    | Some (lat, lon, ele) => (zemplace (fst e) (Node (fst e) (p_attrs (snd e)) lat lon ele) m, errs)
    | None => (m, errs ++ [EProjection (fst e)])
    end) l ([], []).
(** writeOsmWay, 170-186. *)
Definition write_osm_way (nodes : list (Z * @node D)) (acc : list (Z * way) * list error) (id : Z) (a : attributes) (pts : list Z) :=
  let '(m, errs) := acc in
  if forallb (fun i => match zget i nodes with Some _ => true | None => false end) pts
  then (zemplace id (Way id a pts) m, errs) else (m, errs ++ [EWay id]).
(** writeWays, 88-100: an inverted handle is inverted first. *)
Definition write_ways (nodes : list (Z * @node D)) (ls : list (Z * mline)) (ps : list (Z * mpoly)) : list (Z * way) * list error :=
  let acc := fold_left (fun acc e =>
      let h := LS (fst e) (ml_pts (snd e)) (ml_inv (snd e)) in
      write_osm_way nodes acc (fst e) (ml_attrs (snd e)) (points (if ml_inv (snd e) then invert h else h))) ls ([], []) in
  fold_left (fun acc e => write_osm_way nodes acc (fst e) (semplace "area" "true" (mg_attrs (snd e))) (mg_pts (snd e))) ps acc.

(** file_->relations.emplace(id, osm::Relation(id, attributes)). *)
Definition new_rel (id : Z) (a : attributes) (st : rstate) : rstate :=
  RS (zemplace id (WRel id a []) (rs_rels st)) (rs_un st) (rs_err st) (rs_next st).
Definition push_member (id : Z) (role : string) (r : ref) (st : rstate) : rstate :=
  RS (push id (rs_next st, (role, r)) (rs_rels st)) (rs_un st) (rs_err st) (S (rs_next st)).
Definition fail (e : error) (st : rstate) : rstate := RS (rs_rels st) (rs_un st) (rs_err st ++ [e]) (rs_next st).
Definition push_later (id : Z) (role : string) (target : Z) (st : rstate) : rstate :=
  RS (push id (rs_next st, (role, RNull)) (rs_rels st)) (rs_un st ++ [Unres id target (rs_next st)]) (rs_err st) (S (rs_next st)).

Variable nodes : list (Z * @node D).
Variable ways : list (Z * way).
(** tryInsertMembers, 264-272. *)
Definition insert_way (id : Z) (role : string) (i : Z) (st : rstate) : rstate :=
  match zget i ways with Some _ => push_member id role (RWay i) st | None => fail (EMember id i) st end.
Definition insert_rel (id : Z) (role : string) (i : Z) (st : rstate) : rstate :=
  match zget i (rs_rels st) with Some _ => push_member id role (RRel i) st | None => fail (EMember id i) st end.
(** WriteRegulatoryElementVisitor, 193-248. *)
Definition visit_param (id : Z) (role : string) (st : rstate) (p : param) : rstate :=
  match p with
  | PPoint i => match zget i nodes with Some _ => push_member id role (RNode i) st | None => fail (EMember id i) st end
  | PLine i _ => insert_way id role i st
  | PPoly i => insert_way id role i st
  | PLanelet (Some i) => push_later id role i st
  | PArea (Some i) => push_later id role i st
  | PLanelet None => fail (EExpired id) st
  | PArea None => fail (EExpired id) st
  end.
(** appendRegulatoryElements, 250-262. *)
Definition append_reg (st : rstate) (e : Z * mreg) : rstate :=
  fold_left (fun st rp => fold_left (visit_param (fst e) (fst rp)) (snd rp) st) (re_params (snd e))
    (new_rel (fst e) (semplace "type" "regulatory_element" (re_attrs (snd e))) st).
(** appendLanelets, 102-118. hasCustomCenterline: the id is not InvalId. *)
Definition append_lanelet (st : rstate) (e : Z * mlanelet) : rstate :=
  let '(id, ll) := e in
  let st1 := new_rel id (semplace "type" "lanelet" (ll_attrs ll)) st in
  let st2 := insert_way id "right" (bid (ll_right ll)) (insert_way id "left" (bid (ll_left ll)) st1) in
  let st3 := match ll_center ll with
             | Some c => if Z.eqb (bid c) 0 then st2 else insert_way id "centerline" (bid c) st2
             | None => st2
             end in
  fold_left (fun st r => insert_rel id "regulatory_element" r st) (ll_regs ll) st3.
(** appendAreas, 120-139. *)
Definition append_area (st : rstate) (e : Z * marea) : rstate :=
  let '(id, ar) := e in
  let st1 := new_rel id (semplace "type" "multipolygon" (ar_attrs ar)) st in
  let st2 := fold_left (fun st i => insert_way id "outer" i st) (map fst (ar_outer ar)) st1 in
  let st3 := fold_left (fun st i => insert_way id "inner" i st) (List.concat (map (map fst) (ar_inner ar))) st2 in
  fold_left (fun st r => insert_rel id "regulatory_element" r st) (ar_regs ar) st3.
End Write.

(** writeMap, 55-70. [None]: undefined behaviour. *)
Definition write_rels (shift : bool) (reloc : list nat -> nat -> list nat) (nodes : list (Z * @node D)) (ways : list (Z * way))
    (m : mmap) (errs : list error) : option (list (Z * relation) * list error) :=
  let st1 := fold_left (append_reg nodes ways) (m_regs m) (RS [] [] errs 0) in
  let st2 := fold_left (append_lanelet ways) (m_lanelets m) st1 in
  let st3 := fold_left (append_area ways) (m_areas m) st2 in
  match resolve shift reloc (rs_un st3) (List.length (rs_un st3)) (rs_rels st3) (rs_err st3) with
  | None => None
  | Some (rels, errs') => Some (map finish_rel rels, errs')
  end.
(** [shift] is false in OsmHandlerWrite.cpp:25-51, see OsmModel. *)
Definition write_map (shift : bool) (to_geo : P -> option (D * D * D)) (reloc : list nat -> nat -> list nat) (m : mmap)
  : option (@file D * list error) :=
  let '(nodes, e1) := write_nodes to_geo (m_points m) in
  let '(ways, e2) := write_ways nodes (m_lines m) (m_polys m) in
  match write_rels shift reloc nodes ways m (e1 ++ e2) with
  | None => None
  | Some (rels, errs) => Some (File nodes ways rels, errs)
  end.

(** * FromFileLoader *)
Inductive lerror :=
| LProjection (id : Z) | LMissing (id target : Z) | LEmpty (id : Z) | LBorder (id : Z) (role : string)
| LRing (id : Z) (e : oerror) | LNotWay (id target : Z) | LSubtype (id : Z) | LCreate (id : Z) | LMember (id target : Z).

Section Load.
Variable from_geo : D * D * D -> option P.                  (* Projector::forward; None: ForwardProjectionError *)
Variable origin : P.                                        (* position of a dummy point *)
(** geometry::align: whether the left and the right line string have to be inverted. *)
Variable align : list P -> list P -> bool * bool.
Variable ring_valid : list P -> bool.                       (* boost::geometry::is_valid *)
Variable create : string -> mreg -> bool.                   (* RegulatoryElementFactory::create does not throw *)
Variable f : @file D.

(** Pointers to members. All of them are assumed to be valid here (see load_map). *)
Definition target (r : ref) : string * Z := match deref f r with Some t => t | None => ("", 0%Z) end.
(** getAttributes, 228-235: the same keys and values. *)

(** loadNodes, 89-98. *)
Definition load_nodes : list (Z * mpoint) * list lerror :=
  fold_left (fun acc e => let '(m, errs) := acc in let n := snd e in
    match from_geo (n_lat n, n_lon n, n_ele n) with
    | Some p => (zemplace (n_id n) (MPoint (n_attrs n) p) m, errs)
    | None => (m, errs ++ [LProjection (n_id n)])
    end) (f_nodes f) ([], []).
Section L1.
Variable pts : list (Z * mpoint).
(** getOrGetDummy, 379-387. A dummy is the id of an element that is not in the layer. *)
Definition or_dummy {V} (m : list (Z * V)) (owner i : Z) : list lerror :=
  match zget i m with Some _ => [] | None => [LMissing owner i] end.
(** loadWays, 99-122. The pointers to nodes are valid: the id of the node is its key. *)
Definition node_id (k : Z) : Z := match zget k (f_nodes f) with Some n => n_id n | None => k end.
Definition is_area (a : attributes) : bool :=
  match sget "area" a with Some v => match conv_bool v with Some b => b | None => false end | None => false end.
Definition load_ways : list (Z * mline) * list (Z * mpoly) * list lerror :=
  fold_left (fun acc e => let '(ls, ps, errs) := acc in let w := snd e in
    let ids := map node_id (w_nodes w) in
    let errs' := errs ++ List.concat (map (or_dummy pts (w_id w)) ids) in
    match ids with
    | [] => (ls, ps, errs' ++ [LEmpty (w_id w)])
    | _ => if is_area (w_attrs w)
           then (ls, zemplace (w_id w) (MPoly (w_attrs w) ids) ps, errs')
           else (zemplace (w_id w) (MLine (w_attrs w) ids false) ls, ps, errs')
    end) (f_ways f) ([], [], []).
Definition pos (i : Z) : P := match zget i pts with Some p => p_xyz p | None => origin end.

Section L2.
Variable lines : list (Z * mline).
(** isType, 223-227. *)
Definition is_type (t : string) (r : relation) : bool :=
  match sget "type" (r_attrs r) with Some v => String.eqb v t | None => false end.
Definition with_role (role : string) (r : relation) : list (string * Z) :=
  map (fun m => target (snd m)) (filter (fun m => String.eqb (fst m) role) (r_members r)).
(** getLaneletBorder, 237-250. *)
Definition border (r : relation) (role : string) : bound * list lerror :=
  match with_role role r with
  | [(t, i)] => if String.eqb t "way"
                then match zget i lines with
                     | Some _ => (Bound i false, [])
                     | None => (Dummy i, [LMissing (r_id r) i])
                     end
                else (Dummy (r_id r), [LBorder (r_id r) role])
  | _ => (Dummy (r_id r), [LBorder (r_id r) role])
  end.
Definition bound_pos (b : bound) : list P :=
  match b with
  | Bound i _ => match zget i lines with Some l => map pos (ml_pts l) | None => [] end
  | Dummy _ => []
  end.
Definition turn (b : bound) (inv : bool) : bound :=
  match b with Bound i v => Bound i (xorb v inv) | Dummy i => Dummy i end.
(** loadLanelets, 124-157; the second component of the result is used for the regulatory elements. *)
Definition load_lanelet (r : relation) : mlanelet * list lerror :=
  let '(l, e1) := border r "left" in
  let '(rr, e2) := border r "right" in
  let '(il, ir) := align (bound_pos l) (bound_pos rr) in
  let '(c, e3) := match with_role "centerline" r with
                  | [] => (None, [])
                  | _ => let '(b, e) := border r "centerline" in (Some b, e)
                  end in
  (MLanelet (r_attrs r) (turn l il) (turn rr ir) c [], e1 ++ e2 ++ e3).
Definition load_lanelets : list (Z * mlanelet) * list lerror :=
  fold_left (fun acc e => let '(m, errs) := acc in
    if is_type "lanelet" (snd e)
    then let '(ll, es) := load_lanelet (snd e) in (zemplace (r_id (snd e)) ll m, errs ++ es)
    else acc) (f_rels f) ([], []).
(** getLinestrings, 252-270. *)
Definition ring_lines (r : relation) (role : string) : list ls * list lerror :=
  fold_left (fun acc t => let '(l, errs) := acc in
    if String.eqb (fst t) "way"
    then match zget (snd t) lines with
         | Some x => (l ++ [LS (snd t) (ml_pts x) false], errs)
         | None => (l, errs ++ [LMissing (r_id r) (snd t)])
         end
    else (l, errs ++ [LNotWay (r_id r) (snd t)])) (with_role role r) ([], []).
Definition valid_ring (l : list ls) : bool := ring_valid (map pos (List.concat (map points l))).
Definition handle (l : ls) : Z * bool := (l_id l, l_inv l).
(** loadAreas, 159-185, with getOuterRing and getInnerRing. [None]: no area. *)
Definition load_area (r : relation) : outcome (option marea * list lerror) :=
  let '(outer, e1) := ring_lines r "outer" in
  match outer_ring valid_ring outer with
  | Done (o, e2) =>
    match o with
    | [] => Done (None, e1 ++ map (LRing (r_id r)) e2)
    | _ =>
      let '(inner, e3) := ring_lines r "inner" in
      match assemble valid_ring inner with
      | Done (i, e4) => Done (Some (MArea (r_attrs r) (map handle o) (map (map handle) i) []),
                              e1 ++ map (LRing (r_id r)) e2 ++ e3 ++ map (fun e => LRing (r_id r) (ERing e)) e4)
      | UB => UB | OutOfFuel => OutOfFuel
      end
    end
  | UB => UB | OutOfFuel => OutOfFuel
  end.
Definition load_areas : outcome (list (Z * marea) * list lerror) :=
  fold_left (fun acc e =>
    match acc with
    | Done (m, errs) =>
      if is_type "multipolygon" (snd e)
      then match load_area (snd e) with
           | Done (Some a, es) => Done (zemplace (r_id (snd e)) a m, errs ++ es)
           | Done (None, es) => Done (m, errs ++ es)
           | UB => UB | OutOfFuel => OutOfFuel
           end
      else acc
    | o => o
    end) (f_rels f) (Done ([], [])).
End L2.

Section L3.
Variable lines : list (Z * mline).
Variable polys : list (Z * mpoly).
Variable lanelets : list (Z * mlanelet).
Variable areas : list (Z * marea).
(** getRulesForRegulatoryElement, 291-330. The type tag of a member that is a relation. *)
Definition type_of_rel (r : ref) : option string :=
  match r with RRel k => match zget k (f_rels f) with Some x => sget "type" (r_attrs x) | None => None end | _ => None end.
(** A dummy lanelet or area expires at once. *)
Definition load_param (id : Z) (r : ref) : option param * list lerror :=
  let '(t, i) := target r in
  if String.eqb t "node" then (Some (PPoint i), or_dummy pts id i)
  else if String.eqb t "way" then
    match zget i polys with
    | Some _ => (Some (PPoly i), [])
    | None => (Some (PLine i false), or_dummy lines id i)
    end
  else if String.eqb t "relation" then
    match type_of_rel r with
    | None => (None, [LMember id i])
    | Some ty =>
      if String.eqb ty "lanelet"
      then (Some (PLanelet (match zget i lanelets with Some _ => Some i | None => None end)), or_dummy lanelets id i)
      else if String.eqb ty "multipolygon"
      then (Some (PArea (match zget i areas with Some _ => Some i | None => None end)), or_dummy areas id i)
      else (None, [LMember id i])
    end
  else (None, []).
(** rules[role].emplace_back(p). *)
Definition add_param (role : string) (p : param) (m : list (string * list param)) : list (string * list param) :=
  sset role (match sget role m with Some l => l | None => [] end ++ [p]) m.
Definition load_params (id : Z) (ms : list (string * ref)) : list (string * list param) * list lerror :=
  fold_left (fun acc m => let '(rules, errs) := acc in
    let '(o, es) := load_param id (snd m) in
    (match o with Some p => add_param (fst m) p rules | None => rules end, errs ++ es)) ms ([], []).
(** loadRegulatoryElements, 187-210. *)
Definition load_regs : list (Z * mreg) * list lerror :=
  fold_left (fun acc e => let '(m, errs) := acc in let r := snd e in
    if is_type "regulatory_element" r
    then match sget "subtype" (r_attrs r) with
         | None => (m, errs ++ [LSubtype (r_id r)])
         | Some st =>
           let '(rules, es) := load_params (r_id r) (r_members r) in
           let x := MReg (r_attrs r) rules in
           if create st x then (zemplace (r_id r) x m, errs ++ es) else (m, errs ++ es ++ [LCreate (r_id r)])
         end
    else acc) (f_rels f) ([], []).
End L3.

(** addRegulatoryElements, 212-220: for the loaded lanelets and areas, in the order of the file. *)
Definition reg_ids (r : relation) : list Z := map snd (with_role "regulatory_element" r).
Definition add_regs {V} (t : string) (m : list (Z * V)) (regs : list (Z * mreg)) (add : V -> list Z -> V) : list (Z * V) * list lerror :=
  fold_left (fun acc e => let '(m, errs) := acc in
    match is_type t (snd e), zget (r_id (snd e)) m with
    | true, Some _ => (mupdate (r_id (snd e)) (fun v => add v (reg_ids (snd e))) m,
                       errs ++ List.concat (map (or_dummy regs (r_id (snd e))) (reg_ids (snd e))))
    | _, _ => acc
    end) (f_rels f) (m, []).
End L1.
(** A member pointer may be dereferenced. *)
Definition pointers_ok : bool :=
  forallb (fun e => forallb (fun k => match zget k (f_nodes f) with Some _ => true | None => false end) (w_nodes (snd e))) (f_ways f) &&
  forallb (fun e => forallb (fun m => match deref f (snd m) with Some _ => true | None => false end) (r_members (snd e))) (f_rels f).
(** loadMap, 61-75. [UB]: a pointer of the file is null or dangling (the code dereferences only
    those members it looks at; here every such pointer counts), or front() of an empty
    line string is used. *)
Definition load_map : outcome (mmap * list lerror) :=
  if negb pointers_ok then UB else
  let '(pts, e1) := load_nodes in
  let '(lines, polys, e2) := load_ways pts in
  let '(lls, e3) := load_lanelets pts lines in
  match load_areas pts lines with
  | Done (areas, e4) =>
    let '(regs, e5) := load_regs pts lines polys lls areas in
    let '(lls', e6) := add_regs "lanelet" lls regs (fun l r => MLanelet (ll_attrs l) (ll_left l) (ll_right l) (ll_center l) (ll_regs l ++ r)) in
    let '(areas', e7) := add_regs "multipolygon" areas regs (fun a r => MArea (ar_attrs a) (ar_outer a) (ar_inner a) (ar_regs a ++ r)) in
    Done (MMap pts lines polys lls' areas' regs, e1 ++ e2 ++ e3 ++ e4 ++ e5 ++ e6 ++ e7)
  | UB => UB | OutOfFuel => OutOfFuel
  end.
End Load.
End Map.
