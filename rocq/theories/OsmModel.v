(** Model of the OSM file layer: osm::File, osm::write, osm::read.

    Source: lanelet2_io/include/lanelet2_io/io_handlers/OsmFile.h and
    lanelet2_io/src/OsmFile.cpp.

    An XML document is a tree of elements with attributes; names and values are C strings
    (pugixml copies up to the first NUL). Printing and parsing of numbers by pugixml and
    boost::format is a parameter ([print_id], [parse_id], [fmt], [parse_d]). std::map is
    the list of its elements in key order. A pointer to an element of a map of the file
    is the key of that element (elements of a std::map do not move). The slots of a deque
    of members have addresses, because the reader keeps pointers to them. Undefined
    behaviour is [None]. *)
From Coq Require Import List Arith Bool String Ascii ZArith.
Import ListNotations.
Local Open Scope string_scope.
Local Open Scope list_scope.

(** * std::map *)
Section OMap.
Context {K V : Type}.
Variable ltb : K -> K -> bool.
(** operator[] with assignment. *)
Fixpoint mset (k : K) (v : V) (m : list (K * V)) : list (K * V) :=
  match m with
  | [] => [(k, v)]
  | e :: r => if ltb k (fst e) then (k, v) :: m
              else if ltb (fst e) k then e :: mset k v r
              else (k, v) :: r
  end.
(** emplace: an existing element stays. *)
Fixpoint memplace (k : K) (v : V) (m : list (K * V)) : list (K * V) :=
  match m with
  | [] => [(k, v)]
  | e :: r => if ltb k (fst e) then (k, v) :: m
              else if ltb (fst e) k then e :: memplace k v r
              else m
  end.
(** find / at. *)
Fixpoint mget (k : K) (m : list (K * V)) : option V :=
  match m with
  | [] => None
  | e :: r => if ltb k (fst e) then None
              else if ltb (fst e) k then mget k r
              else Some (snd e)
  end.
End OMap.
Definition sset {V} := @mset string V String.ltb.
Definition semplace {V} := @memplace string V String.ltb.
Definition sget {V} := @mget string V String.ltb.
Definition zset {V} := @mset Z V Z.ltb.
Definition zemplace {V} := @memplace Z V Z.ltb.
Definition zget {V} := @mget Z V Z.ltb.

(** Strings passed as const char pointers end at the first NUL. *)
Fixpoint cstr (s : string) : string :=
  match s with
  | EmptyString => EmptyString
  | String c r => if Ascii.eqb c zero then EmptyString else String c (cstr r)
  end.

(** toJosmStyle, OsmFile.cpp:59-64: what happens to the formatted number.
    [trim_end c s] is s.erase(s.find_last_not_of(c) + 1); if there is no other character
    find_last_not_of gives npos and npos + 1 = 0. *)
Fixpoint trim_end (c : ascii) (s : string) : string :=
  match s with
  | EmptyString => EmptyString
  | String a r => match trim_end c r with
                  | EmptyString => if Ascii.eqb a c then EmptyString else String a EmptyString
                  | t => String a t
                  end
  end.
Definition josm_style (s : string) : string := trim_end "." (trim_end "0" s).

(** * XML *)
Inductive xml := Elem (name : string) (attrs : list (string * string)) (children : list xml).
Definition xname (x : xml) := let 'Elem n _ _ := x in n.
Definition xattrs (x : xml) := let 'Elem _ a _ := x in a.
Definition xchildren (x : xml) := let 'Elem _ _ c := x in c.
(** child(name) and next_sibling(name). *)
Definition xall (n : string) (x : xml) : list xml := filter (fun c => String.eqb (xname c) n) (xchildren x).
(** attribute(name): the first one. *)
Fixpoint afind (n : string) (l : list (string * string)) : option string :=
  match l with [] => None | (k, v) :: r => if String.eqb k n then Some v else afind n r end.
Definition attr (n : string) (x : xml) : option string := afind n (xattrs x).
(** value() of a missing attribute is "". *)
Definition attr_value (n : string) (x : xml) : string := match attr n x with Some v => v | None => "" end.

(** * osm::File *)
Definition attributes := list (string * string).
Inductive ref := RNode (k : Z) | RWay (k : Z) | RRel (k : Z) | RNull.

(** A slot of a deque of members: its address in that deque, role and pointer. *)
Notation slot := (nat * (string * ref))%type.

Section Osm.
Context {D : Type}.
Variable zero_d : D.
Variable is_zero : D -> bool.              (* ele != 0. is negated *)
Variable print_id : Z -> string.           (* xml_attribute = long long *)
Variable parse_id : string -> Z.           (* as_llong of an existing attribute *)
Variable fmt : bool -> D -> string.        (* toJosmStyle, see josm_style *)
Variable parse_d : string -> D.            (* as_double of an existing attribute *)

Record node := Node { n_id : Z; n_attrs : attributes; n_lat : D; n_lon : D; n_ele : D }.
Record way := Way { w_id : Z; w_attrs : attributes; w_nodes : list Z }.
Record relation := Relation { r_id : Z; r_attrs : attributes; r_members : list (string * ref) }.
Record file := File { f_nodes : list (Z * node); f_ways : list (Z * way); f_rels : list (Z * relation) }.

(** ** Writing, OsmFile.cpp:96-187 *)
(** writeAttributes, OsmFile.cpp:123-129. *)
Definition tag (k v : string) : xml := Elem "tag" [("k", cstr k); ("v", cstr v)] [].
Definition write_attrs (a : attributes) : list xml := map (fun kv => tag (fst kv) (snd kv)) a.
(** The attributes id, visible and version, OsmFile.cpp:134-138. *)
Definition id_attrs (i : Z) : list (string * string) :=
  ("id", print_id i) :: (if Z.ltb 0 i then [("visible", "true"); ("version", "1")] else []).
(** toJosmStyle(...).c_str(). *)
Definition num (b : bool) (d : D) : string := cstr (fmt b d).
(** writeNodes, OsmFile.cpp:131-149. *)
Definition write_node (josm : bool) (n : node) : xml :=
  Elem "node" (id_attrs (n_id n) ++ [("lat", num false (n_lat n)); ("lon", num false (n_lon n))])
    ((if is_zero (n_ele n) then [] else [Elem "tag" [("k", "ele"); ("v", num josm (n_ele n))] []]) ++ write_attrs (n_attrs n)).
(** writeWays, OsmFile.cpp:151-166. *)
Definition all_some {A} (l : list (option A)) : option (list A) :=
  fold_right (fun o acc => match o, acc with Some a, Some r => Some (a :: r) | _, _ => None end) (Some []) l.
Definition write_way (f : file) (w : way) : option xml :=
  match all_some (map (fun k => match zget k (f_nodes f) with None => None | Some n => Some (n_id n) end) (w_nodes w)) with
  | None => None
  | Some ids =>
    Some (Elem "way" (id_attrs (w_id w))
            (map (fun i => Elem "nd" [("ref", print_id i)] []) ids ++ write_attrs (w_attrs w)))
  end.
(** writeRelations, OsmFile.cpp:168-186; type() and id of the member, a null pointer is undefined. *)
Definition deref (f : file) (r : ref) : option (string * Z) :=
  match r with
  | RNode k => match zget k (f_nodes f) with None => None | Some n => Some ("node", n_id n) end
  | RWay k => match zget k (f_ways f) with None => None | Some w => Some ("way", w_id w) end
  | RRel k => match zget k (f_rels f) with None => None | Some r => Some ("relation", r_id r) end
  | RNull => None
  end.
Definition write_member (role : string) (t : string * Z) : xml :=
  Elem "member" [("type", fst t); ("ref", print_id (snd t)); ("role", cstr role)] [].
Definition write_rel (f : file) (r : relation) : option xml :=
  match all_some (map (fun m => match deref f (snd m) with None => None | Some t => Some (write_member (fst m) t) end) (r_members r)) with
  | None => None
  | Some ms => Some (Elem "relation" (id_attrs (r_id r)) (ms ++ write_attrs (r_attrs r)))
  end.
(** write, OsmFile.cpp:98-120. [upload], [josm]: the options josm_upload and josm_format_elevation. *)
Definition write (upload josm : bool) (f : file) : option xml :=
  match all_some (map (fun e => write_way f (snd e)) (f_ways f)),
        all_some (map (fun e => write_rel f (snd e)) (f_rels f)) with
  | Some ws, Some rs =>
    Some (Elem "" [] [Elem "osm" [("version", "0.6"); ("upload", if upload then "true" else "false"); ("generator", "lanelet2")]
                        (map (fun e => write_node josm (snd e)) (f_nodes f) ++ ws ++ rs)])
  | _, _ => None
  end.

(** ** Reading, OsmFile.cpp:189-312 *)
(** The last two only occur in OsmHandlerWrite.cpp: projection errors and expired parameters. *)
Inductive error := EWay (id : Z) | EMember (id member : Z) | ERelation (id member : Z) | EProjection (id : Z) | EExpired (id : Z).
(** tags, OsmFile.cpp:42-52. *)
Definition tags (x : xml) : attributes :=
  fold_left (fun a t => if String.eqb (attr_value "k" t) "ele" then a else sset (attr_value "k" t) (attr_value "v" t) a)
    (xall "tag" x) [].
(** isDeleted, OsmFile.cpp:54-57. *)
Definition deleted (x : xml) : bool := match attr "action" x with Some v => String.eqb v "delete" | None => false end.
(** attribute(...).as_llong(0): InvalId is 0. *)
Definition attr_id (n : string) (x : xml) : Z := match attr n x with Some v => parse_id v | None => 0%Z end.
Definition attr_d (n : string) (x : xml) : D := match attr n x with Some v => parse_d v | None => zero_d end.
Definition elems (n : string) (x : xml) : list xml := filter (fun e => negb (deleted e)) (xall n x).
(** find_child_by_attribute("tag", "k", "ele"): some attribute k of the element has this
    value. *)
Definition ele_of (x : xml) : D :=
  match find (fun t => existsb (fun a => String.eqb (fst a) "k" && String.eqb (snd a) "ele") (xattrs t)) (xall "tag" x) with
  | None => zero_d
  | Some t => attr_d "v" t
  end.
(** readNodes, OsmFile.cpp:205-222. *)
Definition read_node (x : xml) : node := Node (attr_id "id" x) (tags x) (attr_d "lat" x) (attr_d "lon" x) (ele_of x).
Definition read_nodes (osm : xml) : list (Z * node) :=
  fold_left (fun m x => zset (attr_id "id" x) (read_node x) m) (elems "node" osm) [].
(** readWays, OsmFile.cpp:224-250. *)
Definition read_way (nodes : list (Z * node)) (x : xml) : way * list error :=
  let ids := map (attr_id "ref") (xall "nd" x) in
  if forallb (fun i => match zget i nodes with Some _ => true | None => false end) ids
  then (Way (attr_id "id" x) (tags x) ids, [])
  else (Way (attr_id "id" x) (tags x) [], [EWay (attr_id "id" x)]).
Definition read_ways (nodes : list (Z * node)) (osm : xml) : list (Z * way) * list error :=
  fold_left (fun me x => let '(m, es) := me in
                         let '(w, e) := read_way nodes x in
                         (zset (attr_id "id" x) w m, es ++ e))
    (elems "way" osm) ([], []).

Record wrel := WRel { wr_id : Z; wr_attrs : attributes; wr_slots : list slot }.
(** UnresolvedRole, OsmFile.cpp:36-40. The address is one of the deque of relation [u_rel]. *)
Record unresolved := Unres { u_rel : Z; u_ref : Z; u_loc : nat }.
Record rstate := RS { rs_rels : list (Z * wrel); rs_un : list unresolved; rs_err : list error; rs_next : nat }.

(** Replace the value of an existing key. *)
Definition mupdate {V} (k : Z) (f : V -> V) (m : list (Z * V)) : list (Z * V) :=
  map (fun e => if Z.eqb (fst e) k then (fst e, f (snd e)) else e) m.
Definition push (i : Z) (s : slot) (m : list (Z * wrel)) : list (Z * wrel) :=
  mupdate i (fun r => WRel (wr_id r) (wr_attrs r) (wr_slots r ++ [s])) m.

(** Members of one relation in the first pass, OsmFile.cpp:268-286. *)
Definition read_member (nodes : list (Z * node)) (ways : list (Z * way)) (id : Z) (st : rstate) (x : xml) : rstate :=
  let mid := attr_id "ref" x in
  let role := attr_value "role" x in
  let type := attr_value "type" x in
  let found (b : bool) (r : ref) :=
    if b then RS (push id (rs_next st, (role, r)) (rs_rels st)) (rs_un st) (rs_err st) (S (rs_next st))
    else RS (rs_rels st) (rs_un st) (rs_err st ++ [EMember id mid]) (rs_next st) in
  if String.eqb type "node" then found (match zget mid nodes with Some _ => true | None => false end) (RNode mid)
  else if String.eqb type "way" then found (match zget mid ways with Some _ => true | None => false end) (RWay mid)
  else if String.eqb type "relation" then
    RS (push id (rs_next st, (role, RNull)) (rs_rels st)) (rs_un st ++ [Unres id mid (rs_next st)]) (rs_err st) (S (rs_next st))
  else st.
(** First pass, OsmFile.cpp:252-287: emplace keeps a relation with the same id. *)
Definition read_rel (nodes : list (Z * node)) (ways : list (Z * way)) (st : rstate) (x : xml) : rstate :=
  let id := attr_id "id" x in
  fold_left (read_member nodes ways id) (xall "member" x)
    (RS (zemplace id (WRel id (tags x) []) (rs_rels st)) (rs_un st) (rs_err st) (rs_next st)).

(** ** Removing placeholders, OsmFile.cpp:66-94, and the copy in OsmHandlerWrite.cpp:25-51.
    [shift]: the position of placeholders behind the removed one is corrected (only in
    OsmFile.cpp). [reloc addrs i] are the addresses of the remaining slots after erasing
    slot [i] of a deque with slots at [addrs]. *)
Variable shift : bool.
Variable reloc : list nat -> nat -> list nat.
Fixpoint slot_idx (a : nat) (s : list slot) : option nat :=
  match s with
  | [] => None
  | x :: r => if Nat.eqb (fst x) a then Some 0 else match slot_idx a r with None => None | Some i => Some (S i) end
  end.
Definition is_null (r : ref) : bool := match r with RNull => true | _ => false end.
Fixpoint placeholder_locs (i rem : nat) (s : list slot) : list (nat * nat) :=
  match s with
  | [] => []
  | x :: r =>
    (if is_null (snd (snd x)) && negb (Nat.eqb i rem)
     then [(if shift && Nat.ltb rem i then i - 1 else i, fst x)] else [])
    ++ placeholder_locs (S i) rem r
  end.
Fixpoint remove_nth {A} (i : nat) (l : list A) : list A :=
  match i, l with
  | _, [] => []
  | O, _ :: r => r
  | S i', a :: r => a :: remove_nth i' r
  end.
(** The new location of every other placeholder; beyond the end: undefined. *)
Definition new_locs (s : list slot) (locs : list (nat * nat)) : option (list (nat * nat)) :=
  all_some (map (fun l => match nth_error s (fst l) with None => None | Some x => Some (snd l, fst x) end) locs).
Fixpoint lookup_nat (a : nat) (l : list (nat * nat)) : option nat :=
  match l with [] => None | (k, v) :: r => if Nat.eqb k a then Some v else lookup_nat a r end.
Definition remove_fix (rel : Z) (a : nat) (s : list slot) (rest : list unresolved) : option (list slot * list unresolved) :=
  match slot_idx a s with
  | None => None
  | Some rem =>
    let locs := placeholder_locs 0 rem s in
    let s' := combine (reloc (map fst s) rem) (map snd (remove_nth rem s)) in
    match new_locs s' locs with
    | None => None
    | Some nl =>
      Some (s', map (fun u => if Z.eqb (u_rel u) rel
                              then match lookup_nat (u_loc u) nl with Some v => Unres (u_rel u) (u_ref u) v | None => u end
                              else u) rest)
    end
  end.
(** Writing through a pointer to a slot. *)
Definition write_slot (a : nat) (r : ref) (s : list slot) : option (list slot) :=
  match slot_idx a s with
  | None => None
  | Some _ => Some (map (fun x => if Nat.eqb (fst x) a then (fst x, (fst (snd x), r)) else x) s)
  end.
Definition set_slots (i : Z) (s : list slot) (m : list (Z * wrel)) : list (Z * wrel) :=
  mupdate i (fun r => WRel (wr_id r) (wr_attrs r) s) m.
(** Second pass, OsmFile.cpp:290-302 (resolveUnparsedMembers in OsmHandlerWrite.cpp:141-155). The
    locations of entries that have been handled are changed, too, but not used again;
    only the remaining entries are kept here. *)
Fixpoint resolve (un : list unresolved) (fuel : nat) (rels : list (Z * wrel)) (errs : list error)
  : option (list (Z * wrel) * list error) :=
  match un with
  | [] => Some (rels, errs)
  | u :: rest =>
    match fuel with
    | 0 => None
    | S f =>
      match zget (u_rel u) rels with
      | None => None
      | Some r =>
        match zget (u_ref u) rels with
        | Some _ =>
          match write_slot (u_loc u) (RRel (u_ref u)) (wr_slots r) with
          | None => None
          | Some s' => resolve rest f (set_slots (u_rel u) s' rels) errs
          end
        | None =>
          match remove_fix (u_rel u) (u_loc u) (wr_slots r) rest with
          | None => None
          | Some (s', rest') => resolve rest' f (set_slots (u_rel u) s' rels) (errs ++ [ERelation (u_rel u) (u_ref u)])
          end
        end
      end
    end
  end.
Definition finish_rel (e : Z * wrel) : Z * relation :=
  (fst e, Relation (wr_id (snd e)) (wr_attrs (snd e)) (map snd (wr_slots (snd e)))).

(** read, OsmFile.cpp:191-202. *)
Definition read (doc : xml) : option (file * list error) :=
  let osm := match xall "osm" doc with x :: _ => x | [] => Elem "" [] [] end in
  let nodes := read_nodes osm in
  let '(ways, e1) := read_ways nodes osm in
  let st := fold_left (read_rel nodes ways) (elems "relation" osm) (RS [] [] e1 0) in
  match resolve (rs_un st) (List.length (rs_un st)) (rs_rels st) (rs_err st) with
  | None => None
  | Some (rels, errs) => Some (File nodes ways (map finish_rel rels), errs)
  end.

(** ** Equality, OsmFile.h (Node) and OsmFile.cpp:315-341. [None]: a null pointer or a
    pointer to nothing is used. The two files may be different objects. *)
Definition node_eqb (a b : node) : bool := Z.eqb (n_id a) (n_id b).
Fixpoint ids_equal (f g : file) (l r : list Z) : option bool :=
  match l, r with
  | [], _ => Some true
  | a :: l', b :: r' =>
    match zget a (f_nodes f), zget b (f_nodes g) with
    | Some m, Some n => if negb (Z.eqb (n_id m) (n_id n)) then Some false else ids_equal f g l' r'
    | _, _ => None
    end
  | _ :: _, [] => None
  end.
Definition way_eqb (f g : file) (a b : way) : option bool :=
  if Z.eqb (w_id a) (w_id b) && Nat.eqb (List.length (w_nodes a)) (List.length (w_nodes b))
  then ids_equal f g (w_nodes a) (w_nodes b) else Some false.
Fixpoint members_equal (f g : file) (l r : list (string * ref)) : option bool :=
  match l, r with
  | [], _ => Some true
  | a :: l', b :: r' =>
    match deref f (snd a), deref g (snd b) with
    | Some (ta, ia), Some (tb, ib) =>
      if negb (String.eqb ta tb) && negb (Z.eqb ia ib) then Some false else members_equal f g l' r'
    | _, _ => None
    end
  | _ :: _, [] => None
  end.
Definition relation_eqb (f g : file) (a b : relation) : option bool :=
  if Z.eqb (r_id a) (r_id b) && Nat.eqb (List.length (r_members a)) (List.length (r_members b))
  then members_equal f g (r_members a) (r_members b) else Some false.
(** operator== of std::map: equal sizes and pairwise equal elements. *)
Fixpoint pairs_equal {A} (eq : A -> A -> option bool) (l r : list (Z * A)) : option bool :=
  match l, r with
  | [], [] => Some true
  | a :: l', b :: r' =>
    if Z.eqb (fst a) (fst b)
    then match eq (snd a) (snd b) with
         | Some true => pairs_equal eq l' r'
         | o => o
         end
    else Some false
  | _, _ => Some false
  end.
Definition map_equal {A} (eq : A -> A -> option bool) (l r : list (Z * A)) : option bool :=
  if Nat.eqb (List.length l) (List.length r) then pairs_equal eq l r else Some false.
Definition and_then (a : option bool) (b : option bool) : option bool :=
  match a with Some true => b | o => o end.
Definition file_eqb (f g : file) : option bool :=
  and_then (map_equal (fun a b => Some (node_eqb a b)) (f_nodes f) (f_nodes g))
    (and_then (map_equal (way_eqb f g) (f_ways f) (f_ways g)) (map_equal (relation_eqb f g) (f_rels f) (f_rels g))).
End Osm.
