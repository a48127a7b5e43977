(** What reading an OSM document means, stated on the document itself, and which files
    are well formed. Written without the reader: no placeholders, no passes, no maps. *)
From Coq Require Import List Arith Bool String Ascii ZArith QArith Sorted.
From Verif Require Import OsmModel.
Import ListNotations.
Local Open Scope string_scope.
Local Open Scope list_scope.

(** [m] is the ordered map holding exactly the values that [P] admits for each key. *)
Definition is_map {K V} (lt : K -> K -> bool) (m : list (K * V)) (P : K -> V -> Prop) : Prop :=
  StronglySorted (fun a b => lt a b = true) (map fst m) /\ forall k v, In (k, v) m <-> P k v.

(** * Decimal numbers *)
Definition digit (d : nat) : ascii := ascii_of_nat (48 + d).
Fixpoint digits (l : list nat) : string := match l with [] => EmptyString | d :: r => String (digit d) (digits r) end.
(** [neg] minus sign, digits before and after the point. *)
Definition decimal (neg : bool) (ip : list nat) (point : bool) (fp : list nat) : string :=
  ((if neg then "-" else "") ++ digits ip ++ (if point then "." else "") ++ digits fp)%string.
Definition number (l : list nat) : Z := fold_left (fun a d => 10 * a + Z.of_nat d)%Z l 0%Z.
Definition decimal_value (neg : bool) (ip fp : list nat) : Q :=
  (if neg then -1 # 1 else 1 # 1) * (inject_Z (number (ip ++ fp)) / inject_Z (10 ^ Z.of_nat (List.length fp))).

Section Spec.
Context {D : Type}.
Variable zero_d : D.
Variable is_zero : D -> bool.
Variable print_id : Z -> string.
Variable parse_id : string -> Z.
Variable fmt : bool -> D -> string.
Variable parse_d : string -> D.

Notation attr_id := (attr_id parse_id).
Notation attr_d := (attr_d zero_d parse_d).

(** The tag with key [k] that counts is the last one; "ele" is not an attribute. *)
Definition tag_is (x : xml) (k v : string) : Prop :=
  k <> "ele" /\ exists l r t, xall "tag" x = l ++ t :: r /\ attr_value "k" t = k /\ attr_value "v" t = v /\
    forall t', In t' r -> attr_value "k" t' <> k.
(** The height is the value of the first tag "ele". *)
Definition ele_is (x : xml) (d : D) : Prop :=
  (exists l r t, xall "tag" x = l ++ t :: r /\ attr_value "k" t = "ele" /\ d = attr_d "v" t /\
    forall t', In t' l -> attr_value "k" t' <> "ele") \/
  (d = zero_d /\ forall t, In t (xall "tag" x) -> attr_value "k" t <> "ele").
(** Attribute names occur once per element, as XML demands (pugixml does not check it). *)
Definition distinct_attrs (x : xml) : Prop := List.NoDup (map fst (xattrs x)).

Section Doc.
Variable osm : xml.
Definition ids (n : string) : list Z := map (attr_id "id") (elems n osm).
Definition has (n : string) (i : Z) : bool := existsb (Z.eqb i) (ids n).
Definition last_with (n : string) (i : Z) (x : xml) : Prop :=
  exists l r, elems n osm = l ++ x :: r /\ attr_id "id" x = i /\ forall x', In x' r -> attr_id "id" x' <> i.
Definition first_with (n : string) (i : Z) (x : xml) : Prop :=
  exists l r, elems n osm = l ++ x :: r /\ attr_id "id" x = i /\ forall x', In x' l -> attr_id "id" x' <> i.

Definition node_is (x : xml) (n : node) : Prop :=
  n_id n = attr_id "id" x /\ is_map String.ltb (n_attrs n) (tag_is x) /\
  n_lat n = attr_d "lat" x /\ n_lon n = attr_d "lon" x /\ ele_is x (n_ele n).
Definition complete_way (x : xml) : bool := forallb (fun m => has "node" (attr_id "ref" m)) (xall "nd" x).
Definition way_is (x : xml) (w : way) : Prop :=
  w_id w = attr_id "id" x /\ is_map String.ltb (w_attrs w) (tag_is x) /\
  w_nodes w = if complete_way x then map (attr_id "ref") (xall "nd" x) else [].
(** The members a member element contributes: one or none. *)
Definition member_of (m : xml) : list (string * ref) :=
  let i := attr_id "ref" m in
  let r := attr_value "role" m in
  if String.eqb (attr_value "type" m) "node" then (if has "node" i then [(r, RNode i)] else [])
  else if String.eqb (attr_value "type" m) "way" then (if has "way" i then [(r, RWay i)] else [])
  else if String.eqb (attr_value "type" m) "relation" then (if has "relation" i then [(r, RRel i)] else [])
  else [].
Definition rel_is (k : Z) (r : relation) : Prop :=
  exists x, first_with "relation" k x /\ r_id r = k /\ is_map String.ltb (r_attrs r) (tag_is x) /\
    r_members r = flat_map (fun x => flat_map member_of (xall "member" x))
                    (filter (fun x => Z.eqb (attr_id "id" x) k) (elems "relation" osm)).
(** Errors: ways with missing nodes, then members that are missing nodes or ways, then
    members that are missing relations. *)
Definition way_errors : list error :=
  flat_map (fun x => if complete_way x then [] else [EWay (attr_id "id" x)]) (elems "way" osm).
Definition direct_error (k : Z) (m : xml) : list error :=
  let i := attr_id "ref" m in
  if String.eqb (attr_value "type" m) "node" then (if has "node" i then [] else [EMember k i])
  else if String.eqb (attr_value "type" m) "way" then (if has "way" i then [] else [EMember k i]) else [].
Definition relation_error (k : Z) (m : xml) : list error :=
  let i := attr_id "ref" m in
  if String.eqb (attr_value "type" m) "relation" then (if has "relation" i then [] else [ERelation k i]) else [].
Definition errors_of (e : Z -> xml -> list error) : list error :=
  flat_map (fun x => flat_map (e (attr_id "id" x)) (xall "member" x)) (elems "relation" osm).
Definition read_errors : list error := way_errors ++ errors_of direct_error ++ errors_of relation_error.

Definition file_is (f : file) : Prop :=
  is_map Z.ltb (f_nodes f) (fun k n => exists x, last_with "node" k x /\ node_is x n) /\
  is_map Z.ltb (f_ways f) (fun k w => exists x, last_with "way" k x /\ way_is x w) /\
  is_map Z.ltb (f_rels f) rel_is.
End Doc.

(** * Well-formed files *)
Definition no_nul (s : string) : Prop := cstr s = s.
Definition id_ok (i : Z) : Prop := parse_id (print_id i) = i.
Definition attrs_ok (a : attributes) : Prop :=
  StronglySorted (fun x y => String.ltb x y = true) (map fst a) /\
  forall k v, In (k, v) a -> k <> "ele" /\ no_nul k /\ no_nul v.
Definition keys_ok {V} (id : V -> Z) (m : list (Z * V)) : Prop :=
  StronglySorted (fun x y => Z.ltb x y = true) (map fst m) /\ forall k v, In (k, v) m -> id v = k /\ id_ok k.
Definition target_ok {N W R} (ns : list (Z * N)) (ws : list (Z * W)) (rs : list (Z * R)) (r : ref) : Prop :=
  match r with
  | RNode k => In k (map fst ns)
  | RWay k => In k (map fst ws)
  | RRel k => In k (map fst rs)
  | RNull => False
  end.
Definition file_ok (f : @file D) : Prop :=
  keys_ok n_id (f_nodes f) /\ keys_ok w_id (f_ways f) /\ keys_ok r_id (f_rels f) /\
  (forall k n, In (k, n) (f_nodes f) -> attrs_ok (n_attrs n)) /\
  (forall k w, In (k, w) (f_ways f) -> attrs_ok (w_attrs w) /\ forall i, In i (w_nodes w) -> In i (map fst (f_nodes f))) /\
  (forall k r, In (k, r) (f_rels f) -> attrs_ok (r_attrs r) /\
     forall role t, In (role, t) (r_members r) -> no_nul role /\ target_ok (f_nodes f) (f_ways f) (f_rels f) t).

(** The file with every coordinate replaced by what its text denotes. *)
Definition rounded_node (josm : bool) (n : @node D) : @node D :=
  Node (n_id n) (n_attrs n) (parse_d (cstr (fmt false (n_lat n)))) (parse_d (cstr (fmt false (n_lon n))))
    (if is_zero (n_ele n) then zero_d else parse_d (cstr (fmt josm (n_ele n)))).
Definition rounded (josm : bool) (f : @file D) : @file D :=
  File (map (fun e => (fst e, rounded_node josm (snd e))) (f_nodes f)) (f_ways f) (f_rels f).
End Spec.
