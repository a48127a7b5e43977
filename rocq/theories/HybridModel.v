(** Model of HybridMap (attribute maps and rule parameter maps).

    Source: lanelet2_core/include/lanelet2_core/utility/HybridMap.h.

    A std::map is the list of its nodes in key order; a node has an identity, which
    stays the same until the element is erased, also when the whole map is moved into
    another object. Iterators point to a node or are the end iterator of one map
    object. Using an iterator that points to no element of the map is undefined
    ([None]). Moved-from std::map and std::vector are empty (true of all standard
    libraries for these types with std::allocator). *)
From Coq Require Import List Arith Bool String Ascii NArith.
Import ListNotations.
Open Scope string_scope.

Inductive itr := IEnd (owner : nat) | INode (n : nat).
Definition itr_eqb (a b : itr) : bool :=
  match a, b with
  | IEnd x, IEnd y => Nat.eqb x y
  | INode x, INode y => Nat.eqb x y
  | _, _ => false
  end.

Section Hybrid.
Context {V : Type}.
Variable dflt : V.                         (* mapped_type() *)
Variable veqb : V -> V -> bool.            (* operator== of the values *)
Variable table : list (string * nat).      (* PairArray: name, enum value *)

Record node := Node { n_key : string; n_id : nat; n_val : V }.
(** m_ and v_, 230-231. *)
Record hmap := HMap { h_m : list node; h_v : list itr }.
(** All objects of the program; [w_next] numbers new nodes. *)
Record world := World { w_obj : nat -> hmap; w_next : nat }.
Definition hempty : hmap := HMap [] [].
Definition world0 : world := World (fun _ => hempty) 0.
Definition put (x : nat) (h : hmap) (w : world) : world :=
  World (fun y => if Nat.eqb x y then h else w_obj w y) (w_next w).

(** c_str(): the characters up to the first NUL, which is what strcmp sees. *)
Fixpoint c_str (s : string) : string :=
  match s with
  | EmptyString => EmptyString
  | String c r => if Ascii.eqb c zero then EmptyString else String c (c_str r)
  end.

(** ArrayView::findValue 17-25 and findKey 26-34. *)
Definition find_value (e : nat) : option (string * nat) := find (fun p => Nat.eqb (snd p) e) table.
Definition find_name (k : string) : option (string * nat) :=
  find (fun p => String.eqb (fst p) (c_str k)) table.

(** std::map::find and dereferencing an iterator. *)
Fixpoint mfind (x : nat) (m : list node) (k : string) : itr :=
  match m with
  | [] => IEnd x
  | n :: r => if String.eqb (n_key n) k then INode (n_id n) else mfind x r k
  end.
Definition mderef (m : list node) (it : itr) : option node :=
  match it with
  | IEnd _ => None
  | INode i => find (fun n => Nat.eqb (n_id n) i) m
  end.

(** find, 112-121. *)
Definition hfind (w : world) (x : nat) (k : string) : itr := mfind x (h_m (w_obj w x)) k.
Definition hfind_enum (w : world) (x : nat) (e : nat) : itr :=
  nth e (h_v (w_obj w x)) (IEnd x).

(** updateV, 219-229. *)
Fixpoint vput (v : list itr) (i : nat) (it fill : itr) : list itr :=
  match i, v with
  | O, [] => [it]
  | O, _ :: r => it :: r
  | S i', [] => fill :: vput [] i' it fill
  | S i', a :: r => a :: vput r i' it fill
  end.
Definition update_v (x : nat) (k : string) (it : itr) (v : list itr) : list itr :=
  match find_name k with
  | None => v
  | Some (_, e) => vput v e it (IEnd x)
  end.

(** std::map::insert of a key that is not there, keeping the order of the keys. *)
Fixpoint minsert (n : node) (m : list node) : list node :=
  match m with
  | [] => [n]
  | a :: r => if String.ltb (n_key n) (n_key a) then n :: m else a :: minsert n r
  end.

(** insert, 130-136. *)
Definition hinsert (w : world) (x : nat) (k : string) (v : V) : world * (itr * bool) :=
  let h := w_obj w x in
  match mfind x (h_m h) k with
  | INode i => (w, (INode i, false))
  | IEnd _ =>
    let i := w_next w in
    (World (w_obj (put x (HMap (minsert (Node k i v) (h_m h)) (update_v x k (INode i) (h_v h))) w)) (S i),
     (INode i, true))
  end.

(** insert with hint, 138-142: updateV is called for an existing key, too. *)
Definition hinsert_hint (w : world) (x : nat) (k : string) (v : V) : world * itr :=
  let h := w_obj w x in
  match mfind x (h_m h) k with
  | INode i => (put x (HMap (h_m h) (update_v x k (INode i) (h_v h))) w, INode i)
  | IEnd _ => let '(w', (it, _)) := hinsert w x k v in (w', it)
  end.

(** erase(pos), 144-150: the first element of v_ equal to [it] becomes end(). *)
Fixpoint vclear (v : list itr) (it fin : itr) : list itr :=
  match v with
  | [] => []
  | a :: r => if itr_eqb a it then fin :: r else a :: vclear r it fin
  end.
Definition herase_it (w : world) (x : nat) (it : itr) : option world :=
  let h := w_obj w x in
  match mderef (h_m h) it with
  | None => None
  | Some n => Some (put x (HMap (filter (fun a => negb (Nat.eqb (n_id a) (n_id n))) (h_m h))
                                (vclear (h_v h) it (IEnd x))) w)
  end.

(** erase(key), 152-159. *)
Definition herase (w : world) (x : nat) (k : string) : option (world * nat) :=
  let it := hfind w x k in
  if itr_eqb it (IEnd x) then Some (w, 0)
  else match herase_it w x it with None => None | Some w' => Some (w', 1) end.

(** operator[], 161-176, as an iterator to the element. *)
Definition hindex (w : world) (x : nat) (k : string) : world * itr :=
  let it := hfind w x k in
  if itr_eqb it (IEnd x) then let '(w', (it', _)) := hinsert w x k dflt in (w', it') else (w, it).
Definition hindex_enum (w : world) (x : nat) (e : nat) : option (world * itr) :=
  let it := hfind_enum w x e in
  if itr_eqb it (IEnd x) then
    match find_value e with
    | None => None
    | Some (k, _) => let '(w', (it', _)) := hinsert w x k dflt in Some (w', it')
    end
  else Some (w, it).

(** Assignment through a reference to the element. *)
Definition hset (w : world) (x : nat) (it : itr) (v : V) : option world :=
  let h := w_obj w x in
  match mderef (h_m h) it with
  | None => None
  | Some n => Some (put x (HMap (map (fun a => if Nat.eqb (n_id a) (n_id n) then Node (n_key a) (n_id a) v else a) (h_m h))
                                (h_v h)) w)
  end.

(** at, 178-205. [Some None]: throws std::out_of_range. *)
Definition hat_it (w : world) (x : nat) (it : itr) : option (option V) :=
  if itr_eqb it (IEnd x) then Some None
  else match mderef (h_m (w_obj w x)) it with None => None | Some n => Some (Some (n_val n)) end.
Definition hat (w : world) (x : nat) (k : string) : option (option V) := hat_it w x (hfind w x k).
Definition hat_enum (w : world) (x : nat) (e : nat) : option (option V) := hat_it w x (hfind_enum w x e).

(** clear, 207. *)
Definition hclear (w : world) (x : nat) : world := put x hempty w.

(** copyIterators, 38-47. *)
Fixpoint copy_iterators (oldx newx : nat) (oldm newm : list node) (v : list itr) : option (list itr) :=
  match v with
  | [] => Some []
  | it :: r =>
    match copy_iterators oldx newx oldm newm r with
    | None => None
    | Some r' =>
      if itr_eqb it (IEnd oldx) then Some (IEnd newx :: r')
      else match mderef oldm it with
           | None => None
           | Some n => Some (mfind newx newm (n_key n) :: r')
           end
    end
  end.
(** Copies of all elements in new nodes. *)
Fixpoint copy_nodes (i : nat) (m : list node) : list node :=
  match m with [] => [] | n :: r => Node (n_key n) i (n_val n) :: copy_nodes (S i) r end.

(** Copy constructor 94 and copy assignment 95-99: *x = *y. Self assignment leaves
    m_ as it is. *)
Definition hcopy (w : world) (x y : nat) : option world :=
  let h := w_obj w y in
  let m := if Nat.eqb x y then h_m h else copy_nodes (w_next w) (h_m h) in
  match copy_iterators y x (h_m h) m (h_v h) with
  | None => None
  | Some v => Some (World (w_obj (put x (HMap m v) w)) (w_next w + List.length (h_m h)))
  end.

(** replaceIterator, 49-56; move constructor 83-86 and move assignment 87-93:
    *x = std::move( *y ). Moving an object into itself leaves it unspecified. *)
Definition replace_iterator (v : list itr) (old new : itr) : list itr :=
  map (fun it => if itr_eqb it old then new else it) v.
Definition hmove (w : world) (x y : nat) : option world :=
  if Nat.eqb x y then None else
  let h := w_obj w y in
  Some (put y hempty (put x (HMap (h_m h) (replace_iterator (h_v h) (IEnd y) (IEnd x))) w)).

(** operator==, 215: std::map compares the sequences of elements. *)
Fixpoint meqb (a b : list node) : bool :=
  match a, b with
  | [], [] => true
  | n :: a', m :: b' => String.eqb (n_key n) (n_key m) && veqb (n_val n) (n_val m) && meqb a' b'
  | _, _ => false
  end.
Definition heqb (w : world) (x y : nat) : bool := meqb (h_m (w_obj w x)) (h_m (w_obj w y)).

Definition hsize (w : world) (x : nat) : nat := List.length (h_m (w_obj w x)).
(** Iteration from begin() to end(). *)
Definition hlist (w : world) (x : nat) : list (string * V) := map (fun n => (n_key n, n_val n)) (h_m (w_obj w x)).
End Hybrid.
Arguments node : clear implicits. Arguments hmap : clear implicits. Arguments world : clear implicits.

(** AttributeNamesString::Map, Attribute.h:206-244 and enum AttributeName 187-196. *)
Definition attribute_table : list (string * nat) :=
  [("type", 0); ("subtype", 1); ("one_way", 2); ("participant:vehicle", 3); ("participant:pedestrian", 4);
   ("speed_limit", 5); ("location", 6); ("dynamic", 7)]%nat.
(** RoleNameString::Map, RegulatoryElement.h:66-85 and enum RoleName 55-62. *)
Definition role_table : list (string * nat) :=
  [("refers", 0); ("ref_line", 1); ("yield", 3); ("right_of_way", 2); ("cancels", 4); ("cancel_line", 5)]%nat.
