(** Model of the conversions of Python objects to C++ values and back, and of the choice among overloads.

    Source: lanelet2_python/include/lanelet2_python/internal/converter.h:53-137 and 149-210, and
    lanelet2_python/python_api/geometry.cpp:78-87 (distanceToLines) and core.cpp:692 and 1090-1114 (stop lines).

    Python objects are a parameter [O] with what the converters ask of them. The types that Boost.Python converts without
    these converters are a parameter [L]. Each type has one converter. Not modelled: iterables without an end, an iter()
    that raises something else than TypeError, and reference counts. *)
From Coq Require Import List Bool.
Import ListNotations.

Section Conv.
Context {O L V : Type}.
(** What iter() and then next() give: no iterator (None), or the items and whether they end without an exception. *)
Variable items : O -> option (list O * bool).
(** The items of an object whose class is exactly tuple. *)
Variable tuple_items : O -> option (list O).
Variable is_none : O -> bool.
(** Conversion of other types: the value, or None if Boost.Python has no conversion. *)
Variable leaf : L -> O -> option V.

(** A vector of, Optional of, pair of. *)
Inductive type := Leaf (l : L) | Vec (t : type) | Opt (t : type) | Pair (t u : type).
Inductive value := VLeaf (v : V) | VVec (vs : list value) | VOpt (v : option value) | VPair (v w : value).

(** The functions named convertible: converter.h:66-76, 121 and 194-202. *)
Definition convertible (t : type) (o : O) : bool :=
  match t with
  | Leaf l => match leaf l o with Some _ => true | None => false end
  | Vec _ => match items o with Some _ => true | None => false end
  | Opt _ => true
  | Pair _ _ => match tuple_items o with Some l => Nat.eqb (length l) 2 | None => false end
  end.

(** stl_input_iterator: extracts each item when it comes to it. *)
Fixpoint read_all (read : O -> option value) (l : list O) : option (list value) :=
  match l with
  | [] => Some []
  | o :: l' => match read o with
               | Some v => match read_all read l' with Some vs => Some (v :: vs) | None => None end
               | None => None
               end
  end.

(** The functions named construct, 85-106, 124-136 and 203-209. None: a Python exception. They call
    boost::python::extract for the parts, which asks convertible and then constructs. *)
Fixpoint construct (t : type) (o : O) : option value :=
  match t with
  | Leaf l => option_map VLeaf (leaf l o)
  | Vec t' =>
      match items o with
      | Some (l, ends) =>
          match read_all (fun x => if convertible t' x then construct t' x else None) l with
          | Some vs => if ends then Some (VVec vs) else None
          | None => None
          end
      | None => None
      end
  | Opt t' =>
      if is_none o then Some (VOpt None)
      else if convertible t' o then option_map (fun v => VOpt (Some v)) (construct t' o) else None
  | Pair t1 t2 =>
      match tuple_items o with
      | Some (a :: b :: _) =>
          match (if convertible t1 a then construct t1 a else None), (if convertible t2 b then construct t2 b else None) with
          | Some v, Some w => Some (VPair v w)
          | _, _ => None
          end
      | _ => None
      end
  end.
Definition extract (t : type) (o : O) : option value := if convertible t o then construct t o else None.

(** A call of an overloaded function. Boost.Python tries the overloads, the one defined last first, and takes the first
    whose parameters all find a converter; it then constructs the arguments. The result is the place of the overload and
    the values it is called with. *)
Definition arguments_convertible (ts : list type) (os : list O) : bool :=
  Nat.eqb (length ts) (length os) && forallb (fun p => convertible (fst p) (snd p)) (combine ts os).
Fixpoint construct_all (ts : list type) (os : list O) : option (list value) :=
  match ts, os with
  | [], [] => Some []
  | t :: ts', o :: os' =>
      match construct t o, construct_all ts' os' with Some v, Some vs => Some (v :: vs) | _, _ => None end
  | _, _ => None
  end.
(** The overloads, the one defined last at the head, with their names. *)
Fixpoint call {F : Type} (overloads : list (F * list type)) (os : list O) : option (F * list value) :=
  match overloads with
  | [] => None
  | (f, ts) :: rest =>
      if arguments_convertible ts os then option_map (pair f) (construct_all ts os) else call rest os
  end.

(** distancePointToLss, geometry.cpp:78-87, for the types of the line strings of the two branches. *)
Definition distance_to_lines {D : Type} (const_ls ls : L) (distance : value -> D) (o : O) : option D :=
  if convertible (Vec (Leaf const_ls)) o then option_map distance (extract (Vec (Leaf const_ls)) o)
  else option_map distance (extract (Vec (Leaf ls)) o).

(** To Python: VectorToList, OptionalToObject and PairToPythonConverter, 149-187. *)
Section ToPython.
Variable of_leaf : V -> O.
Variable new_list : list O -> O.
Variable new_tuple : list O -> O.
Variable none : O.
Fixpoint to_python (v : value) : O :=
  match v with
  | VLeaf x => of_leaf x
  | VVec vs => new_list (map to_python vs)
  | VOpt None => none
  | VOpt (Some w) => to_python w
  | VPair a b => new_tuple [to_python a; to_python b]
  end.
End ToPython.
End Conv.
Arguments type : clear implicits.
Arguments value : clear implicits.

(** The types in the constructors of LaneletWithStopLine and ConstLaneletWithStopLine, core.cpp:1090-1114. An Optional has a
    conversion from Python only if ToOptionalConverter is registered for it, which core.cpp:692 does for LineString3d and
    io.cpp:65 for Configuration; otherwise Boost.Python finds none in its registry. *)
Inductive cpp_type := TLanelet | TLineString3d | TConstLineString3d | TConfiguration | TUnregistered.
Definition optional_registered (c : cpp_type) : bool :=
  match c with TLineString3d | TConfiguration => true | _ => false end.
Definition optional_of (c : cpp_type) : type cpp_type := if optional_registered c then Opt (Leaf c) else Leaf TUnregistered.

Inductive stop_line_class := LaneletWithStopLine | ConstLaneletWithStopLine.
Definition stop_line_type (k : stop_line_class) : cpp_type :=
  match k with LaneletWithStopLine => TLineString3d | ConstLaneletWithStopLine => TConstLineString3d end.
(** The constructor; the argument for the stop line is None if it is left out, as the default, an empty Optional, is kept
    as a Python object. *)
Definition with_stop_line {O V : Type} items tuple_items is_none (leaf : cpp_type -> O -> option V) (none : O)
    (k : stop_line_class) (lanelet : O) (stop_line : option O) : option (stop_line_class * list (value V)) :=
  call items tuple_items is_none leaf [(k, [Leaf TLanelet; optional_of (stop_line_type k)])]
    [lanelet; match stop_line with Some o => o | None => none end].
