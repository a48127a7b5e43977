(** Model of attributes as Python sets and reads them.

    Source: lanelet2_python/python_api/core.cpp: AttributeToPythonStr and AttributeFromPythonStr (103-135), DictToAttributeMapConverter
    (137-160), MapItem::init (236-256), IsHybridMap (389-390). From Python and Boost.Python: strings are sequences of code points, kept in C++ as
    UTF-8; std::string is converted with its length; map_indexing_suite assigns with operator[] and reads with find.

    An attribute map is the list of its keys and values (C23 shows that HybridMap is a map). Not modelled: the reference that
    AttributeFromPythonStr never gives back. *)
From Coq Require Import List Bool ZArith.
Import ListNotations.
Local Open Scope Z_scope.

(** Code points of a Python string, which may be surrogates, and bytes *)
Definition text := list Z.
Definition bytes := list Z.

(** ** UTF-8, as PyUnicode_AsUTF8String and PyUnicode_FromStringAndSize do it in strict mode *)
Definition surrogate (c : Z) : bool := (55296 <=? c) && (c <=? 57343).
Definition encode_point (c : Z) : option bytes :=
  if c <? 128 then Some [c]
  else if c <? 2048 then Some [192 + c / 64; 128 + c mod 64]
  else if surrogate c then None
  else if c <? 65536 then Some [224 + c / 4096; 128 + (c / 64) mod 64; 128 + c mod 64]
  else Some [240 + c / 262144; 128 + (c / 4096) mod 64; 128 + (c / 64) mod 64; 128 + c mod 64].
Fixpoint encode (s : text) : option bytes :=
  match s with
  | [] => Some []
  | c :: r => match encode_point c, encode r with Some b, Some br => Some (b ++ br) | _, _ => None end
  end.

(** A continuation byte *)
Definition cont (b : Z) : bool := (128 <=? b) && (b <? 192).
Definition cons_to (c : Z) (r : option text) : option text := match r with Some s => Some (c :: s) | None => None end.
Fixpoint decode (b : bytes) : option text :=
  match b with
  | [] => Some []
  | a :: r =>
      if a <? 128 then cons_to a (decode r)
      else if a <? 192 then None
      else if a <? 224 then
        match r with
        | b1 :: r1 => let c := (a - 192) * 64 + (b1 - 128) in
                      if cont b1 && (128 <=? c) then cons_to c (decode r1) else None
        | _ => None
        end
      else if a <? 240 then
        match r with
        | b1 :: b2 :: r2 => let c := (a - 224) * 4096 + (b1 - 128) * 64 + (b2 - 128) in
                            if cont b1 && cont b2 && (2048 <=? c) && negb (surrogate c) then cons_to c (decode r2) else None
        | _ => None
        end
      else
        match r with
        | b1 :: b2 :: b3 :: r3 =>
            let c := (a - 240) * 262144 + (b1 - 128) * 4096 + (b2 - 128) * 64 + (b3 - 128) in
            if cont b1 && cont b2 && cont b3 && (65536 <=? c) && (c <? 1114112) then cons_to c (decode r3) else None
        | _ => None
        end
  end.

(** ** Attribute maps *)
Definition amap := list (bytes * bytes).
Definition bytes_eqb (a b : bytes) : bool := if list_eq_dec Z.eq_dec a b then true else false.
Fixpoint find (k : bytes) (m : amap) : option bytes :=
  match m with [] => None | (k', v) :: r => if bytes_eqb k k' then Some v else find k r end.
(** operator[] with an assignment, and insert, which leaves an existing element alone *)
Fixpoint assign (k v : bytes) (m : amap) : amap :=
  match m with [] => [(k, v)] | (k', v') :: r => if bytes_eqb k k' then (k', v) :: r else (k', v') :: assign k v r end.
Definition insert (k v : bytes) (m : amap) : amap := match find k m with Some _ => m | None => m ++ [(k, v)] end.

(** Python objects that are given as keys and values. *)
Inductive pyobj := Str (s : text) | NoStr.
(** Exceptions, and the null pointer that PyBytes_AsString follows. *)
Inductive error := TypeError | KeyError | UnicodeError | NullPointer.
Inductive result (T : Type) := Done (x : T) | Fails (e : error).
Arguments Done {T}. Arguments Fails {T}.
Definition bind {T U} (r : result T) (f : T -> result U) : result U := match r with Done x => f x | Fails e => Fails e end.

(** std::string from a Python string (Boost.Python): with its length *)
Definition to_string (o : pyobj) : result bytes :=
  match o with
  | NoStr => Fails TypeError
  | Str s => match encode s with Some b => Done b | None => Fails UnicodeError end
  end.
(** Attribute(const char* ): up to the first NUL *)
Fixpoint until_nul (b : bytes) : bytes :=
  match b with [] => [] | a :: r => if a =? 0 then [] else a :: until_nul r end.
(** AttributeFromPythonStr::construct, 120-134: PyUnicode_AsUTF8String returns null for a text that has no encoding, and
    PyBytes_AsString looks at the object before value is compared. *)
Definition to_attribute (s : text) : result bytes :=
  match encode s with Some b => Done (until_nul b) | None => Fails NullPointer end.

(** m[key] = value, set_item of map_indexing_suite; which of the two is converted first is unspecified, here it is the value. *)
Definition set_item (m : amap) (k v : pyobj) : result amap :=
  match v with
  | NoStr => Fails TypeError
  | Str s => bind (to_attribute s) (fun a => bind (to_string k) (fun kb => Done (assign kb a m)))
  end.
(** m[key]: KeyError, or AttributeToPythonStr, 103-105 *)
Definition get_item (m : amap) (k : pyobj) : result text :=
  bind (to_string k) (fun kb =>
  match find kb m with
  | None => Fails KeyError
  | Some v => match decode v with Some s => Done s | None => Fails UnicodeError end
  end).

(** DictToAttributeMapConverter::construct, 145-159, for a dictionary given as an argument or assigned to x.attributes *)
Fixpoint from_dict_loop (d : list (pyobj * pyobj)) (m : amap) : result amap :=
  match d with
  | [] => Done m
  | (k, v) :: r => bind (to_string k) (fun kb => bind (to_string v) (fun vb => from_dict_loop r (insert kb vb m)))
  end.
Definition from_dict (d : list (pyobj * pyobj)) : result amap := from_dict_loop d [].
(** MapItem<AttributeMap>::init, 236-256: AttributeMap(dict) *)
Fixpoint init_loop (d : list (pyobj * pyobj)) (m : amap) : result amap :=
  match d with
  | [] => Done m
  | (NoStr, _) :: _ => Fails KeyError
  | (Str k, v) :: r =>
      bind (to_string (Str k)) (fun kb =>
      match v with
      | NoStr => Fails KeyError
      | Str s => bind (to_attribute s) (fun a => init_loop r (assign kb a m))
      end)
  end.
Definition init (d : list (pyobj * pyobj)) : result amap := init_loop d [].
