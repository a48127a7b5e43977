(** What loading and writing of maps by file name shall do. Only the data types of the model are used. *)
From Coq Require Import List Bool String Ascii ZArith Sorted.
From Verif Require Import OsmModel OsmMapModel IoModel.
Import ListNotations.
Local Open Scope string_scope.
Local Open Scope list_scope.

(** * Names *)
Definition without (c : ascii) (s : string) : Prop := ~ In c (list_ascii_of_string s).
(** [e] is the extension of a path: a directory, or none, and a file name in it, with the dot and what follows the last one *)
Definition has_extension (path e : string) : Prop := exists dir name,
  path = (dir ++ name)%string /\ (dir = "" \/ exists d, dir = (d ++ "/")%string) /\ without "/" name /\
  ((e = "" /\ (without "." name \/ name = "." \/ name = "..")) \/
   (name <> "." /\ name <> ".." /\ exists stem r, name = (stem ++ e)%string /\ e = String "." r /\ without "." r)).

(** * Registrations *)
Section Reg.
Context {F : Type}.
Notation registrations := (list (string * string * F)).
(** The last one of those with a name or an extension counts. *)
Definition last_for (key : string * string * F -> string) (l : registrations) (k : string) (f : F) : Prop :=
  exists a x b, l = a ++ x :: b /\ key x = k /\ snd x = f /\ forall y, In y b -> key y <> k.
Definition name_of (x : string * string * F) : string := fst (fst x).
Definition ext_of (x : string * string * F) : string := snd (fst x).
(** A list of all of them, sorted *)
Definition sorted_list (P : string -> Prop) (l : list string) : Prop :=
  StronglySorted (fun a b => String.ltb a b = true) l /\ forall s, In s l <-> P s.
End Reg.

(** * Results *)
Section Res.
Context {X B : Type}.
(** Content of a file *)
Definition content_is (w : world X B) (f : string) (c : content X B) : Prop := In (f, c) (files w).
(** The files of a world are a map. *)
Definition world_ok (w : world X B) : Prop := StronglySorted (fun a b => String.ltb a b = true) (map fst (files w)).
(** Only this file differs *)
Definition only_file (f : string) (w w' : world X B) : Prop := forall g c, g <> f -> content_is w' g c <-> content_is w g c.

(** What the caller sees of a handler that returned [a] with messages [errs], or did not return: with a pointer the messages are stored there
    and nothing is thrown for them; without, any message is thrown. *)
Inductive reports {A V : Type} (e : errors -> exn) (v : A -> V) : result (A * errors) -> option errors -> result V -> option errors -> Prop :=
| stored a errs t : reports e v (Ok (a, errs)) (Some t) (Ok (v a)) (Some errs)
| silent a : reports e v (Ok (a, [])) None (Ok (v a)) None
| thrown a x errs : reports e v (Ok (a, x :: errs)) None (Throws (e (x :: errs))) None
| passed x t : reports e v (Throws x) t (Throws x) t
| undefined t : reports e v Undefined t Undefined t
| unknown t : reports e v Unknown t Unknown t.
(** The result of a writer: only messages *)
Definition no_value (r : result errors) : result (unit * errors) :=
  match r with Ok errs => Ok (tt, errs) | Throws e => Throws e | Undefined => Undefined | Unknown => Unknown end.
End Res.

(** All elements of a map and of a file *)
Section Ids.
Context {P D : Type}.
Definition map_id (m : @mmap P) (i : Z) : Prop :=
  In i (map fst (m_points m)) \/ In i (map fst (m_lines m)) \/ In i (map fst (m_polys m)) \/
  In i (map fst (m_lanelets m)) \/ In i (map fst (m_areas m)) \/ In i (map fst (m_regs m)).
(** The number of an element of a document: node, way or relation that is not deleted *)
Definition document_id (parse_id : string -> Z) (doc : xml) (i : Z) : Prop := exists o e t,
  (exists r, xall "osm" doc = o :: r) /\ In t ["node"; "way"; "relation"] /\ In e (xall t o) /\ attr "action" e <> Some "delete" /\
  match attr "id" e with Some v => parse_id v = i | None => i = 0%Z end.
End Ids.
