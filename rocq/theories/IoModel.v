(** Model of loading and writing of maps by file name: the registries of parsers and writers, the
    functions load and write, and the handlers for OSM and binary files.

    Source: lanelet2_io/src/Io.cpp, lanelet2_io/src/Factory.cpp, lanelet2_io/include/lanelet2_io/io_handlers/{Factory,IoHandler,Parser,Writer}.h,
    lanelet2_io/src/OsmHandlerLoad.cpp:403-443, lanelet2_io/src/OsmHandlerWrite.cpp:273-311, lanelet2_io/src/BinHandler.cpp:21-44.

    The world is the file system, a map from names to contents, and the id counter of the process. The content of a file is a document
    (pugixml loads the document that it saved, see OsmModel), an archive (see ArchiveModel) or something else, also a directory. Files are
    written as a whole or not at all, if they can not be created; errors of the device later on are not modelled. Names are compared as they
    are given, the file system knows no links. An exception carries its class and, for ParseError and WriteError, the messages. *)
From Coq Require Import List Bool String Ascii ZArith.
From Verif Require Import AttrModel BoundaryModel OsmModel OsmMapModel.
From Verif Require ArchiveModel.
Import ListNotations.
Local Open Scope string_scope.
Local Open Scope list_scope.

(** * The extension of a path, Io.cpp:12 *)

(** The text from the last [c] on (std::string::rfind) *)
Fixpoint from_last (c : ascii) (s : string) : option string :=
  match s with
  | EmptyString => None
  | String a r => match from_last c r with Some t => Some t | None => if Ascii.eqb a c then Some s else None end
  end.
(** boost::filesystem::path::filename on POSIX: what follows the last slash *)
Definition filename (s : string) : string := match from_last "/" s with Some (String _ r) => r | _ => s end.
(** path::extension: from the last dot on; "." and ".." have none *)
Definition extension (s : string) : string :=
  let n := filename s in
  if String.eqb n "." || String.eqb n ".." then "" else match from_last "." n with Some t => t | None => "" end.

(** * Registries, Factory.cpp *)

Section Factory.
(** Creation functions *)
Context {F : Type}.
(** registry_ and extensionRegistry_, Factory.h:68-69 and 124-125 *)
Record registry := Registry { by_name : list (string * F); by_extension : list (string * F) }.
(** registerParser and registerWriter, Factory.cpp:70-76 and 128-134 *)
Definition register (r : registry) (x : string * string * F) : registry :=
  let '(strategy, ext, f) := x in
  Registry (sset strategy f (by_name r)) (if String.eqb ext "" then by_extension r else sset ext f (by_extension r)).
(** The registrations by static objects (RegisterParser, RegisterWriter, Factory.h:131-165), in the order in which they run *)
Definition registered (l : list (string * string * F)) : registry := fold_left register l (Registry [] []).
(** create and createFromExtension, Factory.cpp:23-45 and 81-103 *)
Definition create (r : registry) (name : string) : option F := sget name (by_name r).
Definition create_from_extension (r : registry) (ext : string) : option F := sget ext (by_extension r).
(** std::sort *)
Fixpoint sort_in (x : string) (l : list string) : list string :=
  match l with [] => [x] | y :: r => if String.ltb y x then y :: sort_in x r else x :: l end.
Definition sort (l : list string) : list string := fold_right sort_in [] l.
(** availableParsers, availableWriters and availableExtensions, Factory.cpp:47-63 and 105-121 *)
Definition available (r : registry) : list string := sort (map fst (by_name r)).
Definition available_extensions (r : registry) : list string := sort (map fst (by_extension r)).
End Factory.
Arguments registry F : clear implicits.

(** * load and write, Io.cpp *)

Definition errors := list string.
(** Exceptions.h. [OtherError]: anything that is not an IOError (archive exceptions, NullptrError, ...). *)
Inductive exn := FileNotFound | UnsupportedExtension | UnsupportedHandler | ParseError (e : errors) | WriteError (e : errors) | IOError | DefaultProjectionNotAllowed | OtherError.
(** [Undefined]: undefined behaviour; [Unknown]: the model ran out of fuel. *)
Inductive result (A : Type) := Ok (a : A) | Throws (e : exn) | Undefined | Unknown.
Arguments Ok {A} a. Arguments Throws {A} e. Arguments Undefined {A}. Arguments Unknown {A}.

Section Io.
(** Documents, archives; the map, projector and configuration *)
Context {X B M Pr Cfg : Type}.
Inductive content := Document (x : X) | Archive (b : B) | Other.
Record world := World { files : list (string * content); next_id : Z }.
Definition file_exists (w : world) (f : string) : bool := match sget f (files w) with Some _ => true | None => false end.
Definition save (w : world) (f : string) (c : content) : world := World (sset f c (files w)) (next_id w).

(** Parser::parse and Writer::write of a handler that was created for a projector and a configuration; the errors are passed by reference. *)
Definition parser := Pr -> Cfg -> world -> string -> errors -> result (M * errors) * world.
Definition writer := Pr -> Cfg -> world -> string -> M -> errors -> result errors * world.

(** handleErrorsOrThrow, Io.cpp:14-21. [target]: what the pointer points to, if it is not null. *)
Definition handle_errors (e : errors -> exn) (errs : errors) (target : option errors) : result (option errors) :=
  match target with
  | Some _ => Ok (Some errs)
  | None => match errs with [] => Ok None | _ => Throws (e errs) end
  end.
(** Io.cpp:34-38 and 51-54; the second component is what the pointer points to afterwards. *)
Definition load_with (p : parser) (w : world) (f : string) (pr : Pr) (target : option errors) (cfg : Cfg) : result M * option errors * world :=
  let '(r, w') := p pr cfg w f [] in
  match r with
  | Ok (m, errs) =>
    match handle_errors ParseError errs target with
    | Ok target' => (Ok m, target', w')
    | Throws e => (Throws e, target, w') | Undefined => (Undefined, target, w') | Unknown => (Unknown, target, w')
    end
  | Throws e => (Throws e, target, w')
  | Undefined => (Undefined, target, w')
  | Unknown => (Unknown, target, w')
  end.
(** load, Io.cpp:29-39 *)
Definition load (ps : registry parser) (w : world) (f : string) (pr : Pr) (target : option errors) (cfg : Cfg) : result M * option errors * world :=
  if negb (file_exists w f) then (Throws FileNotFound, target, w) else
  match create_from_extension ps (extension f) with
  | None => (Throws UnsupportedExtension, target, w)
  | Some p => load_with p w f pr target cfg
  end.
(** load, Io.cpp:46-55 *)
Definition load_by (ps : registry parser) (w : world) (f name : string) (pr : Pr) (target : option errors) (cfg : Cfg)
  : result M * option errors * world :=
  if negb (file_exists w f) then (Throws FileNotFound, target, w) else
  match create ps name with
  | None => (Throws UnsupportedHandler, target, w)
  | Some p => load_with p w f pr target cfg
  end.
(** Io.cpp:66-68 and 77-79 *)
Definition write_with (wr : writer) (w : world) (f : string) (m : M) (pr : Pr) (target : option errors) (cfg : Cfg) : result unit * option errors * world :=
  let '(r, w') := wr pr cfg w f m [] in
  match r with
  | Ok errs =>
    match handle_errors WriteError errs target with
    | Ok target' => (Ok tt, target', w')
    | Throws e => (Throws e, target, w') | Undefined => (Undefined, target, w') | Unknown => (Unknown, target, w')
    end
  | Throws e => (Throws e, target, w')
  | Undefined => (Undefined, target, w')
  | Unknown => (Unknown, target, w')
  end.
(** write, Io.cpp:65-69 *)
Definition write (ws : registry writer) (w : world) (f : string) (m : M) (pr : Pr) (target : option errors) (cfg : Cfg) : result unit * option errors * world :=
  match create_from_extension ws (extension f) with
  | None => (Throws UnsupportedExtension, target, w)
  | Some wr => write_with wr w f m pr target cfg
  end.
(** write, Io.cpp:75-80 *)
Definition write_by (ws : registry writer) (w : world) (f : string) (m : M) (name : string) (pr : Pr) (target : option errors) (cfg : Cfg)
  : result unit * option errors * world :=
  match create ws name with
  | None => (Throws UnsupportedHandler, target, w)
  | Some wr => write_with wr w f m pr target cfg
  end.
End Io.
Arguments content X B : clear implicits. Arguments world X B : clear implicits.
Arguments parser X B M Pr Cfg : clear implicits. Arguments writer X B M Pr Cfg : clear implicits.

(** registerId, LaneletMap.cpp:885-891, without overflow (see C02) *)
Definition register_id (id counter : Z) : Z := if (counter <? id + 1)%Z then (id + 1)%Z else counter.

(** * Files of type .osm *)

Section Osm.
Context {P D B : Type}.
(** As in OsmModel and OsmMapModel *)
Variable zero_d : D.
Variable is_zero : D -> bool.
Variable print_id : Z -> string.
Variable parse_id : string -> Z.
Variable fmt : bool -> D -> string.
Variable parse_d : string -> D.
Variable reloc : list nat -> nat -> list nat.
Variable origin : P.
Variable align : list P -> list P -> bool * bool.
Variable ring_valid : list P -> bool.
Variable make : string -> @mreg -> bool.
(** A projector: its functions and whether its origin is the default one *)
Record projector := Projector { forward : D * D * D -> option P; reverse : P -> option (D * D * D); is_default : bool }.
(** The entries josm_upload and josm_format_elevation of the configuration (see OsmModel) *)
Record config := Config { upload : bool; josm : bool }.
(** The decimal point of the C locale is a dot *)
Variable locale_ok : bool.
(** The text of messages *)
Variable show : error -> string.
Variable show_load : lerror -> string.
(** A file of this name can be created. *)
Variable creatable : string -> bool.

(** registerIds, OsmHandlerLoad.cpp:403-408: only the last key *)
Definition register_ids {V} (m : list (Z * V)) (counter : Z) : Z :=
  match rev m with [] => counter | e :: _ => register_id (fst e) counter end.
(** testAndPrintLocaleWarning, OsmHandlerLoad.cpp:410-419 and OsmHandlerWrite.cpp:287-296 *)
Definition test_locale (errs : errors) : errors := if locale_ok then errs else errs ++ ["Warning: decimal point of the C locale"].
(** buildErrorMessage, OsmHandlerLoad.cpp:47-57 *)
Definition build_message (intro : string) (errs : errors) : errors :=
  match errs with [] => [] | _ => intro :: map (fun e => "	- " ++ e)%string errs end.
(** osm::read with a pointer to errors, OsmFile.cpp:191-202: the errors are assigned. *)
Definition osm_read (doc : xml) (errs : errors) : option (@file D * errors) :=
  match read zero_d parse_id parse_d true reloc doc with None => None | Some (f, es) => Some (f, map show es) end.
(** fromOsmFile, OsmHandlerLoad.cpp:441-443, with projector(), IoHandler.h:34-39 and Parser.h:31-33, and the assignment of the errors in loadMap,
    OsmHandlerLoad.cpp:72 *)
Definition from_osm_file (pr : projector) (f : @file D) (errs : errors) : result (@mmap P * errors) :=
  if is_default pr then Throws IOError else
  match load_map (forward pr) origin align ring_valid make f with
  | Done (m, es) => Ok (m, map show_load es) | UB => Undefined | OutOfFuel => Unknown
  end.
(** OsmParser::parse, OsmHandlerLoad.cpp:422-439 *)
Definition osm_parse : parser xml B (@mmap P) projector config := fun pr cfg w name errs =>
  match sget name (files w) with
  | Some (Document doc) =>
    let read_errors := test_locale [] in
    match osm_read doc read_errors with
    | None => (Undefined, w)
    | Some (f, read_errors) =>
      match from_osm_file pr f errs with
      | Ok (m, errs) =>
        (Ok (m, build_message "Errors ocurred while parsing Lanelet Map:" (read_errors ++ errs)),
         World (files w) (register_ids (f_rels f) (register_ids (f_ways f) (register_ids (f_nodes f) (next_id w)))))
      | Throws e => (Throws e, w) | Undefined => (Undefined, w) | Unknown => (Unknown, w)
      end
    end
  | _ => (Throws (ParseError ["Errors occured while parsing osm file"]), w)
  end.

(** ToFileWriter::buildErrorMessage, OsmHandlerWrite.cpp:273-282: [errs] is cleared. *)
Definition build_write_message (es : list error) (errs : errors) : errors :=
  match es with [] => [] | _ => "Errors ocurred while writing Lanelet Map:" :: map (fun e => "	- " ++ show e)%string es end.
(** toOsmFile, OsmHandlerWrite.cpp:309-311 with writeMap, 55-66; a default projector is only reported on the console (Writer.h). *)
Definition to_osm_file (pr : projector) (m : @mmap P) (errs : errors) : option (@file D * errors) :=
  match write_map false (reverse pr) reloc m with None => None | Some (f, es) => Some (f, build_write_message es errs) end.
(** OsmWriter::write, OsmHandlerWrite.cpp:299-307 *)
Definition osm_write : writer xml B (@mmap P) projector config := fun pr cfg w name m errs =>
  let errs := test_locale errs in
  match to_osm_file pr m errs with
  | None => (Undefined, w)
  | Some (f, errs) =>
    match OsmModel.write is_zero print_id fmt (upload cfg) (josm cfg) f with
    | None => (Undefined, w)
    | Some doc =>
      if creatable name then (Ok errs, save w name (Document doc))
      else (Throws (ParseError ["Pugixml failed to write the map (unable to create file?)"]), w)
    end
  end.
End Osm.
Arguments projector P D : clear implicits.

(** * Files of type .bin *)

Section Bin.
Context {X Pr Cfg : Type}.
Variable rules : string -> option (list (string * string) -> list (string * list ArchiveModel.view) -> bool).
Variable creatable : string -> bool.
(** A map: the objects of the process and the layers (see ArchiveModel) *)
Record bmap := BMap { objects : list (option (ArchiveModel.obj (option nat))); layers : ArchiveModel.layers }.
(** The maps that are written: no object is incomplete, no pointer null. *)
Record bsource := BSource { heap : list (ArchiveModel.obj nat); source : ArchiveModel.layers }.
(** BinWriter::write, BinHandler.cpp:21-30: the file is created before. [Expired]: NullptrError; the id is not issued then, and the file is
    incomplete. *)
Definition bin_write : writer X (list ArchiveModel.token) bsource Pr Cfg := fun pr cfg w name m errs =>
  if creatable name then
    match ArchiveModel.write_file (heap m) (source m) (next_id w) with
    | ArchiveModel.Done (u, n) => (Ok errs, World (sset name (Archive u) (files w)) n)
    | ArchiveModel.Expired | ArchiveModel.Invalid => (Throws OtherError, save w name Other)
    | ArchiveModel.Undef => (Undefined, save w name Other)
    | ArchiveModel.NoFuel => (Unknown, w)
    end
  else (Throws (ParseError ["Failed open archive"]), w).
(** BinParser::parse, BinHandler.cpp:32-44 *)
Definition bin_parse : parser X (list ArchiveModel.token) bmap Pr Cfg := fun pr cfg w name errs =>
  match sget name (files w) with
  | Some (Archive u) =>
    match ArchiveModel.read_file rules u (next_id w) with
    | ArchiveModel.Done (os, l, n) => (Ok (BMap os l, errs), World (files w) n)
    | ArchiveModel.Expired | ArchiveModel.Invalid => (Throws OtherError, w)
    | ArchiveModel.Undef => (Undefined, w)
    | ArchiveModel.NoFuel => (Unknown, w)
    end
  | Some _ => (Throws OtherError, w)
  | None => (Throws (ParseError ["Failed open archive"]), w)
  end.
End Bin.
