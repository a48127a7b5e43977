(** Model of the assembly of area rings when an OSM file is loaded.

    Source: lanelet2_io/src/OsmHandlerLoad.cpp:26-36 (isValid, reverse), 252-289
    (getLinestrings, getOuterRing, getInnerRing), 332-377 (assembleBoundary). *)
From Coq Require Import List Arith Bool String ZArith.
Import ListNotations.
Local Open Scope list_scope.

(** A LineString3d handle: id and points of its data, and the orientation of the handle.
    Points are represented by their ids (assembleBoundary looks at nothing else; isValid
    is a parameter). *)
Record ls := LS { l_id : Z; l_pts : list Z; l_inv : bool }.
Definition points (l : ls) : list Z := if l_inv l then rev (l_pts l) else l_pts l.
Definition invert (l : ls) : ls := LS (l_id l) (l_pts l) (negb (l_inv l)).
(** front() and back() of an empty line string are undefined. *)
Definition front (l : ls) : option Z := hd_error (points l).
Definition back (l : ls) : option Z := hd_error (rev (points l)).

(** reverse, 31-36. *)
Definition reverse (r : list ls) : list ls := rev (map invert r).

Inductive outcome (A : Type) := Done (a : A) | UB | OutOfFuel.
Arguments Done {A}. Arguments UB {A}. Arguments OutOfFuel {A}.
Inductive berror := EIncomplete (l : Z) | EInvalid.

Section Assemble.
(** isValid, 26-29: boost::geometry::is_valid of the polygon of all points in order. *)
Variable valid : list ls -> bool.

(** The first line string with [last] at one of its ends and the list without it.
    [None]: undefined (an empty line string is looked at). The vector of the C++ code is
    reversed and searched and shortened from its end; here it is in its original order. *)
Fixpoint find_next (last : Z) (l : list ls) : option (option (ls * list ls)) :=
  match l with
  | [] => Some None
  | e :: r =>
    match back e, front e with
    | Some b, Some f =>
      if Z.eqb b last || Z.eqb f last then Some (Some (e, r))
      else match find_next last r with
           | Some (Some (x, r')) => Some (Some (x, e :: r'))
           | o => o
           end
    | _, _ => None
    end
  end.

(** The rest of an iteration, 361-373: [cur] has just got a line string. [done] are the
    finished rings. *)
Definition close (done : list (list ls)) (cur : list ls) (errs : list berror)
  : option (list (list ls) * list ls * list berror) :=
  match cur, rev cur with
  | first :: _, last :: _ =>
    match back last, front first with
    | Some b, Some f =>
      if Z.eqb b f then
        if valid cur then Some (done ++ [cur], [], errs)
        else if valid (reverse cur) then Some (done ++ [reverse cur], [], errs)
        else Some (done, [], errs ++ [EInvalid])
      else Some (done, cur, errs)
    | _, _ => None
    end
  | _, _ => None
  end.

(** The loop, 336-374. *)
Fixpoint assemble_loop (fuel : nat) (todo : list ls) (done : list (list ls)) (cur : list ls) (errs : list berror)
  : outcome (list (list ls) * list berror) :=
  match todo with
  | [] => Done (done, errs)                   (* 375: the last ring is dropped *)
  | e :: r =>
    match fuel with
    | 0 => OutOfFuel
    | S fuel' =>
      match rev cur with
      | [] =>
        match close done [e] errs with
        | None => UB
        | Some (done', cur', errs') => assemble_loop fuel' r done' cur' errs'
        end
      | last :: _ =>
        match back last with
        | None => UB
        | Some lastId =>
          match find_next lastId todo with
          | None => UB
          | Some None => assemble_loop fuel' todo done [] (errs ++ [EIncomplete (l_id last)])
          | Some (Some (n, todo')) =>
            let n' := match back n with Some b => if Z.eqb b lastId then invert n else n | None => n end in
            match close done (cur ++ [n']) errs with
            | None => UB
            | Some (done', cur', errs') => assemble_loop fuel' todo' done' cur' errs'
            end
          end
        end
      end
    end
  end.
(** assembleBoundary, 332-377. Every iteration takes a line string or gives up a ring. *)
Definition assemble (l : list ls) : outcome (list (list ls) * list berror) := assemble_loop (2 * List.length l) l [] [] [].

(** getOuterRing, 272-284, after getLinestrings: the ring and whether the parser reports an
    error of its own. *)
Inductive oerror := ENoOuter | ENotOne | ERing (e : berror).
Definition outer_ring (l : list ls) : outcome (list ls * list oerror) :=
  match l with
  | [] => Done ([], [ENoOuter])
  | _ =>
    match assemble l with
    | Done ([r], errs) => Done (r, map ERing errs)
    | Done (_, errs) => Done ([], map ERing errs ++ [ENotOne])
    | UB => UB
    | OutOfFuel => OutOfFuel
    end
  end.
End Assemble.
