(** Model of the UTM projector.

    Source: lanelet2_projection/src/UTM.cpp. GeographicLib is not modelled: its functions are
    parameters (Section variables), [None] is a thrown GeographicErr. Coordinates are of an
    abstract type with addition and subtraction (exact, no rounding). *)
From Coq Require Import ZArith Bool.
Record gpoint (D : Type) := G { lat : D; lon : D; ele : D }.
Record bpoint (D : Type) := B { px : D; py : D; pz : D }.
Arguments G {D}. Arguments lat {D}. Arguments lon {D}. Arguments ele {D}.
Arguments B {D}. Arguments px {D}. Arguments py {D}. Arguments pz {D}.

Section Utm.
Context {D : Type}.
Variable add sub : D -> D -> D.
Variable zero : D.
(** UTMUPS::Forward: zone, hemisphere, x, y. *)
Variable lib_forward : D -> D -> option (Z * bool * D * D).
(** UTMUPS::Reverse: latitude, longitude. *)
Variable lib_reverse : Z -> bool -> D -> D -> option (D * D).
(** UTMUPS::Transfer: x, y and zone of the point in another zone and hemisphere. *)
Variable lib_transfer : Z -> bool -> D -> D -> Z -> bool -> option (D * D * Z).

Record projector := Projector { u_zone : Z; u_north : bool; u_use_offset : bool; u_throw : bool; u_x : D; u_y : D }.
(** Constructor, UTM.cpp:8-18. [None]: the GeographicErr is not caught. *)
Definition construct (origin : gpoint D) (use_offset throw : bool) : option projector :=
  match lib_forward (lat origin) (lon origin) with
  | None => None
  | Some (z, n, x, y) => Some (Projector z n use_offset throw (if use_offset then x else zero) (if use_offset then y else zero))
  end.

(** Which exception: ForwardProjectionError or ReverseProjectionError. *)
Inductive result (A : Type) := Ok (a : A) | ForwardError | ReverseError.
Arguments Ok {A}. Arguments ForwardError {A}. Arguments ReverseError {A}.
Variable u : projector.
Definition same_zone (z : Z) (n : bool) : bool := Z.eqb z (u_zone u) && Bool.eqb n (u_north u).
(** UTM.cpp:52-57. *)
Definition offset (x y h : D) : bpoint D :=
  if u_use_offset u then B (sub x (u_x u)) (sub y (u_y u)) h else B x y h.
(** forward, UTM.cpp:20-60. *)
Definition forward (g : gpoint D) : result (bpoint D) :=
  match lib_forward (lat g) (lon g) with
  | None => ForwardError
  | Some (z, n, x, y) =>
    if same_zone z n then Ok (offset x y (ele g))
    else if u_throw u then ForwardError
    else match lib_transfer z n x y (u_zone u) (u_north u) with
         | None => ForwardError
         | Some (x', y', z') => if Z.eqb z' (u_zone u) then Ok (offset x' y' (ele g)) else ForwardError
         end
  end.
(** reverse, UTM.cpp:62-82. *)
Definition reverse (p : bpoint D) : result (gpoint D) :=
  match lib_reverse (u_zone u) (u_north u) (if u_use_offset u then add (px p) (u_x u) else px p)
                    (if u_use_offset u then add (py p) (u_y u) else py p) with
  | None => ReverseError
  | Some (a, o) =>
    let g := G a o (pz p) in
    if u_throw u then match forward g with Ok _ => Ok g | _ => ReverseError end else Ok g
  end.
End Utm.
Arguments Ok {A}. Arguments ForwardError {A}. Arguments ReverseError {A}.
