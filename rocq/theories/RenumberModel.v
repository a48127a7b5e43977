(** Model of the script that gives positive ids to the elements of a map.

    Source: lanelet2_python/scripts/make_ids_positive.py:8-36, lanelet2_python/python_api/core.cpp:304 and 1212 (the property id), 437-453 (layers),
    lanelet2_python/python_api/io.cpp:36-51, lanelet2_core/src/LaneletMap.cpp:552-555 and 883 (uniqueId).

    Elements are shared objects: setId changes the id that is seen through every handle, but not the key in the layer. In a map that was
    loaded, an object is named by its key. [ids] holds the ids that were set, by key; [seen] is the map as the writer sees it afterwards. Elements
    outside of the layers (dummies of the loader) keep their ids. Not modelled: the parsing of the arguments beyond the choice of the output, wrap-around of the
    counter (see C02). *)
From Coq Require Import List Bool String ZArith.
From Verif Require Import OsmModel OsmMapModel IoModel.
Import ListNotations.
Local Open Scope list_scope.

(** The id of the object with key [k]; setId is a new entry. *)
Definition ids := list (Z * Z).
Fixpoint id_of (s : ids) (k : Z) : Z :=
  match s with [] => k | (k', i) :: r => if Z.eqb k' k then i else id_of r k end.
(** make_positive, make_ids_positive.py:8-11: the layer is given by its keys in the order of iteration. uniqueId is the value of the counter before it
    is incremented. *)
Definition make_positive (layer : list Z) (counter : Z) : ids * Z :=
  fold_left (fun acc k => let '(s, c) := acc in if (id_of s k <? 0)%Z then ((k, c) :: s, (c + 1)%Z) else acc) layer ([], counter).

(** * The map after ids were set *)
Record changes := Changes { c_points : ids; c_lines : ids; c_polys : ids; c_lanelets : ids; c_areas : ids; c_regs : ids }.
Section Seen.
Context {P : Type}.
Variable s : changes.
Definition layer_seen {X} (t : ids) (f : X -> X) (l : list (Z * X)) : list (Z * X) := map (fun e => (id_of t (fst e), f (snd e))) l.
Definition line_seen (l : mline) : mline := MLine (ml_attrs l) (map (id_of (c_points s)) (ml_pts l)) (ml_inv l).
Definition poly_seen (g : mpoly) : mpoly := MPoly (mg_attrs g) (map (id_of (c_points s)) (mg_pts g)).
Definition bound_seen (b : bound) : bound := match b with Bound i v => Bound (id_of (c_lines s) i) v | Dummy i => Dummy i end.
Definition lanelet_seen (x : mlanelet) : mlanelet :=
  MLanelet (ll_attrs x) (bound_seen (ll_left x)) (bound_seen (ll_right x)) (option_map bound_seen (ll_center x)) (map (id_of (c_regs s)) (ll_regs x)).
Definition handle_seen (h : Z * bool) : Z * bool := (id_of (c_lines s) (fst h), snd h).
Definition area_seen (x : marea) : marea :=
  MArea (ar_attrs x) (map handle_seen (ar_outer x)) (map (map handle_seen) (ar_inner x)) (map (id_of (c_regs s)) (ar_regs x)).
Definition param_seen (p : param) : param :=
  match p with
  | PPoint i => PPoint (id_of (c_points s) i) | PLine i v => PLine (id_of (c_lines s) i) v | PPoly i => PPoly (id_of (c_polys s) i)
  | PLanelet o => PLanelet (option_map (id_of (c_lanelets s)) o) | PArea o => PArea (option_map (id_of (c_areas s)) o)
  end.
Definition reg_seen (x : mreg) : mreg := MReg (re_attrs x) (map (fun e => (fst e, map param_seen (snd e))) (re_params x)).
Definition seen (m : @mmap P) : @mmap P :=
  MMap (layer_seen (c_points s) (fun x => x) (m_points m)) (layer_seen (c_lines s) line_seen (m_lines m)) (layer_seen (c_polys s) poly_seen (m_polys m))
       (layer_seen (c_lanelets s) lanelet_seen (m_lanelets m)) (layer_seen (c_areas s) area_seen (m_areas m)) (layer_seen (c_regs s) reg_seen (m_regs m)).
End Seen.

(** make_ids_positive.py:29-34. [order] is the order in which an unordered_map is iterated. *)
Definition renumber {P} (order : list Z -> list Z) (m : @mmap P) (counter : Z) : @mmap P * Z :=
  let '(p, c) := make_positive (order (map fst (m_points m))) counter in
  let '(l, c) := make_positive (order (map fst (m_lines m))) c in
  let '(g, c) := make_positive (order (map fst (m_polys m))) c in
  let '(x, c) := make_positive (order (map fst (m_lanelets m))) c in
  let '(a, c) := make_positive (order (map fst (m_areas m))) c in
  let '(r, c) := make_positive (order (map fst (m_regs m))) c in
  (seen (Changes p l g x a r) m, c).

(** The script, 14-36: [output] is None with the option -i. A projector that is not the default one; load and write of the module throw errors (io.cpp:36-51:
    no target for messages). *)
Section Script.
Context {P X B Pr Cfg : Type}.
Variable order : list Z -> list Z.
Variable ps : registry (parser X B (@mmap P) Pr Cfg).
Variable ws : registry (writer X B (@mmap P) Pr Cfg).
Variable cfg : Cfg.                                        (* io::Configuration() *)
Definition script (w : world X B) (filename : string) (output : option string) (proj : Pr) : result unit * world X B :=
  let output := match output with None => filename | Some o => o end in
  match load ps w filename proj None cfg with
  | (Ok m, _, w) =>
    let '(m, c) := renumber order m (next_id w) in
    let '(r, _, w) := write ws (World (files w) c) output m proj None cfg in (r, w)
  | (Throws e, _, w) => (Throws e, w) | (Undefined, _, w) => (Undefined, w) | (Unknown, _, w) => (Unknown, w)
  end.
End Script.
