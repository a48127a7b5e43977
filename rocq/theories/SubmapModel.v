(** Model of LaneletSubmap: what it keeps alive and how it becomes a LaneletMap.

    Source: lanelet2_core/src/LaneletMap.cpp (LM), include/lanelet2_core/LaneletMap.h. The layers are those of MapModel.v. The const overload of
    laneletMap (LM:718-734) does the same with pointers that are made non-const again. *)
From Coq Require Import ZArith List Bool.
From Verif Require Import MapModel.
Import ListNotations.
Open Scope Z_scope.

(** [sb_kept] is regelemObjects_, LaneletMap.h:498-499: lanelets and areas, by address *)
Record submap := Submap { sb_map : mstate; sb_kept : list nat }.

(** trackParameters, LM:747-767: parameters that are lanelets or areas and not expired *)
Definition tracked (hp : heap) (p : param) : list nat :=
  match p with
  | ParLanelet h => if alive hp KLanelet (h_addr h) then [h_addr h] else []
  | ParArea a => if alive hp KArea a then [a] else []
  | _ => []
  end.
Definition track (hp : heap) (reg : nat) (kept : list nat) : list nat := kept ++ flat_map (tracked hp) (params_of hp reg).
(** The regulatory elements whose parameters LaneletSubmap::add tracks, LM:685-701: those of a lanelet or area, or the element itself *)
Definition rules_of (hp : heap) (k : kind) (a : nat) : list nat :=
  match k with
  | KLanelet | KArea => regs_of hp a
  | KReg => [a]
  | _ => []
  end.
(** LaneletSubmap::add, LM:685-716 *)
Definition sub_add (hp : heap) (k : kind) (h : handle) (sb : submap) : submap :=
  Submap (submap_add hp k h (sb_map sb)) (fold_left (fun l r => track hp r l) (rules_of hp k (h_addr h)) (sb_kept sb)).
Definition sub_adds (hp : heap) (l : list (kind * handle)) (sb : submap) : submap := fold_left (fun sb e => sub_add hp (fst e) (snd e) sb) l sb.
(** LaneletSubmap() = default *)
Definition empty_submap (ids : nat -> Z) (next : Z) : submap := Submap (empty_map ids next) [].

(** createSubmap(Lanelets, Areas), LM:912-923; [s] has the ids and the counter, its layers are not used. The constructor makes the
    layers of lanelets and of areas. *)
Definition fresh_map (s : mstate) : mstate := empty_map (m_ids s) (m_next s).
Definition create_submap (hp : heap) (lls : list handle) (ars : list nat) (s : mstate) : submap :=
  let s0 := fresh_map s in
  let s1 := make_layer hp KLanelet (to_map s0 lls) s0 in
  let s2 := make_layer hp KArea (to_map s0 (map (fun a => (a, false)) ars)) s1 in
  let regs := flat_map (fun h => regs_of hp (h_addr h)) lls ++ flat_map (regs_of hp) ars in
  Submap s2 (fold_left (fun l r => track hp r l) regs []).

(** Elements of a layer in the order of iteration; any order of the hash map would do. *)
Definition layer_handles (sb : submap) (k : kind) : list handle := map snd (l_elems (m_layer (sb_map sb) k)).
(** LaneletSubmap::laneletMap, LM:736-746: createMap of the lanelets and areas, then regulatory elements, polygons, line strings, points *)
Definition lanelet_map (hp : heap) (fuel : nat) (sb : submap) : option mstate :=
  match create_map hp fuel (layer_handles sb KLanelet) (map h_addr (layer_handles sb KArea)) (fresh_map (sb_map sb)) with
  | None => None
  | Some s =>
      add_all hp fuel
        (map (fun h => TReg (h_addr h)) (layer_handles sb KReg) ++ map (fun h => TPoly (h_addr h)) (layer_handles sb KPoly)
         ++ map TLine (layer_handles sb KLine) ++ map (fun h => TPoint (h_addr h)) (layer_handles sb KPoint)) s
  end.

(** * Lifetime *)

(** The objects to which an object holds shared pointers. Regulatory elements refer to lanelets and areas by weak pointers,
    RegulatoryElement.h:24. *)
Definition held_param (p : param) : list nat :=
  match p with
  | ParPoint a | ParPoly a => [a]
  | ParLine h => [h_addr h]
  | ParLanelet _ | ParArea _ => []
  end.
Definition holds (o : object) : list nat :=
  match o with
  | OPoint => []
  | OLine pts | OPoly pts => pts
  | OLanelet l r c regs => h_addr l :: h_addr r :: match c with Some x => [h_addr x] | None => [] end ++ regs
  | OArea outer inner regs => map h_addr (outer ++ concat inner) ++ regs
  | OReg ps => flat_map held_param ps
  end.
(** The heap after the lanelets and areas for which [live] is false were destroyed. The place of such an object is taken by one of
    another kind, to which no weak pointer can lead. *)
Fixpoint sweep (live : nat -> bool) (a : nat) (l : list object) : list object :=
  match l with
  | [] => []
  | o :: r =>
      (match o with OLanelet _ _ _ _ | OArea _ _ _ => if live a then o else OPoint | _ => o end) :: sweep live (S a) r
  end.
Definition collect (hp : heap) (live : nat -> bool) : heap := Heap (sweep live 0 (hp_objs hp)) (hp_boxless hp).
