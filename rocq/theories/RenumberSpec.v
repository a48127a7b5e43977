(** What giving new ids to the elements of a map means. Only the data types of maps are used. *)
From Coq Require Import List Bool String ZArith Permutation.
From Verif Require Import OsmModel OsmMapModel.
Import ListNotations.
Local Open Scope list_scope.

(** The ids of a layer before and after: element by element *)
Definition pairs {X} (l l' : list (Z * X)) : list (Z * Z) := combine (map fst l) (map fst l').
(** Two layers have the same elements, up to ids *)
Definition layer_with {X} (same : X -> X -> Prop) (l l' : list (Z * X)) : Prop := Forall2 (fun e e' => same (snd e) (snd e')) l l'.

Section Ids.
Context {P : Type}.
Variables m m' : @mmap P.
(** The element that had the id [i] has the id [j] *)
Definition point_now (i j : Z) : Prop := In (i, j) (pairs (m_points m) (m_points m')).
Definition line_now (i j : Z) : Prop := In (i, j) (pairs (m_lines m) (m_lines m')).
Definition poly_now (i j : Z) : Prop := In (i, j) (pairs (m_polys m) (m_polys m')).
Definition lanelet_now (i j : Z) : Prop := In (i, j) (pairs (m_lanelets m) (m_lanelets m')).
Definition area_now (i j : Z) : Prop := In (i, j) (pairs (m_areas m) (m_areas m')).
Definition reg_now (i j : Z) : Prop := In (i, j) (pairs (m_regs m) (m_regs m')).

Definition bound_now (b b' : bound) : Prop := exists i j v, b = Bound i v /\ b' = Bound j v /\ line_now i j.
Definition center_now (b b' : option bound) : Prop :=
  match b, b' with None, None => True | Some b, Some b' => bound_now b b' | _, _ => False end.
Definition handle_now (h h' : Z * bool) : Prop := line_now (fst h) (fst h') /\ snd h = snd h'.
Definition param_now (p p' : param) : Prop :=
  match p, p' with
  | PPoint i, PPoint j => point_now i j
  | PLine i v, PLine j v' => line_now i j /\ v = v'
  | PPoly i, PPoly j => poly_now i j
  | PLanelet (Some i), PLanelet (Some j) => lanelet_now i j
  | PArea (Some i), PArea (Some j) => area_now i j
  | _, _ => False
  end.
(** The maps differ in nothing but ids: every reference leads to the same element. *)
Definition same_but_ids : Prop :=
  layer_with eq (m_points m) (m_points m') /\
  layer_with (fun x y => ml_attrs x = ml_attrs y /\ Forall2 point_now (ml_pts x) (ml_pts y) /\ ml_inv x = ml_inv y) (m_lines m) (m_lines m') /\
  layer_with (fun x y => mg_attrs x = mg_attrs y /\ Forall2 point_now (mg_pts x) (mg_pts y)) (m_polys m) (m_polys m') /\
  layer_with (fun x y => ll_attrs x = ll_attrs y /\ bound_now (ll_left x) (ll_left y) /\ bound_now (ll_right x) (ll_right y) /\
                         center_now (ll_center x) (ll_center y) /\ Forall2 reg_now (ll_regs x) (ll_regs y)) (m_lanelets m) (m_lanelets m') /\
  layer_with (fun x y => ar_attrs x = ar_attrs y /\ Forall2 handle_now (ar_outer x) (ar_outer y) /\ Forall2 (Forall2 handle_now) (ar_inner x) (ar_inner y) /\
                         Forall2 reg_now (ar_regs x) (ar_regs y)) (m_areas m) (m_areas m') /\
  layer_with (fun x y => re_attrs x = re_attrs y /\ Forall2 (fun a b => fst a = fst b /\ Forall2 param_now (snd a) (snd b)) (re_params x) (re_params y)) (m_regs m) (m_regs m').
(** The ids of all elements before and after *)
Definition all_pairs : list (Z * Z) :=
  pairs (m_points m) (m_points m') ++ pairs (m_lines m) (m_lines m') ++ pairs (m_polys m) (m_polys m') ++
  pairs (m_lanelets m) (m_lanelets m') ++ pairs (m_areas m) (m_areas m') ++ pairs (m_regs m) (m_regs m').
(** Those that had a negative id *)
Definition new_ids : list Z := map snd (filter (fun p => (fst p <? 0)%Z) all_pairs).
End Ids.

(** Every reference of the map leads to an element of a layer; no element has expired. *)
Section Closed.
Context {P : Type}.
Variable m : @mmap P.
Definition key_of {X} (l : list (Z * X)) (i : Z) : Prop := In i (map fst l).
Definition bound_closed (b : bound) : Prop := match b with Bound i _ => key_of (m_lines m) i | Dummy _ => False end.
Definition param_closed (p : param) : Prop :=
  match p with
  | PPoint i => key_of (m_points m) i | PLine i _ => key_of (m_lines m) i | PPoly i => key_of (m_polys m) i
  | PLanelet (Some i) => key_of (m_lanelets m) i | PArea (Some i) => key_of (m_areas m) i | PLanelet None | PArea None => False
  end.
Definition closed : Prop :=
  (forall k x, In (k, x) (m_lines m) -> Forall (key_of (m_points m)) (ml_pts x)) /\
  (forall k x, In (k, x) (m_polys m) -> Forall (key_of (m_points m)) (mg_pts x)) /\
  (forall k x, In (k, x) (m_lanelets m) -> bound_closed (ll_left x) /\ bound_closed (ll_right x) /\ (forall c, ll_center x = Some c -> bound_closed c) /\
     Forall (key_of (m_regs m)) (ll_regs x)) /\
  (forall k x, In (k, x) (m_areas m) -> Forall (fun h => key_of (m_lines m) (fst h)) (ar_outer x) /\
     Forall (Forall (fun h => key_of (m_lines m) (fst h))) (ar_inner x) /\ Forall (key_of (m_regs m)) (ar_regs x)) /\
  (forall k x, In (k, x) (m_regs m) -> forall role l, In (role, l) (re_params x) -> Forall param_closed l).
(** No layer has two elements with the same id. *)
Definition distinct : Prop :=
  NoDup (map fst (m_points m)) /\ NoDup (map fst (m_lines m)) /\ NoDup (map fst (m_polys m)) /\
  NoDup (map fst (m_lanelets m)) /\ NoDup (map fst (m_areas m)) /\ NoDup (map fst (m_regs m)).
(** The counter was told about all ids of the map. *)
Definition below (c : Z) : Prop := forall i,
  key_of (m_points m) i \/ key_of (m_lines m) i \/ key_of (m_polys m) i \/ key_of (m_lanelets m) i \/ key_of (m_areas m) i \/ key_of (m_regs m) i -> (i < c)%Z.
End Closed.

(** Consecutive numbers *)
Fixpoint numbers (c : Z) (n : nat) : list Z := match n with O => [] | S n => c :: numbers (c + 1) n end.
(** The parameters of regulatory elements with other ids: the same kinds in the same roles *)
Definition same_kind (p p' : param) : Prop :=
  match p, p' with
  | PPoint _, PPoint _ | PPoly _, PPoly _ => True
  | PLine _ v, PLine _ v' => v = v'
  | PLanelet a, PLanelet b | PArea a, PArea b => a = None <-> b = None
  | _, _ => False
  end.
(** A factory of regulatory elements does not look at ids. *)
Definition blind (create : string -> mreg -> bool) : Prop := forall st a p p',
  Forall2 (fun x y => fst x = fst y /\ Forall2 same_kind (snd x) (snd y)) p p' -> create st (MReg a p) = create st (MReg a p').
