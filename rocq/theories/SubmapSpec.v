(** Vocabulary for submaps. *)
From Coq Require Import ZArith List Bool.
From Verif Require Import MapModel MapSpec SubmapModel.
Import ListNotations.
Open Scope Z_scope.

(** What is reached from some objects by following references *)
Inductive reaches (hp : heap) (ids : nat -> Z) (roots : nat -> Prop) : nat -> Prop :=
| reach_root a : roots a -> reaches hp ids roots a
| reach_step a k b : reaches hp ids roots a -> references hp ids (a, false) k b -> reaches hp ids roots b.

(** The roots of a submap: the elements of its layers *)
Definition has_element (sb : submap) (a : nat) : Prop := exists k i h, element (sb_map sb) k i h /\ fst h = a.

(** What a submap keeps alive: its elements, the tracked objects and what they hold *)
Inductive kept_alive (hp : heap) (sb : submap) : nat -> Prop :=
| alive_element a : has_element sb a -> kept_alive hp sb a
| alive_tracked a : In a (sb_kept sb) -> kept_alive hp sb a
| alive_held a o b : kept_alive hp sb a -> obj hp a = Some o -> In b (holds o) -> kept_alive hp sb b.

(** Nothing but lanelets and areas that the submap does not keep alive was destroyed. *)
Definition survives (hp : heap) (sb : submap) (live : nat -> bool) : Prop := forall a, kept_alive hp sb a -> live a = true.

(** The regulatory elements that belong to an element of a submap *)
Definition rule_in (hp : heap) (sb : submap) (r : nat) : Prop :=
  (exists i h, element (sb_map sb) KReg i h /\ fst h = r) \/
  (exists i h l rb c regs, element (sb_map sb) KLanelet i h /\ obj hp (fst h) = Some (OLanelet l rb c regs) /\ In r regs) \/
  (exists i h outer inner regs, element (sb_map sb) KArea i h /\ obj hp (fst h) = Some (OArea outer inner regs) /\ In r regs).
(** [a] is a lanelet or an area that exists and is a parameter of [r]. *)
Definition uses (hp : heap) (r a : nat) : Prop :=
  exists ps, obj hp r = Some (OReg ps) /\
    ((exists h, In (ParLanelet h) ps /\ fst h = a /\ has_kind hp KLanelet a) \/ (In (ParArea a) ps /\ has_kind hp KArea a)).

(** The elements of the layers have their kinds and different ids that the counter knows. *)
Definition sub_ok (hp : heap) (sb : submap) : Prop :=
  0 < m_next (sb_map sb) /\ (forall k, NoDup (used_ids (sb_map sb) k)) /\ forall k i h, element (sb_map sb) k i h ->
    has_kind hp k (fst h) /\ i = m_ids (sb_map sb) (fst h) /\ i <> 0 /\ i < m_next (sb_map sb).
(** So do the line strings and points of its lanelets and areas; this is what createMap asks for. *)
Definition parts_ok (hp : heap) (sb : submap) : Prop :=
  let s := sb_map sb in
  forall k i h ky b, element s k i h -> k = KLanelet \/ k = KArea -> references hp (m_ids s) h ky b -> ky = KLine ->
    (m_ids s b <> 0 /\ m_ids s b < m_next s) /\
    forall p, references hp (m_ids s) (b, false) KPoint p -> m_ids s p <> 0 /\ m_ids s p < m_next s.
